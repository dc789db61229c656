(** The expectations of the project's own tests (/repo/test), evaluated on the
    model: everything but test/cmdline_test.cpp, which is in [Conformance]. *)

From Coq Require Import List Ascii String NArith ZArith Bool.
From Verif Require Import Base Errors Values OptDesc Positional Cmdline Parsers
  ConfigFile VarMap Winmain SplitUnix Format Convert Wide Streams Samples Conformance.
Import ListNotations.

Set Implicit Arguments.

(** ** Helpers *)

(** A newline, a tab, a carriage return and a double quote, in place of [~], [^], [%] and
    [`] in literals. *)
Definition esc (s : string) : str :=
  List.map (fun c => if char_eqb c "~" then c_nl else if char_eqb c "^" then c_tab
                     else if char_eqb c "%" then c_cr else if char_eqb c "`" then c_dq
                     else c) (lit s).

(** [command_line_parser(args).options(desc).run()] *)
Definition parse (ds : list option_description) (args : list string) : outcome parsed_options :=
  parser_run fuel (mk_cl default_style false ds None None None) (lits args).
Definition parse_any (ds : list option_description) (args : list string) : outcome parsed_options :=
  parser_run fuel (mk_cl default_style true ds None None None) (lits args).
Definition result (x : outcome parsed_options) : outcome (list (str * list str)) :=
  omap (fun p => map kv (pr_options p)) x.

(** [store(p, vm)]; [notify(vm)] *)
Definition stored (x : outcome parsed_options) (vm : variables_map) : outcome variables_map :=
  let* p := x in
  match store p vm false with (vm', Ok _) => Ok vm' | (_, Throw e) => Throw e
  | (_, Undef u) => Undef u | (_, NoFuel) => NoFuel end.
Definition content (vm : variables_map) : list (str * any * bool) :=
  map (fun kv => (fst kv, vv_value (snd kv), vv_defaulted (snd kv))) (vm_map vm).
Definition notified (vm : variables_map) : list event * bool :=
  let (ev, r) := notify vm in (ev, match r with Ok _ => true | _ => false end).
Definition cn (k : string) (v : value) : str * any * bool := (lit k, Some v, false).
Definition cd (k : string) (v : value) : str * any * bool := (lit k, Some v, true).
Definition vs (s : string) : value := VString (lit s).
Definition vi (z : Z) : value := VLex 0 z.
Definition vss (l : list string) : value := VVec TString (List.map vs l).
Definition vis (l : list Z) : value := VVec (TLex 0) (List.map vi l).

(** ** test/parsers_test.cpp *)

(** 100-141 *)
Definition many := desc_of
  [ ("foo,f", untyped_value, ""); ("bar,b", t_string, ""); ("car,voiture", untyped_value, "");
    ("dog,dawg", untyped_value, ""); ("baz", untyped_value, ""); ("plug*", untyped_value, "")
  ]%string.
Definition many_args := [ "--foo=12"; "-f4"; "--bar=11"; "-b4"; "--voiture=15"; "--dawg=16";
  "--dog=17"; "--plug3=10" ]%string.
Example many_different_options_1 :
  result (parse many many_args)
  = Ok (kvs [("foo", ["12"]); ("foo", ["4"]); ("bar", ["11"]); ("bar", ["4"]); ("car", ["15"]);
             ("dog", ["16"]); ("dog", ["17"]); ("plug3", ["10"])]%string).
Proof. vm_compute. reflexivity. Qed.
Definition no_additional (_ : str) : str * str := ([], []).
Example many_different_options_2 :
  result (parse_command_line fuel (tl (lits many_args)) many 0 (Some no_additional))
  = Ok (kvs [("foo", ["4"]); ("bar", ["11"]); ("bar", ["4"]); ("car", ["15"]);
             ("dog", ["16"]); ("dog", ["17"]); ("plug3", ["10"])]%string).
Proof. vm_compute. reflexivity. Qed.

(** 143-152 *)
Example empty_string_value :
  omap content (stored (parse_command_line fuel (lits ["--open"; ""]%string)
                  (desc_of [("open", t_string, "")]%string) 0 None) vm_new)
  = Ok [cn "open" (vs "")].
Proof. vm_compute. reflexivity. Qed.

(** 154-172 *)
Example multitoken_1 :
  result (parse_command_line fuel (lits ["-p7"; "-o"; "1"; "2"; "3"; "-x8"]%string)
            (desc_of [(",p", t_string, ""); (",o", sem (tv_multi (t_value TString)), "");
                      (",x", t_string, "")]%string) 0 (Some no_additional))
  = Ok (kvs [("-p", ["7"]); ("-o", ["1"; "2"; "3"]); ("-x", ["8"])]%string).
Proof. vm_compute. reflexivity. Qed.

(** 174-212 *)
Definition multiname := desc_of
  [ ("bar,b", t_string, ""); ("foo,fee,f", sem (tv_multi (t_value TString)), "");
    ("fizbaz,baz,z", t_string, "") ]%string.
Definition multiname_result := kvs
  [("foo", ["one"]); ("bar", ["two"]); ("foo", ["three"; "four"]); ("fizbaz", ["five"]);
   ("foo", ["six"])]%string.
Example multitoken_and_multiname :
  (result (parse_command_line fuel
     (lits ["-fone"; "-b"; "two"; "--foo"; "three"; "four"; "-zfive"; "--fee"; "six"]%string)
     multiname 0 (Some no_additional)),
   result (parse_command_line fuel
     (lits ["-fone"; "-b"; "two"; "--fee"; "three"; "four"; "-zfive"; "--foo"; "six"]%string)
     multiname 0 (Some no_additional)))
  = (Ok multiname_result, Ok multiname_result).
Proof. vm_compute. reflexivity. Qed.

(** 215-234 *)
Example multitoken_vector :
  omap (map kv)
    (let* p := positional_add positional_empty $"file" 1 in
     run fuel (mk_cl default_style false
       (desc_of [("multitoken,multi-token,m", sem (tv_multi t_strings), "values");
                 ("file", t_string, "the file to process")]%string) (Some p) None None)
       (lits ["-m"; "token1"; "token2"; "--"; "some_file"]%string))
  = Ok (kvs [("multitoken", ["token1"; "token2"]); ("file", ["some_file"])]%string).
Proof. vm_compute. reflexivity. Qed.

(** 251-299 *)
Definition config_desc := desc_of
  [ ("gv1", untyped_value, ""); ("gv2", untyped_value, ""); ("empty_value", untyped_value, "");
    ("plug*", untyped_value, ""); ("m1.v1", untyped_value, ""); ("m1.v2", untyped_value, "");
    ("m1.v3,alias3", untyped_value, ""); ("b", sem (bool_switch None), "") ]%string.
Definition config_result := kvs
  [("gv1", ["0"]); ("empty_value", [""]); ("plug3", ["7"]); ("b", ["true"]); ("m1.v1", ["1"]);
   ("m1.v2", ["2"]); ("m1.v3", ["3"])]%string.
Example config_1 :
  result (parse_config_file
    (esc " gv1 = 0#asd~empty_value = ~plug3 = 7~b = true~[m1]~v1 = 1~~v2 = 2~v3 = 3~")
    config_desc false) = Ok config_result.
Proof. vm_compute. reflexivity. Qed.
Example config_2 :
  result (parse_config_file_named $"config_test.cfg"
    (Some (mk_file (esc "gv1 = 0#asd~empty_value = ~plug3 = 7~b = true~~[m1]~v1 = 1~v2 = 2~v3 = 3") false))
    config_desc false) = Ok config_result.
Proof. vm_compute. reflexivity. Qed.

(** 306-329 *)
Example environment_1 :
  result (parse_environment_prefix (lits ["PATH=/bin"; "PO_TEST_FOO=1"; "HOME=/root"]%string)
    (desc_of [("foo", untyped_value, ""); ("bar", untyped_value, "")]%string) $"PO_TEST_")
  = Ok (kvs [("foo", ["1"])]%string).
Proof. vm_compute. reflexivity. Qed.

(** 331-379 *)
Example unregistered_3 :
  let p := parse_any [] ["--foo=12"; "--bar"; "1"]%string in
  (omap (fun p => map kvu (pr_options p)) p,
   omap (fun p => collect_unrecognized (pr_options p) include_positional) p,
   omap content (stored p vm_new))
  = (Ok (kvus [("foo", ["12"], true); ("bar", [], true); ("", ["1"], false)]%string),
     Ok (lits ["--foo=12"; "--bar"; "1"]%string),
     Ok []).
Proof. vm_compute. reflexivity. Qed.
Example unregistered_4 :
  result (parse_config_file (esc "gv1 = 0~[m1]~v1 = 1~") [] true)
  = Ok (kvs [("gv1", ["0"]); ("m1.v1", ["1"])]%string).
Proof. vm_compute. reflexivity. Qed.

(** ** test/options_description_test.cpp *)

Definition found (x : outcome option_description) : outcome (str * list str) :=
  omap (fun d => (od_long_name d, od_longs d)) x.
Definition flags (l : list string) : list option_description :=
  desc_of (List.map (fun n => (n, untyped_value, ""%string)) l).

(** 41-72; [long_ignore_case] and [short_ignore_case] default to false
    (options_description.hpp 246-254) *)
Definition approx_desc := flags ["foo"; "fee"; "baz"; "all-chroots"; "all-sessions"; "all"]%string.
Example approximation_1 :
  map (fun n => omap fst (found (find approx_desc (lit n) true false false)))
    ["fo"; "all"; "all-ch"]%string
  = map (fun n => Ok (lit n)) ["foo"; "all"; "all-chroots"]%string.
Proof. vm_compute. reflexivity. Qed.
Example approximation_2 :
  map (fun n => omap fst (found
         (find (desc_of [("help", flag, ""); ("config", t_string, ""); ("config-value", t_string, "")]%string)
            (lit n) true false false)))
    ["config"; "config-value"]%string
  = map (fun n => Ok (lit n)) ["config"; "config-value"]%string.
Proof. vm_compute. reflexivity. Qed.

(** 74-103 (not run by the project, and one of its expectations is a mistake of the test:
    it wants [fizbaz], which no option is called) *)
Definition multi_desc := flags ["foo"; "fee"; "fe,baz"; "chroots,all-chroots";
  "sessions,all-sessions"; "everything,all"; "qux,fo"]%string.
Example approximation_3 :
  map (fun n => omap fst (found (find multi_desc (lit n) true false false)))
    ["fo"; "all"; "all-ch"]%string
  = map (fun n => Ok (lit n)) ["qux"; "everything"; "chroots"]%string.
Proof. vm_compute. reflexivity. Qed.

(** 105-129 *)
Definition names_desc := flags ["foo"; "fe,baz"; "chroots,all-chroots"; "sessions,all-sessions";
  "everything,all"; "qux,fo,q"]%string.
Example long_names_1 :
  map (fun n => omap snd (found (find names_desc (lit n) false false false)))
    ["foo"; "fe"; "baz"; "qux"]%string
  = map (fun l => Ok (lits l)) [["foo"]; ["fe"; "baz"]; ["fe"; "baz"]; ["qux"; "fo"]]%string.
Proof. vm_compute. reflexivity. Qed.

(** [stringstream ss; ss << desc]; the default line length is 80 and the default minimal
    description length half of it (options_description.cpp 225). *)
Definition printed (caption : string) (len min : Z) (l : list (string * value_semantic * string))
    : outcome str :=
  let* ds0 := new_options (lit caption) len min in
  let* os := mapM (fun x => new_option (lit (fst (fst x))) (snd (fst x)) (esc (snd x))) l in
  print false (fold_left ods_add os ds0) 0.

(** 132-180 *)
Example formatting_1 :
  printed "" 80 40
    [ ("test", untyped_value, "foo foo foo foo foo foo foo foo foo foo foo foo foo foofoo foo foo foo foo foo foo foo foo foo foo foo foo foofoo foo foo foo foo foo foo foo foo foo foo foo foo foofoo foo foo foo foo foo foo foo foo foo foo foo foo foo");
      ("list", untyped_value, "a list:~      ^item1, item2, item3, item4, item5, item6, item7, item8, item9, item10, item11, item12, item13, item14, item15, item16, item17, item18");
      ("well_formated", untyped_value, "As you can see this is a very well formatted option description.~You can do this for example:~~Values:~  Value1: ^does this and that, bla bla bla bla bla bla bla bla bla bla bla bla bla bla bla~  Value2: ^does something else, bla bla bla bla bla bla bla bla bla bla bla bla bla bla bla~~    This paragraph has a first line indent only, bla bla bla bla bla bla bla bla bla bla bla bla bla bla bla") ]%string
  = Ok (esc "  --test arg            foo foo foo foo foo foo foo foo foo foo foo foo foo ~                        foofoo foo foo foo foo foo foo foo foo foo foo foo foo ~                        foofoo foo foo foo foo foo foo foo foo foo foo foo foo ~                        foofoo foo foo foo foo foo foo foo foo foo foo foo foo ~                        foo~  --list arg            a list:~                              item1, item2, item3, item4, item5, item6, item7, ~                              item8, item9, item10, item11, item12, item13, ~                              item14, item15, item16, item17, item18~  --well_formated arg   As you can see this is a very well formatted option ~                        description.~                        You can do this for example:~                        ~                        Values:~                          Value1: does this and that, bla bla bla bla bla bla ~                                  bla bla bla bla bla bla bla bla bla~                          Value2: does something else, bla bla bla bla bla bla ~                                  bla bla bla bla bla bla bla bla bla~                        ~                            This paragraph has a first line indent only, bla ~                        bla bla bla bla bla bla bla bla bla bla bla bla bla bla~").
Proof. vm_compute. reflexivity. Qed.

(** 182-194 *)
Example formatting_2 :
  printed "" 80 40
    [ ("foo,bar", untyped_value, "a multiple-name option") ]%string
  = Ok (esc "  --foo arg             a multiple-name option~").
Proof. vm_compute. reflexivity. Qed.

(** 197-224 *)
Example formatting_3 :
  printed "" 80 40
    [ ("an-option-that-sets-the-max", untyped_value, "this description sits on the same line, but wrapping should still work correctly");
      ("a-long-option-that-would-leave-very-little-space-for-description", untyped_value, "the description of the long opt, but placed on the next line~    ^also ensure that the tabulation works correctly when a description size has been set") ]%string
  = Ok (esc "  --an-option-that-sets-the-max arg     this description sits on the same line,~                                        but wrapping should still work ~                                        correctly~  --a-long-option-that-would-leave-very-little-space-for-description arg~                                        the description of the long opt, but ~                                        placed on the next line~                                            also ensure that the tabulation ~                                            works correctly when a description ~                                            size has been set~").
Proof. vm_compute. reflexivity. Qed.

(** 225-243 *)
Example formatting_4 :
  printed "" 80 70
    [ ("an-option-that-encroaches-description", untyped_value, "this description should always be placed on the next line, and wrapping should continue as normal") ]%string
  = Ok (esc "  --an-option-that-encroaches-description arg~          this description should always be placed on the next line, and ~          wrapping should continue as normal~").
Proof. vm_compute. reflexivity. Qed.

(** 246-263 *)
Example formatting_5 :
  printed "" 80 40
    [ ("cfgfile,c", sem (tv_def (vs "/usr/local/etc/myprogramXXXXXXXXX/configuration.conf") $"/usr/local/etc/myprogramXXXXXXXXX/configuration.conf" (t_value TString)), "the configfile") ]%string
  = Ok (esc "  -c [ --cfgfile ] arg (=/usr/local/etc/myprogramXXXXXXXXX/configuration.conf)~                                        the configfile~").
Proof. vm_compute. reflexivity. Qed.

(** 265-293 *)
Example formatting_6 :
  printed "Supported options" 80 40
    [ ("help", flag, "this is a sufficiently long text to require word-wrapping");
      ("prefix", sem (tv_def (vs "/h/proj/tmp/dispatch") $"/h/proj/tmp/dispatch" (t_value TString)), "root path of the dispatch installation");
      ("opt1", flag, "this_is_a_sufficiently_long_text_to_require_word-wrapping_but_cannot_be_wrapped");
      ("opt2", flag, "this_is_a_sufficiently long_text_to_require_word-wrapping");
      ("opt3", flag, "this_is_a sufficiently_long_text_to_require_word-wrapping_but_will_not_be_wrapped") ]%string
  = Ok (esc "Supported options:~  --help                               this is a sufficiently long text to ~                                       require word-wrapping~  --prefix arg (=/h/proj/tmp/dispatch) root path of the dispatch installation~  --opt1                               this_is_a_sufficiently_long_text_to_requ~                                       ire_word-wrapping_but_cannot_be_wrapped~  --opt2                               this_is_a_sufficiently ~                                       long_text_to_require_word-wrapping~  --opt3                               this_is_a sufficiently_long_text_to_requ~                                       ire_word-wrapping_but_will_not_be_wrappe~                                       d~").
Proof. vm_compute. reflexivity. Qed.

(** 295-307 *)
Example formatting_7 :
  printed "Supported options" 80 40
    [ ("maxlength", sem (tv_def (VLex 1 0) $"0.1" (t_value (TLex 1))), "Maximum edge length to keep.") ]%string
  = Ok (esc "Supported options:~  --maxlength arg (=0.1) Maximum edge length to keep.~").
Proof. vm_compute. reflexivity. Qed.

(** 309-322 *)
Example formatting_8 :
  printed "Supported options" 80 40
    [ ("include", sem (tv_vname $"directory" (t_value TString)), "Search for headers in 'directory'.") ]%string
  = Ok (esc "Supported options:~  --include directory   Search for headers in 'directory'.~").
Proof. vm_compute. reflexivity. Qed.

(** ** test/positional_options_test.cpp *)

(** 20-44 *)
Definition pos1 := positional_add positional_empty $"first" 1.
Definition pos2 := let* p := pos1 in positional_add p $"second" 2.
Definition pos3 := let* p := pos2 in positional_add p $"third" (-1).
Definition pos_info (p : outcome positional) (positions : list Z) : outcome (Z * list str) :=
  let* p := p in
  let* names := mapM (name_for_position p) positions in
  Ok (max_total_count p, names).
Example positional_options_1 :
  (pos_info pos1 [0%Z], pos_info pos2 [0; 1; 2]%Z, pos_info pos3 [0; 1; 2; 3; 10000]%Z)
  = (Ok (1%Z, lits ["first"]%string), Ok (3%Z, lits ["first"; "second"; "second"]%string),
     Ok (4294967295%Z, lits ["first"; "second"; "second"; "third"; "third"]%string)).
Proof. vm_compute. reflexivity. Qed.

(** 46-83 *)
Definition pos_run (args : list string) : outcome (list popt) :=
  let* p := positional_add positional_empty $"input-file" 2 in
  let* p := positional_add p $"some-other" 1 in
  run fuel (mk_cl default_style false
    (desc_of [("first", t_int, ""); ("second", t_int, ""); ("input-file", sem t_strings, "");
              ("some-other", t_string, "")]%string) (Some p) None None) (lits args).
Example positional_options_2 :
  omap (map kv) (pos_run ["--first=10"; "file1"; "--second=10"; "file2"; "file3"]%string)
  = Ok (kvs [("first", ["10"]); ("input-file", ["file1"]); ("second", ["10"]);
             ("input-file", ["file2"]); ("some-other", ["file3"])]%string).
Proof. vm_compute. reflexivity. Qed.
Example positional_options_3 :
  class_of (pos_run ["--first=10"; "file1"; "--second=10"; "file2"; "file3"; "file4"]%string)
  = Some too_many_positional_options_error.
Proof. vm_compute. reflexivity. Qed.

(** ** test/split_test.cpp *)

Definition split_desc := desc_of
  [("input,i", t_string, "the input file"); ("optimization,O", t_int, "optimization level");
   ("opt,o", t_string, "misc option")]%string.
Definition split_ok (toks : outcome (list str)) (a b c : string) : Prop :=
  toks = Ok (List.map esc ["prg"; "--input"; a; "--optimization"; b; "--opt"; c]%string) /\
  omap content
    (let* ts := toks in
     stored (parser_run fuel (mk_cl default_style false split_desc None None None) ts) vm_new)
  = Ok [cn "input" (VString (esc a)); cn "opt" (VString (esc c)); cn "optimization" (vi 4)].

(** 29-51 *)
Example split_1 :
  split_ok (split_unix_gen (esc "prg --input input.txt % --optimization 4  ^  --opt ~  option")
              (esc " ^~%") default_quote default_esc)
    "input.txt" "4" "option".
Proof. vm_compute. split; reflexivity. Qed.
(** 53-73 *)
Example split_2 :
  split_ok (split_unix_gen (esc "prg --input=input.txt  --optimization=4 --opt=option")
              $"= " default_quote default_esc)
    "input.txt" "4" "option".
Proof. vm_compute. split; reflexivity. Qed.
(** 75-95 *)
Example split_3 :
  split_ok (split_unix_gen (esc "prg;--input input.txt;--optimization 4;--opt option")
              $"; " default_quote default_esc)
    "input.txt" "4" "option".
Proof. vm_compute. split; reflexivity. Qed.
(** 97-116 *)
Example split_4 :
  split_ok (split_unix_gen (esc "prg --input `input.txt input.txt` --optimization 4 --opt `option1 option2`")
              $" " default_quote default_esc)
    "input.txt input.txt" "4" "option1 option2".
Proof. vm_compute. split; reflexivity. Qed.
(** 118-137 *)
Example split_5 :
  split_ok (split_unix_gen (esc "prg --input \`input.txt\` --optimization 4 --opt \`option1\ option2\`")
              $" " default_quote default_esc)
    "`input.txt`" "4" "`option1 option2`".
Proof. vm_compute. split; reflexivity. Qed.
(** 140-159 *)
Example split_6 :
  split_ok (split_unix_gen (esc "prg --input 'input.txt input.txt' --optimization 4 --opt 'option1 option2'")
              $" " $"'" default_esc)
    "input.txt input.txt" "4" "option1 option2".
Proof. vm_compute. split; reflexivity. Qed.
(** 161-180 *)
Example split_7 :
  split_ok (split_unix_gen (esc "prg --input ^ 'input file.txt' ^   --optimization 4 --opt \`option1\ option2\`")
              default_sep default_quote default_esc)
    "input file.txt" "4" "`option1 option2`".
Proof. vm_compute. split; reflexivity. Qed.

(** ** test/unrecognized_test.cpp *)

(** 31-51 *)
Example unrecognized_1 :
  (let* toks := split_unix $"prg --input input.txt --optimization 4 --opt option" in
   let* os := run fuel (mk_cl default_style true [] None None None) toks in
   Ok (collect_unrecognized os include_positional))
  = Ok (lits ["prg"; "--input"; "input.txt"; "--optimization"; "4"; "--opt"; "option"]%string).
Proof. vm_compute. reflexivity. Qed.

(** 55-77 *)
Example unrecognized_2 :
  (let* p := parse_config_file (esc " input = input.txt~ optimization = 4~ opt = option~") [] true in
   Ok (collect_unrecognized (pr_options p) include_positional))
  = Ok (lits ["input"; "input.txt"; "optimization"; "4"; "opt"; "option"]%string).
Proof. vm_compute. reflexivity. Qed.

(** ** test/variable_map_test.cpp *)

(** 32-56 *)
Definition vmap_desc := [ ("foo,f", untyped_value, ""); ("bar,b", t_string, ""); ("biz,z", t_string, "");
  ("baz", untyped_value, ""); ("output,o", untyped_value, "") ]%string.
Example variable_map_1 :
  omap content (stored (parse (desc_of vmap_desc) ["--foo='12'"; "--bar=11"; "-z3"; "-ofoo"]%string) vm_new)
  = Ok [cn "bar" (vs "11"); cn "biz" (vs "3"); cn "foo" (vs "'12'"); cn "output" (vs "foo")].
Proof. vm_compute. reflexivity. Qed.

(** 58-77 *)
Definition vmap_desc2 := vmap_desc ++
  [ ("zee", sem (bool_switch None), ""); ("zak", sem (tv_to 7 (t_value (TLex 0))), "");
    ("opt", sem (bool_switch None), "") ]%string.
Example variable_map_2 :
  let vm := stored (parse (desc_of vmap_desc2) ["--zee"; "--zak=13"]%string) vm_new in
  (omap content vm, omap notified vm)
  = (Ok [cd "opt" (VBool false); cn "zak" (vi 13); cn "zee" (VBool true)],
     Ok ([EvStore 7 (vi 13)], true)).
Proof. vm_compute. reflexivity. Qed.

(** 79-97 *)
Example variable_map_3 :
  omap content (stored (parse (desc_of
    [ ("vee", sem (tv_def (vs "42") $"42" (t_value TString)), ""); ("voo", t_string, "");
      ("iii", sem (tv_def (vi 123) $"123" (t_value (TLex 0))), "") ]%string) ["--voo=1"]%string) vm_new)
  = Ok [cd "iii" (vi 123); cd "vee" (vs "42"); cn "voo" (vs "1")].
Proof. vm_compute. reflexivity. Qed.

(** 99-120 *)
Example variable_map_4 :
  omap content (stored (parse (desc_of
    [ ("imp", sem (tv_impl (vi 100) $"100" (t_value (TLex 0))), "");
      ("iim", sem (tv_def (vi 201) $"201" (tv_impl (vi 200) $"200" (t_value (TLex 0)))), "");
      ("mmp,m", sem (tv_def (vi 124) $"124" (tv_impl (vi 123) $"123" (t_value (TLex 0)))), "");
      ("foo", t_int, "") ]%string) ["--imp=1"; "-m"; "--foo=1"]%string) vm_new)
  = Ok [cn "foo" (vi 1); cd "iim" (vi 201); cn "imp" (vi 1); cn "mmp" (vi 123)].
Proof. vm_compute. reflexivity. Qed.

(** 123-189 *)
Definition sv_desc := desc_of
  [ ("foo", untyped_value, ""); ("bar", t_int, ""); ("biz", sem t_strings, "");
    ("baz", sem (tv_multi t_strings), ""); ("int", sem (tv_note 5 (t_value (TVec (TLex 0)))), "")
  ]%string.
Definition sv_opt (k : string) (l : list string) : popt := mk_popt (lit k) (-1) (lits l) [] false false.
Definition sv_opts := [ sv_opt "foo" ["1"]; sv_opt "biz" ["a"]; sv_opt "baz" ["q"]; sv_opt "bar" ["1"];
  sv_opt "biz" ["b x"]; sv_opt "baz" ["q"; "w"] ]%string.
Definition sv_store (l : list popt) := stored (Ok (mk_parsed l (Some sv_desc) 0)) vm_new.
Definition sv_content := [ cn "bar" (vi 1); cn "baz" (vss ["q"; "q"; "w"]); cn "biz" (vss ["a"; "b x"]);
  cn "foo" (vs "1")]%string.
Example semantic_values_1 : omap content (sv_store sv_opts) = Ok sv_content.
Proof. vm_compute. reflexivity. Qed.
Example semantic_values_2 :
  let vm := sv_store (sv_opts ++ [sv_opt "int" ["13"]]%string) in
  (omap content vm, omap notified vm)
  = (Ok (sv_content ++ [cn "int" (vis [13%Z])]), Ok ([EvCall 5 (vis [13%Z])], true)).
Proof. vm_compute. reflexivity. Qed.
Example semantic_values_3 :
  class_of (sv_store (sv_opts ++ [sv_opt "int" ["13"]; sv_opt "bar" ["2"]]%string))
  = Some multiple_occurrences.
Proof. vm_compute. reflexivity. Qed.
Example semantic_values_4 :
  class_of (sv_store (sv_opts ++ [sv_opt "int" ["13"]; sv_opt "int" ["2 3"]]%string))
  = Some invalid_option_value.
Proof. vm_compute. reflexivity. Qed.

(** 191-249 *)
Definition ints := t_value (TVec (TLex 0)).
Definition prio_desc := desc_of
  [ ("first", sem ints, ""); ("second", sem (tv_def (vis [1%Z]) [] ints), ""); ("aux", sem ints, "");
    ("include", sem (tv_compose ints), "") ]%string.
Definition prio_1 := stored (parse prio_desc ["--first=1"; "--aux=10"; "--first=3"; "--include=1"]%string) vm_new.
Definition prio_2 :=
  let* vm := prio_1 in stored (parse prio_desc ["--first=12"; "--second=7"; "--include=7"]%string) vm.
Example priority_1 :
  (omap content prio_1, omap content prio_2)
  = (Ok [cn "aux" (vis [10%Z]); cn "first" (vis [1; 3]%Z); cn "include" (vis [1%Z]); cd "second" (vis [1%Z])],
     Ok [cn "aux" (vis [10%Z]); cn "first" (vis [1; 3]%Z); cn "include" (vis [1; 7]%Z); cn "second" (vis [7%Z])]).
Proof. vm_compute. reflexivity. Qed.

(** 251-289 *)
Definition two_desc1 := desc_of [("help,h", flag, ""); ("includes", sem (tv_compose t_strings), "")]%string.
Definition two_desc2 := desc_of [("output,o", flag, "")]%string.
Example different_descriptions_1 :
  omap content
    (let* vm1 := stored (parse two_desc1 ["--help"; "--includes=a"]%string) vm_new in
     let* vm2 := stored (parse two_desc2 []) vm1 in
     stored (parse two_desc1 ["--includes=b"]%string) vm2)
  = Ok [cn "help" (vs ""); cn "includes" (vss ["a"; "b"]%string)].
Proof. vm_compute. reflexivity. Qed.

(** ** test/required_test.cpp *)

Definition req_desc := desc_of
  [("cfgfile,c", sem (tv_req (t_value TString)), "the configfile");
   ("fritz,f", sem (tv_req (t_value TString)), "the output file")]%string.
Definition note (vm : outcome variables_map) : outcome unit := let* vm := vm in snd (notify vm).
Definition req_1 := let* toks := split_unix $"prg -f file.txt" in
  stored (parser_run fuel (mk_cl default_style false req_desc None None None) toks) vm_new.
Definition req_2 := let* vm := req_1 in let* toks := split_unix $"prg -c config.txt" in
  stored (parser_run fuel (mk_cl default_style false req_desc None None None) toks) vm.
Definition req_3 := let* vm := req_1 in
  stored (parse_config_file (esc "cfgfile = file.cfg~") req_desc false) vm.
Definition req_4 := let* toks := split_unix $"prg --bar file.txt" in
  stored (parser_run fuel (mk_cl default_style false
    (desc_of [("foo,bar", sem (tv_req (t_value TString)), "the foo")]%string) None None None) toks) vm_new.
Example required_1 :
  (what_of (note req_1), note req_2, note req_3, note req_4)
  = (Ok $"the option '--cfgfile' is required but missing", Ok tt, Ok tt, Ok tt).
Proof. vm_compute. reflexivity. Qed.

(** ** test/optional_test.cpp *)

Definition t_opt (addr : nat) := sem (tv_to addr (t_value (TOpt (TLex 0)))).
Example optional_1 :
  omap notified (stored (parse (desc_of
    [("foo,f", t_opt 1, ""); ("bar,b", t_opt 2, ""); ("baz,z", t_opt 3, "")]%string)
    ["--foo=12"; "--bar"; "1"]%string) vm_new)
  = Ok ([EvStore 2 (VOpt (TLex 0) (Some (vi 1))); EvStore 1 (VOpt (TLex 0) (Some (vi 12)))], true).
Proof. vm_compute. reflexivity. Qed.

(** ** test/winmain.cpp *)

(** 45-60 *)
Definition winmain_cases : list (string * list string) :=
  [ ("1 ", ["1"]);
    ("1`2` ", ["12"]);
    ("1`2  ", ["12  "]);
    ("1`\`2` ", ["1`2"]);
    ("`1` `2` ", ["1"; "2"]);
    ("1\` ", ["1`"]);
    ("1\\` ", ["1\ "]);
    ("1\\\` ", ["1\`"]);
    ("1\\\\` ", ["1\\ "]);
    ("1` 1 ", ["1 1 "]);
    ("1\` 1 ", ["1`"; "1"]);
    ("1\1 ", ["1\1"]);
    ("1\\1 ", ["1\\1"]) ]%string.
Example winmain_1 :
  map (fun c => split_winmain (esc (fst c))) winmain_cases
  = map (fun c => List.map esc (snd c)) winmain_cases.
Proof. vm_compute. reflexivity. Qed.

(** ** test/unicode_test.cpp *)

(** The wide strings of the test, numbered injectively: a number in base 2^32. *)
Fixpoint code (w : wstr) : Z :=
  match w with [] => 1%Z | c :: w' => (Z.of_N c + 4294967296 * code w')%Z end.
Definition wide_cast (_ : nat) (w : wstr) : option Z := Some (code w).
Definition t_wstring : value_semantic :=
  wtyped to_utf8 from_utf8 wide_cast 9 code (t_value (TLex 9)).
(** A narrow option, the local encoding being UTF-8. *)
Definition t_lstring : value_semantic := typed lex (utf8_to_local to_utf8) (t_value TString).
Definition ya : N := 1103.     (* U+044F *)
Definition wlit (s : string) : wstr := widen (lit s).
Definition wparse (ds : list option_description) (args : list wstr) : outcome wparsed_options :=
  wparser_run fuel (mk_cl default_style false ds None None None) args.
Definition wstored (x : outcome wparsed_options) (vm : variables_map) : outcome variables_map :=
  let* p := x in
  match wstore p vm with (vm', Ok _) => Ok vm' | (_, Throw e) => Throw e
  | (_, Undef u) => Undef u | (_, NoFuel) => NoFuel end.

(** 23-44 *)
Example unicode_1 :
  let p := wparse (desc_of [("foo", t_wstring, "unicode option")]%string) [wlit "--foo=" ++ [ya]] in
  (omap content (wstored p vm_new), omap (fun p => map wo_orig (wp_options p)) p)
  = (Ok [cn "foo" (VLex 9 (code [ya]))], Ok [[wlit "--foo=" ++ [ya]]]).
Proof. vm_compute. reflexivity. Qed.

(** 49-69 *)
Definition ya_utf8 : str := [ascii_of_nat 209; ascii_of_nat 143].   (* D1 8F *)
Definition lstring_desc := desc_of [("foo", t_lstring, "unicode option")]%string.
Example unicode_2 :
  omap content (wstored (wparse lstring_desc [wlit "--foo=" ++ [ya]]) vm_new)
  = Ok [cn "foo" (VString ya_utf8)].
Proof. vm_compute. reflexivity. Qed.

(** 71-90 *)
Example unicode_3 :
  omap content (stored (parser_run fuel (mk_cl default_style false
      (desc_of [("foo", t_wstring, "unicode option")]%string) None None None)
      [$"--foo=" ++ ya_utf8]) vm_new)
  = Ok [cn "foo" (VLex 9 (code [ya]))].
Proof. vm_compute. reflexivity. Qed.

(** 107-135 *)
Example unicode_4 :
  omap (fun p => map (fun o => (wo_key o, wo_value o)) (wp_options p))
    (wparse (desc_of [("foo,f", untyped_value, ""); ("bar,b", t_string, "");
                      ("baz", untyped_value, ""); ("qux,plug*", untyped_value, "")]%string)
       [wlit "--foo=1" ++ [4085%N] ++ wlit "2"; wlit "-f4"; wlit "--bar=11"; wlit "-b4"; wlit "--plug3=10"])
  = Ok [($"foo", [wlit "1" ++ [4085%N] ++ wlit "2"]); ($"foo", [wlit "4"]); ($"bar", [wlit "11"]);
        ($"bar", [wlit "4"]); ($"qux", [wlit "10"])].
Proof. vm_compute. reflexivity. Qed.

(** 140-159 *)
Example unicode_5 :
  omap content (wstored (wparse_config_file (wlit "foo = " ++ [ya]) lstring_desc false) vm_new)
  = Ok [cn "foo" (VString ya_utf8)].
Proof. vm_compute. reflexivity. Qed.

(** ** test/exception_txt_test.cpp *)

(** 45-85; [argv] without the program name; style -1 is a configuration file *)
Definition message (ds : list option_description) (style : Z) (argv : list string)
    : option exn_class * outcome str :=
  let r :=
    let* vm := stored (if Z.eqb style (-1)
                       then parse_config_file (esc (hd ""%string argv)) ds false
                       else parse_command_line fuel (lits argv) ds style None) vm_new in
    snd (notify vm) in
  (class_of r, what_of r).
(** 91-97 *)
Definition short_dash := fold_right Z.lor 0%Z [allow_dash_for_short; allow_short; short_allow_adjacent; allow_sticky].
Definition short_slash := fold_right Z.lor 0%Z [allow_slash_for_short; allow_short; short_allow_adjacent].
Definition long_dash := fold_right Z.lor 0%Z [allow_long; long_allow_adjacent; allow_guessing].
Definition styles := [unix_style; long_dash; short_dash; short_slash; (-1)%Z].
(** 101-140; the exception's class, up to the alternatives of an ambiguous option *)
Definition plain_class (c : exn_class) : exn_class :=
  match c with ambiguous_option _ => ambiguous_option [] | _ => c end.
Definition messages (ds : list option_description) (c : exn_class)
    (cases : list (Z * list string * string)) : Prop :=
  map (fun k => let m := message ds (fst (fst k)) (snd (fst k)) in
                (option_map plain_class (fst m), snd m)) cases
  = map (fun k => (Some c, Ok (lit (snd k)))) cases.

(** 150-180 *)
Example message_invalid_option_value : messages
  (desc_of [ ("int-option,d", t_int, "") ]%string)
  invalid_option_value
  [ (unix_style, ["-d"; "A_STRING"],
       "the argument ('A_STRING') for option '--int-option' is invalid");
    (long_dash, ["--int"; "A_STRING"],
       "the argument ('A_STRING') for option '--int-option' is invalid");
    (short_dash, ["-d"; "A_STRING"],
       "the argument ('A_STRING') for option '-d' is invalid");
    (short_slash, ["/d"; "A_STRING"],
       "the argument ('A_STRING') for option '/d' is invalid");
    ((-1)%Z, ["int-option=A_STRING"],
       "the argument ('A_STRING') for option 'int-option' is invalid") ]%string.
Proof. vm_compute. reflexivity. Qed.

(** 187-213 *)
Example message_missing_value : messages
  (desc_of [ ("cfgfile,e", t_string, "");
             ("output,o", t_string, "") ]%string)
  (invalid_command_line_syntax missing_parameter)
  [ (unix_style, ["-e"; "-e"; "output.txt"],
       "the required argument for option '--cfgfile' is missing");
    (long_dash, ["--cfgfile"],
       "the required argument for option '--cfgfile' is missing");
    (short_dash, ["-e"; "-e"; "output.txt"],
       "the required argument for option '-e' is missing") ]%string.
Proof. vm_compute. reflexivity. Qed.

(** 220-248 *)
Example message_ambiguous : messages
  (desc_of [ ("cfgfile1,c", t_string, "");
             ("cfgfile2,o", t_string, "");
             ("good,g", flag, "");
             ("output,c", t_string, "");
             ("output", t_string, "") ]%string)
  (ambiguous_option [])
  [ (unix_style, ["-ggc"; "file"; "-o"; "anotherfile"],
       "option '-c' is ambiguous and matches '--cfgfile1', and '--output'");
    (long_dash, ["--cfgfile"; "file"; "--cfgfile"; "anotherfile"],
       "option '--cfgfile' is ambiguous and matches '--cfgfile1', and '--cfgfile2'");
    (short_dash, ["-ggc"; "file"; "-o"; "anotherfile"],
       "option '-c' is ambiguous");
    (short_slash, ["/c"; "file"; "/o"; "anotherfile"],
       "option '/c' is ambiguous");
    ((-1)%Z, ["output=output.txt~"],
       "option 'output' is ambiguous and matches different versions of 'output'") ]%string.
Proof. vm_compute. reflexivity. Qed.

(** 255-279 *)
Example message_multiple_occurrences : messages
  (desc_of [ ("cfgfile,c", t_string, "") ]%string)
  multiple_occurrences
  [ (unix_style, ["-c"; "file"; "-c"; "anotherfile"],
       "option '--cfgfile' cannot be specified more than once");
    (long_dash, ["--cfgfi"; "file"; "--cfgfi"; "anotherfile"],
       "option '--cfgfile' cannot be specified more than once");
    (short_dash, ["-c"; "file"; "-c"; "anotherfile"],
       "option '-c' cannot be specified more than once");
    (short_slash, ["/c"; "file"; "/c"; "anotherfile"],
       "option '/c' cannot be specified more than once");
    ((-1)%Z, ["cfgfile=output.txt~cfgfile=output.txt~"],
       "option 'cfgfile' cannot be specified more than once") ]%string.
Proof. vm_compute. reflexivity. Qed.

(** 286-308 *)
Example message_unknown : messages
  (desc_of [ ("good,g", flag, "") ]%string)
  unknown_option
  [ (unix_style, ["-ggc"; "file"],
       "unrecognised option '-ggc'");
    (long_dash, ["--cfgfile"; "file"],
       "unrecognised option '--cfgfile'");
    (short_dash, ["-ggc"; "file"],
       "unrecognised option '-ggc'");
    (short_slash, ["/c"; "file"],
       "unrecognised option '/c'");
    ((-1)%Z, ["cfgfile=output.txt~"],
       "unrecognised option 'cfgfile'") ]%string.
Proof. vm_compute. reflexivity. Qed.

(** 315-342 *)
Example message_bool : messages
  (desc_of [ ("bool_option,b", sem (t_value TBool), "") ]%string)
  invalid_bool_value
  [ (unix_style, ["-b"; "file"],
       "the argument ('file') for option '--bool_option' is invalid. Valid choices are 'on|off', 'yes|no', '1|0' and 'true|false'");
    (long_dash, ["--bool_optio"; "file"],
       "the argument ('file') for option '--bool_option' is invalid. Valid choices are 'on|off', 'yes|no', '1|0' and 'true|false'");
    (short_dash, ["-b"; "file"],
       "the argument ('file') for option '-b' is invalid. Valid choices are 'on|off', 'yes|no', '1|0' and 'true|false'");
    (short_slash, ["/b"; "file"],
       "the argument ('file') for option '/b' is invalid. Valid choices are 'on|off', 'yes|no', '1|0' and 'true|false'");
    ((-1)%Z, ["bool_option=output.txt~"],
       "the argument ('output.txt') for option 'bool_option' is invalid. Valid choices are 'on|off', 'yes|no', '1|0' and 'true|false'") ]%string.
Proof. vm_compute. reflexivity. Qed.

(** 358-387 *)
Example message_multiple_values : messages
  (desc_of [ ("cfgfile,c", sem (tv_multi (t_value TString)), "");
             ("good,g", flag, "");
             ("output,o", t_string, "") ]%string)
  (validation_error multiple_values_not_allowed)
  [ (unix_style, ["-c"; "file"; "c"; "-o"; "fritz"; "hugo"],
       "option '--cfgfile' only takes a single argument");
    (long_dash, ["--cfgfil"; "file"; "c"; "--outpu"; "fritz"; "hugo"],
       "option '--cfgfile' only takes a single argument");
    (short_dash, ["-c"; "file"; "c"; "-o"; "fritz"; "hugo"],
       "option '-c' only takes a single argument");
    (short_slash, ["/c"; "file"; "c"; "/o"; "fritz"; "hugo"],
       "option '/c' only takes a single argument") ]%string.
Proof. vm_compute. reflexivity. Qed.

(** 399-427 *)
Example message_at_least_one : messages
  (desc_of [ ("cfgfile,c", sem (tv_zero (t_value (TLex 0))), "");
             ("other,o", t_string, "") ]%string)
  (validation_error at_least_one_value_required)
  [ (unix_style, ["-c"],
       "option '--cfgfile' requires at least one argument");
    (long_dash, ["--cfg"; "--o"; "name"],
       "option '--cfgfile' requires at least one argument");
    (short_dash, ["-c"; "-o"; "name"],
       "option '-c' requires at least one argument");
    (short_slash, ["/c"],
       "option '/c' requires at least one argument") ]%string.
Proof. vm_compute. reflexivity. Qed.

(** 434-460 *)
Example message_required : messages
  (desc_of [ ("cfgfile,c", sem (tv_req (t_value TString)), "");
             ("good,g", flag, "");
             ("output,o", sem (tv_req (t_value TString)), "") ]%string)
  required_option
  [ (unix_style, ["-g"],
       "the option '--cfgfile' is required but missing");
    (long_dash, ["--g"],
       "the option '--cfgfile' is required but missing");
    (short_dash, ["-g"],
       "the option '-c' is required but missing");
    (short_slash, ["/g"],
       "the option '/c' is required but missing");
    ((-1)%Z, [""],
       "the option 'cfgfile' is required but missing") ]%string.
Proof. vm_compute. reflexivity. Qed.

(** 508-513 *)
Example message_reading_file :
  what_of (parse_config_file_named $"no_such_file" None (desc_of [("output,o", t_string, "")]%string) true)
  = Ok $"can not read options configuration file 'no_such_file'".
Proof. vm_compute. reflexivity. Qed.

(** 522-530 *)
Example message_wildcard :
  what_of (parse_config_file (esc "output1=whichone~output2=whichone~")
    (desc_of [("outpu*", t_string, ""); ("outp*", t_string, "")]%string) false)
  = Ok $"options 'outpu*' and 'outp*' will both match the same arguments from the configuration file".
Proof. vm_compute. reflexivity. Qed.

(** 537-541 *)
Example message_unrecognized_line :
  what_of (parse_config_file (esc "funny wierd line~") [] false)
  = Ok $"the options configuration file contains an invalid line 'funny wierd line'".
Proof. vm_compute. reflexivity. Qed.

(** 548-553 *)
Example message_abbreviated :
  what_of (parse_config_file (esc "o=output.txt~") (desc_of [(",o", t_string, "")]%string) false)
  = Ok $"abbreviated option names are not permitted in options configuration files".
Proof. vm_compute. reflexivity. Qed.

(** 561-567 *)
Example message_too_many :
  what_of (let* p := positional_add positional_empty $"two_positional_arguments" 2 in
           run fuel (mk_cl default_style false [] (Some p) None None) (lits ["1"; "2"; "3"]%string))
  = Ok $"too many positional options have been specified on the command line".
Proof. vm_compute. reflexivity. Qed.

(** 576-628 *)
Example message_style :
  map (fun s => what_of (parse_command_line fuel [] (desc_of [("output,o", t_string, "")]%string) s None))
    [Z.lor allow_short short_allow_adjacent; Z.lor allow_short allow_dash_for_short; allow_long]
  = [ Ok $"boost::program_options misconfiguration: choose one or other of 'command_line_style::allow_slash_for_short' (slashes) or 'command_line_style::allow_dash_for_short' (dashes) for short options.";
      Ok $"boost::program_options misconfiguration: choose one or other of 'command_line_style::short_allow_next' (whitespace separated arguments) or 'command_line_style::short_allow_adjacent' ('=' separated arguments) for short options.";
      Ok $"boost::program_options misconfiguration: choose one or other of 'command_line_style::long_allow_next' (whitespace separated arguments) or 'command_line_style::long_allow_adjacent' ('=' separated arguments) for long options." ].
Proof. vm_compute. reflexivity. Qed.

(** 630-650 *)
Example message_empty_value :
  what_of (let* p := positional_add positional_empty $"foo" 1 in
           stored (parser_run fuel (mk_cl (Z.land default_style (Z.lnot allow_guessing)) false
             (desc_of [("foo", sem (tv_vname $"<time>" (tv_req (t_value (TLex 0)))), "")]%string)
             (Some p) None None) [[]]) vm_new)
  = Ok $"the argument for option '--foo' is invalid".
Proof. vm_compute. reflexivity. Qed.

(** ** test/exception_test.cpp *)

(** [get_option_name()] is the text that replaces the placeholder in the messages. *)
Definition caught (ds : list (string * value_semantic * string)) (argv : list string)
    : option exn_class * outcome str * outcome str :=
  let r :=
    let* vm := stored (parse_command_line fuel (lits argv) (desc_of ds) 0 None) vm_new in
    snd (notify vm) in
  (class_of r, match r with Throw e => canonical_option_name e | _ => Ok [] end, what_of r).
Definition t_multi := sem (tv_multi (t_value TString)).

(** 22-92 *)
Definition amb_desc := [("cfgfile,c", t_multi, ""); ("output,c", t_string, ""); ("output,o", t_string, "")]%string.
Example exception_ambiguous :
  (fst (caught amb_desc ["-c"; "file"; "-o"; "anotherfile"]%string),
   fst (caught amb_desc ["--cfgfile"; "file"; "--output"; "anotherfile"]%string),
   fst (caught [("cfgfile,foo,c", t_multi, ""); ("output,foo,o", t_string, "")]%string ["--foo"; "file"]%string))
  = ((Some (ambiguous_option (lits ["cfgfile"; "output"]%string)), Ok $"-c"),
     (Some (ambiguous_option (lits ["output"; "output"]%string)), Ok $"--output"),
     (Some (ambiguous_option (lits ["cfgfile"; "output"]%string)), Ok $"--foo")).
Proof. vm_compute. reflexivity. Qed.

(** 96-115 *)
Example exception_unknown :
  caught [("cfgfile,c", t_string, "")]%string ["-c"; "file"; "-f"; "anotherfile"]%string
  = (Some unknown_option, Ok $"-f", Ok $"unrecognised option '-f'").
Proof. vm_compute. reflexivity. Qed.

(** 119-147 *)
Example exception_multiple_values :
  caught [("cfgfile,c", t_multi, ""); ("output,o", t_string, "")]%string
    ["-o"; "fritz"; "hugo"; "--cfgfile"; "file"; "c"; "-o"; "text.out"]%string
  = (Some (validation_error multiple_values_not_allowed), Ok $"--cfgfile",
     Ok $"option '--cfgfile' only takes a single argument").
Proof. vm_compute. reflexivity. Qed.

(** 150-219 *)
Definition occ_desc := [("cfgfile,config-file,c", t_string, "")]%string.
Definition occ_result : option exn_class * outcome str * outcome str :=
  (Some multiple_occurrences, Ok $"--cfgfile", Ok $"option '--cfgfile' cannot be specified more than once").
Example exception_multiple_occurrences :
  (caught [("cfgfile,c", t_string, "")]%string ["--cfgfile"; "file"; "-c"; "anotherfile"]%string,
   caught occ_desc ["--config-file"; "file"; "--cfgfile"; "anotherfile"]%string,
   caught occ_desc ["--config-file"; "file"; "-c"; "anotherfile"]%string)
  = (occ_result, occ_result, occ_result).
Proof. vm_compute. reflexivity. Qed.

(** 222-245 *)
Example exception_missing_value :
  fst (caught [("cfgfile,c", t_multi, ""); ("output,o", t_string, "")]%string ["-c"; "-c"; "output.txt"]%string)
  = (Some (invalid_command_line_syntax missing_parameter), Ok $"--cfgfile").
Proof. vm_compute. reflexivity. Qed.

(** ** test/test_convert.cpp *)


(** The files test/utf8.txt and test/ucs2.txt: the characters 0 to 1374.  (In the checked out
    files a normalisation of line ends has replaced each byte 13 by 10; this is undone here.) *)
Definition utf8_txt : str := List.map ascii_of_N
  [0; 1; 2; 3; 4; 5; 6; 7; 8; 9; 10; 11; 12; 13; 14; 15; 16; 17; 18; 19; 20; 21; 22; 23;
   24; 25; 26; 27; 28; 29; 30; 31; 32; 33; 34; 35; 36; 37; 38; 39; 40; 41; 42; 43; 44; 45; 46; 47;
   48; 49; 50; 51; 52; 53; 54; 55; 56; 57; 58; 59; 60; 61; 62; 63; 64; 65; 66; 67; 68; 69; 70; 71;
   72; 73; 74; 75; 76; 77; 78; 79; 80; 81; 82; 83; 84; 85; 86; 87; 88; 89; 90; 91; 92; 93; 94; 95;
   96; 97; 98; 99; 100; 101; 102; 103; 104; 105; 106; 107; 108; 109; 110; 111; 112; 113; 114; 115; 116; 117; 118; 119;
   120; 121; 122; 123; 124; 125; 126; 127; 194; 128; 194; 129; 194; 130; 194; 131; 194; 132; 194; 133; 194; 134; 194; 135;
   194; 136; 194; 137; 194; 138; 194; 139; 194; 140; 194; 141; 194; 142; 194; 143; 194; 144; 194; 145; 194; 146; 194; 147;
   194; 148; 194; 149; 194; 150; 194; 151; 194; 152; 194; 153; 194; 154; 194; 155; 194; 156; 194; 157; 194; 158; 194; 159;
   194; 160; 194; 161; 194; 162; 194; 163; 194; 164; 194; 165; 194; 166; 194; 167; 194; 168; 194; 169; 194; 170; 194; 171;
   194; 172; 194; 173; 194; 174; 194; 175; 194; 176; 194; 177; 194; 178; 194; 179; 194; 180; 194; 181; 194; 182; 194; 183;
   194; 184; 194; 185; 194; 186; 194; 187; 194; 188; 194; 189; 194; 190; 194; 191; 195; 128; 195; 129; 195; 130; 195; 131;
   195; 132; 195; 133; 195; 134; 195; 135; 195; 136; 195; 137; 195; 138; 195; 139; 195; 140; 195; 141; 195; 142; 195; 143;
   195; 144; 195; 145; 195; 146; 195; 147; 195; 148; 195; 149; 195; 150; 195; 151; 195; 152; 195; 153; 195; 154; 195; 155;
   195; 156; 195; 157; 195; 158; 195; 159; 195; 160; 195; 161; 195; 162; 195; 163; 195; 164; 195; 165; 195; 166; 195; 167;
   195; 168; 195; 169; 195; 170; 195; 171; 195; 172; 195; 173; 195; 174; 195; 175; 195; 176; 195; 177; 195; 178; 195; 179;
   195; 180; 195; 181; 195; 182; 195; 183; 195; 184; 195; 185; 195; 186; 195; 187; 195; 188; 195; 189; 195; 190; 195; 191;
   196; 128; 196; 129; 196; 130; 196; 131; 196; 132; 196; 133; 196; 134; 196; 135; 196; 136; 196; 137; 196; 138; 196; 139;
   196; 140; 196; 141; 196; 142; 196; 143; 196; 144; 196; 145; 196; 146; 196; 147; 196; 148; 196; 149; 196; 150; 196; 151;
   196; 152; 196; 153; 196; 154; 196; 155; 196; 156; 196; 157; 196; 158; 196; 159; 196; 160; 196; 161; 196; 162; 196; 163;
   196; 164; 196; 165; 196; 166; 196; 167; 196; 168; 196; 169; 196; 170; 196; 171; 196; 172; 196; 173; 196; 174; 196; 175;
   196; 176; 196; 177; 196; 178; 196; 179; 196; 180; 196; 181; 196; 182; 196; 183; 196; 184; 196; 185; 196; 186; 196; 187;
   196; 188; 196; 189; 196; 190; 196; 191; 197; 128; 197; 129; 197; 130; 197; 131; 197; 132; 197; 133; 197; 134; 197; 135;
   197; 136; 197; 137; 197; 138; 197; 139; 197; 140; 197; 141; 197; 142; 197; 143; 197; 144; 197; 145; 197; 146; 197; 147;
   197; 148; 197; 149; 197; 150; 197; 151; 197; 152; 197; 153; 197; 154; 197; 155; 197; 156; 197; 157; 197; 158; 197; 159;
   197; 160; 197; 161; 197; 162; 197; 163; 197; 164; 197; 165; 197; 166; 197; 167; 197; 168; 197; 169; 197; 170; 197; 171;
   197; 172; 197; 173; 197; 174; 197; 175; 197; 176; 197; 177; 197; 178; 197; 179; 197; 180; 197; 181; 197; 182; 197; 183;
   197; 184; 197; 185; 197; 186; 197; 187; 197; 188; 197; 189; 197; 190; 197; 191; 198; 128; 198; 129; 198; 130; 198; 131;
   198; 132; 198; 133; 198; 134; 198; 135; 198; 136; 198; 137; 198; 138; 198; 139; 198; 140; 198; 141; 198; 142; 198; 143;
   198; 144; 198; 145; 198; 146; 198; 147; 198; 148; 198; 149; 198; 150; 198; 151; 198; 152; 198; 153; 198; 154; 198; 155;
   198; 156; 198; 157; 198; 158; 198; 159; 198; 160; 198; 161; 198; 162; 198; 163; 198; 164; 198; 165; 198; 166; 198; 167;
   198; 168; 198; 169; 198; 170; 198; 171; 198; 172; 198; 173; 198; 174; 198; 175; 198; 176; 198; 177; 198; 178; 198; 179;
   198; 180; 198; 181; 198; 182; 198; 183; 198; 184; 198; 185; 198; 186; 198; 187; 198; 188; 198; 189; 198; 190; 198; 191;
   199; 128; 199; 129; 199; 130; 199; 131; 199; 132; 199; 133; 199; 134; 199; 135; 199; 136; 199; 137; 199; 138; 199; 139;
   199; 140; 199; 141; 199; 142; 199; 143; 199; 144; 199; 145; 199; 146; 199; 147; 199; 148; 199; 149; 199; 150; 199; 151;
   199; 152; 199; 153; 199; 154; 199; 155; 199; 156; 199; 157; 199; 158; 199; 159; 199; 160; 199; 161; 199; 162; 199; 163;
   199; 164; 199; 165; 199; 166; 199; 167; 199; 168; 199; 169; 199; 170; 199; 171; 199; 172; 199; 173; 199; 174; 199; 175;
   199; 176; 199; 177; 199; 178; 199; 179; 199; 180; 199; 181; 199; 182; 199; 183; 199; 184; 199; 185; 199; 186; 199; 187;
   199; 188; 199; 189; 199; 190; 199; 191; 200; 128; 200; 129; 200; 130; 200; 131; 200; 132; 200; 133; 200; 134; 200; 135;
   200; 136; 200; 137; 200; 138; 200; 139; 200; 140; 200; 141; 200; 142; 200; 143; 200; 144; 200; 145; 200; 146; 200; 147;
   200; 148; 200; 149; 200; 150; 200; 151; 200; 152; 200; 153; 200; 154; 200; 155; 200; 156; 200; 157; 200; 158; 200; 159;
   200; 160; 200; 161; 200; 162; 200; 163; 200; 164; 200; 165; 200; 166; 200; 167; 200; 168; 200; 169; 200; 170; 200; 171;
   200; 172; 200; 173; 200; 174; 200; 175; 200; 176; 200; 177; 200; 178; 200; 179; 200; 180; 200; 181; 200; 182; 200; 183;
   200; 184; 200; 185; 200; 186; 200; 187; 200; 188; 200; 189; 200; 190; 200; 191; 201; 128; 201; 129; 201; 130; 201; 131;
   201; 132; 201; 133; 201; 134; 201; 135; 201; 136; 201; 137; 201; 138; 201; 139; 201; 140; 201; 141; 201; 142; 201; 143;
   201; 144; 201; 145; 201; 146; 201; 147; 201; 148; 201; 149; 201; 150; 201; 151; 201; 152; 201; 153; 201; 154; 201; 155;
   201; 156; 201; 157; 201; 158; 201; 159; 201; 160; 201; 161; 201; 162; 201; 163; 201; 164; 201; 165; 201; 166; 201; 167;
   201; 168; 201; 169; 201; 170; 201; 171; 201; 172; 201; 173; 201; 174; 201; 175; 201; 176; 201; 177; 201; 178; 201; 179;
   201; 180; 201; 181; 201; 182; 201; 183; 201; 184; 201; 185; 201; 186; 201; 187; 201; 188; 201; 189; 201; 190; 201; 191;
   202; 128; 202; 129; 202; 130; 202; 131; 202; 132; 202; 133; 202; 134; 202; 135; 202; 136; 202; 137; 202; 138; 202; 139;
   202; 140; 202; 141; 202; 142; 202; 143; 202; 144; 202; 145; 202; 146; 202; 147; 202; 148; 202; 149; 202; 150; 202; 151;
   202; 152; 202; 153; 202; 154; 202; 155; 202; 156; 202; 157; 202; 158; 202; 159; 202; 160; 202; 161; 202; 162; 202; 163;
   202; 164; 202; 165; 202; 166; 202; 167; 202; 168; 202; 169; 202; 170; 202; 171; 202; 172; 202; 173; 202; 174; 202; 175;
   202; 176; 202; 177; 202; 178; 202; 179; 202; 180; 202; 181; 202; 182; 202; 183; 202; 184; 202; 185; 202; 186; 202; 187;
   202; 188; 202; 189; 202; 190; 202; 191; 203; 128; 203; 129; 203; 130; 203; 131; 203; 132; 203; 133; 203; 134; 203; 135;
   203; 136; 203; 137; 203; 138; 203; 139; 203; 140; 203; 141; 203; 142; 203; 143; 203; 144; 203; 145; 203; 146; 203; 147;
   203; 148; 203; 149; 203; 150; 203; 151; 203; 152; 203; 153; 203; 154; 203; 155; 203; 156; 203; 157; 203; 158; 203; 159;
   203; 160; 203; 161; 203; 162; 203; 163; 203; 164; 203; 165; 203; 166; 203; 167; 203; 168; 203; 169; 203; 170; 203; 171;
   203; 172; 203; 173; 203; 174; 203; 175; 203; 176; 203; 177; 203; 178; 203; 179; 203; 180; 203; 181; 203; 182; 203; 183;
   203; 184; 203; 185; 203; 186; 203; 187; 203; 188; 203; 189; 203; 190; 203; 191; 204; 128; 204; 129; 204; 130; 204; 131;
   204; 132; 204; 133; 204; 134; 204; 135; 204; 136; 204; 137; 204; 138; 204; 139; 204; 140; 204; 141; 204; 142; 204; 143;
   204; 144; 204; 145; 204; 146; 204; 147; 204; 148; 204; 149; 204; 150; 204; 151; 204; 152; 204; 153; 204; 154; 204; 155;
   204; 156; 204; 157; 204; 158; 204; 159; 204; 160; 204; 161; 204; 162; 204; 163; 204; 164; 204; 165; 204; 166; 204; 167;
   204; 168; 204; 169; 204; 170; 204; 171; 204; 172; 204; 173; 204; 174; 204; 175; 204; 176; 204; 177; 204; 178; 204; 179;
   204; 180; 204; 181; 204; 182; 204; 183; 204; 184; 204; 185; 204; 186; 204; 187; 204; 188; 204; 189; 204; 190; 204; 191;
   205; 128; 205; 129; 205; 130; 205; 131; 205; 132; 205; 133; 205; 134; 205; 135; 205; 136; 205; 137; 205; 138; 205; 139;
   205; 140; 205; 141; 205; 142; 205; 143; 205; 144; 205; 145; 205; 146; 205; 147; 205; 148; 205; 149; 205; 150; 205; 151;
   205; 152; 205; 153; 205; 154; 205; 155; 205; 156; 205; 157; 205; 158; 205; 159; 205; 160; 205; 161; 205; 162; 205; 163;
   205; 164; 205; 165; 205; 166; 205; 167; 205; 168; 205; 169; 205; 170; 205; 171; 205; 172; 205; 173; 205; 174; 205; 175;
   205; 176; 205; 177; 205; 178; 205; 179; 205; 180; 205; 181; 205; 182; 205; 183; 205; 184; 205; 185; 205; 186; 205; 187;
   205; 188; 205; 189; 205; 190; 205; 191; 206; 128; 206; 129; 206; 130; 206; 131; 206; 132; 206; 133; 206; 134; 206; 135;
   206; 136; 206; 137; 206; 138; 206; 139; 206; 140; 206; 141; 206; 142; 206; 143; 206; 144; 206; 145; 206; 146; 206; 147;
   206; 148; 206; 149; 206; 150; 206; 151; 206; 152; 206; 153; 206; 154; 206; 155; 206; 156; 206; 157; 206; 158; 206; 159;
   206; 160; 206; 161; 206; 162; 206; 163; 206; 164; 206; 165; 206; 166; 206; 167; 206; 168; 206; 169; 206; 170; 206; 171;
   206; 172; 206; 173; 206; 174; 206; 175; 206; 176; 206; 177; 206; 178; 206; 179; 206; 180; 206; 181; 206; 182; 206; 183;
   206; 184; 206; 185; 206; 186; 206; 187; 206; 188; 206; 189; 206; 190; 206; 191; 207; 128; 207; 129; 207; 130; 207; 131;
   207; 132; 207; 133; 207; 134; 207; 135; 207; 136; 207; 137; 207; 138; 207; 139; 207; 140; 207; 141; 207; 142; 207; 143;
   207; 144; 207; 145; 207; 146; 207; 147; 207; 148; 207; 149; 207; 150; 207; 151; 207; 152; 207; 153; 207; 154; 207; 155;
   207; 156; 207; 157; 207; 158; 207; 159; 207; 160; 207; 161; 207; 162; 207; 163; 207; 164; 207; 165; 207; 166; 207; 167;
   207; 168; 207; 169; 207; 170; 207; 171; 207; 172; 207; 173; 207; 174; 207; 175; 207; 176; 207; 177; 207; 178; 207; 179;
   207; 180; 207; 181; 207; 182; 207; 183; 207; 184; 207; 185; 207; 186; 207; 187; 207; 188; 207; 189; 207; 190; 207; 191;
   208; 128; 208; 129; 208; 130; 208; 131; 208; 132; 208; 133; 208; 134; 208; 135; 208; 136; 208; 137; 208; 138; 208; 139;
   208; 140; 208; 141; 208; 142; 208; 143; 208; 144; 208; 145; 208; 146; 208; 147; 208; 148; 208; 149; 208; 150; 208; 151;
   208; 152; 208; 153; 208; 154; 208; 155; 208; 156; 208; 157; 208; 158; 208; 159; 208; 160; 208; 161; 208; 162; 208; 163;
   208; 164; 208; 165; 208; 166; 208; 167; 208; 168; 208; 169; 208; 170; 208; 171; 208; 172; 208; 173; 208; 174; 208; 175;
   208; 176; 208; 177; 208; 178; 208; 179; 208; 180; 208; 181; 208; 182; 208; 183; 208; 184; 208; 185; 208; 186; 208; 187;
   208; 188; 208; 189; 208; 190; 208; 191; 209; 128; 209; 129; 209; 130; 209; 131; 209; 132; 209; 133; 209; 134; 209; 135;
   209; 136; 209; 137; 209; 138; 209; 139; 209; 140; 209; 141; 209; 142; 209; 143; 209; 144; 209; 145; 209; 146; 209; 147;
   209; 148; 209; 149; 209; 150; 209; 151; 209; 152; 209; 153; 209; 154; 209; 155; 209; 156; 209; 157; 209; 158; 209; 159;
   209; 160; 209; 161; 209; 162; 209; 163; 209; 164; 209; 165; 209; 166; 209; 167; 209; 168; 209; 169; 209; 170; 209; 171;
   209; 172; 209; 173; 209; 174; 209; 175; 209; 176; 209; 177; 209; 178; 209; 179; 209; 180; 209; 181; 209; 182; 209; 183;
   209; 184; 209; 185; 209; 186; 209; 187; 209; 188; 209; 189; 209; 190; 209; 191; 210; 128; 210; 129; 210; 130; 210; 131;
   210; 132; 210; 133; 210; 134; 210; 135; 210; 136; 210; 137; 210; 138; 210; 139; 210; 140; 210; 141; 210; 142; 210; 143;
   210; 144; 210; 145; 210; 146; 210; 147; 210; 148; 210; 149; 210; 150; 210; 151; 210; 152; 210; 153; 210; 154; 210; 155;
   210; 156; 210; 157; 210; 158; 210; 159; 210; 160; 210; 161; 210; 162; 210; 163; 210; 164; 210; 165; 210; 166; 210; 167;
   210; 168; 210; 169; 210; 170; 210; 171; 210; 172; 210; 173; 210; 174; 210; 175; 210; 176; 210; 177; 210; 178; 210; 179;
   210; 180; 210; 181; 210; 182; 210; 183; 210; 184; 210; 185; 210; 186; 210; 187; 210; 188; 210; 189; 210; 190; 210; 191;
   211; 128; 211; 129; 211; 130; 211; 131; 211; 132; 211; 133; 211; 134; 211; 135; 211; 136; 211; 137; 211; 138; 211; 139;
   211; 140; 211; 141; 211; 142; 211; 143; 211; 144; 211; 145; 211; 146; 211; 147; 211; 148; 211; 149; 211; 150; 211; 151;
   211; 152; 211; 153; 211; 154; 211; 155; 211; 156; 211; 157; 211; 158; 211; 159; 211; 160; 211; 161; 211; 162; 211; 163;
   211; 164; 211; 165; 211; 166; 211; 167; 211; 168; 211; 169; 211; 170; 211; 171; 211; 172; 211; 173; 211; 174; 211; 175;
   211; 176; 211; 177; 211; 178; 211; 179; 211; 180; 211; 181; 211; 182; 211; 183; 211; 184; 211; 185; 211; 186; 211; 187;
   211; 188; 211; 189; 211; 190; 211; 191; 212; 128; 212; 129; 212; 130; 212; 131; 212; 132; 212; 133; 212; 134; 212; 135;
   212; 136; 212; 137; 212; 138; 212; 139; 212; 140; 212; 141; 212; 142; 212; 143; 212; 144; 212; 145; 212; 146; 212; 147;
   212; 148; 212; 149; 212; 150; 212; 151; 212; 152; 212; 153; 212; 154; 212; 155; 212; 156; 212; 157; 212; 158; 212; 159;
   212; 160; 212; 161; 212; 162; 212; 163; 212; 164; 212; 165; 212; 166; 212; 167; 212; 168; 212; 169; 212; 170; 212; 171;
   212; 172; 212; 173; 212; 174; 212; 175; 212; 176; 212; 177; 212; 178; 212; 179; 212; 180; 212; 181; 212; 182; 212; 183;
   212; 184; 212; 185; 212; 186; 212; 187; 212; 188; 212; 189; 212; 190; 212; 191; 213; 128; 213; 129; 213; 130; 213; 131;
   213; 132; 213; 133; 213; 134; 213; 135; 213; 136; 213; 137; 213; 138; 213; 139; 213; 140; 213; 141; 213; 142; 213; 143;
   213; 144; 213; 145; 213; 146; 213; 147; 213; 148; 213; 149; 213; 150; 213; 151; 213; 152; 213; 153; 213; 154; 213; 155;
   213; 156; 213; 157; 213; 158]%N.
Definition ucs2_txt : wstr := List.map N.of_nat (seq 0 1375).
Example convert_1 : from_utf8 utf8_txt = Ok ucs2_txt /\ to_utf8 ucs2_txt = Ok utf8_txt.
Proof. vm_compute. split; reflexivity. Qed.
