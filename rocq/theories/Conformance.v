(** The expectations of the project's own tests (/repo/test), evaluated on the
    model.  Nothing here is a property: these are tests of the model, made to
    catch mistakes in the transcription of the code. *)

From Coq Require Import List Ascii String NArith ZArith Bool.
From Verif Require Import Base Errors Values OptDesc Positional Cmdline Parsers
  ConfigFile VarMap Winmain SplitUnix Format Convert Samples.
Import ListNotations.

Set Implicit Arguments.

(** ** Helpers *)

Definition fuel : nat := 200.

(** [stringstream >> s] in a loop. *)
Definition words (s : str) : list str := split_winmain s.

Definition t_value (t : vty) : typed_value := value_of_type t None.
Definition tv_multi (tv : typed_value) : typed_value :=
  mk_typed (tv_type tv) (tv_store_to tv) (tv_value_name tv) (tv_default tv) (tv_implicit tv)
    (tv_composing tv) true (tv_zero_tokens tv) (tv_required tv) (tv_notifier tv).
Definition tv_req (tv : typed_value) : typed_value :=
  mk_typed (tv_type tv) (tv_store_to tv) (tv_value_name tv) (tv_default tv) (tv_implicit tv)
    (tv_composing tv) (tv_multitoken tv) (tv_zero_tokens tv) true (tv_notifier tv).
Definition tv_zero (tv : typed_value) : typed_value :=
  mk_typed (tv_type tv) (tv_store_to tv) (tv_value_name tv) (tv_default tv) (tv_implicit tv)
    (tv_composing tv) (tv_multitoken tv) true (tv_required tv) (tv_notifier tv).
Definition tv_compose (tv : typed_value) : typed_value :=
  mk_typed (tv_type tv) (tv_store_to tv) (tv_value_name tv) (tv_default tv) (tv_implicit tv)
    true (tv_multitoken tv) (tv_zero_tokens tv) (tv_required tv) (tv_notifier tv).
Definition tv_def (v : value) (text : str) (tv : typed_value) : typed_value :=
  mk_typed (tv_type tv) (tv_store_to tv) (tv_value_name tv) (Some (v, text)) (tv_implicit tv)
    (tv_composing tv) (tv_multitoken tv) (tv_zero_tokens tv) (tv_required tv) (tv_notifier tv).
Definition tv_impl (v : value) (text : str) (tv : typed_value) : typed_value :=
  mk_typed (tv_type tv) (tv_store_to tv) (tv_value_name tv) (tv_default tv) (Some (v, text))
    (tv_composing tv) (tv_multitoken tv) (tv_zero_tokens tv) (tv_required tv) (tv_notifier tv).
Definition tv_vname (n : str) (tv : typed_value) : typed_value :=
  mk_typed (tv_type tv) (tv_store_to tv) n (tv_default tv) (tv_implicit tv)
    (tv_composing tv) (tv_multitoken tv) (tv_zero_tokens tv) (tv_required tv) (tv_notifier tv).
Definition tv_to (addr : nat) (tv : typed_value) : typed_value :=
  mk_typed (tv_type tv) (Some addr) (tv_value_name tv) (tv_default tv) (tv_implicit tv)
    (tv_composing tv) (tv_multitoken tv) (tv_zero_tokens tv) (tv_required tv) (tv_notifier tv).
Definition tv_note (f : nat) (tv : typed_value) : typed_value :=
  mk_typed (tv_type tv) (tv_store_to tv) (tv_value_name tv) (tv_default tv) (tv_implicit tv)
    (tv_composing tv) (tv_multitoken tv) (tv_zero_tokens tv) (tv_required tv)
    (Some (f, fun _ => None)).

Definition sem (tv : typed_value) : value_semantic := typed lex local tv.
Definition t_string : value_semantic := sem (t_value TString).
Definition t_int : value_semantic := sem (t_value (TLex 0)).
Definition t_strings : typed_value := t_value (TVec TString).
Definition flag : value_semantic := untyped local true.
Definition untyped_value : value_semantic := untyped local false.

(** [add_options()(names, s, text)...] *)
Definition opts (l : list (string * value_semantic * string)) : outcome (list option_description) :=
  mapM (fun x => new_option (lit (fst (fst x))) (snd (fst x)) (lit (snd x))) l.
Definition oget {A} (d : A) (x : outcome A) : A := match x with Ok a => a | _ => d end.
Definition desc_of (l : list (string * value_semantic * string)) : list option_description :=
  oget [] (opts l).

(** Key and values of each option. *)
Definition kv (o : popt) : str * list str := (po_key o, po_value o).
Definition kvu (o : popt) : str * list str * bool := (po_key o, po_value o, po_unreg o).
Definition omap {A B} (f : A -> B) (x : outcome A) : outcome B := let* a := x in Ok (f a).
Definition lits := List.map lit.
Definition kvs (l : list (string * list string)) : list (str * list str) :=
  List.map (fun p => (lit (fst p), lits (snd p))) l.
Definition kvus (l : list (string * list string * bool)) : list (str * list str * bool) :=
  List.map (fun p => (lit (fst (fst p)), lits (snd (fst p)), snd p)) l.

Definition class_of {A} (x : outcome A) : option exn_class :=
  match x with Throw e => Some (ex_class e) | _ => None end.
Definition what_of {A} (x : outcome A) : outcome str :=
  match x with Throw e => what fuel e | Ok _ => Ok $"<no exception>" | Undef u => Undef u | NoFuel => NoFuel end.

(** ** test/cmdline_test.cpp *)

(** cmdline_test.cpp 22-31 *)
Inductive status :=
| s_success | s_unknown_option | s_ambiguous_option
| s_syntax (k : syntax_kind) | s_other.
Definition s_empty_adjacent_parameter := s_syntax empty_adjacent_parameter.
Definition s_missing_parameter := s_syntax missing_parameter.
Definition s_extra_parameter := s_syntax extra_parameter.

(** cmdline_test.cpp 65-95 [apply_syntax] *)
Definition syntax1 (w : str) : outcome option_description :=
  match rev w with
  | "="%char :: r => new_option (rev r) t_string []
  | "?"%char :: r =>
      new_option (rev r) (sem (tv_impl (VString $"default") $"default" (t_value TString))) []
  | "*"%char :: r => new_option (rev r) (sem (tv_multi t_strings)) []
  | "+"%char :: r => new_option (rev r) (sem (tv_multi t_strings)) []
  | _ => new_option w flag []
  end.

(** cmdline_test.cpp 117-147: how a result is printed *)
Fixpoint join (sep : str) (l : list str) : str :=
  match l with
  | [] => []
  | [x] => x
  | x :: l' => x ++ sep ++ join sep l'
  end.
Definition show1 (o : popt) : str :=
  if Z.eqb (po_pos o) (-1) then po_key o ++ $":" ++ join $"-" (po_value o)
  else match po_value o with v :: _ => v | [] => $"<none>" end.

Definition run_case (syntax : str) (style : Z) (input : str) : status * str :=
  match (let* ds := mapM syntax1 (words syntax) in
         let* s := set_style style in
         run fuel (mk_cl s false ds None None None) (words input)) with
  | Ok os => (s_success, join $" " (map show1 os))
  | Throw e =>
      (match ex_class e with
       | unknown_option => s_unknown_option
       | ambiguous_option _ => s_ambiguous_option
       | invalid_command_line_syntax k => s_syntax k
       | _ => s_other
       end, [])
  | _ => (s_other, [])
  end.

Definition test_cmdline (syntax : string) (style : list Z)
    (cases : list (string * status * string)) : Prop :=
  map (fun c => run_case (lit syntax) (fold_right Z.lor 0%Z style) (lit (fst (fst c)))) cases
  = map (fun c => (snd (fst c), lit (snd c))) cases.

(** cmdline_test.cpp 163-231 [test_long_options] *)
Example long_options_1 : test_cmdline "foo bar=" [allow_long; long_allow_adjacent]
  [ ("--foo foo -123 /asd", s_success, "foo: foo -123 /asd");
    ("--unk", s_unknown_option, "");
    ("--fo", s_unknown_option, "");
    ("--foo=13", s_extra_parameter, "");
    ("--bar=", s_empty_adjacent_parameter, "");
    ("--bar", s_missing_parameter, "");
    ("--bar=123", s_success, "bar:123") ]%string.
Proof. vm_compute. reflexivity. Qed.

Example long_options_2 : test_cmdline "foo bar=" [allow_long; long_allow_next]
  [ ("--bar 10", s_success, "bar:10");
    ("--bar", s_missing_parameter,  "");
    ("--bar --foo", s_success, "bar:--foo") ]%string.
Proof. vm_compute. reflexivity. Qed.

Example long_options_3 : test_cmdline "foo bar=" [allow_long; long_allow_adjacent; long_allow_next]
  [ ("--bar=10", s_success, "bar:10");
    ("--bar 11", s_success, "bar:11") ]%string.
Proof. vm_compute. reflexivity. Qed.

Example long_options_4 : test_cmdline "foo bar= baz? Giz"
  [allow_long; long_allow_adjacent; long_allow_next; case_insensitive_style]
  [ ("--foo", s_success, "foo:");
    ("--Foo", s_success, "foo:");
    ("--bar=Ab", s_success, "bar:Ab");
    ("--Bar=ab", s_success, "bar:ab");
    ("--giz", s_success, "Giz:") ]%string.
Proof. vm_compute. reflexivity. Qed.

(** cmdline_test.cpp 233-293 [test_short_options] *)
Example short_options_1 : test_cmdline ",d ,f= ,g" [allow_short; allow_dash_for_short; short_allow_adjacent]
  [ ("-d d /bar", s_success, "-d: d /bar");
    ("--foo", s_success, "--foo");
    ("-d13", s_extra_parameter, "");
    ("-f14", s_success, "-f:14");
    ("-g -f1", s_success, "-g: -f:1");
    ("-f", s_missing_parameter, "") ]%string.
Proof. vm_compute. reflexivity. Qed.

Example short_options_2 : test_cmdline ",d ,f=" [allow_short; allow_dash_for_short; short_allow_next]
  [ ("-f 13", s_success, "-f:13");
    ("-f -13", s_success, "-f:-13");
    ("-f", s_missing_parameter, "");
    ("-f /foo", s_success, "-f:/foo");
    ("-f -d", s_missing_parameter, "") ]%string.
Proof. vm_compute. reflexivity. Qed.

Example short_options_3 : test_cmdline ",d ,f="
  [allow_short; short_allow_next; allow_dash_for_short; short_allow_adjacent]
  [ ("-f10", s_success, "-f:10");
    ("-f 10", s_success, "-f:10");
    ("-f -d", s_missing_parameter, "") ]%string.
Proof. vm_compute. reflexivity. Qed.

Example short_options_4 : test_cmdline ",d ,f= ,e"
  [allow_short; short_allow_next; allow_dash_for_short; short_allow_adjacent; allow_sticky]
  [ ("-de", s_success, "-d: -e:");
    ("-df10", s_success, "-d: -f:10");
    ("-f12", s_success, "-f:12");
    ("-fe", s_success, "-f:e") ]%string.
Proof. vm_compute. reflexivity. Qed.

(** cmdline_test.cpp 296-327 [test_dos_options] *)
Example dos_options_1 : test_cmdline ",d ,f=" [allow_short; allow_slash_for_short; short_allow_adjacent]
  [ ("/d d -bar", s_success, "-d: d -bar");
    ("--foo", s_success, "--foo");
    ("/d13", s_extra_parameter, "");
    ("/f14", s_success, "-f:14");
    ("/f", s_missing_parameter, "") ]%string.
Proof. vm_compute. reflexivity. Qed.

Example dos_options_2 : test_cmdline ",d ,f= ,e"
  [allow_short; allow_slash_for_short; short_allow_next; short_allow_adjacent; allow_sticky]
  [ ("/de", s_extra_parameter, "");
    ("/fe", s_success, "-f:e") ]%string.
Proof. vm_compute. reflexivity. Qed.

(** cmdline_test.cpp 330-357 [test_disguised_long] *)
Example disguised_long_1 : test_cmdline "foo,f goo,g= bee,b?"
  [allow_short; short_allow_adjacent; allow_dash_for_short; short_allow_next;
   allow_long_disguise; long_allow_adjacent]
  [ ("-foo -f", s_success, "foo: foo:");
    ("-goo=x -gy", s_success, "goo:x goo:y");
    ("-bee=x -by", s_success, "bee:x bee:y") ]%string.
Proof. vm_compute. reflexivity. Qed.

Example disguised_long_2 : test_cmdline "foo,f goo,g= bee,b?"
  [allow_short; short_allow_adjacent; allow_dash_for_short; short_allow_next;
   allow_long_disguise; long_allow_adjacent; allow_slash_for_short]
  [ ("/foo -f", s_success, "foo: foo:");
    ("/goo=x", s_success, "goo:x") ]%string.
Proof. vm_compute. reflexivity. Qed.

(** cmdline_test.cpp 359-388 [test_guessing] *)
Example guessing_1 : test_cmdline "opt123 opt56 foo,f="
  [allow_short; short_allow_adjacent; allow_dash_for_short; allow_long; long_allow_adjacent;
   allow_guessing; allow_long_disguise]
  [ ("--opt1", s_success, "opt123:");
    ("--opt", s_ambiguous_option, "");
    ("--f=1", s_success, "foo:1");
    ("-far", s_success, "foo:ar") ]%string.
Proof. vm_compute. reflexivity. Qed.

Example guessing_2 : test_cmdline "fname fname2"
  [allow_short; short_allow_adjacent; allow_dash_for_short; allow_long; long_allow_adjacent;
   allow_guessing; allow_long_disguise]
  [ ("--fname file --fname2 file2", s_success, "fname: file fname2: file2");
    ("--fnam file --fnam file2", s_ambiguous_option, "");
    ("--fnam file --fname2 file2", s_ambiguous_option, "");
    ("--fname2 file2 --fnam file", s_ambiguous_option, "") ]%string.
Proof. vm_compute. reflexivity. Qed.

(** cmdline_test.cpp 390-421 [test_arguments] *)
Example arguments_1 : test_cmdline ",f ,g= ,e"
  [allow_short; allow_long; allow_dash_for_short; short_allow_adjacent; long_allow_adjacent]
  [ ("-f file -gx file2", s_success, "-f: file -g:x file2");
    ("-f - -gx - -- -e", s_success, "-f: - -g:x - -e") ]%string.
Proof. vm_compute. reflexivity. Qed.

Example arguments_2 : test_cmdline ",f ,g= ,e"
  [allow_short; short_allow_adjacent; allow_dash_for_short]
  [ ("-f - -gx - -- -e", s_success, "-f: - -g:x - -e") ]%string.
Proof. vm_compute. reflexivity. Qed.

(** cmdline_test.cpp 423-441 [test_prefix] *)
Example prefix_1 : test_cmdline "foo*="
  [allow_short; allow_long; allow_dash_for_short; short_allow_adjacent; long_allow_adjacent]
  [ ("--foo.bar=12", s_success, "foo.bar:12") ]%string.
Proof. vm_compute. reflexivity. Qed.

(** cmdline_test.cpp 444-499 [test_additional_parser] *)
Definition at_option_parser (name : str) (s : str) : str * str :=
  match s with "@"%char :: rest => (name, rest) | _ => ([], []) end.
Definition at_desc := desc_of
  [ ("response-file", t_string, "response file"); ("foo", t_int, "foo");
    ("bar,baz", t_int, "bar") ]%string.
Definition at_run (name : string) :=
  run fuel (mk_cl default_style false at_desc None (Some (at_option_parser (lit name))) None)
    (lits ["@config"; "--foo=1"; "--baz=11"]%string).
Example additional_parser_1 :
  omap (map kv) (at_run "response-file")
  = Ok (kvs [("response-file", ["config"]); ("foo", ["1"]); ("bar", ["11"])]%string).
Proof. vm_compute. reflexivity. Qed.
Example additional_parser_2 : class_of (at_run "some garbage") = Some unknown_option.
Proof. vm_compute. reflexivity. Qed.

(** cmdline_test.cpp 501-539 [test_style_parser] *)
Definition at_option_parser2 : style_parser := fun args =>
  match args with
  | ("@"%char :: _) :: rest =>
      Ok ([mk_popt $"foo" (-1) [$"1"] [] false false;
           mk_popt $"bar" (-1) [$"1"] [] false false], rest)
  | _ => Ok ([], args)
  end.
Example style_parser_1 :
  omap (map kv)
    (run fuel (mk_cl default_style false
                 (desc_of [("foo", t_int, "foo"); ("bar", t_int, "bar")]%string)
                 None None (Some at_option_parser2)) [$"@config"])
  = Ok (kvs [("foo", ["1"]); ("bar", ["1"])]%string).
Proof. vm_compute. reflexivity. Qed.

(** cmdline_test.cpp 541-616 [test_unregistered] *)
Example unregistered_1 :
  omap (map (fun o => (kvu o, po_pos o)))
    (run fuel (mk_cl default_style true [] None None None)
       (lits ["--foo=1"; "--bar"; "1"; "-b"; "-biz"]%string))
  = Ok (combine (kvus [("foo", ["1"], true); ("bar", [], true); ("", ["1"], false);
                       ("-b", [], true); ("-b", ["iz"], true)]%string)
                [(-1); (-1); 0; (-1); (-1)]%Z).
Proof. vm_compute. reflexivity. Qed.
Example unregistered_2 :
  omap (map kvu)
    (run fuel (mk_cl default_style true
                 (desc_of [("help,h", flag, ""); ("magic,m", t_string, "")]%string) None None None)
       (lits ["-hc"; "-mc"]%string))
  = Ok (kvus [("help", [], false); ("-c", [], true); ("magic", ["c"], false)]%string).
Proof. vm_compute. reflexivity. Qed.

(** cmdline_test.cpp 618-642 [test_implicit_value] *)
Example implicit_value_1 : test_cmdline "foo? bar?" [allow_long; long_allow_adjacent]
  [ ("--foo bar", s_success, "foo:bar");
    ("--foo --bar", s_success, "foo: bar:");
    ("--foo --biz", s_unknown_option, "") ]%string.
Proof. vm_compute. reflexivity. Qed.
