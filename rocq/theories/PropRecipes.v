(** C119: what the functions of the example programs do, for all uses of them. *)

From Coq Require Import List Ascii String NArith ZArith Bool Lia.
From Verif Require Import Base Errors Spec BaseFacts Values OptDesc SpecLookup Positional Cmdline Parsers VarMap Objects
  SpecCmdline SpecConfig SpecStore StoreFacts Recipes SpecRecipes RecipeFacts PropCmdline2 PropStore EndFacts.
Import ListNotations.

(** ** Checks of combinations of options *)

(** [conflicting_options] throws if the sources stored so far give both options, whatever the defaults, and otherwise does nothing; *)
Theorem C119_conflict : forall h vm a b,
  stores vm_new h vm -> a <> [] -> b <> [] ->
  (mentioned h a /\ mentioned h b ->
     conflicting_options vm [] a b
     = Throw (plain_exn (std_logic_error ($"Conflicting options '" ++ a ++ $"' and '" ++ b ++ $"'."))))
  /\ (~ (mentioned h a /\ mentioned h b) -> conflicting_options vm [] a b = Ok tt).
Proof.
  intros h vm a b H Ha Hb. rewrite <- (seen_unchained h vm a H Ha), <- (seen_unchained h vm b H Hb). unfold conflicting_options.
  destruct (seen vm [] a), (seen vm [] b); cbn [andb]; split; intros K; try reflexivity; try (exfalso; apply K; split; reflexivity);
    destruct K; discriminate.
Qed.

(** [option_dependency] throws if they give the first option and not the second, and otherwise does nothing. *)
Theorem C119_dependency : forall h vm a b,
  stores vm_new h vm -> a <> [] -> b <> [] ->
  (mentioned h a /\ ~ mentioned h b ->
     option_dependency vm [] a b
     = Throw (plain_exn (std_logic_error ($"Option '" ++ a ++ $"' requires option '" ++ b ++ $"'."))))
  /\ (~ (mentioned h a /\ ~ mentioned h b) -> option_dependency vm [] a b = Ok tt).
Proof.
  intros h vm a b H Ha Hb. rewrite <- (seen_unchained h vm a H Ha), <- (seen_unchained h vm b H Hb). unfold option_dependency.
  assert (E : negb (counts vm b) || vv_defaulted (chain_get vm [] b) = negb (seen vm [] b)).
  { unfold seen. now destruct (counts vm b), (vv_defaulted (chain_get vm [] b)). }
  rewrite E. destruct (seen vm [] a), (seen vm [] b); cbn [negb]; split; intros K; try reflexivity;
    try (destruct K; congruence); try (exfalso; apply K; split; [reflexivity|discriminate]).
Qed.

(** If the map is linked to other maps, an option is taken to be given iff some of the maps was given it and the first one has a value
    for it, perhaps by default. *)
Theorem C119_chained : forall ty h vm hs next a b,
  filled_from ty h vm -> Forall2 (filled_from ty) hs next -> a <> [] -> b <> [] ->
  let is_given name := present vm name /\ Exists (fun h' => mentioned h' name) (h :: hs) in
  (conflicting_options vm next a b = Ok tt <-> ~ (is_given a /\ is_given b))
  /\ (option_dependency vm next a b = Ok tt <-> (is_given a -> is_given b)).
Proof.
  intros ty h vm hs next a b H Hn Ha Hb is_given. unfold is_given.
  rewrite <- (seen_chained ty h vm hs next a H Hn Ha), <- (seen_chained ty h vm hs next b H Hn Hb).
  assert (E : negb (counts vm b) || vv_defaulted (chain_get vm next b) = negb (seen vm next b)).
  { unfold seen. now destruct (counts vm b), (vv_defaulted (chain_get vm next b)). }
  unfold conflicting_options, option_dependency. rewrite E.
  destruct (seen vm next a), (seen vm next b); cbn [andb negb]; split; split; intros K; try reflexivity; try discriminate;
    try (intros [? ?]; discriminate); try (intros ?; discriminate); try (exfalso; apply K; auto; fail); auto;
    specialize (K eq_refl); discriminate.
Qed.

(** So options that only a later map of the chain was given are not noticed. *)
Definition lone := [mk_od [] [$"output"] [] (typed (fun _ _ => None) (fun s => Ok s) (value_of_type TString None));
                    mk_od [] [$"two"] [] (typed (fun _ _ => None) (fun s => Ok s) (value_of_type TString None))].
Definition said (ns : list str) : parsed_options := mk_parsed (map (fun n => mk_popt n (-1) [$"x"] [] false false) ns) (Some lone) 0.
Theorem C119_chain_refuted :
  exists vm2, stores vm_new [(said [$"output"; $"two"], false)] vm2
    /\ mentioned [(said [$"output"; $"two"], false)] $"output" /\ mentioned [(said [$"output"; $"two"], false)] $"two"
    /\ conflicting_options vm_new [vm2] $"output" $"two" = Ok tt.
Proof.
  eexists. split; [run_stores|]. split; [left; discriminate|]. split; [left; discriminate|]. reflexivity.
Qed.
Print Assumptions C119_chain_refuted.

(** ** Switches in the style of gcc *)

(** [reg_foo] reads "-fname" and "-fno-name" and nothing else; *)
Theorem C119_switch_read : forall tok,
  (forall name value, gcc_switch tok name value -> reg_foo tok = (name, value))
  /\ ((forall name value, ~ gcc_switch tok name value) -> reg_foo tok = ([], [])).
Proof. intros tok. split; [apply reg_foo_switch|apply reg_foo_none]. Qed.

(** so a command line of such switches, for options that take a value, is parsed to these options with the values "true" and
    "false". *)
Theorem C119_switches : forall c toks kvs,
  cl_style_parser c = None -> cl_additional c = Some reg_foo ->
  Forall2 (fun tok kv => exists typed, gcc_switch tok typed (snd kv) /\ typed <> [] /\ takes_one c typed (fst kv)) toks kvs ->
  exists res, parse c toks = Ok res
    /\ named_options (map fst kvs) (map (fun kv => [snd kv]) kvs) (map (fun _ => []) toks) res.
Proof.
  intros c toks kvs Hs Ha Hf.
  destruct (C24_additional_first c reg_foo toks kvs Hs Ha) as (res & Hp & Hn).
  { induction Hf as [|tok kv toks kvs (typed & Hg & Hne & d & Hl & Hmin & Hmax & Hk & Hke & Hu) _ IH]; constructor; auto.
    exists typed, d. split; [apply reg_foo_switch in Hg; exact Hg|]. repeat (split; [assumption|]).
    split; intros Hv; [|now split]. destruct Hg; discriminate. }
  exists res. split; [exact Hp|].
  replace (map (fun kv => [snd kv]) kvs) with (map (fun kv : str * str => if is_empty (snd kv) then [] else [snd kv]) kvs); [exact Hn|].
  clear Hn Hp. induction Hf as [|tok kv toks kvs (typed & Hg & _) _ IH]; [reflexivity|]. cbn [map]. rewrite IH. now destruct Hg.
Qed.

Definition id_utf8 (s : str) : outcome str := Ok s.
Definition no_cast (n : nat) (s : str) : option Z := None.
Definition a_string := typed no_cast id_utf8 (value_of_type TString None).
Definition gcc_desc : list option_description :=
  [mk_od [] [$"help"] [] (untyped id_utf8 true); mk_od [] [$"foo"] [] a_string; mk_od $"-f" [$"file"] [] a_string].
Definition gcc_cl := mk_cl default_style false gcc_desc None (Some reg_foo) None.

(** Other than with gcc, the last of several switches does not win: giving a switch twice is an error; *)
Theorem C119_switch_twice_refuted :
  exists res e, parse gcc_cl [$"-ffoo"; $"-fno-foo"] = Ok res
    /\ snd (store (mk_parsed res (Some gcc_desc) 0) vm_new false) = Throw e /\ ex_class e = multiple_occurrences.
Proof. eexists _, _. split; [reflexivity|]. split; [vm_compute; reflexivity|reflexivity]. Qed.

(** and a switch without a name is left to the library. *)
Theorem C119_bare_refuted :
  exists res, parse gcc_cl [$"-fno-"; $"-f"; $"x"] = Ok res
    /\ map (fun o => (po_key o, po_value o)) res = [($"file", [$"no-"]); ($"file", [$"x"])].
Proof. eexists. split; reflexivity. Qed.

(** ** Names of response files *)

(** "@name" gives the option "response-file" the value "name"; *)
Theorem C119_response : forall c names,
  cl_style_parser c = None -> cl_additional c = Some at_option_parser ->
  takes_one c $"response-file" $"response-file" -> Forall (fun n => n <> []) names ->
  exists res, parse c (map (fun n => $"@" ++ n) names) = Ok res
    /\ named_options (map (fun _ => $"response-file") names) (map (fun n => [n]) names) (map (fun _ => []) names) res.
Proof.
  intros c names Hs Ha (d & Hl & Hmin & Hmax & Hk & Hke & Hu) Hf.
  destruct (C24_additional_first c at_option_parser (map (fun n => $"@" ++ n) names)
              (map (fun n => ($"response-file", n)) names) Hs Ha) as (res & Hp & Hn).
  { induction Hf as [|n names Hne _ IH]; constructor; auto. exists $"response-file", d.
    split; [reflexivity|]. cbn [fst snd]. split; [discriminate|]. repeat (split; [assumption|]). split; [contradiction|now split]. }
  exists res. split; [exact Hp|]. rewrite !map_map in Hn. cbn [fst snd] in Hn.
  replace (map (fun n => [n]) names) with (map (fun x : str => if is_empty x then [] else [x]) names); [exact Hn|].
  clear Hn Hp. induction Hf as [|n names Hne _ IH]; [reflexivity|]. cbn [map]. rewrite IH. destruct n; [contradiction|reflexivity].
Qed.

(** but "@" alone makes the next word the name of the file. *)
Definition response_cl :=
  mk_cl default_style false [mk_od [] [$"response-file"] [] a_string] None (Some at_option_parser) None.
Theorem C119_response_refuted :
  exists res, parse response_cl [$"@"; $"word"] = Ok res /\ map (fun o => (po_key o, po_value o)) res = [($"response-file", [$"word"])].
Proof. eexists. split; reflexivity. Qed.

(** ** Values of the user's own type *)

(** A magic number is accepted iff it is the first and has the form XXX-XXX; then the value is the second group. *)
Theorem C119_magic : forall k v xs n,
  validate_magic k v xs = (Some (VLex k n), Ok tt) <-> v = None /\ exists s, xs = [s] /\ magic_form s n.
Proof. exact magic_iff. Qed.

(** In every map, the value of such an option comes from the only occurrence in the first source that gives it. *)
Theorem C119_magic_stored : forall u k h vm name,
  stores vm_new h vm -> name <> [] -> mentioned h name ->
  (forall p utf8 d, In (p, utf8) h -> resolves p name d -> od_sem d = magic_number u k) ->
  (forall p utf8, In (p, utf8) h -> mentions p name -> utf8 = false /\ exists d, resolves p name d) ->
  exists before p after s n,
    h = before ++ (p, false) :: after /\ never_mentioned before name /\ occurrences (pr_options p) name = [[s]]
    /\ magic_form s n /\ (0 <= n <= 999)%Z
    /\ entry vm name = Some (mk_vv (Some (VLex k n)) false (Some (magic_number u k))).
Proof.
  intros u k h vm name H Hne Hm Hd Hr.
  assert (Hsplit : exists before p utf8 after, h = before ++ (p, utf8) :: after /\ never_mentioned before name /\ mentions p name).
  { clear - Hm. unfold mentioned in Hm. induction h as [|[p utf8] h IH]; [inversion Hm|].
    destruct (occurrences_dec p name) as [Hp|Hp].
    - exists [], p, utf8, h. split; [reflexivity|]. split; [constructor|exact Hp].
    - apply Exists_cons in Hm. destruct Hm as [Hm|Hm]; [contradiction|].
      destruct (IH Hm) as (before & p' & u' & after & -> & Hn & Hp'). exists ((p, utf8) :: before), p', u', after.
      split; [reflexivity|]. split; [constructor; [exact Hp|exact Hn]|exact Hp']. }
  destruct Hsplit as (before & p & utf8 & after & -> & Hn & Hp).
  assert (Hi : In (p, utf8) (before ++ (p, utf8) :: after)) by (apply in_or_app; right; now left).
  destruct (Hr p utf8 Hi Hp) as [-> [d Hres]]. pose proof (Hd p false d Hi Hres) as Es.
  destruct (C36_first_source_wins before p false after vm name d H Hne Hn Hp Hres ltac:(now rewrite Es)) as (a & Ha & He).
  rewrite Es in Ha, He. unfold mentions in Hp.
  inversion Ha as [a0 E0|a0 xs a1 occs b Hv Hrest E1 E2]; [congruence|].
  cbn in Hv. destruct (magic_ok k None xs a1 Hv) as (_ & s & n & -> & Hf & ->). subst.
  inversion Hrest as [a2 E3|a2 xs' a3 occs' b' Hv' Hrest' E3 E4].
  - subst. exists before, p, after, s, n. split; [reflexivity|]. split; [exact Hn|]. split; [congruence|]. split; [exact Hf|].
    split; [|exact He]. destruct Hf as [? ? ? ? ? ? ? ? ? ? ? ? _ _ _ [? _] [? _] [? _]]. lia.
  - discriminate Hv'.
Qed.

(** ** The environment *)

(** The program writes the first 75 characters of the variable PATH if there is one, and the value of EXAMPLE_VERBOSE or INFO,
    where the case of the names does not matter; *)
Theorem C119_environment : forall lexical_cast utf8_to_local vars path verbosity,
  Forall (fun nv => without c_eq (fst nv) /\ ascii7 (fst nv)) vars ->
  one_variable $"PATH" vars path -> one_variable $"EXAMPLE_VERBOSE" vars verbosity ->
  get_env_options lexical_cast utf8_to_local (environ vars)
  = Ok (option_map (firstn 75) path, match verbosity with Some s => s | None => $"INFO" end).
Proof.
  intros lc u vars p q Hf Hp Hq. pose proof (env_options_result lc u vars Hf) as K.
  rewrite (take_one $"PATH" eq_refl _ _ Hp), (take_one $"EXAMPLE_VERBOSE" eq_refl _ _ Hq) in K. exact K.
Qed.

(** but if two variables differ only in case from one of them, it ends with an exception (that it does not catch); *)
Theorem C119_environment_twice : forall lexical_cast utf8_to_local vars,
  Forall (fun nv => without c_eq (fst nv) /\ ascii7 (fst nv)) vars ->
  two_variables $"PATH" vars \/ two_variables $"EXAMPLE_VERBOSE" vars ->
  exists e, get_env_options lexical_cast utf8_to_local (environ vars) = Throw e /\ ex_class e = multiple_occurrences.
Proof.
  intros lc u vars Hf H. pose proof (env_options_result lc u vars Hf) as K. destruct H as [H|H].
  - rewrite (take_two $"PATH" eq_refl _ H) in K. exact K.
  - rewrite (take_two $"EXAMPLE_VERBOSE" eq_refl _ H) in K. now destruct (take_var $"PATH" None vars).
Qed.

(** and if the name of any variable has a character that is not ASCII, its behaviour is undefined. *)
Theorem C119_environment_undefined : forall lexical_cast utf8_to_local vars,
  Forall (fun nv => without c_eq (fst nv)) vars -> Exists (fun nv => ~ ascii7 (fst nv)) vars ->
  get_env_options lexical_cast utf8_to_local (environ vars) = Undef UB_ctype.
Proof.
  intros lc u vars Hf He. unfold get_env_options, parse_environment.
  assert (E : parse_environment_loop (environ vars) mapper = Undef UB_ctype); [|now rewrite E].
  induction Hf as [|[n v] vars Hn _ IH]; [inversion He|]. cbn [environ map parse_environment_loop fst snd] in *.
  rewrite ConfigFacts.env_split_var by auto. cbn [bind fst snd].
  destruct (ascii7_dec n) as [Ha|Ha].
  - rewrite (mapper_ascii n Ha). cbn [bind]. apply Exists_cons in He. destruct He as [He|He]; [contradiction|].
    specialize (IH He). unfold environ in IH. cbn [fst snd] in IH. rewrite IH. reflexivity.
  - unfold mapper. rewrite (mapM_toupper_not n Ha). reflexivity.
Qed.

Print Assumptions C119_conflict.
Print Assumptions C119_dependency.
Print Assumptions C119_chained.
Print Assumptions C119_switch_read.
Print Assumptions C119_switches.
Print Assumptions C119_switch_twice_refuted.
Print Assumptions C119_bare_refuted.
Print Assumptions C119_response.
Print Assumptions C119_response_refuted.
Print Assumptions C119_magic.
Print Assumptions C119_magic_stored.
Print Assumptions C119_environment.
Print Assumptions C119_environment_twice.
Print Assumptions C119_environment_undefined.

(** ** The hypotheses can be met *)

(** A program with an output, a switch and a directory that is "." by default. *)
Definition tool : list option_description :=
  [mk_od [] [$"output"] [] a_string; mk_od [] [$"two"] [] a_string;
   mk_od [] [$"root"] [] (typed no_cast id_utf8 (mk_typed TString None [] (Some (VString $".", $".")) None false false false false None))].
Definition says (ns : list str) : parsed_options := mk_parsed (map (fun n => mk_popt n (-1) [$"x"] [] false false) ns) (Some tool) 0.

Example C119_ex_checks :
  exists vm, stores vm_new [(says [$"output"], false); (says [$"two"], false)] vm
    /\ mentioned [(says [$"output"], false); (says [$"two"], false)] $"output"
    /\ mentioned [(says [$"output"], false); (says [$"two"], false)] $"two"
    /\ ~ mentioned [(says [$"output"], false); (says [$"two"], false)] $"root"
    /\ present vm $"root"
    /\ (exists e, conflicting_options vm [] $"output" $"two" = Throw e)
    /\ (exists e, option_dependency vm [] $"two" $"root" = Throw e)
    /\ conflicting_options vm [] $"output" $"root" = Ok tt.
Proof.
  eexists. split; [run_stores|]. split; [left; discriminate|]. split; [right; left; discriminate|].
  split. { intros H. inversion H as [? ? K|? ? K]; subst; [now apply K|]. inversion K as [? ? K'|? ? K']; subst; [now apply K'|inversion K']. }
  split; [discriminate|]. split; [eexists; reflexivity|]. split; [eexists; reflexivity|reflexivity].
Qed.

Lemma tool_semantics : forall d, In d tool -> library_semantic TString (od_sem d).
Proof.
  intros d H. left. exists no_cast, id_utf8.
  repeat (destruct H as [<-|H]; [eexists; split; [reflexivity|]; split; [reflexivity|]; split; [split; [cbn; auto|cbn; auto]|discriminate]|]).
  destruct H.
Qed.

(** Two linked maps: the first has only the default of "root", which the second was given. *)
Example C119_ex_chained :
  exists vm1 vm2,
    filled_from (fun _ => TString) [(says [$"output"], false)] vm1
    /\ Forall2 (filled_from (fun _ => TString)) [[(says [$"root"], false)]] [vm2]
    /\ exists e, conflicting_options vm1 [vm2] $"output" $"root" = Throw e.
Proof.
  assert (C : forall ns, consistent (fun _ => TString) [(says ns, false)]).
  { intros ns p u ds name d Hi Hds Hd. destruct Hi as [Hi|[]]. injection Hi as <- <-. injection Hds as <-. apply tool_semantics.
    destruct Hd as [Hd|[Hd _]]; [apply (find_In _ _ _ _ _ _ Hd)|exact Hd]. }
  eexists _, _. split; [split; [run_stores|apply C]|]. split; [constructor; [split; [run_stores|apply C]|constructor]|].
  eexists. reflexivity.
Qed.

Example C119_ex_switches :
  Forall2 (fun tok kv => exists typed, gcc_switch tok typed (snd kv) /\ typed <> [] /\ takes_one gcc_cl typed (fst kv))
    [$"-ffoo"; $"-fno-file"] [($"foo", $"true"); ($"file", $"false")].
Proof.
  constructor; [|constructor; [|constructor]].
  - exists $"foo". split; [apply (gs_on $"foo"); intros y; destruct y; discriminate|]. split; [discriminate|].
    eexists. split; [reflexivity|]. split; [cbn; lia|]. split; [discriminate|]. split; [left; eexists _, _; split; [reflexivity|]; split; [cbn; intuition discriminate|reflexivity]|]. split; [discriminate|].
    eexists. reflexivity.
  - exists $"file". split; [apply (gs_off $"file")|]. split; [discriminate|].
    eexists. split; [reflexivity|]. split; [cbn; lia|]. split; [discriminate|]. split; [left; eexists _, _; split; [reflexivity|]; split; [cbn; intuition discriminate|reflexivity]|]. split; [discriminate|].
    eexists. reflexivity.
Qed.

Example C119_ex_response : takes_one response_cl $"response-file" $"response-file".
Proof.
  eexists. split; [reflexivity|]. split; [cbn; lia|]. split; [discriminate|]. split; [left; eexists _, _; split; [reflexivity|]; split; [cbn; intuition discriminate|reflexivity]|]. split; [discriminate|].
  eexists. reflexivity.
Qed.

Definition magic_desc := [mk_od $"-m" [$"magic"] [] (magic_number id_utf8 7)].
Definition magic_source := mk_parsed [mk_popt $"magic" (-1) [$"123-456"] [] false false] (Some magic_desc) 0.
Example C119_ex_magic :
  magic_form $"123-456" 456
  /\ exists vm, stores vm_new [(magic_source, false)] vm /\ mentioned [(magic_source, false)] $"magic"
     /\ resolves magic_source $"magic" (mk_od $"-m" [$"magic"] [] (magic_number id_utf8 7))
     /\ option_map vv_value (entry vm $"magic") = Some (Some (VLex 7 456)).
Proof.
  split.
  - apply (mf "1" "2" "3" 1 2 3 "4" "5" "6" 4 5 6); split; try lia; reflexivity.
  - eexists. split; [run_stores|]. split; [left; discriminate|]. split; [exists magic_desc; split; reflexivity|reflexivity].
Qed.

Example C119_ex_environment :
  one_variable $"PATH" [($"HOME", $"/root"); ($"Path", $"/bin")] (Some $"/bin")
  /\ one_variable $"EXAMPLE_VERBOSE" [($"HOME", $"/root"); ($"Path", $"/bin")] None
  /\ two_variables $"PATH" [($"PATH", $"/usr/bin"); ($"Path", $"/bin")].
Proof.
  split; [|split].
  - apply (ov_one $"PATH" [($"HOME", $"/root")] $"Path" $"/bin" []); [|apply same_up_to_case_map; reflexivity].
    constructor; [|constructor]. intros H. apply same_up_to_case_map in H. discriminate.
  - constructor. constructor; [|constructor; [|constructor]]; intros H; apply same_up_to_case_map in H; discriminate.
  - exists [], $"PATH", $"/usr/bin", [], $"Path", $"/bin", []. split; [reflexivity|].
    split; apply same_up_to_case_map; reflexivity.
Qed.
