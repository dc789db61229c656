(** C99: settings mean the same wherever they come from. *)

From Coq Require Import List Ascii String NArith ZArith Bool Arith Lia.
From Verif Require Import Base Errors Spec BaseFacts Values OptDesc SpecLookup LookupFacts Positional Cmdline Parsers VarMap
  SpecCmdline CmdlineFacts ConfigFile SpecStore StoreFacts SpecSame Samples Witness.
From Verif Require SpecConfig PropCmdline PropConfig.
Import ListNotations.

(** ** Storing *)

Lemma store_options_same ds pre1 pre2 final utf8 os1 os2 : Forall2 same_setting os1 os2 ->
  forall m nf m1 nf1 r1 m2 nf2 r2,
  store_options ds pre1 final utf8 os1 m nf = (m1, nf1, r1) -> store_options ds pre2 final utf8 os2 m nf = (m2, nf2, r2) ->
  m1 = m2 /\ nf1 = nf2 /\ same_end r1 r2.
Proof.
  induction 1 as [|o1 o2 os1 os2 (Hk & Hv & Hu) _ IH]; intros m nf m1 nf1 r1 m2 nf2 r2 H1 H2; cbn [store_options] in H1, H2.
  - injection H1 as <- <- <-. injection H2 as <- <- <-. repeat split. constructor.
  - rewrite <- Hk, <- Hv, <- Hu in H2. destruct (is_empty (po_key o1)); [eapply IH; eassumption|].
    destruct (po_unreg o1); [eapply IH; eassumption|]. destruct (ss_mem (po_key o1) final); [eapply IH; eassumption|].
    destruct (find ds (po_key o1) false false false) as [d|e|u|].
    2-4: (injection H1 as <- <- <-; injection H2 as <- <- <-; split; [reflexivity|]; split; [reflexivity|]; constructor).
    match type of H1 with context [vs_parse ?a ?b ?c ?d] => destruct (vs_parse a b c d) as [a0 [[]|e|u|]] end; [eapply IH; eassumption| | |];
    (injection H1 as <- <- <-; injection H2 as <- <- <-; split; [reflexivity|]; split; [reflexivity|]; constructor).
Qed.

Lemma set_keys_same {V} k (v1 v2 : V) : forall m1 m2, map fst m1 = map fst m2 -> map fst (sm_set k v1 m1) = map fst (sm_set k v2 m2).
Proof.
  induction m1 as [|[k1 x1] m1 IH]; intros [|[k2 x2] m2] H; try discriminate; [reflexivity|]. injection H as <- H. cbn [sm_set].
  destruct (str_cmp k k1); cbn; f_equal; auto. now f_equal.
Qed.

Lemma store_defaults_same ds pre1 pre2 : forall m req1 req2 m1 q1 m2 q2,
  map fst req1 = map fst req2 -> store_defaults ds pre1 m req1 = (m1, q1) -> store_defaults ds pre2 m req2 = (m2, q2) ->
  m1 = m2 /\ map fst q1 = map fst q2.
Proof.
  induction ds as [|d ds IH]; intros m req1 req2 m1 q1 m2 q2 Hr H1 H2; cbn [store_defaults] in H1, H2.
  - injection H1 as <- <-. injection H2 as <- <-. auto.
  - destruct (is_empty (od_key d [])); [eapply IH; eassumption|]. eapply IH; [|exact H1|exact H2].
    destruct (vs_required (od_sem d)); [|exact Hr]. now apply set_keys_same.
Qed.

(** C99. Sources with the same names and values have the same effect on a map, whatever the tokens they came from: they are stored
    with the same result, or fail for the same reason at the same option. *)
Theorem C99_store : forall p1 p2 vm1 vm2 utf8 vm1' vm2' r1 r2,
  same_settings p1 p2 -> alike vm1 vm2 ->
  store p1 vm1 utf8 = (vm1', r1) -> store p2 vm2 utf8 = (vm2', r2) -> alike vm1' vm2' /\ same_end r1 r2.
Proof.
  intros p1 p2 [m f q1] [m2 f2 q2] utf8 vm1' vm2' r1 r2 [Hd Ho] (Em & Ef & Eq) H1 H2. cbn [vm_map vm_final vm_required] in *. subst m2 f2.
  unfold store in *. rewrite <- Hd in H2. cbn [vm_map vm_final vm_required] in *.
  destruct (pr_desc p1) as [ds|].
  2:{ injection H1 as <- <-. injection H2 as <- <-. split; [repeat split; exact Eq|constructor]. }
  destruct (store_options ds (pr_prefix p1) f utf8 (pr_options p1) m []) as [[m1 nf1] s1] eqn:E1.
  destruct (store_options ds (pr_prefix p2) f utf8 (pr_options p2) m []) as [[m2 nf2] s2] eqn:E2.
  destruct (store_options_same _ _ _ _ _ _ _ Ho _ _ _ _ _ _ _ _ E1 E2) as (<- & <- & Hs).
  destruct Hs as [[[]|e|u|]|name t1 t2 x1 x2 e].
  - destruct (store_defaults ds (pr_prefix p1) m1 q1) as [m3 q3] eqn:D1. destruct (store_defaults ds (pr_prefix p2) m1 q2) as [m4 q4] eqn:D2.
    destruct (store_defaults_same _ _ _ _ _ _ _ _ _ _ Eq D1 D2) as [<- Hq]. injection H1 as <- <-. injection H2 as <- <-.
    split; [repeat split; exact Hq|constructor].
  - injection H1 as <- <-. injection H2 as <- <-. split; [repeat split; exact Eq|constructor].
  - injection H1 as <- <-. injection H2 as <- <-. split; [repeat split; exact Eq|constructor].
  - injection H1 as <- <-. injection H2 as <- <-. split; [repeat split; exact Eq|constructor].
  - injection H1 as <- <-. injection H2 as <- <-. split; [repeat split; exact Eq|constructor].
Qed.
Print Assumptions C99_store.

(** C99. Such maps have the same entries, and [notify] does the same on them; if it reports a missing option, it is the same option. *)
Theorem C99_notify : forall vm1 vm2, alike vm1 vm2 ->
  (forall name, entry vm1 name = entry vm2 name)
  /\ (notify vm1 = notify vm2
      \/ exists name x1 x2, In (name, x1) (vm_required vm1) /\ In (name, x2) (vm_required vm2) /\ ~ has_value vm1 name
           /\ notify vm1 = ([], Throw (mk_required_option x1)) /\ notify vm2 = ([], Throw (mk_required_option x2))).
Proof.
  intros [m f q1] [m2 f2 q2] (Em & Ef & Eq). cbn [vm_map vm_final vm_required] in *. subst m2 f2. split; [reflexivity|].
  unfold notify, has_value, entry. cbn [vm_map vm_required].
  assert (K : (check_required q1 m = check_required q2 m) \/ exists name x1 x2,
    In (name, x1) q1 /\ In (name, x2) q2 /\ ~ (exists v x, sm_find name m = Some v /\ vv_value v = Some x)
    /\ check_required q1 m = Throw (mk_required_option x1) /\ check_required q2 m = Throw (mk_required_option x2)).
  { revert q2 Eq. induction q1 as [|[k x1] q1 IH]; intros [|[k2 x2] q2] Eq; try discriminate; [now left|]. injection Eq as <- Eq.
    cbn [check_required]. destruct (sm_find k m) as [v|] eqn:Em.
    - destruct (any_empty (vv_value v)) eqn:Ev.
      + right. exists k, x1, x2. split; [now left|]. split; [now left|]. split; [|auto]. rewrite Em. intros (v' & x & [= <-] & K).
        now rewrite K in Ev.
      + destruct (IH _ Eq) as [K|(name & y1 & y2 & K1 & K2 & K)]; [now left|]. right. exists name, y1, y2. split; [now right|]. split; [now right|exact K].
    - right. exists k, x1, x2. split; [now left|]. split; [now left|]. split; [|auto]. rewrite Em. intros (v' & x & [=] & _). }
  destruct K as [->|(name & x1 & x2 & K1 & K2 & K3 & K4 & K5)]; [now left|]. right. exists name, x1, x2. rewrite K4, K5. split; [exact K1|]. split; [exact K2|]. split; [exact K3|]. auto.
Qed.
Print Assumptions C99_notify.

(** C99. So whole histories of such sources lead to such maps. *)
Theorem C99_histories : forall h1 h2,
  Forall2 (fun a b => same_settings (fst a) (fst b) /\ snd a = snd b) h1 h2 ->
  forall vm1 vm2 vm1', alike vm1 vm2 -> stores vm1 h1 vm1' -> exists vm2', stores vm2 h2 vm2' /\ alike vm1' vm2'.
Proof.
  induction 1 as [|[p1 u1] [p2 u2] h1 h2 (Hp & Hu) _ IH]; intros vm1 vm2 vm1' Ha H; cbn [fst snd] in *.
  - inversion H; subst. exists vm2. split; [constructor|exact Ha].
  - inversion H as [|? ? ? vm3 ? ? K1 K2]; subst. destruct (store p2 vm2 u2) as [vm4 r] eqn:E.
    destruct (C99_store _ _ _ _ _ _ _ _ _ Hp Ha K1 E) as [Ha' He]. inversion He; subst.
    destruct (IH _ _ _ Ha' K2) as (vm2' & K3 & K4). exists vm2'. split; [econstructor; eauto|exact K4].
Qed.
Print Assumptions C99_histories.

(** ** Reading *)

Lemma settable_takes c n : settable c n -> takes_one c n n.
Proof.
  intros (Hn & _ & _ & _ & _ & _ & d & Hd & (q & Hm) & Hs & Hl & H1 & H2). exists d. repeat (split; [assumption|]).
  split; [left; exists n, q; auto|]. split; [exact Hn|]. eexists. exact Hl.
Qed.

Lemma named_same pairs res orig : named_options (map fst pairs) (map (fun kv => [snd kv]) pairs) orig res ->
  Forall2 same_setting res (map (fun nv : str * str => SpecConfig.config_option (fst nv) (snd nv) false) pairs).
Proof.
  intros (H1 & H2 & _ & H4). revert pairs H1 H2. induction H4 as [|o res [_ Hu] _ IH]; intros [|[n v] pairs] H1 H2; try discriminate; [constructor|].
  injection H1 as Hk H1. injection H2 as Hv H2. cbn [map]. constructor; [|now apply IH]. repeat split; assumption.
Qed.

Lemma environ_same vars (pairs : list (str * str)) (g : str -> str) : Forall2 (fun x nv => g x = fst nv) vars pairs ->
  Forall (fun nv : str * str => fst nv <> []) pairs ->
  Forall2 same_setting
    (map (fun nv : str * str => SpecConfig.config_option (fst nv) (snd nv) false) pairs)
    (map (fun nv => SpecConfig.env_option (g (fst nv)) (snd nv)) (filter (fun nv => negb (is_empty (g (fst nv)))) (combine vars (map snd pairs)))).
Proof.
  induction 1 as [|x nv vars pairs Hg _ IH]; intros Hf; [constructor|]. inversion Hf as [|? ? Hn Hf']; subst.
  cbn [map combine filter fst snd]. rewrite Hg. destruct (fst nv) as [|ch n] eqn:En; [contradiction|]. cbn [is_empty negb map].
  constructor; [|now apply IH]. cbn [fst snd]. rewrite Hg. repeat split.
Qed.

(** C99. Settings of registered options can be given as arguments "--name=value", as lines "name=value" of a config file, or as
    environment variables with a name mapper.  Each parses; *)
Theorem C99_parse : forall c settings vars (g : str -> str) allow,
  plain c -> has (cl_style c) allow_long = true ->
  SpecConfig.all_named (cl_desc c) -> SpecConfig.compatible (cl_desc c) ->
  Forall (fun nv => settable c (fst nv) /\ anywhere (snd nv)) settings ->
  Forall2 (fun x nv => without c_eq x /\ g x = fst nv) vars settings ->
  exists res file env,
    parse c (as_arguments settings) = Ok res
    /\ parse_config_file (as_file settings) (cl_desc c) allow = Ok file
    /\ parse_environment (as_variables vars settings) (cl_desc c) (fun x => Ok (g x)) = Ok env
    /\ forall prefix, same_settings (mk_parsed res (Some (cl_desc c)) prefix) file /\ same_settings file env.
Proof.
  intros c S vars g allow Hp Hl Hn Hc HS Hv.
  destruct (PropCmdline.C14_round_trip c (as_arguments S) S Hp) as (res & H1 & H2).
  { unfold as_arguments. clear Hv. induction HS as [|nv S [H1 H2] _ IH]; [constructor|]. cbn [map]. constructor; [|exact IH].
    exists (fst nv). split; [|now apply settable_takes]. destruct H1 as (K1 & K2 & K3 & _), H2 as (L1 & _). now apply sp_long. }
  pose proof (PropConfig.C28_round_trip (cl_desc c) allow S Hn Hc) as H3.
  assert (HS2 : Forall (fun nv => SpecConfig.accepts (cl_desc c) (fst nv) /\ SpecConfig.trimmed (fst nv) /\ SpecConfig.trimmed (snd nv)
    /\ without c_eq (fst nv) /\ without c_hash (fst nv) /\ without c_nl (fst nv)
    /\ without c_hash (snd nv) /\ without c_nl (snd nv)
    /\ ~ SpecConfig.bracketed (fst nv ++ [c_eq] ++ snd nv)) S).
  { eapply Forall_impl; [|exact HS]. cbn beta. intros nv [(K1 & K2 & K3 & K4 & K5 & K6 & d & Kd & Km & _) (L1 & L2 & L3 & L4)].
    split; [left; exists d; auto|]. repeat (split; [assumption|]). intros (t & E). destruct (fst nv) as [|ch n] eqn:En; [now apply K1|].
    cbn [app] in E. injection E as -> _. now apply (K6 n). }
  specialize (H3 HS2).
  pose proof (PropConfig.C35_mapper (cl_desc c) (combine vars (map snd S)) g) as H4.
  assert (Hw : Forall (fun nv : str * str => without c_eq (fst nv)) (combine vars (map snd S))).
  { clear - Hv. induction Hv as [|x nv vars S [H _] _ IH]; [constructor|]. cbn [map combine]. now constructor. }
  specialize (H4 Hw). do 3 eexists. split; [exact H1|]. split; [exact H3|]. split; [exact H4|]. intros prefix. split.
  - split; [reflexivity|]. cbn [pr_options]. eapply named_same. exact H2.
  - split; [reflexivity|]. cbn [pr_options]. apply environ_same.
    + clear - Hv. induction Hv as [|x nv vars S [_ H] _ IH]; constructor; auto.
    + eapply Forall_impl; [|exact HS]. cbn beta. intros nv [(K & _) _]. exact K.
Qed.
Print Assumptions C99_parse.

(** C99. and each of the three has the same effect when it is stored. *)
Theorem C99_everywhere : forall c settings vars (g : str -> str) allow,
  plain c -> has (cl_style c) allow_long = true ->
  SpecConfig.all_named (cl_desc c) -> SpecConfig.compatible (cl_desc c) ->
  Forall (fun nv => settable c (fst nv) /\ anywhere (snd nv)) settings ->
  Forall2 (fun x nv => without c_eq x /\ g x = fst nv) vars settings ->
  exists args file env,
    (let* os := parse c (as_arguments settings) in Ok (mk_parsed os (Some (cl_desc c)) (cl_prefix c))) = Ok args
    /\ parse_config_file (as_file settings) (cl_desc c) allow = Ok file
    /\ parse_environment (as_variables vars settings) (cl_desc c) (fun x => Ok (g x)) = Ok env
    /\ forall vm utf8,
         alike (fst (store args vm utf8)) (fst (store file vm utf8)) /\ same_end (snd (store args vm utf8)) (snd (store file vm utf8))
         /\ alike (fst (store file vm utf8)) (fst (store env vm utf8)) /\ same_end (snd (store file vm utf8)) (snd (store env vm utf8)).
Proof.
  intros c S vars g allow Hp Hl Hn Hc HS Hv. destruct (C99_parse c S vars g allow Hp Hl Hn Hc HS Hv) as (res & file & env & H1 & H2 & H3 & H4).
  specialize (H4 (cl_prefix c)). destruct H4 as [H4 H5]. exists (mk_parsed res (Some (cl_desc c)) (cl_prefix c)), file, env. rewrite H1.
  split; [reflexivity|]. split; [exact H2|]. split; [exact H3|]. intros vm utf8.
  destruct (store (mk_parsed res (Some (cl_desc c)) (cl_prefix c)) vm utf8) as [vm1 r1] eqn:E1. destruct (store file vm utf8) as [vm2 r2] eqn:E2.
  destruct (store env vm utf8) as [vm3 r3] eqn:E3. cbn [fst snd]. assert (Hr : alike vm vm) by (repeat split).
  destruct (C99_store _ _ _ _ _ _ _ _ _ H4 Hr E1 E2) as [K1 K2]. destruct (C99_store _ _ _ _ _ _ _ _ _ H5 Hr E2 E3) as [K3 K4]. auto.
Qed.
Print Assumptions C99_everywhere.

(** C99. An empty value is accepted in a config file but not as an argument. *)
Theorem C99_empty_refuted : forall c n,
  plain c -> has (cl_style c) allow_long = true -> SpecConfig.all_named (cl_desc c) -> SpecConfig.compatible (cl_desc c) -> settable c n ->
  (exists file, parse_config_file (as_file [(n, [])]) (cl_desc c) false = Ok file /\ map po_value (pr_options file) = [[[]]])
  /\ fails_with (parse c (as_arguments [(n, [])])) (invalid_command_line_syntax empty_adjacent_parameter).
Proof.
  intros c n Hp Hl Hn Hc (K1 & K2 & K3 & K4 & K5 & K6 & d & Kd & Km & _). split.
  - eexists. split; [apply (PropConfig.C28_round_trip (cl_desc c) false [(n, [])] Hn Hc)|reflexivity].
    constructor; [|constructor]. cbn [fst snd]. split; [left; exists d; auto|]. split; [exact K2|]. split.
    { split; [discriminate|]. intros t ch E. now destruct t. }
    repeat (split; [first [assumption|unfold without; now intros []]|]). intros (t & E). destruct n as [|ch n]; [now apply K1|].
    cbn [app] in E. injection E as -> _. now apply (K6 n).
  - unfold as_arguments. cbn [map fst snd]. rewrite app_nil_r. now apply PropCmdline.C14_empty_adjacent.
Qed.
Print Assumptions C99_empty_refuted.

Definition conf_cl : cmdline := mk_cl default_style false PropConfig.conf None None None.
Definition two_settings : list (str * str) := [($"output", $"a=b --x"); ($"number", $"5")].
Definition two_names (x : str) : str := if str_eqb x $"OUT" then $"output" else $"number".

Ltac solve_settable d := split; [discriminate|]; split; [PropConfig.solve_trimmed|]; split; [PropConfig.solve_without|]; split; [PropConfig.solve_without|];
  split; [PropConfig.solve_without|]; split; [intros t [=]|]; exists d; split; [unfold conf_cl, PropConfig.conf; cbn [cl_desc In]; auto|]; split; [eexists; reflexivity|];
  split; [cbn; intuition discriminate|]; split; [reflexivity|]; split; [discriminate|discriminate].

Example C99_ex :
  plain conf_cl /\ has (cl_style conf_cl) allow_long = true
  /\ SpecConfig.all_named (cl_desc conf_cl) /\ SpecConfig.compatible (cl_desc conf_cl)
  /\ Forall (fun nv => settable conf_cl (fst nv) /\ anywhere (snd nv)) two_settings
  /\ Forall2 (fun x nv => without c_eq x /\ two_names x = fst nv) [$"OUT"; $"NUM"] two_settings
  /\ as_file two_settings = $"output=a=b --x" ++ [c_nl] ++ $"number=5" ++ [c_nl]
  /\ as_variables [$"OUT"; $"NUM"] two_settings = [$"OUT=a=b --x"; $"NUM=5"]
  /\ as_arguments two_settings = [$"--output=a=b --x"; $"--number=5"].
Proof.
  split; [now split|]. split; [reflexivity|]. split; [exact PropConfig.conf_named|]. split; [exact PropConfig.conf_compatible|].
  assert (A : forall v, v = $"a=b --x" \/ v = $"5" -> anywhere v).
  { intros v [->| ->]; (split; [discriminate|]; split; [PropConfig.solve_trimmed|]; split; [PropConfig.solve_without|PropConfig.solve_without]). }
  split.
  { constructor; [|constructor; [|constructor]]; cbn [fst snd]; (split; [|apply A; auto]).
    - solve_settable o_output.
    - solve_settable o_number. }
  split; [constructor; [split; [PropConfig.solve_without|reflexivity]|constructor; [split; [PropConfig.solve_without|reflexivity]|constructor]]|].
  repeat split.
Qed.

(** The same failure, blamed on differently spelled options. *)
Example C99_ex_failure :
  let e := mk_invalid_option_value $"x" in
  snd (store (mk_parsed [mk_popt $"number" (-1) [$"x"] [$"--number=x"] false false] (Some PropConfig.conf) allow_long) vm_new false)
      = Throw (add_context $"number" $"--number=x" allow_long e)
    /\ snd (store (mk_parsed [SpecConfig.config_option $"number" $"x" false] (Some PropConfig.conf) 0) vm_new false)
      = Throw (add_context $"number" $"number" 0 e).
Proof. cbv zeta. split; [vm_compute; reflexivity|vm_compute; reflexivity]. Qed.
