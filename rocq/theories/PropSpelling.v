(** C101: command lines that say the same in other words. *)

From Coq Require Import List Ascii String NArith ZArith Bool Lia.
From Verif Require Import Base Errors Spec BaseFacts Values OptDesc SpecLookup LookupFacts Positional Cmdline SpecCmdline
  CmdlineFacts SpecReject SpecGrammar GrammarFacts SpecSpelling Samples PropCmdline PropCmdline2 PropGrammar.
From Verif Require PropLookup.
Import ListNotations.

Lemma popt_of_inj : forall i j, keyed i -> keyed j -> popt_of i = popt_of j -> i = j.
Proof.
  intros [k u vs ts|v t|t] [k' u' vs' ts'|v' t'|t'] Hi Hj E; cbn in *; unfold raw, term_opt in E; injection E; intros; subst; try congruence; try discriminate.
Qed.

Lemma popts_of_inj : forall is js, Forall keyed is -> Forall keyed js -> map popt_of is = map popt_of js -> is = js.
Proof.
  induction is as [|i is IH]; intros [|j js] Hi Hj E; try discriminate E; [reflexivity|]. cbn [map] in E. injection E as E1 E2.
  f_equal; [apply popt_of_inj; [exact (Forall_inv Hi)|exact (Forall_inv Hj)|assumption]|].
  apply IH; [exact (Forall_inv_tail Hi)|exact (Forall_inv_tail Hj)|assumption].
Qed.

Lemma consists_fun : forall c args is js, cl_style_parser c = None -> Forall has_name (cl_desc c) ->
  consists_of c args is -> consists_of c args js -> is = js.
Proof.
  intros c args is js H1 H2 Hi Hj.
  assert (Ei := proj2 (main_iff c H1 _ args (map popt_of is) (le_n _)) (ex_intro _ is (conj Hi eq_refl))).
  assert (Ej := proj2 (main_iff c H1 _ args (map popt_of js) (le_n _)) (ex_intro _ js (conj Hj eq_refl))).
  rewrite Ei in Ej. injection Ej as E. apply popts_of_inj; [eapply consists_keyed; eauto|eapply consists_keyed; eauto|assumption].
Qed.

Lemma completed_frame : forall c m taken i rest, completed c m taken i [] -> completed c m (taken ++ rest) i rest.
Proof.
  intros c m taken i rest H. remember [] as e eqn:E. destruct H; subst.
  - constructor.
  - constructor; assumption.
  - rewrite app_nil_r. econstructor; eassumption.
Qed.

Lemma all_completed_frame : forall c ms taken is rest, all_completed c ms taken is [] -> all_completed c ms (taken ++ rest) is rest.
Proof.
  intros c ms taken is rest H. remember [] as e eqn:E. induction H; subst.
  - constructor. apply completed_frame. assumption.
  - constructor; auto.
Qed.

Lemma writes_consists : forall c toks is rest is', writes c toks is -> consists_of c rest is' -> consists_of c (toks ++ rest) (is ++ is').
Proof.
  intros c toks is rest is' H Hr. induction H as [|tok taken ms is1 more is2 Hs Ha _ IH]; [assumption|].
  cbn [app]. rewrite <- !app_assoc. econstructor; [exact Hs| |exact IH]. apply all_completed_frame. assumption.
Qed.

Lemma like_refl : forall i, like_item i i.
Proof. intros []; constructor. Qed.

Lemma Forall2_like_refl : forall is, Forall2 like_item is is.
Proof. induction is; constructor; auto using like_refl. Qed.

Lemma respelled_consists : forall c args args', respelled c args args' ->
  exists is is', consists_of c args is /\ consists_of c args' is' /\ Forall2 like_item is is'.
Proof.
  intros c args args' H. induction H as [|rest Ho|tok rest rest' Ho Hd _ (is & is' & H1 & H2 & H3)|toks toks' is is' rest rest' Hw Hw' Hl _ (js & js' & H1 & H2 & H3)].
  - exists [], []. repeat constructor.
  - exists (map Verbatim rest), (map Verbatim rest). split; [constructor; assumption|]. split; [constructor; assumption|]. apply Forall2_like_refl.
  - exists (Argument tok tok :: is), (Argument tok tok :: is'). split; [constructor; assumption|]. split; [constructor; assumption|].
    constructor; [constructor|assumption].
  - exists (is ++ js), (is' ++ js'). split; [apply writes_consists; assumption|]. split; [apply writes_consists; assumption|].
    apply Forall2_app; assumption.
Qed.

Lemma like_args : forall more is js, Forall2 like_item (map (fun vt => Argument (fst vt) (snd vt)) more ++ is) js ->
  exists more' is', js = map (fun vt => Argument (fst vt) (snd vt)) more' ++ is' /\ map fst more' = map fst more /\ Forall2 like_item is is'.
Proof.
  induction more as [|[v t] more IH]; intros is js H.
  - exists [], js. repeat split. assumption.
  - cbn [map app fst snd] in H. inversion H as [|? j ? js' Hj Hjs]; subst. inversion Hj; subst.
    destruct (IH _ _ Hjs) as (more' & is' & -> & E & H'). exists ((v, t') :: more'), is'. cbn. rewrite E. repeat split. assumption.
Qed.

Lemma like_gathered : forall c is X, gathered c is X -> forall is', Forall2 like_item is is' ->
  exists X', gathered c is' X' /\ Forall2 like_item X X'.
Proof.
  intros c is X H. induction H as [|v t is X _ IH|t is X _ IH|key u vs ts is X Hl _ IH|key u vs ts d more k is X Hl Hc Hlim Hend _ IH]; intros is' H'.
  - inversion H'; subst. exists []. repeat constructor.
  - inversion H' as [|? j ? js Hj Hjs]; subst. inversion Hj; subst. destruct (IH _ Hjs) as (X' & HX & HL).
    eexists. split; [constructor; exact HX|]. constructor; [constructor|assumption].
  - inversion H' as [|? j ? js Hj Hjs]; subst. inversion Hj; subst. destruct (IH _ Hjs) as (X' & HX & HL).
    eexists. split; [constructor; exact HX|]. constructor; [constructor|assumption].
  - inversion H' as [|? j ? js Hj Hjs]; subst. inversion Hj; subst. destruct (IH _ Hjs) as (X' & HX & HL).
    eexists. split; [apply ga_unknown; eassumption|]. constructor; [constructor|assumption].
  - inversion H' as [|? j ? js Hj Hjs]; subst. inversion Hj; subst.
    destruct (like_args _ _ _ Hjs) as (more' & is1 & -> & Em & Hl1). destruct (IH _ Hl1) as (X' & HX & HL).
    assert (El : List.length more' = List.length more) by (rewrite <- (map_length fst more'), Em, map_length; reflexivity).
    eexists. split.
    + apply ga_known with (d := d) (k := k); [assumption|assumption| | |exact HX].
      * rewrite El. assumption.
      * rewrite El. destruct Hend as [Hend|Hend]; [left; assumption|right]. intros (v & t & is2 & ->). apply Hend.
        inversion Hl1 as [|i ? is3 ? Hi _]; subst. inversion Hi; subst. unfold starts_with_argument. eauto.
    + constructor; [|assumption]. rewrite Em. constructor.
Qed.

Lemma like_returned : forall c k X r, returned c k X r -> forall X', Forall2 like_item X X' ->
  exists r', returned c k X' r' /\ Forall2 same_option r r'.
Proof.
  intros c k X r H. induction H as [k|k key u vs ts b is os Hb _ IH|k v t name b is os Hn Hb _ IH|k t name b is os Hn Hb _ IH]; intros X' H'.
  - inversion H'; subst. exists []. repeat constructor.
  - inversion H' as [|? j ? js Hj Hjs]; subst. inversion Hj; subst. destruct (IH _ Hjs) as (r' & Hr & HS).
    eexists. split; [constructor; eassumption|]. constructor; [repeat split|assumption].
  - inversion H' as [|? j ? js Hj Hjs]; subst. inversion Hj; subst. destruct (IH _ Hjs) as (r' & Hr & HS).
    eexists. split; [constructor; eassumption|]. constructor; [repeat split|assumption].
  - inversion H' as [|? j ? js Hj Hjs]; subst. inversion Hj; subst. destruct (IH _ Hjs) as (r' & Hr & HS).
    eexists. split; [constructor; eassumption|]. constructor; [repeat split|assumption].
Qed.

(** C101. A command line in other words has the same result, but for the tokens that are quoted, *)
Theorem C101_same_result : forall c args args' r,
  cl_style_parser c = None -> Forall has_name (cl_desc c) -> Forall (fun d => sensible d /\ fits d) (cl_desc c) ->
  (Z.of_nat (List.length args) < INT_MAX)%Z -> (Z.of_nat (List.length args') < INT_MAX)%Z ->
  respelled c args args' -> parse c args = Ok r ->
  exists r', parse c args' = Ok r' /\ Forall2 same_option r r'.
Proof.
  intros c args args' r H1 H2 H3 Hn Hn' Hr Hp.
  apply (C84_grammar c args H1 H2 H3 Hn) in Hp. destruct Hp as (is & X & Hc & Hg & Hx).
  destruct (respelled_consists _ _ _ Hr) as (js & js' & Hj & Hj' & Hl).
  assert (is = js) by (eapply consists_fun; eauto). subst js.
  destruct (like_gathered _ _ _ Hg _ Hl) as (X' & Hg' & HX). destruct (like_returned _ _ _ _ Hx _ HX) as (r' & Hr' & Hs).
  exists r'. split; [|assumption]. apply (C84_grammar c args' H1 H2 H3 Hn'). exists js', X'. repeat split; assumption.
Qed.
Print Assumptions C101_same_result.

Lemma respelled_sym : forall c args args', respelled c args args' -> respelled c args' args.
Proof.
  intros c args args' H. induction H; try (constructor; assumption). econstructor; [eassumption|eassumption| |assumption].
  clear - H1. induction H1 as [|i j is js Hi _ IH]; constructor; [|assumption]. destruct Hi; constructor.
Qed.

(** C101. and is rejected if the other is. *)
Theorem C101_same_failure : forall c args args',
  cl_style_parser c = None -> Forall has_name (cl_desc c) -> Forall (fun d => sensible d /\ fits d) (cl_desc c) ->
  (Z.of_nat (List.length args) < INT_MAX)%Z -> (Z.of_nat (List.length args') < INT_MAX)%Z ->
  respelled c args args' -> (exists r, parse c args = Ok r) <-> (exists r, parse c args' = Ok r).
Proof.
  intros c args args' H1 H2 H3 Hn Hn' Hr. split; intros [r Hp].
  - destruct (C101_same_result _ _ _ _ H1 H2 H3 Hn Hn' Hr Hp) as (r' & Hp' & _). eauto.
  - destruct (C101_same_result _ _ _ _ H1 H2 H3 Hn' Hn (respelled_sym _ _ _ Hr) Hp) as (r' & Hp' & _). eauto.
Qed.
Print Assumptions C101_same_failure.

Lemma writes_one c tok taken ms is : stands_for c tok ms -> all_completed c ms taken is [] -> writes c (tok :: taken) is.
Proof.
  intros Hs Ha. rewrite <- (app_nil_r taken), <- (app_nil_r is). econstructor; [eassumption|eassumption|constructor].
Qed.

Lemma perhaps_some (v : str) : v <> [] -> perhaps v = [v].
Proof. destruct v; [contradiction|reflexivity]. Qed.

Lemma completed_adjacent c n v ts d key : n <> [] -> known_as c d key n -> vs_min (od_sem d) = 1%Z -> (1 <= vs_max (od_sem d))%Z ->
  completed c (mk_mention n [v] ts) [] (Option_ key false [v] ts) [].
Proof.
  intros Hn [Hl Hk] H1 H2. assert (H := cm_known c n [v] ts d key [] [] Hn Hl Hk). rewrite !app_nil_r in H. apply H; [| |constructor].
  - intros _ E. rewrite E in H2. lia.
  - rewrite H1. reflexivity.
Qed.

Lemma completed_next c n v ts d key : n <> [] -> known_as c d key n -> vs_min (od_sem d) = 1%Z -> may_be_value c v ->
  completed c (mk_mention n [] ts) [v] (Option_ key false [v] (ts ++ [v])) [].
Proof.
  intros Hn [Hl Hk] H1 Hv. apply (cm_known c n [] ts d key [v] [] Hn Hl Hk); [congruence| |constructor; [assumption|constructor]].
  rewrite H1. reflexivity.
Qed.

Lemma completed_flag c n ts d key : n <> [] -> known_as c d key n -> vs_min (od_sem d) = 0%Z ->
  completed c (mk_mention n [] ts) [] (Option_ key false [] ts) [].
Proof.
  intros Hn [Hl Hk] H1. assert (H := cm_known c n [] ts d key [] [] Hn Hl Hk). rewrite !app_nil_r in H. apply H; [congruence| |constructor].
  rewrite H1. reflexivity.
Qed.

Lemma value_writes c d key v toks : vs_min (od_sem d) = 1%Z -> (1 <= vs_max (od_sem d))%Z -> value_spelling c d key v toks ->
  exists ts, writes c toks [Option_ key false [v] ts].
Proof.
  intros H1 H2 H. destruct H as [n Hu Ho Hn Hw Hv Hk|n Hu Ho Hn Hw Hv Hk|x Hx Hv Hs Hk|x Hx Hs Hv Hk|x Hx Hv Hk|x Hx Hv Hk|b n Hu Hd Hw Hn Hv Hk|b n Hu Hd Hw Hv Hk].
  - eexists. eapply writes_one; [eapply sf_long; [assumption|assumption|apply lw_value; assumption]|].
    constructor. eapply completed_adjacent; eassumption.
  - eexists. eapply writes_one; [eapply sf_long; [assumption|assumption|apply lw_bare; assumption]|].
    constructor. eapply completed_next; eassumption.
  - destruct Hx as (X1 & X2 & X3 & X4 & X5). eexists. eapply writes_one.
    + eapply sf_short; try eassumption; [reflexivity|]. eapply sg_last; [eassumption|]. right. right. right. exists d. split; [reflexivity|lia].
    + constructor. rewrite perhaps_some by assumption. eapply completed_adjacent; try eassumption. discriminate.
  - destruct Hx as (X1 & X2 & X3 & X4 & X5). eexists. eapply writes_one.
    + eapply sf_short; try eassumption; [reflexivity|]. eapply sg_last; [eassumption|]. left. reflexivity.
    + constructor. eapply completed_next; try eassumption. discriminate.
  - destruct Hx as (X1 & X2 & X3 & X4). eexists. eapply writes_one.
    + eapply sf_slash; try eassumption. reflexivity.
    + constructor. rewrite perhaps_some by assumption. eapply completed_adjacent; try eassumption. discriminate.
  - destruct Hx as (X1 & X2 & X3 & X4). eexists. eapply writes_one.
    + eapply sf_slash; try eassumption. reflexivity.
    + constructor. eapply completed_next; try eassumption. discriminate.
  - eexists. eapply writes_one.
    + eapply sf_disguised; [eassumption|eassumption|split; [eassumption|right; exists v; reflexivity]|exact (proj1 Hk)|apply lw_value; assumption].
    + constructor. eapply completed_adjacent; eassumption.
  - assert (Hn : n <> []) by exact (proj1 (proj2 Hd)). eexists. eapply writes_one.
    + eapply sf_disguised; [eassumption|eassumption|split; [eassumption|left; reflexivity]|exact (proj1 Hk)|apply lw_bare; assumption].
    + constructor. eapply completed_next; eassumption.
Qed.

Lemma flag_writes c d key tok : vs_min (od_sem d) = 0%Z -> flag_spelling c d key tok -> exists ts, writes c [tok] [Option_ key false [] ts].
Proof.
  intros H1 H. destruct H as [n Hu Ho Hn Hw Hk|x Hx Hs Hk|x Hx Hk|b n Hu Hd Hw Hk].
  - eexists; eapply writes_one; [eapply sf_long; [assumption|assumption|apply lw_bare; assumption]|].
    constructor. eapply completed_flag; eassumption.
  - destruct Hx as (X1 & X2 & X3 & X4 & X5). eexists; eapply writes_one.
    + eapply sf_short; try eassumption; [reflexivity|]. eapply sg_last; [eassumption|]. left. reflexivity.
    + constructor. eapply completed_flag; try eassumption. discriminate.
  - destruct Hx as (X1 & X2 & X3 & X4). eexists. eapply writes_one.
    + eapply sf_slash; try eassumption. reflexivity.
    + constructor. eapply completed_flag; try eassumption. discriminate.
  - assert (Hn : n <> []) by exact (proj1 (proj2 Hd)). eexists. eapply writes_one.
    + eapply sf_disguised; [eassumption|eassumption|split; [eassumption|left; reflexivity]|exact (proj1 Hk)|apply lw_bare; assumption].
    + constructor. eapply completed_flag; eassumption.
Qed.

(** C101. Such other words are: for an option with one value, every name by which the option is found, long or short, with the value in
    the same token or in the next, *)
Theorem C101_values : forall c d key v toks toks' rest rest',
  vs_min (od_sem d) = 1%Z -> (1 <= vs_max (od_sem d))%Z ->
  value_spelling c d key v toks -> value_spelling c d key v toks' -> respelled c rest rest' ->
  respelled c (toks ++ rest) (toks' ++ rest').
Proof.
  intros c d key v toks toks' rest rest' H1 H2 H H' Hr. destruct (value_writes _ _ _ _ _ H1 H2 H) as (ts & W).
  destruct (value_writes _ _ _ _ _ H1 H2 H') as (ts' & W'). econstructor; [eassumption|eassumption| |assumption]. repeat constructor.
Qed.
Print Assumptions C101_values.

(** C101. for a flag, every name by which it is found, *)
Theorem C101_flags : forall c d key tok tok' rest rest',
  vs_min (od_sem d) = 0%Z ->
  flag_spelling c d key tok -> flag_spelling c d key tok' -> respelled c rest rest' ->
  respelled c (tok :: rest) (tok' :: rest').
Proof.
  intros c d key tok tok' rest rest' H1 H H' Hr. change (respelled c ([tok] ++ rest) ([tok'] ++ rest')).
  destruct (flag_writes _ _ _ _ H1 H) as (ts & W). destruct (flag_writes _ _ _ _ H1 H') as (ts' & W').
  econstructor; [eassumption|eassumption| |assumption]. repeat constructor.
Qed.
Print Assumptions C101_flags.

Lemma flags_group c tok : forall letters keys x key last ms is taken,
  has (cl_style c) allow_sticky = true ->
  Forall2 (flag_letter c) (x :: letters) (key :: keys) ->
  short_group c tok (hd x last) (tl last) ms -> last <> [] -> all_completed c ms taken is [] ->
  exists ms' is', short_group c tok x (letters ++ last) ms' /\ all_completed c ms' taken (is' ++ is) []
    /\ Forall2 like_item (map (fun k => Option_ k false [] []) (key :: keys)) is'.
Proof.
  induction letters as [|y letters IH]; intros keys x key last ms is taken Hst H Hg Hl Ha; inversion H as [|? ? ? ? Hx H2]; subst.
  - inversion H2; subst. destruct last as [|z last]; [contradiction|]. cbn [hd tl app] in *.
    destruct Hx as (d & L & K & M1 & M2). eexists. exists [Option_ key false [] []]. split; [eapply sg_flag; eassumption|]. split.
    + cbn [app]. constructor; [|assumption]. eapply completed_flag; try eassumption. discriminate.
    + repeat constructor.
  - inversion H2 as [|? key2 ? keys2 Hy H3]; subst.
    destruct last as [|z last]; [contradiction|]. cbn [hd tl] in Hg.
    destruct (IH keys2 y key2 (z :: last) ms is taken Hst H2 Hg ltac:(discriminate) Ha) as (ms' & is' & G & A & F).
    destruct Hx as (d & L & K & M1 & M2).
    eexists. exists (Option_ key false [] [] :: is'). split; [cbn [app]; eapply sg_flag; eassumption|]. split.
    + cbn [app]. constructor; [|assumption]. eapply completed_flag; try eassumption. discriminate.
    + constructor; [constructor|assumption].
Qed.

Lemma flag_group c tok : forall x key, flag_letter c x key ->
  exists ms, short_group c tok x [] ms /\ all_completed c ms [] [Option_ key false [] [tok]] [].
Proof.
  intros x key (d & L & K & M1 & M2). eexists. split; [eapply sg_last; [eassumption|left; reflexivity]|].
  constructor. eapply completed_flag; try eassumption. discriminate.
Qed.

Lemma short_word_stands c x adjacent ms : short_word c x adjacent -> short_group c (c_dash :: x :: adjacent) x adjacent ms ->
  stands_for c (c_dash :: x :: adjacent) ms.
Proof. intros (X1 & X2 & X3 & X4 & X5) G. eapply sf_short; try eassumption. reflexivity. Qed.

Lemma flags_group_all c tok : forall letters keys x key,
  has (cl_style c) allow_sticky = true -> Forall2 (flag_letter c) (x :: letters) (key :: keys) ->
  exists ms is, short_group c tok x letters ms /\ all_completed c ms [] is []
    /\ Forall2 like_item (map (fun k => Option_ k false [] []) (key :: keys)) is.
Proof.
  induction letters as [|y letters IH]; intros keys x key Hst H; inversion H as [|? ? ? ? Hx H2]; subst.
  - inversion H2; subst. destruct (flag_group c tok x key Hx) as (ms & G & A). exists ms. eexists. split; [exact G|]. split; [exact A|].
    repeat constructor.
  - inversion H2 as [|? key2 ? keys2 Hy H3]; subst.
    destruct (IH keys2 y key2 Hst H2) as (ms' & is' & G & A & F). destruct Hx as (d & L & K & M1 & M2).
    eexists. exists (Option_ key false [] [] :: is'). split; [eapply sg_flag; eassumption|]. split.
    + constructor; [|assumption]. eapply completed_flag; try eassumption. discriminate.
    + constructor; [constructor|assumption].
Qed.

Lemma writes_more c toks is toks' is' : writes c toks is -> writes c toks' is' -> writes c (toks ++ toks') (is ++ is').
Proof.
  intros H H'. induction H; [assumption|]. cbn [app]. rewrite <- !app_assoc. econstructor; eassumption.
Qed.

Lemma singles_write c : forall letters keys, Forall2 (flag_letter c) letters keys -> Forall (fun x => short_word c x []) letters ->
  exists is, writes c (one_by_one letters) is /\ Forall2 like_item (map (fun k => Option_ k false [] []) keys) is.
Proof.
  intros letters keys H. induction H as [|x key letters keys (d & L & K & M1 & M2) _ IH]; intros Hw.
  - exists []. repeat constructor.
  - destruct (IH (Forall_inv_tail Hw)) as (is & W & F).
    destruct (flag_writes c d key [c_dash; x] M1 (fs_short c d key x (Forall_inv Hw) L K)) as (ts & W1).
    exists (Option_ key false [] ts :: is). split.
    + change (writes c ([[c_dash; x]] ++ one_by_one letters) ([Option_ key false [] ts] ++ is)). apply writes_more; assumption.
    + constructor; [constructor|assumption].
Qed.

Lemma like_trans_sym : forall is js js', Forall2 like_item is js -> Forall2 like_item is js' -> Forall2 like_item js js'.
Proof.
  intros is js js' H. revert js'. induction H as [|i j is js Hi _ IH]; intros js' H'; inversion H' as [|? j' ? js2 Hi' H2]; subst; constructor; [|auto].
  destruct Hi; inversion Hi'; subst; constructor.
Qed.

(** C101. several flags in one word or one by one, *)
Theorem C101_groups : forall c x letters keys rest rest',
  has (cl_style c) allow_sticky = true -> short_word c x letters ->
  Forall (fun y => short_word c y []) (x :: letters) -> Forall2 (flag_letter c) (x :: letters) keys ->
  respelled c rest rest' -> respelled c ((c_dash :: x :: letters) :: rest) (one_by_one (x :: letters) ++ rest').
Proof.
  intros c x letters keys rest rest' Hst Hw Hs Hf Hr. destruct keys as [|key keys]; [inversion Hf|].
  destruct (flags_group_all c (c_dash :: x :: letters) letters keys x key Hst Hf) as (ms & is & G & A & F).
  destruct (singles_write _ _ _ Hf Hs) as (is' & W & F').
  change ((c_dash :: x :: letters) :: rest) with ([c_dash :: x :: letters] ++ rest).
  econstructor; [eapply writes_one; [apply short_word_stands; eassumption|exact A]|exact W|eapply like_trans_sym; eassumption|assumption].
Qed.
Print Assumptions C101_groups.

(** C101. and behind the flags of such a word an option with its value. *)
Theorem C101_groups_with_value : forall c x letters keys y key v rest rest',
  has (cl_style c) allow_sticky = true -> short_word c x (letters ++ y :: v) ->
  Forall (fun z => short_word c z []) (x :: letters) -> Forall2 (flag_letter c) (x :: letters) keys ->
  short_word c y v -> value_letter c y key -> v <> [] ->
  respelled c rest rest' ->
  respelled c ((c_dash :: x :: letters ++ y :: v) :: rest) (one_by_one (x :: letters) ++ (c_dash :: y :: v) :: rest').
Proof.
  intros c x letters keys y key v rest rest' Hst Hw Hs Hf Hwy (d & L & K & M1 & M2) Hv Hr. destruct keys as [|k0 keys]; [inversion Hf|].
  pose (tok := c_dash :: x :: letters ++ y :: v).
  destruct (flags_group c tok letters keys x k0 (y :: v) [mk_mention [c_dash; y] (perhaps v) [tok]] [Option_ key false [v] [tok]] []
              Hst Hf) as (ms & is & G & A & F).
  - cbn [hd tl]. eapply sg_last; [eassumption|]. right. right. right. exists d. split; [reflexivity|lia].
  - discriminate.
  - constructor. rewrite perhaps_some by assumption. eapply completed_adjacent; try eassumption. discriminate.
  - destruct (singles_write _ _ _ Hf Hs) as (is' & W & F').
    assert (Wv : writes c [c_dash :: y :: v] [Option_ key false [v] [c_dash :: y :: v]]).
    { eapply writes_one; [apply short_word_stands; [eassumption|]|].
      - eapply sg_last; [eassumption|]. right. right. right. exists d. split; [reflexivity|lia].
      - constructor. rewrite perhaps_some by assumption. eapply completed_adjacent; try eassumption. discriminate. }
    change (respelled c ([tok] ++ rest) (one_by_one (x :: letters) ++ (c_dash :: y :: v) :: rest')). change ((c_dash :: y :: v) :: rest') with ([c_dash :: y :: v] ++ rest'). rewrite app_assoc.
    econstructor; [eapply writes_one; [apply short_word_stands; eassumption|exact A]|eapply writes_more; [exact W|exact Wv]| |assumption].
    apply Forall2_app; [eapply like_trans_sym; eassumption|repeat constructor].
Qed.
Print Assumptions C101_groups_with_value.

Lemma completed_split : forall c m rest i rest', completed c m rest i rest' -> exists taken, rest = taken ++ rest' /\ completed c m taken i [].
Proof.
  intros c m rest i rest' H. destruct H as [v t rest|n vs ts rest Hn Hl Ha|n vs ts d key taken rest Hn Hl Hk Hm Ht Hv].
  - exists []. split; [reflexivity|constructor].
  - exists []. split; [reflexivity|constructor; assumption].
  - exists taken. split; [reflexivity|]. rewrite <- (app_nil_r taken) at 1. econstructor; eassumption.
Qed.

Lemma all_completed_split : forall c ms rest is rest', all_completed c ms rest is rest' ->
  exists taken, rest = taken ++ rest' /\ all_completed c ms taken is [].
Proof.
  intros c ms rest is rest' H. induction H as [m rest i rest' H|m ms rest i is rest' H _ (taken & -> & IH)].
  - destruct (completed_split _ _ _ _ _ H) as (taken & -> & H'). exists taken. split; [reflexivity|constructor; assumption].
  - exists taken. split; [reflexivity|]. constructor; assumption.
Qed.

(** C101. What need not be written in other words: every command line that is accepted is a respelling of itself. *)
Theorem C101_unchanged : forall c args r,
  cl_style_parser c = None -> Forall has_name (cl_desc c) -> Forall (fun d => sensible d /\ fits d) (cl_desc c) ->
  (Z.of_nat (List.length args) < INT_MAX)%Z -> parse c args = Ok r -> respelled c args args.
Proof.
  intros c args r H1 H2 H3 Hn Hp. apply (C84_grammar c args H1 H2 H3 Hn) in Hp. destruct Hp as (is & X & Hc & _). clear Hn X r.
  induction Hc as [|tok rest ms is rest' is' Hs Ha _ IH|rest Ho|tok rest is Ho Hd _ IH].
  - constructor.
  - destruct (all_completed_split _ _ _ _ _ Ha) as (taken & -> & Ha').
    change (tok :: taken ++ rest') with ((tok :: taken) ++ rest'). econstructor; [eapply writes_one; eassumption|eapply writes_one; eassumption| |assumption].
    apply Forall2_like_refl.
  - constructor. assumption.
  - constructor; assumption.
Qed.
Print Assumptions C101_unchanged.

Lemma plain_unclaimed c tok : cl_additional c = None -> unclaimed c tok.
Proof. intros E n v (f & Ef & _). congruence. Qed.

Lemma plain_short c x adjacent : cl_additional c = None -> cl_style c = default_style -> x <> c_dash -> short_word c x adjacent.
Proof.
  intros E S Hx. unfold short_word. rewrite S. repeat split; auto using plain_unclaimed.
  intros n m (D & _). rewrite S in D. discriminate D.
Qed.

Definition spelled_short : list str := [$"-vofile"; $"a"; $"--number=3"; $"--"; $"-x"].
Definition spelled_between : list str := [$"-v"; $"-ofile"; $"a"; $"-n3"; $"--"; $"-x"].
Definition spelled_out : list str := [$"--verb"; $"--out"; $"file"; $"a"; $"-n"; $"3"; $"--"; $"-x"].

Lemma grammar_ordinary : forall x s, x <> c_dash -> ordinary grammar_cl (x :: s).
Proof.
  intros x s Hx. split; [apply plain_unclaimed; reflexivity|]. split; [intros (_ & n & _ & E); injection E as E _; contradiction|]. split.
  - intros n m (D & _). discriminate D.
  - split; [intros (_ & _ & y & a & _ & E); injection E as E _; contradiction|]. intros (_ & D & _). discriminate D.
Qed.

Lemma grammar_dashes : ordinary grammar_cl dashdash.
Proof.
  split; [apply plain_unclaimed; reflexivity|]. split; [intros (_ & n & Hn & E); injection E as <-; contradiction|]. split.
  - intros n m (D & _). discriminate D.
  - split; [intros (_ & _ & y & a & Hy & E); injection E as <- _; contradiction|]. intros (_ & D & _). discriminate D.
Qed.

Lemma sample_flag x key d : lookup grammar_cl [c_dash; x] = Ok (Some d) -> short_lookup grammar_cl x = Ok (Some d) -> is_key d [c_dash; x] key ->
  vs_min (od_sem d) = 0%Z -> vs_max (od_sem d) = 0%Z -> flag_letter grammar_cl x key.
Proof. intros H1 H2 H3 H4 H5. exists d. repeat split; assumption. Qed.

Ltac known := left; eexists; eexists; split; [reflexivity|split; [cbn; intuition discriminate|reflexivity]].

Ltac spelled := try reflexivity; try discriminate;
  try (apply plain_unclaimed; reflexivity); try (apply plain_short; [reflexivity|reflexivity|discriminate]);
  try (split; [reflexivity|known]); try (unfold without; cbn; intuition discriminate).

Example C101_ex : respelled grammar_cl spelled_short spelled_between /\ respelled grammar_cl spelled_between spelled_out
  /\ exists r r' r'', parse grammar_cl spelled_short = Ok r /\ parse grammar_cl spelled_between = Ok r'
       /\ parse grammar_cl spelled_out = Ok r'' /\ Forall2 same_option r r'' /\ List.length r = 5 /\ r <> r' /\ r' <> r''.
Proof.
  assert (F : flag_letter grammar_cl "v"%char $"verbose").
  { apply (sample_flag "v"%char $"verbose" o_verbose); [reflexivity|reflexivity|known|reflexivity|reflexivity]. }
  assert (V : value_letter grammar_cl "o"%char $"output").
  { exists o_output. split; [reflexivity|]. split; [split; [reflexivity|known]|]. split; [reflexivity|cbn; lia]. }
  assert (W : forall x a, x <> c_dash -> short_word grammar_cl x a) by (intros; apply plain_short; [reflexivity|reflexivity|assumption]).
  split; [|split].
  - apply (C101_groups_with_value grammar_cl "v"%char [] [$"verbose"] "o"%char $"output" $"file"
             [$"a"; $"--number=3"; $"--"; $"-x"] [$"a"; $"-n3"; $"--"; $"-x"]).
    + reflexivity.
    + apply W. discriminate.
    + constructor; [apply W; discriminate|constructor].
    + constructor; [assumption|constructor].
    + apply W. discriminate.
    + assumption.
    + discriminate.
    + apply rs_argument; [apply grammar_ordinary; discriminate|discriminate|].
      apply (C101_values grammar_cl o_number $"number" $"3" [$"--number=3"] [$"-n3"]); [reflexivity|cbn; lia| | |].
      * apply (vs_long_adjacent grammar_cl o_number $"number" $"3" $"number"); spelled.
      * apply (vs_short_adjacent grammar_cl o_number $"number" $"3" "n"%char); spelled.
      * apply (rs_dashes grammar_cl [$"-x"]). apply grammar_dashes.
  - apply (C101_flags grammar_cl o_verbose $"verbose" $"-v" $"--verb"); [reflexivity| | |].
    + apply (fs_short grammar_cl o_verbose $"verbose" "v"%char); spelled.
    + apply (fs_long grammar_cl o_verbose $"verbose" $"verb"); spelled.
    + apply (C101_values grammar_cl o_output $"output" $"file" [$"-ofile"] [$"--out"; $"file"]); [reflexivity|cbn; lia| | |].
      * apply (vs_short_adjacent grammar_cl o_output $"output" $"file" "o"%char); spelled.
      * apply (vs_long_next grammar_cl o_output $"output" $"file" $"out"); spelled. left. apply grammar_ordinary. discriminate.
      * apply rs_argument; [apply grammar_ordinary; discriminate|discriminate|].
        apply (C101_values grammar_cl o_number $"number" $"3" [$"-n3"] [$"-n"; $"3"]); [reflexivity|cbn; lia| | |].
        -- apply (vs_short_adjacent grammar_cl o_number $"number" $"3" "n"%char); spelled.
        -- apply (vs_short_next grammar_cl o_number $"number" $"3" "n"%char); spelled. left. apply grammar_ordinary. discriminate.
        -- apply (rs_dashes grammar_cl [$"-x"]). apply grammar_dashes.
  - eexists. eexists. eexists. split; [vm_compute; reflexivity|]. split; [vm_compute; reflexivity|]. split; [vm_compute; reflexivity|].
    split; [repeat constructor|]. split; [reflexivity|]. split; discriminate.
Qed.

(** C101. A token that was taken for a value is not an option, and then the words matter: in the place of a value "--verbose" is not the
    same as "-v". *)
Theorem C101_value_refuted : exists c d key tok tok' other,
  flag_spelling c d key tok /\ flag_spelling c d key tok' /\ vs_max (od_sem d) = 0%Z
  /\ (exists r, parse c [other; tok] = Ok r) /\ (exists e, parse c [other; tok'] = Throw e).
Proof.
  exists grammar_cl, o_verbose, $"verbose", $"--verbose", $"-v", $"--output".
  split; [apply (fs_long grammar_cl o_verbose $"verbose" $"verbose"); spelled|].
  split; [apply (fs_short grammar_cl o_verbose $"verbose" "v"%char); spelled|]. split; [reflexivity|].
  split; eexists; vm_compute; reflexivity.
Qed.
Print Assumptions C101_value_refuted.

Definition slash_cl : cmdline :=
  mk_cl (Z.lor default_style allow_slash_for_short) false [o_help; o_verbose; o_output; o_number; o_input] None None None.
Definition disguise_cl : cmdline :=
  mk_cl (Z.lor default_style allow_long_disguise) false [o_help; o_verbose; o_output; o_number; o_input] None None None.

Example C101_ex_other :
  flag_spelling slash_cl o_verbose $"verbose" $"/v" /\ flag_spelling slash_cl o_verbose $"verbose" $"--verb"
  /\ value_spelling slash_cl o_output $"output" $"file" [$"/ofile"] /\ value_spelling slash_cl o_output $"output" $"file" [$"--output=file"]
  /\ flag_spelling disguise_cl o_verbose $"verbose" $"-verb"
  /\ value_spelling disguise_cl o_output $"output" $"file" [$"-out=file"].
Proof.
  assert (S : forall x a, slash_word slash_cl x a).
  { intros x a. split; [apply plain_unclaimed; reflexivity|]. split; [reflexivity|]. split; [reflexivity|]. intros n m (D & _). discriminate D. }
  split; [|split; [|split; [|split; [|split]]]].
  - apply (fs_slash slash_cl o_verbose $"verbose" "v"%char); [apply S|]; spelled.
  - apply (fs_long slash_cl o_verbose $"verbose" $"verb"); spelled.
  - apply (vs_slash_adjacent slash_cl o_output $"output" $"file" "o"%char); [apply S| |]; spelled.
  - apply (vs_long_adjacent slash_cl o_output $"output" $"file" $"output"); spelled.
  - apply (fs_disguised disguise_cl o_verbose $"verbose" c_dash $"verb"); spelled.
    split; [reflexivity|]. split; [discriminate|]. left. split; [reflexivity|discriminate].
  - apply (vs_disguised_adjacent disguise_cl o_output $"output" $"file" c_dash $"out"); spelled.
    split; [reflexivity|]. split; [discriminate|]. left. split; [reflexivity|discriminate].
Qed.

(** ** By which names an option is known *)

Lemma selects_none {A} (P : A -> Prop) : forall l, Forall (fun x => ~ P x) l -> selects P l [].
Proof. intros l H. induction H; [constructor|apply selects_skip; assumption]. Qed.

Lemma selects_only {A} (P : A -> Prop) : forall l x l', Forall (fun y => ~ P y) l -> P x -> Forall (fun y => ~ P y) l' -> selects P (l ++ x :: l') [x].
Proof.
  intros l x l' H Hx H'. induction H as [|y l Hy _ IH]; cbn [List.app]; [apply selects_take; [assumption|apply selects_none; assumption]|].
  apply selects_skip; assumption.
Qed.

Lemma selects_same {A} (P : A -> Prop) : forall l s, selects P l s -> forall s', selects P l s' -> s = s'.
Proof.
  intros l s H. induction H as [|x l s Hx _ IH|x l s Hx _ IH]; intros s' H'; inversion H'; subst; try contradiction; [reflexivity|f_equal; auto|auto].
Qed.

(** C101. An option is known by each of its names, if no other option has that name, *)
Theorem C101_full_name : forall c before d after first rest n,
  let lic := has (cl_style c) long_case_insensitive in
  let sic := has (cl_style c) short_case_insensitive in
  cl_desc c = before ++ d :: after -> foldable (cl_desc c) n lic sic ->
  full d n lic sic -> Forall (fun d' => ~ full d' n lic sic) (before ++ after) ->
  od_longs d = first :: rest -> ~ In c_star first -> known_as c d first n.
Proof.
  intros c before d after first rest n lic sic Ed Hf Hd Ho El Hs. split; [|left; exists first, rest; auto].
  destruct (PropLookup.C03_lookup_characterised (cl_desc c) n (has (cl_style c) allow_guessing) lic sic Hf) as (fulls & apps & F & A & R).
  apply Forall_app in Ho as [Ho1 Ho2]. assert (fulls = [d]).
  { eapply selects_same; [exact F|]. rewrite Ed. apply selects_only; assumption. }
  subst fulls. unfold lookup. fold lic sic. inversion R. reflexivity.
Qed.
Print Assumptions C101_full_name.

(** C101. and, where the style allows guessing, by each beginning of its long names that does not abbreviate another option and is not the
    name of one; *)
Theorem C101_abbreviation : forall c before d after first rest n,
  let lic := has (cl_style c) long_case_insensitive in
  let sic := has (cl_style c) short_case_insensitive in
  let guess := has (cl_style c) allow_guessing in
  cl_desc c = before ++ d :: after -> foldable (cl_desc c) n lic sic ->
  approximate d n guess lic -> Forall (fun d' => ~ approximate d' n guess lic) (before ++ after) ->
  Forall (fun d' => ~ full d' n lic sic) (cl_desc c) ->
  od_longs d = first :: rest -> ~ In c_star first -> known_as c d first n.
Proof.
  intros c before d after first rest n lic sic guess Ed Hf Hd Ho Hn El Hs. split; [|left; exists first, rest; auto].
  destruct (PropLookup.C03_lookup_characterised (cl_desc c) n guess lic sic Hf) as (fulls & apps & F & A & R).
  assert (fulls = []) by (eapply selects_same; [exact F|apply selects_none; exact Hn]). subst fulls.
  apply Forall_app in Ho as [Ho1 Ho2]. assert (apps = [d]).
  { eapply selects_same; [exact A|]. rewrite Ed. apply selects_only.
    - eapply Forall_impl; [|exact Ho1]. cbn. tauto.
    - split; [|exact Hd]. rewrite Ed in Hn. apply Forall_app in Hn as [_ Hn]. exact (Forall_inv Hn).
    - eapply Forall_impl; [|exact Ho2]. cbn. tauto. }
  subst apps. unfold lookup. fold lic sic guess. inversion R. reflexivity.
Qed.
Print Assumptions C101_abbreviation.

(** C101. in the styles that ignore case, whatever the case of its letters. *)
Theorem C101_case : forall c d key n n',
  has (cl_style c) long_case_insensitive = true -> same_up_to_case n n' ->
  (forall first rest, od_longs d = first :: rest -> ~ In c_star first) ->
  known_as c d key n -> known_as c d key n'.
Proof.
  intros c d key n n' Hc Hs Hn [Hl Hk]. split.
  - unfold lookup in *. rewrite Hc in *.
    destruct (PropLookup.C05_case_insensitive (cl_desc c) n n' (has (cl_style c) allow_guessing) (has (cl_style c) short_case_insensitive) Hs) as [E|(a & b & _ & E & _)];
      congruence.
  - destruct Hk as [H|[(first & rest & El & Hi & _)|H]]; [left; exact H| |right; right; exact H]. destruct (Hn first rest El Hi).
Qed.
Print Assumptions C101_case.

(** C101. The case of the letters of a wildcard option is the case of its key. *)
Theorem C101_case_refuted : exists c d key n n', has (cl_style c) long_case_insensitive = true /\ same_up_to_case n n'
  /\ known_as c d key n /\ ~ known_as c d key n'.
Proof.
  exists (sample_cl nocase_style), o_log, $"log.x", $"log.x", $"log.X". split; [reflexivity|]. split; [apply same_up_to_case_map; reflexivity|].
  split.
  - split; [reflexivity|]. right. left. eexists. eexists. split; [reflexivity|]. split; [cbn; tauto|reflexivity].
  - intros [_ H]. destruct H as [(f & r & E & H & _)|[(f & r & _ & _ & E)|[E _]]]; [|discriminate|discriminate].
    injection E as <- <-. apply H. cbn. tauto.
Qed.
Print Assumptions C101_case_refuted.

Example C101_ex_names :
  known_as (sample_cl nocase_style) o_verbose $"verbose" $"Verb"
  /\ known_as (sample_cl default_style) o_input $"input" $"in"
  /\ known_as (sample_cl default_style) o_verbose $"verbose" $"verb".
Proof.
  assert (F : forall n, foldable sample n false false).
  { intros n. split; [discriminate|]. apply Forall_forall. intros d _. split; discriminate. }
  assert (N : forall d n, ~ In n (od_longs d) -> od_short d <> n -> ~ full d n false false).
  { intros d n H1 H2 [(l & Hl & _ & t & -> & ->)|(t & -> & E)]; [contradiction|]. cbn in E. congruence. }
  assert (A : forall d n, match n with [] => False | x :: _ => ~ In x (map (hd c_star) (od_longs d)) end -> ~ In c_star (map (hd c_eq) (od_longs d)) ->
    ~ approximate d n true false).
  { intros d n H1 H2 [(l & p & t & Hl & E & E')|(_ & l & u & v & Hl & Hne & E & E')]; cbn in E, E'; subst.
    - destruct p as [|x p]; cbn in *; [apply H2; apply in_map_iff; exists [c_star]; auto|].
      apply H1. apply in_map_iff. exists (x :: p ++ [c_star]). auto.
    - destruct n as [|x n]; [contradiction|]. apply H1. apply in_map_iff. exists ((x :: n) ++ v). auto. }
  split; [|split].
  - apply (C101_case _ o_verbose $"verbose" $"verb"); [reflexivity|apply same_up_to_case_map; reflexivity| |split; [reflexivity|known]].
    intros first rest E. injection E as <- _. cbn. intuition discriminate.
  - apply (C101_full_name (sample_cl default_style) [o_help; o_verbose; o_output; o_number] o_input [o_log; o_level] $"input" [$"in"]);
      [reflexivity|apply F| | |reflexivity|cbn; intuition discriminate].
    + left. exists $"in". split; [cbn; tauto|]. split; [discriminate|]. exists $"in". split; reflexivity.
    + cbn [List.app cl_desc sample_cl sample]. repeat apply Forall_cons; try apply Forall_nil; apply N; cbn; intuition discriminate.
  - apply (C101_abbreviation (sample_cl default_style) [o_help] o_verbose [o_output; o_number; o_input; o_log; o_level] $"verbose" []);
      [reflexivity|apply F| | | |reflexivity|cbn; intuition discriminate].
    + right. split; [reflexivity|]. exists $"verbose", $"verb", $"ose". split; [cbn; tauto|]. split; [discriminate|]. split; reflexivity.
    + cbn [List.app cl_desc sample_cl sample]. repeat apply Forall_cons; try apply Forall_nil; apply A; cbn; intuition discriminate.
    + cbn [List.app cl_desc sample_cl sample]. repeat apply Forall_cons; try apply Forall_nil; apply N; cbn; intuition discriminate.
Qed.
