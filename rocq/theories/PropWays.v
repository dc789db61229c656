(** C103: what the flags of the style change. *)

From Coq Require Import List Ascii String NArith ZArith Bool Lia.
From Verif Require Import Base Errors Spec BaseFacts Values OptDesc SpecLookup LookupFacts Positional Cmdline SpecCmdline
  CmdlineFacts SpecReject SpecGrammar GrammarFacts GuessFacts SpecWays Samples PropCmdline PropCmdline2 PropGrammar PropSpelling.
From Verif Require PropLookup.
Import ListNotations.

(** ** Ways that are not used *)

Section Unused.
Variables c c' : cmdline.
Hypothesis Hun : cl_allow_unregistered c = cl_allow_unregistered c'.
Hypothesis Hds : cl_desc c = cl_desc c'.
Hypothesis Hpos : cl_positional c = cl_positional c'.
Hypothesis Hadd : cl_additional c = cl_additional c'.
Hypothesis Hg : has (cl_style c) allow_guessing = has (cl_style c') allow_guessing.
Hypothesis Hl : has (cl_style c) long_case_insensitive = has (cl_style c') long_case_insensitive.
Hypothesis Hs : has (cl_style c) short_case_insensitive = has (cl_style c') short_case_insensitive.

Lemma lookup_alike n : lookup c n = lookup c' n.
Proof. unfold lookup. rewrite Hds, Hg, Hl, Hs. reflexivity. Qed.

Lemma short_lookup_alike x : short_lookup c x = short_lookup c' x.
Proof. unfold short_lookup. rewrite Hds, Hs. reflexivity. Qed.

Lemma claimed_alike tok n v : claimed c tok n v <-> claimed c' tok n v.
Proof. unfold claimed. rewrite Hadd. reflexivity. Qed.

Lemma unclaimed_alike tok : unclaimed c tok -> unclaimed c' tok.
Proof. intros H n v. rewrite <- claimed_alike. apply H. Qed.

Lemma completed_alike (M : forall tok, may_be_value c tok -> may_be_value c' tok) m rest i rest' :
  completed c m rest i rest' -> completed c' m rest i rest'.
Proof.
  intros H. destruct H as [v t rest|n vs ts rest Hn Hk Hu|n vs ts d key taken rest Hn Hk Hkey Hv Hc Ht].
  - constructor.
  - constructor; [assumption|rewrite <- lookup_alike; assumption|congruence].
  - eapply cm_known; [assumption|rewrite <- lookup_alike; eassumption|assumption|assumption|assumption|].
    eapply Forall_impl; [|exact Ht]. exact M.
Qed.

Lemma gathered_alike is js : gathered c is js -> gathered c' is js.
Proof.
  intros H. induction H.
  - constructor.
  - constructor. assumption.
  - constructor. assumption.
  - constructor; [rewrite <- lookup_alike; assumption|assumption].
  - eapply ga_known; try eassumption. rewrite <- lookup_alike. assumption.
Qed.

Lemma argument_alike k n : argument_name c k n -> argument_name c' k n.
Proof. intros H. destruct H as [H|p n H H1 H2]; [apply an_none; rewrite <- Hpos; assumption|eapply an_named; [rewrite <- Hpos; eassumption|eassumption|assumption]]. Qed.

Lemma case_alike key b : case_flag c key b -> case_flag c' key b.
Proof. unfold case_flag. rewrite Hl, Hs. auto. Qed.

Lemma returned_alike k is os : returned c k is os -> returned c' k is os.
Proof.
  intros H. induction H; constructor; try assumption; try (apply case_alike; assumption); apply argument_alike; assumption.
Qed.

Hypothesis Hst : has (cl_style c) allow_sticky = has (cl_style c') allow_sticky.

(** The token does not use a flag in which the styles differ. *)
Definition unaffected (tok : str) : Prop := forall f, In f ways -> has (cl_style c) f = has (cl_style c') f \/ does_without c f tok.

Ltac flag := cbn; tauto.

Lemma flag_long tok : unaffected tok -> double_dashed tok -> has (cl_style c) allow_long = has (cl_style c') allow_long.
Proof. intros H Ht. destruct (H allow_long ltac:(flag)) as [E|(D & _)]; [exact E|]. destruct (D eq_refl Ht). Qed.

Lemma flag_dash tok : unaffected tok -> single_dashed tok ->
  has (cl_style c) allow_short = has (cl_style c') allow_short /\ has (cl_style c) allow_dash_for_short = has (cl_style c') allow_dash_for_short.
Proof.
  intros H Ht. split.
  - destruct (H allow_short ltac:(flag)) as [E|(_ & _ & _ & D & _)]; [exact E|]. destruct (proj1 (D eq_refl) Ht).
  - destruct (H allow_dash_for_short ltac:(flag)) as [E|(_ & D & _)]; [exact E|]. destruct (D eq_refl Ht).
Qed.

Lemma flag_slash tok : unaffected tok -> slashed tok ->
  has (cl_style c) allow_short = has (cl_style c') allow_short /\ has (cl_style c) allow_slash_for_short = has (cl_style c') allow_slash_for_short.
Proof.
  intros H Ht. split.
  - destruct (H allow_short ltac:(flag)) as [E|(_ & _ & _ & D & _)]; [exact E|]. destruct (proj2 (D eq_refl) Ht).
  - destruct (H allow_slash_for_short ltac:(flag)) as [E|(_ & _ & D & _)]; [exact E|]. destruct (D eq_refl Ht).
Qed.

Lemma flag_disguise tok : unaffected tok -> disguised_name c tok -> has (cl_style c) allow_long_disguise = has (cl_style c') allow_long_disguise.
Proof. intros H Ht. destruct (H allow_long_disguise ltac:(flag)) as [E|(_ & _ & _ & _ & D)]; [exact E|]. destruct (D eq_refl Ht). Qed.

Lemma disguise_shape k tok n : disguise k tok n -> (single_dashed tok \/ slashed tok) /\ (tok = c_dash :: n \/ tok = c_slash :: n).
Proof.
  intros (_ & Hn & [[-> Hd]|[-> _]]); (destruct n as [|x n]; [contradiction|]); split; auto.
  - left. exists x, n. split; [exact Hd|reflexivity].
  - right. exists x, n. reflexivity.
Qed.

Lemma disguise_over tok n m : unaffected tok -> disguise c tok n -> before_eq n m -> lookup c m <> Ok None -> disguise c' tok n.
Proof.
  intros H Hd Hb Hm. destruct (disguise_shape _ _ _ Hd) as [S T].
  assert (D : disguised_name c tok) by (exists n, m; auto). apply flag_disguise in D; [|exact H].
  destruct Hd as (Ho & Hn & C). split; [congruence|]. split; [exact Hn|]. destruct C as [C|[-> Hs1]]; [left; exact C|right]. split; [reflexivity|].
  destruct n as [|x n]; [contradiction|]. destruct (flag_slash (c_slash :: x :: n) H) as [_ E]; [exists x, n; reflexivity|]. congruence.
Qed.

Lemma no_disguise_over tok : unaffected tok ->
  (forall n m, disguise c tok n -> before_eq n m -> lookup c m = Ok None) -> forall n m, disguise c' tok n -> before_eq n m -> lookup c' m = Ok None.
Proof.
  intros H Hn n m Hd Hb. rewrite <- lookup_alike. destruct (disguise_shape _ _ _ Hd) as [S T].
  assert (Dec : lookup c m = Ok None \/ lookup c m <> Ok None) by (destruct (lookup c m) as [[d|]|e|u|]; (left; reflexivity) || (right; discriminate)).
  destruct Dec as [E|E]; [exact E|]. apply (Hn n m); [|exact Hb].
  assert (D : disguised_name c tok) by (exists n, m; auto). apply flag_disguise in D; [|exact H].
  destruct Hd as (Ho & Hne & C). split; [congruence|]. split; [exact Hne|]. destruct C as [C|[-> Hs1]]; [left; exact C|right]. split; [reflexivity|].
  destruct n as [|x n]; [contradiction|]. destruct (flag_slash (c_slash :: x :: n) H) as [_ E2]; [exists x, n; reflexivity|]. congruence.
Qed.

Lemma group_over tok x adjacent ms : short_group c tok x adjacent ms -> short_group c' tok x adjacent ms.
Proof.
  intros H. induction H as [x adjacent od Hod Hc|x y adjacent d ms Ho Hd Hm _ IH].
  - apply sg_last with (od := od); [rewrite <- short_lookup_alike; exact Hod|]. rewrite <- Hst. exact Hc.
  - apply sg_flag with (d := d); [congruence|rewrite <- short_lookup_alike; exact Hd|exact Hm|exact IH].
Qed.

Lemma words_shape tok n vs : long_words tok n vs -> double_dashed tok.
Proof.
  intros H. destruct H as [n Hn _|n v _ _]; [exists n; auto|]. exists (n ++ [c_eq] ++ v). split; [destruct n; discriminate|reflexivity].
Qed.

Lemma stands_over tok ms : unaffected tok -> stands_for c tok ms -> stands_for c' tok ms.
Proof.
  intros H Hs0. destruct Hs0 as [n v Hc|n vs Hu Ho Hw|n m d name vs Hu Hd Hb Hk Hw|x adjacent ms Hu H1 H2 -> Hx Hn Hgr|x adjacent Hu H1 H2 -> Hn].
  - apply sf_claimed. apply claimed_alike. exact Hc.
  - apply sf_long; [apply unclaimed_alike; exact Hu| |exact Hw]. rewrite <- (flag_long tok H); [exact Ho|]. eapply words_shape. exact Hw.
  - eapply sf_disguised; [apply unclaimed_alike; exact Hu| |exact Hb|rewrite <- lookup_alike; exact Hk|exact Hw].
    apply (disguise_over tok n m); [exact H|exact Hd|exact Hb|congruence].
  - destruct (flag_dash _ H) as [E1 E2]; [exists x, adjacent; auto|].
    eapply sf_short; [apply unclaimed_alike; exact Hu|congruence|congruence|reflexivity|exact Hx|apply no_disguise_over; assumption|apply group_over; exact Hgr].
  - destruct (flag_slash _ H) as [E1 E2]; [exists x, adjacent; auto|].
    eapply sf_slash; [apply unclaimed_alike; exact Hu|congruence|congruence|reflexivity|apply no_disguise_over; assumption].
Qed.

Lemma ordinary_over tok : unaffected tok -> ordinary c tok -> ordinary c' tok.
Proof.
  intros H (Hu & H1 & H2 & H3 & H4). split; [apply unclaimed_alike; exact Hu|]. split; [|split; [apply no_disguise_over; assumption|split]].
  - intros [Ho Hd]. apply H1. split; [|exact Hd]. rewrite (flag_long tok H Hd). exact Ho.
  - intros (Ho & Ho' & Hd). apply H3. destruct (flag_dash tok H Hd) as [E1 E2]. split; [congruence|]. split; [congruence|exact Hd].
  - intros (Ho & Ho' & Hd). apply H4. destruct (flag_slash tok H Hd) as [E1 E2]. split; [congruence|]. split; [congruence|exact Hd].
Qed.

Lemma value_over tok : unaffected tok -> may_be_value c tok -> may_be_value c' tok.
Proof.
  intros H [Ho|[(ms & Hms) Hk]]; [left; apply ordinary_over; assumption|right]. split; [exists ms; apply stands_over; assumption|].
  rewrite <- lookup_alike. exact Hk.
Qed.

Lemma completed_over m rest i rest' : Forall unaffected rest -> completed c m rest i rest' -> completed c' m rest i rest'.
Proof.
  intros Hr H. destruct H as [v t rest|n vs ts rest Hn Hk Hu|n vs ts d key taken rest Hn Hk Hkey Hv Hc Ht].
  - constructor.
  - constructor; [assumption|rewrite <- lookup_alike; assumption|congruence].
  - eapply cm_known; [assumption|rewrite <- lookup_alike; eassumption|assumption|assumption|assumption|].
    apply Forall_app in Hr as [Hr _]. rewrite Forall_forall in *. intros tok Hi. apply value_over; auto.
Qed.

Lemma completed_rest k m rest i rest' : completed k m rest i rest' -> exists taken, rest = taken ++ rest'.
Proof. intros H. destruct H; [exists []|exists []|exists taken]; reflexivity. Qed.

Lemma all_completed_rest k ms rest is rest' : all_completed k ms rest is rest' -> exists taken, rest = taken ++ rest'.
Proof. intros H. induction H as [m rest i rest' H|m ms rest i is rest' _ _ IH]; [exact (completed_rest _ _ _ _ _ H)|exact IH]. Qed.

Lemma all_completed_over ms rest is rest' : Forall unaffected rest -> all_completed c ms rest is rest' -> all_completed c' ms rest is rest'.
Proof.
  intros Hr H. induction H as [m rest i rest' H|m ms rest i is rest' H _ IH].
  - apply ac_last. apply completed_over; assumption.
  - apply ac_more; [apply completed_over; [constructor|exact H]|apply IH; exact Hr].
Qed.

Lemma consists_over args is : Forall unaffected args -> consists_of c args is -> consists_of c' args is.
Proof.
  intros Hr H. induction H as [|tok rest ms is rest' is' Hms Hc _ IH|rest Ho|tok rest is Ho Hne _ IH].
  - constructor.
  - assert (Hr' := Forall_inv_tail Hr). destruct (all_completed_rest _ _ _ _ _ Hc) as [taken E].
    eapply co_option; [apply stands_over; [exact (Forall_inv Hr)|exact Hms]|apply all_completed_over; eassumption|].
    apply IH. rewrite E in Hr'. apply Forall_app in Hr' as [_ Hr']. exact Hr'.
  - apply co_dashes. apply ordinary_over; [exact (Forall_inv Hr)|exact Ho].
  - apply co_argument; [apply ordinary_over; [exact (Forall_inv Hr)|exact Ho]|exact Hne|apply IH; exact (Forall_inv_tail Hr)].
Qed.

Lemma means_over args os : Forall unaffected args -> means c args os -> means c' args os.
Proof.
  intros Hr (is & js & H1 & H2 & H3). exists is, js. split; [apply consists_over; assumption|]. split; [apply gathered_alike; exact H2|apply returned_alike; exact H3].
Qed.

End Unused.

Lemma without_alike c c' f tok : (forall n, lookup c n = lookup c' n) -> does_without c f tok -> does_without c' f tok.
Proof.
  intros E (D1 & D2 & D3 & D4 & D5). split; [exact D1|]. split; [exact D2|]. split; [exact D3|]. split; [exact D4|].
  intros Hf (n & m & S & T & B & K). apply (D5 Hf). exists n, m. rewrite E. auto.
Qed.

(** C103. Whether a way to write options is allowed does not matter to a command line that does not use it. *)
Theorem C103_unused : forall c c' args,
  cl_style_parser c = None -> Forall has_name (cl_desc c) -> Forall (fun d => sensible d /\ fits d) (cl_desc c) ->
  (Z.of_nat (List.length args) < INT_MAX)%Z ->
  differ_only ways c c' ->
  (forall f tok, In f ways -> In tok args -> has (cl_style c) f = has (cl_style c') f \/ does_without c f tok) ->
  forall r, parse c args = Ok r <-> parse c' args = Ok r.
Proof.
  intros c c' args Hp Hn Hse Hl (D1 & D2 & D3 & D4 & D5 & D6) H r.
  assert (F : forall f, In f [allow_sticky; allow_guessing; long_case_insensitive; short_case_insensitive] -> has (cl_style c) f = has (cl_style c') f).
  { intros f Hf. apply D6; [cbn in *; tauto|]. cbn in *. intros Hw. destruct Hf as [<-|[<-|[<-|[<-|[]]]]]; cbn in Hw; intuition discriminate. }
  assert (F1 := F allow_sticky ltac:(cbn; tauto)). assert (F2 := F allow_guessing ltac:(cbn; tauto)).
  assert (F3 := F long_case_insensitive ltac:(cbn; tauto)). assert (F4 := F short_case_insensitive ltac:(cbn; tauto)).
  rewrite (C84_grammar c args Hp Hn Hse Hl). rewrite (C84_grammar c' args); [|congruence|rewrite <- D2; assumption|rewrite <- D2; assumption|assumption].
  split; apply means_over; auto.
  - apply Forall_forall. intros tok Ht f Hf. apply H; assumption.
  - apply Forall_forall. intros tok Ht f Hf. destruct (H f tok Hf Ht) as [E|E]; [left; auto|right].
    apply (without_alike c); [|exact E]. intros n. apply lookup_alike; assumption.
Qed.
Print Assumptions C103_unused.

(** ** Several short options in one word *)

Lemma group_total c tok : (forall x, exists od, short_lookup c x = Ok od) -> forall adjacent x, exists ms, short_group c tok x adjacent ms.
Proof.
  intros T. induction adjacent as [|y adjacent IH]; intros x; destruct (T x) as [od E].
  - eexists. eapply sg_last; [exact E|left; reflexivity].
  - destruct od as [d|]; [|eexists; eapply sg_last; [exact E|right; right; left; reflexivity]].
    destruct (Z.eq_dec (vs_max (od_sem d)) 0) as [Hm|Hm]; [|eexists; eapply sg_last; [exact E|right; right; right; exists d; auto]].
    destruct (has (cl_style c) allow_sticky) eqn:Hs; [|eexists; eapply sg_last; [exact E|right; left; rewrite Hs; discriminate]].
    destruct (IH y) as [ms Hms]. eexists. eapply sg_flag; eassumption.
Qed.

(** C103. Allowing several short options in one word only gives a meaning to command lines that were rejected, provided that no
    two options have the same letter, and that the letters do not stand for something else where case is ignored. *)
Theorem C103_sticky : forall c c' args r,
  cl_style_parser c = None -> Forall has_name (cl_desc c) -> Forall (fun d => sensible d /\ fits d) (cl_desc c) ->
  (Z.of_nat (List.length args) < INT_MAX)%Z ->
  differ_only [allow_sticky] c c' -> has (cl_style c) allow_sticky = false ->
  (forall x, exists od, short_lookup c x = Ok od) -> (forall x d, short_lookup c x = Ok (Some d) -> lookup c [c_dash; x] = Ok (Some d)) ->
  parse c args = Ok r -> parse c' args = Ok r.
Proof.
  intros c c' args r Hp Hn Hse Hl (D1 & D2 & D3 & D4 & D5 & D6) Hoff T K.
  rewrite (C84_grammar c args Hp Hn Hse Hl). rewrite (C84_grammar c' args); [|congruence|rewrite <- D2; assumption|rewrite <- D2; assumption|assumption].
  assert (F : forall f, In f style_flags -> f <> allow_sticky -> has (cl_style c) f = has (cl_style c') f).
  { intros f Hf Hne. apply D6; [exact Hf|]. intros [E|[]]. congruence. }
  assert (F1 : has (cl_style c) allow_long = has (cl_style c') allow_long) by (apply F; [cbn; tauto|discriminate]).
  assert (F2 : has (cl_style c) allow_short = has (cl_style c') allow_short) by (apply F; [cbn; tauto|discriminate]).
  assert (F3 : has (cl_style c) allow_dash_for_short = has (cl_style c') allow_dash_for_short) by (apply F; [cbn; tauto|discriminate]).
  assert (F4 : has (cl_style c) allow_slash_for_short = has (cl_style c') allow_slash_for_short) by (apply F; [cbn; tauto|discriminate]).
  assert (F5 : has (cl_style c) allow_long_disguise = has (cl_style c') allow_long_disguise) by (apply F; [cbn; tauto|discriminate]).
  assert (F6 : has (cl_style c) allow_guessing = has (cl_style c') allow_guessing) by (apply F; [cbn; tauto|discriminate]).
  assert (F7 : has (cl_style c) long_case_insensitive = has (cl_style c') long_case_insensitive) by (apply F; [cbn; tauto|discriminate]).
  assert (F8 : has (cl_style c) short_case_insensitive = has (cl_style c') short_case_insensitive) by (apply F; [cbn; tauto|discriminate]).
  assert (L : forall n, lookup c n = lookup c' n) by (intros n; apply lookup_alike; assumption).
  assert (SL : forall x, short_lookup c x = short_lookup c' x) by (intros x; apply short_lookup_alike; assumption).
  assert (Dg : forall tok n, disguise c' tok n -> disguise c tok n) by (unfold disguise; intros tok n; rewrite F5, F4; auto).
  assert (Dg' : forall tok n, disguise c tok n -> disguise c' tok n) by (unfold disguise; intros tok n; rewrite F5, F4; auto).
  assert (U : forall tok, unclaimed c tok -> unclaimed c' tok) by (intros tok; apply unclaimed_alike; assumption).
  assert (Nd : forall tok, (forall n m, disguise c tok n -> before_eq n m -> lookup c m = Ok None) ->
    forall n m, disguise c' tok n -> before_eq n m -> lookup c' m = Ok None).
  { intros tok H n m Hd Hb. rewrite <- L. apply (H n m); [apply Dg; exact Hd|exact Hb]. }
  assert (O : forall tok, ordinary c tok -> ordinary c' tok).
  { intros tok (Hu & H1 & H2 & H3 & H4). split; [apply U; exact Hu|]. split; [rewrite <- F1; exact H1|]. split; [apply Nd; exact H2|].
    rewrite <- F2, <- F3, <- F4. auto. }
  assert (S : forall tok ms, stands_for c tok ms ->
    stands_for c' tok ms \/ exists x d v, short_lookup c x = Ok (Some d) /\ vs_max (od_sem d) = 0%Z /\ ms = [mk_mention [c_dash; x] [v] [tok]]
      /\ exists ms', stands_for c' tok ms').
  { intros tok ms H. destruct H as [n v Hc|n vs Hu Ho Hw|n m d name vs Hu Hd Hb Hk Hw|x adjacent ms Hu H1 H2 -> Hx Hnd Hgr|x adjacent Hu H1 H2 -> Hnd].
    - left. apply sf_claimed. unfold claimed. rewrite <- D4. exact Hc.
    - left. apply sf_long; [apply U; exact Hu|congruence|exact Hw].
    - left. eapply sf_disguised; [apply U; exact Hu|apply Dg'; exact Hd|exact Hb|rewrite <- L; exact Hk|exact Hw].
    - assert (R : forall ms', short_group c' (c_dash :: x :: adjacent) x adjacent ms' -> stands_for c' (c_dash :: x :: adjacent) ms').
      { intros ms' Hg'. eapply sf_short; [apply U; exact Hu|congruence|congruence|reflexivity|exact Hx|apply Nd; exact Hnd|exact Hg']. }
      inversion Hgr as [? ? od Hod Hc|? ? ? d ms' Ho]; subst; [|congruence].
      destruct adjacent as [|y adjacent]; [left; apply R; eapply sg_last; [rewrite <- SL; exact Hod|left; reflexivity]|].
      destruct od as [d|]; [|left; apply R; eapply sg_last; [rewrite <- SL; exact Hod|right; right; left; reflexivity]].
      destruct (Z.eq_dec (vs_max (od_sem d)) 0) as [Hm|Hm];
        [|left; apply R; eapply sg_last; [rewrite <- SL; exact Hod|right; right; right; exists d; auto]].
      right. exists x, d, (y :: adjacent). split; [exact Hod|]. split; [exact Hm|]. split; [reflexivity|].
      destruct (group_total c' (c_dash :: x :: y :: adjacent)) with (adjacent := y :: adjacent) (x := x) as [ms' Hms']; [intros z; rewrite <- SL; apply T|].
      exists ms'. apply R. exact Hms'.
    - left. eapply sf_slash; [apply U; exact Hu|congruence|congruence|reflexivity|apply Nd; exact Hnd]. }
  assert (V : forall tok, may_be_value c tok -> may_be_value c' tok).
  { intros tok [Ho|[(ms & Hms) Hk]]; [left; apply O; exact Ho|right]. split; [|rewrite <- L; exact Hk].
    destruct (S tok ms Hms) as [H|(x & d & v & _ & _ & _ & H)]; [exists ms|]; exact H. }
  assert (C : forall m rest i rest', completed c m rest i rest' -> completed c' m rest i rest').
  { intros m rest i rest' H. apply completed_alike with (c := c); assumption. }
  assert (AC : forall ms rest is rest', all_completed c ms rest is rest' -> all_completed c' ms rest is rest').
  { intros ms rest is rest' H. induction H; [apply ac_last|apply ac_more]; auto. }
  intros (is & js & H1 & H2 & H3). exists is, js. split; [|split; [eapply gathered_alike; eassumption|eapply returned_alike; eassumption]].
  clear - H1 S AC O K. induction H1 as [|tok rest ms is rest' is' Hms Hc _ IH|rest Ho|tok rest is Ho Hne _ IH].
  - constructor.
  - eapply co_option; [|apply AC; exact Hc|exact IH]. destruct (S tok ms Hms) as [H|(x & d & v & Hd & Hm & -> & _)]; [exact H|]. exfalso.
    inversion Hc as [? ? ? ? Hc'|? ? ? ? ? ? _ Hc']; subst; [|inversion Hc']. assert (Hk := K x d Hd).
    inversion Hc' as [|? ? ? ? _ Hk' _|? ? ? d' ? ? ? _ Hk' _ Hv]; subst; [congruence|]. assert (d' = d) by congruence. subst d'. apply Hv; [discriminate|exact Hm].
  - apply co_dashes. apply O. exact Ho.
  - apply co_argument; [apply O; exact Ho|exact Hne|exact IH].
Qed.
Print Assumptions C103_sticky.

(** ** Upper and lower case *)

Lemma lookup_exact ds n : no_wildcards ds -> forall d, find_nothrow ds n false false false = Ok (Some d) ->
  exists before after, ds = before ++ d :: after /\ full d n false false.
Proof.
  intros Hw d H. destruct (PropLookup.C03_lookup_characterised ds n false false false) as (fulls & apps & F & A & R).
  { split; [discriminate|]. apply Forall_forall. intros x _. split; discriminate. }
  rewrite H in R. inversion R; subst.
  - clear - F. remember [d] as sel eqn:E. induction F as [|x l sel Hx Hsel IH|x l sel Hx _ IH]; [discriminate| |].
    + injection E as -> ->. exists [], l. auto.
    + destruct (IH E) as (b & a & -> & Hd). exists (x :: b), a. auto.
  - exfalso. assert (Hd : In d ds /\ ~ full d n false false /\ approximate d n false false).
    { clear - A. remember [d] as sel eqn:E. induction A as [|x l sel Hx _ IH|x l sel Hx _ IH]; [discriminate| |].
      - injection E as -> ->. split; [now left|exact Hx].
      - destruct (IH E) as (Hi & Hp). split; [now right|exact Hp]. }
    destruct Hd as (Hi & _ & [(l & p & t & Hl & E & _)|(Hg & _)]); [|discriminate]. cbn in E.
    unfold no_wildcards in Hw. rewrite Forall_forall in Hw. specialize (Hw d Hi). rewrite Forall_forall in Hw. apply (Hw l Hl p). symmetry. exact E.
Qed.

Lemma pairs_middle {A} (R : A -> A -> Prop) : forall before x after, ForallOrdPairs R (before ++ x :: after) ->
  Forall (fun y => R y x) before /\ Forall (R x) after.
Proof.
  induction before as [|y before IH]; intros x after H; inversion H as [|? ? Hy H']; subst.
  - split; [constructor|assumption].
  - destruct (IH x after H') as [H1 H2]. split; [|exact H2]. constructor; [|exact H1]. apply Forall_app in Hy as [_ Hy]. exact (Forall_inv Hy).
Qed.

Lemma full_folded d n sic : lowered (od_short d) (od_short d) -> full d n false false -> full d n true sic.
Proof.
  intros Hlow [(l & Hl & Hne & E)|E]; apply same_name_eq in E; cbn in E; subst.
  - left. exists n. split; [exact Hl|]. split; [exact Hne|]. apply same_name_eq. reflexivity.
  - right. apply same_name_eq. apply lowered_map in Hlow. unfold fold_str. destruct sic; [reflexivity|exact Hlow].
Qed.

Lemma lookup_folded ds n d sic : no_wildcards ds -> fit_for_case ds -> find_nothrow ds n false false false = Ok (Some d) ->
  find_nothrow ds n false true sic = Ok (Some d).
Proof.
  intros Hw [Ha Hp] H. destruct (lookup_exact ds n Hw d H) as (before & after & E & Hd).
  assert (Hdf := Ha). rewrite E in Hdf. apply Forall_app in Hdf as [_ Hdf]. apply Forall_inv in Hdf as (A1 & A2 & A3).
  assert (Hf := full_folded d n sic A3 Hd).
  assert (Hn : ascii7 n).
  { destruct Hd as [(l & Hl & _ & X)|X]; apply same_name_eq in X; cbn in X; subst; [|exact A2]. rewrite Forall_forall in A1. apply A1. exact Hl. }
  destruct (PropLookup.C03_lookup_characterised ds n false true sic) as (fulls & apps & F & _ & R).
  { split; [intros _; exact Hn|]. eapply Forall_impl; [|exact Ha]. intros x (X1 & X2 & _). split; intros _; assumption. }
  assert (fulls = [d]).
  { eapply selects_same; [exact F|]. rewrite E in Hp |- *. apply pairs_middle in Hp as [P1 P2]. apply selects_only; [|exact Hf|].
    - eapply Forall_impl; [|exact P1]. cbn. intros y Hy Hfy. exact (Hy n sic Hfy Hf).
    - eapply Forall_impl; [|exact P2]. cbn. intros y Hy. exact (Hy n sic Hf). }
  subst fulls. inversion R. reflexivity.
Qed.

Lemma match_unfolded d n sic : ascii7 (od_short d) -> lowered (od_short d) (od_short d) ->
  od_match d n false false sic = od_match d n false false false.
Proof.
  intros H7 Hl. destruct sic; [|reflexivity].
  destruct (PropLookup.C02_match_characterised d n false false true) as (r & E & M); [discriminate|split; [discriminate|intros _; exact H7]|].
  destruct (PropLookup.C02_match_characterised d n false false false) as (r' & E' & M'); [discriminate|split; discriminate|].
  rewrite E, E'. f_equal. eapply PropLookup.C02_match_unique; [exact M|].
  assert (FE : full d n false true <-> full d n false false).
  { unfold full. rewrite !same_name_eq. cbn. apply lowered_map in Hl. rewrite <- Hl. reflexivity. }
  destruct r'; cbn in *; rewrite FE; exact M'.
Qed.

Lemma find_unfolded ds n sic : Forall (fun d => ascii7 (od_short d) /\ lowered (od_short d) (od_short d)) ds ->
  find_nothrow ds n false false sic = find_nothrow ds n false false false.
Proof.
  intros H. unfold find_nothrow. f_equal. generalize (mk_fs None false [] []). induction H as [|d ds [H1 H2] _ IH]; intros st; [reflexivity|].
  cbn [find_loop]. rewrite (match_unfolded d n sic H1 H2). destruct (od_match d n false false false) as [[]| | |]; cbn; try reflexivity; apply IH.
Qed.

Lemma case_flag_ex c key : exists b, case_flag c key b.
Proof.
  unfold case_flag. assert (D : long_key key \/ ~ long_key key).
  { unfold long_key. destruct key as [|a [|b [|d k]]]; cbn [List.length].
    - right. intros [H _]. lia.
    - right. intros [H _]. lia.
    - destruct (Ascii.ascii_dec a c_dash) as [->|Hne]; [right; intros [_ H]; apply H; exists b; reflexivity|].
      left. split; [lia|]. intros [x E]. injection E as E _. exact (Hne E).
    - left. split; [lia|]. intros [x E]. discriminate E. }
  destruct D as [D|D]; [exists (has (cl_style c) long_case_insensitive)|exists (has (cl_style c) short_case_insensitive)]; split; tauto.
Qed.

(** C103. Ignoring the case of letters does not change the meaning of a command line that has one, provided that nothing is a name
    only if case is ignored: *)
Theorem C103_case : forall c c' args r,
  cl_style_parser c = None -> Forall has_name (cl_desc c) -> Forall (fun d => sensible d /\ fits d) (cl_desc c) ->
  (Z.of_nat (List.length args) < INT_MAX)%Z ->
  differ_only [long_case_insensitive; short_case_insensitive] c c' ->
  has (cl_style c) long_case_insensitive = false -> has (cl_style c) short_case_insensitive = false ->
  has (cl_style c') long_case_insensitive = true ->
  cl_allow_unregistered c = false -> has (cl_style c) allow_guessing = false -> has (cl_style c) allow_long_disguise = false ->
  no_wildcards (cl_desc c) -> fit_for_case (cl_desc c) ->
  (forall tok ms, In tok args -> stands_for c tok ms -> lookup c tok = Ok None -> lookup c' tok = Ok None) ->
  parse c args = Ok r -> exists r', parse c' args = Ok r' /\ Forall2 same_but_case r r'.
Proof.
  intros c c' args r Hp Hn Hse Hl (D1 & D2 & D3 & D4 & D5 & D6) Hlic Hsic Hlic' Hun Hg Hdis Hw Hfit Htok.
  assert (F : forall f, In f style_flags -> f <> long_case_insensitive -> f <> short_case_insensitive -> has (cl_style c) f = has (cl_style c') f).
  { intros f Hf H1 H2. apply D6; [exact Hf|]. intros [E|[E|[]]]; congruence. }
  assert (F1 : has (cl_style c) allow_long = has (cl_style c') allow_long) by (apply F; [cbn; tauto|discriminate|discriminate]).
  assert (F2 : has (cl_style c) allow_short = has (cl_style c') allow_short) by (apply F; [cbn; tauto|discriminate|discriminate]).
  assert (F3 : has (cl_style c) allow_dash_for_short = has (cl_style c') allow_dash_for_short) by (apply F; [cbn; tauto|discriminate|discriminate]).
  assert (F4 : has (cl_style c) allow_slash_for_short = has (cl_style c') allow_slash_for_short) by (apply F; [cbn; tauto|discriminate|discriminate]).
  assert (F5 : has (cl_style c) allow_long_disguise = has (cl_style c') allow_long_disguise) by (apply F; [cbn; tauto|discriminate|discriminate]).
  assert (F6 : has (cl_style c) allow_guessing = has (cl_style c') allow_guessing) by (apply F; [cbn; tauto|discriminate|discriminate]).
  assert (F7 : has (cl_style c) allow_sticky = has (cl_style c') allow_sticky) by (apply F; [cbn; tauto|discriminate|discriminate]).
  assert (L : forall n d, lookup c n = Ok (Some d) -> lookup c' n = Ok (Some d)).
  { intros n d. unfold lookup. rewrite <- D2, <- F6, Hg, Hlic, Hsic, Hlic'. apply lookup_folded; assumption. }
  assert (SL : forall x, short_lookup c x = short_lookup c' x).
  { intros x. unfold short_lookup. rewrite <- D2, Hsic. symmetry. apply find_unfolded. destruct Hfit as [Hf _].
    eapply Forall_impl; [|exact Hf]. intros d (_ & H). exact H. }
  assert (Nd : forall tok n, disguise c tok n -> False) by (intros tok n (H & _); congruence).
  assert (Nd' : forall tok n, disguise c' tok n -> False) by (intros tok n (H & _); congruence).
  assert (U : forall tok, unclaimed c tok -> unclaimed c' tok) by (intros tok; apply unclaimed_alike; assumption).
  assert (O : forall tok, ordinary c tok -> ordinary c' tok).
  { intros tok (Hu & H1 & H2 & H3 & H4). split; [apply U; exact Hu|]. split; [rewrite <- F1; exact H1|].
    split; [intros n m H; destruct (Nd' tok n H)|]. rewrite <- F2, <- F3, <- F4. auto. }
  assert (G : forall tok x adjacent ms, short_group c tok x adjacent ms -> short_group c' tok x adjacent ms).
  { intros tok x adjacent ms H. induction H as [x adjacent od Hod Hc|x y adjacent d ms Ho Hd Hm _ IH].
    - eapply sg_last; [rewrite <- SL; exact Hod|]. rewrite <- F7. exact Hc.
    - eapply sg_flag; [congruence|rewrite <- SL; exact Hd|exact Hm|exact IH]. }
  assert (S : forall tok ms, stands_for c tok ms -> stands_for c' tok ms).
  { intros tok ms H. destruct H as [n v Hc|n vs Hu Ho Hwd|n m d name vs Hu Hd|x adjacent ms Hu H1 H2 -> Hx Hnd Hgr|x adjacent Hu H1 H2 -> Hnd].
    - apply sf_claimed. unfold claimed. rewrite <- D4. exact Hc.
    - apply sf_long; [apply U; exact Hu|congruence|exact Hwd].
    - destruct (Nd tok n Hd).
    - eapply sf_short; [apply U; exact Hu|congruence|congruence|reflexivity|exact Hx|intros n m H; destruct (Nd' _ n H)|apply G; exact Hgr].
    - eapply sf_slash; [apply U; exact Hu|congruence|congruence|reflexivity|intros n m H; destruct (Nd' _ n H)]. }
  assert (V : forall tok, In tok args -> may_be_value c tok -> may_be_value c' tok).
  { intros tok Hi [Ho|[(ms & Hms) Hk]]; [left; apply O; exact Ho|right]. split; [exists ms; apply S; exact Hms|]. exact (Htok tok ms Hi Hms Hk). }
  set (known := fun i => match i with Option_ key _ _ _ => lookup c key <> Ok None | _ => True end).
  assert (KK : forall d n key, lookup c n = Ok (Some d) -> is_key d n key -> lookup c key <> Ok None).
  { intros d n key Hk Hkey. assert (Hd : In d (cl_desc c)).
    { unfold lookup in Hk. rewrite Hg, Hlic, Hsic in Hk. destruct (lookup_exact _ _ Hw d Hk) as (b & a & -> & _). apply in_elt. }
    rewrite Forall_forall in Hn. specialize (Hn d Hd). unfold has_name in Hn. unfold lookup in *. rewrite Hlic, Hsic in *.
    destruct Hkey as [(first & rest & El & _ & ->)|[(first & rest & El & _ & ->)|[El ->]]].
    - rewrite El in Hn. apply (find_full_some _ _ _ _ _ d Hd). left. exists first. rewrite El. split; [now left|]. split; [exact Hn|].
      apply same_name_eq. reflexivity.
    - congruence.
    - apply (find_full_some _ _ _ _ _ d Hd). right. apply same_name_eq. reflexivity. }
  assert (C : forall m rest i rest', incl rest args -> completed c m rest i rest' -> completed c' m rest i rest' /\ known i /\ incl rest' args).
  { intros m rest i rest' Hi H. destruct H as [v t rest|n vs ts rest _ _ H|n vs ts d key taken rest H1 Hk Hkey Hv Hc Ht].
    - split; [constructor|]. split; [exact I|exact Hi].
    - congruence.
    - split; [|split; [exact (KK d n key Hk Hkey)|intros z Hz; apply Hi; apply in_or_app; now right]].
      eapply cm_known; [exact H1|apply L; exact Hk|exact Hkey|exact Hv|exact Hc|]. rewrite Forall_forall in *.
      intros tok Ht'. apply V; [apply Hi; apply in_or_app; now left|apply Ht; exact Ht']. }
  assert (AC : forall ms rest is rest', incl rest args -> all_completed c ms rest is rest' ->
    all_completed c' ms rest is rest' /\ Forall known is /\ incl rest' args).
  { intros ms rest is rest' Hi H. induction H as [m rest i rest' H|m ms rest i is rest' H _ IH].
    - destruct (C m rest i rest' Hi H) as (C1 & C2 & C3). split; [apply ac_last; exact C1|]. split; [|exact C3]. constructor; [exact C2|constructor].
    - destruct (C m [] i [] (incl_nil_l _) H) as (C1 & C2 & _). destruct (IH Hi) as (C3 & C4 & C5).
      split; [apply ac_more; assumption|]. split; [|exact C5]. constructor; assumption. }
  assert (CO : forall rest is, incl rest args -> consists_of c rest is -> consists_of c' rest is /\ Forall known is).
  { intros rest is Hi H. induction H as [|tok rest ms is rest' is' Hms Hc _ IH|rest Ho|tok rest is Ho Hne _ IH].
    - split; constructor.
    - apply incl_cons_inv in Hi as [_ Hi]. destruct (AC ms rest is rest' Hi Hc) as (A1 & A2 & A3). destruct (IH A3) as [I1 I2].
      split; [eapply co_option; [apply S; exact Hms|exact A1|exact I1]|]. apply Forall_app. split; assumption.
    - split; [apply co_dashes; apply O; exact Ho|]. apply Forall_map. apply Forall_forall. intros x _. exact I.
    - apply incl_cons_inv in Hi as [_ Hi]. destruct (IH Hi) as [I1 I2]. split; [apply co_argument; [apply O; exact Ho|exact Hne|exact I1]|].
      constructor; [exact I|exact I2]. }
  assert (GA : forall is js, Forall known is -> gathered c is js -> gathered c' is js).
  { intros is js Hi H. induction H as [|v t is is' _ IH|t is is' _ IH|key u vs ts is is' Hk _ IH|key u vs ts d more k is is' Hk Hcap Hlim Hend _ IH].
    - constructor.
    - constructor. apply IH. exact (Forall_inv_tail Hi).
    - constructor. apply IH. exact (Forall_inv_tail Hi).
    - destruct (Forall_inv Hi Hk).
    - eapply ga_known; [apply L; exact Hk|exact Hcap|exact Hlim|exact Hend|]. apply IH. apply Forall_inv_tail, Forall_app in Hi as [_ Hi]. exact Hi. }
  assert (AN : forall k n, argument_name c k n -> argument_name c' k n) by (intros k n; apply argument_alike; assumption).
  assert (RT : forall k is os, returned c k is os -> exists os', returned c' k is os' /\ Forall2 same_but_case os os').
  { intros k is os H. induction H as [k|k key u vs ts b is os Hb _ (os' & I1 & I2)|k v t name b is os Ha Hb _ (os' & I1 & I2)|k t name b is os Ha Hb _ (os' & I1 & I2)].
    - exists []. split; constructor.
    - destruct (case_flag_ex c' key) as [b' Hb']. eexists. split; [eapply rt_option; eassumption|]. constructor; [repeat split|exact I2].
    - destruct (case_flag_ex c' name) as [b' Hb']. eexists. split; [eapply rt_argument; [apply AN; exact Ha|eassumption|eassumption]|].
      constructor; [repeat split|exact I2].
    - destruct (case_flag_ex c' name) as [b' Hb']. eexists. split; [eapply rt_verbatim; [apply AN; exact Ha|eassumption|eassumption]|].
      constructor; [repeat split|exact I2]. }
  intros H. apply (C84_grammar c args Hp Hn Hse Hl) in H as (is & js & H1 & H2 & H3).
  destruct (CO args is (incl_refl _) H1) as [H1' Hkn]. destruct (RT 0 js r H3) as (r' & H3' & Hr).
  exists r'. split; [|exact Hr]. apply (C84_grammar c' args); [congruence|rewrite <- D2; assumption|rewrite <- D2; assumption|assumption|].
  exists is, js. split; [exact H1'|]. split; [exact (GA is js Hkn H2)|exact H3'].
Qed.
Print Assumptions C103_case.

(** ** Without the conditions *)

Definition some_options ds style : cmdline := mk_cl style false ds None None None.
Definition o_version := mk_od $"-V" [$"version"] $"print the version" tflag.

Lemma full_lower d n sic : full d n true sic -> In (map lower_ascii n) (fold_str sic (od_short d) :: map (map lower_ascii) (od_longs d)).
Proof.
  intros [(l & Hl & _ & E)|E]; apply same_name_eq in E.
  - right. unfold fold_str in E. rewrite <- E. apply in_map. exact Hl.
  - left. exact E.
Qed.

Lemma fit_two : fit_for_case [o_output; o_verbose].
Proof.
  split.
  - repeat apply Forall_cons; try apply Forall_nil; (split; [repeat constructor|split; [repeat constructor|apply lowered_map; reflexivity]]).
  - repeat apply FOP_cons; try apply FOP_nil; repeat apply Forall_cons; try apply Forall_nil.
    intros n sic H H'. apply full_lower in H, H'. destruct sic; cbn in H, H'; intuition congruence.
Qed.

(** Where the case of long names is ignored and that of short names is not, an option with an upper-case letter can not be given
    by its letter. *)
Theorem C103_upper_case_refuted : exists c c' args r e,
  differ_only [long_case_insensitive] c c' /\ has (cl_style c') long_case_insensitive = true /\ cl_desc c = [o_version]
  /\ args = [$"-V"] /\ parse c args = Ok r /\ parse c' args = Throw e /\ ex_class e = unknown_option.
Proof.
  exists (some_options [o_version] 503), (some_options [o_version] (503 + 1024)), [$"-V"]. eexists. eexists.
  split; [|split; [reflexivity|split; [reflexivity|split; [reflexivity|split; [vm_compute; reflexivity|split; [vm_compute; reflexivity|reflexivity]]]]]].
  do 5 (split; [reflexivity|]). intros f Hf Hne. cbn in Hf, Hne. intuition (subst; try reflexivity; exfalso; auto).
Qed.
Print Assumptions C103_upper_case_refuted.

(** A value that is a name only if case is ignored is no longer one: "--output -V" where there is an option "-v". *)
Theorem C103_value_refuted : exists c c' args r e,
  differ_only [long_case_insensitive; short_case_insensitive] c c' /\ fit_for_case (cl_desc c)
  /\ args = [$"--output"; $"-V"] /\ parse c args = Ok r /\ parse c' args = Throw e /\ ex_class e = invalid_command_line_syntax missing_parameter.
Proof.
  exists (some_options [o_output; o_verbose] 503), (some_options [o_output; o_verbose] (503 + 3072)), [$"--output"; $"-V"]. eexists. eexists.
  split; [|split; [|split; [reflexivity|split; [vm_compute; reflexivity|split; [vm_compute; reflexivity|reflexivity]]]]].
  - do 5 (split; [reflexivity|]). intros f Hf Hne. cbn in Hf, Hne. intuition (subst; try reflexivity; exfalso; auto).
  - apply fit_two.
Qed.
Print Assumptions C103_value_refuted.

(** With two options of the same letter, allowing several letters in one word can make a value of an option ambiguous. *)
Theorem C103_sticky_refuted : exists c c' args r e,
  differ_only [allow_sticky] c c' /\ has (cl_style c) allow_sticky = false
  /\ args = [$"--output"; $"-hv"] /\ parse c args = Ok r /\ parse c' args = Throw e /\ exists names, ex_class e = ambiguous_option names.
Proof.
  exists (some_options [o_output; o_help; o_verbose; o_verbose] (503 - 256)), (some_options [o_output; o_help; o_verbose; o_verbose] 503), [$"--output"; $"-hv"].
  eexists. eexists.
  split; [|split; [reflexivity|split; [reflexivity|split; [vm_compute; reflexivity|split; [vm_compute; reflexivity|eexists; reflexivity]]]]].
  do 5 (split; [reflexivity|]). intros f Hf Hne. cbn in Hf, Hne. intuition (subst; try reflexivity; exfalso; auto).
Qed.
Print Assumptions C103_sticky_refuted.

(** ** Concrete cases *)

Definition two := [o_output; o_verbose].

(** A command line for each of the three theorems, and one each to show that the flag does make a difference otherwise. *)
Example C103_ex :
  (let c := some_options two 503 in let c' := some_options two (503 + 8) in
   let args := [$"--output"; $"x"; $"-v"] in
   differ_only ways c c' /\ has (cl_style c) allow_slash_for_short <> has (cl_style c') allow_slash_for_short
   /\ (forall f tok, In f ways -> In tok args -> has (cl_style c) f = has (cl_style c') f \/ does_without c f tok)
   /\ (exists r, parse c args = Ok r /\ parse c' args = Ok r)
   /\ exists r, parse c [$"/tmp"] = Ok r /\ parse c' [$"/tmp"] <> Ok r)
  /\ (let c := some_options two (503 - 256) in let c' := some_options two 503 in
     let args := [$"-v"; $"-ox"] in
     differ_only [allow_sticky] c c'
     /\ (forall x, exists od, short_lookup c x = Ok od) /\ (forall x d, short_lookup c x = Ok (Some d) -> lookup c [c_dash; x] = Ok (Some d))
     /\ (exists r, parse c args = Ok r /\ parse c' args = Ok r)
     /\ (exists e, parse c [$"-vv"] = Throw e) /\ exists r, parse c' [$"-vv"] = Ok r)
  /\ (let c := some_options two 503 in let c' := some_options two (503 + 3072) in
     let args := [$"-v"; $"--output"; $"-X"; $"A"] in
     differ_only [long_case_insensitive; short_case_insensitive] c c' /\ no_wildcards two /\ fit_for_case two
     /\ (forall tok ms, In tok args -> stands_for c tok ms -> lookup c tok = Ok None -> lookup c' tok = Ok None)
     /\ (exists r r', parse c args = Ok r /\ parse c' args = Ok r' /\ r <> r' /\ map po_value r = [[]; [$"-X"]; [$"A"]])
     /\ (exists e, parse c [$"--OUTPUT=x"] = Throw e) /\ exists r, parse c' [$"--OUTPUT=x"] = Ok r).
Proof.
  split; [|split]; cbv zeta.
  - split; [do 5 (split; [reflexivity|]); intros f Hf Hne; cbn in Hf, Hne; intuition (subst; try reflexivity; exfalso; auto)|].
    split; [discriminate|]. split; [|split].
    + intros f tok Hf Ht. cbn in Hf. destruct Hf as [<-|[<-|[<-|[<-|[<-|[]]]]]]; try (left; reflexivity). right.
      do 2 (split; [discriminate|]). split; [|split; discriminate]. intros _ (x & rest & E). cbn in Ht. intuition (subst; discriminate).
    + eexists. split; vm_compute; reflexivity.
    + eexists. split; [vm_compute; reflexivity|]. vm_compute. discriminate.
  - split; [do 5 (split; [reflexivity|]); intros f Hf Hne; cbn in Hf, Hne; intuition (subst; try reflexivity; exfalso; auto)|].
    split; [|split; [intros x d H; exact H|split; [|split]]].
    + intros x. destruct (Ascii.ascii_dec x "o") as [->|H1]; [eexists; reflexivity|]. destruct (Ascii.ascii_dec x "v") as [->|H2]; [eexists; reflexivity|].
      exists None. destruct x as [[] [] [] [] [] [] [] []]; try reflexivity; (destruct (H1 eq_refl) || destruct (H2 eq_refl)).
    + eexists. split; vm_compute; reflexivity.
    + eexists. vm_compute. reflexivity.
    + eexists. vm_compute. reflexivity.
  - split; [do 5 (split; [reflexivity|]); intros f Hf Hne; cbn in Hf, Hne; intuition (subst; try reflexivity; exfalso; auto)|].
    split; [|split; [exact fit_two|split; [|split; [|split]]]].
    + repeat apply Forall_cons; try apply Forall_nil; intros p E; apply (f_equal (@rev _)) in E; rewrite rev_app_distr in E; discriminate E.
    + intros tok ms Ht _ H. cbn in Ht. destruct Ht as [<-|[<-|[<-|[<-|[]]]]]; try reflexivity. discriminate H.
    + eexists. eexists. split; [vm_compute; reflexivity|]. split; [vm_compute; reflexivity|]. split; [discriminate|reflexivity].
    + eexists. vm_compute. reflexivity.
    + eexists. vm_compute. reflexivity.
Qed.
