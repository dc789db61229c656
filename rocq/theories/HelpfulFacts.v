(** Proofs for C108. *)

From Coq Require Import List Ascii String NArith ZArith Bool Lia.
From Verif Require Import Base Errors Spec BaseFacts Values OptDesc SpecLookup LookupFacts Positional Cmdline SpecCmdline
  CmdlineFacts SpecReject SpecGrammar GrammarFacts SpecFormat SpecHelpful.
From Verif Require PropLookup PropGrammar.
Import ListNotations.

Lemma selects_app A (P : A -> Prop) a b sel : selects P (a ++ b) sel ->
  exists s1 s2, selects P a s1 /\ selects P b s2 /\ sel = s1 ++ s2.
Proof.
  revert sel. induction a as [|x a IH]; intros sel H.
  - exists [], sel. repeat split; auto. constructor.
  - cbn [app] in H. inversion H as [|? ? ? Hx H'|? ? ? Hx H']; subst.
    + destruct (IH _ H') as (s1 & s2 & A1 & A2 & ->). exists (x :: s1), s2. repeat split; auto. now constructor.
    + destruct (IH _ H') as (s1 & s2 & A1 & A2 & ->). exists s1, s2. repeat split; auto. now constructor.
Qed.

Lemma selects_none A (P : A -> Prop) l sel : selects P l sel -> (forall x, In x l -> ~ P x) -> sel = [].
Proof.
  induction 1 as [|x l sel Hx H IH|x l sel Hx H IH]; intros N; auto.
  - exfalso. exact (N x (or_introl eq_refl) Hx).
  - apply IH. intros y Hy. apply N. now right.
Qed.

Lemma full_plain d n : n <> [] -> full d n false false <-> In n (od_longs d) \/ od_short d = n.
Proof.
  intros Hn. unfold full, same_name, folded. split.
  - intros [(l & Hi & _ & t & -> & ->)|(t & -> & E)]; [now left|right; congruence].
  - intros [Hi| <-].
    + left. exists n. repeat split; auto. now exists n.
    + right. eexists. split; reflexivity.
Qed.

Lemma sole_lookup ds d n guess : n <> [] -> In n (od_longs d) \/ od_short d = n -> sole_owner ds d n ->
  find_nothrow ds n guess false false = Ok (Some d).
Proof.
  intros Hn Hown (before & after & -> & Hno).
  destruct (PropLookup.C03_lookup_characterised (before ++ d :: after) n guess false false) as (fulls & apps & Hf & _ & Hr).
  { split; [discriminate|]. apply Forall_forall. intros x _. split; discriminate. }
  assert (fulls = [d]).
  { apply selects_app in Hf. destruct Hf as (s1 & s2 & H1 & H2 & ->).
    apply selects_none in H1.
    2: { intros x Hx Hfull. apply full_plain in Hfull; auto. destruct (Hno x) as (A & B); [apply in_or_app; auto|]. tauto. }
    inversion H2 as [|? ? ? Hx H'|? ? ? Hx H']; subst.
    - apply selects_none in H'; [now subst|]. intros x Hxi Hfull. apply full_plain in Hfull; auto.
      destruct (Hno x) as (A & B); [apply in_or_app; auto|]. tauto.
    - exfalso. apply Hx. apply full_plain; auto. }
  subst fulls. inversion Hr; subst; try congruence.
Qed.

Lemma split_eq a b a' b' : without c_eq a -> without c_eq a' -> a ++ c_eq :: b = a' ++ c_eq :: b' -> a = a' /\ b = b'.
Proof.
  revert a'. induction a as [|x a IH]; intros [|y a'] Ha Ha' E; cbn [app] in E; [injection E as E2|injection E as E1 E2|injection E as E1 E2|injection E as E1 E2].
  - auto.
  - exfalso. apply Ha'. left. congruence.
  - exfalso. apply Ha. left. congruence.
  - subst y. destruct (IH a') as (-> & ->); auto; intros Hi; [apply Ha|apply Ha']; now right.
Qed.

Section Helpful.
Variable c : cmdline.
Variable d : option_description.
Hypothesis U : usual c.
Hypothesis W : well_named (cl_desc c) d.
Hypothesis NC : counted (cl_desc c).

Lemma own_short : od_short d <> [] -> lookup c (od_short d) = Ok (Some d).
Proof.
  intros Hs. unfold lookup. destruct (us_case _ U) as (-> & ->).
  destruct (wn_short _ _ W Hs) as (_ & Ho). apply sole_lookup; auto.
Qed.

Lemma own_short_lookup x : od_short d = [c_dash; x] -> short_lookup c x = Ok (Some d).
Proof.
  intros Hs. unfold short_lookup. destruct (us_case _ U) as (_ & ->). rewrite <- Hs.
  assert (Hn : od_short d <> []) by (rewrite Hs; discriminate).
  destruct (wn_short _ _ W Hn) as (_ & Ho). apply sole_lookup; auto.
Qed.

Lemma own_long l ls : od_longs d = l :: ls -> lookup c l = Ok (Some d).
Proof.
  intros Hl. unfold lookup. destruct (us_case _ U) as (-> & ->).
  destruct (wn_long _ _ W l ls Hl) as (Hn & _ & _ & Ho). apply sole_lookup; auto. left. rewrite Hl. now left.
Qed.

Lemma own_filed : lookup c (filed_as d) = Ok (Some d) /\ filed_as d <> [].
Proof.
  unfold filed_as. destruct (od_longs d) as [|l ls] eqn:E.
  - assert (od_short d <> []) by (destruct (wn_some _ _ W); congruence). split; auto. now apply own_short.
  - split; [now apply (own_long l ls)|]. now destruct (wn_long _ _ W l ls E).
Qed.

Lemma filed_key n : is_key d n (filed_as d).
Proof.
  unfold filed_as, is_key. destruct (od_longs d) as [|l ls] eqn:E.
  - right. right. auto.
  - left. exists l, ls. destruct (wn_long _ _ W l ls E) as (_ & _ & Hs & _). auto.
Qed.

Lemma nobody_claims tok : unclaimed c tok.
Proof. intros n v (f & Ef & _). destruct (us_plain _ U) as (_ & Ha). congruence. Qed.

Lemma no_disguise tok n : ~ disguise c tok n.
Proof. intros (Hd & _). pose proof (us_disguise _ U). congruence. Qed.

Lemma mere_ordinary v : mere_word v -> ordinary c v.
Proof.
  intros Hv. unfold ordinary.
  split; [apply nobody_claims|].
  split. { intros (_ & n & _ & ->). apply Hv. exists c_dash, (c_dash :: n). auto. }
  split. { intros n m Hd. now apply no_disguise in Hd. }
  split. { intros (_ & _ & x & adj & _ & ->). apply Hv. eexists _, _. auto. }
  intros (_ & _ & x & adj & ->). apply Hv. eexists _, _. auto.
Qed.

Lemma stands w n : shown_word d w n -> stands_for c w [mk_mention n [] [w]] /\ n <> [] /\ lookup c n = Ok (Some d).
Proof.
  intros [x Hs|l ls Hl].
  - assert (Hn : od_short d <> []) by (rewrite Hs; discriminate).
    destruct (wn_short _ _ W Hn) as ((y & Hy & Hd) & _). assert (y = x) by congruence. subst y.
    split; [|split; [discriminate|rewrite <- Hs; now apply own_short]].
    apply (sf_short c _ x [] [mk_mention [c_dash; x] [] [[c_dash; x]]]); auto using nobody_claims; [exact (us_short _ U)|exact (us_dash _ U)| |].
    + intros n0 m Hdis. now apply no_disguise in Hdis.
    + apply (sg_last c _ x [] (Some d)); auto. now apply own_short_lookup.
  - destruct (wn_long _ _ W l ls Hl) as (Hn & He & _ & _). split; [|split; [exact Hn|now apply (own_long l ls)]].
    apply sf_long; [apply nobody_claims|exact (us_long _ U)|exact (lw_bare l Hn He)].
Qed.

Lemma own_sized : sensible d /\ fits d.
Proof. destruct NC as (_ & Hs). rewrite Forall_forall in Hs. apply Hs. apply (lookup_In c (filed_as d)). apply own_filed. Qed.

Lemma flag_false key : case_flag c key false.
Proof. destruct (us_case _ U) as (E1 & E2). split; intros _; congruence. Qed.

Lemma gr args res : (Z.of_nat (List.length args) < INT_MAX)%Z -> parse c args = Ok res <-> means c args res.
Proof. intros H. destruct NC as (N1 & N2). apply PropGrammar.C84_grammar; auto. apply (us_plain _ U). Qed.

Lemma words_are_arguments vs : Forall mere_word vs -> consists_of c vs (map (fun v => Argument v v) vs).
Proof.
  induction 1 as [|v vs Hv _ IH]; [constructor|]. cbn [map]. apply co_argument; auto.
  - now apply mere_ordinary.
  - intros ->. apply Hv. eexists _, _. split; [reflexivity|]. now left.
Qed.

(** The word with as many values as the option can have. *)
Lemma typed_lemma w n vs :
  shown_word d w n -> Forall mere_word vs ->
  (vs_min (od_sem d) <= Z.of_nat (List.length vs) <= Z.max (vs_min (od_sem d)) (vs_max (od_sem d)))%Z -> (Z.of_nat (List.length (w :: vs)) < INT_MAX)%Z ->
  parse c (w :: vs) = Ok [mk_popt (filed_as d) (-1) vs (w :: vs) false false].
Proof.
  intros Hw Hvs Hnum Hlen. apply gr; auto. destruct (stands w n Hw) as (Hst & Hn & Hl).
  destruct own_sized as ((Hmin & Hmax) & Hfit).
  set (k := Z.to_nat (vs_min (od_sem d))).
  assert (Hk : k <= List.length vs) by lia.
  assert (Hfr : Forall mere_word (firstn k vs ++ skipn k vs)) by (rewrite firstn_skipn; exact Hvs).
  apply Forall_app in Hfr. destruct Hfr as (Hf & Hr).
  assert (Hlf : List.length (firstn k vs) = k) by (apply firstn_length_le; lia).
  assert (Hlr : List.length (skipn k vs) = List.length vs - k) by apply skipn_length.
  exists ([Option_ (filed_as d) false (firstn k vs) (w :: firstn k vs)] ++ map (fun v => Argument v v) (skipn k vs)).
  exists [Option_ (filed_as d) false vs (w :: vs)]. split; [|split].
  - replace (w :: vs) with (w :: firstn k vs ++ skipn k vs) by (now rewrite firstn_skipn).
    apply (co_option c w (firstn k vs ++ skipn k vs) [mk_mention n [] [w]] _ (skipn k vs)); [exact Hst| |now apply words_are_arguments].
    apply ac_last.
    apply (cm_known c n [] [w] d (filed_as d) (firstn k vs) (skipn k vs)); auto using filed_key.
    + rewrite Hlf. cbn [List.length]. unfold k. lia.
    + eapply Forall_impl; [|exact Hf]. intros v Hv. left. now apply mere_ordinary.
  - replace (map (fun v : str => Argument v v) (skipn k vs))
      with (map (fun vt : str * str => Argument (fst vt) (snd vt)) (map (fun v => (v, v)) (skipn k vs)) ++ [])
      by (rewrite app_nil_r, map_map; reflexivity).
    assert (E : [Option_ (filed_as d) false vs (w :: vs)]
      = [Option_ (filed_as d) false (firstn k vs ++ map fst (map (fun v => (v, v)) (skipn k vs)))
           ((w :: firstn k vs) ++ map snd (map (fun v => (v, v)) (skipn k vs)))]).
    { rewrite !map_map. cbn [fst snd]. rewrite !map_id. cbn [app]. now rewrite firstn_skipn. }
    rewrite E. clear E.
    assert (C : exists cap, capacity d (List.length (firstn k vs)) cap
              /\ (forall limit, cap = Some limit -> List.length (map (fun v : str => (v, v)) (skipn k vs)) <= limit)).
    { rewrite Hlf, map_length, Hlr.
      destruct (Z_le_gt_dec (vs_max (od_sem d)) (vs_min (od_sem d))) as [A|A].
      - exists (Some 0). split; [apply rm_none; now left|]. intros limit [= <-]. lia.
      - destruct (Z.eq_dec (vs_max (od_sem d)) UINT_MAX) as [B|B].
        + exists None. split; [apply rm_unlimited; lia|discriminate].
        + exists (Some (Z.to_nat (vs_max (od_sem d)) - k)). split; [apply rm_limited; lia|]. intros limit [= <-]. lia. }
    destruct C as (cap & C1 & C2).
    apply (ga_known c (filed_as d) false (firstn k vs) (w :: firstn k vs) d (map (fun v => (v, v)) (skipn k vs)) cap [] []); auto.
    + apply own_filed.
    + right. intros (v & t & is' & E). discriminate.
    + constructor.
  - apply rt_option; [apply flag_false|constructor].
Qed.

(** Values that are not the option's are arguments. *)
Lemma not_taken_lemma w n vs :
  shown_word d w n -> Forall mere_word vs -> cl_positional c = None ->
  vs_max (od_sem d) = 0%Z -> vs_min (od_sem d) = 0%Z -> (Z.of_nat (List.length (w :: vs)) < INT_MAX)%Z ->
  exists rest, parse c (w :: vs) = Ok (mk_popt (filed_as d) (-1) [] [w] false false :: rest)
    /\ positional_items 0 vs rest.
Proof.
  intros Hw Hvs Hp Hmax Hmin Hlen. destruct (stands w n Hw) as (Hst & Hn & Hl).
  exists (map (fun kv => mk_popt [] (Z.of_nat (fst kv)) [snd kv] [snd kv] false false) (combine (seq 0 (List.length vs)) vs)).
  split.
  - apply gr; auto.
    exists ([Option_ (filed_as d) false [] [w]] ++ map (fun v => Argument v v) vs).
    exists (Option_ (filed_as d) false [] [w] :: map (fun v => Argument v v) vs). split; [|split].
    + apply (co_option c w vs [mk_mention n [] [w]] _ vs); [exact Hst| |now apply words_are_arguments].
      apply ac_last. apply (cm_known c n [] [w] d (filed_as d) [] vs); auto using filed_key. rewrite Hmin. reflexivity.
    + assert (G : forall vs, gathered c (map (fun v => Argument v v) vs) (map (fun v => Argument v v) vs)).
      { induction vs0; cbn [map]; constructor; auto. }
      apply (ga_known c (filed_as d) false [] [w] d [] (Some 0) (map (fun v => Argument v v) vs) (map (fun v => Argument v v) vs)); auto.
      * apply own_filed.
      * apply rm_none. left. lia.
      * intros limit [= <-]. auto.
    + apply rt_option; [apply flag_false|].
      assert (G : forall vs k, returned c k (map (fun v => Argument v v) vs)
        (map (fun kv => mk_popt [] (Z.of_nat (fst kv)) [snd kv] [snd kv] false false) (combine (seq k (List.length vs)) vs))).
      { induction vs0 as [|v vs0 IH]; intros k; cbn [map List.length seq combine]; constructor; auto.
        - now constructor.
        - apply flag_false. }
      apply G.
  - assert (G : forall vs k, positional_items (Z.of_nat k) vs
        (map (fun kv => mk_popt [] (Z.of_nat (fst kv)) [snd kv] [snd kv] false false) (combine (seq k (List.length vs)) vs))).
    { clear. induction vs as [|v vs IH]; intros k; cbn [map List.length seq combine positional_items]; [exact I|].
      split; [repeat split|]. specialize (IH (S k)). rewrite Nat2Z.inj_succ in IH. exact IH. }
    exact (G vs 0).
Qed.

(** The word is read in no other way. *)
Lemma stands_only w n ms : shown_word d w n -> stands_for c w ms -> ms = [mk_mention n [] [w]].
Proof.
  intros Hw Hs. destruct Hs as [n' v Hc|n' vs Hu Ho Hl|n' m d' name vs Hu Hd|x adj ms Hu Ho1 Ho2 E Hx Hd Hg|x adj Hu Ho1 Ho2 E].
  - exfalso. now apply nobody_claims in Hc.
  - destruct Hw as [x Hx|l ls Hll].
    + exfalso. assert (Hn : od_short d <> []) by (rewrite Hx; discriminate).
      destruct (wn_short _ _ W Hn) as ((y & Hy & Hd) & _). rewrite Hx in Hy. injection Hy as ->.
      inversion Hl as [n0 ? ? E|n0 v ? ? E]; subst; unfold dashdash in *; congruence.
    + destruct (wn_long _ _ W l ls Hll) as (_ & He & _ & _). remember ($"--" ++ l) as w eqn:Ew.
      destruct Hl as [n0 Hn0 Hw0|n0 v Hw0 Hv0].
      * apply (app_inv_head dashdash) in Ew. now subst.
      * exfalso. apply (app_inv_head dashdash) in Ew. subst l. apply He. apply in_or_app. right. now left.
  - exfalso. now apply no_disguise in Hd.
  - destruct Hw as [y Hy|l ls Hll].
    + injection E as <- <-. inversion Hg; subst; reflexivity.
    + exfalso. injection E as E1 _. apply Hx. exact (eq_sym E1).
  - exfalso. destruct Hw; discriminate.
Qed.

Lemma not_ordinary w n : shown_word d w n -> ~ ordinary c w.
Proof.
  intros Hw (_ & H1 & _ & H2 & _). destruct Hw as [x Hx|l ls Hll].
  - assert (Hn : od_short d <> []) by (rewrite Hx; discriminate).
    destruct (wn_short _ _ W Hn) as ((y & Hy & Hd) & _). rewrite Hx in Hy. injection Hy as ->.
    apply H2. split; [exact (us_short _ U)|]. split; [exact (us_dash _ U)|]. eauto.
  - apply H1. split; [exact (us_long _ U)|]. exists l. split; [apply (wn_long _ _ W l ls Hll)|reflexivity].
Qed.

(** Too few values. *)
Lemma too_few_lemma w n vs res :
  shown_word d w n -> (Z.of_nat (List.length vs) < vs_min (od_sem d))%Z ->
  (Z.of_nat (List.length (w :: vs)) < INT_MAX)%Z -> parse c (w :: vs) <> Ok res.
Proof.
  intros Hw Hnum Hlen H. apply gr in H; auto. destruct H as (is & is' & H & _ & _).
  destruct (stands w n Hw) as (Hst & Hn & Hl).
  remember (w :: vs) as args eqn:Eargs.
  destruct H as [|tok rest ms is1 rest' is2 Hs Ha Hc|rest Ho|tok rest is1 Ho Hd Hc]; [discriminate| | |]; injection Eargs as E1 E2.
  all: subst.
  - assert (ms = [mk_mention n [] [w]]) by (eapply stands_only; eauto). subst ms.
    inversion Ha as [m rest0 i rest'' Hcm|m ms rest0 i is3 rest'' ? Hx]; subst; [|inversion Hx].
    inversion Hcm as [v t r|n0 vs0 ts r Hne Hno|n0 vs0 ts d0 key taken r Hne Hlo Hk Hm Hlen' Hmay]; subst.
    + rewrite Hl in Hno. discriminate.
    + rewrite Hl in Hlo. injection Hlo as <-. rewrite app_length in Hnum. cbn [List.length] in Hlen'. lia.
  - exact (not_ordinary _ _ Hw Ho).
  - exact (not_ordinary _ _ Hw Ho).
Qed.

(** A value in the same token as the long name. *)
Lemma attached_lemma l ls v :
  od_longs d = l :: ls -> v <> [] -> vs_max (od_sem d) <> 0%Z -> (vs_min (od_sem d) <= 1)%Z ->
  parse c [$"--" ++ l ++ $"=" ++ v] = Ok [mk_popt (filed_as d) (-1) [v] [$"--" ++ l ++ $"=" ++ v] false false].
Proof.
  intros Hl Hv Hmax Hmin. apply gr; [cbn; unfold INT_MAX; lia|].
  destruct (wn_long _ _ W l ls Hl) as (Hn & He & _ & _). destruct own_sized as ((Hmin0 & Hmax0) & Hfit).
  set (tok := $"--" ++ l ++ $"=" ++ v).
  exists [Option_ (filed_as d) false [v] [tok]], [Option_ (filed_as d) false [v] [tok]]. split; [|split].
  - apply (co_option c tok [] [mk_mention l [v] [tok]] [Option_ (filed_as d) false [v] [tok]] [] []); [| |constructor].
    + apply sf_long; [apply nobody_claims|exact (us_long _ U)|]. exact (lw_value l v He Hv).
    + apply ac_last. apply (cm_known c l [v] [tok] d (filed_as d) [] []); auto using filed_key; [now apply (own_long l ls)|].
      cbn [List.length]. lia.
  - assert (C : exists cap, capacity d 1 cap).
    { destruct (Z_le_gt_dec (vs_max (od_sem d)) 1) as [A|A]; [exists (Some 0); apply rm_none; right; lia|].
      destruct (Z.eq_dec (vs_max (od_sem d)) UINT_MAX) as [B|B]; [exists None; apply rm_unlimited; lia|].
      exists (Some (Z.to_nat (vs_max (od_sem d)) - 1)). apply rm_limited; lia. }
    destruct C as (cap & C).
    apply (ga_known c (filed_as d) false [v] [tok] d [] cap [] []); auto.
    + apply own_filed.
    + intros limit _. cbn. lia.
    + right. intros (v' & t & is' & E). discriminate.
    + constructor.
  - apply rt_option; [apply flag_false|constructor].
Qed.

Lemma not_attached_lemma l ls v res :
  od_longs d = l :: ls -> v <> [] -> vs_max (od_sem d) = 0%Z ->
  parse c [$"--" ++ l ++ $"=" ++ v] <> Ok res.
Proof.
  intros Hl Hv Hmax H. apply gr in H; [|cbn; unfold INT_MAX; lia]. destruct H as (is & is' & H & _ & _).
  destruct (wn_long _ _ W l ls Hl) as (Hn & He & _ & _). pose proof (own_long l ls Hl) as Hlook.
  remember [$"--" ++ l ++ $"=" ++ v] as args eqn:Eargs.
  destruct H as [|tok rest ms is1 rest' is2 Hs Ha Hc|rest Ho|tok rest is1 Ho Hd Hc]; [discriminate| | |]; injection Eargs as E1 E2.
  - subst rest.
    assert (Ems : exists ts, ms = [mk_mention l [v] ts]).
    { destruct Hs as [n' v' Hc'|n' vs Hu Ho Hlw|n' m d' name vs Hu Hd|x adj ms Hu Ho1 Ho2 E Hx Hd Hg|x adj Hu Ho1 Ho2 E].
      - exfalso. now apply nobody_claims in Hc'.
      - clear Ha. destruct Hlw as [n0 Hn0 Hw0|n0 v0 Hw0 Hv0].
        + exfalso. apply (app_inv_head dashdash) in E1. subst n0. apply Hw0. apply in_or_app. right. now left.
        + apply (app_inv_head dashdash) in E1. destruct (split_eq _ _ _ _ Hw0 He E1) as (-> & ->). eauto.
      - exfalso. now apply no_disguise in Hd.
      - exfalso. rewrite E in E1. injection E1 as E1 _. apply Hx. exact E1.
      - exfalso. rewrite E in E1. discriminate. }
    destruct Ems as (ts & ->).
    inversion Ha as [m rest0 i rest'' Hcm|m ms rest0 i is3 rest'' ? Hx]; subst; [|inversion Hx].
    inversion Hcm as [v0 t r|n0 vs0 ts0 r Hne Hno|n0 vs0 ts0 d0 key taken r Hne Hlo Hk Hm Hlen' Hmay]; subst.
    + congruence.
    + rewrite Hlook in Hno. discriminate.
    + rewrite Hlook in Hlo. injection Hlo as <-. refine (Hm _ Hmax). rewrite H2. discriminate.
  - subst rest. destruct l; [congruence|discriminate].
  - subst tok. destruct Ho as (_ & H1 & _). apply H1. split; [exact (us_long _ U)|].
    exists (l ++ $"=" ++ v). split; [destruct l; discriminate|reflexivity].
Qed.
End Helpful.
