(** Parsing in two stages. *)

From Coq Require Import List Ascii String NArith ZArith Bool Arith Lia.
From Verif Require Import Base Errors Spec BaseFacts Values OptDesc SpecLookup LookupFacts Positional Cmdline Parsers
  SpecCmdline CmdlineFacts RunFacts ReadFacts SoundFacts SpecReject SpecGrammar GrammarFacts SpecFrame FrameFacts SpecConserve
  GuessFacts SpecStages.
Import ListNotations.

(** ** Lookup in two lists *)

Lemma classify_In name g l s ds rs want d : Forall2 (fun d r => od_match d name g l s = Ok r) ds rs ->
  In d (classify ds rs want) -> In d ds /\ exists r, want r = true /\ od_match d name g l s = Ok r.
Proof.
  induction 1 as [|d0 r ds rs Hr Hrs IH]; cbn [classify]; [intros []|]. intros H. apply in_app_or in H. destruct H as [H|H].
  - destruct (want r) eqn:E; [|destruct H]. destruct H as [<-|[]]. split; [now left|eauto].
  - destruct (IH H) as [H1 H2]. split; [now right|auto].
Qed.

Lemma full_match_exact d n g : full d n false false -> od_match d n g false false = Ok full_match.
Proof.
  intros H. assert (K : false = true -> ascii7 n) by discriminate. assert (Kf : foldable_option d false false) by (split; discriminate).
  destruct (match_characterised_lemma g K Kf) as (r & -> & Hm). destruct r; cbn in Hm; tauto.
Qed.

Lemma approx_exact d n g : od_match d n g false false = Ok approximate_match -> approximate d n g false.
Proof.
  intros H. assert (K : false = true -> ascii7 n) by discriminate. assert (Kf : foldable_option d false false) by (split; discriminate).
  destruct (match_characterised_lemma g K Kf) as (r & Hr & Hm). rewrite Hr in H. injection H as ->. apply Hm.
Qed.

Lemma full_exact d n g : od_match d n g false false = Ok full_match -> full d n false false.
Proof.
  intros H. assert (K : false = true -> ascii7 n) by discriminate. assert (Kf : foldable_option d false false) by (split; discriminate).
  destruct (match_characterised_lemma g K Kf) as (r & Hr & Hm). rewrite Hr in H. injection H as ->. apply Hm.
Qed.

Lemma find_stage g A B n r :
  (forall d e, In d A -> In e B -> full e n false false -> ~ approximate d n g false) ->
  find_nothrow (A ++ B) n g false false = Ok r ->
  (exists d, r = Some d /\ In d A /\ find_nothrow A n g false false = Ok (Some d) /\ forall e, In e B -> ~ full e n false false)
  \/ (find_nothrow A n g false false = Ok None /\ find_nothrow B n g false false = Ok r).
Proof.
  intros Hs H. destruct (find_nothrow_cases n g false false (A ++ B)) as [[rs Hrs]|[E _]]; [|congruence].
  rewrite (@find_nothrow_eq n g false false (A ++ B) rs Hrs) in H.
  apply Forall2_app_inv_l in Hrs. destruct Hrs as (ra & rb & Ha & Hb & ->).
  rewrite (@find_nothrow_eq n g false false A ra Ha), (@find_nothrow_eq n g false false B rb Hb).
  rewrite !classify_app in H by (eapply F2_len; eauto).
  assert (KB : classify B rb is_full = [] -> forall e, In e B -> ~ full e n false false).
  { intros E e He Hf. now apply (classify_full_In _ _ _ _ _ _ _ Hb He (full_match_exact _ _ g Hf)). }
  assert (KA : forall e, In e (classify B rb is_full) -> classify A ra is_approx = []).
  { intros e He. destruct (classify A ra is_approx) as [|d l] eqn:E; auto. exfalso.
    destruct (classify_In _ _ _ _ _ _ is_approx d Ha) as [Hd (x & Hx & Hm)]; [rewrite E; now left|].
    destruct (classify_In _ _ _ _ _ _ _ e Hb He) as [He' (y & Hy & Hm')]. destruct x; try discriminate. destruct y; try discriminate.
    apply (Hs d e); auto; [eapply full_exact; eauto|eapply approx_exact; eauto]. }
  assert (KI : forall d, In d (classify A ra is_full) \/ In d (classify A ra is_approx) -> In d A).
  { intros d [Hd|Hd]; now destruct (classify_In _ _ _ _ _ _ _ d Ha Hd). }
  destruct (classify A ra is_full) as [|fa [|fa2 fas]] eqn:Efa; cbn [app] in H.
  - destruct (classify B rb is_full) as [|fb [|fb2 fbs]] eqn:Efb.
    + destruct (classify A ra is_approx) as [|aa [|aa2 aas]] eqn:Eaa; cbn [app] in H.
      * right. split; [reflexivity|exact H].
      * left. destruct (classify B rb is_approx) as [|ab abs]; [|discriminate]. injection H as <-. exists aa.
        split; [reflexivity|]. split; [apply KI; right; now left|]. split; [reflexivity|]. now apply KB.
      * discriminate.
    + right. rewrite (KA fb) by now left. split; [reflexivity|]. exact H.
    + discriminate.
  - left. destruct (classify B rb is_full) as [|fb fbs] eqn:Efb; [|discriminate]. injection H as <-. exists fa.
    split; [reflexivity|]. split; [apply KI; left; now left|]. split; [reflexivity|]. now apply KB.
  - discriminate.
Qed.

Lemma approximate_weaker d n g : approximate d n false false -> approximate d n g false.
Proof. intros [H|[E _]]; [now left|discriminate]. Qed.

Lemma no_wild_approx d n : Forall (fun l => forall p, l <> p ++ [c_star]) (od_longs d) -> ~ approximate d n false false.
Proof.
  intros H [(l & p & t & Hl & Hf & _)|[E _]]; [|discriminate]. rewrite Forall_forall in H. exact (H _ Hl p (eq_sym Hf)).
Qed.

Lemma find_unique ds n g d d' : find_nothrow ds n g false false = Ok (Some d') -> In d ds -> full d n false false -> d = d'.
Proof.
  intros H Hd Hf. destruct (find_nothrow_cases n g false false ds) as [[rs Hrs]|[E _]]; [|congruence].
  rewrite (@find_nothrow_eq n g false false ds rs Hrs) in H. pose proof (full_match_exact _ _ g Hf) as Hm.
  assert (Hin : In d (classify ds rs is_full)).
  { clear H. induction Hrs as [|d0 r ds rs Hr _ IH]; [destruct Hd|]. cbn [classify]. apply in_or_app. destruct Hd as [->|Hd]; [left|right; auto].
    rewrite Hr in Hm. injection Hm as ->. now left. }
  unfold find_result in H. destruct (classify ds rs is_full) as [|f1 [|f2 fs]]; [destruct Hin| |discriminate].
  injection H as <-. destruct Hin as [->|[]]. reflexivity.
Qed.

Lemma find_exact ds n d : no_wildcards ds -> find_nothrow ds n false false false = Ok (Some d) -> In d ds /\ full d n false false.
Proof.
  intros Hw H. destruct (find_nothrow_cases n false false false ds) as [[rs Hrs]|[E _]]; [|congruence].
  rewrite (@find_nothrow_eq n false false false ds rs Hrs) in H.
  assert (K : In d (classify ds rs is_full) \/ In d (classify ds rs is_approx)).
  { unfold find_result in H. destruct (classify ds rs is_full) as [|f1 [|f2 fs]]; [|injection H as <-; left; now left|discriminate].
    destruct (classify ds rs is_approx) as [|f1 [|f2 fs]]; [discriminate|injection H as <-; right; now left|discriminate]. }
  destruct K as [K|K]; destruct (classify_In _ _ _ _ _ _ _ d Hrs K) as [Hd (r & Hr & Hm)]; destruct r; try discriminate.
  - split; auto. eapply full_exact; eauto.
  - exfalso. apply approx_exact in Hm. unfold no_wildcards in Hw. rewrite Forall_forall in Hw. exact (no_wild_approx _ _ (Hw _ Hd) Hm).
Qed.

Lemma find_inexact ds n : no_wildcards ds -> (forall d, In d ds -> ~ full d n false false) -> find_nothrow ds n false false false = Ok None.
Proof.
  intros Hw Hf. apply find_all_no_match. unfold no_wildcards in Hw. rewrite Forall_forall in *. intros d Hd.
  assert (K : false = true -> ascii7 n) by discriminate. assert (Kf : foldable_option d false false) by (split; discriminate).
  destruct (match_characterised_lemma false K Kf) as (r & -> & Hm). destruct r; auto; exfalso; cbn in Hm; [firstorder|].
  exact (no_wild_approx _ _ (Hw _ Hd) (proj2 Hm)).
Qed.

(** ** The parsers *)

Section Stages.
Variables (c : cmdline) (A B : list option_description).
Hypothesis Hdesc : cl_desc c = A ++ B.
Hypothesis Hplain : plain c.
Hypothesis Hcase : case_sensitive c.
Hypothesis Hstyle : has (cl_style c) allow_long_disguise = false.
Hypothesis Hstrict : cl_allow_unregistered c = false.
Hypothesis Hwild : no_wildcards (A ++ B).
Hypothesis Hshadow : unshadowed (has (cl_style c) allow_guessing) A B.
Hypothesis Hfixed : Forall fixed_count B.
Hypothesis Hnames : Forall has_name (A ++ B).

Notation c1 := (first_stage c A).
Notation c2 := (second_stage c B).

Lemma wild_A : no_wildcards A. Proof. unfold no_wildcards in *. now apply Forall_app in Hwild. Qed.
Lemma wild_B : no_wildcards B. Proof. unfold no_wildcards in *. now apply Forall_app in Hwild. Qed.

Lemma lookup_exact c' n : cl_style c' = cl_style c ->
  lookup c' n = find_nothrow (cl_desc c') n (has (cl_style c) allow_guessing) false false.
Proof. intros E. destruct Hcase as [H1 H2]. unfold lookup. now rewrite E, H1, H2. Qed.

Lemma short_exact c' x : cl_style c' = cl_style c -> short_lookup c' x = find_nothrow (cl_desc c') [c_dash; x] false false false.
Proof. intros E. destruct Hcase as [H1 H2]. unfold short_lookup. now rewrite E, H2. Qed.

Lemma lookup_stage n r : n <> [] -> lookup c n = Ok r ->
  (exists d, r = Some d /\ In d A /\ lookup c1 n = Ok (Some d) /\ forall e, In e B -> ~ full e n false false)
  \/ (lookup c1 n = Ok None /\ lookup c2 n = Ok r).
Proof.
  intros Hne. rewrite !lookup_exact by reflexivity. rewrite Hdesc. cbn [first_stage second_stage cl_desc]. apply find_stage.
  intros d e Hd He Hf. now apply (Hshadow d e n).
Qed.

Lemma short_stage x r : short_lookup c x = Ok r ->
  (exists d, r = Some d /\ In d A /\ short_lookup c1 x = Ok (Some d) /\ short_lookup c2 x = Ok None)
  \/ (short_lookup c1 x = Ok None /\ short_lookup c2 x = Ok r).
Proof.
  rewrite !short_exact by reflexivity. rewrite Hdesc. cbn [first_stage second_stage cl_desc]. intros H. apply find_stage in H.
  - destruct H as [(d & H1 & H2 & H3 & H4)|H]; [left|now right]. exists d. repeat split; auto. apply find_inexact; auto. apply wild_B.
  - intros d e Hd He Hf. pose proof wild_A as Hw. unfold no_wildcards in Hw. rewrite Forall_forall in Hw. now apply no_wild_approx, Hw.
Qed.

Lemma short_first x d od : lookup c [c_dash; x] = Ok (Some d) -> knows c1 [c_dash; x] -> short_lookup c x = Ok od -> short_lookup c1 x = Ok od.
Proof.
  intros Hl [d1 Hk] Hs. destruct (short_stage _ _ Hs) as [(e & -> & _ & H & _)|[H1 H2]]; [exact H|]. destruct od as [e|]; [|exact H1].
  exfalso. rewrite short_exact in H2 by reflexivity. apply find_exact in H2; [|apply wild_B]. destruct H2 as [He Hf].
  destruct (lookup_stage [c_dash; x] _ ltac:(discriminate) Hl) as [(d' & _ & _ & _ & Hn)|[Hn _]]; [exact (Hn e He Hf)|congruence].
Qed.

Lemma unknown_full n d : lookup c1 n = Ok None -> In d A -> ~ full d n false false.
Proof. intros H Hd Hf. rewrite lookup_exact in H by reflexivity. exact (find_full_some _ _ _ _ _ _ Hd Hf H). Qed.

Lemma unknown_letter x od : lookup c1 [c_dash; x] = Ok None -> short_lookup c1 x = Ok od -> od = None.
Proof.
  intros H Hs. destruct od as [d|]; auto. exfalso. rewrite short_exact in Hs by reflexivity. apply find_exact in Hs; [|apply wild_A].
  destruct Hs as [Hd Hf]. exact (unknown_full _ _ H Hd Hf).
Qed.

Lemma short_second x od : lookup c1 [c_dash; x] = Ok None -> short_lookup c x = Ok od -> short_lookup c1 x = Ok None /\ short_lookup c2 x = Ok od.
Proof.
  intros Hl Hs. destruct (short_stage _ _ Hs) as [(e & -> & _ & H & _)|H]; [|exact H]. apply (unknown_letter _ _ Hl) in H. discriminate.
Qed.

(** The canonical key means the same option. *)
Lemma key_stage n d key r : n <> [] -> lookup c n = Ok (Some d) -> is_key d n key -> lookup c key = Ok r ->
  r = Some d
  /\ (knows c1 n -> lookup c1 key = Ok (Some d))
  /\ (lookup c1 n = Ok None -> lookup c1 key = Ok None /\ lookup c2 key = Ok (Some d) /\ In d B).
Proof.
  intros Hne Hn Hk Hr.
  assert (Hd : In d (A ++ B)).
  { apply lookup_In in Hn. now rewrite Hdesc in Hn. }
  assert (HB : lookup c2 n = Ok (Some d) -> In d B) by (intros H; now apply lookup_In in H).
  assert (Hke : key <> []).
  { rewrite Forall_forall in Hnames. specialize (Hnames d Hd). unfold has_name in Hnames.
    destruct Hk as [(f & rest & E & _ & ->)|[(f & rest & _ & _ & ->)|[E ->]]]; auto; now rewrite E in Hnames. }
  assert (Hcases : key = n \/ full d key false false).
  { rewrite Forall_forall in Hnames. specialize (Hnames d Hd). unfold has_name in Hnames.
    destruct Hk as [(f & rest & E & _ & ->)|[(f & rest & _ & _ & ->)|[E ->]]]; [right|now left|right].
    - rewrite E in Hnames. left. exists f. split; [rewrite E; now left|]. split; auto. now apply same_name_eq.
    - right. now apply same_name_eq. }
  destruct Hcases as [->|Hf].
  { assert (r = Some d) as -> by congruence. split; [reflexivity|]. destruct (lookup_stage _ _ Hne Hn) as [(d' & [= <-] & Ha & H1 & _)|[H1 H2]].
    - split; [now intros _|congruence].
    - split; [intros [x Hx]; congruence|auto]. }
  assert (r = Some d) as ->.
  { rewrite lookup_exact in Hr by reflexivity. rewrite Hdesc in Hr. destruct r as [d'|]; [|now apply (find_full_some _ _ _ _ _ _ Hd Hf) in Hr].
    f_equal. symmetry. eapply find_unique; eauto. }
  split; [reflexivity|]. destruct (lookup_stage _ _ Hne Hn) as [(d' & [= <-] & Ha & H1 & _)|[H1 H2]].
  - split; [|congruence]. intros _. destruct (lookup_stage _ _ Hke Hr) as [(d' & [= <-] & _ & H & _)|[H _]]; auto.
    exfalso. exact (unknown_full _ _ H Ha Hf).
  - split; [intros [x Hx]; congruence|]. intros _. destruct (lookup_stage _ _ Hke Hr) as [(d' & [= <-] & _ & _ & H)|[H H']]; auto.
    exfalso. exact (H d (HB H2) Hf).
Qed.

(** ** Tokens *)

Lemma unclaimed_plain c' tok : cl_additional c' = None -> unclaimed c' tok.
Proof. intros E n v (f & Hf & _). congruence. Qed.

Lemma no_disguise c' tok n : cl_style c' = cl_style c -> ~ disguise c' tok n.
Proof. intros E [H _]. rewrite E in H. congruence. Qed.

Lemma ordinary_stage c' tok : cl_style c' = cl_style c -> cl_additional c' = None -> ordinary c tok -> ordinary c' tok.
Proof.
  intros E Ea (_ & H1 & _ & H2 & H3). split; [now apply unclaimed_plain|]. rewrite E. split; [exact H1|].
  split; [|split; [exact H2|exact H3]]. intros n m Hd. exfalso. eapply no_disguise; eauto.
Qed.

Lemma group_any c' tok x a ms : cl_style c' = cl_style c ->
  (forall y od, short_lookup c y = Ok od -> short_lookup c' y = Ok None \/ short_lookup c' y = Ok od) ->
  short_group c tok x a ms -> exists ms', short_group c' tok x a ms'.
Proof.
  intros Es Hs H. induction H as [x a od Hl Hc|x y a d ms Hon Hl Hm H [ms' IH]].
  - destruct (Hs _ _ Hl) as [E|E]; eexists; (eapply sg_last; [exact E|]); [right; right; now left|]. now rewrite Es.
  - destruct (Hs _ _ Hl) as [E|E]; [eexists; eapply sg_last; [exact E|]; right; right; now left|]. eexists. eapply sg_flag; eauto. now rewrite Es.
Qed.

Lemma stands_any c' tok ms : cl_style c' = cl_style c -> cl_additional c' = None ->
  (forall y od, short_lookup c y = Ok od -> short_lookup c' y = Ok None \/ short_lookup c' y = Ok od) ->
  stands_for c tok ms -> exists ms', stands_for c' tok ms'.
Proof.
  intros Es Ea Hs H. assert (Hu := unclaimed_plain c' tok Ea).
  assert (Hd : forall n m, disguise c' tok n -> before_eq n m -> lookup c' m = Ok None) by (intros n m H'; exfalso; eapply no_disguise; eauto).
  destruct H as [n v (f & Hf & _)|n vs _ Hon H|n m d name vs _ H _ _ _|x a ms _ H1 H2 E Hx _ Hg|x a _ H1 H2 E _].
  - destruct Hplain as [_ K]. congruence.
  - eexists. apply sf_long; [exact Hu|now rewrite Es|exact H].
  - exfalso. exact (no_disguise c _ _ eq_refl H).
  - destruct (group_any c' _ _ _ _ Es Hs Hg) as [ms' Hg']. exists ms'. apply (sf_short c' tok x a); auto; now rewrite Es.
  - eexists. apply (sf_slash c' tok x a); auto; now rewrite Es.
Qed.

Lemma short_any1 y od : short_lookup c y = Ok od -> short_lookup c1 y = Ok None \/ short_lookup c1 y = Ok od.
Proof. intros H. destruct (short_stage _ _ H) as [(d & -> & _ & H1 & _)|[H1 _]]; auto. Qed.
Lemma short_any2 y od : short_lookup c y = Ok od -> short_lookup c2 y = Ok None \/ short_lookup c2 y = Ok od.
Proof. intros H. destruct (short_stage _ _ H) as [(d & -> & _ & _ & H1)|[_ H1]]; auto. Qed.

Lemma lookup_none n : n <> [] -> lookup c n = Ok None -> lookup c1 n = Ok None /\ lookup c2 n = Ok None.
Proof. intros Hne H. destruct (lookup_stage _ _ Hne H) as [(d & [=] & _)|H']; exact H'. Qed.

Lemma stands_nonempty c' t ms : cl_additional c' = None -> stands_for c' t ms -> t <> [].
Proof.
  intros Hp [n v (f & E & _)|n vs _ _ [m _ _|m v _ _]|n m d name vs _ (_ & _ & [[-> _]|[-> _]]) _ _ _|x a ms' _ _ _ -> _ _ _|x a _ _ _ -> _]; discriminate || congruence.
Qed.

Lemma value1 t : may_be_value c t -> may_be_value c1 t.
Proof.
  intros [H|[[ms H] Hl]]; [left; now apply ordinary_stage|]. right. split; [|apply lookup_none; [eapply stands_nonempty; [apply Hplain|exact H]|exact Hl]].
  eapply stands_any; eauto. exact short_any1.
Qed.
Lemma value2 t : may_be_value c t -> may_be_value c2 t.
Proof.
  intros [H|[[ms H] Hl]]; [left; now apply ordinary_stage|]. right. split; [|apply lookup_none; [eapply stands_nonempty; [apply Hplain|exact H]|exact Hl]].
  eapply stands_any; eauto. exact short_any2.
Qed.

(** Every mention is complete, so its name is known. *)
Definition found (m : mention) : Prop := mn_name m = [] \/ exists d, lookup c (mn_name m) = Ok (Some d).

Lemma completed_found m rest i rest' : completed c m rest i rest' -> found m.
Proof. intros []; unfold found; cbn [mn_name]; eauto. congruence. Qed.

Lemma all_found ms rest is rest' : all_completed c ms rest is rest' -> Forall found ms.
Proof. induction 1; constructor; auto; eapply completed_found; eauto. Qed.

Lemma group_first tok x a ms : short_group c tok x a ms -> Forall found ms -> Forall (fun m => knows c1 (mn_name m)) ms -> short_group c1 tok x a ms.
Proof.
  induction 1 as [x a od Hl Hc|x y a d ms Hon Hl Hm H IH]; intros Hf Hk; inversion Hf as [|? ? [Ef|[d' Ef]] Hf']; subst; try discriminate;
    inversion Hk as [|? ? Hk1 Hk']; subst; pose proof (short_first _ _ _ Ef Hk1 Hl).
  - eapply sg_last; eauto.
  - eapply sg_flag; eauto.
Qed.

Lemma group_second tok x a ms : short_group c tok x a ms -> Forall (fun m => lookup c1 (mn_name m) = Ok None) ms -> short_group c2 tok x a ms.
Proof.
  induction 1 as [x a od Hl Hc|x y a d ms Hon Hl Hm H IH]; intros Hk; inversion Hk as [|? ? Hk1 Hk']; subst;
    destruct (short_second _ _ Hk1 Hl).
  - eapply sg_last; eauto.
  - eapply sg_flag; eauto.
Qed.

Lemma group_head c' tok x a ms : short_group c' tok x a ms -> exists m ms', ms = m :: ms' /\ mn_name m = [c_dash; x].
Proof. intros []; eauto. Qed.

Lemma group_unread tok x a ms : short_group c tok x a ms -> lookup c1 [c_dash; x] = Ok None ->
  short_group c1 tok x a [mk_mention [c_dash; x] (perhaps a) [tok]].
Proof.
  intros H Hl. assert (K : exists od, short_lookup c x = Ok od) by (destruct H; eauto). destruct K as [od K].
  destruct (short_second _ _ Hl K). eapply sg_last; eauto.
Qed.

(** The token of a known option *)
Lemma stands_first tok ms : stands_for c tok ms -> Forall found ms -> Forall (fun m => knows c1 (mn_name m)) ms -> stands_for c1 tok ms.
Proof.
  intros H Hf Hk. assert (Hu : unclaimed c1 tok) by now apply unclaimed_plain.
  destruct H as [n v (f & Hx & _)|n vs _ Hon H|n m d name vs _ H _ _ _|x a ms _ H1 H2 E Hx _ Hg|x a _ H1 H2 E _].
  - destruct Hplain as [_ K]. congruence.
  - now apply sf_long.
  - exfalso. exact (no_disguise c _ _ eq_refl H).
  - eapply sf_short; eauto; [|now apply group_first]. intros n m H. exfalso. eapply no_disguise; [|exact H]. reflexivity.
  - eapply sf_slash; eauto. intros n m H. exfalso. eapply no_disguise; [|exact H]. reflexivity.
Qed.

(** The token of an unknown option *)
Lemma stands_second tok ms : stands_for c tok ms -> Forall (fun m => lookup c1 (mn_name m) = Ok None) ms -> Forall (fun m => mn_name m <> []) ms ->
  stands_for c2 tok ms
  /\ exists n vs, stands_for c1 tok [mk_mention n vs [tok]] /\ n <> [] /\ lookup c1 n = Ok None.
Proof.
  intros H Hk Hn. assert (Hu1 : unclaimed c1 tok) by now apply unclaimed_plain. assert (Hu2 : unclaimed c2 tok) by now apply unclaimed_plain.
  assert (D1 : forall n m, disguise c1 tok n -> before_eq n m -> lookup c1 m = Ok None)
    by (intros n m H'; exfalso; eapply no_disguise; [|exact H']; reflexivity).
  assert (D2 : forall n m, disguise c2 tok n -> before_eq n m -> lookup c2 m = Ok None)
    by (intros n m H'; exfalso; eapply no_disguise; [|exact H']; reflexivity).
  destruct H as [n v (f & Hx & _)|n vs _ Hon H|n m d name vs _ H _ _ _|x a ms _ H1 H2 E Hx _ Hg|x a _ H1 H2 E _].
  - destruct Hplain as [_ K]. congruence.
  - inversion Hk; inversion Hn; subst. split; [now apply sf_long|]. exists n, vs. split; [now apply sf_long|]. auto.
  - exfalso. exact (no_disguise c _ _ eq_refl H).
  - split; [eapply sf_short; eauto; now apply group_second|].
    destruct (group_head _ _ _ _ _ Hg) as (m & ms' & -> & Em). inversion Hk as [|? ? Hm _]; subst. rewrite Em in Hm.
    exists [c_dash; x], (perhaps a). split; [|split; [discriminate|exact Hm]]. eapply sf_short; eauto. eapply group_unread; eauto.
  - inversion Hk as [|? ? Hm _]; subst. split; [eapply sf_slash; eauto|]. exists [c_dash; x], (perhaps a).
    split; [eapply sf_slash; eauto|]. split; [discriminate|exact Hm].
Qed.

(** ** The items of the first parser and of the second *)

Definition item_tokens (is : list item) : list str :=
  List.concat (map (fun i => match i with Option_ _ _ _ ts => ts | Argument _ t => [t] | Verbatim t => [t] end) is).

Lemma item_tokens_app a b : item_tokens (a ++ b) = item_tokens a ++ item_tokens b.
Proof. unfold item_tokens. now rewrite map_app, concat_app. Qed.

Definition of_first (i : item) : Prop :=
  exists key vs ts d, i = Option_ key false vs ts /\ lookup c1 key = Ok (Some d) /\ lookup c key = Ok (Some d).
Definition of_second (i : item) : Prop :=
  exists key vs ts d, i = Option_ key false vs ts /\ lookup c1 key = Ok None /\ lookup c key = Ok (Some d)
    /\ lookup c2 key = Ok (Some d) /\ fixed_count d.
Definition passive (i : item) : Prop :=
  (exists n vs ts, i = Option_ n true vs ts /\ lookup c1 n = Ok None) \/ exists v t, i = Argument v t.

Inductive staged : list item -> list item -> list str -> list item -> Prop :=
| sd_end : staged [] [] [] []
| sd_first i is i1 tk i2 : of_first i -> staged is i1 tk i2 -> staged (i :: is) (i :: i1) tk i2
| sd_arg v t is i1 tk i2 :
    (forall rest is2, consists_of c2 rest is2 -> consists_of c2 (t :: rest) (Argument v t :: is2)) ->
    staged is i1 tk i2 -> staged (Argument v t :: is) (Argument v t :: i1) (t :: tk) (Argument v t :: i2)
| sd_second isB n vs ts L is i1 tk i2 :
    isB <> [] -> Forall of_second isB -> Forall passive (Option_ n true vs ts :: L) ->
    (forall rest is2, consists_of c2 rest is2 ->
       consists_of c2 (item_tokens (Option_ n true vs ts :: L) ++ rest) (isB ++ is2)) ->
    staged is i1 tk i2 ->
    staged (isB ++ is) ((Option_ n true vs ts :: L) ++ i1) (item_tokens (Option_ n true vs ts :: L) ++ tk) (isB ++ i2).

Lemma staged_firsts is : Forall of_first is -> forall is0 i1 tk i2, staged is0 i1 tk i2 -> staged (is ++ is0) (is ++ i1) tk i2.
Proof. induction 1; intros; cbn [app]; auto. apply sd_first; auto. Qed.

(** *** Gathering *)

Lemma staged_args more : forall is i1 tk i2, staged (map (fun vt => Argument (fst vt) (snd vt)) more ++ is) i1 tk i2 ->
  exists i1' tk' i2', i1 = map (fun vt => Argument (fst vt) (snd vt)) more ++ i1' /\ List.length tk' <= List.length tk /\ staged is i1' tk' i2'.
Proof.
  induction more as [|[v t] more IH]; intros is i1 tk i2 H; cbn [map app fst snd] in *; [eexists _, _, _; eauto|].
  remember (Argument v t :: map (fun vt => Argument (fst vt) (snd vt)) more ++ is) as l eqn:E. destruct H as [|i is0 i1 tk i2 (k & vs & ts & d & -> & _) _|v' t' is0 i1 tk i2 Hc H|isB n vs ts L is0 i1 tk i2 Hne HB _ _ _].
  - discriminate.
  - discriminate.
  - injection E as -> -> ->. destruct (IH _ _ _ _ H) as (a & b & d & -> & Hl & H'). exists a, b, d. split; [reflexivity|]. cbn [List.length]. split; [lia|auto].
  - exfalso. destruct HB as [|i isB (k & vs' & ts' & d & -> & _) HB]; [contradiction|]. discriminate.
Qed.

Lemma staged_starts is i1 tk i2 : staged is i1 tk i2 -> starts_with_argument i1 -> starts_with_argument is.
Proof.
  intros [|i is0 j1 tk0 i0 (k & vs & ts & d & -> & _) _|v' t' is0 j1 tk0 i0 Hc H|isB n vs ts L is0 j1 tk0 i0 Hne HB _ _ _] (v & t & l & E); try discriminate.
  unfold starts_with_argument. eauto.
Qed.

Lemma fixed_capacity d n k : fixed_count d -> capacity d n k -> k = Some 0.
Proof. unfold fixed_count. intros Hf []; auto; lia. Qed.

Lemma gathered_second isB : Forall of_second isB -> forall is is', gathered c (isB ++ is) is' -> exists is0, is' = isB ++ is0 /\ gathered c is is0.
Proof.
  induction 1 as [|i isB (k & vs & ts & d & E0 & _ & Hl & _ & Hf) _ IH]; intros is is' H; [exists is'; auto|]. subst i. cbn [app] in H.
  remember (Option_ k false vs ts :: isB ++ is) as l eqn:E. destruct H as [|v t l l' H|t l l' H|k' u vs' ts' l l' Hn H|k' u vs' ts' d' more kk l l' Hl' Hk Hlim Hs H]; try discriminate.
  - injection E as -> -> -> -> ->. congruence.
  - injection E as -> -> -> -> E. rewrite Hl in Hl'. injection Hl' as <-. apply (fixed_capacity _ _ _ Hf) in Hk. specialize (Hlim _ Hk).
    destruct more; [|cbn in Hlim; lia]. cbn [map app] in *. subst l. destruct (IH _ _ H) as (is0 & -> & H'). exists is0. rewrite !app_nil_r. auto.
Qed.

Lemma gathered_passive L : Forall passive L -> forall i1 i1', gathered c1 i1 i1' -> gathered c1 (L ++ i1) (L ++ i1').
Proof.
  induction 1 as [|i L [(n & vs & ts & -> & Hn)|(v & t & ->)] _ IH]; intros; cbn [app]; auto.
  - apply ga_unknown; auto.
  - apply ga_argument; auto.
Qed.

Lemma staged_gathered k : forall is is' i1 tk i2, List.length is <= k -> gathered c is is' -> staged is i1 tk i2 ->
  exists i1' tk' i2', gathered c1 i1 i1' /\ staged is' i1' tk' i2' /\ List.length tk' <= List.length tk.
Proof.
  induction k as [|k IH]; intros is is' i1 tk i2 Hk Hg Hs.
  { destruct is; [|cbn in Hk; lia]. inversion Hg; subst. remember [] as l eqn:E in Hs. destruct Hs as [| | |isB]; try discriminate.
    - exists [], [], []. split; [constructor|]. split; [constructor|lia].
    - destruct isB; [contradiction|discriminate]. }
  destruct Hs as [|i is i1 tk i2 (key & vs & ts & d & -> & Hl1 & Hl) Hs|v t is i1 tk i2 Hc Hs|isB n vs ts L is i1 tk i2 Hne HB HL Hc Hs].
  - inversion Hg; subst. exists [], [], []. split; [constructor|]. split; [constructor|lia].
  - remember (Option_ key false vs ts :: is) as l eqn:E. destruct Hg as [|v t l l' H|t l l' H|k' u vs' ts' l l' Hn H|k' u vs' ts' d' more kk l l' Hl' Hkk Hlim Hst H]; try discriminate.
    + injection E as -> -> -> -> ->. congruence.
    + injection E as -> -> -> -> <-. rewrite Hl in Hl'. injection Hl' as <-. destruct (staged_args _ _ _ _ _ Hs) as (a1 & atk & a2 & -> & Hlen & Hs').
      cbn [List.length] in Hk. rewrite app_length in Hk.
      destruct (IH l l' a1 atk a2) as (b1 & btk & b2 & G & S' & HL); [lia|auto|auto|].
      exists (Option_ key false (vs ++ map fst more) (ts ++ map snd more) :: b1), btk, b2. split; [|split; [|lia]].
      * apply ga_known with (d := d) (k := kk); auto. destruct Hst as [Hst|Hst]; [now left|right]. intros K. apply Hst. eapply staged_starts; eauto.
      * apply sd_first; auto. exists key, (vs ++ map fst more), (ts ++ map snd more), d. auto.
  - inversion Hg; subst. cbn [List.length] in Hk. destruct (IH is is'0 i1 tk i2) as (b1 & btk & b2 & G & S' & HL); [lia|auto|auto|].
    exists (Argument v t :: b1), (t :: btk), (Argument v t :: b2). split; [now constructor|]. split; [now constructor|cbn [List.length]; lia].
  - destruct (gathered_second _ HB _ _ Hg) as (is0 & -> & Hg'). destruct (IH is is0 i1 tk i2) as (b1 & btk & b2 & G & S' & HLn); [|auto|auto|].
    { rewrite app_length in Hk. destruct isB; [contradiction|cbn in Hk; lia]. }
    exists ((Option_ n true vs ts :: L) ++ b1), (item_tokens (Option_ n true vs ts :: L) ++ btk), (isB ++ b2). split; [now apply gathered_passive|].
    split; [now constructor|]. rewrite !app_length. lia.
Qed.

(** *** The second parser *)

Lemma staged_second is i1 tk i2 : staged is i1 tk i2 -> consists_of c2 tk i2 /\ gathered c2 i2 i2.
Proof.
  induction 1 as [|i is i1 tk i2 _ _ IH|v t is i1 tk i2 Hc Hs [IH1 IH2]|isB n vs ts L is i1 tk i2 Hne HB HL Hc Hs [IH1 IH2]]; auto.
  - split; constructor.
  - split; [auto|now constructor].
  - split; [auto|]. clear - HB IH2. induction HB as [|i isB (k & vs & ts & d & -> & _ & _ & Hl & Hf) _ IH]; [exact IH2|]. cbn [app].
    pose proof (ga_known c2 k false vs ts d [] (Some 0) (isB ++ i2) (isB ++ i2) Hl) as G. cbn [map app] in G. rewrite !app_nil_r in G.
    apply G; auto; [apply rm_none; now left|intros limit [= <-]; auto].
Qed.

(** *** The results *)

Lemma case_flag_ex c' key : exists b, case_flag c' key b.
Proof. exists (po_ci (set_case_flag c' (mk_popt key 0 [] [] false false))). now apply (proj2 (case_flag_iff c' (mk_popt key 0 [] [] false false) _)). Qed.

Definition kept (o : popt) : bool := po_unreg o || negb (Z.eqb (po_pos o) (-1)).

Lemma returned_passive L : Forall passive L -> forall k, exists k' rl,
  (forall is os, returned c1 k' is os -> returned c1 k (L ++ is) (rl ++ os))
  /\ tokens_of (filter kept rl) = item_tokens L /\ filter registered_by_name rl = [].
Proof.
  induction 1 as [|i L [(n & vs & ts & -> & Hn)|(v & t & ->)] _ IH]; intros k.
  - exists k, []. repeat split; auto.
  - destruct (IH k) as (k' & rl & H1 & H2 & H3). destruct (case_flag_ex c1 n) as [b Hb].
    exists k', (mk_popt n (-1) vs ts true b :: rl). split; [|split].
    + intros. cbn [app]. constructor; auto.
    + cbn [filter kept po_unreg orb]. unfold tokens_of, item_tokens in *. cbn [map List.concat]. now rewrite H2.
    + cbn. exact H3.
  - destruct (IH (S k)) as (k' & rl & H1 & H2 & H3). destruct (case_flag_ex c1 []) as [b Hb].
    exists k', (mk_popt [] (Z.of_nat k) [v] [t] false b :: rl). assert (E : Z.eqb (Z.of_nat k) (-1) = false) by (apply Z.eqb_neq; lia).
    split; [|split].
    + intros. cbn [app]. constructor; auto. now apply an_none.
    + cbn [filter]. unfold kept at 1. cbn [po_unreg po_pos orb]. rewrite E. cbn [negb]. unfold tokens_of, item_tokens in *. cbn [map List.concat po_orig app]. now rewrite H2.
    + cbn [filter]. unfold registered_by_name at 1. cbn [po_unreg po_pos]. rewrite E. cbn [andb negb]. exact H3.
Qed.

Lemma returned_of_second isB : Forall of_second isB -> forall k is res, returned c k (isB ++ is) res ->
  exists rb res', res = rb ++ res' /\ returned c k is res'
    /\ (forall is2 os2, returned c2 k is2 os2 -> returned c2 k (isB ++ is2) (rb ++ os2))
    /\ Forall (fun o => belongs c1 o = false) rb.
Proof.
  induction 1 as [|i isB (key & vs & ts & d & -> & Hl1 & _ & _ & _) _ IH]; intros k is res H; cbn [app] in *.
  - exists [], res. auto.
  - inversion H; subst. match goal with K : returned c k (isB ++ is) _ |- _ => destruct (IH _ _ _ K) as (rb & res' & -> & Hr & Hc & Hb) end.
    eexists (_ :: rb), res'. split; [reflexivity|]. split; [exact Hr|]. split.
    + intros. cbn [app]. constructor; auto.
    + constructor; auto. unfold belongs. cbn [po_pos po_key]. rewrite Hl1. apply andb_false_r.
Qed.

Lemma argument_second k name : argument_name c k name -> argument_name c2 k name.
Proof. intros [H|p n H1 H2 H3]; [now apply an_none|eapply an_named; eauto]. Qed.

Lemma filter_all {X} (f : X -> bool) l : Forall (fun x => f x = true) l -> filter f l = l.
Proof. induction 1 as [|x l E _ IH]; cbn; [reflexivity|]. now rewrite E, IH. Qed.
Lemma filter_nothing {X} (f : X -> bool) l : Forall (fun x => f x = false) l -> filter f l = [].
Proof. induction 1 as [|x l E _ IH]; cbn; [reflexivity|]. now rewrite E, IH. Qed.

Lemma staged_returned is i1 tk i2 : staged is i1 tk i2 -> forall k k1 res, returned c k is res ->
  exists r1 r2, returned c1 k1 i1 r1 /\ returned c2 k i2 r2 /\ tokens_of (filter kept r1) = tk
    /\ filter registered_by_name r1 = filter (belongs c1) res
    /\ r2 = filter (fun o => negb (belongs c1 o)) res.
Proof.
  induction 1 as [|i is i1 tk i2 (key & vs & ts & d & -> & Hl1 & Hl) Hs IH|v t is i1 tk i2 Hc Hs IH|isB n vs ts L is i1 tk i2 Hne HB HL Hc Hs IH];
    intros k k1 res H.
  - inversion H; subst. exists [], []. repeat split; constructor.
  - inversion H as [|k0 key0 u0 vs0 ts0 b is0 os Hb Hr| |]; subst. destruct (IH _ k1 _ Hr) as (r1 & r2 & R1 & R2 & Et & E1 & E2).
    exists (mk_popt key (-1) vs ts false b :: r1), r2. split; [now constructor|]. split; [auto|]. cbn [filter].
    unfold kept at 1, registered_by_name at 1. rewrite (eq_refl : belongs c1 (mk_popt key (-1) vs ts false b) = match lookup c1 key with Ok (Some _) => true | _ => false end), Hl1.
    cbn. rewrite E1. auto.
  - inversion H as [| |k0 v0 t0 name b is0 os Hn Hb Hr|]; subst. destruct (IH _ (S k1) _ Hr) as (r1 & r2 & R1 & R2 & Et & E1 & E2).
    destruct (case_flag_ex c1 []) as [b1 Hb1].
    exists (mk_popt [] (Z.of_nat k1) [v] [t] false b1 :: r1), (mk_popt name (Z.of_nat k) [v] [t] false b :: r2).
    assert (Ek : forall j, Z.eqb (Z.of_nat j) (-1) = false) by (intros; apply Z.eqb_neq; lia).
    split; [constructor; auto; now apply an_none|]. split; [constructor; auto; now apply argument_second|]. cbn [filter].
    unfold kept at 1, registered_by_name at 1. assert (Eb : belongs c1 (mk_popt name (Z.of_nat k) [v] [t] false b) = false) by (unfold belongs; cbn [po_pos]; now rewrite Ek).
    rewrite Eb. cbn [po_unreg po_pos po_key]. rewrite !Ek. cbn [andb orb negb].
    unfold tokens_of in *. cbn [map List.concat po_orig app]. rewrite Et, E1, E2. auto.
  - destruct (returned_of_second _ HB _ _ _ H) as (rb & res' & -> & Hr & Hc2 & Hbel).
    destruct (returned_passive _ HL k1) as (k1' & rl & P1 & P2 & P3).
    destruct (IH _ k1' _ Hr) as (r1 & r2 & R1 & R2 & Et & E1 & E2).
    exists (rl ++ r1), (rb ++ r2). split; [auto|]. split; [auto|]. rewrite !filter_app. unfold tokens_of in *. rewrite map_app, concat_app, P2, Et, P3, E1.
    rewrite (filter_nothing (belongs c1) rb Hbel), (filter_all _ rb); [|eapply Forall_impl; [|exact Hbel]; intros o E; now rewrite E].
    rewrite E2. auto.
Qed.

(** *** The first parser *)

Definition looked (i : item) : Prop := match i with Option_ key _ _ _ => exists r, lookup c key = Ok r | _ => True end.
Definition alone (i : item) : Prop :=
  match i with Option_ key _ _ ts => lookup c1 key = Ok None -> Forall (leaves_alone c1) (tl ts) | _ => True end.

Lemma gathered_looked is is' : gathered c is is' -> Forall looked is.
Proof.
  induction 1 as [|v t l l' H IH|t l l' H IH|k' u vs' ts' l l' Hn H IH|k' u vs' ts' d' more kk l l' Hl' Hk Hlim Hs H IH]; constructor; auto.
  - exact I.
  - exact I.
  - cbn. eauto.
  - cbn. eauto.
  - apply Forall_app. split; auto. apply Forall_forall. intros i Hi. apply in_map_iff in Hi. destruct Hi as (x & <- & _). exact I.
Qed.

Lemma gathered_alone is is' : gathered c is is' -> Forall alone is' -> Forall alone is.
Proof.
  induction 1 as [|v t l l' H IH|t l l' H IH|k' u vs' ts' l l' Hn H IH|k' u vs' ts' d' more kk l l' Hl' Hk Hlim Hs H IH]; intros Ha; auto;
    inversion Ha; subst; constructor; auto.
  - cbn in *. intros E. destruct ts' as [|t ts']; [constructor|]. cbn in *. match goal with K : _ -> Forall _ (ts' ++ _) |- _ => specialize (K E); apply Forall_app in K end. tauto.
  - apply Forall_app. split; auto. apply Forall_forall. intros i Hi. apply in_map_iff in Hi. destruct Hi as (x & <- & _). exact I.
Qed.

Lemma returned_alone k is res : returned c k is res ->
  Forall (fun o => po_pos o = (-1)%Z -> belongs c1 o = false -> Forall (leaves_alone c1) (tl (po_orig o))) res -> Forall alone is.
Proof.
  induction 1 as [|k key u vs ts b is os Hb Hr IH|k v t name b is os Hn Hb Hr IH|k t name b is os Hn Hb Hr IH]; intros Ha; auto;
    inversion Ha as [|? ? Ho Ha']; subst; constructor; auto; cbn; auto.
  intros E. apply Ho; [reflexivity|]. unfold belongs. cbn [po_pos po_key]. rewrite E. reflexivity.
Qed.

Lemma stands_tokens tok ms : stands_for c tok ms -> exists pre n vs, ms = pre ++ [mk_mention n vs [tok]] /\ Forall (fun m => mn_tokens m = []) pre.
Proof.
  intros [n v (f & Hx & _)|n vs _ Hon H|n m d name vs _ H _ _ _|x a ms' _ H1 H2 E Hx _ Hg|x a _ H1 H2 E _].
  - destruct Hplain as [_ K]. congruence.
  - exists [], n, vs. auto.
  - exfalso. exact (no_disguise c _ _ eq_refl H).
  - clear - Hg. induction Hg as [x a od Hl Hc|x y a d ms Hon Hl Hm H (pre & n & vs & -> & Hp)].
    + eexists [], _, _. split; [reflexivity|constructor].
    + exists (mk_mention [c_dash; x] [] [] :: pre), n, vs. split; [reflexivity|]. constructor; auto.
  - eexists [], _, _. split; [reflexivity|constructor].
Qed.

(** Options of the first parser *)
Lemma completed_first m rest i rest' : completed c m rest i rest' -> looked i -> mn_name m <> [] -> knows c1 (mn_name m) ->
  completed c1 m rest i rest' /\ of_first i.
Proof.
  intros [v t r|n vs ts r Hn _ K|n vs ts d key taken r Hn Hl Hk Hz Hlen Hv] Hlk Hne Hkn; cbn [mn_name looked] in *; [contradiction|congruence|].
  destruct Hlk as [r0 Hr]. destruct (key_stage _ _ _ _ Hn Hl Hk Hr) as (-> & H1 & _). specialize (H1 Hkn).
  split; [|eexists _, _, _, _; eauto]. apply cm_known with (d := d); auto.
  - destruct Hkn as [d' Hd']. destruct (lookup_stage _ _ Hn Hl) as [(d0 & [= <-] & _ & E & _)|[E _]]; congruence.
  - eapply Forall_impl; [|exact Hv]. intros. now apply value1.
Qed.

Lemma all_completed_first ms rest is rest' : all_completed c ms rest is rest' -> Forall looked is -> Forall (fun m => mn_name m <> []) ms ->
  Forall (fun m => knows c1 (mn_name m)) ms -> all_completed c1 ms rest is rest' /\ Forall of_first is.
Proof.
  induction 1 as [m rest i rest' H|m ms rest i is rest' H _ IH]; intros Hl Hn Hk; inversion Hl; inversion Hn; inversion Hk; subst.
  - edestruct completed_first; eauto. split; constructor; auto.
  - edestruct (completed_first m []); eauto. destruct IH; auto. split; constructor; auto.
Qed.

(** Options of the second parser *)
Lemma completed_second m rest i rest' : completed c m rest i rest' -> looked i -> mn_name m <> [] -> lookup c1 (mn_name m) = Ok None ->
  of_second i /\ exists taken, rest = taken ++ rest' /\ item_tokens [i] = mn_tokens m ++ taken /\ Forall (may_be_value c) taken
    /\ (alone i -> Forall (leaves_alone c1) (tl (mn_tokens m ++ taken))) /\ forall rest2, completed c2 m (taken ++ rest2) i rest2.
Proof.
  intros [v t r|n vs ts r Hn _ K|n vs ts d key taken r Hn Hl Hk Hz Hlen Hv] Hlk Hne Hkn; cbn [mn_name mn_tokens looked alone] in *; [contradiction|congruence|].
  destruct Hlk as [r0 Hr]. destruct (key_stage _ _ _ _ Hn Hl Hk Hr) as (-> & _ & H1). destruct (H1 Hkn) as (K1 & K2 & K3).
  split.
  { eexists _, _, _, _. split; [reflexivity|]. split; [exact K1|]. split; [exact Hr|]. split; [exact K2|]. rewrite Forall_forall in Hfixed. auto. }
  exists taken. split; [reflexivity|]. split; [cbn; now rewrite app_nil_r|]. split; [auto|]. split; [auto|]. intros rest2.
  apply cm_known with (d := d); auto.
  - destruct (lookup_stage _ _ Hn Hl) as [(d0 & [= <-] & _ & E & _)|[_ E]]; congruence.
  - eapply Forall_impl; [|exact Hv]. intros. now apply value2.
Qed.

Lemma all_completed_second ms : forall pre n vs tok rest is rest', ms = pre ++ [mk_mention n vs [tok]] -> Forall (fun m => mn_tokens m = []) pre ->
  all_completed c ms rest is rest' -> Forall looked is -> Forall alone is -> Forall (fun m => mn_name m <> []) ms ->
  Forall (fun m => lookup c1 (mn_name m) = Ok None) ms ->
  Forall of_second is /\ is <> [] /\ exists taken, rest = taken ++ rest' /\ Forall (may_be_value c) taken /\ Forall (leaves_alone c1) taken
    /\ forall rest2, all_completed c2 ms (taken ++ rest2) is rest2.
Proof.
  induction ms as [|m ms IH]; intros pre n vs tok rest is rest' E Hp H Hl Ha Hn Hk; [destruct pre; discriminate|].
  inversion Hn as [|? ? Hn1 Hn2]; inversion Hk as [|? ? Hk1 Hk2]; subst.
  inversion H as [m0 r0 i r1 Hm|m0 ms0 r0 i is0 r1 Hm Hms]; subst.
  - inversion Hl; inversion Ha; subst. destruct (completed_second _ _ _ _ Hm) as (Ho & taken & -> & Et & Hv & Hal & HC); auto.
    destruct pre as [|p pre]; [|destruct pre; discriminate]. injection E as ->. cbn [mn_tokens app tl] in Hal.
    split; [auto|]. split; [discriminate|]. exists taken. repeat split; auto. intros. now constructor.
  - inversion Hl; inversion Ha; subst. destruct pre as [|p pre].
    { injection E as -> ->. inversion Hms. }
    injection E as <- ->. inversion Hp; subst.
    destruct (completed_second _ _ _ _ Hm) as (Ho & tk & Etk & _ & _ & _ & HC); auto.
    destruct tk; [|discriminate]. destruct (IH pre n vs tok rest is0 rest') as (Hs & Hne & taken & -> & Hv & Hal & HD); auto.
    split; [auto|]. split; [discriminate|]. exists taken. repeat split; auto. intros rest2. constructor; auto. exact (HC []).
Qed.

(** The values of an option the first parser does not know *)
Lemma read_value t rest i1 : may_be_value c t -> leaves_alone c1 t -> t <> dashdash -> consists_of c1 rest i1 ->
  exists i, passive i /\ item_tokens [i] = [t] /\ consists_of c1 (t :: rest) (i :: i1).
Proof.
  intros Hv Ha Hd Hc. destruct Hv as [Ho|[[ms Hs] _]].
  { exists (Argument t t). split; [right; eauto|]. split; [reflexivity|]. apply co_argument; auto. now apply ordinary_stage. }
  destruct (stands_any c1 t ms) as [ms' Hs']; auto; [exact short_any1|].
  assert (K : exists n vs, ms' = [mk_mention n vs [t]] /\ (n = [] -> exists v, vs = [v])).
  { pose proof (Ha _ Hs') as Hall. destruct Hs' as [n v (f & Hx & _)|n vs _ Hon H|n m d name vs _ H _ _ _|x a ms' _ H1 H2 E Hx _ Hg|x a _ H1 H2 E _].
    - discriminate.
    - exists n, vs. split; [reflexivity|]. intros ->. remember [] as e eqn:Ee in H. destruct H as [e He _|e v _ _]; [contradiction|eauto].
    - exfalso. exact (no_disguise c1 _ _ eq_refl H).
    - destruct Hg as [x a od Hl Hcc|x y a d ms' Hon Hl Hm Hg]; [eexists _, _; split; [reflexivity|discriminate]|].
      exfalso. inversion Hall as [|? ? [Hx'|Hx'] _]; subst; [discriminate|]. cbn [mn_name] in Hx'. now apply (unknown_letter _ _ Hx') in Hl.
    - eexists _, _; split; [reflexivity|discriminate]. }
  destruct K as (n & vs & -> & Hnl). pose proof (Ha _ Hs') as Hall. inversion Hall as [|? ? Hn _]; subst. cbn [mn_name] in Hn.
  destruct n as [|x n].
  - destruct (Hnl eq_refl) as [v ->]. exists (Argument v t). split; [right; eauto|]. split; [reflexivity|].
    apply (co_option c1 t rest _ [Argument v t] rest i1 Hs'); auto. constructor. constructor.
  - destruct Hn as [Hn|Hn]; [discriminate|]. exists (Option_ (x :: n) true vs [t]). split; [left; eauto|]. split; [reflexivity|].
    apply (co_option c1 t rest _ [Option_ (x :: n) true vs [t]] rest i1 Hs'); auto. constructor. constructor; auto. discriminate.
Qed.

Lemma read_values taken : forall rest i1, Forall (may_be_value c) taken -> Forall (leaves_alone c1) taken -> ~ In dashdash taken ->
  consists_of c1 rest i1 -> exists L, Forall passive L /\ item_tokens L = taken /\ consists_of c1 (taken ++ rest) (L ++ i1).
Proof.
  induction taken as [|t taken IH]; intros rest i1 Hv Ha Hd Hc; [exists []; auto|].
  inversion Hv; inversion Ha; subst. destruct (IH rest i1) as (L & HL & Et & H); auto; [intros K; apply Hd; now right|].
  destruct (read_value t (taken ++ rest) (L ++ i1)) as (i & Hi & Ei & Hc'); auto; [intros ->; apply Hd; now left|].
  exists (i :: L). split; [auto|]. split; [|exact Hc']. change (i :: L) with ([i] ++ L). now rewrite item_tokens_app, Ei, Et.
Qed.

Lemma consists_staged args is : consists_of c args is -> Forall looked is -> Forall alone is -> ~ In dashdash args ->
  Forall (unmixed c c1) args ->
  exists i1 tk i2, consists_of c1 args i1 /\ staged is i1 tk i2 /\ List.length tk <= List.length args.
Proof.
  induction 1 as [|tok rest ms is rest' is' Hs Ha Hc IH|rest Ho|tok rest is Ho Hd Hc IH]; intros Hlk Hal Hdd Hu.
  - exists [], [], []. repeat split; constructor.
  - apply Forall_app in Hlk. destruct Hlk as [Hlk Hlk']. apply Forall_app in Hal. destruct Hal as [Hal Hal'].
    inversion Hu as [|? ? Hu1 Hu2]; subst.
    assert (Hsub : exists taken, rest = taken ++ rest').
    { clear - Ha. induction Ha as [m rest i rest' H|m ms rest i is rest' H _ IH]; [|exact IH].
      destruct H; [exists []; reflexivity|exists []; reflexivity|eauto]. }
    destruct Hsub as [taken Erest].
    destruct IH as (i1 & tk & i2 & C1 & S & HL); auto.
    { intros K. apply Hdd. right. rewrite Erest. apply in_or_app. now right. }
    { rewrite Erest in Hu2. now apply Forall_app in Hu2. }
    assert (Hcs : (exists v, ms = [mk_mention [] [v] [tok]]) \/ Forall (fun m => mn_name m <> []) ms).
    { destruct Hs as [n v (f & Hx & _)|n vs _ Hon H|n m d name vs _ H _ _ _|x a ms _ H1 H2 E Hx _ Hg|x a _ H1 H2 E _].
      - destruct Hplain as [_ K]. congruence.
      - destruct n as [|x n]; [left|right; constructor; auto; discriminate]. remember [] as e eqn:Ee in H. destruct H as [e He _|e v _ _]; [contradiction|eauto].
      - exfalso. exact (no_disguise c _ _ eq_refl H).
      - right. clear - Hg. induction Hg; constructor; auto; discriminate.
      - right. constructor; auto. discriminate. }
    destruct Hcs as [[v ->]|Hne].
    + inversion Ha as [m0 r0 i r1 Hm|m0 ms0 r0 i is0 r1 Hm Hms]; subst; [|inversion Hms].
      inversion Hm; subst; try contradiction. assert (taken = []) as -> by now apply (app_inv_tail rest').
      assert (Hst : forall c', cl_style c' = cl_style c -> cl_additional c' = None -> stands_for c' tok [mk_mention [] [v] [tok]]).
      { intros c' Es Ea. remember [mk_mention [] [v] [tok]] as ms eqn:Ems.
        destruct Hs as [n v' (f & Hx & _)|n vs _ Hon H|n m d name vs _ H _ _ _|x a ms _ H1 H2 E Hx _ Hg|x a _ H1 H2 E _].
        - destruct Hplain as [_ K]. congruence.
        - injection Ems as -> ->. apply sf_long; [now apply unclaimed_plain|now rewrite Es|auto].
        - exfalso. exact (no_disguise c _ _ eq_refl H).
        - destruct (group_head _ _ _ _ _ Hg) as (m & ms' & E1 & E2). rewrite E1 in Ems. injection Ems as -> _. discriminate.
        - discriminate. }
      exists (Argument v tok :: i1), (tok :: tk), (Argument v tok :: i2). split; [|split].
      * apply (co_option c1 tok rest' _ [Argument v tok] rest' i1 (Hst c1 eq_refl eq_refl)); auto. constructor. constructor.
      * cbn [app]. apply sd_arg; auto. intros r is2 H2.
        apply (co_option c2 tok r _ [Argument v tok] r is2 (Hst c2 eq_refl eq_refl)); auto. constructor. constructor.
      * cbn [List.length app]. lia.
    + destruct (Hu1 _ Hs) as [Hk|Hk].
      * destruct (all_completed_first _ _ _ _ Ha Hlk Hne Hk) as [Ha1 Hf]. exists (is ++ i1), tk, i2. split; [|split].
        -- eapply co_option; eauto. apply stands_first; auto. eapply all_found; eauto.
        -- now apply staged_firsts.
        -- rewrite Erest. cbn [List.length]. rewrite app_length. lia.
      * assert (Hk' : Forall (fun m => lookup c1 (mn_name m) = Ok None) ms).
        { pose proof (all_found _ _ _ _ Ha) as Hfd. rewrite Forall_forall in *. intros m Hm. destruct (Hfd m Hm) as [E|[d Hd]]; [destruct (Hne m Hm E)|].
          destruct (lookup_stage _ _ (Hne m Hm) Hd) as [(d' & _ & _ & E & _)|[E _]]; [|exact E]. destruct (Hk m Hm). now exists d'. }
        destruct (stands_second _ _ Hs Hk' Hne) as (Hs2 & n & vs & Hs1 & Hn & Hnn).
        destruct (stands_tokens _ _ Hs) as (pre & n0 & vs0 & Ems & Hpre).
        destruct (all_completed_second ms pre n0 vs0 tok rest is rest') as (Hos & Hine & taken' & Er & Hv & Hla & H2); auto.
        rewrite Erest in Er. apply app_inv_tail in Er. subst taken'.
        destruct (read_values taken rest' i1) as (L & HL' & Et & Hc1); auto.
        { intros K. apply Hdd. right. rewrite Erest. apply in_or_app. now left. }
        assert (Ett : item_tokens (Option_ n true vs [tok] :: L) = tok :: taken).
        { change (Option_ n true vs [tok] :: L) with ([Option_ n true vs [tok]] ++ L). rewrite item_tokens_app, Et. reflexivity. }
        exists ((Option_ n true vs [tok] :: L) ++ i1), (item_tokens (Option_ n true vs [tok] :: L) ++ tk), (is ++ i2). split; [|split].
        -- apply (co_option c1 tok rest _ [Option_ n true vs [tok]] rest (L ++ i1) Hs1); [constructor; now constructor|]. rewrite Erest. exact Hc1.
        -- apply sd_second; auto.
           ++ constructor; auto. left. eauto.
           ++ intros r is2 Hr. rewrite Ett. cbn [app]. eapply co_option; eauto.
        -- rewrite app_length, Ett, Erest. cbn [List.length]. rewrite app_length. lia.
  - exfalso. apply Hdd. now left.
  - inversion Hu; inversion Hlk; inversion Hal; subst. destruct IH as (i1 & tk & i2 & C1 & S & HL); auto; [intros K; apply Hdd; now right|].
    exists (Argument tok tok :: i1), (tok :: tk), (Argument tok tok :: i2). split; [|split].
    + apply co_argument; auto. now apply ordinary_stage.
    + apply sd_arg; auto. intros r is2 Hr. apply co_argument; auto. now apply ordinary_stage.
    + cbn [List.length]. lia.
Qed.

Theorem two_stages args res : Forall (fun d => sensible d /\ fits d) (A ++ B) -> (Z.of_nat (List.length args) < INT_MAX)%Z ->
  ~ In dashdash args -> Forall (unmixed c c1) args -> parse c args = Ok res ->
  Forall (fun o => po_pos o = (-1)%Z -> belongs c1 o = false -> Forall (leaves_alone c1) (tl (po_orig o))) res ->
  exists r1 r2, parse c1 args = Ok r1 /\ parse c2 (collect_unrecognized r1 include_positional) = Ok r2
    /\ filter registered_by_name r1 = filter (belongs c1) res
    /\ r2 = filter (fun o => negb (belongs c1 o)) res.
Proof.
  intros Hsf Hlen Hdd Hu Hp Hal. pose proof Hplain as [Hsp _].
  assert (Hn : Forall has_name A /\ Forall has_name B) by now apply Forall_app.
  assert (Hs : Forall (fun d => sensible d /\ fits d) A /\ Forall (fun d => sensible d /\ fits d) B) by now apply Forall_app.
  destruct Hn as [Hn1 Hn2]. destruct Hs as [Hs1 Hs2].
  apply parse_iff in Hp; auto; try (rewrite Hdesc; assumption). destruct Hp as (is & is' & Hc & Hg & Hr).
  pose proof (returned_alone _ _ _ Hr Hal) as Ha'. pose proof (gathered_alone _ _ Hg Ha') as Ha. pose proof (gathered_looked _ _ Hg) as Hlk.
  destruct (consists_staged _ _ Hc Hlk Ha Hdd Hu) as (i1 & tk & i2 & C1 & S & L1).
  destruct (staged_gathered _ _ _ _ _ _ (le_n _) Hg S) as (i1' & tk' & i2' & G1 & S' & L2).
  destruct (staged_second _ _ _ _ S') as [C2 G2].
  destruct (staged_returned _ _ _ _ S' 0 0 _ Hr) as (r1 & r2 & R1 & R2 & Et & E1 & E2).
  exists r1, r2. split; [|split; [|auto]].
  - apply parse_iff; auto. exists i1, i1'. auto.
  - rewrite collect_lemma. change (filter _ r1) with (filter kept r1). rewrite Et. apply parse_iff; auto; [lia|]. exists i2', i2'. auto.
Qed.
End Stages.
