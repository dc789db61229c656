(** Storing in two stages. *)

From Coq Require Import List Ascii String NArith ZArith Bool Arith Lia Sorting.Sorted.
From Verif Require Import Base Errors Spec BaseFacts Values OptDesc SpecLookup LookupFacts Positional Cmdline Parsers VarMap
  SpecCmdline CmdlineFacts RunFacts ReadFacts SoundFacts SpecReject SpecGrammar GrammarFacts SpecFrame FrameFacts SpecConserve
  GuessFacts SpecStages StageFacts SpecStore StoreFacts SpecEnd EndFacts SpecStageStore.
Import ListNotations.

(** ** Defaults *)

Lemma default_app_none A B name e : default_entry A name None -> default_entry B name e -> default_entry (A ++ B) name e.
Proof.
  intros HA HB. assert (FA : Forall (fun d' => is_key d' [] name -> vs_default (od_sem d') = None) A) by (now inversion HA).
  destruct HB as [ds1 d ds2 def -> Hk Hd Hf|Hf].
  - apply de_some with (ds1 := A ++ ds1) (ds2 := ds2); auto; [now rewrite app_assoc|]. now apply Forall_app.
  - apply de_none. now apply Forall_app.
Qed.

Lemma default_app_some A B name v : default_entry A name (Some v) -> default_entry (A ++ B) name (Some v).
Proof.
  intros H. inversion H as [ds1 d ds2 def E Hk Hd Hf|]; subst. apply de_some with (ds1 := ds1) (ds2 := ds2 ++ B); auto.
  now rewrite <- app_assoc.
Qed.

Lemma store_defaults_app prefix A B : forall m req,
  store_defaults (A ++ B) prefix m req = let (m1, r1) := store_defaults A prefix m req in store_defaults B prefix m1 r1.
Proof.
  induction A as [|d A IH]; intros m req; cbn [app store_defaults]; [reflexivity|].
  destruct (is_empty (od_key d [])); apply IH.
Qed.

Lemma default_marked ds name v : default_entry ds name (Some v) -> vv_defaulted v = true.
Proof. intros H. now inversion H. Qed.

(** ** One source in two parts *)

Lemma kept_final p vm u vm' name : store p vm u = (vm', Ok tt) -> name <> [] -> In name (vm_final vm) -> In name (vm_final vm').
Proof.
  intros H Hne Hin. destruct (store_entry _ _ _ _ _ H Hne) as (ds & _ & [(_ & Hf & _)|(_ & Hn & _)]); [now apply Hf|contradiction].
Qed.

Lemma kept_given p vm u vm' name : store p vm u = (vm', Ok tt) -> name <> [] -> ~ mentions p name -> given (entry vm' name) = given (entry vm name).
Proof.
  intros H Hne Hm. destruct (store_entry _ _ _ _ _ H Hne) as (ds & _ & [(_ & _ & [(v & E1 & E2)|[E1 E2]])|(Ho & _)]).
  - congruence.
  - rewrite E1. destruct (entry vm' name) as [v|] eqn:E; auto. cbn [given]. now rewrite (default_marked _ _ _ E2).
  - contradiction.
Qed.

Lemma kept_final_iff p vm u vm' name : store p vm u = (vm', Ok tt) -> name <> [] -> ~ mentions p name ->
  (In name (vm_final vm') <-> In name (vm_final vm)).
Proof.
  intros H Hne Hm. destruct (store_entry _ _ _ _ _ H Hne) as (ds & _ & [(_ & Hf & _)|(Ho & _)]); [exact Hf|contradiction].
Qed.

Lemma mentions_dec p name : mentions p name \/ ~ mentions p name.
Proof. unfold mentions. destruct (occurrences (pr_options p) name); [right; auto|left; discriminate]. Qed.

Lemma distributed_stores p p1 p2 vm u vm' : distributed p p1 p2 -> store p vm u = (vm', Ok tt) ->
  exists va vb, store p1 vm u = (va, Ok tt) /\ store p2 va u = (vb, Ok tt).
Proof.
  intros (A & B & Ed & E1 & E2 & P1 & P2 & Hd) H.
  assert (Hs : exists vm', store p vm u = (vm', Ok tt)) by eauto.
  rewrite (store_succeeds_lemma p _ vm u Ed) in Hs.
  assert (H1 : exists va, store p1 vm u = (va, Ok tt)).
  { apply (store_succeeds_lemma p1 A vm u E1). intros name Hne Hm Hf. destruct (Hd name Hne) as [(Eo & Hn & Ef)|(Eo & Hn & Ef)]; [|contradiction].
    assert (Hm' : mentions p name) by (unfold mentions in *; congruence). rewrite Eo, <- (Ef Hm'). now apply Hs. }
  destruct H1 as [va H1]. exists va.
  assert (H2 : exists vb, store p2 va u = (vb, Ok tt)).
  { apply (store_succeeds_lemma p2 B va u E2). intros name Hne Hm Hf. destruct (Hd name Hne) as [(Eo & Hn & Ef)|(Eo & Hn & Ef)]; [contradiction|].
    assert (Hm' : mentions p name) by (unfold mentions in *; congruence). rewrite Eo, <- (Ef Hm'), (kept_given _ _ _ _ _ H1 Hne Hn).
    apply Hs; auto. now rewrite <- (kept_final_iff _ _ _ _ _ H1 Hne Hn). }
  destruct H2 as [vb H2]. eauto.
Qed.

Lemma distributed_back p p1 p2 vm u va vb : distributed p p1 p2 -> store p1 vm u = (va, Ok tt) -> store p2 va u = (vb, Ok tt) ->
  exists vm', store p vm u = (vm', Ok tt).
Proof.
  intros (A & B & Ed & E1 & E2 & P1 & P2 & Hd) H1 H2. apply (store_succeeds_lemma p _ vm u Ed). intros name Hne Hm Hf.
  assert (S1 : exists va, store p1 vm u = (va, Ok tt)) by eauto. rewrite (store_succeeds_lemma p1 _ vm u E1) in S1.
  assert (S2 : exists vb, store p2 va u = (vb, Ok tt)) by eauto. rewrite (store_succeeds_lemma p2 _ va u E2) in S2.
  destruct (Hd name Hne) as [(Eo & Hn & Ef)|(Eo & Hn & Ef)]; rewrite (Ef Hm), <- Eo.
  - apply S1; auto. unfold mentions in *. congruence.
  - rewrite <- (kept_given _ _ _ _ _ H1 Hne Hn). apply S2; auto; [unfold mentions in *; congruence|].
    now rewrite (kept_final_iff _ _ _ _ _ H1 Hne Hn).
Qed.

(** Names nobody mentions, or that are final *)
Lemma unchanged p vm u vm' ds name : store p vm u = (vm', Ok tt) -> pr_desc p = Some ds -> name <> [] ->
  ~ mentions p name \/ In name (vm_final vm) ->
  (In name (vm_final vm') <-> In name (vm_final vm))
  /\ ((exists v, entry vm name = Some v /\ entry vm' name = Some v) \/ (entry vm name = None /\ default_entry ds name (entry vm' name))).
Proof.
  intros H Ed Hne Hm. destruct (store_entry _ _ _ _ _ H Hne) as (ds' & Ed' & [(_ & Hf & He)|(Ho & Hn & _)]).
  - rewrite Ed in Ed'. injection Ed' as <-. auto.
  - destruct Hm; contradiction.
Qed.

Lemma changed p vm u vm' ds name : store p vm u = (vm', Ok tt) -> pr_desc p = Some ds -> name <> [] ->
  mentions p name -> ~ In name (vm_final vm) ->
  exists d a, find ds name false false false = Ok d
     /\ parsed_all (od_sem d) u (given (entry vm name)) (occurrences (pr_options p) name) a
     /\ entry vm' name = Some (mk_vv a false (Some (od_sem d)))
     /\ (In name (vm_final vm') <-> vs_composing (od_sem d) = false).
Proof.
  intros H Ed Hne Hm Hn. destruct (store_entry _ _ _ _ _ H Hne) as (ds' & Ed' & [([Ho|Ho] & _)|(_ & _ & d & a & Hr)]); try contradiction.
  rewrite Ed in Ed'. injection Ed' as <-. eauto.
Qed.

Lemma mem_dec name (s : sset) : In name s \/ ~ In name s.
Proof. destruct (ss_mem name s) eqn:E; [left; now apply ss_mem_In|right]. intros H. apply ss_mem_In in H. congruence. Qed.

Lemma distributed_same p p1 p2 vm u vm' va vb : distributed p p1 p2 -> store p vm u = (vm', Ok tt) ->
  store p1 vm u = (va, Ok tt) -> store p2 va u = (vb, Ok tt) -> same_values vm' vb /\ vm_required vm' = vm_required vb.
Proof.
  intros (A & B & Ed & E1 & E2 & P1 & P2 & Hd) H H1 H2. split.
  - assert (K : forall name, name <> [] -> entry vm' name = entry vb name /\ (In name (vm_final vm') <-> In name (vm_final vb))).
    { intros name Hne.
      assert (Hboth : ~ mentions p name \/ In name (vm_final vm) -> ~ mentions p1 name \/ In name (vm_final vm) ->
                      ~ mentions p2 name \/ In name (vm_final vm) ->
                      entry vm' name = entry vb name /\ (In name (vm_final vm') <-> In name (vm_final vb))).
      { intros K K1 K2. destruct (unchanged _ _ _ _ _ _ H Ed Hne K) as [F R]. destruct (unchanged _ _ _ _ _ _ H1 E1 Hne K1) as [F1 R1].
        assert (K2' : ~ mentions p2 name \/ In name (vm_final va)) by (destruct K2; [now left|right; now apply F1]).
        destruct (unchanged _ _ _ _ _ _ H2 E2 Hne K2') as [F2 R2]. split; [|now rewrite F, F2, F1].
        destruct R as [(v & Ev & ->)|[Ev D]].
        - destruct R1 as [(v1 & Ev1 & Ea)|[Ev1 _]]; [|congruence]. destruct R2 as [(v2 & Ev2 & ->)|[Ev2 _]]; congruence.
        - destruct R1 as [(v1 & Ev1 & _)|[_ D1]]; [congruence|]. destruct R2 as [(v2 & Ev2 & ->)|[Ev2 D2]].
          + rewrite Ev2 in D1. apply (default_app_some A B) in D1. eapply default_entry_fun; eauto.
          + rewrite Ev2 in D1. pose proof (default_app_none _ _ _ _ D1 D2). eapply default_entry_fun; eauto. }
      destruct (Hd name Hne) as [(Eo & Hn & Ef)|(Eo & Hn & Ef)].
      - destruct (mentions_dec p name) as [Hm|Hm].
        + destruct (mem_dec name (vm_final vm)) as [Hf|Hf]; [now apply Hboth; right|].
          destruct (changed _ _ _ _ _ _ H Ed Hne Hm Hf) as (d & a & Fd & Pa & Ee & Ff).
          assert (Hm1 : mentions p1 name) by (unfold mentions in *; congruence).
          destruct (changed _ _ _ _ _ _ H1 E1 Hne Hm1 Hf) as (d1 & a1 & Fd1 & Pa1 & Ee1 & Ff1).
          rewrite (Ef Hm), Fd1 in Fd. injection Fd as ->. rewrite Eo in Pa1. rewrite (parsed_all_fun _ _ _ _ _ Pa _ Pa1) in Ee.
          destruct (unchanged _ _ _ _ _ _ H2 E2 Hne (or_introl Hn)) as [F2 [(v2 & Ev2 & Ev2')|[Ev2 _]]]; [|congruence].
          split; [congruence|]. rewrite Ff, F2. tauto.
        + apply Hboth; left; auto. unfold mentions in *. now rewrite Eo.
      - destruct (mentions_dec p name) as [Hm|Hm].
        + destruct (mem_dec name (vm_final vm)) as [Hf|Hf]; [now apply Hboth; right|].
          destruct (changed _ _ _ _ _ _ H Ed Hne Hm Hf) as (d & a & Fd & Pa & Ee & Ff).
          assert (Hm2 : mentions p2 name) by (unfold mentions in *; congruence).
          assert (Hf1 : ~ In name (vm_final va)) by now rewrite (kept_final_iff _ _ _ _ _ H1 Hne Hn).
          destruct (changed _ _ _ _ _ _ H2 E2 Hne Hm2 Hf1) as (d2 & a2 & Fd2 & Pa2 & Ee2 & Ff2).
          rewrite (Ef Hm), Fd2 in Fd. injection Fd as ->. rewrite Eo, (kept_given _ _ _ _ _ H1 Hne Hn) in Pa2.
          rewrite (parsed_all_fun _ _ _ _ _ Pa _ Pa2) in Ee. split; [congruence|]. rewrite Ff. tauto.
        + apply Hboth; left; auto. unfold mentions in *. now rewrite Eo. }
    split; [|intros name Hne; now apply K]. intros [|x name]; [|now apply K].
    now rewrite (store_nil _ _ _ _ _ H), (store_nil _ _ _ _ _ H2), (store_nil _ _ _ _ _ H1).
  - unfold store in H, H1, H2. rewrite Ed in H. rewrite E1, P1 in H1. rewrite E2, P2 in H2.
    destruct (store_options (A ++ B) _ _ _ _ _ _) as [[m0 nf0] r0]. destruct r0 as [[]| | |]; try discriminate.
    destruct (store_options A _ _ _ _ _ _) as [[ma nfa] ra]. destruct ra as [[]| | |]; try discriminate.
    destruct (store_options B _ _ _ _ _ _) as [[mb nfb] rb]. destruct rb as [[]| | |]; try discriminate.
    rewrite store_defaults_app in H. destruct (store_defaults A (pr_prefix p) m0 (vm_required vm)) as [m1 r1] eqn:D1.
    destruct (store_defaults B (pr_prefix p) m1 r1) as [m2 r2] eqn:D2. injection H as <-.
    destruct (store_defaults A (pr_prefix p) ma (vm_required vm)) as [m3 r3] eqn:D3. injection H1 as <-. cbn [vm_required vm_map vm_final] in *.
    destruct (store_defaults B (pr_prefix p) mb r3) as [m4 r4] eqn:D4. injection H2 as <-. cbn [vm_required].
    pose proof (store_defaults_indep _ _ _ _ _ _ _ _ _ D1 D3) as <-. exact (store_defaults_indep _ _ _ _ _ _ _ _ _ D2 D4).
Qed.

Lemma same_follows vm vm' : sm_sorted (vm_map vm) -> sm_sorted (vm_required vm) -> sm_sorted (vm_map vm') ->
  same_values vm vm' -> vm_required vm = vm_required vm' -> follows vm vm'.
Proof.
  intros S1 S2 S3 Hv Hr h vm1 H.
  assert (Hh : Forall2 (fun pu pu' : parsed_options * bool => says_the_same (fst pu) (fst pu') /\ snd pu = snd pu') h h).
  { clear. induction h; constructor; auto. split; auto. apply says_refl. }
  destruct (stores_same h h Hh vm vm' vm1 Hv Hr H) as (vm1' & H' & Hv1 & Hr1). exists vm1'. split; auto. split.
  - intros name. symmetry. apply Hv1.
  - destruct (stores_sorted _ _ _ H S1 S2) as [T1 _]. rewrite Hr in S2. destruct (stores_sorted _ _ _ H' S3 S2) as [T2 _].
    unfold notify. rewrite (same_map _ _ T1 T2 Hv1), Hr1. reflexivity.
Qed.

Lemma same_values_sym vm vm' : same_values vm vm' -> same_values vm' vm.
Proof. intros [H1 H2]. split; [intros; now rewrite H1|]. intros name Hne. now rewrite (H2 name Hne). Qed.

Lemma same_equivalent vm vm' : sm_sorted (vm_map vm) -> sm_sorted (vm_required vm) -> sm_sorted (vm_map vm') ->
  same_values vm vm' -> vm_required vm = vm_required vm' -> equivalent vm vm'.
Proof.
  intros S1 S2 S3 Hv Hr. split; [now apply same_follows|]. apply same_follows; auto; [congruence|now apply same_values_sym].
Qed.

(** ** Lookup *)

Lemma classify_none ds n g l s rs want : Forall2 (fun d r => od_match d n g l s = Ok r) ds rs ->
  (forall d r, In d ds -> od_match d n g l s = Ok r -> want r = false) -> classify ds rs want = [].
Proof.
  induction 1 as [|d r ds rs Hr _ IH]; intros H; cbn [classify]; [reflexivity|].
  rewrite (H d r (or_introl eq_refl) Hr), IH; auto. intros d' r' Hd. apply H. now right.
Qed.

Lemma nothing_matches ds n : no_wildcards ds -> (forall d, In d ds -> ~ full d n false false) ->
  forall d r, In d ds -> od_match d n false false false = Ok r -> r = no_match.
Proof.
  intros Hw Hf d r Hd Hr. unfold no_wildcards in Hw. rewrite Forall_forall in Hw. destruct r; [reflexivity| |].
  - exfalso. exact (Hf _ Hd (full_exact _ _ _ Hr)).
  - exfalso. exact (no_wild_approx _ _ (Hw _ Hd) (approx_exact _ _ _ Hr)).
Qed.

Lemma find_app_left A B n : no_wildcards (A ++ B) -> (forall e, In e B -> ~ full e n false false) ->
  find (A ++ B) n false false false = find A n false false false.
Proof.
  intros Hw Hf. assert (Hb : no_wildcards B) by (unfold no_wildcards in *; now apply Forall_app in Hw).
  unfold find. f_equal.
  destruct (find_nothrow_cases n false false false (A ++ B)) as [[rs Hrs]|[_ E]].
  - rewrite (@find_nothrow_eq n false false false (A ++ B) rs Hrs). apply Forall2_app_inv_l in Hrs. destruct Hrs as (ra & rb & Ha & Hrb & ->).
    rewrite (@find_nothrow_eq n false false false A ra Ha). rewrite !classify_app by (eapply F2_len; eauto).
    pose proof (nothing_matches B n Hb Hf) as K.
    rewrite (classify_none B n false false false rb is_full), (classify_none B n false false false rb is_approx), !app_nil_r; auto;
      intros d r Hd Hr; now rewrite (K d r Hd Hr).
  - exfalso. apply Exists_exists in E. destruct E as (d & Hd & E).
    assert (K : false = true -> ascii7 n) by discriminate. assert (Kf : foldable_option d false false) by (split; discriminate).
    destruct (match_characterised_lemma false K Kf) as (r & Hr & _). congruence.
Qed.

Lemma find_app_right A B n : no_wildcards (A ++ B) -> (forall e, In e A -> ~ full e n false false) ->
  find (A ++ B) n false false false = find B n false false false.
Proof.
  intros Hw Hf. assert (Ha' : no_wildcards A) by (unfold no_wildcards in *; now apply Forall_app in Hw).
  unfold find. f_equal.
  destruct (find_nothrow_cases n false false false (A ++ B)) as [[rs Hrs]|[_ E]].
  - rewrite (@find_nothrow_eq n false false false (A ++ B) rs Hrs). apply Forall2_app_inv_l in Hrs. destruct Hrs as (ra & rb & Ha & Hrb & ->).
    rewrite (@find_nothrow_eq n false false false B rb Hrb). rewrite !classify_app by (eapply F2_len; eauto).
    pose proof (nothing_matches A n Ha' Hf) as K.
    rewrite (classify_none A n false false false ra is_full), (classify_none A n false false false ra is_approx); auto;
      intros d r Hd Hr; now rewrite (K d r Hd Hr).
  - exfalso. apply Exists_exists in E. destruct E as (d & Hd & E).
    assert (K : false = true -> ascii7 n) by discriminate. assert (Kf : foldable_option d false false) by (split; discriminate).
    destruct (match_characterised_lemma false K Kf) as (r & Hr & _). congruence.
Qed.

(** ** What the parsers returned *)

Lemma gathered_known c is is' : gathered c is is' ->
  Forall (fun i => match i with Option_ key _ _ _ => exists r, lookup c key = Ok r | _ => True end) is'.
Proof. induction 1; constructor; auto; eauto. Qed.

Lemma returned_known c k is os : returned c k is os ->
  Forall (fun i => match i with Option_ key _ _ _ => exists r, lookup c key = Ok r | _ => True end) is ->
  Forall (fun o => po_pos o = (-1)%Z -> exists r, lookup c (po_key o) = Ok r) os.
Proof.
  induction 1; intros Hf; constructor; inversion Hf; subst; auto; cbn [po_pos po_key]; intros E; lia.
Qed.

Lemma returned_nameless c k is os : cl_positional c = None -> returned c k is os -> Forall (fun o => po_pos o <> (-1)%Z -> po_key o = []) os.
Proof.
  intros Hp. induction 1 as [| |k v t name b is os Ha|k t name b is os Ha]; constructor; auto; cbn [po_pos po_key].
  - intros K. now contradiction K.
  - inversion Ha; congruence.
  - inversion Ha; congruence.
Qed.

Lemma occurrences_filter f os name : (forall o, In o os -> po_key o = name -> po_unreg o = false -> f o = true) ->
  occurrences (filter f os) name = occurrences os name.
Proof.
  induction os as [|o os IH]; intros H; [reflexivity|]. assert (IH' := IH (fun x Hx => H x (or_intror Hx))).
  cbn [filter]. destruct (f o) eqn:E; rewrite !occurrences_cons, ?IH'; [reflexivity|].
  destruct (str_eqb_spec (po_key o) name) as [Ek|]; [|reflexivity]. destruct (po_unreg o) eqn:Eu; [reflexivity|].
  rewrite (H o (or_introl eq_refl) Ek Eu) in E. discriminate.
Qed.

Lemma occurrences_none f os name : (forall o, In o os -> po_key o = name -> po_unreg o = false -> f o = false) ->
  occurrences (filter f os) name = [].
Proof.
  induction os as [|o os IH]; intros H; [reflexivity|]. assert (IH' := IH (fun x Hx => H x (or_intror Hx))).
  cbn [filter]. destruct (f o) eqn:E; [|exact IH']. rewrite occurrences_cons, IH'.
  destruct (str_eqb_spec (po_key o) name) as [Ek|]; [|reflexivity]. destruct (po_unreg o) eqn:Eu; [reflexivity|].
  rewrite (H o (or_introl eq_refl) Ek Eu) in E. discriminate.
Qed.

Lemma occurrences_some os name : occurrences os name <> [] -> exists o, In o os /\ po_key o = name /\ po_unreg o = false.
Proof.
  induction os as [|o os IH]; [intros []; reflexivity|]. rewrite occurrences_cons.
  destruct (str_eqb_spec (po_key o) name) as [Ek|]; cbn [andb].
  - destruct (po_unreg o) eqn:Eu; cbn [negb]; [|intros _; exists o; split; [now left|auto]].
    intros H. destruct (IH H) as (o' & Ho & K). exists o'. split; [now right|auto].
  - intros H. destruct (IH H) as (o' & Ho & K). exists o'. split; [now right|auto].
Qed.

Lemma staged_distributed c A B args res r1 r2 prefix :
  plain c -> case_sensitive c -> cl_desc c = A ++ B -> no_wildcards (A ++ B) -> Forall has_name (A ++ B) ->
  Forall (fun d => sensible d /\ fits d) (A ++ B) -> unshadowed (has (cl_style c) allow_guessing) A B ->
  (Z.of_nat (List.length args) < INT_MAX)%Z -> parse c args = Ok res -> arguments_for_second c A res ->
  parse (first_stage c A) args = Ok r1 ->
  filter registered_by_name r1 = filter (belongs (first_stage c A)) res ->
  r2 = filter (fun o => negb (belongs (first_stage c A) o)) res ->
  distributed (mk_parsed res (Some (A ++ B)) prefix) (mk_parsed r1 (Some A) prefix) (mk_parsed r2 (Some B) prefix).
Proof.
  intros Hplain Hcase Hdesc Hwild Hnames Hsf Hshadow Hlen Hp Hargs Hp1 E1 E2.
  exists A, B. do 5 (split; [reflexivity|]). cbn [pr_options]. intros k Hk. unfold mentions. cbn [pr_options].
  assert (Hknown : Forall (fun o => po_pos o = (-1)%Z -> exists r, lookup c (po_key o) = Ok r) res).
  { apply parse_iff in Hp; auto; try (rewrite Hdesc; assumption); [|now destruct Hplain]. destruct Hp as (is & is' & _ & Hg & Hr).
    eapply returned_known; [exact Hr|eapply gathered_known; eauto]. }
  assert (Hless : Forall (fun o => po_pos o <> (-1)%Z -> po_key o = []) r1).
  { apply parse_iff in Hp1; auto; try (cbn; now apply Forall_app in Hnames); try (cbn; now apply Forall_app in Hsf).
    destruct Hp1 as (is & is' & _ & _ & Hr). eapply returned_nameless; [|exact Hr]. reflexivity. }
  rewrite Forall_forall in Hknown, Hless. unfold arguments_for_second in Hargs. rewrite Forall_forall in Hargs.
  assert (Eo1 : occurrences r1 k = occurrences (filter (belongs (first_stage c A)) res) k).
  { rewrite <- E1. symmetry. apply occurrences_filter. intros o Ho Ek Eu. unfold registered_by_name. rewrite Eu. cbn [negb andb].
    apply Z.eqb_eq. destruct (Z.eq_dec (po_pos o) (-1)%Z) as [|Hn]; auto. rewrite (Hless o Ho Hn) in Ek. congruence. }
  assert (Hcases : (exists d, lookup (first_stage c A) k = Ok (Some d)) \/ forall d, lookup (first_stage c A) k <> Ok (Some d)).
  { destruct (lookup (first_stage c A) k) as [[d|]| | |]; [left; eauto| | | |]; right; discriminate. }
  destruct Hcases as [[d Hd]|Hd]; [left|right].
  - assert (Hb : forall o, In o res -> po_key o = k -> belongs (first_stage c A) o = true).
    { intros o Ho Ek. unfold belongs. rewrite Ek, Hd, andb_true_r. apply Z.eqb_eq. destruct (Z.eq_dec (po_pos o) (-1)%Z) as [|Hn]; auto.
      destruct (Hargs o Ho Hn); congruence. }
    split; [rewrite Eo1; now apply occurrences_filter; auto|]. split.
    + intros K. apply K. rewrite E2. apply occurrences_none. intros o Ho Ek _. now rewrite (Hb o Ho Ek).
    + intros Hm. apply occurrences_some in Hm. destruct Hm as (o & Ho & Ek & Eu). pose proof (Hb o Ho Ek) as Hbo.
      apply andb_true_iff in Hbo. destruct Hbo as [Hpos _]. apply Z.eqb_eq in Hpos. destruct (Hknown o Ho Hpos) as [r Hr]. rewrite Ek in Hr.
      apply find_app_left; auto.
      destruct (lookup_stage c A B Hdesc Hcase Hshadow k r Hk Hr) as [(d' & _ & _ & _ & Hnone)|[H1 _]]; [exact Hnone|congruence].
  - assert (Hb : forall o, In o res -> po_key o = k -> belongs (first_stage c A) o = false).
    { intros o Ho Ek. unfold belongs. rewrite Ek. destruct (lookup (first_stage c A) k) as [[d|]| | |]; try apply andb_false_r. now contradiction (Hd d). }
    split; [rewrite E2; apply occurrences_filter; intros o Ho Ek _; now rewrite (Hb o Ho Ek)|]. split.
    + intros K. apply K. rewrite Eo1. apply occurrences_none. auto.
    + intros Hm. apply occurrences_some in Hm. destruct Hm as (o & Ho & Ek & Eu). apply find_app_right; auto.
      assert (Hl : lookup (first_stage c A) k = Ok None).
      { destruct (Z.eq_dec (po_pos o) (-1)%Z) as [Hpos|Hpos].
        - destruct (Hknown o Ho Hpos) as [r Hr]. rewrite Ek in Hr.
          destruct (lookup_stage c A B Hdesc Hcase Hshadow k r Hk Hr) as [(d' & _ & _ & H1 & _)|[H1 _]]; [now contradiction (Hd d')|exact H1].
        - destruct (Hargs o Ho Hpos); congruence. }
      intros e He. eapply unknown_full; eauto.
Qed.
