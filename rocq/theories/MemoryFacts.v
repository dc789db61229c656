(** Proofs for C111: running out of memory in [store]. *)

From Coq Require Import List Ascii String NArith ZArith Bool Arith Lia Sorting.Sorted.
From Verif Require Import Base Errors Spec BaseFacts Values OptDesc SpecLookup LookupFacts Positional Cmdline
  Parsers VarMap SpecCmdline SpecStore StoreFacts SemFacts SpecEnd EndFacts StageStoreFacts AgainFacts Memory SpecMemory.
Import ListNotations.

Lemma occ_app os1 os2 name : occurrences (os1 ++ os2) name = occurrences os1 name ++ occurrences os2 name.
Proof. unfold occurrences. now rewrite filter_app, map_app. Qed.

Lemma considered_occ final o os : considered final o -> occurrences (o :: os) (po_key o) = po_value o :: occurrences os (po_key o).
Proof. intros (_ & Hu & _). rewrite occurrences_cons, str_eqb_refl, Hu. reflexivity. Qed.

Lemma considered_name final o : considered final o -> po_key o <> [] /\ ~ In (po_key o) final.
Proof. intros (H1 & _ & H2). split; [intros E; rewrite E in H1; discriminate|]. intros H. apply ss_mem_In in H. congruence. Qed.

(** The first loop. *)
Lemma options_entry during ds prefix final utf8 opts m m' name :
  interrupted_options during ds prefix final utf8 opts m m' -> name <> [] ->
  partly during ds final utf8 (occurrences opts name) name (sm_find name m) (sm_find name m').
Proof.
  intros H Hne.
  assert (S : forall done rest m1 nf, opts = done ++ rest -> store_options ds prefix final utf8 done m [] = (m1, nf, Ok tt) ->
    partly during ds final utf8 (occurrences opts name) name (sm_find name m) (sm_find name m1)).
  { intros done rest m1 nf -> Hs. rewrite occ_app. pose proof (store_options_entry _ _ _ _ name _ Hne _ _ _ _ Hs) as [(_ & E & _)|(Ho & Hf & d & a & Hd & Hp & E & _)].
    - rewrite E. apply pt_same.
    - rewrite E. apply pt_parsed with (first := occurrences done name) (rest := occurrences rest name); auto. }
  inversion H as [done todo m1 nf E Hs|done o todo m1 nf d E Hs Hc Hd Hv|done o todo m1 nf d a E Hs Hc Hd v0 v1 Ha]; subst m'.
  - eauto.
  - rewrite sm_find_set. destruct (str_eqb_spec name (po_key o)) as [->|]; [|eauto].
    destruct (considered_name _ _ Hc) as [_ Hf]. rewrite E, occ_app, (considered_occ _ _ _ Hc).
    pose proof (store_options_entry _ _ _ _ _ _ Hne _ _ _ _ Hs) as [([Ho|Ho] & Em & _)|(_ & _ & d' & a & Hd' & Hp & Em & _)]; [|contradiction|].
    + rewrite Ho. cbn [app]. apply (pt_parsing during ds final utf8 _ _ _ [] (po_value o) (occurrences todo (po_key o)) d (given (sm_find (po_key o) m)));
        [reflexivity|exact Hf|exact Hd|constructor| |reflexivity].
      left. rewrite Em in Hv. unfold given. destruct (sm_find (po_key o) m) as [v|]; [now rewrite Hv|reflexivity].
    + rewrite Em in Hv. cbn in Hv. discriminate.
  - rewrite sm_find_set. destruct (str_eqb_spec name (po_key o)) as [->|]; [|eauto].
    destruct (considered_name _ _ Hc) as [_ Hf]. rewrite E, occ_app, (considered_occ _ _ _ Hc).
    destruct (given_reset m1 (po_key o)) as [G1 G2]. cbv zeta in G1, G2. fold v0 in G1, G2. fold v1 in G1, G2. rewrite G1 in Ha. rewrite G2.
    pose proof (store_options_entry _ _ _ _ _ _ Hne _ _ _ _ Hs) as [([Ho|Ho] & Em & _)|(_ & _ & d' & b & Hd' & Hp & Em & _)]; [|contradiction|].
    + rewrite Ho. cbn [app]. rewrite Em in Ha.
      apply (pt_parsing during ds final utf8 _ _ _ [] (po_value o) (occurrences todo (po_key o)) d (given (sm_find (po_key o) m)));
        [reflexivity|exact Hf|exact Hd|constructor|right; exact Ha|reflexivity].
    + rewrite Hd in Hd'. injection Hd' as <-. rewrite Em in Ha. cbn in Ha.
      eapply pt_parsing with (first := occurrences done (po_key o)); eauto.
Qed.

(** The second loop. *)
Lemma default_begun_mono ds ds' name e : (forall d, In d ds -> In d ds') -> default_begun ds name e -> default_begun ds' name e.
Proof. intros Hi (d & def & H & R). exists d, def. auto. Qed.

Lemma defaults_done prefix ds m req m' req' name :
  store_defaults ds prefix m req = (m', req') -> name <> [] ->
  sm_find name m' = sm_find name m \/ (sm_find name m = None /\ default_begun ds name (sm_find name m')).
Proof.
  intros H Hne. destruct (store_defaults_entry _ _ Hne _ _ _ _ _ H) as [(v & E1 & E2)|(E & D)]; [left; congruence|].
  inversion D as [ds1 d ds2 def Ed Hk Hdef Hf E'|Hf E']; [right|left; congruence].
  split; [exact E|]. exists d, def. split; [rewrite Ed; apply in_or_app; right; now left|]. auto.
Qed.

Lemma mem_false {V} k (m : smap V) : sm_mem k m = false -> sm_find k m = None.
Proof. unfold sm_mem. destruct (sm_find k m); [discriminate|reflexivity]. Qed.

Lemma defaults_entry prefix ds m req m' req' name :
  interrupted_defaults prefix ds m req m' req' -> name <> [] ->
  sm_find name m' = sm_find name m \/ (sm_find name m = None /\ default_begun ds name (sm_find name m')).
Proof.
  intros H Hne.
  assert (S : forall done rest m1 req1, ds = done ++ rest -> store_defaults done prefix m req = (m1, req1) ->
    sm_find name m1 = sm_find name m \/ (sm_find name m = None /\ default_begun ds name (sm_find name m1))).
  { intros done rest m1 req1 -> Hs. destruct (defaults_done _ _ _ _ _ _ _ Hs Hne) as [E|[E D]]; [now left|right].
    split; auto. eapply default_begun_mono; [|exact D]. intros d Hd. apply in_or_app. now left. }
  assert (K : forall done d rest m1 req1 def v, ds = done ++ d :: rest -> store_defaults done prefix m req = (m1, req1) ->
    od_key d [] <> [] -> sm_mem (od_key d []) m1 = false -> vs_default (od_sem d) = Some def ->
    v = vv_empty \/ v = mk_vv def true (Some (od_sem d)) ->
    sm_find name (sm_set (od_key d []) v m1) = sm_find name m
    \/ (sm_find name m = None /\ default_begun ds name (sm_find name (sm_set (od_key d []) v m1)))).
  { intros done d rest m1 req1 def v E Hs Hk Hm Hdef Hv. rewrite sm_find_set.
    destruct (str_eqb_spec name (od_key d [])) as [En|]; [|eauto]. right. apply mem_false in Hm.
    split.
    - destruct (defaults_done _ _ _ _ _ _ _ Hs Hne) as [E'|[E' _]]; [|exact E']. congruence.
    - exists d, def. split; [rewrite E; apply in_or_app; right; now left|]. split; [now apply is_key_od|].
      split; [exact Hdef|]. destruct Hv as [-> | ->]; auto. }
  inversion H as [done rest m1 req1 E Hs|done d rest m1 req1 def E Hs Hk Hm Hdef|done d rest m1 req1 def E Hs Hk Hm Hdef|
                  done d rest m1 req1 m2 req2 E Hs Hk Hr Hm Hd]; subst m'.
  - eauto.
  - eauto 10.
  - eauto 10.
  - subst req'. assert (Hs2 : store_defaults (done ++ [d]) prefix m req = (m2, req2)).
    { rewrite store_defaults_app, Hs. exact Hd. }
    apply (S (done ++ [d]) rest m2 req2); [rewrite E, <- app_assoc; reflexivity|exact Hs2].
Qed.

Lemma interrupted_entry during p vm utf8 vm' name :
  interrupted during p vm utf8 vm' -> name <> [] ->
  exists ds, pr_desc p = Some ds
    /\ (partly during ds (vm_final vm) utf8 (occurrences (pr_options p) name) name (entry vm name) (entry vm' name)
        \/ entry vm name = None /\ default_begun ds name (entry vm' name)).
Proof.
  intros H Hne. unfold entry.
  assert (S : forall ds m nf, store_options ds (pr_prefix p) (vm_final vm) utf8 (pr_options p) (vm_map vm) [] = (m, nf, Ok tt) ->
    partly during ds (vm_final vm) utf8 (occurrences (pr_options p) name) name (sm_find name (vm_map vm)) (sm_find name m)).
  { intros ds m nf Hs. eapply options_entry; [|exact Hne]. eapply io_between with (todo := []); [now rewrite app_nil_r|exact Hs]. }
  inversion H as [ds m Hd Ho|ds m nf n Hd Ho|ds m nf m' req' Hd Ho Hi]; subst vm'; cbn [vm_map]; exists ds; (split; [exact Hd|]).
  - left. now apply options_entry with (1 := Ho).
  - left. eauto.
  - destruct (defaults_entry _ _ _ _ _ _ _ Hi Hne) as [E|[E D]].
    + left. rewrite E. eauto.
    + right. split; [|exact D].
      pose proof (store_options_entry _ _ _ _ _ _ Hne _ _ _ _ Ho) as [(_ & Em & _)|(_ & _ & d' & a & _ & _ & Em & _)]; congruence.
Qed.

(** Names become final only with all their values. *)
Lemma firstn_In {A} n (l : list A) x : In x (firstn n l) -> In x l.
Proof. intros H. rewrite <- (firstn_skipn n l). apply in_or_app. now left. Qed.

Lemma interrupted_final during p vm utf8 vm' name :
  interrupted during p vm utf8 vm' -> name <> [] -> In name (vm_final vm') ->
  In name (vm_final vm)
  \/ exists ds d a, pr_desc p = Some ds /\ find ds name false false false = Ok d /\ vs_composing (od_sem d) = false
       /\ occurrences (pr_options p) name <> []
       /\ parsed_all (od_sem d) utf8 (given (entry vm name)) (occurrences (pr_options p) name) a
       /\ entry vm' name = Some (mk_vv a false (Some (od_sem d))).
Proof.
  intros H Hne Hf. unfold entry.
  assert (S : forall ds m nf, pr_desc p = Some ds ->
    store_options ds (pr_prefix p) (vm_final vm) utf8 (pr_options p) (vm_map vm) [] = (m, nf, Ok tt) -> In name nf ->
    exists ds d a, pr_desc p = Some ds /\ find ds name false false false = Ok d /\ vs_composing (od_sem d) = false
       /\ occurrences (pr_options p) name <> []
       /\ parsed_all (od_sem d) utf8 (given (sm_find name (vm_map vm))) (occurrences (pr_options p) name) a
       /\ sm_find name m = Some (mk_vv a false (Some (od_sem d)))).
  { intros ds m nf Hd Hs Hn.
    pose proof (store_options_entry _ _ _ _ _ _ Hne _ _ _ _ Hs) as [(_ & _ & Hi)|(Ho & _ & d & a & Hfd & Hp & Em & Hi)].
    - apply Hi in Hn. contradiction.
    - apply Hi in Hn. destruct Hn as [[]|Hc]. exists ds, d, a. auto 10. }
  inversion H as [ds m Hd Ho|ds m nf n Hd Ho|ds m nf m' req' Hd Ho Hi]; subst vm'; cbn [vm_map vm_final] in *.
  - now left.
  - apply ss_insert_all_In in Hf. destruct Hf as [Hf|Hf]; [right|now left]. apply firstn_In in Hf. eauto.
  - apply ss_insert_all_In in Hf. destruct Hf as [Hf|Hf]; [right|now left].
    destruct (S _ _ _ Hd Ho Hf) as (ds' & d & a & H1 & H2 & H3 & H4 & H5 & H6). exists ds', d, a.
    repeat (split; [assumption|]). destruct (defaults_entry _ _ _ _ _ _ _ Hi Hne) as [E|[E _]]; congruence.
Qed.

Lemma interrupted_kept during p vm utf8 vm' name v :
  interrupted during p vm utf8 vm' -> name <> [] -> In name (vm_final vm) -> entry vm name = Some v ->
  In name (vm_final vm') /\ entry vm' name = Some v.
Proof.
  intros H Hne Hf E. split.
  - inversion H; subst vm'; cbn [vm_final]; auto; apply ss_insert_all_In; now right.
  - destruct (interrupted_entry _ _ _ _ _ _ H Hne) as (ds & _ & [P|[E' _]]); [|congruence].
    inversion P; [congruence|contradiction|contradiction].
Qed.

(** Required names are not forgotten. *)
Lemma interrupted_requires during p vm utf8 vm' name :
  interrupted during p vm utf8 vm' -> sm_mem name (vm_required vm) = true -> sm_mem name (vm_required vm') = true.
Proof.
  assert (L : forall ds prefix m req m' req', store_defaults ds prefix m req = (m', req') -> sm_mem name req = true -> sm_mem name req' = true).
  { intros ds prefix m req m' req' Hs. destruct (defaults_absorb _ _ _ _ _ _ Hs) as [[_ A] _]. unfold sm_mem.
    destruct (sm_find name req) as [s|] eqn:E; [|discriminate]. destruct (A _ _ E) as (s' & -> & _). reflexivity. }
  intros H Hr. inversion H as [ds m Hd Ho|ds m nf n Hd Ho|ds m nf m' req' Hd Ho Hi]; subst vm'; cbn [vm_required]; auto.
  inversion Hi; subst; eauto. apply sm_mem_find. rewrite sm_find_set.
  destruct (str_eqb name (od_key d [])); [eauto|]. apply sm_mem_find. eauto.
Qed.

Lemma store_requires p vm utf8 vm' r name :
  store p vm utf8 = (vm', r) -> sm_mem name (vm_required vm) = true -> sm_mem name (vm_required vm') = true.
Proof.
  intros H Hr. pose proof H as H0. unfold store in H. destruct (pr_desc p) as [ds|]; [|now injection H as <- _].
  destruct (store_options ds (pr_prefix p) (vm_final vm) utf8 (pr_options p) (vm_map vm) []) as [[m nf] []];
    try (now injection H as <- _).
  destruct (store_defaults _ _ _ _) as [m' req]. injection H as _ <-. destruct (store_grows _ _ _ _ H0) as [[_ A] _].
  unfold sm_mem in *. destruct (sm_find name (vm_required vm)) as [s|] eqn:E; [|discriminate].
  destruct (A _ _ E) as (s' & -> & _). reflexivity.
Qed.

Lemma survives_requires during vm h vm' name :
  survives during vm h vm' -> sm_mem name (vm_required vm) = true -> sm_mem name (vm_required vm') = true.
Proof. induction 1; eauto using store_requires, interrupted_requires. Qed.

Lemma required_missing vm name :
  sm_mem name (vm_required vm) = true -> ~ has_value vm name -> exists disp, notify vm = ([], Throw (mk_required_option disp)).
Proof.
  unfold has_value, entry, notify, sm_mem. intros Hr Hv.
  assert (C : exists disp, check_required (vm_required vm) (vm_map vm) = Throw (mk_required_option disp)).
  { induction (vm_required vm) as [|[k disp] req IH]; [discriminate|]. cbn [check_required sm_find] in *.
    destruct (sm_find k (vm_map vm)) as [v|] eqn:E; [|eauto]. destruct (any_empty (vv_value v)) eqn:Ev; [eauto|].
    destruct (str_eqb_spec name k) as [->|]; [|auto]. exfalso. apply Hv. destruct (vv_value v) as [x|] eqn:Ex; [eauto|discriminate]. }
  destruct C as [disp ->]. eauto.
Qed.

Lemma store_demands p vm utf8 vm' ds d name :
  store p vm utf8 = (vm', Ok tt) -> pr_desc p = Some ds -> In d ds -> is_key d [] name -> name <> [] ->
  vs_required (od_sem d) = true -> sm_mem name (vm_required vm') = true.
Proof.
  intros H Hd Hi Hk Hne Hr. destruct (store_grows _ _ _ _ H) as (_ & _ & ds' & Hd' & F). rewrite Hd in Hd'. injection Hd' as <-.
  rewrite Forall_forall in F. specialize (F d Hi). apply is_key_od in Hk. unfold declared_in in F.
  destruct F as [F|[_ [F|(s & F & _)]]]; [congruence|congruence|]. unfold sm_mem. rewrite <- Hk, F. reflexivity.
Qed.

(** A [store] that throws is interrupted. *)
Definition throws_in_parse : in_parse := fun s a toks utf8 b => exists e, vs_parse s a toks utf8 = (b, Throw e).

Lemma store_options_app_ok ds prefix final utf8 os1 : forall os2 m nf m1 nf1,
  store_options ds prefix final utf8 os1 m nf = (m1, nf1, Ok tt) ->
  store_options ds prefix final utf8 (os1 ++ os2) m nf = store_options ds prefix final utf8 os2 m1 nf1.
Proof.
  induction os1 as [|o os1 IH]; intros os2 m nf m1 nf1 H; cbn [store_options app] in *.
  - now injection H as <- <-.
  - destruct (is_empty (po_key o)); [auto|]. destruct (po_unreg o); [auto|]. destruct (ss_mem (po_key o) final); [auto|].
    destruct (find ds (po_key o) false false false); try discriminate.
    destruct (vs_parse _ _ _ _) as [b []]; try discriminate. auto.
Qed.

Lemma options_throw ds prefix final utf8 rest : forall done m m1 nf1 m' nf' e,
  store_options ds prefix final utf8 done m [] = (m1, nf1, Ok tt) ->
  store_options ds prefix final utf8 rest m1 nf1 = (m', nf', Throw e) ->
  interrupted_options throws_in_parse ds prefix final utf8 (done ++ rest) m m'.
Proof.
  induction rest as [|o rest IH]; intros done m m1 nf1 m' nf' e Hd H; [discriminate|].
  assert (K : forall m2 nf2, store_options ds prefix final utf8 [o] m1 nf1 = (m2, nf2, Ok tt) ->
    store_options ds prefix final utf8 rest m2 nf2 = (m', nf', Throw e) ->
    interrupted_options throws_in_parse ds prefix final utf8 (done ++ o :: rest) m m').
  { intros m2 nf2 H1 H2. change (o :: rest) with ([o] ++ rest). rewrite app_assoc. eapply IH; [|exact H2].
    rewrite (store_options_app_ok _ _ _ _ _ _ _ _ _ _ Hd). exact H1. }
  cbn [store_options] in H, K.
  destruct (is_empty (po_key o)) eqn:C1; [eauto|]. destruct (po_unreg o) eqn:C2; [eauto|].
  destruct (ss_mem (po_key o) final) eqn:C3; [eauto|].
  destruct (find ds (po_key o) false false false) as [d|e1|u|] eqn:Ef; try discriminate.
  - destruct (vs_parse _ _ _ _) as [b rb] eqn:Ep. destruct rb as [[]|e1|u|]; try discriminate; [eauto|].
    injection H as <- _ _. eapply io_parse with (done := done) (todo := rest);
      [reflexivity|exact Hd|repeat split; assumption|exact Ef|]. exists e1. exact Ep.
  - injection H as <- _ _. eapply io_between with (done := done); [reflexivity|exact Hd].
Qed.

Lemma throw_interrupted p vm utf8 vm' e :
  store p vm utf8 = (vm', Throw e) -> interrupted throws_in_parse p vm utf8 vm'.
Proof.
  intros H. unfold store in H. destruct (pr_desc p) as [ds|] eqn:Ed; [|discriminate].
  destruct (store_options ds (pr_prefix p) (vm_final vm) utf8 (pr_options p) (vm_map vm) []) as [[m nf] r] eqn:Eo.
  destruct r as [[]|e'|u|]; [destruct (store_defaults _ _ _ _); discriminate| |discriminate|discriminate].
  injection H as <- <-. apply in_options with (ds := ds); [exact Ed|].
  exact (options_throw _ _ _ _ _ [] _ _ _ _ _ _ eq_refl Eo).
Qed.

Lemma done_interrupted during p vm utf8 vm' :
  store p vm utf8 = (vm', Ok tt) -> interrupted during p vm utf8 vm'.
Proof.
  intros H. unfold store in H. destruct (pr_desc p) as [ds|] eqn:Ed; [|discriminate].
  destruct (store_options ds (pr_prefix p) (vm_final vm) utf8 (pr_options p) (vm_map vm) []) as [[m nf] r] eqn:Eo.
  destruct r as [[]|e'|u|]; try discriminate.
  destruct (store_defaults ds (pr_prefix p) m (vm_required vm)) as [m' req] eqn:Es. injection H as <-.
  eapply in_defaults; eauto. eapply id_between with (todo := []); [now rewrite app_nil_r|exact Es].
Qed.

Lemma start_interrupted during p vm utf8 : pr_desc p <> None -> interrupted during p vm utf8 vm.
Proof.
  destruct (pr_desc p) as [ds|] eqn:Ed; [intros _|contradiction]. destruct vm as [m f r].
  eapply in_options; [exact Ed|]. eapply io_between with (done := []); reflexivity.
Qed.

(** Types. *)
Lemma vector_type t t' lc ul tv : library_semantic t (typed lc ul tv) -> tv_type tv = TVec t' -> t = TVec t'.
Proof.
  intros Hl Ht.
  destruct (vs_parse (typed lc ul tv) None [[]] false) as [b r] eqn:E.
  destruct (library_parse _ _ None _ _ _ _ Hl I E) as (Hf & _).
  cbn [typed vs_parse] in E. unfold codecvt_parse, tv_xparse in E. rewrite Ht in E. cbn [validate] in E.
  unfold validate_vec in E. cbn [any_empty any_cast value_ty] in E. rewrite vty_eqb_refl in E.
  destruct (push_tokens _ _ _ _) as [vs r']. injection E as <- <-. exact (eq_sym Hf).
Qed.

Lemma in_library_fits t s a toks utf8 b :
  library_semantic t s -> fits_type t a -> in_library_parse s a toks utf8 b -> fits_type t b /\ (a <> None -> b <> None).
Proof.
  intros Hl Ha H. inversion H as [|b' r Hp|lc ul tv t' xs n b' r Hs Ht Hx Hv]; subst.
  - auto.
  - destruct (library_parse _ _ _ _ _ _ _ Hl Ha Hp) as (H1 & _ & H2 & _). auto.
  - rewrite (vector_type _ _ _ _ _ Hl Ht) in *. split; [exact (proj1 (validate_fits _ _ _ _ _ _ Ha Hv))|].
    exact (validate_keeps _ _ _ _ _ _ Ha Hv).
Qed.

Lemma interrupted_typed ty p vm utf8 vm' :
  (forall ds name d, pr_desc p = Some ds ->
     find ds name false false false = Ok d \/ (In d ds /\ is_key d [] name) -> library_semantic (ty name) (od_sem d)) ->
  typed_map ty (vm_map vm) -> interrupted in_library_parse p vm utf8 vm' -> typed_map ty (vm_map vm').
Proof.
  intros Hc Hm H.
  assert (O : forall ds opts m nf r, pr_desc p = Some ds ->
    store_options ds (pr_prefix p) (vm_final vm) utf8 opts (vm_map vm) [] = (m, nf, r) -> typed_map ty m).
  { intros ds opts m nf r Hd Hs. refine (proj1 (store_options_typed ty _ _ _ _ _ _ _ _ _ _ _ Hm Hs)). eauto. }
  assert (D : forall ds done rest m req m' req', pr_desc p = Some ds -> ds = done ++ rest -> typed_map ty m ->
    store_defaults done (pr_prefix p) m req = (m', req') -> typed_map ty m').
  { intros ds done rest m req m' req' Hd -> Hm' Hs. eapply store_defaults_typed; [|exact Hm'|exact Hs].
    intros name d Hi Hk. apply (Hc _ name d Hd). right. split; [|exact Hk]. apply in_or_app. now left. }
  inversion H as [ds m Hd Ho|ds m nf n Hd Ho|ds m nf m' req' Hd Ho Hi]; subst vm'; cbn [vm_map].
  - inversion Ho as [done todo m1 nf E Hs|done o todo m1 nf d E Hs _ Hf Hv|done o todo m1 nf d a E Hs _ Hf v0 v1 Ha]; subst m.
    + eauto.
    + apply typed_map_set; [eauto|exact I|discriminate].
    + pose proof (O _ _ _ _ _ Hd Hs) as Hm1. assert (Hl : library_semantic (ty (po_key o)) (od_sem d)) by (apply (Hc _ _ _ Hd); auto).
      assert (Hv1 : fits_type (ty (po_key o)) (vv_value v1)
        /\ forall s, vv_sem v1 = Some s -> library_semantic (ty (po_key o)) s /\ vv_value v1 <> None).
      { unfold v1, v0. destruct (sm_find (po_key o) m1) as [v|] eqn:Ev; [|cbn; split; [exact I|discriminate]].
        destruct (vv_defaulted v); [cbn; split; [exact I|discriminate]|]. now apply Hm1. }
      destruct Hv1 as [V1 V2]. destruct (in_library_fits _ _ _ _ _ _ Hl V1 Ha) as [F1 F2].
      apply typed_map_set; [exact Hm1|exact F1|]. cbn. intros s Es. destruct (V2 s Es). auto.
  - eauto.
  - pose proof (O _ _ _ _ _ Hd Ho) as Hm1. pose proof (fun done rest m1 req1 E => D ds done rest m (vm_required vm) m1 req1 Hd E Hm1) as D1.
    inversion Hi as [done rest m1 req1 E Hs|done d rest m1 req1 def E Hs Hk Hn Hdef|done d rest m1 req1 def E Hs Hk Hn Hdef|
                  done d rest m1 req1 m2 req2 E Hs Hk Hr Hn Hd2]; subst m'.
    + eauto.
    + apply typed_map_set; [eauto|exact I|discriminate].
    + subst req1. apply (D1 (done ++ [d]) rest _ (snd (store_defaults [d] (pr_prefix p) m1 req'))); [rewrite E, <- app_assoc; reflexivity|].
      rewrite store_defaults_app, Hs. cbn [store_defaults snd].
      destruct (od_key d []) eqn:Ek; [contradiction|]. cbn [is_empty]. rewrite Hn, Hdef. reflexivity.
    + apply (D1 (done ++ [d]) rest _ req2); [rewrite E, <- app_assoc; reflexivity|]. rewrite store_defaults_app, Hs. exact Hd2.
Qed.

Lemma survives_typed ty vm h vm' :
  survives in_library_parse vm h vm' -> consistent ty h -> typed_map ty (vm_map vm) -> typed_map ty (vm_map vm').
Proof.
  induction 1 as [|vm p u vm1 r h vm2 Hs _ _ IH|vm p u vm1 h vm2 Hs _ IH]; auto; intros Hc Hm; apply IH.
  - intros q v ds name d Hi. apply (Hc q v). now right.
  - eapply store_typed; [|exact Hm|exact Hs]. intros ds name d. apply (Hc p u). now left.
  - intros q v ds name d Hi. apply (Hc q v). now right.
  - eapply interrupted_typed; [|exact Hm|exact Hs]. intros ds name d. apply (Hc p u). now left.
Qed.

Lemma interrupted_sorted during p vm utf8 vm' :
  interrupted during p vm utf8 vm' -> sm_sorted (vm_map vm) -> sm_sorted (vm_map vm').
Proof.
  intros H Hm.
  assert (O : forall ds opts m nf r,
    store_options ds (pr_prefix p) (vm_final vm) utf8 opts (vm_map vm) [] = (m, nf, r) -> sm_sorted m)
    by (intros; eapply store_options_sorted; eauto).
  assert (R : forall (ds : list option_description) prefix m req m' req', store_defaults ds prefix m req = (m', req') ->
    sm_sorted m -> sm_sorted m').
  { induction ds as [|d ds IH]; intros prefix m req m' req' Hs Hms; cbn [store_defaults] in Hs; [now injection Hs as <- _|].
    destruct (is_empty (od_key d [])); [eauto|]. eapply IH; [exact Hs|]. destruct (sm_mem _ _); auto.
    destruct (vs_default _); auto. now apply sm_set_sorted. }
  inversion H as [ds m Hd Ho|ds m nf n Hd Ho|ds m nf m' req' Hd Ho Hi]; subst vm'; cbn [vm_map].
  - inversion Ho; subst; eauto using sm_set_sorted.
  - eauto.
  - pose proof (O _ _ _ _ _ Ho). inversion Hi; subst; eauto using sm_set_sorted.
Qed.

Lemma survives_sorted during vm h vm' : survives during vm h vm' -> sm_sorted (vm_map vm) -> sm_sorted (vm_map vm').
Proof.
  induction 1 as [|vm p u vm1 r h vm2 Hs Hr _ IH|vm p u vm1 h vm2 Hs _ IH]; auto; intros Hm; apply IH.
  - destruct Hr as [->|[e ->]].
    + exact (interrupted_sorted _ _ _ _ _ (done_interrupted during _ _ _ _ Hs) Hm).
    + exact (interrupted_sorted _ _ _ _ _ (throw_interrupted _ _ _ _ _ Hs) Hm).
  - eauto using interrupted_sorted.
Qed.

Lemma survives_notify ty h vm u :
  survives in_library_parse vm_new h vm -> consistent ty h -> snd (notify vm) <> Undef u.
Proof.
  intros H Hc. assert (Hm : typed_map ty (vm_map vm)).
  { eapply survives_typed; eauto. intros name v E. discriminate. }
  pose proof (survives_sorted _ _ _ _ H (proj1 new_sorted)) as Hs.
  unfold notify. destruct (check_required_spec (vm_map vm) (vm_required vm)) as [[-> _]|(r1 & k & disp & r2 & _ & -> & _)];
    [|discriminate].
  destruct (run_notify (vm_map vm)) as [ev r] eqn:Er. cbn [snd]. intros ->.
  apply run_notify_spec in Er. destruct Er as [[Er _]|(m1 & k & v & m2 & s & evs & last & Em & _ & Ev & En & _)]; [discriminate|].
  assert (Hk : sm_find k (vm_map vm) = Some v).
  { apply sm_find_In_pair; auto. rewrite Em. apply in_or_app. right. now left. }
  destruct (Hm k v Hk) as [Hf Hl]. destruct (Hl s Ev) as [Hl1 Hn]. destruct (vv_value v) as [x|] eqn:Ex; [|contradiction].
  apply (library_notify _ _ x u Hl1 Hf). now rewrite En.
Qed.

Lemma survives_store ty h p utf8 vm vm' u :
  survives in_library_parse vm_new h vm -> consistent ty (h ++ [(p, utf8)]) -> store p vm utf8 = (vm', Undef u) ->
  pr_desc p = None \/ u = UB_ctype.
Proof.
  intros H Hc Hs.
  assert (Hm : typed_map ty (vm_map vm)).
  { eapply survives_typed; [exact H| |intros name v E; discriminate].
    intros q v ds name d Hi. apply (Hc q v). apply in_or_app. now left. }
  eapply store_typed; [|exact Hm|exact Hs|reflexivity]. intros ds name d.
  apply (Hc p utf8). apply in_or_app. right. now left.
Qed.
