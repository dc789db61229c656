(** Facts about [store] and [notify]. *)

From Coq Require Import List Ascii String NArith ZArith Bool Arith Lia Sorting.Sorted.
From Verif Require Import Base Errors Spec BaseFacts Values OptDesc SpecLookup LookupFacts Cmdline Parsers
  VarMap SpecStore.
Import ListNotations.

Lemma occurrences_cons o os name :
  occurrences (o :: os) name
  = if str_eqb (po_key o) name && negb (po_unreg o) then po_value o :: occurrences os name
    else occurrences os name.
Proof. unfold occurrences. simpl. now destruct (str_eqb (po_key o) name && negb (po_unreg o)). Qed.

(** ** One source: the options *)

Section StoreOptions.
Variables (ds : list option_description) (prefix : Z) (final : sset) (utf8 : bool).

(** What happens to [name]. *)
Definition entry_step (name : str) (occs : list (list str)) (m : smap variable_value) (nf : sset)
    (m' : smap variable_value) (nf' : sset) : Prop :=
  (occs = [] \/ In name final) /\ sm_find name m' = sm_find name m /\ (In name nf' <-> In name nf)
  \/ occs <> [] /\ ~ In name final
     /\ exists d a, find ds name false false false = Ok d
          /\ parsed_all (od_sem d) utf8 (given (sm_find name m)) occs a
          /\ sm_find name m' = Some (mk_vv a false (Some (od_sem d)))
          /\ (In name nf' <-> In name nf \/ vs_composing (od_sem d) = false).

Lemma given_reset m name :
  let v0 := match sm_find name m with Some v => v | None => vv_empty end in
  let v1 := if vv_defaulted v0 then vv_empty else v0 in
  vv_value v1 = given (sm_find name m) /\ vv_defaulted v1 = false.
Proof.
  cbv zeta. unfold given. destruct (sm_find name m) as [v|]; [|split; reflexivity].
  destruct (vv_defaulted v) eqn:E; split; auto.
Qed.

Lemma store_options_entry name opts : name <> [] -> forall m nf m' nf',
  store_options ds prefix final utf8 opts m nf = (m', nf', Ok tt) ->
  entry_step name (occurrences opts name) m nf m' nf'.
Proof.
  intros Hne. induction opts as [|o opts IH]; intros m nf m' nf' H.
  - cbn in H. injection H as <- <-. left. repeat split; auto.
  - cbn [store_options] in H. rewrite occurrences_cons.
    destruct (is_empty (po_key o)) eqn:Ee.
    { apply is_empty_true in Ee. rewrite Ee. destruct (str_eqb_spec [] name); [congruence|]. cbn [andb]. now apply IH. }
    destruct (po_unreg o) eqn:Eu.
    { rewrite andb_false_r. now apply IH. }
    rewrite andb_true_r.
    destruct (ss_mem (po_key o) final) eqn:Ef.
    { apply ss_mem_In in Ef. apply IH in H. destruct (str_eqb_spec (po_key o) name) as [E|]; auto.
      left. destruct H as [(_ & H)|(_ & Hn & _)]; [|congruence]. split; [right; congruence|auto]. }
    assert (Hnf : ~ In (po_key o) final) by (rewrite <- ss_mem_In; congruence).
    destruct (find ds (po_key o) false false false) as [d|e|u|] eqn:Ed; try discriminate.
    destruct (given_reset m (po_key o)) as [G1 G2]. cbv zeta in G1, G2. rewrite G1, G2 in H.
    destruct (vs_parse (od_sem d) (given (sm_find (po_key o) m)) (po_value o) utf8) as [a r] eqn:Ep.
    destruct r as [[]|e|u|]; try discriminate. apply IH in H.
    destruct (str_eqb_spec (po_key o) name) as [E|Hd].
    + subst name. unfold entry_step in H. rewrite sm_find_set_same in H. right. split; [discriminate|]. split; [auto|].
      destruct H as [([Ho|Ho] & Hm & Hf)|(_ & _ & d' & a' & Hfd & Hp & Hm & Hf)]; [|contradiction|].
      * exists d, a. rewrite Ho. repeat split; auto.
        -- econstructor; [exact Ep|constructor].
        -- destruct (vs_composing (od_sem d)); rewrite ?ss_insert_In in Hf; tauto.
        -- destruct (vs_composing (od_sem d)); rewrite ?ss_insert_In in Hf; intuition discriminate.
      * rewrite Ed in Hfd. injection Hfd as <-. exists d, a'. repeat split; auto.
        -- econstructor; [exact Ep|exact Hp].
        -- destruct (vs_composing (od_sem d)); rewrite ?ss_insert_In in Hf; tauto.
        -- destruct (vs_composing (od_sem d)); rewrite ?ss_insert_In in Hf; intuition discriminate.
    + unfold entry_step in H. rewrite sm_find_set_other in H by congruence.
      assert (Hi : In name (if vs_composing (od_sem d) then nf else ss_insert (po_key o) nf) <-> In name nf).
      { destruct (vs_composing (od_sem d)); [tauto|]. rewrite ss_insert_In. intuition congruence. }
      setoid_rewrite Hi in H. exact H.
Qed.

Lemma store_options_sorted opts : forall m nf m' nf' r,
  store_options ds prefix final utf8 opts m nf = (m', nf', r) -> sm_sorted m -> sm_sorted m'.
Proof.
  induction opts as [|o opts IH]; intros m nf m' nf' r H Hs; cbn [store_options] in H.
  - injection H as <- _ _. auto.
  - destruct (is_empty (po_key o)); eauto. destruct (po_unreg o); eauto.
    destruct (ss_mem (po_key o) final); eauto.
    destruct (find ds (po_key o) false false false) as [d|e|u|]; try (injection H as <- _ _; auto).
    match type of H with (let (_, _) := ?p in _) = _ => destruct p as [a [[]|e|u|]] end.
    + eapply IH; [exact H|]. now apply sm_set_sorted.
    + injection H as <- _ _. now apply sm_set_sorted.
    + injection H as <- _ _. auto.
    + injection H as <- _ _. auto.
Qed.

End StoreOptions.

(** ** One source: defaults and required options *)

Lemma is_key_od d name : is_key d [] name <-> od_key d [] = name.
Proof.
  split; [intros H; symmetry; now apply is_key_unique|]. intros <-. unfold is_key, od_key.
  destruct (od_longs d) as [|f r]; [auto|]. destruct (find_char c_star f) as [n|] eqn:E.
  - right. left. exists f, r. repeat split; auto. apply find_char_Some in E.
    destruct E as (a & b & -> & _). apply in_or_app. right. now left.
  - left. apply find_char_None in E. exists f, r. auto.
Qed.

Lemma store_defaults_entry prefix name : name <> [] -> forall ds m req m' req',
  store_defaults ds prefix m req = (m', req') ->
  (exists v, sm_find name m = Some v /\ sm_find name m' = Some v)
  \/ (sm_find name m = None /\ default_entry ds name (sm_find name m')).
Proof.
  intros Hne. induction ds as [|d ds IH]; intros m req m' req' H; cbn [store_defaults] in H.
  - injection H as <- _. destruct (sm_find name m); [left; eauto|right]. split; auto. apply de_none. constructor.
  - assert (Hskip : ~ is_key d [] name \/ vs_default (od_sem d) = None -> forall e,
      default_entry ds name e -> default_entry (d :: ds) name e).
    { intros Hd e He. destruct He as [ds1 d' ds2 def E Hk Hdef Hf|Hf].
      - apply de_some with (ds1 := d :: ds1) (ds2 := ds2); auto; [now rewrite E|].
        constructor; auto. intros Hk'. destruct Hd; [contradiction|auto].
      - apply de_none. constructor; auto. intros Hk'. destruct Hd; [contradiction|auto]. }
    rewrite is_key_od in Hskip.
    destruct (is_empty (od_key d [])) eqn:Ee.
    { apply is_empty_true in Ee. destruct (IH _ _ _ _ H) as [|[H1 H2]]; auto. right. split; auto.
      apply Hskip; auto. left. congruence. }
    destruct (sm_mem (od_key d []) m) eqn:Em.
    { destruct (IH _ _ _ _ H) as [|[H1 H2]]; auto. right. split; auto. apply Hskip; auto. left. intros E.
      apply sm_mem_find in Em. destruct Em as [v Ev]. congruence. }
    destruct (vs_default (od_sem d)) as [def|] eqn:Ed.
    + destruct (str_eqb_spec (od_key d []) name) as [E|Hd].
      * right. rewrite E in *.
        assert (Hn : sm_find name m = None) by (unfold sm_mem in Em; destruct (sm_find name m); congruence).
        split; auto. destruct (IH _ _ _ _ H) as [(v & H1 & H2)|[H1 _]]; rewrite sm_find_set_same in H1; [|discriminate].
        injection H1 as <-. rewrite H2. apply de_some with (ds1 := []) (ds2 := ds); auto. now apply is_key_od.
      * destruct (IH _ _ _ _ H) as [(v & H1 & H2)|[H1 H2]]; rewrite sm_find_set_other in H1 by congruence; [left; eauto|].
        right. split; auto.
    + destruct (IH _ _ _ _ H) as [|[H1 H2]]; auto.
Qed.

Lemma store_defaults_sorted prefix ds : forall m req m' req',
  store_defaults ds prefix m req = (m', req') -> sm_sorted m -> sm_sorted req -> sm_sorted m' /\ sm_sorted req'.
Proof.
  induction ds as [|d ds IH]; intros m req m' req' H Hm Hr; cbn [store_defaults] in H.
  - now injection H as <- <-.
  - destruct (is_empty (od_key d [])); [eauto|]. eapply IH; [exact H| |].
    + destruct (sm_mem (od_key d []) m); auto. destruct (vs_default (od_sem d)); auto. now apply sm_set_sorted.
    + destruct (vs_required (od_sem d)); auto. now apply sm_set_sorted.
Qed.

(** ** One source *)

Lemma store_entry p vm utf8 vm' name :
  store p vm utf8 = (vm', Ok tt) -> name <> [] ->
  exists ds, pr_desc p = Some ds
  /\ ((occurrences (pr_options p) name = [] \/ In name (vm_final vm))
      /\ (In name (vm_final vm') <-> In name (vm_final vm))
      /\ ((exists v, entry vm name = Some v /\ entry vm' name = Some v)
          \/ (entry vm name = None /\ default_entry ds name (entry vm' name)))
      \/ occurrences (pr_options p) name <> [] /\ ~ In name (vm_final vm)
         /\ exists d a, find ds name false false false = Ok d
              /\ parsed_all (od_sem d) utf8 (given (entry vm name)) (occurrences (pr_options p) name) a
              /\ entry vm' name = Some (mk_vv a false (Some (od_sem d)))
              /\ (In name (vm_final vm') <-> vs_composing (od_sem d) = false)).
Proof.
  intros H Hne. unfold store in H. destruct (pr_desc p) as [ds|]; [|discriminate].
  exists ds. split; [reflexivity|]. unfold entry.
  destruct (store_options ds (pr_prefix p) (vm_final vm) utf8 (pr_options p) (vm_map vm) []) as [[m nf] r] eqn:Eo.
  destruct r as [[]|e|u|]; try discriminate.
  destruct (store_defaults ds (pr_prefix p) m (vm_required vm)) as [m' req] eqn:Edf.
  injection H as <-. cbn [vm_map vm_final].
  pose proof (store_options_entry _ _ _ _ name _ Hne _ _ _ _ Eo) as H1.
  pose proof (store_defaults_entry _ name Hne _ _ _ _ _ Edf) as H2.
  rewrite ss_insert_all_In.
  destruct H1 as [(Ho & Hm & Hf)|(Ho & Hnf & d & a & Hd & Hp & Hm & Hf)].
  - left. split; [auto|]. split; [rewrite Hf; simpl; tauto|]. rewrite <- Hm. exact H2.
  - right. split; [auto|]. split; [auto|]. exists d, a. split; [auto|]. split; [auto|]. split.
    + destruct H2 as [(v & H2 & ->)|[H2 _]]; congruence.
    + rewrite ss_insert_all_In, Hf. simpl. tauto.
Qed.

Lemma store_sorted p vm utf8 vm' r :
  store p vm utf8 = (vm', r) -> sm_sorted (vm_map vm) -> sm_sorted (vm_required vm) ->
  sm_sorted (vm_map vm') /\ sm_sorted (vm_required vm').
Proof.
  intros H Hm Hr. unfold store in H. destruct (pr_desc p) as [ds|]; [|now injection H as <- _].
  destruct (store_options ds (pr_prefix p) (vm_final vm) utf8 (pr_options p) (vm_map vm) []) as [[m nf] r0] eqn:Eo.
  pose proof (store_options_sorted _ _ _ _ _ _ _ _ _ _ Eo Hm) as Hs.
  destruct r0 as [[]|e|u|]; try (injection H as <- _; now split).
  destruct (store_defaults ds (pr_prefix p) m (vm_required vm)) as [m' req] eqn:Edf.
  injection H as <- _. cbn [vm_map vm_required]. eapply store_defaults_sorted; eauto.
Qed.

(** ** Histories *)

Lemma stores_app vm h1 h2 vm2 :
  stores vm (h1 ++ h2) vm2 <-> exists vm1, stores vm h1 vm1 /\ stores vm1 h2 vm2.
Proof.
  split.
  - revert vm. induction h1 as [|[p u] h1 IH]; intros vm H.
    + exists vm. split; [constructor|auto].
    + inversion H as [|? ? ? vm1 ? ? Hs Hr]; subst. destruct (IH vm1 Hr) as (vm' & H1 & H2).
      exists vm'. split; auto. econstructor; eauto.
  - intros (vm1 & H1 & H2). induction H1; auto. cbn [app]. econstructor; eauto.
Qed.

Lemma stores_sorted vm h vm' :
  stores vm h vm' -> sm_sorted (vm_map vm) -> sm_sorted (vm_required vm) ->
  sm_sorted (vm_map vm') /\ sm_sorted (vm_required vm').
Proof.
  induction 1 as [|vm p u vm1 h vm2 Hs _ IH]; auto. intros Hm Hr.
  destruct (store_sorted _ _ _ _ _ Hs Hm Hr). auto.
Qed.

Lemma new_sorted : sm_sorted (vm_map vm_new) /\ sm_sorted (vm_required vm_new).
Proof. split; constructor. Qed.

(** Final values stay. *)
Lemma stores_final vm h vm' name v :
  stores vm h vm' -> name <> [] -> In name (vm_final vm) -> entry vm name = Some v ->
  entry vm' name = Some v /\ In name (vm_final vm').
Proof.
  intros H Hne. induction H as [|vm p u vm1 h vm2 Hs _ IH]; auto. intros Hf He.
  destruct (store_entry _ _ _ _ name Hs Hne) as (ds & _ & [(_ & Hfi & Hv)|(_ & Hn & _)]); [|contradiction].
  apply IH; [now apply Hfi|]. destruct Hv as [(v' & H1 & H2)|[H1 _]]; congruence.
Qed.

(** Unmentioned options hold their default. *)
Lemma default_app ds1 ds2 name e :
  default_entry (ds1 ++ ds2) name e <->
  (exists v, e = Some v /\ default_entry ds1 name e)
  \/ (default_entry ds1 name None /\ default_entry ds2 name e).
Proof.
  split.
  - intros H. destruct H as [l1 d l2 def E Hk Hd Hf|Hf].
    + destruct (app_eq_app _ _ _ _ E) as [l [[E1 E2]|[E1 E2]]].
      * destruct l as [|d' l].
        -- cbn in E2. right. subst ds2. rewrite app_nil_r in E1. subst ds1. split; [now apply de_none|].
           apply de_some with (ds1 := []) (ds2 := l2); auto.
        -- injection E2 as <- ->. left. eexists. split; [reflexivity|].
           apply de_some with (ds1 := l1) (ds2 := l); auto.
      * subst l1. apply Forall_app in Hf. destruct Hf as [Hf1 Hf2]. right. split; [now apply de_none|].
        apply de_some with (ds1 := l) (ds2 := l2); auto.
    + apply Forall_app in Hf. destruct Hf. right. split; now apply de_none.
  - intros [(v & -> & H)|[H1 H2]].
    + inversion H as [l1 d l2 def E Hk Hd Hf|]; subst. apply de_some with (ds1 := l1) (ds2 := l2 ++ ds2); auto.
      rewrite <- app_assoc. reflexivity.
    + inversion H1 as [|Hf1]; subst. destruct H2 as [l1 d l2 def E Hk Hd Hf|Hf].
      * apply de_some with (ds1 := ds1 ++ l1) (ds2 := l2); auto; [now rewrite E, <- app_assoc|]. now apply Forall_app.
      * apply de_none. now apply Forall_app.
Qed.

Lemma default_defaulted ds name e v : default_entry ds name e -> e = Some v -> vv_defaulted v = true.
Proof. intros [] E; [now injection E as <-|discriminate]. Qed.

Lemma stores_unmentioned vm h vm' name :
  stores vm h vm' -> name <> [] -> never_mentioned h name ->
  (In name (vm_final vm') <-> In name (vm_final vm))
  /\ ((exists v, entry vm name = Some v /\ entry vm' name = Some v)
      \/ (entry vm name = None /\ default_entry (described h) name (entry vm' name))).
Proof.
  intros H Hne. induction H as [|vm p u vm1 h vm2 Hs _ IH]; intros Hm.
  - split; [tauto|]. destruct (entry vm name) eqn:E; [left; eauto|right; split; auto]. apply de_none. constructor.
  - inversion Hm as [|? ? Hm1 Hm2]; subst. specialize (IH Hm2).
    destruct (store_entry _ _ _ _ name Hs Hne) as (ds & Eds & [(_ & Hfi & Hv)|(Ho & _)]).
    2:{ contradiction Hm1. }
    destruct IH as [Hf IH]. split; [tauto|].
    unfold described in *. cbn [map List.concat fst]. rewrite Eds.
    destruct Hv as [(v & H1 & H2)|[H1 H2]].
    + left. exists v. split; auto. destruct IH as [(v' & I1 & I2)|[I1 _]]; congruence.
    + right. split; auto. apply default_app. destruct IH as [(v' & I1 & I2)|[I1 I2]].
      * left. exists v'. split; auto. rewrite I2, <- I1. auto.
      * right. rewrite I1 in H2. auto.
Qed.

Lemma occurrences_dec p name : mentions p name \/ ~ mentions p name.
Proof. unfold mentions. destruct (occurrences (pr_options p) name); [right; auto|left; discriminate]. Qed.

(** Non-composing options: the first source that mentions them wins. *)
Lemma first_wins_lemma before p utf8 after vm name d :
  stores vm_new (before ++ (p, utf8) :: after) vm -> name <> [] ->
  never_mentioned before name -> mentions p name -> resolves p name d -> vs_composing (od_sem d) = false ->
  exists a, parsed_all (od_sem d) utf8 None (occurrences (pr_options p) name) a
    /\ entry vm name = Some (mk_vv a false (Some (od_sem d))).
Proof.
  intros H Hne Hb Hm (ds & Eds & Hd) Hc. apply stores_app in H. destruct H as (vm1 & H1 & H2).
  inversion H2 as [|? ? ? vm2 ? ? Hs Hr]; subst.
  destruct (stores_unmentioned _ _ _ name H1 Hne Hb) as [Hf Hv].
  assert (Hg : given (entry vm1 name) = None).
  { destruct Hv as [(v & E & _)|[_ Hv]]; [discriminate|]. destruct (entry vm1 name) as [v|] eqn:E; auto.
    unfold given. now rewrite (default_defaulted _ _ _ v Hv eq_refl). }
  destruct (store_entry _ _ _ _ name Hs Hne) as (ds' & Eds' & [([Ho|Ho] & _)|(_ & _ & d' & a & Hd' & Hp & He & Hf')]).
  - contradiction Hm.
  - apply Hf in Ho. contradiction.
  - rewrite Eds in Eds'. injection Eds' as <-. rewrite Hd in Hd'. injection Hd' as <-.
    exists a. rewrite Hg in Hp. split; auto.
    apply (stores_final vm2 after vm name); auto. now apply Hf'.
Qed.

(** Composing options: all sources count. *)
Lemma accumulates vm h vm' name :
  stores vm h vm' -> name <> [] -> ~ In name (vm_final vm) ->
  (forall p u d, In (p, u) h -> mentions p name -> resolves p name d -> vs_composing (od_sem d) = true) ->
  accumulated name (given (entry vm name)) h (given (entry vm' name)) /\ ~ In name (vm_final vm').
Proof.
  intros H Hne. induction H as [|vm p u vm1 h vm2 Hs _ IH]; intros Hf Hc; [split; [constructor|auto]|].
  destruct (store_entry _ _ _ _ name Hs Hne) as (ds & Eds & [([Ho|Ho] & Hfi & Hv)|(Ho & _ & d & a & Hd & Hp & He & Hf')]);
    [|contradiction|].
  - destruct IH as [IH IHf]; [tauto| |].
    { intros q v d Hi. apply (Hc q v d). now right. }
    split; auto. apply ac_skip; [intros Hm; now contradiction Hm|].
    assert (E : given (entry vm1 name) = given (entry vm name)).
    { destruct Hv as [(v & -> & ->)|[-> Hv]]; auto. destruct (entry vm1 name) as [v|] eqn:E; auto.
      unfold given. now rewrite (default_defaulted _ _ _ v Hv eq_refl). }
    now rewrite <- E.
  - assert (Hcd : vs_composing (od_sem d) = true).
    { apply (Hc p u d); [now left|auto|]. exists ds. auto. }
    destruct IH as [IH IHf].
    { intros Hi. apply Hf' in Hi. congruence. }
    { intros q v d' Hi. apply (Hc q v d'). now right. }
    split; auto. eapply ac_cons; [exists ds; eauto|exact Hp|].
    rewrite He in IH. exact IH.
Qed.

Lemma mentioned_given vm h vm' name :
  stores vm h vm' -> name <> [] ->
  (exists v, entry vm name = Some v /\ vv_defaulted v = false)
  \/ ~ In name (vm_final vm) /\ ~ never_mentioned h name ->
  exists v, entry vm' name = Some v /\ vv_defaulted v = false.
Proof.
  intros H Hne. induction H as [|vm p u vm1 h vm2 Hs _ IH]; intros [Hv|[Hf Hm]]; auto.
  - contradiction Hm. constructor.
  - destruct Hv as (v & Ev & Hd). apply IH. left.
    destruct (store_entry _ _ _ _ name Hs Hne) as (ds & Eds & [(_ & _ & [(v' & H1 & H2)|[H1 _]])|(_ & _ & d & a & _ & _ & He & _)]).
    + exists v'. split; congruence.
    + congruence.
    + eexists. split; [exact He|reflexivity].
  - apply IH.
    destruct (store_entry _ _ _ _ name Hs Hne) as (ds & Eds & [([Ho|Ho] & Hfi & _)|(_ & _ & d & a & _ & _ & He & _)]);
      [|contradiction|].
    + right. split; [tauto|]. intros Hn. apply Hm. constructor; auto.
    + left. eexists. split; [exact He|reflexivity].
Qed.

Lemma never_dec h name : never_mentioned h name \/ ~ never_mentioned h name.
Proof.
  induction h as [|[p u] h IH]; [left; constructor|]. destruct (occurrences_dec p name) as [H|H].
  - right. intros Hn. inversion Hn. contradiction.
  - destruct IH as [IH|IH]; [left; now constructor|right]. intros Hn. inversion Hn. contradiction.
Qed.

Lemma calls_sorted vm h vm' :
  calls vm h vm' -> sm_sorted (vm_map vm) -> sm_sorted (vm_required vm) ->
  sm_sorted (vm_map vm') /\ sm_sorted (vm_required vm').
Proof.
  induction 1 as [|vm p u vm1 r h vm2 Hs _ _ IH]; auto. intros Hm Hr.
  destruct (store_sorted _ _ _ _ _ Hs Hm Hr). auto.
Qed.

Lemma stores_calls vm h vm' : stores vm h vm' -> calls vm h vm'.
Proof. induction 1; econstructor; eauto. Qed.

(** ** What does not matter *)

Lemma store_options_filter ds prefix final utf8 opts : forall m nf,
  store_options ds prefix final utf8 (filter (fun o => negb (is_empty (po_key o)) && negb (po_unreg o)) opts) m nf
  = store_options ds prefix final utf8 opts m nf.
Proof.
  induction opts as [|o opts IH]; intros m nf; [reflexivity|]. cbn [filter store_options].
  destruct (is_empty (po_key o)) eqn:E1; cbn [negb andb]; [apply IH|].
  destruct (po_unreg o) eqn:E2; cbn [negb]; [apply IH|].
  cbn [store_options]. rewrite E1, E2. destruct (ss_mem (po_key o) final); [apply IH|].
  destruct (find ds (po_key o) false false false); auto.
  match goal with |- context [vs_parse ?s ?x ?y ?z] => destruct (vs_parse s x y z) as [? [[]|?|?|]] end; auto.
Qed.

Lemma store_options_frame ds prefix final utf8 name opts : name <> [] -> occurrences opts name = [] ->
  forall m nf m' nf' r,
  store_options ds prefix final utf8 opts m nf = (m', nf', r) -> sm_find name m' = sm_find name m.
Proof.
  intros Hne. induction opts as [|o opts IH]; intros Ho m nf m' nf' r H.
  - now injection H as <- _ _.
  - rewrite occurrences_cons in Ho. cbn [store_options] in H.
    destruct (is_empty (po_key o)) eqn:E1.
    { apply IH in H; auto. destruct (_ && _); [discriminate|auto]. }
    destruct (po_unreg o) eqn:E2.
    { apply IH in H; auto. rewrite andb_false_r in Ho. auto. }
    rewrite andb_true_r in Ho. destruct (str_eqb_spec (po_key o) name) as [|Hd]; [discriminate|].
    destruct (ss_mem (po_key o) final); [eapply IH; eauto|].
    destruct (find ds (po_key o) false false false) as [d|e|u|]; try (now injection H as <- _ _).
    match type of H with (let (_, _) := ?p in _) = _ => destruct p as [a [[]|e|u|]] end.
    + apply IH in H; auto. rewrite H. apply sm_find_set_other. congruence.
    + injection H as <- _ _. apply sm_find_set_other. congruence.
    + now injection H as <- _ _.
    + now injection H as <- _ _.
Qed.

Lemma store_frame p vm utf8 vm' r name :
  store p vm utf8 = (vm', r) -> name <> [] -> ~ mentions p name ->
  (forall ds d, pr_desc p = Some ds -> In d ds -> ~ is_key d [] name) \/ entry vm name <> None ->
  entry vm' name = entry vm name.
Proof.
  intros H Hne Hm Hd. unfold store in H. unfold entry in *.
  destruct (pr_desc p) as [ds|] eqn:Eds; [|now injection H as <- _].
  destruct (store_options ds (pr_prefix p) (vm_final vm) utf8 (pr_options p) (vm_map vm) []) as [[m nf] r0] eqn:Eo.
  assert (Ho : occurrences (pr_options p) name = []).
  { unfold mentions in Hm. destruct (occurrences (pr_options p) name); auto. contradiction Hm. discriminate. }
  pose proof (store_options_frame _ _ _ _ name _ Hne Ho _ _ _ _ _ Eo) as Hs.
  destruct r0 as [[]|e|u|]; try (injection H as <- _; exact Hs).
  destruct (store_defaults ds (pr_prefix p) m (vm_required vm)) as [m' req] eqn:Edf.
  injection H as <- _. cbn [vm_map].
  destruct (store_defaults_entry _ name Hne _ _ _ _ _ Edf) as [(v & H1 & H2)|[H1 H2]]; [congruence|].
  destruct Hd as [Hd|Hd]; [|congruence].
  assert (E : sm_find name m' = None).
  { inversion H2 as [ds1 d ds2 def E Hk _ _|]; auto. exfalso. apply (Hd ds d); auto.
    rewrite E. apply in_or_app. right. now left. }
  congruence.
Qed.

(** ** Failures *)

Lemma store_options_throws ds prefix final utf8 opts : forall m nf m' nf' e,
  store_options ds prefix final utf8 opts m nf = (m', nf', Throw e) ->
  exists os1 o os2 m1 nf1 e0, opts = os1 ++ o :: os2
    /\ store_options ds prefix final utf8 os1 m nf = (m1, nf1, Ok tt)
    /\ po_key o <> [] /\ po_unreg o = false /\ ~ In (po_key o) final
    /\ e = add_context (po_key o) (hd [] (po_orig o)) prefix e0
    /\ (find ds (po_key o) false false false = Throw e0 /\ m' = m1
        \/ exists d a, find ds (po_key o) false false false = Ok d
           /\ vs_parse (od_sem d) (given (sm_find (po_key o) m1)) (po_value o) utf8 = (a, Throw e0)
           /\ forall name, sm_find name m' = if str_eqb name (po_key o)
                then Some (mk_vv a false (match sm_find name m1 with
                                          | Some v => if vv_defaulted v then None else vv_sem v
                                          | None => None end))
                else sm_find name m1).
Proof.
  induction opts as [|o opts IH]; intros m nf m' nf' e H; cbn [store_options] in H; [discriminate|].
  assert (Hskip : forall m0 nf0, (forall os, store_options ds prefix final utf8 (o :: os) m nf
      = store_options ds prefix final utf8 os m0 nf0) ->
      store_options ds prefix final utf8 opts m0 nf0 = (m', nf', Throw e) ->
      exists os1 o0 os2 m1 nf1 e0, o :: opts = os1 ++ o0 :: os2
      /\ store_options ds prefix final utf8 os1 m nf = (m1, nf1, Ok tt)
      /\ po_key o0 <> [] /\ po_unreg o0 = false /\ ~ In (po_key o0) final
      /\ e = add_context (po_key o0) (hd [] (po_orig o0)) prefix e0
      /\ (find ds (po_key o0) false false false = Throw e0 /\ m' = m1
        \/ exists d a, find ds (po_key o0) false false false = Ok d
           /\ vs_parse (od_sem d) (given (sm_find (po_key o0) m1)) (po_value o0) utf8 = (a, Throw e0)
           /\ forall name, sm_find name m' = if str_eqb name (po_key o0)
                then Some (mk_vv a false (match sm_find name m1 with
                                          | Some v => if vv_defaulted v then None else vv_sem v
                                          | None => None end))
                else sm_find name m1)).
  { intros m0 nf0 Hs H0. destruct (IH _ _ _ _ _ H0) as (os1 & o1 & os2 & m1 & nf1 & e0 & -> & H1 & H2).
    exists (o :: os1), o1, os2, m1, nf1, e0. split; [reflexivity|]. rewrite Hs. auto. }
  destruct (is_empty (po_key o)) eqn:E1.
  { apply (Hskip m nf); auto. intros os. cbn [store_options]. now rewrite E1. }
  destruct (po_unreg o) eqn:E2.
  { apply (Hskip m nf); auto. intros os. cbn [store_options]. now rewrite E1, E2. }
  destruct (ss_mem (po_key o) final) eqn:Ef.
  { apply (Hskip m nf); auto. intros os. cbn [store_options]. now rewrite E1, E2, Ef. }
  assert (Hk : po_key o <> []) by (intros E; rewrite E in E1; discriminate).
  assert (Hnf : ~ In (po_key o) final) by (rewrite <- ss_mem_In; congruence).
  destruct (find ds (po_key o) false false false) as [d|e0|u|] eqn:Ed; try discriminate.
  - destruct (given_reset m (po_key o)) as [G1 G2]. cbv zeta in G1, G2.
    destruct (vs_parse (od_sem d) _ (po_value o) utf8) as [a r] eqn:Ep in H.
    rewrite G1 in Ep.
    destruct r as [[]|e0|u|]; try discriminate.
    + eapply Hskip; [|exact H]. intros os. cbn [store_options]. rewrite E1, E2, Ef, Ed, G1, Ep. reflexivity.
    + injection H as <- <- <-. exists [], o, opts, m, nf, e0. split; [reflexivity|]. split; [reflexivity|].
      split; [auto|]. split; [auto|]. split; [auto|]. split; [destruct (po_orig o); reflexivity|].
      right. exists d, a. split; [auto|]. split; [auto|]. intros name. rewrite sm_find_set.
      destruct (str_eqb_spec name (po_key o)) as [->|]; [|auto]. rewrite G2.
      destruct (sm_find (po_key o) m) as [v|]; auto. now destruct (vv_defaulted v).
  - injection H as <- <- <-. exists [], o, opts, m, nf, e0. split; [reflexivity|]. split; [reflexivity|].
    split; [auto|]. split; [auto|]. split; [auto|]. split; [destruct (po_orig o); reflexivity|]. auto.
Qed.

(** ** Required options *)

Definition req_of (name : str) (zds : list (Z * option_description)) (old : option str) : option str :=
  fold_left (fun o zd =>
    if str_eqb (od_key (snd zd) []) name && vs_required (od_sem (snd zd)) then
      let s := match o with Some s => s | None => [] end in
      Some (if (List.length s <? List.length (display zd))%nat then display zd else s)
    else o) zds old.

Lemma store_defaults_req prefix name : name <> [] -> forall ds m req m' req',
  store_defaults ds prefix m req = (m', req') ->
  sm_find name req' = req_of name (map (pair prefix) ds) (sm_find name req).
Proof.
  intros Hne. induction ds as [|d ds IH]; intros m req m' req' H; cbn [store_defaults] in H.
  - now injection H as _ <-.
  - cbn [map]. unfold req_of. cbn [fold_left snd fst].
    fold (req_of name (map (pair prefix) ds)).
    destruct (is_empty (od_key d [])) eqn:Ee.
    { apply is_empty_true in Ee. rewrite Ee. destruct (str_eqb_spec [] name); [congruence|]. cbn [andb].
      eapply IH; eauto. }
    apply IH in H. rewrite H. unfold req_of. f_equal.
    destruct (vs_required (od_sem d)); [|now rewrite andb_false_r].
    rewrite sm_find_set, andb_true_r.
    destruct (str_eqb_spec (od_key d []) name) as [->|Hd].
    + now rewrite str_eqb_refl.
    + destruct (str_eqb_spec name (od_key d [])); [congruence|auto].
Qed.

Lemma store_defaults_req_keys prefix : forall ds m req m' req',
  store_defaults ds prefix m req = (m', req') -> ~ In [] (keys req) -> ~ In [] (keys req').
Proof.
  induction ds as [|d ds IH]; intros m req m' req' H Hn; cbn [store_defaults] in H.
  - now injection H as _ <-.
  - destruct (is_empty (od_key d [])) eqn:Ee; [eauto|]. apply IH in H; auto.
    destruct (vs_required (od_sem d)); auto. rewrite sm_set_keys. intros [E|E]; auto.
    rewrite <- E in Ee. discriminate.
Qed.

Lemma req_of_app name zds1 zds2 old : req_of name (zds1 ++ zds2) old = req_of name zds2 (req_of name zds1 old).
Proof. unfold req_of. apply fold_left_app. Qed.

Lemma stores_req vm h vm' name :
  stores vm h vm' -> name <> [] ->
  sm_find name (vm_required vm') = req_of name (declarations h) (sm_find name (vm_required vm)).
Proof.
  intros H Hne. induction H as [|vm p u vm1 h vm2 Hs _ IH]; auto.
  rewrite IH. unfold declarations. cbn [map List.concat fst]. rewrite req_of_app. f_equal.
  unfold store in Hs. destruct (pr_desc p) as [ds|]; [|discriminate].
  destruct (store_options ds (pr_prefix p) (vm_final vm) u (pr_options p) (vm_map vm) []) as [[m nf] [[]|e|x|]]; try discriminate.
  destruct (store_defaults ds (pr_prefix p) m (vm_required vm)) as [m' req] eqn:Edf.
  injection Hs as <-. cbn [vm_required]. now apply (store_defaults_req _ name Hne) in Edf.
Qed.

Lemma stores_req_keys vm h vm' :
  stores vm h vm' -> ~ In [] (keys (vm_required vm)) -> ~ In [] (keys (vm_required vm')).
Proof.
  induction 1 as [|vm p u vm1 h vm2 Hs _ IH]; auto. intros Hn. apply IH.
  unfold store in Hs. destruct (pr_desc p) as [ds|]; [|discriminate].
  destruct (store_options ds (pr_prefix p) (vm_final vm) u (pr_options p) (vm_map vm) []) as [[m nf] [[]|e|x|]]; try discriminate.
  destruct (store_defaults ds (pr_prefix p) m (vm_required vm)) as [m' req] eqn:Edf.
  injection Hs as <-. cbn [vm_required]. eapply store_defaults_req_keys; eauto.
Qed.

Lemma demands_b name zd :
  demands name zd <-> str_eqb (od_key (snd zd) []) name && vs_required (od_sem (snd zd)) = true.
Proof.
  unfold demands. rewrite is_key_od, andb_true_iff.
  destruct (str_eqb_spec (od_key (snd zd) []) name); intuition discriminate.
Qed.

(** The result of the scan: the first longest display name, or the old one if that is not shorter. *)
Lemma req_of_spec name zds : forall old r,
  req_of name zds old = r ->
  match r with
  | None => old = None /\ Forall (fun zd => ~ demands name zd) zds
  | Some s =>
      (old = Some s /\ Forall (fun zd => demands name zd -> List.length (display zd) <= List.length s) zds)
      \/ exists l1 zd l2, zds = l1 ++ zd :: l2 /\ demands name zd /\ s = display zd
         /\ Forall (fun zd' => demands name zd' -> List.length (display zd') < List.length s) l1
         /\ Forall (fun zd' => demands name zd' -> List.length (display zd') <= List.length s) l2
         /\ match old with Some o => List.length o < List.length s | None => True end
  end.
Proof.
  induction zds as [|zd zds IH]; intros old r H.
  - cbn in H. subst r. destruct old; auto.
  - unfold req_of in H. cbn [fold_left] in H. fold (req_of name zds) in H. apply IH in H.
    destruct (str_eqb (od_key (snd zd) []) name && vs_required (od_sem (snd zd))) eqn:Ed.
    + assert (Hd : demands name zd) by now apply demands_b.
      destruct r as [s|]; [|destruct H; discriminate].
      destruct H as [[H1 H2]|(l1 & zd' & l2 & -> & Hd' & -> & Hf1 & Hf2 & Hl)].
      * injection H1 as H1. destruct (Nat.ltb_spec (List.length (match old with Some s => s | None => [] end)) (List.length (display zd))).
        -- right. exists [], zd, zds. subst s. repeat split; auto; try apply Hd. destruct old; auto.
        -- destruct old as [o|].
           ++ left. subst s. split; auto.
           ++ right. exists [], zd, zds. cbn in H. destruct (display zd) eqn:E; [|cbn in H; lia]. subst s.
              repeat split; auto; apply Hd.
      * right. exists (zd :: l1), zd', l2. repeat split; auto; try apply Hd'.
        -- constructor; auto. intros _. destruct (Nat.ltb_spec (List.length (match old with Some s => s | None => [] end)) (List.length (display zd))); lia.
        -- destruct old as [o|]; auto.
           destruct (Nat.ltb_spec (List.length o) (List.length (display zd))); lia.
    + assert (Hd : ~ demands name zd) by (rewrite demands_b; congruence).
      destruct r as [s|].
      * destruct H as [[H1 H2]|(l1 & zd' & l2 & -> & H)].
        -- left. split; auto. constructor; auto. intros Hx. contradiction.
        -- right. exists (zd :: l1), zd', l2. destruct H as (Hd' & Es & Hf1 & Hf2 & Hl).
           split; [reflexivity|]. split; [auto|]. split; [auto|]. split; [|auto]. constructor; auto. intros Hx. contradiction.
      * destruct H. split; auto.
Qed.

(** The required names in [vm] come from the sources [h]. *)
Definition req_inv (h : history) (vm : variables_map) : Prop :=
  sm_sorted (vm_required vm) /\ ~ In [] (keys (vm_required vm))
  /\ forall name, name <> [] -> sm_find name (vm_required vm) = req_of name (declarations h) None.

Lemma stores_inv h vm : stores vm_new h vm -> req_inv h vm.
Proof.
  intros H. split; [|split].
  - destruct (stores_sorted _ _ _ H) as [_ Hs]; [constructor|constructor|auto].
  - apply (stores_req_keys _ _ _ H). intros [].
  - intros name Hne. apply (stores_req _ _ _ _ H Hne).
Qed.

Lemma required_reported h vm name disp :
  req_inv h vm -> sm_find name (vm_required vm) = Some disp ->
  name <> [] /\ reported h name disp.
Proof.
  intros (_ & Hk & Hr) Hf. assert (Hne : name <> []).
  { intros ->. apply Hk. apply sm_find_In. eauto. }
  split; auto. rewrite (Hr name Hne) in Hf. apply req_of_spec in Hf.
  destruct Hf as [[Hf _]|(l1 & zd & l2 & H1 & H2 & H3 & H4 & H5 & _)]; [discriminate|].
  exists l1, zd, l2. auto.
Qed.

Lemma required_iff h vm name :
  req_inv h vm -> name <> [] ->
  (exists disp, sm_find name (vm_required vm) = Some disp) <-> Exists (demands name) (declarations h).
Proof.
  intros (_ & _ & Hr) Hne. rewrite (Hr name Hne).
  destruct (req_of name (declarations h) None) as [s|] eqn:E.
  - split; [intros _|eauto]. apply req_of_spec in E.
    destruct E as [[E _]|(l1 & zd & l2 & -> & H2 & _)]; [discriminate|].
    apply Exists_exists. exists zd. split; auto. apply in_or_app. right. now left.
  - apply req_of_spec in E. destruct E as [_ E]. split; [intros [s Hs]; discriminate|].
    intros Hx. apply Exists_exists in Hx. destruct Hx as (zd & Hin & Hd). rewrite Forall_forall in E.
    contradiction (E zd Hin).
Qed.

Lemma has_value_b m name :
  match sm_find name m with
  | None => false
  | Some v => negb (any_empty (vv_value v))
  end = true <-> exists v x, sm_find name m = Some v /\ vv_value v = Some x.
Proof.
  destruct (sm_find name m) as [v|].
  - destruct (vv_value v) as [x|] eqn:E; cbn; split; intros H; auto; try discriminate.
    + exists v, x. auto.
    + destruct H as (v' & x & H1 & H2). congruence.
  - split; [discriminate|]. intros (v & x & H & _). discriminate.
Qed.

(** [check_required] finds the first key without a value. *)
Lemma check_required_spec m : forall req,
  (check_required req m = Ok tt
   /\ Forall (fun kd => exists v x, sm_find (fst kd) m = Some v /\ vv_value v = Some x) req)
  \/ exists r1 k disp r2, req = r1 ++ (k, disp) :: r2
     /\ check_required req m = Throw (mk_required_option disp)
     /\ Forall (fun kd => exists v x, sm_find (fst kd) m = Some v /\ vv_value v = Some x) r1
     /\ ~ exists v x, sm_find k m = Some v /\ vv_value v = Some x.
Proof.
  induction req as [|[k disp] req IH]; [left; split; auto|]. cbn [check_required].
  pose proof (has_value_b m k) as Hb.
  destruct (match sm_find k m with Some v => negb (any_empty (vv_value v)) | None => false end) eqn:E.
  - assert (Hk : exists v x, sm_find k m = Some v /\ vv_value v = Some x) by now apply Hb.
    destruct Hk as (v & x & H1 & H2). rewrite H1, H2. cbn [any_empty].
    destruct IH as [[-> IH]|(r1 & k' & d' & r2 & -> & -> & Hf & Hn)].
    + left. split; auto. constructor; auto. exists v, x. auto.
    + right. exists ((k, disp) :: r1), k', d', r2. repeat split; auto. constructor; auto. exists v, x. auto.
  - right. exists [], k, disp, req. split; [reflexivity|]. split; [|split; [constructor|intros Hx; apply Hb in Hx; discriminate]].
    destruct (sm_find k m) as [v|]; auto. now destruct (any_empty (vv_value v)).
Qed.

Lemma missing_inv h vm :
  req_inv h vm ->
  (exists name, missing h vm name) ->
  exists name disp, missing h vm name
    /\ (forall other, missing h vm other -> other = name \/ str_lt name other)
    /\ reported h name disp /\ notify vm = ([], Throw (mk_required_option disp)).
Proof.
  intros H (name0 & Hne0 & Hex0 & Hno0).
  pose proof (proj1 H) as Hs.
  assert (Hreq : forall other, missing h vm other -> exists disp, In (other, disp) (vm_required vm)).
  { intros other (Hne & Hex & _). apply (required_iff h vm other H Hne) in Hex. destruct Hex as [disp Hd].
    exists disp. now apply sm_find_In_pair. }
  destruct (check_required_spec (vm_map vm) (vm_required vm)) as [[_ Hf]|(r1 & k & disp & r2 & Er & Ec & Hf & Hn)].
  - exfalso. destruct (Hreq name0) as [disp Hd]; [repeat split; auto|]. rewrite Forall_forall in Hf.
    apply Hno0. exact (Hf _ Hd).
  - assert (Hk : sm_find k (vm_required vm) = Some disp).
    { apply sm_find_In_pair; auto. rewrite Er. apply in_or_app. right. now left. }
    destruct (required_reported _ _ _ _ H Hk) as [Hne Hrep].
    assert (Hmk : missing h vm k).
    { repeat split; auto. apply (required_iff h vm k H Hne). eauto. }
    exists k, disp. split; [auto|]. split; [|split; [auto|unfold notify; now rewrite Ec]].
    intros other Ho. destruct (Hreq other Ho) as [d' Hd']. rewrite Er in Hd'. apply in_app_or in Hd'.
    destruct Hd' as [Hd'|[Hd'|Hd']].
    + exfalso. rewrite Forall_forall in Hf. destruct Ho as (_ & _ & Ho). apply Ho. exact (Hf _ Hd').
    + injection Hd' as -> _. auto.
    + right. rewrite Er in Hs. unfold sm_sorted, keys in Hs. rewrite map_app in Hs.
      clear - Hs Hd'. induction r1 as [|x r1 IH]; cbn in Hs; inversion Hs as [|? ? Hs1 Hs2]; subst; auto.
      rewrite Forall_forall in Hs2. apply Hs2. change other with (fst (other, d')). now apply in_map.
Qed.

Lemma missing_lemma h vm :
  stores vm_new h vm ->
  (exists name, missing h vm name) ->
  exists name disp, missing h vm name
    /\ (forall other, missing h vm other -> other = name \/ str_lt name other)
    /\ reported h name disp /\ notify vm = ([], Throw (mk_required_option disp)).
Proof. intros H. apply missing_inv. now apply stores_inv. Qed.

Lemma nothing_missing_inv h vm :
  req_inv h vm -> (forall name, ~ missing h vm name) -> notify vm = run_notify (vm_map vm).
Proof.
  intros H Hno. pose proof (proj1 H) as Hs.
  unfold notify.
  destruct (check_required_spec (vm_map vm) (vm_required vm)) as [[-> _]|(r1 & k & disp & r2 & Er & Ec & Hf & Hn)]; auto.
  exfalso. assert (Hk : sm_find k (vm_required vm) = Some disp).
  { apply sm_find_In_pair; auto. rewrite Er. apply in_or_app. right. now left. }
  destruct (required_reported _ _ _ _ H Hk) as [Hne Hrep]. apply (Hno k). repeat split; auto.
  apply (required_iff h vm k H Hne). eauto.
Qed.

Lemma nothing_missing_lemma h vm :
  stores vm_new h vm -> (forall name, ~ missing h vm name) -> notify vm = run_notify (vm_map vm).
Proof. intros H. apply nothing_missing_inv. now apply stores_inv. Qed.

(** ** Notification *)

Lemma run_notify_spec m : forall ev r,
  run_notify m = (ev, r) ->
  (r = Ok tt /\ exists evs, Forall2 notifies m evs /\ ev = List.concat evs)
  \/ exists m1 k v m2 s evs last, m = m1 ++ (k, v) :: m2 /\ Forall2 notifies m1 evs
     /\ vv_sem v = Some s /\ vs_notify s (vv_value v) = (last, r) /\ r <> Ok tt
     /\ ev = List.concat evs ++ last.
Proof.
  induction m as [|[k v] m IH]; intros ev r H; cbn [run_notify] in H.
  - injection H as <- <-. left. split; auto. exists []. split; [constructor|reflexivity].
  - assert (Hcons : forall e0 ev' r', notifies (k, v) e0 -> run_notify m = (ev', r') ->
      (r' = Ok tt /\ exists evs, Forall2 notifies ((k, v) :: m) evs /\ e0 ++ ev' = List.concat evs)
      \/ exists m1 k0 v0 m2 s evs last, (k, v) :: m = m1 ++ (k0, v0) :: m2 /\ Forall2 notifies m1 evs
         /\ vv_sem v0 = Some s /\ vs_notify s (vv_value v0) = (last, r') /\ r' <> Ok tt
         /\ e0 ++ ev' = List.concat evs ++ last).
    { intros e0 ev' r' He Hr. destruct (IH _ _ Hr) as [(-> & evs & H1 & ->)|(m1 & k0 & v0 & m2 & s & evs & last & -> & H1 & H2 & H3 & H4 & ->)].
      - left. split; auto. exists (e0 :: evs). split; [constructor; auto|reflexivity].
      - right. exists ((k, v) :: m1), k0, v0, m2, s, (e0 :: evs), last. repeat split; auto. cbn. now rewrite app_assoc. }
    destruct (vv_sem v) as [s|] eqn:Es.
    + destruct (vs_notify s (vv_value v)) as [e0 r0] eqn:En.
      destruct r0 as [[]|e|u|].
      * destruct (run_notify m) as [ev' r'] eqn:Er. injection H as <- <-. apply (Hcons e0); auto.
        unfold notifies. cbn. now rewrite Es.
      * injection H as <- <-. right. exists [], k, v, m, s, [], e0. repeat split; auto. discriminate.
      * injection H as <- <-. right. exists [], k, v, m, s, [], e0. repeat split; auto. discriminate.
      * injection H as <- <-. right. exists [], k, v, m, s, [], e0. repeat split; auto. discriminate.
    + apply (Hcons []); auto. unfold notifies. cbn. now rewrite Es.
Qed.

Lemma entries_lemma vm : sm_sorted (vm_map vm) -> entries_in_order vm (vm_map vm).
Proof. intros H. split; auto. intros k v. unfold entry. symmetry. now apply sm_find_In_pair. Qed.

(** ** Chains *)

Lemma chain_explicit name v : explicit v -> forall pre vm post,
  vm_get vm name = v -> Forall (fun vm' => ~ explicit (vm_get vm' name)) pre ->
  match pre ++ vm :: post with
  | [] => True
  | vm0 :: next => chain_get vm0 next name = v
  end.
Proof.
  intros [He Hd]. induction pre as [|p pre IH]; intros vm post Hv Hf; cbn [app].
  - destruct post; cbn [chain_get]; rewrite Hv; auto.
    destruct (vv_value v) eqn:E; [|contradiction]. cbn [any_empty]. now rewrite Hd.
  - inversion Hf as [|? ? Hp Hf']; subst. specialize (IH vm post eq_refl Hf').
    destruct (pre ++ vm :: post) as [|q next] eqn:E; [now destruct pre|].
    cbn [chain_get]. destruct (vv_value (vm_get p name)) eqn:Ev; cbn [any_empty]; auto.
    destruct (vv_defaulted (vm_get p name)) eqn:Edf.
    + rewrite IH. destruct (vv_value (vm_get vm name)); [|contradiction]. rewrite Hd. reflexivity.
    + exfalso. apply Hp. split; [congruence|auto].
Qed.

Lemma chain_not_explicit name : forall chain vm0 next, chain = vm0 :: next ->
  Forall (fun vm' => ~ explicit (vm_get vm' name)) chain -> ~ explicit (chain_get vm0 next name).
Proof.
  induction chain as [|vm chain IH]; intros vm0 next E Hf; [discriminate|]. injection E as <- <-.
  inversion Hf as [|? ? Hp Hf']; subst. destruct chain as [|q next]; cbn [chain_get]; auto.
  specialize (IH q next eq_refl Hf').
  destruct (any_empty (vv_value (vm_get vm name))); auto.
  destruct (vv_defaulted (vm_get vm name)); auto.
  destruct (_ && _); auto.
Qed.

Lemma chain_default name v : vv_value v <> None -> forall pre vm post,
  vm_get vm name = v -> Forall (fun vm' => vv_value (vm_get vm' name) = None) pre ->
  Forall (fun vm' => ~ explicit (vm_get vm' name)) (vm :: post) ->
  match pre ++ vm :: post with
  | [] => True
  | vm0 :: next => chain_get vm0 next name = v
  end.
Proof.
  intros He. induction pre as [|p pre IH]; intros vm post Hv Hf Hpost; cbn [app].
  - destruct post as [|q post]; cbn [chain_get]; rewrite Hv; auto.
    destruct (vv_value v) eqn:E; [|contradiction]. cbn [any_empty].
    destruct (vv_defaulted v); auto.
    inversion Hpost as [|? ? _ Hq]; subst.
    pose proof (chain_not_explicit name (q :: post) q post eq_refl Hq) as Hn.
    destruct (vv_value (chain_get q post name)) eqn:Ec; [|auto]. cbn [any_empty negb andb].
    destruct (vv_defaulted (chain_get q post name)) eqn:Edf; [auto|]. exfalso. apply Hn. split; [congruence|auto].
  - inversion Hf as [|? ? Hp Hf']; subst. specialize (IH vm post eq_refl Hf' Hpost).
    destruct (pre ++ vm :: post) as [|q next] eqn:E; [now destruct pre|].
    cbn [chain_get]. now rewrite Hp.
Qed.

Lemma chain_empty name : forall next vm,
  Forall (fun vm' => vv_value (vm_get vm' name) = None) (vm :: next) ->
  vv_value (chain_get vm next name) = None.
Proof.
  induction next as [|q next IH]; intros vm Hf; inversion Hf as [|? ? Hp Hf']; subst; cbn [chain_get]; auto.
  rewrite Hp. cbn [any_empty]. auto.
Qed.
