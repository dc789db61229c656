(** Proofs for C110: storing a source again. *)

From Coq Require Import List Ascii String NArith ZArith Bool Arith Lia Sorting.Sorted.
From Verif Require Import Base Errors Spec BaseFacts Values OptDesc SpecLookup LookupFacts Positional Cmdline
  Parsers VarMap SpecCmdline SpecStore StoreFacts SpecEnd EndFacts.
Import ListNotations.

(** The map has all that declaring the option can add. *)
Definition declared_in (prefix : Z) (m : smap variable_value) (req : smap str) (d : option_description) : Prop :=
  od_key d [] = []
  \/ ((vs_default (od_sem d) = None \/ sm_mem (od_key d []) m = true)
      /\ (vs_required (od_sem d) = false
          \/ exists s, sm_find (od_key d []) req = Some s /\ List.length (canonical_display_name d prefix) <= List.length s)).

(** The map has all that the source can add. *)
Definition absorbed (p : parsed_options) (vm : variables_map) : Prop :=
  exists ds, pr_desc p = Some ds
    /\ Forall (fun o => po_key o = [] \/ po_unreg o = true \/ In (po_key o) (vm_final vm)) (pr_options p)
    /\ Forall (declared_in (pr_prefix p) (vm_map vm) (vm_required vm)) ds.

(** The map only grows. *)
Definition at_least (m : smap variable_value) (req : smap str) (m' : smap variable_value) (req' : smap str) : Prop :=
  (forall k, sm_mem k m = true -> sm_mem k m' = true)
  /\ forall k s, sm_find k req = Some s -> exists s', sm_find k req' = Some s' /\ List.length s <= List.length s'.

Lemma at_least_refl m req : at_least m req m req.
Proof. split; eauto. Qed.

Lemma at_least_trans m1 r1 m2 r2 m3 r3 : at_least m1 r1 m2 r2 -> at_least m2 r2 m3 r3 -> at_least m1 r1 m3 r3.
Proof.
  intros [A B] [C D]. split; [auto|]. intros k s H. destruct (B k s H) as (s' & H1 & L1).
  destruct (D k s' H1) as (s'' & H2 & L2). exists s''. split; auto. lia.
Qed.

Lemma mem_set k k' (v : variable_value) m : sm_mem k m = true -> sm_mem k (sm_set k' v m) = true.
Proof.
  intros H. apply sm_mem_find. apply sm_mem_find in H. rewrite sm_find_set. destruct (str_eqb k k'); eauto.
Qed.

Lemma mem_set_same k (v : variable_value) m : sm_mem k (sm_set k v m) = true.
Proof. apply sm_mem_find. rewrite sm_find_set_same. eauto. Qed.

Lemma declared_mono prefix m req m' req' d :
  at_least m req m' req' -> declared_in prefix m req d -> declared_in prefix m' req' d.
Proof.
  intros [A B] [H|[H1 H2]]; [now left|]. right. split; [destruct H1; auto|].
  destruct H2 as [H2|(s & H2 & L)]; [now left|]. right. destruct (B _ _ H2) as (s' & H3 & L'). exists s'. split; auto. lia.
Qed.

Lemma defaults_step d prefix m req :
  od_key d [] <> [] ->
  let m' := if sm_mem (od_key d []) m then m
            else match vs_default (od_sem d) with
                 | Some def => sm_set (od_key d []) (mk_vv def true (Some (od_sem d))) m
                 | None => m
                 end in
  let req' := if vs_required (od_sem d) then
                let canonical := canonical_display_name d prefix in
                let old := match sm_find (od_key d []) req with Some s => s | None => [] end in
                sm_set (od_key d []) (if (List.length old <? List.length canonical)%nat then canonical else old) req
              else req in
  at_least m req m' req' /\ declared_in prefix m' req' d.
Proof.
  intros Hne m' req'. split; [split|right; split].
  - intros k Hk. unfold m'. destruct (sm_mem (od_key d []) m); auto. destruct (vs_default (od_sem d)); auto. now apply mem_set.
  - intros k s Hk. unfold req'. destruct (vs_required (od_sem d)); [|eauto]. cbv zeta. rewrite sm_find_set.
    destruct (str_eqb_spec k (od_key d [])) as [<-|]; [|eauto]. rewrite Hk. eexists. split; [reflexivity|].
    destruct (Nat.ltb_spec (List.length s) (List.length (canonical_display_name d prefix))); lia.
  - unfold m'. destruct (sm_mem (od_key d []) m) eqn:E; [now right|]. destruct (vs_default (od_sem d)); [|now left].
    right. apply mem_set_same.
  - unfold req'. destruct (vs_required (od_sem d)); [|now left]. right. cbv zeta. rewrite sm_find_set_same.
    eexists. split; [reflexivity|].
    match goal with |- context [(?a <? ?b)%nat] => destruct (Nat.ltb_spec a b) end; lia.
Qed.

Lemma defaults_absorb prefix ds : forall m req m' req',
  store_defaults ds prefix m req = (m', req') -> at_least m req m' req' /\ Forall (declared_in prefix m' req') ds.
Proof.
  induction ds as [|d ds IH]; intros m req m' req' H; cbn [store_defaults] in H.
  - injection H as <- <-. split; [apply at_least_refl|constructor].
  - destruct (is_empty (od_key d [])) eqn:Ee.
    + destruct (IH _ _ _ _ H) as [A B]. split; auto. constructor; auto. left. now apply is_empty_true.
    + assert (Hne : od_key d [] <> []) by (intros E; rewrite E in Ee; discriminate).
      destruct (defaults_step d prefix m req Hne) as [A1 B1]. destruct (IH _ _ _ _ H) as [A B].
      split; [exact (at_least_trans _ _ _ _ _ _ A1 A)|]. constructor; auto. exact (declared_mono _ _ _ _ _ _ A B1).
Qed.

Lemma options_mono ds prefix final utf8 opts k : forall m nf m' nf' r,
  store_options ds prefix final utf8 opts m nf = (m', nf', r) -> sm_mem k m = true -> sm_mem k m' = true.
Proof.
  induction opts as [|o opts IH]; intros m nf m' nf' r H Hk; cbn [store_options] in H.
  - now injection H as <- _ _.
  - destruct (is_empty (po_key o)); [eauto|]. destruct (po_unreg o); [eauto|].
    destruct (ss_mem (po_key o) final); [eauto|].
    destruct (find ds (po_key o) false false false) as [d|e|u|]; try (now injection H as <- _ _).
    set (v1 := if vv_defaulted _ then _ else _) in H.
    destruct (vs_parse (od_sem d) (vv_value v1) (po_value o) utf8) as [a [[]|e|u|]].
    + apply IH in H; auto. now apply mem_set.
    + injection H as <- _ _. now apply mem_set.
    + now injection H as <- _ _.
    + now injection H as <- _ _.
Qed.

(** A successful [store] only adds. *)
Lemma store_grows p vm utf8 vm' :
  store p vm utf8 = (vm', Ok tt) ->
  at_least (vm_map vm) (vm_required vm) (vm_map vm') (vm_required vm')
  /\ (forall k, In k (vm_final vm) -> In k (vm_final vm'))
  /\ exists ds, pr_desc p = Some ds /\ Forall (declared_in (pr_prefix p) (vm_map vm') (vm_required vm')) ds.
Proof.
  unfold store. intros H. destruct (pr_desc p) as [ds|]; [|discriminate].
  destruct (store_options ds (pr_prefix p) (vm_final vm) utf8 (pr_options p) (vm_map vm) []) as [[m nf] r] eqn:Eo.
  destruct r as [[]|e|u|]; try discriminate.
  destruct (store_defaults ds (pr_prefix p) m (vm_required vm)) as [m' req] eqn:Ed. injection H as <-. cbn [vm_map vm_required vm_final].
  destruct (defaults_absorb _ _ _ _ _ _ Ed) as [A B]. split; [|split].
  - eapply at_least_trans; [|exact A]. split; [|eauto]. intros k. eapply options_mono; eauto.
  - intros k Hk. apply ss_insert_all_In. now right.
  - exists ds. auto.
Qed.

Lemma absorbed_mono p q vm utf8 vm' : store q vm utf8 = (vm', Ok tt) -> absorbed p vm -> absorbed p vm'.
Proof.
  intros H (ds & E & Ho & Hd). destruct (store_grows _ _ _ _ H) as (A & F & _). exists ds. split; auto. split.
  - eapply Forall_impl; [|exact Ho]. cbn. intros o [X|[X|X]]; auto.
  - eapply Forall_impl; [|exact Hd]. cbn. intros d. now apply declared_mono.
Qed.

Lemma absorbed_after p vm utf8 vm' :
  store p vm utf8 = (vm', Ok tt) ->
  (forall name d, name <> [] -> mentions p name -> resolves p name d -> vs_composing (od_sem d) = false) ->
  absorbed p vm'.
Proof.
  intros H Hc. destruct (store_grows _ _ _ _ H) as (A & F & ds & E & Hd). exists ds. split; auto. split; auto.
  apply Forall_forall. intros o Ho. destruct (po_key o) as [|c k] eqn:Ek; [now left|right]. rewrite <- Ek.
  destruct (po_unreg o) eqn:Eu; [now left|right].
  assert (Hne : po_key o <> []) by congruence.
  assert (Hm : mentions p (po_key o)).
  { unfold mentions, occurrences. intros X.
    assert (Hin : In (po_value o) (map po_value (filter (fun o0 => str_eqb (po_key o0) (po_key o) && negb (po_unreg o0)) (pr_options p)))).
    { apply in_map. apply filter_In. split; auto. rewrite str_eqb_refl, Eu. reflexivity. }
    rewrite X in Hin. contradiction. }
  destruct (store_entry _ _ _ _ _ H Hne) as (ds' & E' & [([Hx|Hx] & _)|(_ & _ & d & a & Hf & _ & _ & Hfin)]).
  - contradiction.
  - auto.
  - apply Hfin. apply (Hc (po_key o)); auto. exists ds'. auto.
Qed.

Lemma options_absorbed ds prefix final utf8 opts m nf :
  Forall (fun o => po_key o = [] \/ po_unreg o = true \/ In (po_key o) final) opts ->
  store_options ds prefix final utf8 opts m nf = (m, nf, Ok tt).
Proof.
  induction 1 as [|o opts Ho _ IH]; [reflexivity|]. cbn [store_options].
  destruct (is_empty (po_key o)) eqn:Ee; auto. destruct (po_unreg o) eqn:Eu; auto.
  destruct (ss_mem (po_key o) final) eqn:Em; auto. exfalso. destruct Ho as [Ho|[Ho|Ho]].
  - rewrite Ho in Ee. discriminate.
  - discriminate.
  - apply ss_mem_In in Ho. congruence.
Qed.

Lemma set_same (k : str) (v : str) m : sm_sorted m -> sm_find k m = Some v -> sm_set k v m = m.
Proof.
  intros Hs H. apply sm_ext; auto; [now apply sm_set_sorted|]. intros k'. rewrite sm_find_set.
  destruct (str_eqb_spec k' k) as [->|]; congruence.
Qed.

Lemma defaults_absorbed prefix ds m req :
  sm_sorted req -> Forall (declared_in prefix m req) ds -> store_defaults ds prefix m req = (m, req).
Proof.
  intros Hs. induction 1 as [|d ds Hd _ IH]; [reflexivity|]. cbn [store_defaults].
  destruct (is_empty (od_key d [])) eqn:Ee; auto.
  destruct Hd as [Hd|[H1 H2]]; [rewrite Hd in Ee; discriminate|].
  assert (E1 : (if sm_mem (od_key d []) m then m
                else match vs_default (od_sem d) with
                     | Some def => sm_set (od_key d []) (mk_vv def true (Some (od_sem d))) m
                     | None => m
                     end) = m).
  { destruct H1 as [-> | ->]; [now destruct (sm_mem (od_key d []) m)|reflexivity]. }
  rewrite E1. destruct H2 as [-> |(s & Hf & L)]; [auto|]. destruct (vs_required (od_sem d)); [|auto]. rewrite Hf.
  destruct (Nat.ltb_spec (List.length s) (List.length (canonical_display_name d prefix))); [lia|]. rewrite set_same; auto.
Qed.

Lemma store_absorbed p vm utf8 : sm_sorted (vm_required vm) -> absorbed p vm -> store p vm utf8 = (vm, Ok tt).
Proof.
  intros Hs (ds & E & Ho & Hd). unfold store. rewrite E, options_absorbed by auto. rewrite defaults_absorbed by auto.
  destruct vm. reflexivity.
Qed.

Lemma stores_absorbed p vm h vm' : stores vm h vm' -> absorbed p vm -> absorbed p vm'.
Proof. induction 1 as [|vm q u vm1 h vm2 Hs _ IH]; auto. intros H. apply IH. eapply absorbed_mono; eauto. Qed.

Lemma again_lemma before p utf8 after vm utf8' :
  stores vm_new (before ++ (p, utf8) :: after) vm ->
  (forall name d, name <> [] -> mentions p name -> resolves p name d -> vs_composing (od_sem d) = false) ->
  store p vm utf8' = (vm, Ok tt).
Proof.
  intros H Hc. destruct (stores_sorted _ _ _ H) as [_ Hs]; [constructor|constructor|].
  apply store_absorbed; auto. apply stores_app in H. destruct H as (vm1 & _ & H).
  inversion H as [|? ? ? vm2 ? ? H1 H2]; subst. eapply stores_absorbed; eauto. eapply absorbed_after; eauto.
Qed.

Lemma drop_again before p utf8 between utf8' after vm :
  (forall name d, name <> [] -> mentions p name -> resolves p name d -> vs_composing (od_sem d) = false) ->
  stores vm_new (before ++ (p, utf8) :: between ++ (p, utf8') :: after) vm
  <-> stores vm_new (before ++ (p, utf8) :: between ++ after) vm.
Proof.
  intros Hc.
  assert (R : forall x, before ++ (p, utf8) :: between ++ x = (before ++ (p, utf8) :: between) ++ x).
  { intros x. now rewrite <- app_assoc. }
  rewrite !R. split; intros H; apply stores_app in H; destruct H as (vm1 & H1 & H2); apply stores_app; exists vm1; split; auto.
  - inversion H2 as [|? ? ? vm2 ? ? H3 H4]; subst. rewrite (again_lemma _ _ _ _ _ utf8' H1 Hc) in H3. now injection H3 as <-.
  - econstructor; [|exact H2]. exact (again_lemma _ _ _ _ _ utf8' H1 Hc).
Qed.
