From Coq Require Import List Ascii NArith ZArith Bool Arith Lia Sorting.Sorted.
From Verif Require Import Base Errors Spec BaseFacts Values OptDesc SpecLookup Cmdline Parsers VarMap SpecStore StoreFacts MapUse SpecMapUse.
Import ListNotations.

Lemma filter_sorted V (f : str * V -> bool) m : sm_sorted m -> sm_sorted (filter f m).
Proof.
  unfold sm_sorted, keys. induction m as [|[k v] m IH]; cbn; auto. intros H. inversion H as [|? ? H1 H2]; subst.
  destruct (f (k, v)); auto. cbn. constructor; auto. rewrite Forall_forall in *. intros x Hx. apply H2.
  apply in_map_iff in Hx. destruct Hx as (y & <- & Hy). apply filter_In in Hy. now apply in_map.
Qed.

Lemma sm_find_filter V name k (m : smap V) :
  sm_find k (filter (fun kv => negb (str_eqb (fst kv) name)) m) = if str_eqb k name then None else sm_find k m.
Proof.
  induction m as [|[k' v] m IH]; cbn; [now destruct (str_eqb k name)|].
  destruct (str_eqb_spec k' name) as [->|Hn]; cbn.
  - rewrite IH. now destruct (str_eqb_spec k name).
  - destruct (str_eqb_spec k k') as [->|Hk]; auto. destruct (str_eqb_spec k' name); [contradiction|auto].
Qed.

Lemma entry_insert vm name a b other :
  entry (vm_insert vm name a b) other
  = if str_eqb other name then match entry vm name with Some v => Some v | None => Some (own a b) end else entry vm other.
Proof.
  unfold vm_insert, entry, sm_mem. destruct (sm_find name (vm_map vm)) as [v|] eqn:E.
  - destruct (str_eqb_spec other name) as [->|]; auto.
  - cbn [vm_map]. rewrite sm_find_set. reflexivity.
Qed.

Lemma entry_erase vm name other :
  entry (vm_erase vm name) other = if str_eqb other name then None else entry vm other.
Proof. apply sm_find_filter. Qed.

Lemma insert_rest vm name a b :
  vm_final (vm_insert vm name a b) = vm_final vm /\ vm_required (vm_insert vm name a b) = vm_required vm.
Proof. unfold vm_insert. now destruct (sm_mem name (vm_map vm)). Qed.

Lemma assign_rest vm name a :
  vm_final (vm_assign vm name a) = vm_final vm /\ vm_required (vm_assign vm name a) = vm_required vm.
Proof. unfold vm_assign. now destruct (sm_find name (vm_map vm)). Qed.

(** ** The invariant of all runs *)

Definition run_inv (h : history) (vm : variables_map) : Prop := sm_sorted (vm_map vm) /\ req_inv h vm.

Lemma store_throw_required p vm u vm' e :
  store p vm u = (vm', Throw e) -> vm_required vm' = vm_required vm.
Proof.
  unfold store. destruct (pr_desc p) as [ds|]; [|discriminate].
  destruct (store_options ds (pr_prefix p) (vm_final vm) u (pr_options p) (vm_map vm) []) as [[m nf] [[]|x|x|]]; try discriminate.
  - destruct (store_defaults ds (pr_prefix p) m (vm_required vm)). discriminate.
  - now intros [= <- _].
Qed.

Lemma declarations_app h1 h2 : declarations (h1 ++ h2) = declarations h1 ++ declarations h2.
Proof. unfold declarations. now rewrite map_app, concat_app. Qed.

Lemma store_inv h p u vm vm' : run_inv h vm -> store p vm u = (vm', Ok tt) -> run_inv (h ++ [(p, u)]) vm'.
Proof.
  intros (Hs & Hr & Hk & Hq) H. assert (H1 : stores vm [(p, u)] vm') by (econstructor; [exact H|constructor]).
  destruct (store_sorted _ _ _ _ _ H Hs Hr) as [Hs' Hr']. split; auto. split; auto. split.
  - apply (stores_req_keys _ _ _ H1); auto.
  - intros name Hne. rewrite (stores_req _ _ _ _ H1 Hne), (Hq name Hne), declarations_app. symmetry. apply req_of_app.
Qed.

Lemma clear_inv vm : run_inv [] (vm_clear vm).
Proof. split; [constructor|]. split; [constructor|]. split; [intros []|reflexivity]. Qed.

Lemma run_keeps calls : forall h vm vm' rs,
  map_run vm calls = (vm', rs) -> Forall ended rs -> run_inv h vm -> run_inv (sources h calls rs) vm'.
Proof.
  induction calls as [|c calls IH]; intros h vm vm' rs H He Hi; cbn [map_run] in H.
  - injection H as <- <-. exact Hi.
  - destruct (map_step vm c) as [vm1 r] eqn:E1. destruct (map_run vm1 calls) as [vm2 rs'] eqn:E2. injection H as <- <-.
    inversion He as [|? ? He1 He2]; subst. destruct Hi as [Hs Hr].
    destruct c; cbn [map_step] in E1.
    + destruct (store p vm utf8) as [vm1' o] eqn:Es. injection E1 as <- <-. destruct He1 as [He1|[e He1]]; cbn [snd] in He1; subst o.
      * cbn [sources]. eapply IH; eauto. eapply store_inv; eauto. split; auto.
      * cbn [sources]. eapply IH; eauto. split.
        -- apply (store_sorted _ _ _ _ _ Es); auto. apply Hr.
        -- unfold req_inv. rewrite (store_throw_required _ _ _ _ _ Es). exact Hr.
    + injection E1 as <- <-. cbn [sources]. eapply IH; eauto. split; auto.
    + injection E1 as <- <-. cbn [sources]. eapply IH; eauto. apply clear_inv.
    + injection E1 as <- <-. cbn [sources]. eapply IH; eauto. destruct (insert_rest vm name a defaulted) as [_ Eq]. split.
      * unfold vm_insert. destruct (sm_mem name (vm_map vm)); auto. now apply sm_set_sorted.
      * unfold req_inv. now rewrite Eq.
    + injection E1 as <- <-. cbn [sources]. eapply IH; eauto. split; [now apply filter_sorted|exact Hr].
    + injection E1 as <- <-. cbn [sources]. eapply IH; eauto. destruct (assign_rest vm name a) as [_ Eq]. split.
      * unfold vm_assign. destruct (sm_find name (vm_map vm)); auto. now apply sm_set_sorted.
      * unfold req_inv. now rewrite Eq.
Qed.

Lemma run_inv_new calls vm rs :
  map_run vm_new calls = (vm, rs) -> Forall ended rs -> run_inv (sources [] calls rs) vm.
Proof. intros H He. eapply run_keeps; eauto. exact (clear_inv vm_new). Qed.

Lemma run_app calls1 calls2 vm :
  map_run vm (calls1 ++ calls2)
  = (let (vm1, rs1) := map_run vm calls1 in let (vm2, rs2) := map_run vm1 calls2 in (vm2, rs1 ++ rs2)).
Proof.
  revert vm. induction calls1 as [|c calls1 IH]; intros vm; cbn [map_run app].
  - now destruct (map_run vm calls2).
  - destruct (map_step vm c) as [vm1 r]. rewrite IH. destruct (map_run vm1 calls1) as [vm2 rs2].
    destruct (map_run vm2 calls2) as [vm3 rs3]. reflexivity.
Qed.

(** A name that is final and has no entry. *)
Lemma stores_erased vm h vm' name :
  stores vm h vm' -> name <> [] -> In name (vm_final vm) -> entry vm name = None ->
  default_entry (described h) name (entry vm' name).
Proof.
  intros H Hne. induction H as [|vm p u vm1 h vm2 Hs Hh IH]; intros Hf He.
  - rewrite He. apply de_none. constructor.
  - destruct (store_entry _ _ _ _ name Hs Hne) as (ds & Eds & [(_ & Hfi & Hv)|(_ & Hn & _)]); [|contradiction].
    unfold described in *. cbn [map List.concat fst]. rewrite Eds. apply default_app.
    destruct Hv as [(v & H1 & _)|[_ H2]]; [congruence|].
    destruct (entry vm1 name) as [v|] eqn:E1.
    + left. exists v. destruct (stores_final _ _ _ name v Hh Hne) as [-> _]; [now apply Hfi|auto|]. auto.
    + right. split; auto. apply IH; auto. now apply Hfi.
Qed.

(** Only options that a stored source has mentioned are final. *)
Lemma store_throw_final p vm u vm' e :
  store p vm u = (vm', Throw e) -> vm_final vm' = vm_final vm.
Proof.
  unfold store. destruct (pr_desc p) as [ds|]; [|discriminate].
  destruct (store_options ds (pr_prefix p) (vm_final vm) u (pr_options p) (vm_map vm) []) as [[m nf] [[]|x|x|]]; try discriminate.
  - destruct (store_defaults ds (pr_prefix p) m (vm_required vm)). discriminate.
  - now intros [= <- _].
Qed.

Lemma never_app h1 h2 name : never_mentioned (h1 ++ h2) name <-> never_mentioned h1 name /\ never_mentioned h2 name.
Proof. apply Forall_app. Qed.

Lemma run_final name calls : name <> [] -> forall h vm vm' rs,
  map_run vm calls = (vm', rs) -> Forall ended rs -> (never_mentioned h name -> ~ In name (vm_final vm)) ->
  never_mentioned (sources h calls rs) name -> ~ In name (vm_final vm').
Proof.
  intros Hne. induction calls as [|c calls IH]; intros h vm vm' rs H He Hi Hn; cbn [map_run] in H.
  - injection H as <- <-. auto.
  - destruct (map_step vm c) as [vm1 r] eqn:E1. destruct (map_run vm1 calls) as [vm2 rs'] eqn:E2. injection H as <- <-.
    inversion He as [|? ? He1 He2]; subst.
    destruct c; cbn [map_step] in E1.
    + destruct (store p vm utf8) as [vm1' o] eqn:Es. injection E1 as <- <-. destruct He1 as [He1|[e He1]]; cbn [snd] in He1; subst o.
      * cbn [sources] in Hn. apply (IH (h ++ [(p, utf8)]) vm1' vm2 rs' E2 He2); auto. intros Hm. apply never_app in Hm.
        destruct Hm as [Hm1 Hm2]. inversion Hm2 as [|? ? Hm3 _]; subst.
        destruct (store_entry _ _ _ _ name Es Hne) as (ds & _ & [(_ & Hf & _)|(Ho & _)]); [|contradiction].
        rewrite Hf. auto.
      * cbn [sources] in Hn. apply (IH h vm1' vm2 rs' E2 He2); auto. rewrite (store_throw_final _ _ _ _ _ Es). exact Hi.
    + injection E1 as <- <-. cbn [sources] in Hn. apply (IH h vm vm2 rs' E2 He2); auto.
    + injection E1 as <- <-. cbn [sources] in Hn. apply (IH [] (vm_clear vm) vm2 rs' E2 He2); auto.
    + injection E1 as <- <-. cbn [sources] in Hn. apply (IH h _ vm2 rs' E2 He2); auto.
      now rewrite (proj1 (insert_rest vm name0 a defaulted)).
    + injection E1 as <- <-. cbn [sources] in Hn. apply (IH h _ vm2 rs' E2 He2); auto.
    + injection E1 as <- <-. cbn [sources] in Hn. apply (IH h _ vm2 rs' E2 He2); auto.
      now rewrite (proj1 (assign_rest vm name0 a)).
Qed.

Lemma run_final_new name calls vm rs :
  name <> [] -> map_run vm_new calls = (vm, rs) -> Forall ended rs -> never_mentioned (sources [] calls rs) name ->
  ~ In name (vm_final vm).
Proof. intros Hne H He. apply (run_final name calls Hne [] vm_new vm rs H He). intros _ []. Qed.
