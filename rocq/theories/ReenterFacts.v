(** Lemmas about notifiers that use the map that is being notified. *)

From Coq Require Import List Ascii String NArith ZArith Bool Arith Lia Sorting.Sorted.
From Verif Require Import Base Errors Spec BaseFacts Values OptDesc Cmdline Parsers VarMap SpecStore StoreFacts MapUse SpecMapUse MapUseFacts
  Reenter SpecReenter.
Import ListNotations.

(** ** Maps that only grow *)

Definition sound (vm : variables_map) : Prop := sm_sorted (vm_map vm) /\ sm_sorted (vm_required vm).
Definition grows (vm vm' : variables_map) : Prop := forall name, entry vm name <> None -> entry vm' name <> None.

Lemma grows_refl vm : grows vm vm.
Proof. now intros name. Qed.

Lemma grows_trans a b c : grows a b -> grows b c -> grows a c.
Proof. intros H1 H2 name H. auto. Qed.

Lemma entry_keys vm name : entry vm name <> None <-> In name (keys (vm_map vm)).
Proof.
  unfold entry. split; intros H.
  - destruct (in_dec (list_eq_dec ascii_dec) name (keys (vm_map vm))) as [I|N]; [exact I|]. apply sm_find_None in N. contradiction.
  - intros N. apply sm_find_None in N. contradiction.
Qed.

Lemma store_options_keys ds prefix final utf8 opts : forall m nf m' nf' r,
  store_options ds prefix final utf8 opts m nf = (m', nf', r) -> forall k, In k (keys m) -> In k (keys m').
Proof.
  induction opts as [|o opts IH]; intros m nf m' nf' r H k Hk; cbn [store_options] in H.
  - injection H as <- _ _. exact Hk.
  - destruct (is_empty (po_key o)); [eauto|]. destruct (po_unreg o); [eauto|]. destruct (ss_mem (po_key o) final); [eauto|].
    destruct (find ds (po_key o) false false false) as [d|e|u|]; try (injection H as <- _ _; exact Hk).
    destruct (vs_parse _ _ _ _) as [a [[]|e|u|]].
    + eapply IH; [exact H|]. apply sm_set_keys. now right.
    + injection H as <- _ _. apply sm_set_keys. now right.
    + injection H as <- _ _. exact Hk.
    + injection H as <- _ _. exact Hk.
Qed.

Lemma store_defaults_keys prefix ds : forall m req m' req',
  store_defaults ds prefix m req = (m', req') -> forall k, In k (keys m) -> In k (keys m').
Proof.
  induction ds as [|d ds IH]; intros m req m' req' H k Hk; cbn [store_defaults] in H.
  - now injection H as <- <-.
  - destruct (is_empty (od_key d [])); [eauto|]. eapply IH; [exact H|].
    destruct (sm_mem (od_key d []) m); [exact Hk|]. destruct (vs_default (od_sem d)); [|exact Hk]. apply sm_set_keys. now right.
Qed.

Lemma store_grows p vm utf8 vm' r : store p vm utf8 = (vm', r) -> grows vm vm'.
Proof.
  intros H name. rewrite !entry_keys. intros Hk. unfold store in H. destruct (pr_desc p) as [ds|]; [|now injection H as <- _].
  destruct (store_options ds (pr_prefix p) (vm_final vm) utf8 (pr_options p) (vm_map vm) []) as [[m nf] r0] eqn:Eo.
  pose proof (store_options_keys _ _ _ _ _ _ _ _ _ _ Eo _ Hk) as Hm.
  destruct r0 as [[]|e|u|]; try (injection H as <- _; exact Hm).
  destruct (store_defaults ds (pr_prefix p) m (vm_required vm)) as [m' req] eqn:Edf.
  injection H as <- _. cbn [vm_map]. eapply store_defaults_keys; eauto.
Qed.

Lemma insert_grows vm name a b : grows vm (vm_insert vm name a b).
Proof.
  intros other H. rewrite entry_insert. destruct (str_eqb other name); [|exact H]. destruct (entry vm name); discriminate.
Qed.

Lemma assign_grows vm name a : grows vm (vm_assign vm name a).
Proof.
  intros other. rewrite !entry_keys. unfold vm_assign. destruct (sm_find name (vm_map vm)); [|auto]. cbn [vm_map]. rewrite sm_set_keys. auto.
Qed.

Lemma insert_sound vm name a b : sound vm -> sound (vm_insert vm name a b).
Proof.
  intros [H1 H2]. unfold vm_insert. destruct (sm_mem name (vm_map vm)); [now split|]. split; cbn; [now apply sm_set_sorted|exact H2].
Qed.

Lemma assign_sound vm name a : sound vm -> sound (vm_assign vm name a).
Proof.
  intros [H1 H2]. unfold vm_assign. destruct (sm_find name (vm_map vm)); [|now split]. split; cbn; [now apply sm_set_sorted|exact H2].
Qed.

Lemma erase_sound vm name : sound vm -> sound (vm_erase vm name).
Proof.
  intros [H1 H2]. split; [|exact H2]. cbn [vm_erase vm_map]. unfold sm_sorted in *. induction (vm_map vm) as [|[k v] m IH]; [exact H1|].
  cbn [keys map fst] in H1. inversion H1 as [|? ? H3 H4]; subst. cbn [filter fst].
  destruct (negb (str_eqb k name)); [|now apply IH]. cbn [keys map fst]. constructor; [now apply IH|].
  rewrite Forall_forall in *. intros x Hx. apply H4. unfold keys in *. apply in_map_iff in Hx as (kv & <- & Hx). apply filter_In in Hx.
  apply in_map. tauto.
Qed.

Lemma clear_sound vm : sound (vm_clear vm).
Proof. split; constructor. Qed.

(** ** Removed entries *)

Definition removed (name : str) (acts : list act) : bool := existsb (removes name) acts.

Lemma removed_app name a b : removed name (a ++ b) = removed name a || removed name b.
Proof. apply existsb_app. Qed.

Section Acts.
Variable P : act -> Prop.
Hypothesis H_event : forall e, P (AEvent e).
Hypothesis H_call : forall c, P (ACall c).
Hypothesis H_pass : forall xs, Forall (fun x => Forall P (vi_acts x)) xs -> P (APass xs).

Fixpoint every_act (a : act) : P a :=
  match a with
  | AEvent e => H_event e
  | ACall c => H_call c
  | APass xs =>
      H_pass xs ((fix each xs : Forall (fun x => Forall P (vi_acts x)) xs :=
        match xs with
        | [] => Forall_nil _
        | x :: xs' =>
            Forall_cons x
              (match x return Forall P (vi_acts x) with
               | mk_visit _ _ _ acts _ =>
                   (fix all acts : Forall P acts :=
                      match acts with
                      | [] => Forall_nil _
                      | y :: acts' => Forall_cons y (every_act y) (all acts')
                      end) acts
               end) (each xs')
        end) xs)
  end.
End Acts.

Lemma takes_out_one name a : takes_out name [a] ->
  a = ACall (IErase name) \/ a = ACall IClear \/ exists xs x, a = APass xs /\ In x xs /\ takes_out name (vi_acts x).
Proof.
  intros H. remember [a] as l eqn:E. destruct H as [l C|l C|l ys y C Hy Ht]; subst l; destruct C as [C|[]]; subst a; eauto 8.
Qed.

Lemma removed_from name acts : (forall a, In a acts -> removes name a = true <-> takes_out name [a]) ->
  removed name acts = true <-> takes_out name acts.
Proof.
  unfold removed. intros Ha. split.
  - intros H. apply existsb_exists in H as (a & Hi & H). apply (Ha a Hi) in H.
    apply takes_out_one in H as [->|[->|(ys & y & -> & Hy & Ht)]].
    + now apply to_erase.
    + now apply to_clear.
    + eapply to_pass; eauto.
  - intros H. apply existsb_exists. destruct H as [acts C|acts C|acts ys y C Hy Ht].
    + exists (ACall (IErase name)). split; [exact C|]. cbn. apply str_eqb_refl.
    + exists (ACall IClear). now split.
    + exists (APass ys). split; [exact C|]. apply (Ha _ C). eapply to_pass; [now left|exact Hy|exact Ht].
Qed.

Lemma removes_iff name a : removes name a = true <-> takes_out name [a].
Proof.
  induction a as [e|c|xs IH] using every_act.
  - split; [discriminate|]. intros H. apply takes_out_one in H as [C|[C|(ys & y & C & _)]]; discriminate.
  - split.
    + destruct c; cbn; try discriminate.
      * intros H. apply str_eqb_eq in H as ->. apply to_erase. now left.
      * intros _. apply to_clear. now left.
    + intros H. apply takes_out_one in H as [C|[C|(ys & y & C & _)]]; try discriminate; injection C as ->; cbn; [apply str_eqb_refl|reflexivity].
  - rewrite Forall_forall in IH.
    assert (G : forall x, In x xs -> removed name (vi_acts x) = true <-> takes_out name (vi_acts x)).
    { intros x Hx. apply removed_from. intros a Ha. specialize (IH x Hx). rewrite Forall_forall in IH. now apply IH. }
    cbn [removes]. rewrite existsb_exists. split.
    + intros (x & Hx & H). eapply to_pass; [now left|exact Hx|]. apply (G x Hx). now destruct x.
    + intros H. apply takes_out_one in H as [C|[C|(ys & y & C & Hy & Ht)]]; try discriminate. injection C as ->. exists y. split; [exact Hy|].
      apply (G y Hy) in Ht. now destruct y.
Qed.

Lemma removed_iff name acts : removed name acts = true <-> takes_out name acts.
Proof. apply removed_from. intros a _. apply removes_iff. Qed.

Lemma not_removed name acts : removed name acts = false <-> ~ takes_out name acts.
Proof. rewrite <- removed_iff. destruct (removed name acts); split; congruence. Qed.

(** What is in the map stays there, unless it is removed. *)
Definition keeps (acts : list act) (vm vm' : variables_map) : Prop :=
  forall name, entry vm name <> None -> entry vm' name <> None \/ takes_out name acts.

Lemma takes_out_incl name a b : takes_out name a -> incl a b -> takes_out name b.
Proof.
  intros H Hi. inversion H; subst.
  - apply to_erase; auto.
  - apply to_clear; auto.
  - eapply to_pass; eauto.
Qed.

Lemma keeps_refl acts vm : keeps acts vm vm.
Proof. intros name H. now left. Qed.

Lemma keeps_grows acts vm vm' : grows vm vm' -> keeps acts vm vm'.
Proof. intros H name Hn. left. auto. Qed.

Lemma keeps_trans a b acts vm1 vm2 vm3 : keeps a vm1 vm2 -> keeps b vm2 vm3 -> incl a acts -> incl b acts -> keeps acts vm1 vm3.
Proof.
  intros H1 H2 I1 I2 name Hn. destruct (H1 name Hn) as [K|K]; [|right; eapply takes_out_incl; eauto].
  destruct (H2 name K) as [L|L]; [now left|right; eapply takes_out_incl; eauto].
Qed.

Lemma keeps_incl a b vm1 vm2 : keeps a vm1 vm2 -> incl a b -> keeps b vm1 vm2.
Proof. intros H Hi. eapply keeps_trans; [exact H|apply keeps_refl|exact Hi|exact Hi]. Qed.

Lemma erase_keeps name vm : keeps [ACall (IErase name)] vm (vm_erase vm name).
Proof.
  intros other H. destruct (str_eqb other name) eqn:E.
  - right. apply str_eqb_eq in E as ->. apply to_erase. now left.
  - left. rewrite entry_erase, E. exact H.
Qed.

Lemma clear_keeps vm vm' : keeps [ACall IClear] vm vm'.
Proof. intros other _. right. apply to_clear. now left. Qed.

(** ** The next entry *)

Definition after (k : option str) (name : str) : Prop := match k with None => True | Some k => str_lt k name end.

Lemma after_b k name : match k with None => true | Some k => str_ltb k name end = true <-> after k name.
Proof. destruct k; cbn; [apply str_ltb_lt|tauto]. Qed.

Lemma next_Some k vm name v : sm_sorted (vm_map vm) -> next_entry k (vm_map vm) = Some (name, v) ->
  entry vm name = Some v /\ after k name /\ forall other, entry vm other <> None -> after k other -> other = name \/ str_lt name other.
Proof.
  unfold next_entry, entry. intros Hs H. set (m := vm_map vm) in *.
  assert (E : forall other, sm_find other m <> None <-> In other (keys m)).
  { intros other. apply (entry_keys vm other). }
  split; [|split].
  - apply List.find_some in H as [H _]. now apply sm_find_In_pair.
  - apply List.find_some in H as [_ H]. cbn in H. now apply after_b.
  - intros other Ho Ha. apply E in Ho. clear E.
    induction m as [|[k' v'] m IH]; [destruct Ho|]. cbn [List.find] in H. unfold sm_sorted in Hs. cbn [keys map fst] in Hs.
    inversion Hs as [|? ? Hs' Hf]; subst. cbn [keys map fst] in Ho.
    destruct (match k with None => true | Some k => str_ltb k (fst (k', v')) end) eqn:Ek; cbn [fst] in Ek.
    + injection H as <- <-. destruct Ho as [->|Ho]; [now left|]. right. rewrite Forall_forall in Hf. now apply Hf.
    + destruct Ho as [<-|Ho]; [|apply IH; auto]. apply after_b in Ha. cbn in Ha. congruence.
Qed.

Lemma next_None k vm : next_entry k (vm_map vm) = None -> forall other, entry vm other <> None -> ~ after k other.
Proof.
  unfold next_entry. intros H other Ho Ha. apply entry_keys in Ho. unfold keys in Ho. apply in_map_iff in Ho as ([k' v] & <- & Hi).
  pose proof (List.find_none _ _ H _ Hi) as N. cbn in N. apply after_b in Ha. cbn in Ha. congruence.
Qed.

(** ** The record of a pass *)

Section Pass.
Variable S : Type.
Variable notifier : nat -> value -> S -> variables_map -> program S.

Definition steady (pass : S -> variables_map -> S * variables_map * list visit * outcome unit) : Prop :=
  forall s vm s' vm' xs r, pass s vm = (s', vm', xs, r) -> sound vm -> sound vm' /\ keeps [APass xs] vm vm'.

Lemma run_steady pass : steady pass -> forall p vm s' vm' acts r,
  run_program S pass p vm = (s', vm', acts, r) -> sound vm -> sound vm' /\ keeps acts vm vm'.
Proof.
  intros Hp. induction p as [s [e|]|s c go_on IH]; intros vm s' vm' acts r H Hs; cbn [run_program] in H.
  - injection H as <- <- <- <-. split; [exact Hs|apply keeps_refl].
  - injection H as <- <- <- <-. split; [exact Hs|apply keeps_refl].
  - match type of H with (let (_, _) := ?x in _) = _ => destruct x as [[[s1 vm1] acts1] r1] eqn:E end.
    assert (G : sound vm1 /\ keeps acts1 vm vm1).
    { destruct c as [p utf8|name a b|name a|name| |].
      - destruct (store p vm utf8) as [vm2 r2] eqn:Es. injection E as <- <- <- <-. split.
        + destruct Hs. now apply (store_sorted _ _ _ _ _ Es).
        + apply keeps_grows. now apply store_grows in Es.
      - injection E as <- <- <- <-. split; [now apply insert_sound|apply keeps_grows, insert_grows].
      - injection E as <- <- <- <-. split; [now apply assign_sound|apply keeps_grows, assign_grows].
      - injection E as <- <- <- <-. split; [now apply erase_sound|apply erase_keeps].
      - injection E as <- <- <- <-. split; [apply clear_sound|apply clear_keeps].
      - destruct (pass s vm) as [[[s2 vm2] xs] r2] eqn:Es. injection E as <- <- <- <-. eapply Hp; eauto. }
    destruct G as [G1 G2].
    assert (K : forall x, (let '(s2, vm2, acts2, r2) := run_program S pass (go_on s1 vm1 x) vm1 in (s2, vm2, acts1 ++ acts2, r2)) = (s', vm', acts, r) ->
      sound vm' /\ keeps acts vm vm').
    { intros x Hx. destruct (run_program S pass (go_on s1 vm1 x) vm1) as [[[s2 vm2] acts2] r2] eqn:E2. injection Hx as <- <- <- <-.
      destruct (IH _ _ _ _ _ _ _ _ E2 G1) as [G3 G4]. split; [exact G3|].
      eapply keeps_trans; [exact G2|exact G4|apply incl_appl, incl_refl|apply incl_appr, incl_refl]. }
    destruct r1; [exact (K _ H)|exact (K _ H)| |]; injection H as <- <- <- <-; auto.
Qed.

Lemma perform_steady pass : steady pass -> forall evs r s vm s' vm' acts r',
  perform S notifier pass evs r s vm = (s', vm', acts, r') -> sound vm -> sound vm' /\ keeps acts vm vm'.
Proof.
  intros Hp. induction evs as [|[addr v|f v] evs IH]; intros r s vm s' vm' acts r' H Hs; cbn [perform] in H.
  - injection H as <- <- <- <-. split; [exact Hs|apply keeps_refl].
  - destruct (perform S notifier pass evs r s vm) as [[[s2 vm2] acts2] r2] eqn:E. injection H as <- <- <- <-.
    destruct (IH _ _ _ _ _ _ _ E Hs) as [G1 G2]. split; [exact G1|]. eapply keeps_incl; [exact G2|apply incl_tl, incl_refl].
  - destruct (run_program S pass (notifier f v s vm) vm) as [[[s1 vm1] acts1] r1] eqn:E.
    destruct (run_steady pass Hp _ _ _ _ _ _ E Hs) as [G1 G2].
    destruct r1 as [[]| | |]; try (injection H as <- <- <- <-; split; [exact G1|]; eapply keeps_incl; [exact G2|apply incl_tl, incl_refl]).
    destruct (perform S notifier pass evs r s1 vm1) as [[[s2 vm2] acts2] r2] eqn:E2. injection H as <- <- <- <-.
    destruct (IH _ _ _ _ _ _ _ E2 G1) as [G3 G4]. split; [exact G3|].
    eapply keeps_trans; [exact G2|exact G4|apply incl_tl, incl_appl, incl_refl|apply incl_tl, incl_appr, incl_refl].
Qed.

Lemma flat_acts_none l : (forall a, In a l -> forall e, a <> AEvent e) -> flat_map (fun a => match a with AEvent e => [e] | _ => [] end) l = [].
Proof.
  induction l as [|a l IH]; intros H; [reflexivity|]. cbn. rewrite IH by (intros x Hx; apply H; now right).
  destruct a; [destruct (H _ (or_introl eq_refl) _ eq_refl)|reflexivity|reflexivity].
Qed.

Lemma run_no_event pass p : forall vm s' vm' acts r, run_program S pass p vm = (s', vm', acts, r) -> forall a, In a acts -> forall e, a <> AEvent e.
Proof.
  induction p as [s [e|]|s c go_on IH]; intros vm s' vm' acts r H; cbn [run_program] in H.
  - injection H as <- <- <- <-. intros a [].
  - injection H as <- <- <- <-. intros a [].
  - match type of H with (let (_, _) := ?x in _) = _ => destruct x as [[[s1 vm1] acts1] r1] eqn:E end.
    assert (A : forall a, In a acts1 -> forall e, a <> AEvent e).
    { destruct c as [p utf8|name a b|name a|name| |].
      - destruct (store p vm utf8). injection E as <- <- <- <-. intros a [<-|[]]; discriminate.
      - injection E as <- <- <- <-. intros x [<-|[]]; discriminate.
      - injection E as <- <- <- <-. intros x [<-|[]]; discriminate.
      - injection E as <- <- <- <-. intros x [<-|[]]; discriminate.
      - injection E as <- <- <- <-. intros x [<-|[]]; discriminate.
      - destruct (pass s vm) as [[[? ?] ?] ?]. injection E as <- <- <- <-. intros x [<-|[]]; discriminate. }
    assert (K : forall x, (let '(s2, vm2, acts2, r2) := run_program S pass (go_on s1 vm1 x) vm1 in (s2, vm2, acts1 ++ acts2, r2)) = (s', vm', acts, r) ->
      forall a, In a acts -> forall e, a <> AEvent e).
    { intros x Hx. destruct (run_program S pass (go_on s1 vm1 x) vm1) as [[[s2 vm2] acts2] r2] eqn:E2. injection Hx as <- <- <- <-.
      intros a Ha. apply in_app_iff in Ha as [Ha|Ha]; [now apply A|]. eapply IH; eauto. }
    destruct r1; [exact (K _ H)|exact (K _ H)| |]; injection H as <- <- <- <-; exact A.
Qed.

Definition events_of (acts : list act) : list event := flat_map (fun a => match a with AEvent e => [e] | _ => [] end) acts.

Lemma perform_events pass : forall evs r s vm s' vm' acts r',
  perform S notifier pass evs r s vm = (s', vm', acts, r') ->
  (exists rest, evs = events_of acts ++ rest) /\ (r' = Ok tt -> evs = events_of acts /\ r = Ok tt).
Proof.
  induction evs as [|[addr v|f v] evs IH]; intros r s vm s' vm' acts r' H; cbn [perform] in H.
  - injection H as <- <- <- <-. split; [now exists []|]. auto.
  - destruct (perform S notifier pass evs r s vm) as [[[s2 vm2] acts2] r2] eqn:E. injection H as <- <- <- <-.
    destruct (IH _ _ _ _ _ _ _ E) as [(rest & E1) E2]. split.
    + exists rest. now rewrite E1.
    + intros ->. destruct (E2 eq_refl) as [E3 ->]. now rewrite E3.
  - destruct (run_program S pass (notifier f v s vm) vm) as [[[s1 vm1] acts1] r1] eqn:E.
    pose proof (run_no_event pass _ _ _ _ _ _ E) as N.
    destruct r1 as [[]| | |].
    + destruct (perform S notifier pass evs r s1 vm1) as [[[s2 vm2] acts2] r2] eqn:E2. injection H as <- <- <- <-.
      destruct (IH _ _ _ _ _ _ _ E2) as [(rest & E3) E4].
      assert (F : events_of (AEvent (EvCall f v) :: acts1 ++ acts2) = EvCall f v :: events_of acts2).
      { unfold events_of. cbn. f_equal. rewrite flat_map_app, (flat_acts_none _ N). reflexivity. }
      rewrite F. split; [exists rest; now rewrite E3|]. intros ->. destruct (E4 eq_refl) as [E5 ->]. now rewrite E5.
    + injection H as <- <- <- <-. split; [|discriminate]. exists evs. unfold events_of. cbn. rewrite (flat_acts_none _ N). reflexivity.
    + injection H as <- <- <- <-. split; [|discriminate]. exists evs. unfold events_of. cbn. rewrite (flat_acts_none _ N). reflexivity.
    + injection H as <- <- <- <-. split; [|discriminate]. exists evs. unfold events_of. cbn. rewrite (flat_acts_none _ N). reflexivity.
Qed.

(** Visits in the order of the names; each is of the entry that comes next. *)
Inductive sequence : option str -> list visit -> Prop :=
| sq_nil k : sequence k []
| sq_cons k x xs :
    after k (vi_name x) -> entry (vi_before x) (vi_name x) = Some (vi_entry x) ->
    (forall other, entry (vi_before x) other <> None -> after k other -> other = vi_name x \/ str_lt (vi_name x) other) ->
    keeps (vi_acts x) (vi_before x) (vi_after x) ->
    (exists rest, asked_effects x = own_effects x ++ rest) ->
    (xs <> [] -> asked_effects x = own_effects x /\ ~ takes_out (vi_name x) (vi_acts x)) ->
    sequence (Some (vi_name x)) xs -> sequence k (x :: xs).

Definition last_name (k : option str) (xs : list visit) : option str :=
  match rev xs with [] => k | x :: _ => Some (vi_name x) end.

Definition pass_of (fuel : nat) (s : S) (vm : variables_map) := notify_using S notifier fuel s vm.

Lemma from_eq fuel k s vm :
  notify_from S notifier (Datatypes.S fuel) k s vm =
  match next_entry k (vm_map vm) with
  | None => (s, vm, [], Ok tt)
  | Some (name, v) =>
      let '(s1, vm1, acts, r) :=
        match vv_sem v with
        | None => (s, vm, [], Ok tt)
        | Some sem => let (evs, r) := vs_notify sem (vv_value v) in perform S notifier (pass_of fuel) evs r s vm
        end in
      let x := mk_visit name v vm acts vm1 in
      match r with
      | Ok _ =>
          if removed name acts then (s1, vm1, [x], Undef UB_iterator)
          else let '(s2, vm2, visits, r2) := notify_from S notifier fuel (Some name) s1 vm1 in (s2, vm2, x :: visits, r2)
      | _ => (s1, vm1, [x], r)
      end
  end.
Proof. reflexivity. Qed.

Lemma last_name_cons k x xs : last_name (Some (vi_name x)) xs = last_name k (x :: xs).
Proof. unfold last_name. cbn [rev]. destruct (rev xs); reflexivity. Qed.

Lemma sequence_keeps xs : forall k vm vm', sequence k xs -> chained vm xs vm' ->
  forall name, entry vm name <> None -> entry vm' name <> None \/ exists x, In x xs /\ takes_out name (vi_acts x).
Proof.
  induction xs as [|x xs IH]; intros k vm vm' Hq Hc name Hn; cbn [chained] in Hc; [subst; now left|].
  destruct Hc as [<- Hc]. inversion Hq as [|? ? ? Q1 Q2 Q3 Q4 Q5 Q6 Q7]; subst. destruct (Q4 name Hn) as [K|K].
  - destruct (IH _ _ _ Q7 Hc name K) as [L|(y & L1 & L2)]; [now left|]. right. exists y. split; [now right|exact L2].
  - right. exists x. split; [now left|exact K].
Qed.

Lemma pass_keeps xs k vm vm' : sequence k xs -> chained vm xs vm' -> keeps [APass xs] vm vm'.
Proof.
  intros Hq Hc name Hn. destruct (sequence_keeps _ _ _ _ Hq Hc name Hn) as [K|(x & K1 & K2)]; [now left|]. right.
  eapply to_pass; [now left|exact K1|exact K2].
Qed.

Lemma from_spec fuel : (forall k s vm s' vm' xs r,
  notify_from S notifier fuel k s vm = (s', vm', xs, r) -> sound vm ->
  sound vm' /\ chained vm xs vm' /\ sequence k xs
  /\ (r = Ok tt -> Forall (fun x => asked_effects x = own_effects x /\ ~ takes_out (vi_name x) (vi_acts x)) xs /\ forall other, entry vm' other <> None -> ~ after (last_name k xs) other)
  /\ (r <> Ok tt -> r <> NoFuel -> xs <> []))
  /\ steady (pass_of fuel).
Proof.
  induction fuel as [|fuel [IH IHs]].
  - assert (A : forall k s vm s' vm' xs r, notify_from S notifier 0 k s vm = (s', vm', xs, r) -> sound vm ->
      sound vm' /\ chained vm xs vm' /\ sequence k xs
      /\ (r = Ok tt -> Forall (fun x => asked_effects x = own_effects x /\ ~ takes_out (vi_name x) (vi_acts x)) xs /\ forall other, entry vm' other <> None -> ~ after (last_name k xs) other)
      /\ (r <> Ok tt -> r <> NoFuel -> xs <> [])).
    { intros k s vm s' vm' xs r H Hs. injection H as <- <- <- <-. split; [exact Hs|]. split; [reflexivity|].
      split; [constructor|]. split; [discriminate|congruence]. }
    split; [exact A|]. intros s vm s' vm' xs r H Hs. unfold pass_of, notify_using in H. destruct (check_required _ _).
    + destruct (A _ _ _ _ _ _ _ H Hs) as (A1 & A2 & A3 & _). split; [exact A1|]. eapply pass_keeps; eauto.
    + injection H as <- <- <- <-. split; [exact Hs|apply keeps_refl].
    + injection H as <- <- <- <-. split; [exact Hs|apply keeps_refl].
    + injection H as <- <- <- <-. split; [exact Hs|apply keeps_refl].
  - assert (A : forall k s vm s' vm' xs r, notify_from S notifier (Datatypes.S fuel) k s vm = (s', vm', xs, r) -> sound vm ->
      sound vm' /\ chained vm xs vm' /\ sequence k xs
      /\ (r = Ok tt -> Forall (fun x => asked_effects x = own_effects x /\ ~ takes_out (vi_name x) (vi_acts x)) xs /\ forall other, entry vm' other <> None -> ~ after (last_name k xs) other)
      /\ (r <> Ok tt -> r <> NoFuel -> xs <> [])).
    { intros k s vm s' vm' xs r H Hs. rewrite from_eq in H. destruct (next_entry k (vm_map vm)) as [[name v]|] eqn:En.
      2:{ injection H as <- <- <- <-. split; [exact Hs|]. split; [reflexivity|]. split; [constructor|].
          split; [|congruence]. intros _. split; [constructor|]. intros other Ho. unfold last_name. cbn. exact (next_None _ _ En _ Ho). }
      destruct (next_Some _ _ _ _ (proj1 Hs) En) as (N1 & N2 & N3).
      match type of H with (let (_, _) := ?x in _) = _ => destruct x as [[[s1 vm1] acts] r1] eqn:E end.
      assert (G : sound vm1 /\ keeps acts vm vm1 /\ (exists rest, asked_effects (mk_visit name v vm acts vm1) = events_of acts ++ rest)
                  /\ (r1 = Ok tt -> asked_effects (mk_visit name v vm acts vm1) = events_of acts)).
      { unfold asked_effects. cbn [vi_entry]. destruct (vv_sem v) as [sem|].
        - destruct (vs_notify sem (vv_value v)) as [evs r0]. cbn [fst]. pose proof (perform_steady _ IHs _ _ _ _ _ _ _ _ E Hs) as [G1 G2].
          destruct (perform_events _ _ _ _ _ _ _ _ _ E) as [G3 G4]. split; [exact G1|]. split; [exact G2|]. split; [exact G3|].
          intros K. now destruct (G4 K).
        - injection E as <- <- <- <-. split; [exact Hs|]. split; [apply keeps_refl|]. split; [now exists []|reflexivity]. }
      destruct G as (G1 & G2 & G3 & G4). cbv zeta in H.
      assert (X : forall xs', sequence (Some name) xs' -> (xs' <> [] -> r1 = Ok tt /\ removed name acts = false) -> sequence k (mk_visit name v vm acts vm1 :: xs')).
      { intros xs' Hq Hx. constructor; auto. intros Hn. destruct (Hx Hn) as [-> Hr]. split; [now apply G4|now apply not_removed]. }
      destruct r1 as [[]|e|u|].
      - destruct (removed name acts) eqn:Er.
        { injection H as <- <- <- <-. split; [exact G1|]. split; [now split|]. split; [apply X; [constructor|congruence]|]. split; discriminate. }
        destruct (notify_from S notifier fuel (Some name) s1 vm1) as [[[s2 vm2] visits] r2] eqn:E2. injection H as <- <- <- <-.
        destruct (IH _ _ _ _ _ _ _ E2 G1) as (B1 & B3 & B4 & B5 & B6). split; [exact B1|].
        split; [now split|]. split; [now apply X|]. split; [|discriminate].
        intros K. destruct (B5 K) as [B7 B8]. split; [constructor; [split; [now apply G4|now apply not_removed]|exact B7]|].
        intros other Ho. change name with (vi_name (mk_visit name v vm acts vm1)) in B8. rewrite (last_name_cons k) in B8. now apply B8.
      - injection H as <- <- <- <-. split; [exact G1|]. split; [now split|]. split; [apply X; [constructor|congruence]|].
        split; discriminate.
      - injection H as <- <- <- <-. split; [exact G1|]. split; [now split|]. split; [apply X; [constructor|congruence]|].
        split; discriminate.
      - injection H as <- <- <- <-. split; [exact G1|]. split; [now split|]. split; [apply X; [constructor|congruence]|].
        split; discriminate. }
    split; [exact A|]. intros s vm s' vm' xs r H Hs. unfold pass_of, notify_using in H. destruct (check_required _ _).
    + destruct (A _ _ _ _ _ _ _ H Hs) as (A1 & A2 & A3 & _). split; [exact A1|]. eapply pass_keeps; eauto.
    + injection H as <- <- <- <-. split; [exact Hs|apply keeps_refl].
    + injection H as <- <- <- <-. split; [exact Hs|apply keeps_refl].
    + injection H as <- <- <- <-. split; [exact Hs|apply keeps_refl].
Qed.
(** ** Everything is visited *)

Lemma sequence_complete xs : forall k vm vm', sequence k xs -> chained vm xs vm' ->
  (forall other, entry vm' other <> None -> ~ after (last_name k xs) other) ->
  forall other, entry vm other <> None -> after k other ->
  In other (visited xs) \/ exists x, In x xs /\ str_lt (vi_name x) other /\ takes_out other (vi_acts x).
Proof.
  induction xs as [|x xs IH]; intros k vm vm' Hq Hc He other Ho Ha.
  - cbn in Hc. subst vm'. exfalso. exact (He other Ho Ha).
  - cbn [chained] in Hc. destruct Hc as [<- Hc]. inversion Hq as [|? ? ? Q1 Q2 Q3 Q4 Q5 Q6 Q7]; subst.
    destruct (Q3 other Ho Ha) as [->|Hl]; [left; now left|]. destruct (Q4 other Ho) as [K|K]; [|right; exists x; split; [now left|auto]].
    destruct (IH (Some (vi_name x)) _ _ Q7 Hc) with (other := other) as [I1|(y & I1 & I2)]; auto.
    + rewrite (last_name_cons k). exact He.
    + left. now right.
    + right. exists y. split; [now right|exact I2].
Qed.

Lemma sequence_after xs : forall k, sequence k xs -> Forall (after k) (visited xs) /\ StronglySorted str_lt (visited xs).
Proof.
  induction xs as [|x xs IH]; intros k Hq; cbn [visited map]; [split; constructor|].
  inversion Hq as [|? ? ? Q1 Q2 Q3 Q4 Q5 Q6 Q7]; subst. destruct (IH _ Q7) as [I1 I2]. split.
  - constructor; [exact Q1|]. eapply Forall_impl; [|exact I1]. intros n Hn. cbn in Hn. destruct k as [k|]; [|exact I].
    cbn in Q1 |- *. eapply str_lt_trans; eauto.
  - constructor; [exact I2|]. exact I1.
Qed.

Lemma sequence_split l x r : forall k, sequence k (l ++ x :: r) ->
  sequence (Some (vi_name x)) r /\ keeps (vi_acts x) (vi_before x) (vi_after x) /\ entry (vi_before x) (vi_name x) = Some (vi_entry x)
  /\ (l <> [] -> Forall (fun y => asked_effects y = own_effects y /\ ~ takes_out (vi_name y) (vi_acts y)) l).
Proof.
  induction l as [|y l IH]; intros k Hq; cbn [app] in Hq; inversion Hq as [|? ? ? Q1 Q2 Q3 Q4 Q5 Q6 Q7]; subst.
  - split; [exact Q7|]. split; [exact Q4|]. split; [exact Q2|congruence].
  - destruct (IH _ Q7) as (I1 & I2 & I3 & I4). split; [exact I1|]. split; [exact I2|]. split; [exact I3|]. intros _. constructor.
    + apply Q6. now destruct l.
    + destruct l; [constructor|]. apply I4. discriminate.
Qed.

Lemma chained_split l x r : forall vm vm', chained vm (l ++ x :: r) vm' -> chained vm l (vi_before x) /\ chained (vi_after x) r vm'.
Proof.
  induction l as [|y l IH]; intros vm vm' H; cbn [app chained] in *.
  - destruct H as [-> H]. auto.
  - destruct H as [H1 H2]. destruct (IH _ _ H2). auto.
Qed.

Lemma chained_keeps xs : forall k vm vm', sequence k xs -> chained vm xs vm' ->
  forall name, In name (visited xs) -> entry vm' name <> None \/ exists x, In x xs /\ takes_out name (vi_acts x).
Proof.
  induction xs as [|x xs IH]; intros k vm vm' Hq Hc name Hn; [destruct Hn|]. cbn [chained] in Hc.
  destruct Hc as [<- Hc]. inversion Hq as [|? ? ? Q1 Q2 Q3 Q4 Q5 Q6 Q7]; subst. destruct Hn as [<-|Hn].
  - destruct (Q4 (vi_name x)) as [K|K]; [congruence| |right; exists x; split; [now left|exact K]].
    destruct (sequence_keeps _ _ _ _ Q7 Hc _ K) as [L|(y & L1 & L2)]; [now left|]. right. exists y. split; [now right|exact L2].
  - destruct (IH _ _ _ Q7 Hc name Hn) as [L|(y & L1 & L2)]; [now left|]. right. exists y. split; [now right|exact L2].
Qed.

Lemma sequence_prefix l r : forall k, sequence k (l ++ r) -> sequence k l.
Proof.
  induction l as [|y l IH]; intros k Hq; [constructor|]. cbn [app] in Hq. inversion Hq as [|? ? ? Q1 Q2 Q3 Q4 Q5 Q6 Q7]; subst.
  constructor; auto. intros Hl. apply Q6. now destruct l.
Qed.

Lemma last_name_app k l x r : last_name k (l ++ x :: r) = last_name (Some (vi_name x)) r.
Proof.
  unfold last_name. rewrite rev_app_distr. cbn [rev]. destruct (rev r) eqn:E; cbn; reflexivity.
Qed.

Lemma added_iff l x r vm vm' name : sequence None (l ++ x :: r) -> chained vm (l ++ x :: r) vm' ->
  (forall other, entry vm' other <> None -> ~ after (last_name None (l ++ x :: r)) other) ->
  entry (vi_before x) name = None -> entry (vi_after x) name <> None ->
  (In name (visited (l ++ [x])) -> exists y, In y l /\ takes_out name (vi_acts y))
  /\ (In name (visited r) -> str_lt (vi_name x) name)
  /\ (str_lt (vi_name x) name -> In name (visited r) \/ exists y, In y r /\ str_lt (vi_name y) name /\ takes_out name (vi_acts y)).
Proof.
  intros Hq Hc He H1 H2. destruct (sequence_split _ _ _ _ Hq) as (S1 & S2 & S3 & _). destruct (chained_split _ _ _ _ _ Hc) as [C1 C2]. split.
  - intros Hi. unfold visited in Hi. rewrite map_app, in_app_iff in Hi. destruct Hi as [Hi|[Hi|[]]].
    + destruct (chained_keeps _ _ _ _ (sequence_prefix _ _ _ Hq) C1 name Hi) as [K|K]; [contradiction|exact K].
    + congruence.
  - split.
    + intros Hi. destruct (sequence_after _ _ S1) as [A _]. rewrite Forall_forall in A. exact (A _ Hi).
    + intros Hl. rewrite last_name_app in He. exact (sequence_complete _ _ _ _ S1 C2 He _ H2 Hl).
Qed.

(** ** How it ends *)

Lemma from_throw fuel : forall k s vm s' vm' xs r, notify_from S notifier fuel k s vm = (s', vm', xs, r) -> r <> Ok tt -> r <> NoFuel ->
  xs <> [].
Proof.
  destruct fuel; intros k s vm s' vm' xs r H H1 H2; [injection H as <- <- <- <-; congruence|].
  rewrite from_eq in H. destruct (next_entry k (vm_map vm)) as [[name v]|]; [|injection H as <- <- <- <-; congruence].
  match type of H with (let (_, _) := ?x in _) = _ => destruct x as [[[s1 vm1] acts] r1] eqn:E end. cbv zeta in H.
  destruct r1; [|injection H as <- <- <- <-; discriminate|injection H as <- <- <- <-; discriminate|injection H as <- <- <- <-; discriminate].
  destruct (removed name acts); [injection H as <- <- <- <-; discriminate|].
  destruct (notify_from S notifier fuel (Some name) s1 vm1) as [[[s2 vm2] visits] r2]. injection H as <- <- <- <-. discriminate.
Qed.

(** ** More fuel does not change the result *)

Definition covers (p1 p2 : S -> variables_map -> S * variables_map * list visit * outcome unit) : Prop :=
  forall s vm, snd (p1 s vm) <> NoFuel -> p2 s vm = p1 s vm.

Lemma run_covers p1 p2 : covers p1 p2 -> forall p vm,
  snd (run_program S p1 p vm) <> NoFuel -> run_program S p2 p vm = run_program S p1 p vm.
Proof.
  intros Hp. induction p as [s [e|]|s c go_on IH]; intros vm H; cbn [run_program] in *; auto.
  destruct c as [p utf8|name a b|name a|name| |].
  - destruct (store p vm utf8) as [vm1 r]. destruct r; auto.
    + specialize (IH s vm1 (Ok a) vm1). destruct (run_program S p1 (go_on s vm1 (Ok a)) vm1) as [[[s2 vm2] acts2] r2]. cbn [snd] in *. now rewrite IH.
    + specialize (IH s vm1 (Throw e) vm1). destruct (run_program S p1 (go_on s vm1 (Throw e)) vm1) as [[[s2 vm2] acts2] r2]. cbn [snd] in *. now rewrite IH.
  - match goal with |- context [run_program S p1 ?q ?v] => specialize (IH s v (Ok tt) v); destruct (run_program S p1 q v) as [[[s2 vm2] acts2] r2] end.
    cbn [snd] in *. now rewrite IH.
  - match goal with |- context [run_program S p1 ?q ?v] => specialize (IH s v (Ok tt) v); destruct (run_program S p1 q v) as [[[s2 vm2] acts2] r2] end.
    cbn [snd] in *. now rewrite IH.
  - match goal with |- context [run_program S p1 ?q ?v] => specialize (IH s v (Ok tt) v); destruct (run_program S p1 q v) as [[[s2 vm2] acts2] r2] end.
    cbn [snd] in *. now rewrite IH.
  - match goal with |- context [run_program S p1 ?q ?v] => specialize (IH s v (Ok tt) v); destruct (run_program S p1 q v) as [[[s2 vm2] acts2] r2] end.
    cbn [snd] in *. now rewrite IH.
  - specialize (Hp s vm). destruct (p1 s vm) as [[[s1 vm1] visits] r] eqn:E1. cbn [snd] in Hp.
    destruct r as [u|e|u|]; [| | |cbn in H; congruence]; rewrite Hp by discriminate; auto.
    + specialize (IH s1 vm1 (Ok u) vm1). destruct (run_program S p1 (go_on s1 vm1 (Ok u)) vm1) as [[[s2 vm2] acts2] r2]. cbn [snd] in *. now rewrite IH.
    + specialize (IH s1 vm1 (Throw e) vm1). destruct (run_program S p1 (go_on s1 vm1 (Throw e)) vm1) as [[[s2 vm2] acts2] r2]. cbn [snd] in *. now rewrite IH.
Qed.

Lemma perform_covers p1 p2 : covers p1 p2 -> forall evs r s vm,
  snd (perform S notifier p1 evs r s vm) <> NoFuel -> perform S notifier p2 evs r s vm = perform S notifier p1 evs r s vm.
Proof.
  intros Hp. induction evs as [|[addr v|f v] evs IH]; intros r s vm H; cbn [perform] in *; [reflexivity| |].
  - specialize (IH r s vm). destruct (perform S notifier p1 evs r s vm) as [[[s2 vm2] acts2] r2]. cbn [snd] in *. now rewrite IH.
  - pose proof (run_covers p1 p2 Hp (notifier f v s vm) vm) as R.
    destruct (run_program S p1 (notifier f v s vm) vm) as [[[s1 vm1] acts1] r1]. cbn [snd] in R.
    destruct r1 as [u|e|u|]; [| | |cbn in H; congruence]; rewrite R by discriminate; auto.
    specialize (IH r s1 vm1). destruct (perform S notifier p1 evs r s1 vm1) as [[[s2 vm2] acts2] r2]. cbn [snd] in *. now rewrite IH.
Qed.

Lemma from_more fuel : forall k s vm, snd (notify_from S notifier fuel k s vm) <> NoFuel ->
  notify_from S notifier (Datatypes.S fuel) k s vm = notify_from S notifier fuel k s vm.
Proof.
  induction fuel as [|fuel IH]; intros k s vm H; [cbn in H; congruence|].
  rewrite (from_eq (Datatypes.S fuel)). rewrite (from_eq fuel) in H |- *.
  assert (C : covers (pass_of fuel) (pass_of (Datatypes.S fuel))).
  { intros s0 vm0 H0. unfold pass_of, notify_using in *. destruct (check_required _ _); auto. }
  destruct (next_entry k (vm_map vm)) as [[name v]|]; [|reflexivity].
  destruct (vv_sem v) as [sem|].
  - destruct (vs_notify sem (vv_value v)) as [evs r]. pose proof (perform_covers _ _ C evs r s vm) as P.
    destruct (perform S notifier (pass_of fuel) evs r s vm) as [[[s1 vm1] acts] r1]. cbn [snd] in P. cbv zeta in *.
    destruct r1 as [u|e|u|]; [| | |cbn in H; congruence]; rewrite P by discriminate; auto.
    destruct (removed name acts); [reflexivity|].
    specialize (IH (Some name) s1 vm1). destruct (notify_from S notifier fuel (Some name) s1 vm1) as [[[s2 vm2] visits] r2]. cbn [snd] in *. now rewrite IH.
  - cbv zeta in *. cbn [removed existsb] in *. specialize (IH (Some name) s vm). destruct (notify_from S notifier fuel (Some name) s vm) as [[[s2 vm2] visits] r2]. cbn [snd] in *. now rewrite IH.
Qed.

Lemma using_more fuel n s vm : snd (notify_using S notifier fuel s vm) <> NoFuel ->
  notify_using S notifier (n + fuel) s vm = notify_using S notifier fuel s vm.
Proof.
  intros H. induction n as [|n IH]; [reflexivity|]. rewrite <- IH. cbn [Nat.add]. unfold notify_using in *.
  destruct (check_required (vm_required vm) (vm_map vm)); try reflexivity. apply from_more. now rewrite IH.
Qed.

(** ** Enough fuel *)

Lemma store_options_new ds prefix final utf8 opts : forall m nf m' nf' r,
  store_options ds prefix final utf8 opts m nf = (m', nf', r) ->
  forall k, In k (keys m') -> In k (keys m) \/ exists o, In o opts /\ po_key o = k.
Proof.
  induction opts as [|o opts IH]; intros m nf m' nf' r H k Hk; cbn [store_options] in H.
  - injection H as <- _ _. now left.
  - assert (R : forall m1 nf1, store_options ds prefix final utf8 opts m1 nf1 = (m', nf', r) -> (In k (keys m1) -> In k (keys m) \/ po_key o = k) ->
      In k (keys m) \/ exists o', In o' (o :: opts) /\ po_key o' = k).
    { intros m1 nf1 H1 K. destruct (IH _ _ _ _ _ H1 k Hk) as [H2|(o' & H2 & H3)].
      - destruct (K H2); [now left|]. right. exists o. split; [now left|assumption].
      - right. exists o'. split; [now right|exact H3]. }
    destruct (is_empty (po_key o)); [apply (R _ _ H); tauto|]. destruct (po_unreg o); [apply (R _ _ H); tauto|].
    destruct (ss_mem (po_key o) final); [apply (R _ _ H); tauto|].
    destruct (find ds (po_key o) false false false) as [d|e|u|]; try (injection H as <- _ _; now left).
    destruct (vs_parse _ _ _ _) as [a [[]|e|u|]].
    + apply (R _ _ H). rewrite sm_set_keys. intuition auto.
    + injection H as <- _ _. apply sm_set_keys in Hk as [->|Hk]; [|now left]. right. exists o. split; [now left|reflexivity].
    + injection H as <- _ _. now left.
    + injection H as <- _ _. now left.
Qed.

Lemma store_defaults_new prefix ds : forall m req m' req',
  store_defaults ds prefix m req = (m', req') -> forall k, In k (keys m') -> In k (keys m) \/ exists d, In d ds /\ od_key d [] = k.
Proof.
  induction ds as [|d ds IH]; intros m req m' req' H k Hk; cbn [store_defaults] in H.
  - injection H as <- <-. now left.
  - assert (R : forall m1 req1, store_defaults ds prefix m1 req1 = (m', req') -> (In k (keys m1) -> In k (keys m) \/ od_key d [] = k) ->
      In k (keys m) \/ exists d', In d' (d :: ds) /\ od_key d' [] = k).
    { intros m1 req1 H1 K. destruct (IH _ _ _ _ H1 k Hk) as [H2|(o' & H2 & H3)].
      - destruct (K H2); [now left|]. right. exists d. split; [now left|assumption].
      - right. exists o'. split; [now right|exact H3]. }
    destruct (is_empty (od_key d [])); [apply (R _ _ H); tauto|]. apply (R _ _ H).
    destruct (sm_mem (od_key d []) m); [tauto|]. destruct (vs_default (od_sem d)); [|tauto]. rewrite sm_set_keys. intuition auto.
Qed.

Definition all_in (ks : list str) (vm : variables_map) : Prop := forall k, In k (keys (vm_map vm)) -> In k ks.

Lemma store_all_in ks p vm utf8 vm' r : store p vm utf8 = (vm', r) -> within_call ks (IStore p utf8) -> all_in ks vm -> all_in ks vm'.
Proof.
  intros H [H1 H2] Ha k Hk. unfold store in H. destruct (pr_desc p) as [ds|] eqn:Ed; [|injection H as <- _; now apply Ha].
  destruct (store_options ds (pr_prefix p) (vm_final vm) utf8 (pr_options p) (vm_map vm) []) as [[m nf] r0] eqn:Eo.
  assert (Hm : forall k, In k (keys m) -> In k ks).
  { intros x Hx. destruct (store_options_new _ _ _ _ _ _ _ _ _ _ Eo x Hx) as [H3|(o & H3 & <-)]; auto. }
  destruct r0 as [[]|e|u|]; try (injection H as <- _; now apply Hm).
  destruct (store_defaults ds (pr_prefix p) m (vm_required vm)) as [m' req] eqn:Edf. injection H as <- _. cbn [vm_map] in Hk.
  destruct (store_defaults_new _ _ _ _ _ _ Edf k Hk) as [H3|(d & H3 & <-)]; [auto|]. eapply H2; eauto.
Qed.

Lemma run_within ks p1 p2 p : within ks p -> forall vm, all_in ks vm ->
  run_program S p1 p vm = run_program S p2 p vm /\ all_in ks (snd (fst (fst (run_program S p1 p vm)))).
Proof.
  induction 1 as [s [e|]|s c go_on Hc _ IH]; intros vm Ha; cbn [run_program]; [now split|now split|].
  destruct c as [p utf8|name a b|name a|name| |]; [| | | | |destruct Hc].
  - destruct (store p vm utf8) as [vm1 r] eqn:Es. pose proof (store_all_in _ _ _ _ _ _ Es Hc Ha) as Ha1.
    destruct r as [u|e|u|]; [| |now split|now split].
    + destruct (IH s vm1 (Ok u) vm1 Ha1) as [<- I2]. split; [reflexivity|]. destruct (run_program S p1 _ vm1) as [[[s2 vm2] acts2] r2]. exact I2.
    + destruct (IH s vm1 (Throw e) vm1 Ha1) as [<- I2]. split; [reflexivity|]. destruct (run_program S p1 _ vm1) as [[[s2 vm2] acts2] r2]. exact I2.
  - assert (Ha1 : all_in ks (vm_insert vm name a b)).
    { intros k. unfold vm_insert. destruct (sm_mem name (vm_map vm)); [apply Ha|]. cbn [vm_map]. rewrite sm_set_keys. intros [->|Hk]; [exact Hc|now apply Ha]. }
    destruct (IH s (vm_insert vm name a b) (Ok tt) _ Ha1) as [<- I2]. split; [reflexivity|].
    match type of I2 with context [run_program S p1 ?q ?v] => destruct (run_program S p1 q v) as [[[s2 vm2] acts2] r2] end. exact I2.
  - assert (Ha1 : all_in ks (vm_assign vm name a)).
    { intros k. unfold vm_assign. destruct (sm_find name (vm_map vm)) eqn:E; [|apply Ha]. cbn [vm_map]. rewrite sm_set_keys.
      intros [->|Hk]; [|now apply Ha]. apply Ha. apply sm_find_In. eauto. }
    destruct (IH s (vm_assign vm name a) (Ok tt) _ Ha1) as [<- I2]. split; [reflexivity|].
    match type of I2 with context [run_program S p1 ?q ?v] => destruct (run_program S p1 q v) as [[[s2 vm2] acts2] r2] end. exact I2.
  - assert (Ha1 : all_in ks (vm_erase vm name)).
    { intros k Hk. apply Ha. apply entry_keys. apply entry_keys in Hk. rewrite entry_erase in Hk. now destruct (str_eqb k name). }
    destruct (IH s (vm_erase vm name) (Ok tt) _ Ha1) as [<- I2]. split; [reflexivity|].
    match type of I2 with context [run_program S p1 ?q ?v] => destruct (run_program S p1 q v) as [[[s2 vm2] acts2] r2] end. exact I2.
  - assert (Ha1 : all_in ks (vm_clear vm)) by (intros k []).
    destruct (IH s (vm_clear vm) (Ok tt) _ Ha1) as [<- I2]. split; [reflexivity|].
    match type of I2 with context [run_program S p1 ?q ?v] => destruct (run_program S p1 q v) as [[[s2 vm2] acts2] r2] end. exact I2.
Qed.

Lemma perform_within ks p1 p2 : (forall f v s vm, within ks (notifier f v s vm)) -> forall evs r s vm, all_in ks vm ->
  perform S notifier p1 evs r s vm = perform S notifier p2 evs r s vm /\ all_in ks (snd (fst (fst (perform S notifier p1 evs r s vm)))).
Proof.
  intros Hw. induction evs as [|[addr v|f v] evs IH]; intros r s vm Ha; cbn [perform]; [now split| |].
  - destruct (IH r s vm Ha) as [<- I2]. split; [reflexivity|]. destruct (perform S notifier p1 evs r s vm) as [[[s2 vm2] acts2] r2]. exact I2.
  - destruct (run_within ks p1 p2 _ (Hw f v s vm) vm Ha) as [<- I2].
    destruct (run_program S p1 (notifier f v s vm) vm) as [[[s1 vm1] acts1] r1]. cbn [fst snd] in I2.
    destruct r1 as [u|e|u|]; [|now split|now split|now split]. destruct (IH r s1 vm1 I2) as [<- I3]. split; [reflexivity|].
    destruct (perform S notifier p1 evs r s1 vm1) as [[[s2 vm2] acts2] r2]. exact I3.
Qed.

Definition afterb (k : option str) (name : str) : bool := match k with None => true | Some k => str_ltb k name end.

Lemma afterb_iff k name : afterb k name = true <-> after k name.
Proof. apply after_b. Qed.

Lemma from_within ks : (forall f v s vm, within ks (notifier f v s vm)) -> forall fuel n k s vm, sound vm -> all_in ks vm ->
  List.length (filter (afterb k) ks) < fuel -> notify_from S notifier (n + fuel) k s vm = notify_from S notifier fuel k s vm.
Proof.
  intros Hw. induction fuel as [|fuel IH]; intros n k s vm Hs Ha Hl; [lia|]. rewrite Nat.add_succ_r, !from_eq.
  destruct (next_entry k (vm_map vm)) as [[name v]|] eqn:En; [|reflexivity]. destruct (next_Some _ _ _ _ (proj1 Hs) En) as (N1 & N2 & _).
  assert (L : List.length (filter (afterb (Some name)) ks) < List.length (filter (afterb k) ks)).
  { assert (Hi : In name ks) by (apply Ha, entry_keys; congruence). clear - Hi N2.
    assert (LE : forall l, List.length (filter (afterb (Some name)) l) <= List.length (filter (afterb k) l)).
    { intros l. induction l as [|y l IHl]; [apply le_n|]. cbn [filter]. destruct (afterb (Some name) y) eqn:E1.
      - assert (E2 : afterb k y = true).
        { apply afterb_iff. apply afterb_iff in E1. cbn in E1. destruct k as [k|]; [|exact I]. cbn in N2 |- *. eapply str_lt_trans; eauto. }
        rewrite E2. cbn. lia.
      - destruct (afterb k y); cbn; lia. }
    induction ks as [|y ks IHk]; [destruct Hi|]. cbn [filter]. destruct Hi as [->|Hi].
    - assert (E1 : afterb (Some name) name = false).
      { destruct (afterb (Some name) name) eqn:E; [|reflexivity]. cbn in E. apply str_ltb_lt in E. now apply str_lt_irrefl in E. }
      rewrite E1. apply afterb_iff in N2. rewrite N2. cbn. specialize (LE ks). lia.
    - specialize (IHk Hi). specialize (LE [y]). cbn [filter] in LE. destruct (afterb (Some name) y), (afterb k y); cbn in *; lia. }
  destruct (vv_sem v) as [sem|].
  - destruct (vs_notify sem (vv_value v)) as [evs r].
    destruct (perform_within ks (pass_of (n + fuel)) (pass_of fuel) Hw evs r s vm Ha) as [P1 P2]. rewrite <- P1.
    destruct (from_spec fuel) as [_ St]. pose proof (perform_steady (pass_of fuel) St evs r s vm) as G. rewrite <- P1 in G.
    destruct (perform S notifier (pass_of (n + fuel)) evs r s vm) as [[[s1 vm1] acts] r1]. cbn [fst snd] in P2.
    destruct (G _ _ _ _ eq_refl Hs) as [G1 _]. cbv zeta. destruct r1; [|reflexivity|reflexivity|reflexivity].
    destruct (removed name acts); [reflexivity|]. rewrite IH; auto. lia.
  - cbv zeta. cbn [removed existsb]. rewrite IH; auto. lia.
Qed.

(** ** Harmless notifiers *)

Lemma next_filter k vm name v : sm_sorted (vm_map vm) -> next_entry k (vm_map vm) = Some (name, v) ->
  filter (fun kv => afterb k (fst kv)) (vm_map vm) = (name, v) :: filter (fun kv => afterb (Some name) (fst kv)) (vm_map vm).
Proof.
  unfold next_entry. fold (afterb k). intros Hs H. set (m := vm_map vm) in *. clearbody m. clear vm.
  induction m as [|[k' v'] m IH]; [discriminate|]. cbn [List.find] in H. unfold sm_sorted in Hs. cbn [keys map fst] in Hs.
  inversion Hs as [|? ? Hs' Hf]; subst. cbn [filter fst].
  assert (G : forall n, (n = k' \/ str_lt n k') -> forall k0 v0, In (k0, v0) m -> str_lt n k0).
  { intros n Hn k0 v0 Hi. rewrite Forall_forall in Hf. assert (K : str_lt k' k0) by (apply Hf; unfold keys; apply in_map_iff; exists (k0, v0); auto).
    destruct Hn as [->|Hn]; [exact K|]. eapply str_lt_trans; eauto. }
  change (match k with None => true | Some k => str_ltb k (fst (k', v')) end) with (afterb k k') in H.
  destruct (afterb k k') eqn:E.
  - injection H as <- <-. assert (E1 : afterb (Some k') k' = false).
    { destruct (afterb (Some k') k') eqn:E1; [|reflexivity]. cbn in E1. apply str_ltb_lt in E1. now apply str_lt_irrefl in E1. }
    rewrite E1. f_equal.
    assert (A1 : forall k0, (forall a b, In (a, b) m -> afterb k0 a = true) -> filter (fun kv => afterb k0 (fst kv)) m = m).
    { clear. intros k0. induction m as [|[a b] m IH]; intros H; [reflexivity|]. cbn [filter fst]. rewrite (H a b) by now left.
      f_equal. apply IH. intros a' b' Hi. apply (H a' b'). now right. }
    rewrite !A1; auto.
    + intros a b Hi. apply afterb_iff. cbn. apply (G k' (or_introl eq_refl) _ _ Hi).
    + intros a b Hi. apply afterb_iff. destruct k as [k|]; [|exact I]. cbn. apply afterb_iff in E. cbn in E. eapply G; eauto.
  - specialize (IH Hs' H). rewrite IH. assert (E1 : afterb (Some name) k' = false).
    { destruct (afterb (Some name) k') eqn:E1; [|reflexivity]. apply afterb_iff in E1. cbn in E1. apply List.find_some in H as [Hi _].
      pose proof (G k' (or_introl eq_refl) _ _ Hi) as K. exfalso. exact (str_lt_asym K E1). }
    now rewrite E1.
Qed.

Lemma next_filter_none k vm : next_entry k (vm_map vm) = None -> filter (fun kv => afterb k (fst kv)) (vm_map vm) = [].
Proof.
  unfold next_entry. change (fun kv : str * variable_value => match k with None => true | Some k => str_ltb k (fst kv) end)
    with (fun kv : str * variable_value => afterb k (fst kv)).
  set (m := vm_map vm). clearbody m. induction m as [|[k' v'] m IH]; [reflexivity|]. cbn [List.find filter fst].
  destruct (afterb k k'); [discriminate|exact IH].
Qed.

Lemma perform_harmless pass : harmless notifier -> forall evs r s vm, exists s', perform S notifier pass evs r s vm = (s', vm, map AEvent evs, r).
Proof.
  intros Hh. induction evs as [|[addr v|f v] evs IH]; intros r s vm; cbn [perform].
  - now exists s.
  - destruct (IH r s vm) as (s' & ->). now exists s'.
  - destruct (Hh f v s vm) as (s1 & ->). cbn [run_program]. destruct (IH r s1 vm) as (s' & ->). now exists s'.
Qed.

Lemma own_all name v vm evs vm' : own_effects (mk_visit name v vm (map AEvent evs) vm') = evs.
Proof. unfold own_effects. cbn [vi_acts]. induction evs as [|e evs IH]; [reflexivity|]. cbn. now rewrite IH. Qed.

Lemma removed_events name evs : removed name (map AEvent evs) = false.
Proof. unfold removed. induction evs as [|e evs IH]; [reflexivity|exact IH]. Qed.

Lemma from_harmless : harmless notifier -> forall fuel k s vm, sound vm ->
  List.length (filter (fun kv => afterb k (fst kv)) (vm_map vm)) < fuel ->
  exists s' xs, notify_from S notifier fuel k s vm
    = (s', vm, xs, snd (run_notify (filter (fun kv => afterb k (fst kv)) (vm_map vm))))
    /\ flat_map own_effects xs = fst (run_notify (filter (fun kv => afterb k (fst kv)) (vm_map vm))).
Proof.
  intros Hh. induction fuel as [|fuel IH]; intros k s vm Hs Hl; [lia|]. rewrite from_eq.
  destruct (next_entry k (vm_map vm)) as [[name v]|] eqn:En.
  2:{ rewrite (next_filter_none _ _ En). exists s, []. split; reflexivity. }
  rewrite (next_filter _ _ _ _ (proj1 Hs) En) in Hl |- *. cbn [List.length] in Hl. cbn [run_notify].
  destruct (vv_sem v) as [sem|].
  - destruct (vs_notify sem (vv_value v)) as [evs r]. destruct (perform_harmless (pass_of fuel) Hh evs r s vm) as (s1 & ->). cbv zeta.
    destruct r as [[]|e|u|]; try (eexists s1, [_]; split; [reflexivity|]; cbn [flat_map]; rewrite app_nil_r, own_all; reflexivity).
    destruct (IH (Some name) s1 vm Hs) as (s2 & xs & E & F); [lia|]. rewrite removed_events, E. clear E.
    destruct (run_notify (filter (fun kv => afterb (Some name) (fst kv)) (vm_map vm))) as [ev' r']. cbn [fst snd] in *.
    eexists s2, (_ :: xs). split; [reflexivity|]. cbn [flat_map]. now rewrite own_all, F.
  - cbv zeta. cbn [removed existsb]. destruct (IH (Some name) s vm Hs) as (s2 & xs & E & F); [lia|]. rewrite E. exists s2. eexists. split; [reflexivity|]. exact F.
Qed.

(** ** Notifiers that call [notify] first *)

Definition never (pass : S -> variables_map -> S * variables_map * list visit * outcome unit) (vm : variables_map) : Prop :=
  forall s, exists s' xs, pass s vm = (s', vm, xs, NoFuel).

Lemma perform_never pass vm : starts_over notifier -> never pass vm -> forall evs r s,
  (exists f v, In (EvCall f v) evs) \/ (~ (exists f v, In (EvCall f v) evs)) -> 
  ((exists f v, In (EvCall f v) evs) /\ exists s' acts, perform S notifier pass evs r s vm = (s', vm, acts, NoFuel))
  \/ (~ (exists f v, In (EvCall f v) evs) /\ perform S notifier pass evs r s vm = (s, vm, map AEvent evs, r)).
Proof.
  intros Hh Hn. induction evs as [|[addr v|f v] evs IH]; intros r s D; cbn [perform].
  - right. split; [intros (f & v & [])|reflexivity].
  - assert (D' : (exists f v, In (EvCall f v) evs) \/ ~ (exists f v, In (EvCall f v) evs)).
    { destruct D as [(f & w & [D|D])|D]; [discriminate|left; eauto|]. right. intros (f & w & K). apply D. exists f, w. now right. }
    destruct (IH r s D') as [((f & w & K) & s' & acts & ->)|(K & ->)].
    + left. split; [exists f, w; now right|]. eauto.
    + right. split; [|reflexivity]. intros (f & w & [K'|K']); [discriminate|]. apply K. eauto.
  - left. split; [exists f, v; now left|]. destruct (Hh f v s vm) as (s1 & go_on & ->). cbn [run_program].
    destruct (Hn s1) as (s2 & xs & ->). eauto.
Qed.

Lemma calls_decided (evs : list event) : (exists f v, In (EvCall f v) evs) \/ ~ (exists f v, In (EvCall f v) evs).
Proof.
  induction evs as [|[addr v|f v] evs IH].
  - right. intros (f & v & []).
  - destruct IH as [(f & w & K)|K]; [left; exists f, w; now right|]. right. intros (f & w & [K'|K']); [discriminate|]. apply K. eauto.
  - left. exists f, v. now left.
Qed.

Lemma from_never vm : starts_over notifier -> sound vm -> check_required (vm_required vm) (vm_map vm) = Ok tt ->
  (exists f v, In (EvCall f v) (fst (run_notify (vm_map vm)))) -> forall fuel k s, (exists f v, In (EvCall f v) (fst (run_notify (filter (fun kv => afterb k (fst kv)) (vm_map vm))))) ->
  exists s' xs, notify_from S notifier fuel k s vm = (s', vm, xs, NoFuel).
Proof.
  intros Hh Hs Hreq Hall. assert (Hf : filter (fun kv => afterb None (fst kv)) (vm_map vm) = vm_map vm).
  { clear. induction (vm_map vm) as [|x m IH]; [reflexivity|]. cbn in *. now rewrite IH. }
  induction fuel as [|fuel IH]; intros k s (f & w & Hk); [exists s, []; reflexivity|]. rewrite from_eq.
  destruct (next_entry k (vm_map vm)) as [[name v]|] eqn:En.
  2:{ rewrite (next_filter_none _ _ En) in Hk. destruct Hk. }
  rewrite (next_filter _ _ _ _ (proj1 Hs) En) in Hk. cbn [run_notify] in Hk.
  assert (Nv : never (pass_of fuel) vm).
  { intros s0. unfold pass_of, notify_using. rewrite Hreq. apply IH. rewrite Hf. exact Hall. }
  destruct (vv_sem v) as [sem|].
  - destruct (vs_notify sem (vv_value v)) as [evs r]. destruct (perform_never (pass_of fuel) vm Hh Nv evs r s (calls_decided evs)) as [(_ & s' & acts & ->)|(K & ->)].
    + cbv zeta. eauto.
    + cbv zeta. destruct r as [[]|e|u|]; try (exfalso; apply K; eauto; fail).
      rewrite removed_events.
      destruct (IH (Some name) s) as (s' & xs & ->); [|eauto].
      destruct (run_notify (filter (fun kv => afterb (Some name) (fst kv)) (vm_map vm))) as [ev' r']. cbn [fst] in *. apply in_app_iff in Hk as [Hk|Hk]; [|eauto].
      exfalso. eauto.
  - cbv zeta. cbn [removed existsb]. destruct (IH (Some name) s) as (s' & xs & ->); eauto.
Qed.

(** ** Where exceptions come from *)

Lemma run_throws pass p : forall vm s' vm' acts e, run_program S pass p vm = (s', vm', acts, Throw e) -> throws e p.
Proof.
  induction p as [s [e0|]|s c go_on IH]; intros vm s' vm' acts e H; cbn [run_program] in H.
  - injection H as <- <- <- <-. constructor.
  - discriminate.
  - match type of H with (let (_, _) := ?x in _) = _ => destruct x as [[[s1 vm1] acts1] r1] eqn:E end. clear E.
    destruct r1 as [u|e1|u|]; try discriminate.
    + destruct (run_program S pass (go_on s1 vm1 (Ok u)) vm1) as [[[s2 vm2] acts2] r2] eqn:E2. injection H as <- <- <- ->.
      eapply th_make, IH; eauto.
    + destruct (run_program S pass (go_on s1 vm1 (Throw e1)) vm1) as [[[s2 vm2] acts2] r2] eqn:E2. injection H as <- <- <- ->.
      eapply th_make, IH; eauto.
Qed.

Lemma perform_throws pass : forall evs r s vm s' vm' acts e, perform S notifier pass evs r s vm = (s', vm', acts, Throw e) ->
  r = Throw e \/ exists f v s0 vm0, In (EvCall f v) evs /\ throws e (notifier f v s0 vm0).
Proof.
  induction evs as [|[addr v|f v] evs IH]; intros r s vm s' vm' acts e H; cbn [perform] in H.
  - injection H as <- <- <- <-. now left.
  - destruct (perform S notifier pass evs r s vm) as [[[s2 vm2] acts2] r2] eqn:E. injection H as <- <- <- ->.
    destruct (IH _ _ _ _ _ _ _ E) as [->|(f & w & s0 & vm0 & H1 & H2)]; [now left|]. right. exists f, w, s0, vm0. split; [now right|exact H2].
  - destruct (run_program S pass (notifier f v s vm) vm) as [[[s1 vm1] acts1] r1] eqn:E.
    destruct r1 as [u|e1|u|]; try discriminate.
    + destruct (perform S notifier pass evs r s1 vm1) as [[[s2 vm2] acts2] r2] eqn:E2. injection H as <- <- <- ->.
      destruct (IH _ _ _ _ _ _ _ E2) as [->|(g & w & s0 & vm0 & H1 & H2)]; [now left|]. right. exists g, w, s0, vm0. split; [now right|exact H2].
    + injection H as <- <- <- <-. right. exists f, v, s, vm. split; [now left|]. eapply run_throws; eauto.
Qed.

Lemma from_throws fuel : forall k s vm s' vm' xs e, notify_from S notifier fuel k s vm = (s', vm', xs, Throw e) ->
  exists l x sem, xs = l ++ [x] /\ vv_sem (vi_entry x) = Some sem
    /\ (snd (vs_notify sem (vv_value (vi_entry x))) = Throw e
        \/ exists f v s0 vm0, In (EvCall f v) (asked_effects x) /\ throws e (notifier f v s0 vm0)).
Proof.
  induction fuel as [|fuel IH]; intros k s vm s' vm' xs e H; [discriminate|]. rewrite from_eq in H.
  destruct (next_entry k (vm_map vm)) as [[name v]|]; [|discriminate].
  match type of H with (let (_, _) := ?x in _) = _ => destruct x as [[[s1 vm1] acts] r1] eqn:E end. cbv zeta in H.
  destruct r1 as [u|e1|u|]; try discriminate.
  - destruct (removed name acts); [discriminate|]. destruct (notify_from S notifier fuel (Some name) s1 vm1) as [[[s2 vm2] visits] r2] eqn:E2. injection H as <- <- <- ->.
    destruct (IH _ _ _ _ _ _ _ E2) as (l & x & sem & -> & Hx). exists (mk_visit name v vm acts vm1 :: l), x, sem. split; [reflexivity|exact Hx].
  - injection H as <- <- <- <-. destruct (vv_sem v) as [sem|] eqn:Ev; [|discriminate]. destruct (vs_notify sem (vv_value v)) as [evs r] eqn:En.
    exists [], (mk_visit name v vm acts vm1), sem. split; [reflexivity|]. cbn [vi_entry]. split; [exact Ev|]. rewrite En. cbn [snd].
    unfold asked_effects. cbn [vi_entry]. rewrite Ev, En. cbn [fst]. exact (perform_throws _ _ _ _ _ _ _ _ _ E).
Qed.
(** ** Where undefined behaviour comes from *)

Definition told (pass : S -> variables_map -> S * variables_map * list visit * outcome unit) : Prop :=
  forall s vm s' vm' xs u, pass s vm = (s', vm', xs, Undef u) -> stems u xs.

Definition stems_act (u : ub) (acts : list act) : Prop :=
  (exists p utf8 vm, In (ACall (IStore p utf8)) acts /\ snd (store p vm utf8) = Undef u)
  \/ exists ys, In (APass ys) acts /\ stems u ys.

Lemma stems_act_incl u a b : stems_act u a -> incl a b -> stems_act u b.
Proof. intros [(p & utf8 & vm & H1 & H2)|(ys & H1 & H2)] Hi; [left; exists p, utf8, vm|right; exists ys]; auto. Qed.

Lemma run_undef pass p : told pass -> forall vm s' vm' acts u, run_program S pass p vm = (s', vm', acts, Undef u) -> stems_act u acts.
Proof.
  intros Hp. induction p as [s [e0|]|s c go_on IH]; intros vm s' vm' acts u H; cbn [run_program] in H; try discriminate.
  match type of H with (let (_, _) := ?x in _) = _ => destruct x as [[[s1 vm1] acts1] r1] eqn:E end.
  assert (K : forall x, (let '(s2, vm2, acts2, r2) := run_program S pass (go_on s1 vm1 x) vm1 in (s2, vm2, acts1 ++ acts2, r2)) = (s', vm', acts, Undef u) ->
    stems_act u acts).
  { intros x Hx. destruct (run_program S pass (go_on s1 vm1 x) vm1) as [[[s2 vm2] acts2] r2] eqn:E2. injection Hx as <- <- <- ->.
    eapply stems_act_incl; [eapply IH; exact E2|apply incl_appr, incl_refl]. }
  destruct r1 as [x|x|u'|]; [exact (K _ H)|exact (K _ H)| |discriminate]. injection H as <- <- <- <-. clear K.
  destruct c as [p utf8|name a b|name a|name| |]; try discriminate.
  - destruct (store p vm utf8) as [vm2 r2] eqn:Es. injection E as <- <- <- ->. left. exists p, utf8, vm. split; [now left|]. now rewrite Es.
  - destruct (pass s vm) as [[[s2 vm2] xs] r2] eqn:Es. injection E as <- <- <- ->. right. exists xs. split; [now left|]. eapply Hp; eauto.
Qed.

Lemma perform_undef pass : told pass -> forall evs r s vm s' vm' acts u,
  perform S notifier pass evs r s vm = (s', vm', acts, Undef u) -> r = Undef u \/ stems_act u acts.
Proof.
  intros Hp. induction evs as [|[addr v|f v] evs IH]; intros r s vm s' vm' acts u H; cbn [perform] in H.
  - injection H as <- <- <- <-. now left.
  - destruct (perform S notifier pass evs r s vm) as [[[s2 vm2] acts2] r2] eqn:E. injection H as <- <- <- ->.
    destruct (IH _ _ _ _ _ _ _ E) as [K|K]; [now left|]. right. eapply stems_act_incl; [exact K|apply incl_tl, incl_refl].
  - destruct (run_program S pass (notifier f v s vm) vm) as [[[s1 vm1] acts1] r1] eqn:E.
    destruct r1 as [x|x|u'|]; try discriminate.
    + destruct (perform S notifier pass evs r s1 vm1) as [[[s2 vm2] acts2] r2] eqn:E2. injection H as <- <- <- ->.
      destruct (IH _ _ _ _ _ _ _ E2) as [K|K]; [now left|]. right. eapply stems_act_incl; [exact K|apply incl_tl, incl_appr, incl_refl].
    + injection H as <- <- <- <-. right. eapply stems_act_incl; [eapply run_undef; eauto|apply incl_tl, incl_refl].
Qed.

Lemma stems_later u x xs : stems u xs -> stems u (x :: xs).
Proof.
  intros H. destruct H as [xs y H1 H2 H3|xs y sem H1 H2 H3|xs y p utf8 vm H1 H2 H3|xs y ys H1 H2 H3].
  - eapply st_own; [right; exact H1|exact H2|exact H3].
  - eapply st_option; [right; exact H1|exact H2|exact H3].
  - eapply st_store; [right; exact H1|exact H2|exact H3].
  - eapply st_pass; [right; exact H1|exact H2|exact H3].
Qed.

Lemma required_defined vm u : check_required (vm_required vm) (vm_map vm) <> Undef u.
Proof. destruct (check_required_spec (vm_map vm) (vm_required vm)) as [[Ec _]|(r1 & k & disp & r2 & Er & Ec & _)]; rewrite Ec; discriminate. Qed.

Lemma using_told fuel : (forall k s vm s' vm' xs u, notify_from S notifier fuel k s vm = (s', vm', xs, Undef u) -> stems u xs) -> told (pass_of fuel).
Proof.
  intros A s vm s' vm' xs u H. unfold pass_of, notify_using in H. pose proof (required_defined vm) as D.
  destruct (check_required (vm_required vm) (vm_map vm)) as [x|e|u'|]; try discriminate; [eauto|]. now destruct (D u').
Qed.

Lemma from_undef fuel : forall k s vm s' vm' xs u, notify_from S notifier fuel k s vm = (s', vm', xs, Undef u) -> stems u xs.
Proof.
  induction fuel as [|fuel IH]; intros k s vm s' vm' xs u H; [discriminate|]. rewrite from_eq in H. pose proof (using_told fuel IH) as T.
  destruct (next_entry k (vm_map vm)) as [[name v]|]; [|discriminate].
  match type of H with (let (_, _) := ?x in _) = _ => destruct x as [[[s1 vm1] acts] r1] eqn:E end. cbv zeta in H.
  destruct r1 as [x|e1|u1|]; try discriminate.
  - destruct (removed name acts) eqn:Er.
    + injection H as <- <- <- <-. eapply st_own; [now left|reflexivity|]. now apply removed_iff.
    + destruct (notify_from S notifier fuel (Some name) s1 vm1) as [[[s2 vm2] visits] r2] eqn:E2. injection H as <- <- <- ->.
      apply stems_later. eapply IH; eauto.
  - injection H as <- <- <- <-. destruct (vv_sem v) as [sem|] eqn:Ev; [|discriminate]. destruct (vs_notify sem (vv_value v)) as [evs r] eqn:En.
    destruct (perform_undef _ T _ _ _ _ _ _ _ _ E) as [->|[(p & utf8 & vm0 & K1 & K2)|(ys & K1 & K2)]].
    + eapply st_option; [now left|exact Ev|]. cbn [vi_entry]. now rewrite En.
    + eapply st_store; [now left|exact K1|exact K2].
    + eapply st_pass; [now left|exact K1|exact K2].
Qed.
End Pass.
