(** C95: notifiers that use the map that is being notified. *)

From Coq Require Import List Ascii String NArith ZArith Bool Arith Lia Sorting.Sorted.
From Verif Require Import Base Errors Spec BaseFacts Values OptDesc SpecLookup Cmdline Parsers VarMap SpecStore StoreFacts
  MapUse SpecMapUse MapUseFacts Reenter SpecReenter ReenterFacts Samples PropStore.
Import ListNotations.

Lemma run_sound calls rs vm : map_run vm_new calls = (vm, rs) -> Forall ended rs -> sound vm.
Proof. intros H He. destruct (run_inv_new calls vm rs H He) as [H1 H2]. split; [exact H1|exact (proj1 H2)]. Qed.

(** C95. Whatever the notifiers do, [notify] visits entries in the order of their names, each at most once, and each with the value
    and the semantics it has at that moment; the map changes only during the visits, and loses only entries that a notifier removes.
    If [notify] returns, each entry that was in the map before has been visited, or was removed during the visit of an option with a
    smaller name; and the entries visited have had all their effects. *)
Theorem C95_visits : forall S notifier fuel s calls rs vm s' vm' xs r,
  map_run vm_new calls = (vm, rs) -> Forall ended rs -> notify_using S notifier fuel s vm = (s', vm', xs, r) ->
  StronglySorted str_lt (visited xs) /\ chained vm xs vm'
  /\ (forall x, In x xs -> entry (vi_before x) (vi_name x) = Some (vi_entry x)
        /\ (exists rest, asked_effects x = own_effects x ++ rest)
        /\ (forall name, entry (vi_before x) name <> None -> entry (vi_after x) name <> None \/ takes_out name (vi_acts x)))
  /\ (r = Ok tt ->
      (forall name, entry vm name <> None ->
         In name (visited xs) \/ exists x, In x xs /\ str_lt (vi_name x) name /\ takes_out name (vi_acts x))
      /\ forall x, In x xs -> own_effects x = asked_effects x).
Proof.
  intros S nt fuel s calls rs vm s' vm' xs r H He Hn. pose proof (run_sound _ _ _ H He) as Hs. unfold notify_using in Hn.
  match goal with |- ?G => assert (Z : xs = [] -> vm' = vm -> r <> Ok tt -> G) end.
  { intros -> -> Hr. split; [constructor|]. split; [reflexivity|]. split; [intros x []|congruence]. }
  destruct (check_required (vm_required vm) (vm_map vm)); try (injection Hn as <- <- <- <-; apply Z; congruence). clear Z.
  destruct (proj1 (from_spec S nt fuel) _ _ _ _ _ _ _ Hn Hs) as (_ & Hc & Hq & Hok & _).
  split; [apply (sequence_after _ _ Hq)|]. split; [exact Hc|]. split.
  - intros x Hx. apply in_split in Hx as (l & r0 & ->). clear - Hq.
    revert Hq. generalize (@None str) as k.
    induction l as [|y l IH]; intros k K; cbn [app] in K; inversion K as [|? ? ? Q1 Q2 Q3 Q4 Q5 Q6 Q7]; subst; [now split|eapply IH; exact Q7].
  - intros ->. destruct (Hok eq_refl) as [Hf Hend]. split.
    + intros name Hi. exact (sequence_complete _ _ _ _ Hq Hc Hend name Hi I).
    + intros x Hx. rewrite Forall_forall in Hf. symmetry. now apply Hf.
Qed.
Print Assumptions C95_visits.

(** C95. An entry that is put into the map during a visit is visited later in the same [notify] if its name comes after that of the
    option being visited, unless it is removed again before that; otherwise it is not visited any more.  It has not been visited
    before either, unless it was in the map before and has been removed. *)
Theorem C95_added : forall S notifier fuel s calls rs vm s' vm' earlier x later name,
  map_run vm_new calls = (vm, rs) -> Forall ended rs -> notify_using S notifier fuel s vm = (s', vm', earlier ++ x :: later, Ok tt) ->
  entry (vi_before x) name = None -> entry (vi_after x) name <> None ->
  (In name (visited (earlier ++ [x])) -> exists y, In y earlier /\ takes_out name (vi_acts y))
  /\ (In name (visited later) -> str_lt (vi_name x) name)
  /\ (str_lt (vi_name x) name ->
      In name (visited later) \/ exists y, In y later /\ str_lt (vi_name y) name /\ takes_out name (vi_acts y)).
Proof.
  intros S nt fuel s calls rs vm s' vm' l x r name H He Hn H1 H2. pose proof (run_sound _ _ _ H He) as Hs. unfold notify_using in Hn.
  destruct (check_required (vm_required vm) (vm_map vm)); try discriminate.
  destruct (proj1 (from_spec S nt fuel) _ _ _ _ _ _ _ Hn Hs) as (_ & Hc & Hq & Hok & _). destruct (Hok eq_refl) as [_ Hend].
  eapply added_iff; eauto.
Qed.
Print Assumptions C95_added.

(** C95. A notifier must not remove the entry that a [notify] is visiting: this [notify] visits no further entry and does not return. *)
Theorem C95_own : forall S notifier fuel s calls rs vm s' vm' earlier x later r,
  map_run vm_new calls = (vm, rs) -> Forall ended rs -> notify_using S notifier fuel s vm = (s', vm', earlier ++ x :: later, r) ->
  takes_out (vi_name x) (vi_acts x) -> later = [] /\ r <> Ok tt.
Proof.
  intros S nt fuel s calls rs vm s' vm' l x later r H He Hn Ht. pose proof (run_sound _ _ _ H He) as Hs. unfold notify_using in Hn.
  destruct (check_required (vm_required vm) (vm_map vm)); try (injection Hn as _ _ Hn _; destruct l; discriminate).
  destruct (proj1 (from_spec S nt fuel) _ _ _ _ _ _ _ Hn Hs) as (_ & Hc & Hq & Hok & _). split.
  - destruct later as [|y later]; [reflexivity|]. exfalso.
    replace (l ++ x :: y :: later) with ((l ++ [x]) ++ y :: later) in Hq by now rewrite <- app_assoc.
    destruct (sequence_split _ _ _ _ Hq) as (_ & _ & _ & K). assert (Hl : l ++ [x] <> []) by (destruct l; discriminate).
    specialize (K Hl). apply Forall_app in K as [_ K]. inversion K as [|? ? K1 _]; subst. now apply K1.
  - intros ->. destruct (Hok eq_refl) as [K _]. apply Forall_app in K as [_ K]. inversion K as [|? ? K1 _]; subst. now apply K1.
Qed.
Print Assumptions C95_own.

(** C95. If something undefined happens, then because an entry is removed while a [notify] is at it, because an option does something
    undefined itself, or because a source is stored for which this is undefined. *)
Theorem C95_undefined : forall S notifier fuel s vm s' vm' xs u,
  notify_using S notifier fuel s vm = (s', vm', xs, Undef u) -> stems u xs.
Proof. intros S nt fuel s vm s' vm' xs u H. exact (using_told S nt fuel (from_undef S nt fuel) _ _ _ _ _ _ H). Qed.
Print Assumptions C95_undefined.

(** C95. An exception comes from the check for required options, before any visit, or it is thrown by the last option visited or by
    one of the notifiers it calls: what an inner [store] or [notify] throws arrives only if the notifier throws it on.  The options
    visited before have had all their effects, and what has been changed stays.  All options with smaller names have been visited,
    except those removed before. *)
Theorem C95_exception : forall S notifier fuel s calls rs vm s' vm' xs e,
  map_run vm_new calls = (vm, rs) -> Forall ended rs -> notify_using S notifier fuel s vm = (s', vm', xs, Throw e) ->
  (xs = [] /\ s' = s /\ vm' = vm /\ exists name disp, missing (sources [] calls rs) vm name
     /\ reported (sources [] calls rs) name disp /\ e = mk_required_option disp)
  \/ exists earlier x sem, xs = earlier ++ [x] /\ vm' = vi_after x /\ Forall (fun y => own_effects y = asked_effects y) earlier
     /\ (forall name, entry vm name <> None -> str_lt name (vi_name x) ->
           In name (visited earlier) \/ exists y, In y earlier /\ takes_out name (vi_acts y))
     /\ vv_sem (vi_entry x) = Some sem
     /\ (snd (vs_notify sem (vv_value (vi_entry x))) = Throw e
         \/ exists f v s0 vm0, In (EvCall f v) (asked_effects x) /\ throws e (notifier f v s0 vm0)).
Proof.
  intros S nt fuel s calls rs vm s' vm' xs e H He Hn. pose proof (run_sound _ _ _ H He) as Hs. unfold notify_using in Hn.
  destruct (run_inv_new calls vm rs H He) as [_ Hi].
  destruct (check_required_spec (vm_map vm) (vm_required vm)) as [[Ec _]|(r1 & k & disp & r2 & Er & Ec & Hf & Hno)]; rewrite Ec in Hn.
  2:{ injection Hn as <- <- <- <-. left. split; [reflexivity|]. split; [reflexivity|]. split; [reflexivity|].
      assert (Hk : sm_find k (vm_required vm) = Some disp).
      { apply sm_find_In_pair; [exact (proj1 Hi)|]. rewrite Er. apply in_or_app. right. now left. }
      destruct (required_reported _ _ _ _ Hi Hk) as [Hne Hrep]. exists k, disp. split; [|auto].
      split; [exact Hne|]. split; [|exact Hno]. apply (required_iff _ _ _ Hi Hne). eauto. }
  right. destruct (from_throws S nt _ _ _ _ _ _ _ _ Hn) as (l & x & sem & -> & Hsem & Hx).
  destruct (proj1 (from_spec S nt fuel) _ _ _ _ _ _ _ Hn Hs) as (_ & Hc & Hq & _ & _).
  exists l, x, sem. split; [reflexivity|]. destruct (chained_split _ _ _ _ _ Hc) as [C1 C2]. cbn in C2.
  split; [now rewrite <- C2|]. destruct (sequence_split _ _ _ _ Hq) as (_ & _ & _ & S4). split.
  { destruct l; [constructor|]. eapply Forall_impl; [|apply S4; discriminate]. intros y [Hy _]. now rewrite Hy. }
  split; [|now split]. clear - Hq C1. intros name Hne Hlt.
  assert (G : forall k vm, sequence k (l ++ [x]) -> chained vm l (vi_before x) -> entry vm name <> None -> after k name ->
    In name (visited l) \/ exists y, In y l /\ takes_out name (vi_acts y)).
  { clear - Hlt. induction l as [|y l IH]; intros k vm Hq Hc Ho Ha; cbn [app chained] in *.
    - subst vm. inversion Hq as [|? ? ? Q1 Q2 Q3 Q4 Q5 Q6 Q7]; subst. destruct (Q3 name Ho Ha) as [->|Hl].
      + now apply str_lt_irrefl in Hlt.
      + exfalso. exact (str_lt_asym Hl Hlt).
    - destruct Hc as [<- Hc]. inversion Hq as [|? ? ? Q1 Q2 Q3 Q4 Q5 Q6 Q7]; subst. destruct (Q3 name Ho Ha) as [->|Hl]; [left; now left|].
      destruct (Q4 name Ho) as [K|K]; [|right; exists y; split; [now left|exact K]].
      destruct (IH _ _ Q7 Hc K Hl) as [L|(z & L1 & L2)]; [left; now right|]. right. exists z. split; [now right|exact L2]. }
  exact (G None vm Hq C1 Hne I).
Qed.
Print Assumptions C95_exception.

(** C95. If the notifiers just return, the effects and the outcome are those of [notify] in C41 and C81, and the map does not change. *)
Theorem C95_plain : forall S notifier s calls rs vm fuel,
  map_run vm_new calls = (vm, rs) -> Forall ended rs -> harmless notifier -> List.length (vm_map vm) < fuel ->
  exists s' xs, notify_using S notifier fuel s vm = (s', vm, xs, snd (notify vm)) /\ flat_map own_effects xs = fst (notify vm).
Proof.
  intros S nt s calls rs vm fuel H He Hh Hl. pose proof (run_sound _ _ _ H He) as Hs. unfold notify_using, notify.
  destruct (check_required (vm_required vm) (vm_map vm)); try (exists s, []; split; reflexivity).
  assert (Hf : filter (fun kv => afterb None (fst kv)) (vm_map vm) = vm_map vm).
  { clear. induction (vm_map vm) as [|x m IH]; [reflexivity|]. cbn in *. now rewrite IH. }
  destruct (from_harmless S nt Hh fuel None s vm Hs) as (s' & xs & E & F); rewrite Hf in *; [exact Hl|]. eauto.
Qed.
Print Assumptions C95_plain.

(** C95. The fuel does not matter once there is enough, *)
Theorem C95_fuel : forall S notifier fuel more s vm,
  snd (notify_using S notifier fuel s vm) <> NoFuel -> notify_using S notifier (more + fuel) s vm = notify_using S notifier fuel s vm.
Proof. intros S nt fuel more s vm H. now apply using_more. Qed.
Print Assumptions C95_fuel.

(** C95. and if no notifier calls [notify], and all of them put only entries with names from a finite list into the map, there is
    enough when it exceeds the length of the list: [notify] ends. *)
Theorem C95_ends : forall S notifier ks more s calls rs vm,
  map_run vm_new calls = (vm, rs) -> Forall ended rs -> (forall f v s vm, within ks (notifier f v s vm)) ->
  (forall name, entry vm name <> None -> In name ks) ->
  notify_using S notifier (more + (1 + List.length ks)) s vm = notify_using S notifier (1 + List.length ks) s vm.
Proof.
  intros S nt ks more s calls rs vm H He Hw Hk. pose proof (run_sound _ _ _ H He) as Hs. unfold notify_using.
  destruct (check_required (vm_required vm) (vm_map vm)); try reflexivity.
  apply (from_within S nt ks Hw); [exact Hs| |].
  - intros k Hi. apply Hk. now apply entry_keys.
  - assert (L : forall l : list str, List.length (filter (afterb None) l) <= List.length l).
    { clear. induction l as [|y l IH]; cbn in *; lia. }
    specialize (L ks). lia.
Qed.
Print Assumptions C95_ends.

(** C95. A notifier that calls [notify] again on its map unconditionally never returns. *)
Theorem C95_endless : forall S notifier s calls rs vm f v,
  map_run vm_new calls = (vm, rs) -> Forall ended rs -> starts_over notifier -> In (EvCall f v) (fst (notify vm)) ->
  forall fuel, snd (notify_using S notifier fuel s vm) = NoFuel.
Proof.
  intros S nt s calls rs vm f v H He Hh Hi fuel. pose proof (run_sound _ _ _ H He) as Hs. unfold notify_using, notify in *.
  destruct (check_required (vm_required vm) (vm_map vm)) as [[]|e|u|] eqn:Ec; try destruct Hi.
  assert (Hf : filter (fun kv => afterb None (fst kv)) (vm_map vm) = vm_map vm).
  { clear. induction (vm_map vm) as [|x m IH]; [reflexivity|]. cbn in *. now rewrite IH. }
  destruct (from_never S nt vm Hh Hs Ec) with (fuel := fuel) (k := @None str) (s := s) as (s' & xs & ->); [eauto| |reflexivity].
  rewrite Hf. eauto.
Qed.
Print Assumptions C95_endless.

(** Options with notifiers: 7 for "config", 1 for "alpha" and 2 for "zeta"; "name" is required. *)
Definition string_with (f : nat) : value_semantic :=
  typed lex local (mk_typed TString None [] None None false false false false (Some (f, fun _ => None))).
Definition o_config := mk_od [] [$"config"] $"a file" (string_with 7).
Definition o_alpha := mk_od [] [$"alpha"] $"alpha" (string_with 1).
Definition o_zeta := mk_od [] [$"zeta"] $"zeta" (string_with 2).
Definition outer_source : parsed_options := mk_parsed [given_as $"config" [$"f"]] (Some [o_config; o_alpha; o_zeta]) allow_long.
Definition inner_source : parsed_options :=
  mk_parsed [given_as $"alpha" [$"a"]; given_as $"zeta" [$"z"]] (Some [o_config; o_alpha; o_zeta; o_name]) allow_long.

(** They write down the values they get; the one for "config" stores the second source, and ignores whether that works. *)
Definition reads_config (f : nat) (v : value) (s : list value) (vm : variables_map) : program (list value) :=
  match f with
  | 7 => Make (s ++ [v]) (IStore inner_source false) (fun s' _ _ => Finish s' None)
  | _ => Finish (s ++ [v]) None
  end.

Definition config_map : variables_map := fst (store outer_source vm_new false).
Definition config_run := notify_using _ reads_config 6 [] config_map.

Example C95_ex :
  map_run vm_new [MStore outer_source false] = (config_map, [([], Ok tt)])
  /\ snd config_run = Ok tt
  /\ visited (snd (fst config_run)) = [$"config"; $"zeta"]
  /\ fst (fst (fst config_run)) = [VString $"f"; VString $"z"]
  /\ entry (snd (fst (fst config_run))) $"alpha" <> None
  /\ (forall f v s vm, within [$"config"; $"alpha"; $"zeta"; $"name"] (reads_config f v s vm)).
Proof.
  split; [vm_compute; reflexivity|]. split; [vm_compute; reflexivity|]. split; [vm_compute; reflexivity|]. split; [vm_compute; reflexivity|].
  split.
  - vm_compute. discriminate.
  - intros f v s vm. unfold reads_config. do 8 (destruct f as [|f]; [try (constructor; fail)|]); try (constructor; fail).
    constructor; [|intros; constructor]. split.
    + intros o [<-|[<-|[]]]; vm_compute; auto.
    + intros ds d H Hd. injection H as <-. destruct Hd as [<-|[<-|[<-|[<-|[]]]]]; vm_compute; auto.
Qed.

(** C95. The options that a source stored by a notifier requires are not checked: the [notify] that is running returns although
    the next one throws. *)
Theorem C95_required_refuted :
  ~ forall S notifier fuel s calls rs vm s' vm' xs,
      map_run vm_new calls = (vm, rs) -> Forall ended rs -> notify_using S notifier fuel s vm = (s', vm', xs, Ok tt) ->
      snd (notify vm') = Ok tt.
Proof.
  intros H. specialize (H _ reads_config 6 [] [MStore outer_source false] [([], Ok tt)] config_map
    (fst (fst (fst config_run))) (snd (fst (fst config_run))) (snd (fst config_run))).
  assert (E : snd (notify (snd (fst (fst config_run)))) = Ok tt).
  { apply H.
    - vm_compute. reflexivity.
    - constructor; [now left|constructor].
    - vm_compute. reflexivity. }
  vm_compute in E. discriminate E.
Qed.
Print Assumptions C95_required_refuted.

(** Notifiers that call [notify] again and again, notifiers that give up, and notifiers that just return. *)
Definition again (f : nat) (v : value) (s : unit) (vm : variables_map) : program unit := Make s INotify (fun s' _ _ => Finish s' None).
Definition gives_up (f : nat) (v : value) (s : nat) (vm : variables_map) : program nat :=
  Make (S s) (IInsert $"zoo" None false) (fun s' _ _ => Finish s' (Some (mk_unknown_option $"x"))).
Definition returns (f : nat) (v : value) (s : nat) (vm : variables_map) : program nat := Finish (S s) None.

Example C95_ex2 :
  starts_over again /\ In (EvCall 7 (VString $"f")) (fst (notify config_map)) /\ harmless returns
  /\ (exists xs, notify_using _ gives_up 3 0 config_map = (1, vm_insert config_map $"zoo" None false, xs, Throw (mk_unknown_option $"x"))
        /\ visited xs = [$"config"]).
Proof.
  split; [intros f v s vm; unfold again; eauto|]. split; [vm_compute; auto|]. split; [intros f v s vm; unfold returns; eauto|].
  eexists [mk_visit _ _ _ _ _]. split; [vm_compute; reflexivity|vm_compute; reflexivity].
Qed.

(** The notifier for "config" removes an entry that is visited later, or its own. *)
Definition removes_entry (name : str) (f : nat) (v : value) (s : list value) (vm : variables_map) : program (list value) :=
  match f with
  | 7 => Make (s ++ [v]) (IErase name) (fun s' _ _ => Finish s' None)
  | _ => Finish (s ++ [v]) None
  end.
Definition full_source : parsed_options :=
  mk_parsed [given_as $"config" [$"f"]; given_as $"alpha" [$"a"]; given_as $"zeta" [$"z"]] (Some [o_config; o_alpha; o_zeta]) allow_long.
Definition full_map : variables_map := fst (store full_source vm_new false).

Example C95_ex_removed :
  let run name := notify_using _ (removes_entry name) 6 [] full_map in
  map_run vm_new [MStore full_source false] = (full_map, [([], Ok tt)])
  /\ snd (run $"zeta") = Ok tt /\ visited (snd (fst (run $"zeta"))) = [$"alpha"; $"config"]
  /\ fst (fst (fst (run $"zeta"))) = [VString $"a"; VString $"f"]
  /\ snd (run $"alpha") = Ok tt /\ visited (snd (fst (run $"alpha"))) = [$"alpha"; $"config"; $"zeta"]
  /\ snd (run $"config") = Undef UB_iterator /\ visited (snd (fst (run $"config"))) = [$"alpha"; $"config"].
Proof. cbv zeta. split; [vm_compute; reflexivity|]. repeat split; vm_compute; reflexivity. Qed.

(** C95. So [notify] is not safe for all notifiers, even if nothing in the map is undefined by itself. *)
Theorem C95_own_refuted :
  ~ forall S notifier fuel s calls rs vm,
      map_run vm_new calls = (vm, rs) -> Forall ended rs -> snd (notify vm) = Ok tt ->
      forall u, snd (notify_using S notifier fuel s vm) <> Undef u.
Proof.
  intros H. apply (H _ (removes_entry $"config") 6 [] [MStore full_source false] [([], Ok tt)] full_map) with (u := UB_iterator).
  - vm_compute. reflexivity.
  - constructor; [now left|constructor].
  - vm_compute. reflexivity.
  - vm_compute. reflexivity.
Qed.
Print Assumptions C95_own_refuted.
