(** C81-C82: programs that clear maps, and put values of their own into them. *)

From Coq Require Import List Ascii String NArith ZArith Bool Arith Lia Sorting.Sorted.
From Verif Require Import Base Errors Spec BaseFacts Values OptDesc SpecLookup Cmdline Parsers VarMap SpecCmdline SoundFacts SpecStore StoreFacts SemFacts
  MapUse SpecMapUse MapUseFacts Samples PropStore.
From Verif Require Import Witness.
Import ListNotations.

(** C81. Whatever has been done with a map, after [clear] everything is as with a new map. *)
Theorem C81_clear : forall before after vm1 rs1 vm2 rs2,
  map_run vm_new before = (vm1, rs1) -> map_run vm_new after = (vm2, rs2) ->
  map_run vm_new (before ++ MClear :: after) = (vm2, rs1 ++ ([], Ok tt) :: rs2).
Proof.
  intros before after vm1 rs1 vm2 rs2 H1 H2. rewrite run_app, H1. cbn [map_run map_step].
  change (vm_clear vm1) with vm_new. now rewrite H2.
Qed.
Print Assumptions C81_clear.

(** C81. Erasing an entry is different: a value that has been stored for an option that is not composing keeps later
    values away even after it has been erased; the option only gets its default back. *)
Theorem C81_erase : forall vm p utf8 vm1 name d h vm2,
  store p vm utf8 = (vm1, Ok tt) -> name <> [] -> mentions p name -> resolves p name d ->
  vs_composing (od_sem d) = false -> stores (vm_erase vm1 name) h vm2 ->
  default_entry (described h) name (entry vm2 name).
Proof.
  intros vm p u vm1 name d h vm2 H Hne Hm (ds & Eds & Hd) Hc Hh. apply (stores_erased _ _ _ _ Hh Hne).
  - cbn [vm_erase vm_final].
    destruct (store_entry _ _ _ _ name H Hne) as (ds' & Eds' & [([Ho|Ho] & Hf & _)|(_ & _ & d' & a & Hd' & _ & _ & Hf)]).
    + contradiction.
    + now apply Hf.
    + rewrite Eds in Eds'. injection Eds' as <-. rewrite Hd in Hd'. injection Hd' as <-. now apply Hf.
  - rewrite entry_erase, str_eqb_refl. reflexivity.
Qed.
Print Assumptions C81_erase.

(** C81. After any calls, [notify] throws exactly if an option is missing that is required by a source stored since
    the last [clear]; a value the program has put into the map counts. *)
Theorem C81_required : forall calls vm rs,
  map_run vm_new calls = (vm, rs) -> Forall ended rs -> (exists name, missing (sources [] calls rs) vm name) ->
  exists name disp, missing (sources [] calls rs) vm name
    /\ (forall other, missing (sources [] calls rs) vm other -> other = name \/ str_lt name other)
    /\ reported (sources [] calls rs) name disp /\ notify vm = ([], Throw (mk_required_option disp)).
Proof. intros calls vm rs H He. apply missing_inv. now apply (run_inv_new calls vm rs). Qed.
Print Assumptions C81_required.

(** C81. Otherwise the entries are notified, in the order of their names, up to the first failure; those the program
    has put there itself are passed over. *)
Theorem C81_notify : forall calls vm rs ev r,
  map_run vm_new calls = (vm, rs) -> Forall ended rs -> (forall name, ~ missing (sources [] calls rs) vm name) ->
  notify vm = (ev, r) ->
  exists m, entries_in_order vm m
    /\ ((r = Ok tt /\ exists evs, Forall2 notifies m evs /\ ev = List.concat evs)
        \/ exists m1 k v m2 s evs last, m = m1 ++ (k, v) :: m2 /\ Forall2 notifies m1 evs /\ vv_sem v = Some s
             /\ vs_notify s (vv_value v) = (last, r) /\ r <> Ok tt /\ ev = List.concat evs ++ last).
Proof.
  intros calls vm rs ev r H He Hno Hn. destruct (run_inv_new calls vm rs H He) as [Hs Hr].
  rewrite (nothing_missing_inv _ _ Hr Hno) in Hn. exists (vm_map vm). split; [now apply entries_lemma|].
  apply run_notify_spec in Hn.
  destruct Hn as [(-> & evs & Hf & ->)|(m1 & k & v & m2 & s & evs & last & Em & Hf & Ev & En & Hr' & ->)]; [left; eauto|].
  right. exists m1, k, v, m2, s, evs, last. auto 10.
Qed.
Print Assumptions C81_notify.

(** C82. A value of the program's own is kept by all sources that do not mention its name, also if they have a
    default for it; *)
Theorem C82_kept : forall vm name a defaulted h vm',
  name <> [] -> entry vm name = None -> stores (vm_insert vm name a defaulted) h vm' -> never_mentioned h name ->
  entry vm' name = Some (own a defaulted).
Proof.
  intros vm name a b h vm' Hne He H Hm. destruct (stores_unmentioned _ _ _ _ H Hne Hm) as [_ [(v & E1 & E2)|[E1 _]]];
    rewrite entry_insert, str_eqb_refl, He in E1; congruence.
Qed.
Print Assumptions C82_kept.

(** C82. Likewise for a value the program has assigned to an entry: the entry stays a default if it was one, it keeps its notifier,
    and the other entries do not change. *)
Theorem C82_assigned : forall vm name a v h vm',
  name <> [] -> entry vm name = Some v -> stores (vm_assign vm name a) h vm' -> never_mentioned h name ->
  (exists w, entry vm' name = Some w /\ vv_value w = a /\ vv_defaulted w = vv_defaulted v /\ vv_sem w = vv_sem v)
  /\ forall other w, other <> name -> other <> [] -> entry vm other = Some w -> never_mentioned h other -> entry vm' other = Some w.
Proof.
  intros vm name a v h vm' Hne He H Hm.
  assert (Ea : forall other, entry (vm_assign vm name a) other
               = if str_eqb other name then Some (mk_vv a (vv_defaulted v) (vv_sem v)) else entry vm other).
  { intros other. unfold vm_assign. fold (entry vm name). rewrite He. unfold entry. cbn [vm_map]. apply sm_find_set. }
  split.
  - destruct (stores_unmentioned _ _ _ _ H Hne Hm) as [_ [(w & E1 & E2)|[E1 _]]]; rewrite Ea, str_eqb_refl in E1; [|discriminate].
    injection E1 as <-. eexists. split; [exact E2|]. auto.
  - intros other w Hd Ho Hw Hmo. destruct (stores_unmentioned _ _ _ _ H Ho Hmo) as [_ [(w' & E1 & E2)|[E1 _]]];
      rewrite Ea in E1; destruct (str_eqb_spec other name); congruence.
Qed.
Print Assumptions C82_assigned.

(** C82. A value marked as a default, inserted, assigned to or stored as such, gives way to the first source that mentions the name; *)
Theorem C82_default : forall calls rs vm name v p utf8 vm' d,
  map_run vm_new calls = (vm, rs) -> Forall ended rs -> never_mentioned (sources [] calls rs) name -> name <> [] ->
  entry vm name = Some v -> vv_defaulted v = true -> store p vm utf8 = (vm', Ok tt) -> mentions p name -> resolves p name d ->
  exists b, parsed_all (od_sem d) utf8 None (occurrences (pr_options p) name) b
    /\ entry vm' name = Some (mk_vv b false (Some (od_sem d))).
Proof.
  intros calls rs vm name v p u vm' d Hc Hen Hn Hne He Hv H Hm (ds & Eds & Hd).
  destruct (store_entry _ _ _ _ name H Hne) as (ds' & Eds' & [([Ho|Ho] & _)|(_ & _ & d' & b & Hd' & Hp & E & _)]).
  - contradiction.
  - contradiction (run_final_new name calls vm rs).
  - rewrite Eds in Eds'. injection Eds' as <-. rewrite Hd in Hd'. injection Hd' as <-. rewrite He in Hp. cbn [given] in Hp. rewrite Hv in Hp. eauto.
Qed.
Print Assumptions C82_default.

(** C82. not marked so, it conflicts with a source that gives a value to a scalar option of this name: the source
    cannot be stored, and the value stays. *)
Theorem C82_conflict : forall calls rs vm name w x p vm' r d lexical_cast utf8_to_local tv first others,
  map_run vm_new calls = (vm, rs) -> Forall ended rs -> never_mentioned (sources [] calls rs) name -> name <> [] ->
  entry vm name = Some w -> vv_value w = Some x -> vv_defaulted w = false -> resolves p name d ->
  od_sem d = typed lexical_cast utf8_to_local tv -> scalar (tv_type tv) -> first <> [] \/ tv_implicit tv = None ->
  occurrences (pr_options p) name = first :: others ->
  store p vm false = (vm', r) ->
  r <> Ok tt /\ forall e, r = Throw e -> exists v, entry vm' name = Some v /\ vv_value v = Some x /\ vv_defaulted v = false.
Proof.
  intros calls rs vm name [a0 b0 s0] x p vm' r d lc ul tv first others Hc Hen Hn Hne He Ha Hb (ds & Eds & Hd) Hs Ht Hf Ho H.
  cbn [vv_value vv_defaulted] in Ha, Hb. subst a0 b0. pose proof (run_final_new name calls vm rs Hne Hc Hen Hn) as Hfin.
  assert (Hno : forall rest a, ~ parsed_all (od_sem d) false (Some x) (first :: rest) a).
  { intros rest a Hp. inversion Hp as [|? ? a' ? ? Hv _]; subst.
    rewrite Hs, (typed_second lc ul tv x first first false Ht eq_refl Hf) in Hv. discriminate. }
  split.
  - intros ->. destruct (store_entry _ _ _ _ name H Hne) as (ds' & Eds' & [([Ho'|Ho'] & _)|(_ & _ & d' & b & Hd' & Hp & E & _)]).
    + congruence.
    + contradiction.
    + rewrite Eds in Eds'. injection Eds' as <-. rewrite Hd in Hd'. injection Hd' as <-. rewrite He, Ho in Hp.
      contradiction (Hno _ _ Hp).
  - intros e ->. destruct (C42_failed_store _ _ _ _ _ H) as (_ & _ & ds' & os1 & o & os2 & e0 & Eds' & Eo & Hk & Hu & _ & Hoth & Hthis).
    rewrite Eds in Eds'. injection Eds' as <-.
    assert (Hocc : occurrences os1 name = [] \/ exists rest, occurrences os1 name = first :: rest).
    { rewrite Eo in Ho. unfold occurrences in Ho. rewrite filter_app, map_app in Ho. fold (occurrences os1 name) in Ho.
      destruct (occurrences os1 name) as [|y rest]; [now left|]. right. injection Ho as -> _. eauto. }
    assert (Hocc1 : forall a, parsed_all (od_sem d) false (Some x) (occurrences os1 name) a -> occurrences os1 name = [] /\ a = Some x).
    { intros a Hp. destruct Hocc as [E|[rest E]]; rewrite E in *.
      - inversion Hp. auto.
      - contradiction (Hno _ _ Hp). }
    destruct (str_eqb_spec name (po_key o)) as [Ek|Ek].
    + subst name. destruct Hthis as [Hx|(d' & a & b & v & Hd' & Hp & Hv & Ev & Evv & Evd)]; [congruence|].
      rewrite Hd in Hd'. injection Hd' as <-. rewrite He in Hp. cbn [given vv_defaulted vv_value] in Hp.
      destruct (Hocc1 _ Hp) as [E ->]. exists v. split; auto.
      assert (Ef : po_value o = first).
      { rewrite Eo in Ho. unfold occurrences in Ho, E. rewrite filter_app, map_app, E in Ho. cbn [app filter] in Ho.
        rewrite str_eqb_refl, Hu in Ho. cbn in Ho. now injection Ho. }
      rewrite Hs, Ef, (typed_second lc ul tv x first first false Ht eq_refl Hf) in Hv. injection Hv as <- _. auto.
    + destruct (Hoth name Hne Ek) as [[_ E]|(d' & a & Hd' & Hp & E)].
      * rewrite E, He. eexists. split; [reflexivity|]. auto.
      * rewrite Hd in Hd'. injection Hd' as <-. rewrite He in Hp. destruct (Hocc1 _ Hp) as [_ ->]. rewrite E.
        eexists. split; [reflexivity|]. auto.
Qed.
Print Assumptions C82_conflict.

Definition own_calls : list map_call :=
  [MStore src1 false; MClear; MInsert $"number" (Some (VLex 0 9)) false; MInsert $"mode" (Some (VString $"mine")) true;
   MInsert $"name" (Some (VString $"me")) false; MStore (source [given_as $"number" [$"1"]]) false;
   MErase $"include"; MStore (source [given_as $"mode" [$"slow"]]) false; MNotify].

Lemma all_ended rs :
  forallb (fun r => match snd r with Ok _ => true | Throw _ => true | _ => false end) rs = true -> Forall ended rs.
Proof.
  intros E. rewrite forallb_forall in E. apply Forall_forall. intros [ev o] Hr. specialize (E _ Hr). unfold ended.
  cbn [snd] in *. destruct o as [[]|e|u|]; try discriminate; eauto.
Qed.

Definition own_vm := fst (map_run vm_new own_calls).
Definition own_rs := snd (map_run vm_new own_calls).

Lemma own_ended : Forall ended own_rs.
Proof. apply all_ended. vm_compute. reflexivity. Qed.

Example C81_ex :
  map_run vm_new own_calls = (own_vm, own_rs) /\ Forall ended own_rs
  /\ map (fun r => match snd r with Ok _ => true | _ => false end) own_rs
     = [true; true; true; true; true; false; true; true; true]
  /\ map (fun pu => map po_key (pr_options (fst pu))) (sources [] own_calls own_rs) = [[$"mode"]]
  /\ (exists e, snd (notify (vm_erase own_vm $"name")) = Throw e).
Proof.
  split; [apply surjective_pairing|]. split; [exact own_ended|]. split; [vm_compute; reflexivity|].
  split; [vm_compute; reflexivity|]. compute_ex.
Qed.

Example C81_ex_erase :
  let vm1 := fst (store src2 vm_new false) in
  let vm2 := fst (store src3 (vm_erase vm1 $"number") false) in
  store src2 vm_new false = (vm1, Ok tt) /\ mentions src2 $"number" /\ resolves src2 $"number" o_number
  /\ stores (vm_erase vm1 $"number") [(src3, false)] vm2 /\ mentions src3 $"number" /\ entry vm2 $"number" = None.
Proof.
  split; [run_store|]. split; [discriminate|]. split; [eexists; split; [reflexivity|calc]|].
  split; [econstructor; [run_store|constructor]|]. split; [discriminate|]. calc.
Qed.

Example C81_ex_notify : forall name, ~ missing (sources [] own_calls own_rs) own_vm name.
Proof.
  intros name Hm. destruct (C81_required own_calls own_vm own_rs) as (n & disp & _ & _ & _ & Hn).
  - apply surjective_pairing.
  - exact own_ended.
  - exists name. exact Hm.
  - assert (E : snd (notify own_vm) = Ok tt) by (vm_compute; reflexivity). rewrite Hn in E. discriminate.
Qed.

(** The program's number stays in the way of --number; its mode gives way to --mode; its name counts as given. *)
Example C82_ex :
  let calls := firstn 5 own_calls in
  let vm := fst (map_run vm_new calls) in
  map (fun pu => map po_key (pr_options (fst pu))) (sources [] calls (snd (map_run vm_new calls))) = []
  /\ option_map vv_value (entry vm $"number") = Some (Some (VLex 0 9))
  /\ resolves (source [given_as $"number" [$"1"]]) $"number" o_number
  /\ occurrences [given_as $"number" [$"1"]] $"number" = [[$"1"]]
  /\ fails_with (snd (store (source [given_as $"number" [$"1"]]) vm false)) multiple_occurrences
  /\ option_map vv_value (entry own_vm $"number") = Some (Some (VLex 0 9))
  /\ option_map vv_value (entry own_vm $"mode") = Some (Some (VString $"slow"))
  /\ option_map vv_value (entry own_vm $"name") = Some (Some (VString $"me")).
Proof.
  split; [calc|]. split; [calc|]. split; [eexists; split; [reflexivity|calc]|]. split; [calc|].
  split; [eexists; split; [calc|reflexivity]|]. split; [calc|]. split; calc.
Qed.

(** The default of [mode] is changed in place; it stays a default and [mode] is still notified, with the new value. *)
Example C82_ex_assigned :
  let vm := fst (store (source []) vm_new false) in
  let changed := vm_assign vm $"mode" (Some (VString $"mine")) in
  let vm1 := fst (store (source [given_as $"name" [$"me"]]) changed false) in
  let vm2 := fst (store (source [given_as $"mode" [$"slow"]]) vm1 false) in
  option_map vv_defaulted (entry vm $"mode") = Some true
  /\ stores changed [(source [given_as $"name" [$"me"]], false)] vm1
  /\ option_map vv_value (entry vm1 $"mode") = Some (Some (VString $"mine"))
  /\ option_map vv_defaulted (entry vm1 $"mode") = Some true
  /\ option_map vv_value (entry vm2 $"mode") = Some (Some (VString $"slow"))
  /\ option_map vv_defaulted (entry vm2 $"mode") = Some false.
Proof.
  cbv zeta. split; [vm_compute; reflexivity|]. split.
  - econstructor; [apply done_ok; vm_compute; reflexivity|constructor].
  - repeat split; vm_compute; reflexivity.
Qed.
