(** C111: running out of memory in [store]. *)

From Coq Require Import List Ascii String NArith ZArith Bool Arith Lia.
From Verif Require Import Base Errors Spec BaseFacts Values OptDesc SpecLookup LookupFacts Positional Cmdline
  Parsers VarMap Objects SpecCmdline SpecStore StoreFacts SemFacts Memory SpecMemory MemoryFacts Samples.
From Verif Require PropStore.
Import ListNotations.

(** C111. If memory runs out in [store], each name has what it had; or the value that the first of its occurrences in the
    source give, perhaps with one more that was being parsed; or it had nothing and now has its default, or an entry
    without a value.  No value of one option gets under the name of another. *)
Theorem C111_entry : forall during p vm utf8 vm' name,
  interrupted during p vm utf8 vm' -> name <> [] ->
  exists ds, pr_desc p = Some ds
    /\ (partly during ds (vm_final vm) utf8 (occurrences (pr_options p) name) name (entry vm name) (entry vm' name)
        \/ entry vm name = None /\ default_begun ds name (entry vm' name)).
Proof. exact interrupted_entry. Qed.
Print Assumptions C111_entry.

(** C111. A name that neither the source mentions nor its description has a default for is left alone. *)
Theorem C111_others : forall during p vm utf8 vm' ds name,
  interrupted during p vm utf8 vm' -> name <> [] -> pr_desc p = Some ds ->
  ~ mentions p name -> Forall (fun d => is_key d [] name -> vs_default (od_sem d) = None) ds ->
  entry vm' name = entry vm name.
Proof.
  intros during p vm utf8 vm' ds name H Hne Hd Hm Hf.
  destruct (interrupted_entry _ _ _ _ _ _ H Hne) as (ds' & Hd' & [P|[_ (d & def & Hi & Hk & Hdef & _)]]);
    rewrite Hd in Hd'; injection Hd' as <-.
  - assert (Ho : occurrences (pr_options p) name = []).
    { unfold mentions in Hm. destruct (occurrences (pr_options p) name); [reflexivity|]. exfalso. apply Hm. discriminate. }
    inversion P as [|first rest d a E Hf1 Hn Hfd Hp|first toks rest d a v E Hn Hfd Hp Hv Hdf]; [reflexivity| |];
      rewrite Ho in E; destruct first; try discriminate. contradiction.
  - rewrite Forall_forall in Hf. rewrite (Hf d Hi Hk) in Hdef. discriminate.
Qed.
Print Assumptions C111_others.

(** C111. What an earlier source has decided stays decided, and a name is only decided by this source with its complete
    value: a value cut short is never taken for the final one. *)
Theorem C111_decided : forall during p vm utf8 vm' name,
  interrupted during p vm utf8 vm' -> name <> [] ->
  (forall v, In name (vm_final vm) -> entry vm name = Some v -> In name (vm_final vm') /\ entry vm' name = Some v)
  /\ (In name (vm_final vm') -> In name (vm_final vm)
      \/ exists ds d a, pr_desc p = Some ds /\ find ds name false false false = Ok d /\ vs_composing (od_sem d) = false
           /\ mentions p name
           /\ parsed_all (od_sem d) utf8 (given (entry vm name)) (occurrences (pr_options p) name) a
           /\ entry vm' name = Some (mk_vv a false (Some (od_sem d)))).
Proof.
  intros during p vm utf8 vm' name H Hne. split.
  - intros v Hf E. exact (interrupted_kept _ _ _ _ _ _ _ H Hne Hf E).
  - exact (interrupted_final _ _ _ _ _ _ H Hne).
Qed.
Print Assumptions C111_decided.

(** C111. The states include the one before the call, the one after it, and those that other exceptions leave. *)
Theorem C111_states : forall during p vm utf8,
  (pr_desc p <> None -> interrupted during p vm utf8 vm)
  /\ (forall vm', store p vm utf8 = (vm', Ok tt) -> interrupted during p vm utf8 vm')
  /\ (forall vm' e, store p vm utf8 = (vm', Throw e) ->
        interrupted (fun s a toks utf8 b => exists e, vs_parse s a toks utf8 = (b, Throw e)) p vm utf8 vm').
Proof.
  intros during p vm utf8. split; [apply start_interrupted|]. split; [intros vm'; apply done_interrupted|].
  intros vm' e. apply throw_interrupted.
Qed.
Print Assumptions C111_states.

(** C111. An option that a stored source requires is required whatever happens later: without a value, [notify] throws
    [required_option] and does nothing else. *)
Theorem C111_required : forall during p vm utf8 vm1 h vm2 ds d name,
  store p vm utf8 = (vm1, Ok tt) -> pr_desc p = Some ds -> In d ds -> is_key d [] name -> name <> [] ->
  vs_required (od_sem d) = true -> survives during vm1 h vm2 -> ~ has_value vm2 name ->
  exists disp, notify vm2 = ([], Throw (mk_required_option disp)).
Proof.
  intros during p vm utf8 vm1 h vm2 ds d name Hs Hd Hi Hk Hne Hr Hv Hn.
  apply (required_missing vm2 name); [|exact Hn]. eapply survives_requires; [exact Hv|]. eapply store_demands; eauto.
Qed.
Print Assumptions C111_required.

(** C111. With the library's value semantics and one type for each name, whatever calls of [store] were interrupted or
    threw, a further [store] and [notify] have defined behaviour (with the exceptions of C59). *)
Theorem C111_defined : forall ty h vm,
  survives in_library_parse vm_new h vm -> consistent ty h ->
  (forall u, snd (notify vm) <> Undef u)
  /\ forall p utf8 vm' u, consistent ty (h ++ [(p, utf8)]) -> store p vm utf8 = (vm', Undef u) -> pr_desc p = None \/ u = UB_ctype.
Proof.
  intros ty h vm H Hc. split.
  - intros u. exact (survives_notify ty h vm u H Hc).
  - intros p utf8 vm' u. exact (survives_store ty h p utf8 vm vm' u H).
Qed.
Print Assumptions C111_defined.

(** The map after the first loop, for the examples. *)
Definition first_loop (p : parsed_options) : smap variable_value :=
  fst (fst (store_options PropStore.known (pr_prefix p) [] false (pr_options p) [] [])).
Lemma triple_is {A B C} (x : A * B * C) r : snd x = r -> x = (fst (fst x), snd (fst x), r).
Proof. destruct x as [[]]. cbn. congruence. Qed.

Definition one_number : parsed_options := PropStore.source [PropStore.given_as $"number" [$"5"]].
Definition cut_short : variables_map := mk_vm (first_loop one_number) [] [].

Lemma cut_short_interrupted : interrupted in_library_parse one_number vm_new false cut_short.
Proof.
  eapply in_options with (ds := PropStore.known); [reflexivity|].
  eapply io_between with (done := pr_options one_number) (todo := []); [reflexivity|].
  apply triple_is. vm_compute. reflexivity.
Qed.

(** C111. But a source that could not be stored because memory ran out may be refused when it is stored again, *)
Theorem C111_retry_refuted :
  exists p vm, snd (store p vm_new false) = Ok tt /\ interrupted in_library_parse p vm_new false vm
    /\ fails_with (snd (store p vm false)) multiple_occurrences.
Proof.
  exists one_number, cut_short. split; [PropStore.calc|]. split; [exact cut_short_interrupted|].
  eexists. split; [PropStore.calc|reflexivity].
Qed.
Print Assumptions C111_retry_refuted.

(** C111. a default can be lost for good, although every later [store] succeeds and [count] says that the option is there, *)
Definition only_known : parsed_options := PropStore.source [].
Definition lost_default : variables_map := mk_vm (sm_set $"mode" vv_empty []) [] [].

Lemma lost_default_interrupted : interrupted in_library_parse only_known vm_new false lost_default.
Proof.
  unfold lost_default. eapply (in_defaults in_library_parse only_known vm_new false PropStore.known [] [] _ _); [reflexivity|reflexivity|].
  eapply (id_entry _ _ _ _ [o_number; PropStore.o_include] PropStore.o_mode [PropStore.o_name; PropStore.o_quiet; o_level]);
    [reflexivity|reflexivity|discriminate|reflexivity|reflexivity].
Qed.

Theorem C111_default_refuted :
  exists p vm vm' d def, interrupted in_library_parse p vm_new false vm /\ store p vm false = (vm', Ok tt)
    /\ resolves p $"mode" d /\ vs_default (od_sem d) = Some (Some def)
    /\ vm_get (fst (store p vm_new false)) $"mode" = mk_vv (Some def) true (Some (od_sem d))
    /\ entry vm' $"mode" = Some vv_empty
    /\ fails_with (vv_as TString (vm_get vm' $"mode")) bad_any_cast.
Proof.
  exists only_known, lost_default, (fst (store only_known lost_default false)), PropStore.o_mode, (VString $"fast").
  split; [exact lost_default_interrupted|]. split; [PropStore.run_store|].
  split; [exists PropStore.known; split; reflexivity|]. split; [reflexivity|]. split; [reflexivity|]. split; [reflexivity|].
  eexists. split; [PropStore.calc|reflexivity].
Qed.
Print Assumptions C111_default_refuted.

(** C111. and [notify] can report a required option without saying which. *)
Theorem C111_nameless_refuted :
  exists p vm, interrupted in_library_parse p vm_new false vm /\ notify vm = ([], Throw (mk_required_option [])).
Proof.
  exists only_known. eexists. split.
  - eapply (in_defaults in_library_parse only_known vm_new false PropStore.known [] [] _ _); [reflexivity|reflexivity|].
    eapply (id_required _ _ _ _ [o_number; PropStore.o_include; PropStore.o_mode] PropStore.o_name [PropStore.o_quiet; o_level]);
      [reflexivity|reflexivity|discriminate|reflexivity|reflexivity|reflexivity].
  - reflexivity.
Qed.
Print Assumptions C111_nameless_refuted.

(** A history with an interrupted call, one that throws and one that succeeds. *)
Example C111_ex :
  let vm2 := fst (store one_number cut_short false) in
  let vm3 := fst (store PropStore.src1 vm2 false) in
  survives in_library_parse vm_new [(one_number, false); (one_number, false); (PropStore.src1, false)] vm3
  /\ option_map vv_value (entry vm3 $"include") = Some (Some (VVec (TLex 0) [VLex 0 1; VLex 0 2]))
  /\ option_map vv_value (entry vm3 $"number") = Some (Some (VLex 0 5)).
Proof.
  split; [|split; PropStore.calc].
  eapply su_interrupted; [exact cut_short_interrupted|].
  eapply su_done; [PropStore.run_store|right; eexists; reflexivity|].
  eapply su_done; [PropStore.run_store|left; reflexivity|]. apply su_nil.
Qed.

(** A vector that was cut short while it was parsed. *)
Example C111_ex_vector :
  exists m, interrupted in_library_parse PropStore.src1 vm_new false (mk_vm m [] [])
    /\ option_map vv_value (sm_find $"include" m) = Some (Some (VVec (TLex 0) [VLex 0 1])).
Proof.
  eexists. split.
  - eapply in_options with (ds := PropStore.known); [reflexivity|].
    eapply io_parse with (done := []) (o := PropStore.given_as $"include" [$"1"; $"2"]) (d := PropStore.o_include)
      (a := Some (VVec (TLex 0) [VLex 0 1])); [reflexivity|reflexivity|repeat split|reflexivity|].
    eapply (lp_vector _ _ _ _ lex local tints (TLex 0) [$"1"; $"2"] 1); reflexivity.
  - reflexivity.
Qed.

(** A history with one type for each name. *)
Example C111_ex_consistent :
  let p := mk_parsed [PropStore.given_as $"number" [$"x"]; PropStore.given_as $"level" []] (Some [o_number; o_level]) 0 in
  consistent (fun _ => TLex 0) [(p, false)]
  /\ survives in_library_parse vm_new [(p, false)] (mk_vm (sm_set $"number" vv_empty []) [] []).
Proof.
  split; [exact PropStore.C59_ex_consistent|]. eapply su_interrupted; [|apply su_nil].
  eapply in_options with (ds := [o_number; o_level]); [reflexivity|].
  eapply io_entry with (done := []) (o := PropStore.given_as $"number" [$"x"]) (d := o_number);
    [reflexivity|reflexivity|repeat split|reflexivity|exact I].
Qed.
