(** C102: what several threads may do at the same time. *)

From Coq Require Import List Ascii String NArith ZArith Bool Lia.
From Verif Require Import Base Errors Values OptDesc Positional Cmdline Parsers VarMap Format Objects SpecStore EndFacts Threads SpecThreads ThreadFacts Samples.
Import ListNotations.

(** C102. As long as no thread writes what another one uses, there is no data race, in any schedule, *)
Theorem C102_no_race : forall fuel ndebug mem ps schedule,
  let ts := map (thread_action fuel ndebug) ps in
  ~ conflict mem ts -> ~ race (snd (interleave mem ts schedule)).
Proof. intros fuel ndebug mem ps schedule ts Hc. eapply undisturbed_race; [exact Hc|]. apply undisturbed_all. exact Hc. Qed.
Print Assumptions C102_no_race.

(** C102. every thread sees what it would see if it were alone, *)
Theorem C102_isolated : forall fuel ndebug mem ps schedule i p answers,
  let ts := map (thread_action fuel ndebug) ps in
  ~ conflict mem ts -> nth_error ps i = Some p -> nth_error (snd (interleave mem ts schedule)) i = Some (Return answers) ->
  answers = snd (run_alone mem (thread_action fuel ndebug p)).
Proof.
  intros fuel ndebug mem ps schedule i p answers ts Hc Hp Hi.
  destruct (undisturbed_all _ mem ts Hc schedule) as (_ & H & _).
  destruct (H i (thread_action fuel ndebug p)) as (memi & ti & Hti & Hr & _); [unfold ts; rewrite nth_error_map, Hp; reflexivity|].
  assert (ti = Return answers) by congruence. subst ti. apply reached_run in Hr. cbn [fst snd run_alone] in Hr. rewrite <- Hr. reflexivity.
Qed.
Print Assumptions C102_isolated.

(** C102. and leaves behind what it would leave behind; what nobody writes stays as it is. *)
Theorem C102_memory : forall fuel ndebug mem ps schedule mem' ts',
  let ts := map (thread_action fuel ndebug) ps in
  ~ conflict mem ts -> interleave mem ts schedule = (mem', ts') -> all_done ts' ->
  (forall p l w, In p ps -> In (w, l) (touches mem (thread_action fuel ndebug p)) -> mem' l = fst (run_alone mem (thread_action fuel ndebug p)) l)
  /\ (forall l, (forall p, In p ps -> ~ In (true, l) (touches mem (thread_action fuel ndebug p))) -> mem' l = mem l).
Proof.
  intros fuel ndebug mem ps schedule mem' ts' ts Hc Hi Hd.
  destruct (undisturbed_all _ mem ts Hc schedule) as (_ & H & U). rewrite Hi in *. cbn [fst snd] in *. split.
  - intros p l w Hp Hl. apply In_nth_error in Hp as [i Hp].
    destruct (H i (thread_action fuel ndebug p)) as (memi & ti & Hti & Hr & Hm); [unfold ts; rewrite nth_error_map, Hp; reflexivity|].
    rewrite (Hm w l Hl). apply nth_error_In in Hti. unfold all_done in Hd. rewrite Forall_forall in Hd. destruct (Hd _ Hti) as [r ->].
    apply reached_run in Hr. cbn [fst snd run_alone] in Hr. rewrite <- Hr. reflexivity.
  - intros l Hl. apply U. intros i t Ht. unfold ts in Ht. rewrite nth_error_map in Ht. destruct (nth_error ps i) as [p|] eqn:E; [|discriminate].
    injection Ht as <-. apply Hl. exact (nth_error_In _ _ E).
Qed.
Print Assumptions C102_memory.

(** C102. No thread keeps another one from coming to its end: whatever has happened, all can finish. *)
Theorem C102_finishes : forall fuel ndebug mem ps schedule,
  exists rest, all_done (snd (interleave mem (map (thread_action fuel ndebug) ps) (schedule ++ rest))).
Proof.
  intros fuel ndebug mem ps schedule. unfold interleave. destruct (fold_left turn schedule (mem, map (thread_action fuel ndebug) ps)) as [mem1 ts1] eqn:E.
  destruct (finish_all _ mem1 ts1) as [rest Hr]. exists rest. rewrite fold_left_app, E. exact Hr.
Qed.
Print Assumptions C102_finishes.

(** C102. Calls touch nothing else than the objects listed in [accesses]: parsing and printing read the description; [store]
    reads the description and writes the map; [notify] reads the map and writes the variables; a lookup reads the maps it
    comes to; [what()] writes the text of the exception if that carries an option name. *)
Theorem C102_accesses : forall fuel ndebug mem c w l, In (w, l) (touches mem (call_action fuel ndebug c)) -> accesses mem c w l.
Proof. exact call_accesses. Qed.
Print Assumptions C102_accesses.

(** C102. Threads that only call [const] functions, except [what()] of exceptions with option names, may share everything; *)
Theorem C102_const : forall fuel ndebug mem ps, Forall only_looking ps -> ~ conflict mem (map (thread_action fuel ndebug) ps).
Proof.
  intros fuel ndebug mem ps Hp (i & j & t & u & l & w & _ & Hi & _ & Ht & _).
  rewrite nth_error_map in Hi. destruct (nth_error ps i) as [p|] eqn:E; [|discriminate]. injection Hi as <-.
  apply nth_error_In in E. rewrite Forall_forall in Hp. apply looking_touches in Ht; [discriminate|]. exact (Hp p E).
Qed.
Print Assumptions C102_const.

(** C102. threads with maps, variables and exceptions of their own may share the descriptions. *)
Theorem C102_own : forall fuel ndebug mem owns ps,
  Forall2 (fun own p => own_start own mem /\ own_program own mem p) owns ps ->
  (forall i j a b, i <> j -> nth_error owns i = Some a -> nth_error owns j = Some b -> disjoint a b) ->
  ~ conflict mem (map (thread_action fuel ndebug) ps).
Proof. exact program_disjoint. Qed.
Print Assumptions C102_own.

(** C102. Alone, a call is the function of the rest of the model. *)
Theorem C102_alone : forall fuel ndebug mem,
  let alone c := run_alone mem (call_action fuel ndebug c) in
  (forall x read, alone (TParse x read) = (mem, AParsed (read (ods_list (mem (AtDesc x))))))
  /\ (forall x width, alone (TPrint x width) = (mem, AText (print ndebug (mem (AtDesc x)) width)))
  /\ (forall x d, exists mem', alone (TAdd x d) = (mem', AEnd (Ok tt)) /\ mem' (AtDesc x) = ods_add (mem (AtDesc x)) d
        /\ forall l, l <> AtDesc x -> mem' l = mem l)
  /\ (forall p x m utf8 vm r,
        store (mk_parsed (pr_options p) (Some (ods_list (mem (AtDesc x)))) (pr_prefix p)) (mo_map (mem (AtMap m))) utf8 = (vm, r) ->
        exists mem', alone (TStore p x m utf8) = (mem', AEnd r) /\ mem' (AtMap m) = mk_mo vm (mo_next (mem (AtMap m)))
          /\ forall l, l <> AtMap m -> mem' l = mem l)
  /\ (forall m events r, notify (mo_map (mem (AtMap m))) = (events, r) ->
        exists mem', alone (TNotify m) = (mem', ANotified events r)
          /\ (forall a, left_in a events (mem (AtVariable a)) (mem' (AtVariable a)))
          /\ forall l, (forall a, l <> AtVariable a) -> mem' l = mem l)
  /\ (forall objs m name v, (forall i mo, nth_error objs i = Some mo -> mem (AtMap i) = mo) -> map_index fuel objs m name = Ok v ->
        alone (TGet m name) = (mem, AValue (Ok v)))
  /\ (forall m n, exists mem', alone (TNext m n) = (mem', AEnd (Ok tt)) /\ mem' (AtMap m) = mk_mo (mo_map (mem (AtMap m))) n
        /\ forall l, l <> AtMap m -> mem' l = mem l)
  /\ (forall a, alone (TVariable a) = (mem, AVariable (mem (AtVariable a))))
  /\ (forall e x, exists mem', alone (TWhat e x) = (mem', AText (what fuel x)) /\ forall l, l <> AtMessage e -> mem' l = mem l).
Proof.
  intros fuel ndebug mem alone. unfold alone. split; [reflexivity|]. split; [reflexivity|]. split; [|split; [|split; [|split; [|split; [|split]]]]].
  - intros x d. eexists. split; [reflexivity|]. split; [apply (updated_same mem (AtDesc x))|]. intros l Hl. apply updated_other. congruence.
  - intros p x m utf8 vm r E. cbn [call_action run_alone]. cbn beta iota zeta. rewrite E. eexists. split; [reflexivity|].
    split; [apply (updated_same mem (AtMap m))|]. intros l Hl. apply updated_other. congruence.
  - intros m events r E. cbn [call_action run_alone]. cbn beta iota zeta. rewrite E.
    destruct (run_alone mem (assign_action events (Return (ANotified events r)))) as [mem' a] eqn:R. exists mem'.
    assert (A := assign_answer _ events mem (ANotified events r)). rewrite R in A. cbn in A. subst a. split; [reflexivity|]. split.
    + intros a. assert (M := assign_memory _ events mem (ANotified events r) a). rewrite R in M. cbn [fst] in M. rewrite M. apply left_in_fold.
    + intros l Hl. assert (M := assign_others _ events mem (ANotified events r) l Hl). rewrite R in M. exact M.
  - intros objs m name v Ho E. cbn [call_action]. rewrite run_after. assert (A := index_alone mem objs name Ho fuel m v E).
    assert (M := index_memory fuel mem m name). destruct (run_alone mem (index_action fuel m name)) as [mem' r]. cbn in A, M. subst. reflexivity.
  - intros m n. eexists. split; [reflexivity|]. split; [apply (updated_same mem (AtMap m))|]. intros l Hl. apply updated_other. congruence.
  - reflexivity.
  - intros e x. cbn [call_action]. rewrite run_after. assert (A := what_alone e fuel x mem).
    assert (M : forall l, l <> AtMessage e -> fst (run_alone mem (what_action fuel e x)) l = mem l).
    { intros l Hl. apply run_keeps. intros H. apply only_what in H. contradiction. }
    destruct (run_alone mem (what_action fuel e x)) as [mem' r]. cbn in A, M. subst r. exists mem'. split; [reflexivity|exact M].
Qed.
Print Assumptions C102_alone.

(** ** Threads that do get in each other's way *)

Definition o_shared := mk_od [] [$"count"] $"a number" (typed lex local (value_of_type (TLex 0) (Some 7))).
Definition shared_desc : options_description := ods_add (mk_ods [] 80 40 [] []) o_shared.
Definition start : memory := fun l =>
  match l with AtDesc _ => shared_desc | AtMap _ => mk_mo vm_new None | AtVariable _ => None | AtMessage _ => [] end.
Definition count_is (s : str) : parsed_options := mk_parsed [mk_popt $"count" (-1) [s] [] false false] None 0.
Definition worker (m : nat) (s : str) : program :=
  PCall (TStore (count_is s) 0 m false) (fun _ => PCall (TNotify m) (fun _ => PCall (TVariable 7) (fun _ => PEnd))).

(** C102. Two threads with maps of their own get in each other's way if the description sends values to a variable: *)
Theorem C102_shared_variable_refuted :
  let ts := map (thread_action 10 false) [worker 1 $"5"; worker 2 $"6"] in
  conflict start ts
  /\ (exists schedule, race (snd (interleave start ts schedule)))
  /\ (exists schedule, map (fun a => match a with Return r => nth_error r 2 | _ => None end) (snd (interleave start ts schedule))
        = [Some (AVariable (Some (VLex 0 6))); Some (AVariable (Some (VLex 0 6)))])
  /\ (exists schedule, map (fun a => match a with Return r => nth_error r 2 | _ => None end) (snd (interleave start ts schedule))
        = [Some (AVariable (Some (VLex 0 5))); Some (AVariable (Some (VLex 0 5)))]).
Proof.
  intros ts. split; [|split; [|split]].
  - exists 0, 1. unfold ts. cbn [map]. eexists. eexists. exists (AtVariable 7), true. split; [discriminate|]. split; [reflexivity|]. split; [reflexivity|].
    split; (do 4 right); left; reflexivity.
  - exists ([0; 0; 0; 0] ++ [1; 1; 1; 1]). exists 0, 1. eexists. eexists. exists (AtVariable 7), true.
    split; [discriminate|]. split; [reflexivity|]. split; [reflexivity|]. split; reflexivity.
  - exists ([0; 0; 0; 0; 0] ++ [1; 1; 1; 1; 1] ++ [0; 1]). reflexivity.
  - exists ([1; 1; 1; 1; 1] ++ [0; 0; 0; 0; 0] ++ [0; 1]). reflexivity.
Qed.
Print Assumptions C102_shared_variable_refuted.

(** C102. Two threads that ask the same exception for its text, although [what()] is [const]: there is a data race, and one of
    them may get a text with placeholders. *)
Definition shared_error : exn := mk_exn unknown_option 1 (sm_set $"option" $"size" (sm_set $"original_token" $"--size" [])).
Definition asks : program := PCall (TWhat 0 shared_error) (fun _ => PEnd).
Theorem C102_what_refuted :
  let ts := map (thread_action 10 false) [asks; asks] in
  what 10 shared_error = Ok $"unrecognised option '--size'"
  /\ conflict start ts
  /\ race (snd (interleave start ts []))
  /\ exists schedule, nth_error (snd (interleave start ts schedule)) 0 = Some (Return [AText (Ok $"unrecognised option '%canonical_option%'")]).
Proof.
  intros ts. split; [reflexivity|]. split; [|split].
  - exists 0, 1. eexists. eexists. exists (AtMessage 0), true. split; [discriminate|]. split; [reflexivity|]. split; [reflexivity|].
    split; left; reflexivity.
  - exists 0, 1. eexists. eexists. exists (AtMessage 0), true. split; [discriminate|]. split; [reflexivity|]. split; [reflexivity|].
    split; reflexivity.
  - exists (repeat 0 8 ++ [1; 0]). vm_compute. reflexivity.
Qed.
Print Assumptions C102_what_refuted.

(** Two threads that share a description, with a map of their own each: the hypotheses of C102_own hold. *)
Definition own_desc : options_description := ods_add (mk_ods [] 80 40 [] []) o_number.
Definition own_memory : memory := fun l =>
  match l with AtDesc _ => own_desc | AtMap _ => mk_mo vm_new None | AtVariable _ => None | AtMessage _ => [] end.
Definition number_is (s : str) : parsed_options := mk_parsed [mk_popt $"number" (-1) [s] [] false false] None 0.
Definition reads_own (s : str) : list option_description -> outcome parsed_options := fun ds => Ok (mk_parsed (pr_options (number_is s)) (Some ds) 0).
Definition careful_worker (m : nat) (s : str) : program :=
  PCall (TParse 0 (reads_own s)) (fun a =>
    match a with
    | AParsed (Ok p) => PCall (TStore p 0 m false) (fun _ => PCall (TNotify m) (fun _ => PCall (TGet m $"number") (fun _ => PCall (TWhat m shared_error) (fun _ => PEnd))))
    | _ => PEnd
    end).
Definition owner (m : nat) : property := mk_property (eq m) (eq m) (eq m).

Lemma number_gives : forall own, gives_to own (od_sem o_number).
Proof. intros own x a v H. cbn in H. destruct x; cbn in H; contradiction. Qed.

Example C102_ex :
  let ps := [careful_worker 1 $"5"; careful_worker 2 $"6"] in
  let ts := map (thread_action 10 false) ps in
  Forall2 (fun own p => own_start own own_memory /\ own_program own own_memory p) [owner 1; owner 2] ps
  /\ (forall i j a b, i <> j -> nth_error [owner 1; owner 2] i = Some a -> nth_error [owner 1; owner 2] j = Some b -> disjoint a b)
  /\ ~ conflict own_memory ts
  /\ exists schedule, map (fun a => match a with Return [_; _; _; AValue (Ok v); AText (Ok t)] => (vv_value v, t) | _ => (None, []) end)
         (snd (interleave own_memory ts schedule))
       = [(Some (VLex 0 5), $"unrecognised option '--size'"); (Some (VLex 0 6), $"unrecognised option '--size'")].
Proof.
  intros ps ts.
  assert (P : forall m s, own_program (owner m) own_memory (careful_worker m s)).
  { intros m s. split; [exact I|]. intros [[p| | |]|r|r|ev r|r|v]; cbn [own_program]; try exact I.
    split; [split; [reflexivity|repeat constructor; apply number_gives]|]. intros _. split; [reflexivity|]. intros _. split; [reflexivity|].
    intros _. split; [reflexivity|]. intros _. exact I. }
  assert (S : forall own, own_start own own_memory).
  { intros own m _. split; [discriminate|constructor]. }
  assert (A : Forall2 (fun own p => own_start own own_memory /\ own_program own own_memory p) [owner 1; owner 2] ps).
  { constructor; [split; [apply S|apply P]|]. constructor; [split; [apply S|apply P]|]. constructor. }
  assert (D : forall i j a b, i <> j -> nth_error [owner 1; owner 2] i = Some a -> nth_error [owner 1; owner 2] j = Some b -> disjoint a b).
  { assert (D12 : forall m n, m <> n -> disjoint (owner m) (owner n)).
    { intros m n Hmn. repeat split; cbn; intros x <- E; congruence. }
    intros [|[|i]] [|[|j]] a b Hij Ha Hb; cbn in Ha, Hb; try congruence; try (destruct i; discriminate); try (destruct j; discriminate);
      injection Ha as <-; injection Hb as <-; apply D12; discriminate. }
  split; [exact A|]. split; [exact D|]. split; [exact (C102_own _ _ _ _ _ A D)|].
  exists (flat_map (fun _ => [0; 1]) (repeat tt 40)).
  vm_compute. reflexivity.
Qed.

(** Threads that only look at shared objects *)
Example C102_ex_const :
  Forall only_looking [PCall (TPrint 0 20) (fun _ => PCall (TGet 1 $"number") (fun _ => PEnd)); PCall (TGet 1 $"number") (fun _ => PCall (TParse 0 (reads_own $"5")) (fun _ => PEnd));
    PCall (TWhat 0 (plain_exn (po_error $"x"))) (fun _ => PEnd)].
Proof.
  constructor; [|constructor; [|constructor; [|constructor]]]; cbn [only_looking];
    repeat match goal with |- _ /\ _ => split | |- forall _ : answer, _ => intros _ | |- True => exact I | |- only_looks _ => split; [reflexivity|] end;
    intros e x E; try discriminate. injection E as _ <-. reflexivity.
Qed.
