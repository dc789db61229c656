(** C96: storing what was parsed in two stages. *)

From Coq Require Import List Ascii String NArith ZArith Bool Arith Lia Sorting.Sorted.
From Verif Require Import Base Errors Spec BaseFacts Values OptDesc SpecLookup LookupFacts Positional Cmdline Parsers VarMap
  SpecCmdline CmdlineFacts SpecReject SpecGrammar GrammarFacts SpecConserve SpecStages StageFacts SpecStore StoreFacts SpecEnd EndFacts
  SpecStageStore StageStoreFacts Samples Witness PropStages.
Import ListNotations.

(** C96. If the options of a source are distributed to two sources, storing the two one after the other succeeds exactly if storing
    the one does, and gives the same map. *)
Theorem C96_distributed : forall before vm p p1 p2 utf8,
  stores vm_new before vm -> distributed p p1 p2 ->
  ((exists vm', store p vm utf8 = (vm', Ok tt)) <-> (exists vm', stores vm [(p1, utf8); (p2, utf8)] vm'))
  /\ forall vm1 vm2, store p vm utf8 = (vm1, Ok tt) -> stores vm [(p1, utf8); (p2, utf8)] vm2 -> equivalent vm1 vm2.
Proof.
  intros before vm p p1 p2 u Hb Hd. split; [split|].
  - intros [vm' H]. destruct (distributed_stores _ _ _ _ _ _ Hd H) as (va & vb & H1 & H2). exists vb. econstructor; eauto. econstructor; eauto. constructor.
  - intros [vb H]. inversion H as [|? ? ? va ? ? H1 H']; subst. inversion H' as [|? ? ? vb' ? ? H2 H'']; subst. inversion H''; subst.
    eapply distributed_back; eauto.
  - intros vm1 vb H0 H. inversion H as [|? ? ? va ? ? H1 H']; subst. inversion H' as [|? ? ? vb' ? ? H2 H'']; subst. inversion H''; subst.
    destruct (stores_sorted _ _ _ Hb (SSorted_nil _) (SSorted_nil _)) as [S1 S2].
    destruct (store_sorted _ _ _ _ _ H0 S1 S2) as [T1 T2]. destruct (stores_sorted _ _ _ H S1 S2) as [T3 T4].
    destruct (distributed_same _ _ _ _ _ _ _ _ Hd H0 H1 H2) as [Hv Hr]. now apply same_equivalent.
Qed.
Print Assumptions C96_distributed.

(** C96. So a command line can be parsed and stored in two stages, whatever has been stored before and is stored afterwards: under the conditions of C92, and if no
    argument is given the name of an option of the first stage. *)
Theorem C96_two_stages : forall c A B args res,
  plain c -> case_sensitive c -> has (cl_style c) allow_long_disguise = false -> cl_allow_unregistered c = false ->
  cl_desc c = A ++ B -> no_wildcards (A ++ B) -> Forall has_name (A ++ B) -> Forall (fun d => sensible d /\ fits d) (A ++ B) ->
  unshadowed (has (cl_style c) allow_guessing) A B -> Forall fixed_count B ->
  (Z.of_nat (List.length args) < INT_MAX)%Z -> ~ In dashdash args -> Forall (unmixed c (first_stage c A)) args ->
  parse c args = Ok res ->
  Forall (fun o => po_pos o = (-1)%Z -> belongs (first_stage c A) o = false ->
            Forall (leaves_alone (first_stage c A)) (tl (po_orig o))) res ->
  arguments_for_second c A res ->
  exists r1 r2,
    parse (first_stage c A) args = Ok r1
    /\ parse (second_stage c B) (collect_unrecognized r1 include_positional) = Ok r2
    /\ forall before vm prefix utf8, stores vm_new before vm ->
         let whole := mk_parsed res (Some (A ++ B)) prefix in
         let stages := [(mk_parsed r1 (Some A) prefix, utf8); (mk_parsed r2 (Some B) prefix, utf8)] in
         ((exists vm', store whole vm utf8 = (vm', Ok tt)) <-> (exists vm', stores vm stages vm'))
         /\ forall vm1 vm2, store whole vm utf8 = (vm1, Ok tt) -> stores vm stages vm2 -> equivalent vm1 vm2.
Proof.
  intros c A B args res Hplain Hcase Hdis Hstrict Hdesc Hwild Hnames Hsf Hsh Hfix Hlen Hdd Hun Hp Hal Harg.
  destruct (C92_two_stages c A B args res Hplain Hcase Hdis Hstrict Hdesc Hwild Hnames Hsf Hsh Hfix Hlen Hdd Hun Hp Hal) as (r1 & r2 & H1 & H2 & E1 & E2).
  exists r1, r2. split; auto. split; auto. intros before vm prefix u Hb. cbv zeta. eapply C96_distributed; eauto.
  eapply staged_distributed; eauto.
Qed.
Print Assumptions C96_two_stages.

(** C96. If the arguments are called after an option of the first stage, the second stage cannot be stored: it does not know
    that option. *)
Theorem C96_argument_refuted :
  let A := [o_help; o_input] in
  let B := [o_verbose] in
  let c := mk_cl default_style false (A ++ B) (Some (mk_pos [] $"input")) None None in
  exists res r1 r2,
    parse c [$"file"] = Ok res /\ parse (first_stage c A) [$"file"] = Ok r1
    /\ parse (second_stage c B) (collect_unrecognized r1 include_positional) = Ok r2
    /\ (exists vm', store (mk_parsed res (Some (A ++ B)) 0) vm_new false = (vm', Ok tt))
    /\ forall vm', ~ stores vm_new [(mk_parsed r1 (Some A) 0%Z, false); (mk_parsed r2 (Some B) 0%Z, false)] vm'.
Proof.
  cbv zeta. eexists. eexists. eexists. split; [vm_compute; reflexivity|]. split; [vm_compute; reflexivity|]. split; [vm_compute; reflexivity|]. split.
  - eexists. apply done_ok. vm_compute. reflexivity.
  - intros vm' H. inversion H as [|? ? ? va ? ? H1 H']; subst. inversion H' as [|? ? ? vb ? ? H2 _]; subst.
    vm_compute in H1. injection H1 as <-. vm_compute in H2. discriminate H2.
Qed.
Print Assumptions C96_argument_refuted.

(** [A] is help, output and level, [B] is verbose, number and input; the arguments are called input. *)
Definition o_files := mk_od [] [$"input"; $"in"] [] (typed lex local (value_of_type (TVec TString) None)).
Definition stage_A := [o_help; o_output; o_level].
Definition stage_B := [o_verbose; o_number; o_files].
Definition stage_cl := mk_cl default_style false (stage_A ++ stage_B) (Some (mk_pos [] $"input")) None None.
Definition stage_args := [$"--verbose"; $"-o"; $"out"; $"file"; $"-n"; $"5"; $"-l"; $"3"; $"--input"; $"first"; $"x"; $"--help"].
Definition stage_res :=
  [mk_popt $"verbose" (-1) [] [$"--verbose"] false false; mk_popt $"output" (-1) [$"out"] [$"-o"; $"out"] false false;
   mk_popt $"input" 0 [$"file"] [$"file"] false false; mk_popt $"number" (-1) [$"5"] [$"-n"; $"5"] false false;
   mk_popt $"level" (-1) [$"3"] [$"-l"; $"3"] false false; mk_popt $"input" (-1) [$"first"] [$"--input"; $"first"] false false;
   mk_popt $"input" 1 [$"x"] [$"x"] false false; mk_popt $"help" (-1) [] [$"--help"] false false].

Example C96_ex :
  exists r1 r2 vm1 vm2,
    parse (first_stage stage_cl stage_A) stage_args = Ok r1
    /\ parse (second_stage stage_cl stage_B) (collect_unrecognized r1 include_positional) = Ok r2
    /\ store (mk_parsed stage_res (Some (stage_A ++ stage_B)) 0) vm_new false = (vm1, Ok tt)
    /\ stores vm_new [(mk_parsed r1 (Some stage_A) 0%Z, false); (mk_parsed r2 (Some stage_B) 0%Z, false)] vm2
    /\ equivalent vm1 vm2
    /\ option_map vv_value (entry vm2 $"input") = Some (Some (VVec TString [VString $"file"; VString $"first"; VString $"x"])).
Proof.
  destruct (C96_two_stages stage_cl stage_A stage_B stage_args stage_res) as (r1 & r2 & H1 & H2 & H).
  - split; reflexivity.
  - split; reflexivity.
  - reflexivity.
  - reflexivity.
  - reflexivity.
  - assert (N : forall l, last l c_dash <> c_star -> forall p, l <> p ++ [c_star]) by (intros l H p ->; apply H; apply last_last).
    repeat (apply Forall_cons; [repeat (apply Forall_cons; [apply N; discriminate|]); apply Forall_nil|]). apply Forall_nil.
  - repeat (apply Forall_cons; [discriminate|]). constructor.
  - assert (K : forall d, In d (o_files :: sample) -> sensible d /\ fits d).
    { intros d Hd. repeat (destruct Hd as [<-|Hd]; [repeat split; try (vm_compute; discriminate); vm_compute; auto; left; discriminate|]). destruct Hd. }
    repeat (apply Forall_cons; [apply K; unfold sample; auto 10 with datatypes|]). constructor.
  - intros d e n Hne Hd He Hf Ha. apply approx_b_spec in Ha. revert Ha.
    assert (Hn : In n [$"verbose"; $"number"; $"-v"; $"-n"; $"input"; $"in"]).
    { destruct He as [<-|[<-|[<-|[]]]]; (destruct Hf as [(l & Hl0 & _ & Hl)|Hl]); cbn [od_longs o_verbose o_number o_files In] in Hl0 || idtac;
        repeat match goal with K : _ \/ _ |- _ => destruct K as [<-|K] | K : False |- _ => destruct K end;
        apply same_name_eq in Hl; cbn in Hl; subst n; cbn; tauto || now contradiction Hne. }
    destruct Hd as [<-|[<-|[<-|[]]]], Hn as [<-|[<-|[<-|[<-|[<-|[<-|[]]]]]]]; vm_compute; discriminate.
  - repeat (apply Forall_cons; [vm_compute; discriminate|]). constructor.
  - reflexivity.
  - cbn. intuition discriminate.
  - repeat (apply Forall_cons; [first [now apply unmixed_dashes|now apply unmixed_letter|apply unmixed_word; [now split|reflexivity|discriminate|discriminate]]|]).
    constructor.
  - vm_compute. reflexivity.
  - repeat (apply Forall_cons; [intros _ _; cbn [po_orig tl]; repeat (apply Forall_cons; [intros ms Hs; exfalso; revert Hs; apply word_stands; [now split|reflexivity|discriminate|discriminate]|]); apply Forall_nil|]).
    constructor.
  - repeat (apply Forall_cons; [cbn [po_pos po_key]; intros K; first [right; vm_compute; reflexivity|now contradiction K]|]). constructor.
  - specialize (H [] vm_new 0%Z false (sts_nil _)). cbv zeta in H. destruct H as [[Hs _] He].
    pose proof (done_ok (store (mk_parsed stage_res (Some (stage_A ++ stage_B)) 0) vm_new false) ltac:(vm_compute; reflexivity)) as Hw.
    destruct (Hs (ex_intro _ _ Hw)) as [vm2 H3]. exists r1, r2, (fst (store (mk_parsed stage_res (Some (stage_A ++ stage_B)) 0) vm_new false)), vm2.
    split; [exact H1|]. split; [exact H2|]. split; [exact Hw|]. split; [exact H3|]. pose proof (He _ _ Hw H3) as Heq. split; [exact Heq|].
    destruct Heq as [Hf _]. destruct (Hf [] _ (sts_nil _)) as (vm3 & H4 & Hent & _). inversion H4; subst. rewrite Hent. vm_compute. reflexivity.
Qed.
