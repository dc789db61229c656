(** C92: parsing in two stages. *)

From Coq Require Import List Ascii String NArith ZArith Bool Arith Lia.
From Verif Require Import Base Errors Spec BaseFacts Values OptDesc SpecLookup LookupFacts Positional Cmdline Parsers
  SpecCmdline CmdlineFacts SpecReject SpecGrammar GrammarFacts SpecConserve SpecStages StageFacts Samples Witness.
Import ListNotations.

(** C92. A command line that a parser for the options [A] and [B] accepts can be parsed in two stages: a parser for [A] that allows
    unregistered options, and a parser for [B] that is given what [collect_unrecognized] makes of the first result.  Together they return
    the same options, with the same values, tokens and positions.  This holds in styles that distinguish case and have no long options in disguise, if no name of [B]
    abbreviates one of [A], options of [B] take a fixed number of values, there is no "--", no token "-abc" is a
    mixture of options of [A] and [B], and no separate value of an option of [B] could be an option of [A]. *)
Theorem C92_two_stages : forall c A B args res,
  plain c -> case_sensitive c -> has (cl_style c) allow_long_disguise = false -> cl_allow_unregistered c = false ->
  cl_desc c = A ++ B -> no_wildcards (A ++ B) -> Forall has_name (A ++ B) -> Forall (fun d => sensible d /\ fits d) (A ++ B) ->
  unshadowed (has (cl_style c) allow_guessing) A B -> Forall fixed_count B ->
  (Z.of_nat (List.length args) < INT_MAX)%Z -> ~ In dashdash args -> Forall (unmixed c (first_stage c A)) args ->
  parse c args = Ok res ->
  Forall (fun o => po_pos o = (-1)%Z -> belongs (first_stage c A) o = false ->
            Forall (leaves_alone (first_stage c A)) (tl (po_orig o))) res ->
  read_in_stages c A B args res.
Proof. intros. eapply two_stages; eauto. Qed.
Print Assumptions C92_two_stages.

Definition both (style : Z) (ab : list option_description) : cmdline := mk_cl style false ab None None None.

Ltac not_in_stages :=
  intros (r1 & r2 & H1 & H2 & H3 & H4); vm_compute in H1; injection H1 as <-;
  vm_compute in H2; first [discriminate H2|injection H2 as <-]; first [vm_compute in H3; discriminate H3|vm_compute in H4; discriminate H4].

(** C92. The conditions are needed.  An option of [B] that can do without a value takes an argument it was separated from by an
    option of [A]; *)
Theorem C92_optional_value_refuted :
  exists res, parse (both default_style [o_help; o_level]) [$"--level"; $"--help"; $"3"] = Ok res
    /\ ~ read_in_stages (both default_style [o_help; o_level]) [o_help] [o_level] [$"--level"; $"--help"; $"3"] res.
Proof. eexists. split; [vm_compute; reflexivity|]. not_in_stages. Qed.
Print Assumptions C92_optional_value_refuted.

(** C92. of "-vh" the first parser only sees [v], and the second does not know [h]; *)
Theorem C92_mixed_refuted :
  exists res, parse (both default_style [o_help; o_verbose]) [$"-vh"] = Ok res
    /\ ~ read_in_stages (both default_style [o_help; o_verbose]) [o_help] [o_verbose] [$"-vh"] res.
Proof. eexists. split; [vm_compute; reflexivity|]. not_in_stages. Qed.
Print Assumptions C92_mixed_refuted.

(** C92. the "--" is not passed on, so arguments behind it become options; *)
Theorem C92_terminator_refuted :
  exists res, parse (both default_style [o_help; o_verbose]) [$"--"; $"--verbose"] = Ok res
    /\ ~ read_in_stages (both default_style [o_help; o_verbose]) [o_help] [o_verbose] [$"--"; $"--verbose"] res.
Proof. eexists. split; [vm_compute; reflexivity|]. not_in_stages. Qed.
Print Assumptions C92_terminator_refuted.

(** C92. the value "-hx" of [output] becomes the option [help]; *)
Theorem C92_value_refuted :
  exists res, parse (both default_style [o_help; o_output]) [$"-o"; $"-hx"] = Ok res
    /\ ~ read_in_stages (both default_style [o_help; o_output]) [o_help] [o_output] [$"-o"; $"-hx"] res.
Proof. eexists. split; [vm_compute; reflexivity|]. not_in_stages. Qed.
Print Assumptions C92_value_refuted.

(** C92. "--out" is a name of [B], but to the first parser an abbreviation of [output]; *)
Theorem C92_shadow_refuted :
  let out := mk_od [] [$"out"] [] tvalue in
  exists res, parse (both default_style [o_output; out]) [$"--out=1"] = Ok res
    /\ ~ read_in_stages (both default_style [o_output; out]) [o_output] [out] [$"--out=1"] res.
Proof. eexists. split; [vm_compute; reflexivity|]. not_in_stages. Qed.
Print Assumptions C92_shadow_refuted.

(** C92. and "-number", with long options in disguise, to the first parser is the option [n] with a value. *)
Theorem C92_disguise_refuted :
  let n := mk_od $"-n" [$"name"] [] tvalue in
  let number := mk_od [] [$"number"] [] tflag in
  exists res, parse (both disguise_style [n; number]) [$"-number"] = Ok res
    /\ ~ read_in_stages (both disguise_style [n; number]) [n] [number] [$"-number"] res.
Proof. eexists. split; [vm_compute; reflexivity|]. not_in_stages. Qed.
Print Assumptions C92_disguise_refuted.

(** C92. The converse does not hold: what is ambiguous to a parser for all the options can be clear to the first of the two. *)
Theorem C92_converse_refuted :
  let version := mk_od [] [$"version"] [] tflag in
  let c := both default_style [o_verbose; version] in
  (exists e, parse c [$"--ver"] = Throw e /\ ex_class e = ambiguous_option [$"verbose"; $"version"])
  /\ exists r1, parse (first_stage c [o_verbose]) [$"--ver"] = Ok r1
     /\ parse (second_stage c [version]) (collect_unrecognized r1 include_positional) = Ok [].
Proof. cbv zeta. split; [compute_ex|]. eexists. split; [vm_compute; reflexivity|vm_compute; reflexivity]. Qed.
Print Assumptions C92_converse_refuted.

(** Tokens that are not mixed: "--name", "-x", and words. *)
Lemma knows_or c name : (exists r, lookup c name = r) -> knows c name \/ ~ knows c name.
Proof. intros [[[d|]|e|u|] E]; [left; now exists d| | | |]; right; intros [d' H]; congruence. Qed.

Lemma unmixed_one c c' tok : (forall ms, stands_for c tok ms -> exists m, ms = [m]) -> unmixed c c' tok.
Proof.
  intros H ms Hs. destruct (H _ Hs) as [m ->]. destruct (knows_or c' (mn_name m)); eauto.
Qed.

Lemma unmixed_dashes c c' t : has (cl_style c) allow_long_disguise = false -> unmixed c c' (c_dash :: c_dash :: t).
Proof.
  intros Hd. apply unmixed_one. intros ms [n v H|n vs _ _ H|n m d name vs _ (H & _) _ _ _|x a ms' _ _ _ E Hx _ _|x a _ _ _ E _]; eauto.
  injection E as <- _. contradiction.
Qed.

Lemma unmixed_letter c c' x : has (cl_style c) allow_long_disguise = false -> unmixed c c' [c_dash; x].
Proof.
  intros Hd. apply unmixed_one. intros ms [n v H|n vs _ _ H|n m d name vs _ (H & _) _ _ _|y a ms' _ _ _ E Hx _ Hg|y a _ _ _ E _]; eauto.
  injection E as <- <-. inversion Hg; eauto.
Qed.

Lemma word_stands c x t ms : plain c -> has (cl_style c) allow_long_disguise = false -> x <> c_dash -> x <> c_slash -> ~ stands_for c (x :: t) ms.
Proof.
  intros [_ Hp] Hd H1 H2 [n v (f & H & _)|n vs _ _ H|n m d name vs _ (H & _) _ _ _|y a ms' _ _ _ E Hx _ Hg|y a _ _ _ E _]; try congruence.
  apply long_words_shape in H. destruct H as (t' & _ & E). injection E as -> _. contradiction.
Qed.

Lemma unmixed_word c c' x t : plain c -> has (cl_style c) allow_long_disguise = false -> x <> c_dash -> x <> c_slash -> unmixed c c' (x :: t).
Proof. intros Hp Hd H1 H2 ms Hs. exfalso. eapply word_stands; eauto. Qed.

(** [A] is help, output and level, [B] is verbose and number. *)
Example C92_ex :
  let A := [o_help; o_output; o_level] in
  let B := [o_verbose; o_number] in
  let c := both default_style (A ++ B) in
  let args := [$"--verbose"; $"-o"; $"out"; $"file"; $"-n"; $"5"; $"-l"; $"3"; $"x"; $"--help"] in
  read_in_stages c A B args
    [mk_popt $"verbose" (-1) [] [$"--verbose"] false false; mk_popt $"output" (-1) [$"out"] [$"-o"; $"out"] false false;
     mk_popt [] 0 [$"file"] [$"file"] false false; mk_popt $"number" (-1) [$"5"] [$"-n"; $"5"] false false;
     mk_popt $"level" (-1) [$"3"] [$"-l"; $"3"] false false; mk_popt [] 1 [$"x"] [$"x"] false false;
     mk_popt $"help" (-1) [] [$"--help"] false false].
Proof.
  cbv zeta. apply C92_two_stages.
  - split; reflexivity.
  - split; reflexivity.
  - reflexivity.
  - reflexivity.
  - reflexivity.
  - assert (N : forall l, last l c_dash <> c_star -> forall p, l <> p ++ [c_star]) by (intros l H p ->; apply H; apply last_last).
    repeat (apply Forall_cons; [repeat (apply Forall_cons; [apply N; discriminate|]); apply Forall_nil|]). apply Forall_nil.
  - repeat (apply Forall_cons; [discriminate|]). constructor.
  - assert (K : forall d, In d (sample) -> sensible d /\ fits d).
    { intros d Hd. repeat (destruct Hd as [<-|Hd]; [repeat split; try (vm_compute; discriminate); vm_compute; auto; left; discriminate|]). destruct Hd. }
    repeat (apply Forall_cons; [apply K; unfold sample; auto 10 with datatypes|]). constructor.
  - intros d e n _ Hd He Hf Ha. apply approx_b_spec in Ha. revert Ha.
    assert (Hn : In n [$"verbose"; $"number"; $"-v"; $"-n"]).
    { destruct He as [<-|[<-|[]]]; (destruct Hf as [(l & [<-|[]] & _ & Hl)|Hl]); apply same_name_eq in Hl; cbn in Hl; subst n; cbn; tauto. }
    destruct Hd as [<-|[<-|[<-|[]]]], Hn as [<-|[<-|[<-|[<-|[]]]]]; vm_compute; discriminate.
  - repeat (apply Forall_cons; [vm_compute; discriminate|]). constructor.
  - reflexivity.
  - cbn. intuition discriminate.
  - repeat (apply Forall_cons; [first [now apply unmixed_dashes|now apply unmixed_letter|apply unmixed_word; [now split|reflexivity|discriminate|discriminate]]|]).
    constructor.
  - vm_compute. reflexivity.
  - repeat (apply Forall_cons; [intros _ _; cbn [po_orig tl]; repeat (apply Forall_cons; [intros ms Hs; exfalso; revert Hs; apply word_stands; [now split|reflexivity|discriminate|discriminate]|]); apply Forall_nil|]).
    constructor.
Qed.
