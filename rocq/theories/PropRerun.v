(** C113: a command line parser that is run again after it has thrown. *)

From Coq Require Import List Ascii String NArith ZArith Bool Arith Lia.
From Verif Require Import Base BaseFacts Errors Spec Values OptDesc Positional Cmdline SpecCmdline CmdlineFacts Parsers Build Rerun
  SpecRerun RerunFacts Samples.
Import ListNotations.

(** The functions that keep track of the arguments have the outcome of those that do not. *)
Theorem C113_same : forall c fuel args,
  cl_style_parser c = None -> snd (run_here fuel c args) = run fuel c args.
Proof. intros c fuel args Hc. exact (same_lemma c fuel args Hc). Qed.
Print Assumptions C113_same.

(** A run that returns leaves no argument behind: every later run returns no option. *)
Theorem C113_done : forall c args r n,
  cl_style_parser c = None -> parse c args = Ok r -> left_by c args = [] /\ attempt (S n) c args = Ok [].
Proof.
  intros c args r n Hc H. destruct (parse_loop _ _ _ H) as (r1 & Hm). pose proof (late_left c _ _ Hc Hm) as E.
  split; [exact E|]. unfold attempt. cbn [left_after]. rewrite E.
  assert (Hn : left_after n c [] = []) by (induction n as [|n IH]; [reflexivity|exact IH]).
  rewrite Hn. apply parse_nil.
Qed.
Print Assumptions C113_done.

(** So does a run that complains about too many positional arguments. *)
Theorem C113_too_many : forall c args e,
  cl_style_parser c = None -> parse c args = Throw e -> ex_class e = too_many_positional_options_error ->
  left_by c args = [].
Proof.
  intros c args e Hc H He. destruct (throw_leaves c args e Hc H) as [(E & _)|(used & tok & rest & -> & Hs & _)]; [exact E|].
  apply (RejectFacts.main_step_throw c Hc) in Hs. destruct Hs as (_ & _ & Hn & _). rewrite He in Hn. discriminate.
Qed.
Print Assumptions C113_too_many.

(** Unless long options may be written with a single character in front, a run that throws leaves the arguments from some
    point on, as they were; and it leaves all of them only if it complains about the text of the first. *)
Theorem C113_rest : forall c args e,
  cl_style_parser c = None -> undisguised c -> parse c args = Throw e ->
  exists used, args = used ++ left_by c args /\ (used = [] -> about_token e).
Proof. exact left_suffix. Qed.
Print Assumptions C113_rest.

(** In any style there are not more of them. *)
Theorem C113_no_longer : forall c args e,
  cl_style_parser c = None -> parse c args = Throw e -> List.length (left_by c args) <= List.length args.
Proof. exact left_shorter. Qed.
Print Assumptions C113_no_longer.

(** After the complaint about an unknown option, in any style, what is left is what follows the token that names it. *)
Theorem C113_unknown : forall c args e,
  cl_style_parser c = None -> parse c args = Throw e -> ex_class e = unknown_option ->
  exists before tok typed, args = before ++ tok :: left_by c args /\ names c tok typed /\ lookup c typed = Ok None.
Proof. exact unknown_lemma. Qed.
Print Assumptions C113_unknown.

(** After the complaint that nothing follows an '=' the parser is of no more use: every later run complains about it again. *)
Theorem C113_stuck : forall c args e n,
  cl_style_parser c = None -> undisguised c -> parse c args = Throw e ->
  ex_class e = invalid_command_line_syntax empty_adjacent_parameter ->
  exists e', attempt (S n) c args = Throw e' /\ ex_class e' = ex_class e.
Proof.
  intros c args e n Hc Hu H He. destruct (dangling_lemma c args e Hc Hu H He) as (e' & Hd & Hp & Hl).
  exists e'. split; [|now rewrite He]. unfold attempt. cbn [left_after].
  assert (Hn : left_after n c (left_by c args) = left_by c args).
  { induction n as [|n IH]; [reflexivity|]. cbn [left_after]. now rewrite Hl. }
  now rewrite Hn.
Qed.
Print Assumptions C113_stuck.

(** A program that runs the parser until it returns is finished after as many runs as there are arguments, or sees the same
    exception again and again. (C27 says when a run is defined.) *)
Theorem C113_ends : forall c args,
  cl_style_parser c = None -> undisguised c ->
  (forall n, (exists r, attempt n c args = Ok r) \/ (exists e, attempt n c args = Throw e)) ->
  exists n, n <= List.length args
    /\ ((exists r, attempt n c args = Ok r)
        \/ exists e, forall m, n <= m -> attempt m c args = Throw e).
Proof.
  intros c args Hc Hu. remember (List.length args) as k eqn:Hk. revert args Hk.
  induction k as [k IH] using lt_wf_ind. intros args -> Hdef.
  destruct (Hdef 0) as [Hr|(e & He)]; [exists 0; split; [lia|now left]|]. unfold attempt in He. cbn [left_after] in He.
  destruct (left_suffix c args e Hc Hu He) as (used & E & _). destruct used as [|x used].
  - exists 0. split; [lia|]. right. exists e. intros m _. cbn in E. unfold attempt.
    assert (Hn : left_after m c args = args) by (clear - E; induction m as [|m IH]; [reflexivity|]; cbn [left_after]; now rewrite <- E).
    now rewrite Hn.
  - assert (Hlt : List.length (left_by c args) < List.length args) by (rewrite E at 2; rewrite app_length; cbn; lia).
    destruct (IH _ Hlt (left_by c args) eq_refl) as (n & Hn & H).
    { intros n. exact (Hdef (S n)). }
    exists (S n). split; [lia|]. destruct H as [H|(e' & H)]; [now left|].
    right. exists e'. intros [|m] Hm; [lia|]. apply H. lia.
Qed.
Print Assumptions C113_ends.

(** The parser object: [run] changes nothing but the arguments, and running it again is running it on what is left. *)
Theorem C113_object : forall p ds,
  ps_desc p = Some ds -> ps_style_parser p = None ->
  let c := mk_cl (ps_style p) (ps_allow_unregistered p) ds (ps_positional p) (ps_additional p) (ps_style_parser p) in
  let q := fst (parser_run_here (List.length (ps_args p)) p) in
  ps_args q = left_by c (ps_args p)
  /\ (forall fuel, snd (parser_run_here fuel p) = parser_run fuel c (ps_args p)
        /\ snd (parser_run_here fuel q) = parser_run fuel c (left_by c (ps_args p)))
  /\ (forall r p', parser_object_run (List.length (ps_args p)) p = Ok (r, p') -> q = p').
Proof.
  intros p ds Hd Hs c q. assert (Hc : no_custom c) by exact Hs.
  assert (Hq : q = mk_parser (left_by c (ps_args p)) (ps_style p) (ps_allow_unregistered p) (ps_desc p) (ps_positional p) (ps_additional p)
                     (ps_style_parser p)).
  { unfold q, parser_run_here. rewrite Hd. reflexivity. }
  split; [now rewrite Hq|]. split.
  - intros fuel. rewrite Hq. unfold parser_run_here, parser_run. cbn [ps_desc ps_args ps_style ps_allow_unregistered ps_positional ps_additional ps_style_parser].
    rewrite Hd. cbn [fst snd]. fold c. now rewrite !(same_lemma c fuel _ Hc).
  - intros r p' H. rewrite Hq. unfold parser_object_run in H. rewrite Hd in H. fold c in H. apply bind_Ok in H.
    destruct H as (x & H & [= <- <-]). unfold parser_run in H. apply bind_Ok in H. destruct H as (y & H & _).
    destruct (parse_loop c (ps_args p) y H) as (r1 & Hm). rewrite Hd. now rewrite (late_left c _ _ Hc Hm).
Qed.
Print Assumptions C113_object.

(** The restriction on the style is needed: the complaint about "-output=" leaves "--output=", *)
Theorem C113_disguised_refuted : ~ forall c args e,
  cl_style_parser c = None -> parse c args = Throw e -> exists used, args = used ++ left_by c args.
Proof.
  intros H. destruct (H (sample_cl disguise_style) [$"-output="] _ eq_refl eq_refl) as (used & E).
  destruct used as [|x [|y used]]; discriminate E.
Qed.
Print Assumptions C113_disguised_refuted.

(** and where two dashes are not allowed the next run takes that for a positional argument, without a complaint. *)
Theorem C113_accepted_refuted : ~ forall c args e r,
  cl_style_parser c = None -> check_style (cl_style c) = Ok tt -> parse c args = Throw e ->
  ex_class e = invalid_command_line_syntax empty_adjacent_parameter -> parse c (left_by c args) <> Ok r.
Proof.
  intros H. eapply (H (sample_cl (allow_long_disguise + long_allow_adjacent)%Z) [$"-output="]); reflexivity.
Qed.
Print Assumptions C113_accepted_refuted.

(** A second run does not make up for the first: what was read before the exception is lost, and the values of the option
    at fault become positional arguments. *)
Theorem C113_resumes_refuted : ~ forall c args e r,
  cl_style_parser c = None -> undisguised c -> parse c args = Throw e -> parse c (left_by c args) = Ok r ->
  Forall (fun o => po_key o <> []) r.
Proof.
  intros H.
  specialize (H (mk_cl default_style false [mk_od [] [$"pair"] [] (mk_sem [] 2 2 false false (fun a _ _ => (a, Ok tt)) None (fun _ => ([], Ok tt)))] None None None)
    [$"--pair"; $"a"] _ _ eq_refl eq_refl eq_refl eq_refl).
  inversion H as [|? ? Hk _]. now apply Hk.
Qed.
Print Assumptions C113_resumes_refuted.

Example C113_ex :
  let c := sample_cl default_style in
  let args := [$"-v"; $"--nonsense"; $"--output"; $"f"; $"--verbose=1"; $"x"; $"--number="; $"y"] in
  (exists e, attempt 0 c args = Throw e /\ ex_class e = unknown_option)
  /\ left_after 1 c args = [$"--output"; $"f"; $"--verbose=1"; $"x"; $"--number="; $"y"]
  /\ (exists e, attempt 1 c args = Throw e /\ ex_class e = invalid_command_line_syntax extra_parameter)
  /\ left_after 2 c args = [$"x"; $"--number="; $"y"]
  /\ (exists e, attempt 2 c args = Throw e /\ ex_class e = invalid_command_line_syntax empty_adjacent_parameter)
  /\ left_after 3 c args = [$"--number="; $"y"] /\ left_after 4 c args = [$"--number="; $"y"]
  /\ undisguised c.
Proof.
  cbv zeta. repeat split; try (eexists; split); reflexivity.
Qed.

(** The values of an option that are looked at before one is missing are gone; an option inside a group of short ones
    takes the whole token with it. *)
Example C113_ex_values :
  let c := sample_cl default_style in
  (exists e, attempt 0 c [$"-o"; $"--number="; $"y"] = Throw e
    /\ ex_class e = invalid_command_line_syntax empty_adjacent_parameter)
  /\ left_after 1 c [$"-o"; $"--number="; $"y"] = [$"--number="; $"y"]
  /\ (exists e, attempt 0 c [$"-vq"; $"y"] = Throw e /\ ex_class e = unknown_option)
  /\ left_after 1 c [$"-vq"; $"y"] = [$"y"] /\ (exists r, attempt 1 c [$"-vq"; $"y"] = Ok [r] /\ po_value r = [$"y"])
  /\ attempt 2 c [$"-vq"; $"y"] = Ok [].
Proof.
  cbv zeta. repeat split; try (eexists; split); reflexivity.
Qed.
