(** C107: what arguments mean when more arguments follow, and C13 without its condition on
    the first arguments. *)

From Coq Require Import List Ascii String NArith ZArith Bool Lia.
From Verif Require Import Base Errors Spec BaseFacts Values OptDesc Positional Cmdline Build SpecCmdline CmdlineFacts
  SpecLater LaterFacts Samples.
Import ListNotations.

(** C107, for every parser without a style parser of the user; an additional parser may be
    there, and may even claim the token "--". An accepted command line stays a command line's beginning: whenever the longer
    command line is accepted too, its result begins with the result of the shorter one, but
    that the last option may have taken more values. *)
Theorem C107_accepted : forall c now later r r',
  cl_style_parser c = None -> parse c now = Ok r -> parse c (now ++ later) = Ok r' -> continues c r r'.
Proof. intros c now later r r'. apply accepted_lemma. Qed.
Print Assumptions C107_accepted.

(** Where every option takes a fixed number of values, options are only added. *)
Theorem C107_only_added : forall c now later r r',
  cl_style_parser c = None -> (forall d, In d (cl_desc c) -> (vs_max (od_sem d) <= vs_min (od_sem d))%Z) ->
  parse c now = Ok r -> parse c (now ++ later) = Ok r' -> exists added, r' = r ++ added.
Proof.
  intros c now later r r' Hp Hf H H'. destruct (accepted_lemma c now later r r' Hp H H') as [r tl|q o vs ts tl d Hl _ Hlt _ _].
  - eauto.
  - exfalso. apply lookup_In in Hl. specialize (Hf d Hl). lia.
Qed.
Print Assumptions C107_only_added.

(** A rejected command line cannot be made acceptable by adding arguments, unless the
    complaint was that a value is missing. *)
Theorem C107_rejected : forall c now later e r,
  cl_style_parser c = None -> parse c now = Throw e -> parse c (now ++ later) = Ok r -> lacks_value e.
Proof. intros c now later e r. apply rejected_lemma. Qed.
Print Assumptions C107_rejected.

(** Moreover the complaint stays the same whatever is added, unless it is about a missing
    value, too many positional arguments or an ambiguous name (the last two can be made after
    the whole command line has been read, so that a complaint about what was added can come
    before them). *)
Theorem C107_same_error : forall c now later e,
  cl_style_parser c = None -> parse c now = Throw e -> ~ lacks_value e ->
  ex_class e <> too_many_positional_options_error -> (forall alts, ex_class e <> ambiguous_option alts) ->
  parse c (now ++ later) = Throw e.
Proof. intros c now later e. apply same_error_lemma. Qed.
Print Assumptions C107_same_error.

(** The exceptions are real: a missing value may still come, *)
Theorem C107_missing_refuted : ~ forall c now later e r,
  cl_style_parser c = None -> parse c now = Throw e -> parse c (now ++ later) <> Ok r.
Proof.
  intros H. eapply (H (sample_cl default_style) [$"--output"] [$"f"]); [reflexivity|reflexivity|reflexivity].
Qed.
Print Assumptions C107_missing_refuted.

(** and the complaint about too many positional arguments gives way to any later one. *)
Theorem C107_too_many_refuted : ~ forall c now later e,
  cl_style_parser c = None -> parse c now = Throw e -> ~ lacks_value e -> parse c (now ++ later) = Throw e.
Proof.
  intros H.
  specialize (H (mk_cl default_style false sample (Some (mk_pos [$"input"] [])) None None) [$"a"; $"b"] [$"--nonsense"]
    (plain_exn too_many_positional_options_error) eq_refl eq_refl).
  specialize (H ltac:(unfold lacks_value; cbn; discriminate)). discriminate H.
Qed.
Print Assumptions C107_too_many_refuted.

(** The last option really may take more: "--level" has the implicit value 7. *)
Theorem C107_last_refuted : ~ forall c now later r r',
  cl_style_parser c = None -> parse c now = Ok r -> parse c (now ++ later) = Ok r' -> exists added, r' = r ++ added.
Proof.
  intros H. destruct (H (sample_cl default_style) [$"--level"] [$"3"] _ _ eq_refl eq_refl eq_refl) as (x & E).
  discriminate E.
Qed.
Print Assumptions C107_last_refuted.

Example C107_ex :
  (exists r r' o, parse (sample_cl default_style) [$"-v"; $"a"; $"--level"] = Ok (r ++ [o])
    /\ parse (sample_cl default_style) ([$"-v"; $"a"; $"--level"] ++ [$"3"; $"b"; $"-h"]) = Ok (r ++ with_more o [$"3"] [$"3"] :: r')
    /\ List.length r = 2 /\ map po_value r' = [[$"b"]; []])
  /\ (exists e, parse (sample_cl default_style) [$"-v"; $"--nonsense"] = Throw e /\ ~ lacks_value e
        /\ ex_class e = unknown_option
        /\ parse (sample_cl default_style) ([$"-v"; $"--nonsense"] ++ [$"--output"]) = Throw e)
  /\ (let c := mk_cl default_style false sample None
        (Some (fun tok => if str_eqb tok $"--" then ($"level", []) else ([], []))) None in
      exists o r', parse c [$"--"] = Ok [o]
        /\ parse c ([$"--"] ++ [$"3"; $"-v"]) = Ok (with_more o [$"3"] [$"3"] :: r')
        /\ map po_key r' = [$"verbose"]).
Proof.
  split; [|split].
  - eexists [_; _], [_; _], _. split; [reflexivity|]. split; [reflexivity|]. split; reflexivity.
  - eexists. split; [reflexivity|]. split; [unfold lacks_value; cbn; discriminate|]. split; reflexivity.
  - eexists _, [_]. split; [reflexivity|]. split; reflexivity.
Qed.

(** C13 for any beginning, with tokens "--" in it or not: either the terminator has not been
    met yet, and everything after a "--" that is added is positional and verbatim; or it has,
    and everything added is. *)
Theorem C13_any_beginning : forall c pre r,
  plain c -> cl_positional c = None -> parse c pre = Ok r ->
  (forall rest, exists tail, parse c (pre ++ dashdash :: rest) = Ok (r ++ tail)
     /\ positional_items (count_positionals r) rest tail)
  \/ (In dashdash pre /\ forall rest, exists tail, parse c (pre ++ rest) = Ok (r ++ tail)
     /\ positional_items (count_positionals r) rest tail).
Proof. exact reached_lemma. Qed.
Print Assumptions C13_any_beginning.

(** Which of the two it is shows when a single "--" is added. *)
Theorem C13_met_or_not : forall c pre r,
  plain c -> cl_positional c = None -> parse c pre = Ok r ->
  (parse c (pre ++ [dashdash]) = Ok r
   /\ forall rest, exists tail, parse c (pre ++ dashdash :: rest) = Ok (r ++ tail)
        /\ positional_items (count_positionals r) rest tail)
  \/ (parse c (pre ++ [dashdash]) <> Ok r
   /\ forall rest, exists tail, parse c (pre ++ rest) = Ok (r ++ tail)
        /\ positional_items (count_positionals r) rest tail).
Proof.
  intros c pre r Hp Hn H. destruct (reached_lemma c pre r Hp Hn H) as [L|(_ & L)].
  - left. split; [|exact L]. destruct (L []) as (tail & E & I). destruct tail; [|destruct I]. now rewrite app_nil_r in E.
  - right. split; [|exact L]. destruct (L [dashdash]) as (tail & E & I). rewrite E. intros [= Q].
    destruct tail as [|o tail]; [exact I|]. rewrite <- (app_nil_r r) in Q at 2. apply app_inv_head in Q. discriminate.
Qed.
Print Assumptions C13_met_or_not.

(** The token "--" can be the value of an option, and then is no terminator. *)
Example C13_met_ex :
  (exists r, parse (sample_cl default_style) [$"a"; $"--"; $"--"; $"b"] = Ok r
    /\ parse (sample_cl default_style) ([$"a"; $"--"; $"--"; $"b"] ++ [dashdash]) <> Ok r)
  /\ (exists r, parse (sample_cl default_style) [$"a"; $"--output"; $"--"] = Ok r
    /\ map po_value r = [[$"a"]; [$"--"]]
    /\ parse (sample_cl default_style) ([$"a"; $"--output"; $"--"] ++ [dashdash]) = Ok r).
Proof.
  split; eexists; (split; [reflexivity|]).
  - cbn. discriminate.
  - split; reflexivity.
Qed.
