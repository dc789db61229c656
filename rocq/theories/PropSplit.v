(** C49, C50: splitting command lines. *)

From Coq Require Import List Ascii String NArith Bool Arith Lia.
From Verif Require Import Base Errors Spec BaseFacts Winmain SplitUnix SpecSplit SplitFacts.
Import ListNotations.

(** C49. A Windows command line that consists of some arguments, each quoted if necessary,
    is split into exactly these arguments; *)
Theorem C49_winmain : forall args text, win_line args text -> split_winmain text = args.
Proof. exact split_winmain_line. Qed.
Print Assumptions C49_winmain.

(** C49. every list of arguments can be written this way, so the splitting is onto and the
    quoting injective. *)
Theorem C49_any_arguments : forall args, exists text, win_line args text.
Proof.
  intros args. assert (H : exists text, win_line args text /\ (text = [] \/ exists c r, text = c :: r /\ space c)).
  { induction args as [|a args (rest & H1 & H2)].
    - exists []. split; [constructor; constructor|auto].
    - destruct (win_body_exists a) as [body Hb].
      exists ($" " ++ (c_dq :: body ++ [c_dq]) ++ rest). split.
      + apply wl_arg; auto; [repeat constructor; right; reflexivity|now constructor].
      + right. exists " "%char. eexists. split; [reflexivity|]. right. reflexivity. }
  destruct H as (text & H & _). eauto.
Qed.
Print Assumptions C49_any_arguments.

(** C49. Every text can be read: backslashes before a double quote are halved, double quotes open and close, white space
    outside them separates; the splitting gives exactly the arguments read, and so there is only one way to read it. *)
Theorem C49_every_text : forall text, exists args, win_text args text.
Proof. exact text_total. Qed.
Print Assumptions C49_every_text.

Theorem C49_text : forall args text, win_text args text -> split_winmain text = args.
Proof. exact split_winmain_text. Qed.
Print Assumptions C49_text.

(** C49. An unclosed quote with a blank in it, and backslashes inside and outside of quotes. *)
Example C49_text_ex :
  let text := $"a\b\\" ++ [c_dq] ++ $"c d" ++ [c_dq] ++ $"e  x\" ++ [c_dq] ++ $" " ++ [c_dq] ++ $"f g" in
  let args := [$"a\b\c de"; $"x" ++ [c_dq]; $"f g"] in
  win_text args text /\ split_winmain text = args.
Proof.
  intros text args. assert (H : split_winmain text = args) by (vm_compute; reflexivity). split; [|exact H].
  destruct (C49_every_text text) as [args' H']. rewrite <- H, (C49_text _ _ H'). exact H'.
Qed.

(** C49. Four arguments: with a final backslash, empty, with a quote and a final backslash, with a blank. *)
Definition dq := c_dq.
Example C49_ex :
  let text := $"C:\dir\ " ++ [dq; dq] ++ $" " ++ [dq] ++ $"a \" ++ [dq] ++ $"b\\" ++ [dq] ++ $"  " ++ [dq] ++ $"x y" ++ [dq] in
  let args := [$"C:\dir\"; []; $"a " ++ [dq] ++ $"b\"; $"x y"] in
  win_line args text /\ split_winmain text = args.
Proof.
  assert (Hs : forall n, spaces (repeat " "%char n)).
  { intros n. apply Forall_forall. intros c Hc. apply repeat_spec in Hc. subst c. right. reflexivity. }
  intros text args. assert (H : win_line args text).
  { change text with ([] ++ $"C:\dir\" ++ $" " ++ (dq :: [] ++ [dq]) ++ $" " ++ (dq :: $"a \" ++ [dq] ++ $"b\\" ++ [dq]) ++ $"  " ++ (dq :: $"x y" ++ [dq]) ++ []).
    assert (Hsp : forall r, $" " ++ r = [] \/ exists c r', $" " ++ r = c :: r' /\ space c).
    { intros r. right. exists " "%char. eexists. split; [reflexivity|]. right. reflexivity. }
    apply wl_arg; [exact (Hs 0)| | |apply Hsp].
    - apply ww_plain; [discriminate|]. repeat constructor; try discriminate; unfold space; cbn; lia.
    - apply wl_arg; [exact (Hs 1)|apply ww_quoted; exact (wb_end 0)| |apply Hsp].
      apply wl_arg; [exact (Hs 1)| | |apply (Hsp ($" " ++ _))].
      + apply (ww_quoted ($"a " ++ [dq] ++ $"b\") ($"a \" ++ [dq] ++ $"b\\")).
        apply (wb_char 0 "a"%char); try discriminate. apply (wb_char 0 " "%char); try discriminate.
        apply (wb_quote 0). apply (wb_char 0 "b"%char); try discriminate. exact (wb_end 1).
      + apply (wl_arg $"  "); [exact (Hs 2)| |constructor; constructor|auto].
        apply (ww_quoted $"x y"). apply (wb_char 0 "x"%char); try discriminate. apply (wb_char 0 " "%char); try discriminate.
        apply (wb_char 0 "y"%char); try discriminate. exact (wb_end 0). }
  split; [exact H|exact (C49_winmain _ _ H)].
Qed.

(** C50. A Unix command line that consists of some arguments, with special characters
    quoted or escaped, is split into exactly those that are not empty; *)
Theorem C50_unix : forall sep quote esc args text,
  unix_line "n"%char c_nl sep quote esc args text ->
  exists toks, split_unix_gen text sep quote esc = Ok toks /\ kept nonempty args toks.
Proof.
  intros sep quote esc args text H. eexists. split; [exact (split_unix_line _ _ char_eqb_spec _ _ _ _ _ _ _ H)|apply kept_filter].
Qed.
Print Assumptions C50_unix.

(** C50. a line with an error is rejected, with the message for the error; *)
Theorem C50_error : forall sep quote esc text msg,
  unix_error "n"%char c_nl sep quote esc text msg ->
  exists e, split_unix_gen text sep quote esc = Throw e /\ forall steps, what steps e = Ok msg.
Proof.
  intros sep quote esc text msg H. eexists. split; [exact (split_unix_error _ _ char_eqb_spec _ _ _ _ _ _ _ H)|reflexivity].
Qed.
Print Assumptions C50_error.

(** C50. every text is one or the other; *)
Theorem C50_every_text : forall sep quote esc text,
  (exists args, unix_line "n"%char c_nl sep quote esc args text)
  \/ exists msg, unix_error "n"%char c_nl sep quote esc text msg.
Proof. intros. exact (unix_total _ _ char_eqb_spec _ _ _ _ _ _). Qed.
Print Assumptions C50_every_text.

(** C50. in particular, lists of non-empty arguments are recovered; *)
Theorem C50_round_trip : forall sep quote esc args text,
  unix_line "n"%char c_nl sep quote esc args text -> ~ In [] args -> split_unix_gen text sep quote esc = Ok args.
Proof.
  intros sep quote esc args text H Hn. destruct (C50_unix _ _ _ _ _ H) as (toks & -> & Hk). f_equal.
  clear H. induction Hk as [|x l l' Hx _ IH|x l l' Hx _ _]; auto.
  - f_equal. apply IH. intros Hi. apply Hn. now right.
  - destruct x; [contradiction Hn; now left|contradiction Hx; discriminate].
Qed.
Print Assumptions C50_round_trip.

(** C50. every non-empty list of arguments can be written this way with the default
    characters; *)
Theorem C50_any_arguments : forall args, args <> [] ->
  exists text, unix_line "n"%char c_nl default_sep default_quote default_esc args text.
Proof.
  intros args H. apply (join_exists _ _ char_eqb_spec _ _ default_sep default_quote default_esc c_bs c_space); auto.
  - now left.
  - cbn. intuition discriminate.
  - split; [now left|]. cbn. intuition discriminate.
Qed.
Print Assumptions C50_any_arguments.

(** C50. no argument is ever empty, however it is quoted; *)
Theorem C50_never_empty : forall sep quote esc text toks,
  split_unix_gen text sep quote esc = Ok toks -> ~ In [] toks.
Proof.
  intros sep quote esc text toks H Hin. unfold split_unix_gen, split_unix_detail in H. apply bind_Ok in H.
  destruct H as (ts & _ & H). injection H as <-. apply filter_In in Hin. destruct Hin. discriminate.
Qed.
Print Assumptions C50_never_empty.

(** C50. a line without escape characters is never rejected. *)
Theorem C50_no_escape_no_error : forall sep quote esc text,
  Forall (fun c => ~ In c esc) text -> exists toks, split_unix_gen text sep quote esc = Ok toks.
Proof.
  intros sep quote esc text H.
  destruct (no_escape _ _ char_eqb_spec "n"%char c_nl sep quote esc text H) as [args Ha].
  destruct (C50_unix _ _ _ _ _ Ha) as (toks & E & _). eauto.
Qed.
Print Assumptions C50_no_escape_no_error.

(** C50. Both errors; the first argument is read, and then lost. *)
Example C50_error_ex :
  unix_error "n"%char c_nl default_sep default_quote default_esc $"a\" $"cannot end with escape"
  /\ unix_error "n"%char c_nl default_sep default_quote default_esc $"a\x" $"unknown escape sequence".
Proof.
  assert (Ha : unix_line "n"%char c_nl default_sep default_quote default_esc [$"a"] $"a").
  { eapply ul_last. apply uw_plain; [cbn; intuition discriminate..|constructor]. }
  split.
  - apply (ue_end _ _ _ _ _ _ $"a" "\"%char Ha). now left.
  - apply (ue_unknown _ _ _ _ _ _ $"a" "\"%char "x"%char [] Ha); [now left|discriminate|cbn; intuition discriminate].
Qed.

Example C50_ex :
  let text := $"a\ b 'c d'  " ++ [dq] ++ $"e" ++ [dq] in
  unix_line "n"%char c_nl default_sep default_quote default_esc [$"a b"; $"c d"; []; $"e"] text
  /\ split_unix text = Ok [$"a b"; $"c d"; $"e"].
Proof.
  intros text. assert (H : unix_line "n"%char c_nl default_sep default_quote default_esc [$"a b"; $"c d"; []; $"e"] text).
  { assert (Hsep : separator default_sep default_esc " "%char) by (split; [now left|cbn; intuition discriminate]).
    assert (Hp : forall q c arg txt q', ~ In c (default_quote ++ default_sep ++ default_esc) ->
      unix_written "n"%char c_nl default_sep default_quote default_esc q arg txt q' ->
      unix_written "n"%char c_nl default_sep default_quote default_esc q (c :: arg) (c :: txt) q').
    { intros q c arg txt q' Hc. rewrite !in_app_iff in Hc. intros Hw. apply uw_plain; [intros Hi; apply Hc; auto|intros Hi; apply Hc; auto|intros _ Hi; apply Hc; auto|exact Hw]. }
    change text with ($"a\ b" ++ " "%char :: $"'c d'" ++ " "%char :: [] ++ " "%char :: [dq] ++ $"e" ++ [dq]).
    apply ul_cons; [|auto|].
    - apply Hp; [cbn; intuition discriminate|]. apply uw_escaped; [now left|discriminate|cbn; auto|].
      apply Hp; [cbn; intuition discriminate|]. constructor.
    - apply ul_cons; [|auto|].
      + apply uw_quote; [now left|cbn; intuition discriminate|cbn; intuition discriminate|].
        apply Hp; [cbn; intuition discriminate|]. apply uw_quoted_sep; [cbn; intuition discriminate|now left|].
        apply Hp; [cbn; intuition discriminate|].
        apply uw_quote; [now left|cbn; intuition discriminate|cbn; intuition discriminate|]. constructor.
      + apply ul_cons; [constructor|auto|]. eapply ul_last.
        apply uw_quote; [right; now left|cbn; intuition discriminate|cbn; intuition discriminate|].
        apply Hp; [cbn; intuition discriminate|].
        apply uw_quote; [right; now left|cbn; intuition discriminate|cbn; intuition discriminate|]. constructor. }
  split; [exact H|]. destruct (C50_unix _ _ _ _ _ H) as (toks & E & _). unfold split_unix. rewrite E. vm_compute in E. exact (eq_sym E).
Qed.
