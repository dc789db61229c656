(** C83: splitting wide Unix command lines. *)

From Coq Require Import List Ascii String NArith Bool Arith Lia.
From Verif Require Import Base Errors Spec BaseFacts Convert SpecConvert ConvertFacts SplitUnix SpecSplit SplitFacts SpecWide WideFacts
  SplitWideFacts PropSplit.
Import ListNotations.

Notation wide_n := (N_of_ascii "n"%char).
Notation wide_nl := (N_of_ascii c_nl).

(** C83. For wide characters: a line that consists of some arguments is split into those that are not empty, *)
Theorem C83_wide_unix : forall sep quote esc args text,
  unix_line wide_n wide_nl sep quote esc args text ->
  exists toks, wsplit_unix_gen text sep quote esc = Ok toks /\ kept nonempty args toks.
Proof.
  intros sep quote esc args text H. eexists. split; [exact (split_unix_line _ _ N.eqb_spec _ _ _ _ _ _ _ H)|apply kept_filter].
Qed.
Print Assumptions C83_wide_unix.

(** C83. a line with an error is rejected, and *)
Theorem C83_wide_error : forall sep quote esc text msg,
  unix_error wide_n wide_nl sep quote esc text msg ->
  exists e, wsplit_unix_gen text sep quote esc = Throw e /\ forall steps, what steps e = Ok msg.
Proof.
  intros sep quote esc text msg H. eexists. split; [exact (split_unix_error _ _ N.eqb_spec _ _ _ _ _ _ _ H)|reflexivity].
Qed.
Print Assumptions C83_wide_error.

(** C83. there is no other line. *)
Theorem C83_every_wide_text : forall sep quote esc text,
  (exists args, unix_line wide_n wide_nl sep quote esc args text)
  \/ exists msg, unix_error wide_n wide_nl sep quote esc text msg.
Proof. intros. exact (unix_total _ _ N.eqb_spec _ _ _ _ _ _). Qed.
Print Assumptions C83_every_wide_text.

(** C83. Every list of arguments can be written with the default characters. *)
Theorem C83_any_arguments : forall args, args <> [] ->
  exists text, unix_line wide_n wide_nl (map N_of_ascii default_sep) (map N_of_ascii default_quote) (map N_of_ascii default_esc) args text.
Proof.
  intros args H. apply (join_exists _ _ N.eqb_spec _ _ _ _ _ (N_of_ascii c_bs) (N_of_ascii c_space)); auto.
  - now left.
  - cbn. intuition discriminate.
  - split; [now left|]. cbn. intuition discriminate.
Qed.
Print Assumptions C83_any_arguments.

(** C83. If the special characters are ASCII, as the default ones are, then splitting a line as wide characters and
    splitting its UTF-8 form as bytes give the same arguments, or the same error. *)
Theorem C83_same_as_utf8 : forall sep quote esc wtext text,
  ascii7 sep -> ascii7 quote -> ascii7 esc -> utf8_text wtext text ->
  let wide := wsplit_unix_gen wtext (map N_of_ascii sep) (map N_of_ascii quote) (map N_of_ascii esc) in
  let narrow := split_unix_gen text sep quote esc in
  (exists wargs args, wide = Ok wargs /\ narrow = Ok args /\ Forall2 utf8_text wargs args)
  \/ exists e, wide = Throw e /\ narrow = Throw e.
Proof.
  intros sep quote esc wtext text Hs Hq He H wide narrow. subst wide narrow.
  destruct (split_unix_wide sep quote esc wtext text Hs Hq He H) as [ws ss F|e]; [left|right]; eauto 6.
Qed.
Print Assumptions C83_same_as_utf8.

Theorem C83_default_same_as_utf8 : forall wtext text, utf8_text wtext text ->
  (exists wargs args, wsplit_unix wtext = Ok wargs /\ split_unix text = Ok args /\ Forall2 utf8_text wargs args)
  \/ exists e, wsplit_unix wtext = Throw e /\ split_unix text = Throw e.
Proof.
  intros wtext text H. apply (C83_same_as_utf8 default_sep default_quote default_esc); auto; repeat constructor.
Qed.
Print Assumptions C83_default_same_as_utf8.

(** C83. With a separator outside of ASCII this fails: the byte 160 as a separator cuts the character 224 in two. *)
Theorem C83_other_separators_refuted : exists sep wtext text args, utf8_text wtext text
  /\ split_unix_gen text sep default_quote default_esc = Ok args /\ Forall (fun a => forall w, ~ utf8_text w a) args /\ args <> []
  /\ wsplit_unix_gen wtext (map N_of_ascii sep) (map N_of_ascii default_quote) (map N_of_ascii default_esc) = Ok [wtext].
Proof.
  exists [ascii_of_N 160], [224%N], (map ascii_of_N [195; 160]%N), [[ascii_of_N 195]]. repeat split.
  - apply (ut_cons 224 _ [] [] (utf8_2 224 ltac:(cbn; lia)) ut_nil).
  - constructor; [|constructor]. intros w H. apply from_utf8_text in H. vm_compute in H. discriminate.
  - discriminate.
Qed.
Print Assumptions C83_other_separators_refuted.

(** C83. A wide character before a blank, in quotes and after an escape. *)
Example C83_ex :
  exists args, unix_line wide_n wide_nl (map N_of_ascii default_sep) (map N_of_ascii default_quote) (map N_of_ascii default_esc)
    args [1078; 32; 39; 1078; 32; 97; 39; 32; 92; 110]%N
  /\ wsplit_unix [1078; 32; 39; 1078; 32; 97; 39; 32; 92; 110]%N = Ok [[1078]; [1078; 32; 97]; [10]]%N
  /\ kept nonempty args [[1078]; [1078; 32; 97]; [10]]%N
  /\ wsplit_unix [1078; 92; 1078]%N = Throw (plain_exn (escaped_list_error $"unknown escape sequence")).
Proof.
  destruct (C83_every_wide_text (map N_of_ascii default_sep) (map N_of_ascii default_quote) (map N_of_ascii default_esc)
    [1078; 32; 39; 1078; 32; 97; 39; 32; 92; 110]%N) as [[args H]|[msg H]].
  - exists args. split; [exact H|]. destruct (C83_wide_unix _ _ _ _ _ H) as (toks & E & K).
    assert (E' : toks = [[1078]; [1078; 32; 97]; [10]]%N) by (vm_compute in E; congruence).
    subst toks. split; [vm_compute; reflexivity|]. split; [exact K|vm_compute; reflexivity].
  - exfalso. destruct (C83_wide_error _ _ _ _ _ H) as (e & E & _). vm_compute in E. discriminate.
Qed.
