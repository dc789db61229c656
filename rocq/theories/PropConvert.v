(** C55, C56: character conversion. *)

From Coq Require Import List Ascii String NArith ZArith Bool Arith Lia.
From Verif Require Import Base Errors Spec BaseFacts Convert SpecConvert ConvertFacts.
Import ListNotations.

(** C55. Whatever the size of the buffer, as long as it has room for one character, converting by pieces gives the
    conversion of the whole text, or an error if it has none. *)
Theorem C55_by_pieces : forall State From To (code : character_code State From To) longest f bufsize init s,
  proper code longest -> facet code f -> longest <= bufsize ->
  (exists out st', converts code init s out st' /\ convert_loop (List.length s) f bufsize init s = Ok out)
  \/ ((forall out st', ~ converts code init s out st')
      /\ convert_loop (List.length s) f bufsize init s = Throw conversion_failed).
Proof. intros. eapply loop_correct; eauto. Qed.
Print Assumptions C55_by_pieces.

(** C55. So [convert] is right if no character takes more than 32 units, *)
Theorem C55_convert : forall State From To (code : character_code State From To) longest f init s,
  proper code longest -> facet code f -> longest <= 32 ->
  (exists out st', converts code init s out st' /\ convert f init s = Ok out)
  \/ ((forall out st', ~ converts code init s out st') /\ convert f init s = Throw conversion_failed).
Proof. exact convert_correct. Qed.
Print Assumptions C55_convert.

(** C55. the conversion of the whole text is unique, *)
Theorem C55_unique : forall State From To (code : character_code State From To) longest init s x st1 y st2,
  proper code longest -> converts code init s x st1 -> converts code init s y st2 -> x = y /\ st1 = st2.
Proof. intros. eapply converts_fun; eauto. Qed.
Print Assumptions C55_unique.

(** C55. and the size of the buffer does not matter. *)
Theorem C55_buffer_irrelevant : forall State From To (code : character_code State From To) longest f b1 b2 init s,
  proper code longest -> facet code f -> longest <= b1 -> longest <= b2 ->
  convert_loop (List.length s) f b1 init s = convert_loop (List.length s) f b2 init s.
Proof.
  intros State From To code longest f b1 b2 init s P F H1 H2.
  destruct (C55_by_pieces _ _ _ code longest f b1 init s P F H1) as [(o1 & s1 & C1 & ->)|[N1 ->]];
  destruct (C55_by_pieces _ _ _ code longest f b2 init s P F H2) as [(o2 & s2 & C2 & ->)|[N2 ->]]; auto.
  - destruct (C55_unique _ _ _ code longest init s o1 s1 o2 s2 P C1 C2) as [-> _]. reflexivity.
  - destruct (N2 _ _ C1).
  - destruct (N1 _ _ C2).
Qed.
Print Assumptions C55_buffer_irrelevant.

(** C55. The UTF-8 facet keeps the contract in both directions.  41 letters, a letter of three octets across
    position 32, and an incomplete one. *)
Definition euro : N := 8364.
Definition euro8 : str := map ascii_of_N [226; 130; 172]%N.
Example C55_ex :
  proper in_code 1 /\ facet in_code utf8_in /\ proper out_code 6 /\ facet out_code utf8_out
  /\ to_utf8 (repeat 97 31 ++ [euro] ++ repeat 98 40)%N = Ok (repeat "a"%char 31 ++ euro8 ++ repeat "b"%char 40)
  /\ from_utf8 (repeat "a"%char 31 ++ euro8 ++ repeat "b"%char 40) = Ok (repeat 97 31 ++ [euro] ++ repeat 98 40)%N
  /\ from_utf8 (repeat "a"%char 40 ++ firstn 2 euro8) = Throw conversion_failed.
Proof.
  split; [exact proper_in|]. split; [exact facet_in|]. split; [exact proper_out|]. split; [exact facet_out|].
  split; [|split]; vm_compute; reflexivity.
Qed.

(** C56. [to_utf8] writes the UTF-8 form of the text, *)
Theorem C56_to_utf8 : forall ws, Forall (fun w => w < 2 ^ 31)%N ws -> exists s, utf8_text ws s /\ to_utf8 ws = Ok s.
Proof.
  intros ws H. destruct (utf8_text_exists ws H) as [s Hs]. exists s. split; auto. now apply to_utf8_text.
Qed.
Print Assumptions C56_to_utf8.

(** C56. [from_utf8] reads it, *)
Theorem C56_from_utf8 : forall ws s, utf8_text ws s -> from_utf8 s = Ok ws.
Proof. exact from_utf8_text. Qed.
Print Assumptions C56_from_utf8.

(** C56. so text survives the round trip, and different texts have different forms. *)
Theorem C56_round_trip : forall ws, Forall (fun w => w < 2 ^ 31)%N ws ->
  exists s, to_utf8 ws = Ok s /\ from_utf8 s = Ok ws.
Proof.
  intros ws H. destruct (C56_to_utf8 ws H) as (s & Hs & E). exists s. split; auto. now apply C56_from_utf8.
Qed.
Print Assumptions C56_round_trip.

Theorem C56_injective : forall ws ws', Forall (fun w => w < 2 ^ 31)%N ws -> Forall (fun w => w < 2 ^ 31)%N ws' ->
  to_utf8 ws = to_utf8 ws' -> ws = ws'.
Proof.
  intros ws ws' H H' E. destruct (C56_round_trip ws H) as (s & E1 & E2). destruct (C56_round_trip ws' H') as (s' & E1' & E2').
  congruence.
Qed.
Print Assumptions C56_injective.

(** C56. In the other direction it is not the identity: overlong forms are accepted. *)
Theorem C56_overlong_refuted : exists s ws, from_utf8 s = Ok ws /\ exists s', to_utf8 ws = Ok s' /\ s' <> s.
Proof.
  exists (map ascii_of_N [192; 175]%N), [47]%N. split; [vm_compute; reflexivity|]. eexists. split; [vm_compute; reflexivity|discriminate].
Qed.
Print Assumptions C56_overlong_refuted.

(** C56. Characters of one to six octets. *)
Example C56_ex :
  let ws := [97; 233; 8364; 128512; 2 ^ 25; 2 ^ 31 - 1]%N in
  Forall (fun w => w < 2 ^ 31)%N ws
  /\ exists s, to_utf8 ws = Ok s /\ List.length s = 21 /\ from_utf8 s = Ok ws.
Proof.
  split; [repeat constructor|]. eexists. split; [vm_compute; reflexivity|]. split; vm_compute; reflexivity.
Qed.
