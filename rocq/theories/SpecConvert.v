(** Vocabulary for the properties of character conversion. *)

From Coq Require Import List Ascii String NArith Bool.
From Verif Require Import Base Errors Spec Convert.
Import ListNotations.

(** ** Conversion facets *)

(** A character code: [code st chunk out st'] if, in shift state [st], the source [chunk] is the code of one
    character, [out] is its code in the target and [st'] the state after it. *)
Definition character_code (State From To : Type) := State -> list From -> list To -> State -> Prop.

(** A text is converted character by character. *)
Inductive converts {State From To} (code : character_code State From To)
    : State -> list From -> list To -> State -> Prop :=
| converts_nil st : converts code st [] [] st
| converts_cons st c o st1 cs os st2 :
    code st c o st1 -> converts code st1 cs os st2 -> converts code st (c ++ cs) (o ++ os) st2.

(** No character starts the text. *)
Definition stuck {State From To} (code : character_code State From To) st (text : list From) : Prop :=
  forall c o st' rest, text = c ++ rest -> ~ code st c o st'.

(** The code of a character is not empty, its conversion has between 1 and [longest] units,
    and it is determined by the text that starts with it. *)
Record proper {State From To} (code : character_code State From To) (longest : nat) : Prop := {
  code_source : forall st c o st', code st c o st' -> c <> [];
  code_target : forall st c o st', code st c o st' -> o <> [] /\ List.length o <= longest;
  code_prefix : forall st c o st1 c' o' st2 x x',
    code st c o st1 -> code st c' o' st2 -> c ++ x = c' ++ x' -> c = c' /\ o = o' /\ st1 = st2 }.

(** The contract of [std::codecvt::in] and [out] (C++ standard, locale.codecvt.virtuals), for a facet of the code:
    characters are converted from the start of the source.  [ok]: all of them.  [partial]: the next one
    does not fit into the destination, or is incomplete.  [error]: the next one is not a character. *)
Definition facet {State From To} (code : character_code State From To) (f : cvt State From To) : Prop :=
  forall st from room, match f st from room with (r, st', n, out) =>
    exists done rest, from = done ++ rest /\ n = List.length done /\ converts code st done out st'
      /\ List.length out <= room
      /\ match r with
         | cvt_ok => rest = []
         | cvt_partial => rest <> []
             /\ (stuck code st' rest
                 \/ exists c o st2 tail, rest = c ++ tail /\ code st' c o st2 /\ room < List.length out + List.length o)
         | cvt_error => rest <> [] /\ stuck code st' rest
         end
  end.

(** The facet of a locale: [enc] is the code in which it writes characters, [dec] the one in which it reads them. *)
Record locale_facet (f : codecvt) (enc : character_code (cv_state f) wchar char) (dec : character_code (cv_state f) char wchar) : Prop := {
  lf_enc : exists longest, longest <= 32 /\ proper enc longest;
  lf_dec : exists longest, longest <= 32 /\ proper dec longest;
  lf_out : facet enc (cv_out f);
  lf_in : facet dec (cv_in f) }.

(** ** UTF-8 *)

(** The octets of one character (RFC 2279), from the most significant. *)
Definition lead (mark w k : N) : char := ascii_of_N (mark + w / 64 ^ k).
Definition tail (w k : N) : char := ascii_of_N (128 + w / 64 ^ k mod 64).

Inductive utf8 : N -> str -> Prop :=
| utf8_1 w : (w < 2 ^ 7)%N -> utf8 w [ascii_of_N w]
| utf8_2 w : (2 ^ 7 <= w < 2 ^ 11)%N -> utf8 w [lead 192 w 1; tail w 0]
| utf8_3 w : (2 ^ 11 <= w < 2 ^ 16)%N -> utf8 w [lead 224 w 2; tail w 1; tail w 0]
| utf8_4 w : (2 ^ 16 <= w < 2 ^ 21)%N -> utf8 w [lead 240 w 3; tail w 2; tail w 1; tail w 0]
| utf8_5 w : (2 ^ 21 <= w < 2 ^ 26)%N -> utf8 w [lead 248 w 4; tail w 3; tail w 2; tail w 1; tail w 0]
| utf8_6 w : (2 ^ 26 <= w < 2 ^ 31)%N -> utf8 w [lead 252 w 5; tail w 4; tail w 3; tail w 2; tail w 1; tail w 0].

(** The UTF-8 form of a text. *)
Inductive utf8_text : wstr -> str -> Prop :=
| ut_nil : utf8_text [] []
| ut_cons w c ws s : utf8 w c -> utf8_text ws s -> utf8_text (w :: ws) (c ++ s).
