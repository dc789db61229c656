(** Vocabulary for the properties of [split_winmain] and [split_unix]. *)

From Coq Require Import List Ascii String NArith Bool Arith.
From Verif Require Import Base Errors Spec.
Import ListNotations.

(** ** Windows command lines *)

(** Blank, tab, line feed, vertical tab, form feed, carriage return. *)
Definition space (c : char) : Prop := (9 <= N_of_ascii c <= 13 \/ N_of_ascii c = 32)%N.
Definition spaces (b : str) : Prop := Forall space b.
Definition backslashes (n : nat) : str := repeat c_bs n.

(** [body] is how [arg] is written between double quotes: backslashes are doubled before a
    double quote and at the end, and a double quote has one more before it. *)
Inductive win_body : str -> str -> Prop :=
| wb_end n : win_body (backslashes n) (backslashes (2 * n))
| wb_quote n arg body : win_body arg body ->
    win_body (backslashes n ++ c_dq :: arg) (backslashes (2 * n + 1) ++ c_dq :: body)
| wb_char n c arg body : c <> c_dq -> c <> c_bs -> win_body arg body ->
    win_body (backslashes n ++ c :: arg) (backslashes n ++ c :: body).

(** [text] is a way to write the argument: in double quotes, or as it is, if it is not
    empty and has neither white space nor double quotes. *)
Inductive win_written : str -> str -> Prop :=
| ww_quoted arg body : win_body arg body -> win_written arg (c_dq :: body ++ [c_dq])
| ww_plain arg : arg <> [] -> Forall (fun c => ~ space c /\ c <> c_dq) arg -> win_written arg arg.

(** The command line consists of these arguments, separated by white space. *)
Inductive win_line : list str -> str -> Prop :=
| wl_end b : spaces b -> win_line [] b
| wl_arg b arg text args rest : spaces b -> win_written arg text -> win_line args rest ->
    rest = [] \/ (exists c rest', rest = c :: rest' /\ space c) ->
    win_line (arg :: args) (b ++ text ++ rest).

(** Any text at all.  The flags tell whether a part of an argument begins and ends inside double quotes.  [n]
    backslashes before a double quote stand for half as many, and if [n] is odd then the double quote is an ordinary
    character, otherwise it opens or closes the quotes; other backslashes are ordinary characters. *)
Inductive win_part : bool -> str -> str -> bool -> Prop :=
| wp_end q n : win_part q (backslashes n) (backslashes n) q
| wp_quotes q n arg text q' : win_part (negb q) arg text q' ->
    win_part q (backslashes n ++ arg) (backslashes (2 * n) ++ c_dq :: text) q'
| wp_literal q n arg text q' : win_part q arg text q' ->
    win_part q (backslashes n ++ c_dq :: arg) (backslashes (2 * n + 1) ++ c_dq :: text) q'
| wp_char q n c arg text q' : c <> c_dq -> c <> c_bs -> q = true \/ ~ space c -> win_part q arg text q' ->
    win_part q (backslashes n ++ c :: arg) (backslashes n ++ c :: text) q'.

(** Arguments end with white space outside double quotes, or with the text. *)
Inductive win_text : list str -> str -> Prop :=
| wt_end b : spaces b -> win_text [] b
| wt_last b arg text q : spaces b -> win_part false arg text q -> text <> [] -> win_text [arg] (b ++ text)
| wt_arg b arg text c args rest : spaces b -> win_part false arg text false -> text <> [] -> space c ->
    win_text args rest -> win_text (arg :: args) (b ++ text ++ c :: rest).

(** ** Unix command lines *)

(** The characters, among them 'n' and the newline. *)
Section Unix.
Context {A : Type}.
Variables letter_n newline : A.
Variables sep quote esc : list A.

(** [text] writes [arg]; the flags tell whether this begins and ends inside quotes. *)
Inductive unix_written : bool -> list A -> list A -> bool -> Prop :=
| uw_nil q : unix_written q [] [] q
| uw_plain q c arg text q' :
    ~ In c esc -> ~ In c quote -> (q = false -> ~ In c sep) -> unix_written q arg text q' ->
    unix_written q (c :: arg) (c :: text) q'
| uw_quoted_sep c arg text q' :
    ~ In c esc -> In c sep -> unix_written true arg text q' ->
    unix_written true (c :: arg) (c :: text) q'
| uw_escaped q e c arg text q' :
    In e esc -> c <> letter_n -> In c (quote ++ sep ++ esc) -> unix_written q arg text q' ->
    unix_written q (c :: arg) (e :: c :: text) q'
| uw_newline q e arg text q' :
    In e esc -> unix_written q arg text q' -> unix_written q (newline :: arg) (e :: letter_n :: text) q'
| uw_quote q c arg text q' :
    In c quote -> ~ In c esc -> ~ In c sep -> unix_written (negb q) arg text q' ->
    unix_written q arg (c :: text) q'.

Definition separator (c : A) : Prop := In c sep /\ ~ In c esc.

(** The command line consists of these arguments, separated by separators. *)
Inductive unix_line : list (list A) -> list A -> Prop :=
| ul_last arg text q : unix_written false arg text q -> unix_line [arg] text
| ul_cons arg text c args rest : unix_written false arg text false -> separator c -> unix_line args rest ->
    unix_line (arg :: args) (text ++ c :: rest).

(** The command line has an error: an escape character stands at its end, or before a character that is neither
    special nor 'n'.  What is before it is correct. *)
Inductive unix_error : list A -> str -> Prop :=
| ue_end args text e : unix_line args text -> In e esc -> unix_error (text ++ [e]) $"cannot end with escape"
| ue_unknown args text e c rest : unix_line args text -> In e esc -> c <> letter_n -> ~ In c (quote ++ sep ++ esc) ->
    unix_error (text ++ e :: c :: rest) $"unknown escape sequence".

End Unix.

Definition nonempty {A} (l : list A) : Prop := l <> [].

(** [l'] is [l] without the elements that do not have the property. *)
Inductive kept {A} (P : A -> Prop) : list A -> list A -> Prop :=
| kp_nil : kept P [] []
| kp_yes x l l' : P x -> kept P l l' -> kept P (x :: l) (x :: l')
| kp_no x l l' : ~ P x -> kept P l l' -> kept P (x :: l) l'.
