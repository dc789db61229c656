(** [split_winmain]: src/winmain.cpp. *)

From Coq Require Import List Ascii String NArith Bool Arith.
From Verif Require Import Base.
Import ListNotations.

Set Implicit Arguments.

(** [isspace((unsigned char)c)] in the C locale: tab..carriage return and blank
    (used in winmain.cpp 30, 64, 69; the C library, not in /repo) *)
Definition isspace (c : char) : bool :=
  let n := N_of_ascii c in
  ((9 <=? n)%N && (n <=? 13)%N) || (n =? 32)%N.

(** winmain.cpp 35-38: the state of the scanner; [backslash_count], an int, is a
    natural number here (inputs shorter than 2^31).  [w_skip] says that the inner loop
    69-70 is running: it skips white space; its [--i] followed by the [++i] of the
    outer loop resumes at the next other character. *)
Record wstate := mk_w {
  w_result : list str;
  w_current : str;
  w_inside : bool;         (* inside_quoted *)
  w_empty_quote : bool;    (* empty_quote *)
  w_bs : nat;              (* backslash_count *)
  w_skip : bool }.

(** winmain.cpp 41-75: one character, outside the skipping loop *)
Definition w_char (c : char) (s : wstate) : wstate :=
  if char_eqb c c_dq then
    if Nat.even (w_bs s) then
      let current := w_current s ++ repeat c_bs (Nat.div2 (w_bs s)) in
      mk_w (w_result s) current (negb (w_inside s))
        (w_inside s && is_empty current) 0 false
    else
      mk_w (w_result s) (w_current s ++ repeat c_bs (Nat.div2 (w_bs s)) ++ [c_dq])
        (w_inside s) (w_empty_quote s) 0 false
  else if char_eqb c c_bs then
    mk_w (w_result s) (w_current s) (w_inside s) (w_empty_quote s) (S (w_bs s)) false
  else
    let current := w_current s ++ repeat c_bs (w_bs s) in
    if isspace c && negb (w_inside s) then
      mk_w (w_result s ++ [current]) [] (w_inside s) false 0 true
    else
      mk_w (w_result s) (current ++ [c]) (w_inside s) (w_empty_quote s) 0 false.

(** winmain.cpp 40-76: the loop *)
Fixpoint w_loop (input : str) (s : wstate) : wstate :=
  match input with
  | [] => s
  | c :: input' =>
      if w_skip s && isspace c then w_loop input' s
      else w_loop input' (w_char c s)
  end.

(** winmain.cpp 78-85: the end *)
Definition w_finish (s : wstate) : list str :=
  let current := w_current s ++ repeat c_bs (w_bs s) in
  if negb (is_empty current) || w_inside s || w_empty_quote s
  then w_result s ++ [current] else w_result s.

(** winmain.cpp 28-31: skip leading white space *)
Fixpoint skip_space (input : str) : str :=
  match input with
  | c :: input' => if isspace c then skip_space input' else input
  | [] => []
  end.

(** winmain.cpp 24-88 [split_winmain] *)
Definition split_winmain (input : str) : list str :=
  match skip_space input with
  | [] => []
  | i => w_finish (w_loop i (mk_w [] [] false false 0 false))
  end.
