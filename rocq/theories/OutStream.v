(** Help output on output streams: [options_description::print] as a sequence of operations on the stream, and what these do to
    a stream with a field width, a buffer that stops taking characters, or an exception mask.  The control flow of [print] does not
    depend on the stream, so it is modelled as the operations it performs and its own outcome. *)

From Coq Require Import List Ascii String NArith ZArith Bool.
From Verif Require Import Base Errors Values OptDesc Format Masked.
Import ListNotations.

Set Implicit Arguments.

(** [os << x] for a string, a literal or a character, and [os.put(c)] (options_description.cpp 480, 537, 549, 553, 602, 606, 619,
    625-634, 676, 691, 695) *)
Inductive op := Insert (s : str) | Put (c : char).

(** ** The operations [print] performs *)

(** Operations, and then a result, an exception or undefined behaviour. (C++ semantics; no code of the library) *)
Definition writer (A : Type) : Type := (list op * outcome A)%type.
Definition wlift {A} (x : outcome A) : writer A := ([], x).
Definition write (ops : list op) : writer unit := (ops, Ok tt).
Definition wbind {A B} (m : writer A) (k : A -> writer B) : writer B :=
  match m with
  | (ops, Ok a) => let (ops', r) := k a in (ops ++ ops', r)
  | (ops, Throw e) => (ops, Throw e)
  | (ops, Undef u) => (ops, Undef u)
  | (ops, NoFuel) => (ops, NoFuel)
  end.

(** [for (unsigned pad = n; pad > 0; --pad) os.put(' ')] (options_description.cpp 551, 604, 626, 631) *)
Definition put_spaces (n : Z) : list op := map Put (spaces n).

(** options_description.cpp 489-559; [copy] with an [ostream_iterator<char>] (537) is [os << c] for each character. *)
Fixpoint wformat_lines (fuel : nat) (text : str) (first_line : bool) (par_indent indent line_length : Z) : writer unit :=
  match text with
  | [] => wlift (Ok tt)
  | _ =>
      match fuel with
      | O => wlift NoFuel
      | S fuel' =>
          let text1 :=
            if first_line then text
            else match text with
                 | c :: c2 :: t =>
                     if char_eqb c c_space && negb (char_eqb c2 c_space) then c2 :: t else text
                 | _ => text
                 end in
          wbind (wlift (line_break text1 line_length)) (fun n =>
          let line := firstn n text1 in
          let rest := skipn n text1 in
          let indent' := if first_line then Z.modulo (indent + par_indent) 4294967296 else indent in
          let line_length' := if first_line then usub line_length par_indent else line_length in
          wbind (write (map (fun c => Insert [c]) line)) (fun _ =>
          wbind (write (match rest with [] => [] | _ => Insert [c_nl] :: put_spaces indent' end)) (fun _ =>
          wformat_lines fuel' rest false par_indent indent' line_length')))
      end
  end.

(** options_description.cpp 435-561 [format_paragraph] *)
Definition wformat_paragraph (ndebug : bool) (par : str) (indent line_length : Z) : writer unit :=
  wbind (wlift (assert_ ndebug (Z.ltb indent line_length))) (fun _ =>
  let line_length := usub line_length indent in
  wbind (wlift
    match find_char c_tab par with
    | None => Ok (par, 0%Z)
    | Some n =>
        if (1 <? count_char c_tab par)%nat then
          Throw (plain_exn (po_error
            $"Only one tab per paragraph is allowed in the options description"))
        else
          let par' := erase_at n par in
          let* _ := assert_ ndebug (Z.ltb (Z.of_nat n) line_length) in
          Ok (par', if Z.leb line_length (Z.of_nat n) then 0%Z else Z.of_nat n)
    end) (fun p =>
  let (par, par_indent) := (p : str * Z) in
  if Z.ltb (Z.of_nat (List.length par)) line_length then write [Insert par]
  else wformat_lines (S (List.length par)) par true par_indent indent line_length)).

(** options_description.cpp 592-609: the loop over the paragraphs *)
Fixpoint wformat_paragraphs (ndebug : bool) (pars : list str) (width line_length : Z) : writer unit :=
  match pars with
  | [] => wlift (Ok tt)
  | par :: pars' =>
      wbind (wformat_paragraph ndebug par width line_length) (fun _ =>
      wbind (write (match pars' with [] => [] | _ => Insert [c_nl] :: put_spaces width end)) (fun _ =>
      wformat_paragraphs ndebug pars' width line_length))
  end.

(** options_description.cpp 563-610 [format_description] *)
Definition wformat_description (ndebug : bool) (desc : str) (width line_length : Z) : writer unit :=
  wbind (wlift (assert_ ndebug (Z.ltb 1 line_length))) (fun _ =>
  let line_length := if Z.ltb 1 line_length then (line_length - 1)%Z else line_length in
  wbind (wlift (assert_ ndebug (Z.ltb width line_length))) (fun _ =>
  wformat_paragraphs ndebug (split_nl [] desc) width line_length)).

(** options_description.cpp 612-640 [format_one] *)
Definition wformat_one (ndebug : bool) (d : option_description) (width line_length : Z) : writer unit :=
  wbind (wlift (first_column d)) (fun ss =>
  let size := Z.of_nat (List.length ss) in
  wbind (write [Insert ss]) (fun _ =>
  if is_empty (od_text d) then wlift (Ok tt)
  else
    wbind (write (if Z.leb width size then Put c_nl :: put_spaces width else put_spaces (width - size))) (fun _ =>
    wformat_description ndebug (od_text d) width line_length))).

(** options_description.cpp 682-692: the options that belong to no group *)
Fixpoint wprint_options (ndebug : bool) (opts : list (option_description * bool)) (width line_length : Z) : writer unit :=
  match opts with
  | [] => wlift (Ok tt)
  | (_, true) :: opts' => wprint_options ndebug opts' width line_length
  | (d, false) :: opts' =>
      wbind (wformat_one ndebug d width line_length) (fun _ =>
      wbind (write [Insert [c_nl]]) (fun _ =>
      wprint_options ndebug opts' width line_length))
  end.

(** options_description.cpp 672-698 [print] *)
Fixpoint wprint (ndebug : bool) (od : options_description) (width : Z) : writer unit :=
  match od with
  | mk_ods caption line_length min_desc opts groups =>
      wbind (write (if is_empty caption then [] else [Insert caption; Insert [":"%char; c_nl]])) (fun _ =>
      wbind (wlift (if Z.eqb width 0 then get_option_column_width od else Ok width)) (fun width =>
      wbind (wprint_options ndebug opts width line_length) (fun _ =>
      (fix wprint_groups (gs : list options_description) : writer unit :=
         match gs with
         | [] => wlift (Ok tt)
         | g :: gs' =>
             wbind (write [Insert [c_nl]]) (fun _ =>
             wbind (wprint ndebug g width) (fun _ =>
             wprint_groups gs'))
         end) groups)))
  end.

(** ** Output streams (the standard library, not in /repo) *)

(** A [std::ostream].  [os_text] is what its buffer has taken, [os_room] how many characters it will still take ([None]: any
    number).  [os_left] is [adjustfield == left].  Not modelled: stream buffers that throw, [tie], [unitbuf]. *)
Record ostream := mk_os {
  os_text : str;
  os_room : option nat;
  os_eof : bool;
  os_fail : bool;
  os_bad : bool;
  os_width : Z;
  os_fill : char;
  os_left : bool;
  os_mask : mask }.

(** Choices of the implementation: whether [os << x] on a stream that is not good sets [failbit], and whether a character that is
    lost sets [failbit] besides [badbit]. *)
Record implementation := mk_impl { sentry_sets_failbit : bool; loss_sets_failbit : bool }.

(** [os.good()] *)
Definition os_good (s : ostream) : bool := negb (os_eof s || os_fail s || os_bad s).

(** [os.rdstate() & os.exceptions()] *)
Definition os_hits (s : ostream) : bool :=
  (on_eof (os_mask s) && os_eof s) || (on_fail (os_mask s) && os_fail s) || (on_bad (os_mask s) && os_bad s).

(** [os.setstate(bits)]: the new state, and whether it throws *)
Definition os_setstate (s : ostream) (fail bad : bool) : ostream * bool :=
  let s' := mk_os (os_text s) (os_room s) (os_eof s) (os_fail s || fail) (os_bad s || bad)
              (os_width s) (os_fill s) (os_left s) (os_mask s) in
  (s', os_hits s').

(** The buffer takes as much of the characters as it has room for; does it take all? *)
Definition deliver (s : ostream) (t : str) (width : Z) : ostream * bool :=
  match os_room s with
  | None => (mk_os (os_text s ++ t) None (os_eof s) (os_fail s) (os_bad s) width (os_fill s) (os_left s) (os_mask s), true)
  | Some n => (mk_os (os_text s ++ firstn n t) (Some (n - List.length t)) (os_eof s) (os_fail s) (os_bad s)
                 width (os_fill s) (os_left s) (os_mask s), (List.length t <=? n)%nat)
  end.

(** The characters that [os << x] writes for [x] *)
Definition padded (width : Z) (fill : char) (left : bool) (t : str) : str :=
  let p := repeat fill (Z.to_nat (width - Z.of_nat (List.length t))) in
  if left then t ++ p else p ++ t.

(** One operation; the flag tells whether the stream throws.  The width is reset by [<<]. *)
Definition os_step (impl : implementation) (s : ostream) (o : op) : ostream * bool :=
  if negb (os_good s) then
    if sentry_sets_failbit impl then os_setstate s true false else (s, false)
  else
    match o with
    | Insert t =>
        let (s1, all) := deliver s (padded (os_width s) (os_fill s) (os_left s) t) 0 in
        if (all : bool) then (s1, false) else os_setstate s1 (loss_sets_failbit impl) true
    | Put c =>
        let (s1, all) := deliver s [c] (os_width s) in
        if (all : bool) then (s1, false) else os_setstate s1 false true
    end.

(** Operations one after another, until the stream throws *)
Fixpoint os_exec (impl : implementation) (s : ostream) (ops : list op) : ostream * bool :=
  match ops with
  | [] => (s, false)
  | o :: ops' =>
      let (s1, threw) := os_step impl s o in
      if (threw : bool) then (s1, true) else os_exec impl s1 ops'
  end.

(** options_description.cpp 672-698 [print(os, width)] and 417-422 [operator<<] (for [width = 0]): the stream afterwards, and an
    exception of the stream or the end of [print] itself *)
Definition print_on (impl : implementation) (ndebug : bool) (s : ostream) (od : options_description) (width : Z)
    : ostream * io (outcome unit) :=
  let (ops, r) := wprint ndebug od width in
  let (s1, threw) := os_exec impl s ops in
  (s1, if (threw : bool) then Failure else Done r).
