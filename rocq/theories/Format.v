(** Help output: src/options_description.cpp (234-254, 417-698). *)

From Coq Require Import List Ascii String NArith ZArith Bool.
From Verif Require Import Base Errors Values OptDesc.
Import ListNotations.

Set Implicit Arguments.

(** [assert(b)]; with [ndebug] (macro NDEBUG defined) it does nothing.
    (options_description.cpp 443, 469, 570, 578) *)
Definition assert_ (ndebug b : bool) : outcome unit :=
  if b || ndebug then Ok tt else Undef UB_assert.

(** Unsigned subtraction. (used in options_description.cpp 443-670) *)
Definition usub (a b : Z) : Z := Z.modulo (a - b) 4294967296.

(** [for (unsigned pad = n; pad > 0; --pad) os.put(' ')] (options_description.cpp 551, 604, 626, 631) *)
Definition spaces (n : Z) : str := repeat c_space (Z.to_nat n).

(** options_description.cpp 234-245 [format_name]; [*m_long_names.begin()] of an
    empty vector is undefined. *)
Definition format_name (d : option_description) : outcome str :=
  if negb (is_empty (od_short d)) then
    match od_longs d with
    | [] => Ok (od_short d)
    | l :: _ => Ok (od_short d ++ $" [ --" ++ l ++ $" ]")
    end
  else
    match od_longs d with
    | [] => Undef UB_index
    | l :: _ => Ok ($"--" ++ l)
    end.

(** options_description.cpp 247-254 [format_parameter] *)
Definition format_parameter (d : option_description) : str :=
  if negb (Z.eqb (vs_max (od_sem d)) 0) then vs_name (od_sem d) else [].

(** options_description.cpp 512-534: position of [line_end] relative to
    [line_begin], given the text from [line_begin] on. *)

(** Number of characters after the last blank of [line] (the reverse [find] of
    518-522: [distance(last_space, line_end)]); the whole length if there is none.
    (options_description.cpp 518-522) *)
Fixpoint after_last_space (rline : str) : nat :=
  match rline with
  | [] => 0
  | c :: r => if char_eqb c c_space then 0 else S (after_last_space r)
  end.

(** options_description.cpp 511-534 *)
Definition line_break (text : str) (line_length : Z) : outcome nat :=
  (* static_cast<unsigned> *)
  let remaining := Z.modulo (Z.of_nat (List.length text)) 4294967296 in
  let n := Z.to_nat (if Z.ltb remaining line_length then remaining else line_length) in
  let line := firstn n text in
  (* *(line_end - 1): undefined (or the previous character) for an empty line *)
  match rev line with
  | [] => Undef UB_index
  | last :: _ =>
      match skipn n text with
      | next :: _ =>
          if negb (char_eqb last c_space) && negb (char_eqb next c_space) then
            let k := after_last_space (rev line) in
            (* last_space != line_begin *)
            if negb (Nat.eqb k (List.length line))
               && Z.ltb (Z.of_nat k) (Z.div line_length 2)
            then Ok (n - k)%nat else Ok n
          else Ok n
      | [] => Ok n
      end
  end.

(** options_description.cpp 489-559: the loop over the lines of a paragraph; [text]
    runs from [line_begin] to [par_end]. *)
Fixpoint format_lines (fuel : nat) (text : str) (first_line : bool)
    (par_indent indent line_length : Z) : outcome str :=
  match text with
  | [] => Ok []
  | _ =>
      match fuel with
      | O => NoFuel
      | S fuel' =>
          let text1 :=
            if first_line then text
            else match text with
                 | c :: c2 :: t =>
                     if char_eqb c c_space && negb (char_eqb c2 c_space) then c2 :: t else text
                 | _ => text
                 end in
          let* n := line_break text1 line_length in
          let line := firstn n text1 in
          let rest := skipn n text1 in
          let indent' := if first_line then Z.modulo (indent + par_indent) 4294967296 else indent in
          let line_length' := if first_line then usub line_length par_indent else line_length in
          let pad := match rest with [] => [] | _ => c_nl :: spaces indent' end in
          let* more := format_lines fuel' rest false par_indent indent' line_length' in
          Ok (line ++ pad ++ more)
      end
  end.

(** [count(par.begin(), par.end(), '\t')] (options_description.cpp 458) *)
Definition count_char (c : char) (s : str) : nat := List.length (filter (char_eqb c) s).

(** [par.erase(n, 1)] (options_description.cpp 465) *)
Definition erase_at (n : nat) (s : str) : str := firstn n s ++ skipn (S n) s.

(** options_description.cpp 435-561 [format_paragraph]: the text written.  Each
    iteration consumes a character, so [S (length par)] steps suffice. *)
Definition format_paragraph (ndebug : bool) (par : str) (indent line_length : Z) : outcome str :=
  let* _ := assert_ ndebug (Z.ltb indent line_length) in
  let line_length := usub line_length indent in
  let* p :=
    match find_char c_tab par with
    | None => Ok (par, 0%Z)
    | Some n =>
        if (1 <? count_char c_tab par)%nat then
          Throw (plain_exn (po_error
            $"Only one tab per paragraph is allowed in the options description"))
        else
          let par' := erase_at n par in
          let* _ := assert_ ndebug (Z.ltb (Z.of_nat n) line_length) in
          Ok (par', if Z.leb line_length (Z.of_nat n) then 0%Z else Z.of_nat n)
    end in
  let (par, par_indent) := (p : str * Z) in
  if Z.ltb (Z.of_nat (List.length par)) line_length then Ok par
  else format_lines (S (List.length par)) par true par_indent indent line_length.

(** [boost::tokenizer] with [char_separator("\n", "", keep_empty_tokens)] on a
    non-empty string (Boost.Tokenizer, not in /repo): split at every newline.
    [cur] is the piece read, reversed. (options_description.cpp 583-587; Boost.Tokenizer, not in /repo) *)
Fixpoint split_nl (cur : str) (s : str) : list str :=
  match s with
  | [] => [rev cur]
  | c :: s' => if char_eqb c c_nl then rev cur :: split_nl [] s' else split_nl (c :: cur) s'
  end.

(** options_description.cpp 592-609: the loop over the paragraphs *)
Fixpoint format_paragraphs (ndebug : bool) (pars : list str) (width line_length : Z)
    : outcome str :=
  match pars with
  | [] => Ok []
  | par :: pars' =>
      let* t := format_paragraph ndebug par width line_length in
      let* rest := format_paragraphs ndebug pars' width line_length in
      Ok (t ++ match pars' with [] => [] | _ => c_nl :: spaces width end ++ rest)
  end.

(** options_description.cpp 563-610 [format_description] *)
Definition format_description (ndebug : bool) (desc : str) (width line_length : Z) : outcome str :=
  let* _ := assert_ ndebug (Z.ltb 1 line_length) in
  let line_length := if Z.ltb 1 line_length then (line_length - 1)%Z else line_length in
  let* _ := assert_ ndebug (Z.ltb width line_length) in
  format_paragraphs ndebug (split_nl [] desc) width line_length.

(** options_description.cpp 615-616 / 652-653: the first column *)
Definition first_column (d : option_description) : outcome str :=
  let* n := format_name d in
  Ok ($"  " ++ n ++ [c_space] ++ format_parameter d).

(** options_description.cpp 612-640 [format_one] *)
Definition format_one (ndebug : bool) (d : option_description) (width line_length : Z)
    : outcome str :=
  let* ss := first_column d in
  let size := Z.of_nat (List.length ss) in
  if is_empty (od_text d) then Ok ss
  else
    let pad := if Z.leb width size then c_nl :: spaces width else spaces (width - size) in
    let* t := format_description ndebug (od_text d) width line_length in
    Ok (ss ++ pad ++ t).

(** options_description.cpp 649-655: the widest first column *)
Fixpoint max_column (width : Z) (ds : list option_description) : outcome Z :=
  match ds with
  | [] => Ok width
  | d :: ds' =>
      let* ss := first_column d in
      max_column (Z.max width (Z.modulo (Z.of_nat (List.length ss)) 4294967296)) ds'
  end.

(** options_description.cpp 643-670 [get_option_column_width] *)
Fixpoint get_option_column_width (od : options_description) : outcome Z :=
  match od with
  | mk_ods _ line_length min_desc opts groups =>
      let* w := max_column 23 (map fst opts) in
      let* w := (fix group_widths (w : Z) (gs : list options_description) : outcome Z :=
                   match gs with
                   | [] => Ok w
                   | g :: gs' =>
                       let* wg := get_option_column_width g in
                       group_widths (Z.max w wg) gs'
                   end) w groups in
      let start := usub line_length min_desc in
      Ok (Z.modulo (Z.min w (usub start 1) + 1) 4294967296)
  end.

(** options_description.cpp 682-692: the options that belong to no group *)
Fixpoint print_options (ndebug : bool) (opts : list (option_description * bool))
    (width line_length : Z) : outcome str :=
  match opts with
  | [] => Ok []
  | (_, true) :: opts' => print_options ndebug opts' width line_length
  | (d, false) :: opts' =>
      let* t := format_one ndebug d width line_length in
      let* rest := print_options ndebug opts' width line_length in
      Ok (t ++ [c_nl] ++ rest)
  end.

(** options_description.cpp 672-698 [print]: the text written *)
Fixpoint print (ndebug : bool) (od : options_description) (width : Z) : outcome str :=
  match od with
  | mk_ods caption line_length min_desc opts groups =>
      let head := if is_empty caption then [] else caption ++ [":"%char; c_nl] in
      let* width := if Z.eqb width 0 then get_option_column_width od else Ok width in
      let* body := print_options ndebug opts width line_length in
      let* tail := (fix print_groups (gs : list options_description) : outcome str :=
                      match gs with
                      | [] => Ok []
                      | g :: gs' =>
                          let* t := print ndebug g width in
                          let* rest := print_groups gs' in
                          Ok ([c_nl] ++ t ++ rest)
                      end) groups in
      Ok (head ++ body ++ tail)
  end.
