(** What the help output looks like, in declarative terms. *)

From Coq Require Import List Ascii String NArith ZArith Bool.
From Verif Require Import Base Errors Spec Values OptDesc.
Import ListNotations.

Set Implicit Arguments.

Definition len (s : str) : Z := Z.of_nat (List.length s).
Definition blanks (n : Z) : str := repeat c_space (Z.to_nat n).

(** ** One paragraph *)

(** [text] is the paragraph without its tab; the tab was at position [hang]. *)
Inductive untabbed (par : str) : str -> Z -> Prop :=
| no_tab : without c_tab par -> untabbed par par 0
| one_tab a b :
    par = a ++ c_tab :: b -> without c_tab a -> without c_tab b -> untabbed par (a ++ b) (len a).

(** A line of width [w] may end between [line] and [rest] if: *)
Inductive break_at (w : Z) : str -> str -> Prop :=
(** the line is full and a blank is next to the break; *)
| break_after_blank line rest : len (line ++ [c_space]) = w -> break_at w (line ++ [c_space]) rest
| break_before_blank line rest : len line = w -> break_at w line (c_space :: rest)
(** or the line is full and the word it splits takes at least half of it; *)
| break_long_word line word c rest :
    len (line ++ word) = w -> without c_space word -> (w / 2 <= len word)%Z -> c <> c_space ->
    break_at w (line ++ word) (c :: rest)
(** or it ends after a blank because the word that follows does not fit, and leaves less than half of it empty. *)
| break_move_word line word c rest :
    (len (line ++ [c_space]) + len word = w)%Z -> without c_space word -> c <> c_space ->
    (0 < len word < w / 2)%Z -> break_at w (line ++ [c_space]) (word ++ c :: rest).

(** After a break a single blank is dropped. *)
Inductive trimmed : str -> str -> Prop :=
| trimmed_blank c t : c <> c_space -> trimmed (c_space :: c :: t) (c :: t)
| trimmed_none t : (forall c t', t = c_space :: c :: t' -> c = c_space) -> trimmed t t.

(** [text] broken into [lines], the first of width [w], the others of width [w']. *)
Inductive wrapped (w w' : Z) : str -> list str -> Prop :=
| wrapped_last line : (len line <= w)%Z -> wrapped w w' line [line]
| wrapped_more line rest next lines :
    line <> [] -> rest <> [] -> break_at w line rest -> trimmed rest next ->
    wrapped w' w' next lines -> wrapped w w' (line ++ rest) (line :: lines).

(** The paragraph [par] written from column [indent] on, in lines of [L] characters; the continuation lines start
    at the column of the tab. *)
Inductive paragraph (indent L : Z) (par : str) : str -> Prop :=
| paragraph_of text hang lines :
    untabbed par text hang -> (0 <= indent /\ indent + hang < L)%Z ->
    wrapped (L - indent) (L - indent - hang) text lines ->
    paragraph indent L par (join (c_nl :: blanks (indent + hang)) lines).

(** The lines of a text. *)
Definition lines_of (s : str) (ls : list str) : Prop :=
  ls <> [] /\ s = join [c_nl] ls /\ Forall (without c_nl) ls.

(** The characters that are printed as something. *)
Definition visible (s : str) : str :=
  filter (fun c => negb (char_eqb c c_space || char_eqb c c_tab || char_eqb c c_nl)) s.

(** ** One option *)

(** Descriptions are paragraphs separated by newlines; the last character of the line stays free. *)
Definition description (column L : Z) (desc text : str) : Prop :=
  exists pars texts, lines_of desc pars /\ Forall2 (paragraph column (L - 1)) pars texts
    /\ text = join (c_nl :: blanks column) texts.

(** "-c", "-c [ --long ]" or "--long" *)
Inductive shown_name (d : option_description) : str -> Prop :=
| shown_short : od_short d <> [] -> od_longs d = [] -> shown_name d (od_short d)
| shown_both l ls : od_short d <> [] -> od_longs d = l :: ls -> shown_name d (od_short d ++ $" [ --" ++ l ++ $" ]")
| shown_long l ls : od_short d = [] -> od_longs d = l :: ls -> shown_name d ($"--" ++ l).

(** The first column: the name, and that of the value if there may be one. *)
Definition shown_parameter (d : option_description) : str :=
  if (vs_max (od_sem d) =? 0)%Z then [] else vs_name (od_sem d).
Definition first_col (d : option_description) (col : str) : Prop :=
  exists n, shown_name d n /\ col = $"  " ++ n ++ $" " ++ shown_parameter d.

(** The description starts at [column], on the same line if there is room. *)
Inductive shown (column L : Z) (d : option_description) : str -> Prop :=
| shown_undescribed col : first_col d col -> od_text d = [] -> shown column L d col
| shown_beside col text :
    first_col d col -> od_text d <> [] -> (len col < column)%Z -> description column L (od_text d) text ->
    shown column L d (col ++ blanks (column - len col) ++ text)
| shown_below col text :
    first_col d col -> od_text d <> [] -> (column <= len col)%Z -> description column L (od_text d) text ->
    shown column L d (col ++ c_nl :: blanks column ++ text).

(** ** Trees of options *)

(** What a program declares: [options_description(caption, line_length, min_description_length)] and then, in this
    order, options and groups. *)
Inductive tree :=
| Tree (caption : str) (line_length min_desc : Z) (items : list (option_description + tree)).

Definition tree_caption t := match t with Tree c _ _ _ => c end.
Definition tree_length t := match t with Tree _ l _ _ => l end.
Definition tree_min t := match t with Tree _ _ m _ => m end.
Definition tree_items t := match t with Tree _ _ _ is => is end.

(** The calls it makes. *)
Fixpoint build (t : tree) : outcome options_description :=
  match t with
  | Tree caption line_length min_desc items =>
      let* ds := new_options caption line_length min_desc in
      (fix add (ds : options_description) (items : list (option_description + tree)) :=
         match items with
         | [] => Ok ds
         | inl d :: items' => add (ods_add ds d) items'
         | inr t :: items' => let* g := build t in add (ods_add_group ds g) items'
         end) ds items
  end.

(** All options, in the order in which they are written down. *)
Fixpoint all_options (t : tree) : list option_description :=
  match t with
  | Tree _ _ _ items => flat_map (fun i => match i with inl d => [d] | inr t => all_options t end) items
  end.

(** The sections of the help: a caption, a line length and some options.  First the options that are in no group,
    then the groups. *)
Definition section := (str * Z * list option_description)%type.
Definition section_length (s : section) : Z := snd (fst s).
Fixpoint sections (t : tree) : list section :=
  match t with
  | Tree caption line_length _ items =>
      (caption, line_length, flat_map (fun i => match i with inl d => [d] | inr _ => [] end) items)
      :: flat_map (fun i => match i with inl _ => [] | inr t => sections t end) items
  end.

Definition heading (caption : str) : str :=
  match caption with [] => [] | _ => caption ++ $":" ++ [c_nl] end.

Definition shown_section (column : Z) (s : section) (text : str) : Prop :=
  match s with
  | (caption, L, ds) =>
      exists texts, Forall2 (shown column L) ds texts
        /\ text = heading caption ++ List.concat (map (fun t => t ++ [c_nl]) texts)
  end.

(** The whole help: the sections, with empty lines between them. *)
Definition help (column : Z) (t : tree) (text : str) : Prop :=
  exists texts, Forall2 (shown_section column) (sections t) texts /\ text = join [c_nl] texts.

(** All nodes of the tree. *)
Fixpoint subtrees (t : tree) : list tree :=
  match t with
  | Tree _ _ _ items => t :: flat_map (fun i => match i with inl _ => [] | inr t => subtrees t end) items
  end.

Fixpoint depth (t : tree) : Z :=
  match t with
  | Tree _ _ _ items =>
      (fix go (items : list (option_description + tree)) : Z :=
         match items with
         | [] => 0%Z
         | inl _ :: items' => go items'
         | inr t :: items' => Z.max (1 + depth t)%Z (go items')
         end) items
  end.

(** Lengths fit into [unsigned]. *)
Definition fits32 (n : Z) : Prop := (0 <= n < 4294967296)%Z.
Definition sized_option (d : option_description) : Prop :=
  fits32 (len (od_text d)) /\ forall col, first_col d col -> fits32 (len col).
Definition sized (t : tree) : Prop :=
  Forall (fun t => fits32 (tree_length t) /\ fits32 (tree_min t)) (subtrees t) /\ Forall sized_option (all_options t).

(** The constructor's requirement on all nodes. *)
Definition sane (t : tree) : Prop :=
  Forall (fun t => 0 <= tree_min t /\ tree_min t + 1 < tree_length t < 4294967296)%Z (subtrees t).

(** The column at which descriptions start by default. *)
Record default_column (t : tree) (W : Z) : Prop := {
  (** descriptions have the width asked for, *)
  column_leaves_room : (W <= tree_length t - tree_min t)%Z;
  (** all names fit to the left of it, unless that is impossible, *)
  column_fits_names : W = (tree_length t - tree_min t)%Z
    \/ (24 <= W)%Z /\ forall d col, In d (all_options t) -> first_col d col -> (len col < W)%Z;
  (** and it is not further to the right than needed, but for one column per level of nesting. *)
  column_not_wasted : (W <= 24 + depth t)%Z
    \/ exists d col, In d (all_options t) /\ first_col d col /\ (W <= len col + 1 + depth t)%Z;
  column_positive : (0 < W)%Z }.

(** An option that has a name, and whose description has at most one tab per paragraph, in the first [room] columns. *)
Definition tidy (room : Z) (d : option_description) : Prop :=
  (od_short d <> [] \/ od_longs d <> [])
  /\ forall pars, lines_of (od_text d) pars ->
     Forall (fun p => exists text hang, untabbed p text hang /\ (hang < room)%Z) pars.
