(** Objects that end: descriptions, parsers, results of parsing, maps and the variables of the user, in the order in
    which a program makes, uses and destroys them.  Parsers and results point to descriptions, maps to maps, and value
    semantics to variables.  (parsers.hpp 42-47: "issues of lifetime are up to the caller") *)

From Coq Require Import List Ascii String NArith ZArith Bool.
From Verif Require Import Base Errors Values OptDesc Positional Cmdline Parsers VarMap Build Objects.
Import ListNotations.

Set Implicit Arguments.

(** detail/cmdline.hpp 138-147: a parser, whose members [m_desc] and [m_positional] point to variables of the program;
    the others are in [lp_self]. *)
Record parser_ptr := mk_lp {
  lp_self : parser;
  lp_desc : option nat;
  lp_pos : option nat }.

(** parsers.hpp 36-60 [basic_parsed_options] with the pointer [description] *)
Record source_ptr := mk_ls {
  ls_options : list popt;
  ls_desc : nat;
  ls_prefix : Z }.

(** The variables of the program; an empty cell is an object that has been destroyed.  A cell of [lw_parsers] or
    [lw_sources] is empty if the parsing has thrown.  [lw_gone] are the addresses of the variables for [store_to] that
    have been destroyed. (the objects of parsers.hpp 36-60, 114-163, options_description.hpp 191-288,
    positional_options.hpp 36-65, variables_map.hpp 146-181) *)
Record life_world := mk_lw {
  lw_descs : list (option options_description);
  lw_positionals : list (option positional);
  lw_parsers : list (option parser_ptr);
  lw_sources : list (option source_ptr);
  lw_maps : list (option map_object);
  lw_gone : list nat }.

(** No object yet: the start of the program (as variables_map.cpp 188-189 does for one object) *)
Definition life_start : life_world := mk_lw [] [] [] [] [] [].

(** The setters of detail/parsers.hpp 50-80 that store a value and not a pointer *)
Inductive parser_setting :=
| set_to_style (style : Z)
| set_to_extra (p : option (str -> str * str))
| set_to_allow
| set_to_extra_style (p : option style_parser).

Definition setting_call (s : parser_setting) : parser_call :=
  match s with
  | set_to_style n => call_style n
  | set_to_extra p => call_extra_parser p
  | set_to_allow => call_allow_unregistered
  | set_to_extra_style p => call_extra_style_parser p
  end.

(** What a program can do.  Variables of each kind are numbered in the order of their construction.
    (the public functions of options_description.hpp 196-231, positional_options.hpp 36-65, parsers.hpp 114-163, 165-255,
    variables_map.hpp 29-60, 106-181) *)
Inductive life_call :=
| LDesc (c : desc_call)                             (* make, copy or extend an options_description *)
| LNewPos                                           (* positional_options_description v; *)
| LAddPos (q : nat) (name : str) (max_count : Z)    (* q.add(name, max_count); *)
| LNewParser (args : list str)                      (* command_line_parser v(args); *)
| LOptions (p x : nat)                              (* p.options(x); *)
| LPositional (p q : nat)                           (* p.positional(q); *)
| LSetting (p : nat) (s : parser_setting)           (* p.style(...); ... *)
| LRun (p : nat)                                    (* parsed_options v = p.run(); *)
| LParse (x : nat) (read : list option_description -> outcome parsed_options)
                                                    (* parsed_options v = parse_config_file(..., x), parse_environment(x, ...) *)
| LNewMap                                           (* variables_map v; *)
| LNext (m : nat) (n : option nat)                  (* m.next(&n); m.next(0); *)
| LStore (s m : nat) (utf8 : bool)                  (* store(s, m); *)
| LNotify (m : nat)                                 (* notify(m); *)
| LGet (m : nat) (name : str)                       (* m[name] *)
| LEndDesc (x : nat)                                (* the end of the life of x *)
| LEndPos (q : nat)
| LEndMap (m : nat)
| LEndVariable (a : nat).                           (* ... of the variable to which value(&v) points *)

(** What the program sees: nothing, how a call has ended, what notify has done, or a value.
    (the results of variables_map.cpp 23-143, 166-180, 213-247 and detail/parsers.hpp 84-98) *)
Inductive seen :=
| SEnd (r : outcome unit)
| SNotified (events : list event) (r : outcome unit)
| SValue (v : variable_value).

(** Use a variable: a variable that is not there is a mistake of another kind. (the dereferences, e.g.
    variables_map.cpp 26-28, 174-178, cmdline.cpp 306, 372-376) *)
Definition fetch {A} (l : list (option A)) (i : nat) : outcome A :=
  match nth_error l i with
  | Some (Some x) => Ok x
  | Some None => Undef UB_dangling
  | None => Undef UB_null
  end.

(** The same where an empty cell stands for a construction that has thrown. (detail/parsers.hpp 84-98) *)
Definition made {A} (l : list (option A)) (i : nat) : outcome A :=
  match nth_error l i with Some (Some x) => Ok x | _ => Undef UB_null end.

(** A destructor runs on an object that is there. (the destructors of options_description.hpp 191-288,
    positional_options.hpp 36-65 and variables_map.cpp 188-193 are implicit or empty) *)
Definition alive {A} (l : list (option A)) (i : nat) : outcome unit :=
  match nth_error l i with Some (Some _) => Ok tt | _ => Undef UB_dangling end.

(** Follow a pointer that may be null. (cmdline.cpp 366 [if (m_positional)]) *)
Definition fetch_opt {A} (l : list (option A)) (p : option nat) : outcome (option A) :=
  match p with
  | None => Ok None
  | Some i => let* x := fetch l i in Ok (Some x)
  end.

(** What happens in a [try] block: exceptions are seen, undefined behaviour is not the end of a call.
    (e.g. variables_map.cpp 96-101) *)
Definition caught {A} (r : outcome A) : outcome (option A * outcome unit) :=
  match r with
  | Ok x => Ok (Some x, Ok tt)
  | Throw e => Ok (None, Throw e)
  | Undef u => Undef u
  | NoFuel => NoFuel
  end.

(** options_description.cpp 300-339: calls on descriptions.  That they behave as values is C77; adding a description
    that has options to itself does not return. *)
Definition life_desc (l : list (option options_description)) (c : desc_call) : outcome (list (option options_description)) :=
  match c with
  | DNew caption line_length min_desc => let* v := new_options caption line_length min_desc in Ok (l ++ [Some v])
  | DCopy b => let* v := fetch l b in Ok (l ++ [Some v])
  | DAdd a d => let* v := fetch l a in Ok (set_cell l a (Some (ods_add v d)))
  | DAddGroup a b =>
      let* v := fetch l a in
      let* w := fetch l b in
      if Nat.eqb a b && negb (match ods_options v with [] => true | _ => false end) then NoFuel
      else Ok (set_cell l a (Some (ods_add_group v w)))
  end.

(** variables_map.cpp 166-180 [operator[]] *)
Fixpoint life_index (fuel : nat) (maps : list (option map_object)) (a : nat) (name : str) : outcome variable_value :=
  match fuel with
  | O => NoFuel
  | S fuel' =>
      let* mo := fetch maps a in
      let v := vm_get (mo_map mo) name in
      match mo_next mo with
      | None => Ok v
      | Some b =>
          if any_empty (vv_value v) then life_index fuel' maps b name
          else if vv_defaulted v then
            let* v2 := life_index fuel' maps b name in
            Ok (if negb (any_empty (vv_value v2)) && negb (vv_defaulted v2) then v2 else v)
          else Ok v
      end
  end.

(** detail/parsers.hpp 84-98, cmdline.cpp 207-398 [run].  Simplification: [run] counts as using what it points to, also
    if there are no arguments. *)
Definition life_parse (fuel : nat) (w : life_world) (lp : parser_ptr) : outcome (parsed_options * parser) :=
  match lp_desc lp with
  | None => Undef UB_assert
  | Some x =>
      let* ds := fetch (lw_descs w) x in
      let* q := fetch_opt (lw_positionals w) (lp_pos lp) in
      let p := lp_self lp in
      parser_object_run fuel
        (mk_parser (ps_args p) (ps_style p) (ps_allow_unregistered p) (Some (ods_list ds)) q (ps_additional p) (ps_style_parser p))
  end.

(** detail/value_semantic.hpp 45-46: [*m_store_to = *value]; [notify] writes to a variable that is gone. *)
Definition writes_gone (gone : list nat) (ev : event) : bool :=
  match ev with EvStore a _ => existsb (Nat.eqb a) gone | EvCall _ _ => false end.

(** One call, in a [try] block: the program afterwards and what it has seen.  Each line is the function of the call
    named in [life_call]; a destructor empties the cell. *)
Definition life_step (fuel : nat) (w : life_world) (c : life_call) : outcome (life_world * list seen) :=
  let (ds, qs, ps, ss, ms, gone) := w in
  match c with
  | LDesc c' => let* ds' := life_desc ds c' in Ok (mk_lw ds' qs ps ss ms gone, [])
  | LNewPos => Ok (mk_lw ds (qs ++ [Some positional_empty]) ps ss ms gone, [])
  | LAddPos q name n =>
      let* v := fetch qs q in
      let* r := caught (positional_add v name n) in
      Ok (mk_lw ds (match fst r with Some v' => set_cell qs q (Some v') | None => qs end) ps ss ms gone, [SEnd (snd r)])
  | LNewParser args => Ok (mk_lw ds qs (ps ++ [Some (mk_lp (new_parser args) None None)]) ss ms gone, [])
  | LOptions p x =>
      let* lp := made ps p in
      let* _ := fetch ds x in
      Ok (mk_lw ds qs (set_cell ps p (Some (mk_lp (lp_self lp) (Some x) (lp_pos lp)))) ss ms gone, [])
  | LPositional p q =>
      let* lp := made ps p in
      let* _ := fetch qs q in
      Ok (mk_lw ds qs (set_cell ps p (Some (mk_lp (lp_self lp) (lp_desc lp) (Some q)))) ss ms gone, [])
  | LSetting p s =>
      let* lp := made ps p in
      let* r := caught (parser_apply (lp_self lp) (setting_call s)) in
      Ok (mk_lw ds qs
            (match fst r with Some p' => set_cell ps p (Some (mk_lp p' (lp_desc lp) (lp_pos lp))) | None => ps end)
            ss ms gone, [SEnd (snd r)])
  | LRun p =>
      let* lp := made ps p in
      let* r := caught (life_parse fuel w lp) in
      Ok (match fst r, lp_desc lp with
          | Some (src, p'), Some x =>
              mk_lw ds qs (set_cell ps p (Some (mk_lp p' (lp_desc lp) (lp_pos lp))))
                (ss ++ [Some (mk_ls (pr_options src) x (pr_prefix src))]) ms gone
          | _, _ => mk_lw ds qs (set_cell ps p None) (ss ++ [None]) ms gone
          end, [SEnd (snd r)])
  | LParse x read =>
      let* d := fetch ds x in
      let* r := caught (read (ods_list d)) in
      Ok (mk_lw ds qs ps
            (ss ++ [match fst r with Some src => Some (mk_ls (pr_options src) x (pr_prefix src)) | None => None end])
            ms gone, [SEnd (snd r)])
  | LNewMap => Ok (mk_lw ds qs ps ss (ms ++ [Some (mk_mo vm_new None)]) gone, [])
  | LNext m n =>
      let* mo := fetch ms m in
      let* _ := fetch_opt ms n in
      Ok (mk_lw ds qs ps ss (set_cell ms m (Some (mk_mo (mo_map mo) n))) gone, [])
  | LStore s m utf8 =>
      let* src := made ss s in
      let* mo := fetch ms m in
      let* d := fetch ds (ls_desc src) in
      match store (mk_parsed (ls_options src) (Some (ods_list d)) (ls_prefix src)) (mo_map mo) utf8 with
      | (_, Undef u) => Undef u
      | (_, NoFuel) => NoFuel
      | (vm, r) => Ok (mk_lw ds qs ps ss (set_cell ms m (Some (mk_mo vm (mo_next mo)))) gone, [SEnd r])
      end
  | LNotify m =>
      let* mo := fetch ms m in
      match notify (mo_map mo) with
      | (events, r) =>
          if existsb (writes_gone gone) events then Undef UB_dangling
          else match r with
               | Undef u => Undef u
               | NoFuel => NoFuel
               | _ => Ok (w, [SNotified events r])
               end
      end
  | LGet m name =>
      let* v := life_index fuel ms m name in Ok (w, [SValue v])
  | LEndDesc x => let* _ := alive ds x in Ok (mk_lw (set_cell ds x None) qs ps ss ms gone, [])
  | LEndPos q => let* _ := alive qs q in Ok (mk_lw ds (set_cell qs q None) ps ss ms gone, [])
  | LEndMap m => let* _ := alive ms m in Ok (mk_lw ds qs ps ss (set_cell ms m None) gone, [])
  | LEndVariable a => Ok (mk_lw ds qs ps ss ms (a :: gone), [])
  end.

(** A program: what it has seen, and its end. *)
Fixpoint life_run (fuel : nat) (w : life_world) (cs : list life_call) : list seen * outcome life_world :=
  match cs with
  | [] => ([], Ok w)
  | c :: cs' =>
      match life_step fuel w c with
      | Ok (w1, xs) => let (ys, r) := life_run fuel w1 cs' in (xs ++ ys, r)
      | Throw e => ([], Throw e)
      | Undef u => ([], Undef u)
      | NoFuel => ([], NoFuel)
      end
  end.
