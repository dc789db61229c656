(** Vocabulary for iterators. *)

From Coq Require Import List Ascii String NArith ZArith Bool.
From Verif Require Import Base Errors Spec Values OptDesc Positional Cmdline Parsers ConfigFile Streams SpecConfig Iterators.
Import ListNotations.

(** The iterator is at the end. *)
Definition at_end {D V} (it : iter D V) : Prop := i_eof it = true.

(** The calls of [get] that begin with these members and this value, one after the other, all of which return. *)
Inductive successive {W D V} (get : D -> V -> W -> got W D V) : D -> V -> W -> list (got W D V) -> W -> Prop :=
| su_nil d v w : successive get d v w [] w
| su_cons d v w g gs w' :
    get d v w = g -> g_result g = Ok tt -> successive get (g_data g) (g_value g) (g_world g) gs w' ->
    successive get d v w (g :: gs) w'.

(** The program does not assign to the iterator [i]. *)
Definition leaves_alone {D} (i : nat) (ops : list (it_op D)) : Prop :=
  Forall (fun o => match o with OAssign k _ => k <> i | _ => True end) ops.

(** ** Iterators over the environment *)

(** How often each iterator has been incremented since its construction or that of the iterator it is a copy of; those constructed by
    default have no number.  The program must not increment the latter, must construct the others at the beginning of the
    environment, and must use only iterators there are. *)
Definition tally (o : it_op (option nat)) (ps : list (option nat)) : option (list (option nat)) :=
  match o with
  | OConstruct d => match d with Some 0 => Some (ps ++ [Some 0]) | _ => None end
  | ODefault => Some (ps ++ [None])
  | OCopy i => match nth_error ps i with Some p => Some (ps ++ [p]) | None => None end
  | OAssign i j => match nth_error ps i, nth_error ps j with
                   | Some _, Some p => Some (firstn i ps ++ p :: skipn (S i) ps)
                   | _, _ => None
                   end
  | OIncrement i => match nth_error ps i with
                    | Some (Some k) => Some (firstn i ps ++ Some (S k) :: skipn (S i) ps)
                    | _ => None
                    end
  end.
Fixpoint tallies (ops : list (it_op (option nat))) (ps : list (option nat)) : option (list (option nat)) :=
  match ops with
  | [] => Some ps
  | o :: ops' => match tally o ps with Some ps' => tallies ops' ps' | None => None end
  end.

(** After so many increments an iterator stands on that variable; behind the last one it is at the end, and still shows the last
    variable. *)
Definition stands (vars : list (str * str)) (it : iter (option nat) (str * str)) (p : option nat) : Prop :=
  match p with
  | None => at_end it
  | Some k => match nth_error vars k with
              | Some nv => ~ at_end it /\ dereference it = nv
              | None => at_end it /\ dereference it = last vars ([], [])
              end
  end.

(** The array of these variables; what is behind the terminating null pointer does not matter. *)
Definition env_array (vars : list (str * str)) (behind : list (option str)) : environment :=
  Some (map Some (environ vars) ++ None :: behind).

(** ** Iterators over a config file *)

(** What the entries of a file give, [sec] being the current section, to a reader that goes on behind the lines it does not
    understand: an option for each assignment, and an exception for each unknown name and each line that says nothing sensible. *)
Inductive recovers (ds : list option_description) (allow : bool) : str -> list entry -> list (popt + exn) -> Prop :=
| rc_end sec : recovers ds allow sec [] []
| rc_nothing sec es rs : recovers ds allow sec es rs -> recovers ds allow sec (Nothing :: es) rs
| rc_section s sec' sec es rs :
    section_name s sec' -> recovers ds allow sec' es rs -> recovers ds allow sec (Section_ s :: es) rs
| rc_assign sec n v es rs :
    accepts ds (sec ++ n) -> recovers ds allow sec es rs ->
    recovers ds allow sec (Assign n v :: es) (inl (config_option (sec ++ n) v false) :: rs)
| rc_unregistered sec n v es rs :
    ~ accepts ds (sec ++ n) -> allow = true -> recovers ds allow sec es rs ->
    recovers ds allow sec (Assign n v :: es) (inl (config_option (sec ++ n) v true) :: rs)
| rc_unknown sec n v es rs :
    ~ accepts ds (sec ++ n) -> allow = false -> recovers ds allow sec es rs ->
    recovers ds allow sec (Assign n v :: es) (inr (mk_unknown_option (sec ++ n)) :: rs)
| rc_junk sec s es rs :
    recovers ds allow sec es rs ->
    recovers ds allow sec (Junk s :: es) (inr (mk_config_syntax s unrecognized_line) :: rs).

(** The names and wildcards that a parser for the options [ds] gets. *)
Definition parser_for (ds : list option_description) (allowed prefixes : sset) : Prop :=
  (let* al := cf_allowed ds [] in let* P := cf_add_options [] al in Ok (al, P)) = Ok (allowed, prefixes).
