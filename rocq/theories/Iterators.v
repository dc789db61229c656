(** Iterators as objects: [eof_iterator] with an arbitrary derived class, and the two derived classes of the library.  Iterators
    can be copied, assigned, incremented and compared in any order; they share what they read from (a stream). *)

From Coq Require Import List Ascii String NArith ZArith Bool.
From Verif Require Import Base Errors Values OptDesc Positional Cmdline Parsers ConfigFile Streams.
Import ListNotations.

Set Implicit Arguments.

Section Iterators.

(** What the iterators share, the members of the derived class, [ValueType] (eof_iterator.hpp 44-46) *)
Variables (W D V : Type).

(** eof_iterator.hpp 94-95 [m_at_eof], [m_value], and the members of the derived class *)
Record iter := mk_iter { i_eof : bool; i_value : V; i_data : D }.

(** What a call of [get] of the derived class did: whether it called [found_eof], what it left in [value()] and its members, also
    if it throws.  (eof_iterator.hpp 34-40: what the derived class should do, and 55-66: what it can do) *)
Record got := mk_got { g_eof : bool; g_value : V; g_data : D; g_world : W; g_result : outcome unit }.
Variable get : D -> V -> W -> got.

(** [ValueType()], and the members after the default constructor of the derived class *)
Variables (v0 : V) (d0 : D).

(** eof_iterator.hpp 76-79 [increment], with 63-66 [found_eof] *)
Definition increment (it : iter) (w : W) : iter * W * outcome unit :=
  let g := get (i_data it) (i_value it) w in
  (mk_iter (i_eof it || g_eof g) (g_value g) (g_data g), g_world g, g_result g).

(** eof_iterator.hpp 81-87 [equal] *)
Definition equal (a b : iter) : bool := i_eof a && i_eof b.

(** eof_iterator.hpp 89-92 [dereference] *)
Definition dereference (it : iter) : V := i_value it.

(** eof_iterator.hpp 48-50 and a constructor of the derived class that calls [get] (environment_iterator.hpp 22-26,
    detail/config_file.hpp 149-158) *)
Definition construct (d : D) (w : W) : iter * W * outcome unit := increment (mk_iter false v0 d) w.

(** eof_iterator.hpp 48-50 and a default constructor that calls [found_eof] (environment_iterator.hpp 28-31,
    detail/config_file.hpp 121-124) *)
Definition default_iter : iter := mk_iter true v0 d0.

(** What a program can do with iterators; they are numbered in the order of their construction. *)
Inductive it_op := OConstruct (d : D) | ODefault | OCopy (i : nat) | OAssign (i j : nat) | OIncrement (i : nat).

(** Replace the iterator [i] (C++ semantics; no code of the library). *)
Fixpoint put (its : list iter) (i : nat) (it : iter) : list iter :=
  match its, i with
  | [], _ => []
  | _ :: its', O => it :: its'
  | x :: its', S i' => x :: put its' i' it
  end.

(** One of them; the copy constructor and assignment are the implicit ones (eof_iterator.hpp 44-96). *)
Definition perform (o : it_op) (its : list iter) (w : W) : list iter * W * outcome unit :=
  match o with
  | OConstruct d =>
      let '(it, w', r) := construct d w in
      (match r with Ok _ => its ++ [it] | _ => its end, w', r)
  | ODefault => (its ++ [default_iter], w, Ok tt)
  | OCopy i => match nth_error its i with
               | Some it => (its ++ [it], w, Ok tt)
               | None => (its, w, Undef UB_dangling)
               end
  | OAssign i j => match nth_error its i, nth_error its j with
                   | Some _, Some it => (put its i it, w, Ok tt)
                   | _, _ => (its, w, Undef UB_dangling)
                   end
  | OIncrement i => match nth_error its i with
                    | Some it => let '(it', w', r) := increment it w in (put its i it', w', r)
                    | None => (its, w, Undef UB_dangling)
                    end
  end.

(** A program that catches all exceptions. *)
Fixpoint run_its (ops : list it_op) (its : list iter) (w : W) : list iter * W * outcome unit :=
  match ops with
  | [] => (its, w, Ok tt)
  | o :: ops' =>
      let '(its', w', r) := perform o its w in
      match r with
      | Ok _ | Throw _ => run_its ops' its' w'
      | _ => (its', w', r)
      end
  end.

(** [std::copy(first, last, back_inserter(...))] (not in /repo; used in parsers.cpp 124-127) *)
Fixpoint copy_range (fuel : nat) (first last : iter) (w : W) : W * outcome (list V) :=
  match fuel with
  | O => (w, NoFuel)
  | S fuel' =>
      if equal first last then (w, Ok [])
      else
        let '(it', w', r) := increment first w in
        match r with
        | Ok _ => let (w'', rest) := copy_range fuel' it' last w' in
                  (w'', let* vs := rest in Ok (dereference first :: vs))
        | Throw e => (w', Throw e)
        | Undef u => (w', Undef u)
        | NoFuel => (w', NoFuel)
        end
  end.

(** A program that increments the iterator until it is at the end, and notes the new value or the exception after each increment. *)
Fixpoint drain (fuel : nat) (it : iter) (w : W) : outcome (list (V + exn)) :=
  match fuel with
  | O => NoFuel
  | S fuel' =>
      if i_eof it then Ok []
      else
        let '(it', w', r) := increment it w in
        match r with
        | Ok _ => if i_eof it' then Ok [] else let* rs := drain fuel' it' w' in Ok (inl (dereference it') :: rs)
        | Throw e => let* rs := drain fuel' it' w' in Ok (inr e :: rs)
        | Undef u => Undef u
        | NoFuel => NoFuel
        end
  end.

End Iterators.

Arguments OConstruct {D}.
Arguments ODefault {D}.
Arguments OCopy {D}.
Arguments OAssign {D}.
Arguments OIncrement {D}.

(** environment_iterator.hpp 33-46 [get]; the member [m_environment] (line 50) is the place in the array, [None] as the default
    constructor leaves it, pointing nowhere. *)
Definition env_iget (env : environment) (d : option nat) (v : str * str) (w : unit) : got unit (option nat) (str * str) :=
  match d with
  | None => mk_got false v d w (Undef UB_dangling)
  | Some i =>
      match env_get env i with
      | Ok None => mk_got true v d w (Ok tt)
      | Ok (Some p) => mk_got false p (Some (S i)) w (Ok tt)
      | Throw e => mk_got false v d w (Throw e)
      | Undef u => mk_got false v d w (Undef u)
      | NoFuel => mk_got false v d w NoFuel
      end
  end.

(** config_file.cpp 83-129 [get] as in Streams.v, with what remains of the iterator if it throws; the member that changes is
    [m_prefix]. *)
Fixpoint config_iget (fuel : nat) (allowed prefixes : sset) (allow_unregistered : bool) (prefix : str) (v : popt) (s : stream ascii)
    : got (stream ascii) str popt :=
  match fuel with
  | O => mk_got false v prefix s NoFuel
  | S fuel' =>
      match std_getline (fun x => char_eqb x c_nl) s with
      | (None, s') => mk_got true v prefix s' (Ok tt)
      | (Some l, s') =>
          match cf_line allowed prefixes allow_unregistered prefix l with
          | Ok (Skip p) => config_iget fuel' allowed prefixes allow_unregistered p v s'
          | Ok (Found n x b) => mk_got false (assigned v n x b) prefix s' (Ok tt)
          | Throw e => mk_got false v prefix s' (Throw e)
          | Undef u => mk_got false v prefix s' (Undef u)
          | NoFuel => mk_got false v prefix s' NoFuel
          end
      end
  end.
Definition config_get (allowed prefixes : sset) (allow_unregistered : bool) (prefix : str) (v : popt) (s : stream ascii)
    : got (stream ascii) str popt :=
  config_iget (S (S (List.length (st_rest s)))) allowed prefixes allow_unregistered prefix v s.
