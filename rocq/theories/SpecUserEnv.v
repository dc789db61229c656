(** Vocabulary for C114: name mappers with a state. *)

From Coq Require Import List Ascii String NArith ZArith Bool.
From Verif Require Import Base Errors Spec Values OptDesc Cmdline Parsers Streams SpecConfig UserCode UserEnv.
Import ListNotations.

Section Asked.
Context {St : Type} (f : user_mapper St).

(** Asked about these names one after the other, the mapper gives these answers, and its state goes from [s] to [s']. *)
Inductive asked : St -> list str -> St -> list str -> Prop :=
| ak_nil s : asked s [] s []
| ak_cons s n s1 answer ns s2 answers :
    f s n = (s1, inl answer) -> asked s1 ns s2 answers -> asked s (n :: ns) s2 (answer :: answers).
End Asked.

(** The options for variables with these values, for which the mapper has given these answers. *)
Fixpoint env_named (answers values : list str) : list popt :=
  match answers, values with
  | a :: answers', v :: values' => (if is_empty a then [] else [env_option a v]) ++ env_named answers' values'
  | _, _ => []
  end.

(** The mapper does not change the environment. *)
Definition leaves_alone {St} (view : St -> environment) (f : user_mapper St) : Prop :=
  forall s n, view (fst (f s n)) = view s.

(** The array of the environment with these variables, as the operating system provides it; it may be followed by anything. *)
Definition env_array (vars : list (str * str)) (beyond : list (option str)) : environment :=
  Some (map Some (environ vars) ++ None :: beyond).

(** The environment without the first [k] places of its array. *)
Definition env_skip (k : nat) (env : environment) : environment :=
  match env with Some a => Some (skipn k a) | None => None end.
