(** Base vocabulary of the model: characters, strings, the [std::string]
    operations the library uses, ordered maps and sets, and outcomes.

    Nothing in this file models a function of /repo; it models the parts of the
    C++ standard library that /repo relies on (trusted base, see DESIGN.md). *)

From Coq Require Import List Ascii String NArith ZArith Bool Arith.
Import ListNotations.

Set Implicit Arguments.

(** ** Characters and strings *)

(** [char]: an 8-bit byte.  [std::string]: a sequence of bytes. *)
Notation char := ascii (only parsing).
Notation str := (list ascii) (only parsing).

(** String literals. *)
Definition lit (s : string) : str := list_ascii_of_string s.
Notation "$ s" := (lit s) (at level 1, s at level 0, format "$ s").

(** Character literals used by the library. *)
Definition c_dash : char := "-"%char.
Definition c_slash : char := "/"%char.
Definition c_eq : char := "="%char.
Definition c_star : char := "*"%char.
Definition c_comma : char := ","%char.
Definition c_hash : char := "#"%char.
Definition c_dot : char := "."%char.
Definition c_lbr : char := "["%char.
Definition c_rbr : char := "]"%char.
Definition c_space : char := " "%char.
Definition c_percent : char := "%"%char.
Definition c_tab : char := ascii_of_nat 9.
Definition c_nl : char := ascii_of_nat 10.
Definition c_cr : char := ascii_of_nat 13.
Definition c_bs : char := "\"%char.
Definition c_dq : char := ascii_of_nat 34.
Definition c_sq : char := "'"%char.

Definition char_eqb (a b : char) : bool := Ascii.eqb a b.
Global Arguments char_eqb : simpl never.

(** [operator==] on strings. *)
Fixpoint str_eqb (a b : str) : bool :=
  match a, b with
  | [], [] => true
  | x :: a', y :: b' => char_eqb x y && str_eqb a' b'
  | _, _ => false
  end.

(** [std::string::empty] *)
Definition is_empty {A} (l : list A) : bool :=
  match l with [] => true | _ => false end.

(** Three-way lexicographic comparison, as [std::char_traits<char>] orders
    characters by their value as [unsigned char]. *)
Fixpoint str_cmp (a b : str) : comparison :=
  match a, b with
  | [], [] => Eq
  | [], _ => Lt
  | _, [] => Gt
  | x :: a', y :: b' =>
      match N.compare (N_of_ascii x) (N_of_ascii y) with
      | Eq => str_cmp a' b'
      | c => c
      end
  end.

Definition str_ltb (a b : str) : bool :=
  match str_cmp a b with Lt => true | _ => false end.

(** [s.find(c)] for a character; [None] is [npos]. *)
Fixpoint find_char (c : char) (s : str) : option nat :=
  match s with
  | [] => None
  | x :: s' => if char_eqb x c then Some 0
               else option_map S (find_char c s')
  end.

(** Does [s] start with [p]?  (helper for [find_sub]) *)
Fixpoint starts_with (p s : str) : bool :=
  match p, s with
  | [], _ => true
  | _, [] => false
  | x :: p', y :: s' => char_eqb x y && starts_with p' s'
  end.

(** [s.find(p)] for a string pattern: first position at which [p] occurs. *)
Fixpoint find_sub (p s : str) : option nat :=
  if starts_with p s then Some 0
  else match s with
       | [] => None
       | _ :: s' => option_map S (find_sub p s')
       end.

(** The idiom [s.find(p) == 0]. *)
Definition found_at_0 (p s : str) : bool :=
  match find_sub p s with Some 0 => true | _ => false end.

(** [s.substr(pos)] and [s.substr(pos, n)] for [pos <= s.size()]. *)
Definition substr (s : str) (pos : nat) : str := skipn pos s.
Definition substr_n (s : str) (pos n : nat) : str := firstn n (skipn pos s).

Definition char_in (c : char) (set : str) : bool := existsb (char_eqb c) set.

(** [s.find_first_not_of(set)] *)
Fixpoint find_first_not_of (set s : str) : option nat :=
  match s with
  | [] => None
  | x :: s' => if char_in x set then option_map S (find_first_not_of set s')
               else Some 0
  end.

(** [s.find_last_not_of(set)] *)
Fixpoint find_last_not_of (set s : str) : option nat :=
  match s with
  | [] => None
  | x :: s' => match find_last_not_of set s' with
               | Some n => Some (S n)
               | None => if char_in x set then None else Some 0
               end
  end.

(** Pieces returned by the loop [while (std::getline(stream, piece, delim))]
    over a stream holding [s]: a final empty piece is not returned. [cur] is the
    piece being read, reversed. *)
Fixpoint getline_aux (delim : char) (cur : str) (s : str) : list str :=
  match s with
  | [] => match cur with [] => [] | _ => [rev cur] end
  | x :: s' => if char_eqb x delim then rev cur :: getline_aux delim [] s'
               else getline_aux delim (x :: cur) s'
  end.
Definition getline_all (delim : char) (s : str) : list str := getline_aux delim [] s.

(** ** Outcomes *)

(** Kinds of undefined behaviour / contract violation the model distinguishes. *)
Inductive ub :=
| UB_assert          (* a failed assert() *)
| UB_index           (* v[i] out of range, front()/back() of an empty sequence *)
| UB_rbegin          (* dereferencing begin()/rbegin() of an empty string *)
| UB_null            (* dereferencing a null pointer *)
| UB_ctype           (* tolower/isspace of a negative char *)
| UB_overflow        (* signed integer overflow *)
| UB_iterator        (* use of an iterator whose element has been erased *)
| UB_dangling.       (* use of an object after its destruction *)

(** ** Ordered maps and sets with string keys ([std::map], [std::set]) *)

(** Kept in strictly increasing key order, like iteration over [std::map]. *)
Definition smap (V : Type) := list (str * V).

Fixpoint sm_find {V} (k : str) (m : smap V) : option V :=
  match m with
  | [] => None
  | (k', v) :: m' => if str_eqb k k' then Some v else sm_find k m'
  end.

(** [m[k] = v] *)
Fixpoint sm_set {V} (k : str) (v : V) (m : smap V) : smap V :=
  match m with
  | [] => [(k, v)]
  | (k', v') :: m' =>
      match str_cmp k k' with
      | Lt => (k, v) :: m
      | Eq => (k, v) :: m'
      | Gt => (k', v') :: sm_set k v m'
      end
  end.

(** [m.count(k) != 0] *)
Definition sm_mem {V} (k : str) (m : smap V) : bool :=
  match sm_find k m with Some _ => true | None => false end.

Notation sset := (list (list ascii)) (only parsing).

(** [s.insert(k)] *)
Fixpoint ss_insert (k : str) (s : sset) : sset :=
  match s with
  | [] => [k]
  | k' :: s' =>
      match str_cmp k k' with
      | Lt => k :: s
      | Eq => s
      | Gt => k' :: ss_insert k s'
      end
  end.

Definition ss_mem (k : str) (s : sset) : bool := existsb (str_eqb k) s.

(** Insert a range. *)
Definition ss_insert_all (ks : list str) (s : sset) : sset :=
  fold_left (fun s k => ss_insert k s) ks s.

(** [s.lower_bound(k)], as the pair (elements before it in reverse order,
    elements from it on): the iterator points at the head of the second
    component, [--it] moves to the head of the first. *)
Fixpoint ss_lower_bound_aux (before : list str) (k : str) (s : sset) : list str * list str :=
  match s with
  | [] => (before, [])
  | k' :: s' => if str_ltb k' k then ss_lower_bound_aux (k' :: before) k s'
                else (before, s)
  end.
Definition ss_lower_bound (k : str) (s : sset) := ss_lower_bound_aux [] k s.

(** ** Integers *)
Definition UINT_MAX : Z := 4294967295.
Definition INT_MAX : Z := 2147483647.
Definition INT_MIN : Z := -2147483648.

(** Conversion of an [unsigned] value to [int] (two's complement). *)
Definition to_int (z : Z) : Z :=
  let r := Z.modulo z 4294967296 in
  if Z.leb r INT_MAX then r else Z.sub r 4294967296.
