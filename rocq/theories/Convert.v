(** Character conversion: src/convert.cpp, and the UTF-8 facet of Boost.Detail it
    uses (boost/detail/utf8_codecvt_facet.ipp, included by
    src/utf8_codecvt_facet.cpp, not in /repo: trusted transcription). *)

From Coq Require Import List Ascii String NArith ZArith Bool.
From Verif Require Import Base Errors.
Import ListNotations.

Set Implicit Arguments.

(** [std::codecvt_base::result]; [noconv] is treated like [ok] by the code. (used in convert.cpp 65-80) *)
Inductive cvt_result := cvt_ok | cvt_partial | cvt_error.

(** A call of [codecvt::in] or [codecvt::out]: shift state, source, capacity of the
    destination; returns the result, the new state, how much of the source was
    consumed and what was written. (convert.cpp 65-66) *)
Definition cvt (State From To : Type) :=
  State -> list From -> nat -> cvt_result * State * nat * list To.

(** convert.cpp 68-80 *)
Definition conversion_failed : exn :=
  plain_exn (std_logic_error $"character conversion failed").

(** convert.cpp 56-82: the loop of [convert], with the destination buffer size as
    a parameter; one unit of fuel per iteration. *)
Fixpoint convert_loop {State From To} (fuel : nat) (fun_ : cvt State From To)
    (bufsize : nat) (state : State) (from : list From) : outcome (list To) :=
  match from with
  | [] => Ok []
  | _ =>
      match fuel with
      | O => NoFuel
      | S fuel' =>
          match fun_ state from bufsize with
          | (cvt_error, _, _, _) => Throw conversion_failed
          | (_, state', n, out) =>
              if is_empty out then Throw conversion_failed
              else
                let* rest := convert_loop fuel' fun_ bufsize state' (skipn n from) in
                Ok (out ++ rest)
          end
      end
  end.

(** convert.cpp 42-85 [detail::convert]: buffer of 32, initial state.  A facet that
    consumes at least one character per call needs no more than [length s] calls. *)
Definition convert {State From To} (fun_ : cvt State From To) (init : State)
    (s : list From) : outcome (list To) :=
  convert_loop (List.length s) fun_ 32 init s.

(** ** The UTF-8 facet *)

(** [wchar_t]: a 32-bit code unit, here a natural number below 2^31. (the compiler, not in /repo) *)
Definition wchar := N.
(** [std::wstring], not in /repo *)
Definition wstr := list wchar.

(** conversion to [char], not in /repo *)
Definition byte_of (n : N) : char := ascii_of_N n.

(** [get_cont_octet_out_count] for 4-byte wchar_t (boost/detail/utf8_codecvt_facet.ipp, not in /repo) *)
Definition cont_octet_out_count (w : wchar) : nat :=
  if (w <? 128)%N then 0
  else if (w <? 2048)%N then 1
  else if (w <? 65536)%N then 2
  else if (w <? 2097152)%N then 3
  else if (w <? 67108864)%N then 4
  else 5.

(** [octet1_modifier_table] (boost/detail/utf8_codecvt_facet.ipp, not in /repo) *)
Definition octet1_modifier (count : nat) : N :=
  match count with
  | 0%nat => 0 | 1%nat => 192 | 2%nat => 224 | 3%nat => 240 | 4%nat => 248 | _ => 252
  end%N.

(** The [i]-th continuation octet, [k = shift_exponent / 6].
    (boost/detail/utf8_codecvt_facet.ipp, not in /repo) *)
Definition cont_octet (w : wchar) (k : nat) : char :=
  byte_of (128 + (w / 2 ^ (6 * N.of_nat k)) mod 64)%N.

(** The continuation octets from [k - 1] down to 0. (boost/detail/utf8_codecvt_facet.ipp, not in /repo) *)
Fixpoint cont_octets (w : wchar) (k : nat) : str :=
  match k with
  | O => []
  | S k' => cont_octet w k' :: cont_octets w k'
  end.

(** All octets [do_out] writes for one character. (boost/detail/utf8_codecvt_facet.ipp, not in /repo) *)
Definition utf8_encode (w : wchar) : str :=
  let c := cont_octet_out_count w in
  byte_of (octet1_modifier c + (w / 2 ^ (6 * N.of_nat c)) mod 256)%N :: cont_octets w c.

(** [do_out]: characters are encoded while the destination is not full; one that
    does not fit is taken back. (boost/detail/utf8_codecvt_facet.ipp, not in /repo) *)
Fixpoint utf8_out_loop (from : wstr) (room : nat) : cvt_result * nat * str :=
  match from with
  | [] => (cvt_ok, 0, [])
  | w :: from' =>
      match room with
      | O => (cvt_partial, 0, [])
      | _ =>
          let e := utf8_encode w in
          if (List.length e <=? room)%nat then
            match utf8_out_loop from' (room - List.length e) with
            | (r, n, out) => (r, S n, e ++ out)
            end
          else (cvt_partial, 0, [])
      end
  end.
(** boost/detail/utf8_codecvt_facet.ipp, not in /repo *)
Definition utf8_out : cvt unit wchar char := fun st from room =>
  match utf8_out_loop from room with (r, n, out) => (r, tt, n, out) end.

(** [invalid_leading_octet], [invalid_continuing_octet], [get_cont_octet_count]
    (boost/detail/utf8_codecvt_facet.ipp, not in /repo) *)
Definition invalid_leading (c : char) : bool :=
  let n := N_of_ascii c in ((127 <? n)%N && (n <? 192)%N) || (253 <? n)%N.
(** boost/detail/utf8_codecvt_facet.ipp, not in /repo *)
Definition invalid_continuing (c : char) : bool :=
  let n := N_of_ascii c in (n <? 128)%N || (191 <? n)%N.
(** boost/detail/utf8_codecvt_facet.ipp, not in /repo *)
Definition cont_octet_count (c : char) : nat :=
  let n := N_of_ascii c in
  if (n <=? 127)%N then 0
  else if (192 <=? n)%N && (n <=? 223)%N then 1
  else if (224 <=? n)%N && (n <=? 239)%N then 2
  else if (240 <=? n)%N && (n <=? 247)%N then 3
  else if (248 <=? n)%N && (n <=? 251)%N then 4
  else 5.

(** The inner loop of [do_in]: read [k] continuation octets.  [None]: invalid
    octet; [Some None]: the source ended; otherwise the code unit and the number of
    octets read. (boost/detail/utf8_codecvt_facet.ipp, not in /repo) *)
Fixpoint read_cont (k : nat) (acc : N) (from : str) : option (option N) :=
  match k with
  | O => Some (Some acc)
  | S k' =>
      match from with
      | [] => Some None
      | c :: from' =>
          if invalid_continuing c then None
          else read_cont k' (acc * 64 + (N_of_ascii c - 128))%N from'
      end
  end.

(** [do_in].  The recursion goes over the source; [skip] counts the continuation
    octets of a character already decoded. (boost/detail/utf8_codecvt_facet.ipp, not in /repo) *)
Fixpoint utf8_in_loop (from : str) (skip room : nat) : cvt_result * nat * wstr :=
  match from with
  | [] => (cvt_ok, 0, [])
  | c :: from' =>
      match skip with
      | S k => match utf8_in_loop from' k room with (r, n, out) => (r, S n, out) end
      | O =>
          match room with
          | O => (cvt_partial, 0, [])
          | S room' =>
              if invalid_leading c then (cvt_error, 0, [])
              else
                let k := cont_octet_count c in
                match read_cont k (N_of_ascii c - octet1_modifier k)%N from' with
                | None => (cvt_error, 0, [])
                | Some None => (cvt_partial, 0, [])
                | Some (Some w) =>
                    match utf8_in_loop from' k room' with
                    | (r, n, out) => (r, S n, w :: out)
                    end
                end
          end
      end
  end.
(** boost/detail/utf8_codecvt_facet.ipp, not in /repo *)
Definition utf8_in : cvt unit char wchar := fun st from room =>
  match utf8_in_loop from 0 room with (r, n, out) => (r, tt, n, out) end.

(** [std::codecvt<wchar_t, char, mbstate_t>]: its [in] and its [out], and the initial shift state [mbstate_t()].
    (used in convert.cpp 50, 91-111) *)
Record codecvt := mk_codecvt {
  cv_state : Type;
  cv_init : cv_state;
  cv_in : cvt cv_state char wchar;
  cv_out : cvt cv_state wchar char }.

(** convert.cpp 91-100 [from_8_bit] *)
Definition from_8_bit (s : str) (f : codecvt) : outcome wstr := convert (cv_in f) (cv_init f) s.
(** convert.cpp 102-111 [to_8_bit] *)
Definition to_8_bit (s : wstr) (f : codecvt) : outcome str := convert (cv_out f) (cv_init f) s.

(** convert.cpp 114-117 [utf8_facet] *)
Definition utf8_facet : codecvt := mk_codecvt tt utf8_in utf8_out.
(** convert.cpp 119-129 [from_utf8], [to_utf8] *)
Definition from_utf8 (s : str) : outcome wstr := from_8_bit s utf8_facet.
Definition to_utf8 (w : wstr) : outcome str := to_8_bit w utf8_facet.

(** convert.cpp 131-145 [from_local_8_bit], [to_local_8_bit]; [global] is the facet of the global locale, [locale()]. *)
Definition from_local_8_bit (global : codecvt) (s : str) : outcome wstr := from_8_bit s global.
Definition to_local_8_bit (global : codecvt) (w : wstr) : outcome str := to_8_bit w global.
