(** Proving that a computation ends well without writing its result down. *)

From Coq Require Import List Ascii String NArith ZArith Bool.
From Verif Require Import Base Errors.

Lemma ok_ex {A} (x : outcome A) : match x with Ok _ => true | _ => false end = true -> exists a, x = Ok a.
Proof. destruct x; try discriminate; eauto. Qed.

Lemma ok_with {A} (x : outcome A) (P : A -> Prop) : match x with Ok a => P a | _ => False end -> exists a, x = Ok a /\ P a.
Proof. destruct x; try contradiction; eauto. Qed.

Lemma throw_ex {A} (x : outcome A) : match x with Throw _ => true | _ => false end = true -> exists e, x = Throw e.
Proof. destruct x; try discriminate; eauto. Qed.

Lemma done_ok {S} (x : S * outcome unit) : match snd x with Ok _ => true | _ => false end = true -> x = (fst x, Ok tt).
Proof. destruct x as [s [[]| | |]]; try discriminate; reflexivity. Qed.

Lemma some_ex {A} (x : option A) : match x with Some _ => true | None => false end = true -> x <> None.
Proof. destruct x; discriminate. Qed.

Lemma none_ex {A} (x : option A) : match x with Some _ => true | None => false end = false -> x = None.
Proof. destruct x; [discriminate|reflexivity]. Qed.

Lemma throw_with {A} (x : outcome A) (P : exn -> Prop) : match x with Throw e => P e | _ => False end -> exists e, x = Throw e /\ P e.
Proof. destruct x; try contradiction; eauto. Qed.

Ltac compute_ex :=
  match goal with
  | |- exists a, ?x = Ok a => apply ok_ex; vm_compute; reflexivity
  | |- exists e, ?x = Throw e => apply throw_ex; vm_compute; reflexivity
  | |- exists a, ?x = Ok a /\ _ => apply ok_with; vm_compute; repeat split; reflexivity
  | |- exists e, ?x = Throw e /\ _ => apply throw_with; vm_compute; repeat split; reflexivity
  end.

(** One computation ends well and the other does not. *)
Ltac ok_throw :=
  match goal with
  | |- exists r e, ?x = Ok r /\ ?y = Throw e =>
      let H := fresh in let K := fresh in
      assert (H : exists r, x = Ok r) by compute_ex; assert (K : exists e, y = Throw e) by compute_ex;
      destruct H as [r H]; destruct K as [e K]; exists r, e; split; assumption
  end.
