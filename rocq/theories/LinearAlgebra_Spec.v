(** Specification: linear combinations, spans, orthonormality, elimination of unknowns. *)

From Coq Require Import List Arith Reals.
Import ListNotations.
Local Open Scope R_scope.

Section Vectors.
Variable m : nat.                            (** vectors with m components *)

Definition veq (v w : nat -> R) : Prop := forall i, (i < m)%nat -> v i = w i.

(** sum over k of c k * (v_k)_i *)
Fixpoint combine (c : nat -> R) (vs : list (nat -> R)) (i : nat) : R :=
  match vs with [] => 0 | v :: vs => c 0%nat * v i + combine (fun k => c (S k)) vs i end.

Definition inSpan (vs : list (nat -> R)) (v : nat -> R) : Prop := exists c, veq v (combine c vs).

Definition independent (vs : list (nat -> R)) : Prop :=
  forall c, veq (combine c vs) (fun _ => 0) -> forall k, (k < length vs)%nat -> c k = 0.
End Vectors.

(** sum over i < n of f i *)
Fixpoint sumTo (n : nat) (f : nat -> R) : R := match n with O => 0 | S n => sumTo n f + f n end.

(** Row i of E x *)
Definition row (n : nat) (E : nat -> nat -> R) (x : nat -> R) (i : nat) : R := sumTo n (fun j => E i j * x j).
