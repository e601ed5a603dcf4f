(** Specification of rigid motions of the nodes of an element. *)

From Coq Require Import Reals Arith.
From Verif Require Import Tensor_Spec Conversions_Spec.
Local Open Scope R_scope.

Definition determinantOf (d : nat) (Q : nat -> nat -> R) : R :=
  match d with
  | 0 => 1
  | 1 => Q 0%nat 0%nat
  | 2 => Q 0%nat 0%nat * Q 1%nat 1%nat - Q 0%nat 1%nat * Q 1%nat 0%nat
  | _ => Q 0%nat 0%nat * (Q 1%nat 1%nat * Q 2%nat 2%nat - Q 1%nat 2%nat * Q 2%nat 1%nat)
       - Q 0%nat 1%nat * (Q 1%nat 0%nat * Q 2%nat 2%nat - Q 1%nat 2%nat * Q 2%nat 0%nat)
       + Q 0%nat 2%nat * (Q 1%nat 0%nat * Q 2%nat 1%nat - Q 1%nat 1%nat * Q 2%nat 0%nat)
  end.

Definition rotation (d : nat) (Q : nat -> nat -> R) : Prop :=
  eqm d (mul d (transpose Q) Q) identity /\ eqm d (mul d Q (transpose Q)) identity /\ determinantOf d Q = 1.

(** The place of direction a of node i with initial place X under the displacements u (entry d * i + a) *)
Definition placeOf (d : nat) (X : nat -> nat -> R) (u : nat -> R) (i a : nat) : R := X i a + u (d * i + a)%nat.

(** The displacements after the element, already displaced by u, has been turned by Q and then shifted by c *)
Definition moved (d : nat) (X Q : nat -> nat -> R) (c : nat -> R) (u : nat -> R) (k : nat) : R :=
  sum d (fun b => Q (k mod d)%nat b * placeOf d X u (k / d) b) + c (k mod d)%nat - X (k / d)%nat (k mod d)%nat.

(** Forces at the nodes without resultant and without moment *)
Definition selfEquilibrated (d n : nat) (X : nat -> nat -> R) (u f : nat -> R) : Prop :=
  (forall a, (a < d)%nat -> sum n (fun i => f (d * i + a)%nat) = 0) /\
  (forall a b, (a < d)%nat -> (b < d)%nat ->
     sum n (fun i => placeOf d X u i a * f (d * i + b)%nat - placeOf d X u i b * f (d * i + a)%nat) = 0).
