(** Specification of isotropic linear elasticity. *)

From Coq Require Import List Arith Reals.
From Verif Require Import Tensor_Spec.
Import ListNotations.
Local Open Scope R_scope.

Definition tr (E : nat -> nat -> R) : R := sum 3 (fun i => E i i).

(** W = lambda/2 (tr E)^2 + mu E:E *)
Definition isotropicEnergy (lambda mu : R) (E : nat -> nat -> R) : R := lambda / 2 * (tr E) ^ 2 + mu * contract 3 E E.
(** S = lambda tr E I + 2 mu E *)
Definition isotropicStress (lambda mu : R) (E : nat -> nat -> R) (i j : nat) : R := lambda * tr E * identity i j + 2 * mu * E i j.

(** E + t H *)
Definition shift (E H : nat -> nat -> R) (t : R) (i j : nat) : R := E i j + t * H i j.

Definition zero3 (E : nat -> nat -> R) : Prop := forall i j, (i < 3)%nat -> (j < 3)%nat -> E i j = 0.

(** Agreement of 3x3 matrices and of vectors *)
Definition eq3 (A B : nat -> nat -> R) : Prop := forall i j, (i < 3)%nat -> (j < 3)%nat -> A i j = B i j.
Definition eqv (n : nat) (v w : nat -> R) : Prop := forall i, (i < n)%nat -> v i = w i.

(** D is the inverse of A *)
Definition isInverse (n : nat) (A D : nat -> nat -> R) : Prop :=
  forall i j, (i < n)%nat -> (j < n)%nat -> mul n A D i j = identity i j /\ mul n D A i j = identity i j.
