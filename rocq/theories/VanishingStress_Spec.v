(** Specification: plane stress elasticity. *)

From Coq Require Import List Arith Reals.
From Verif Require Import Tensor_Spec SVK_Spec.
Import ListNotations.
Local Open Scope R_scope.

(** Young's modulus and Poisson's ratio of Lame's parameters *)
Definition youngsModulus (lambda mu : R) : R := mu * (3 * lambda + 2 * mu) / (lambda + mu).
Definition poissonsRatio (lambda mu : R) : R := lambda / (2 * (lambda + mu)).

(** E / (1 - nu^2) [1 nu 0; nu 1 0; 0 0 (1 - nu)/2] *)
Definition planeStressMatrix (E nu : R) (i j : nat) : R :=
  E / (1 - nu ^ 2) *
  match i, j with
  | 0%nat, 0%nat => 1 | 0%nat, 1%nat => nu | 1%nat, 0%nat => nu | 1%nat, 1%nat => 1 | 2%nat, 2%nat => (1 - nu) / 2 | _, _ => 0
  end.

(** A function that inverts every invertible matrix *)
Definition inverts (inverse : nat -> (nat -> nat -> R) -> nat -> nat -> R) : Prop :=
  forall n A, (exists D, isInverse n A D) -> isInverse n A (inverse n A).
