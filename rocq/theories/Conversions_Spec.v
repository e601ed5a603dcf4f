(** Specification: strain and stress measures of a deformation gradient F. *)

From Coq Require Import List Arith Reals.
From Verif Require Import Tensor_Spec SVK_Spec Conversions_Model.
Import ListNotations.
Local Open Scope R_scope.

Definition eqm (d : nat) (A B : nat -> nat -> R) : Prop := forall i j, (i < d)%nat -> (j < d)%nat -> A i j = B i j.

(** C = F^T F, E = (C - I) / 2, H = F - I *)
Definition rightCauchyGreenOf (d : nat) (F : nat -> nat -> R) (i j : nat) : R := sum d (fun k => F k i * F k j).
Definition strainOf (d : nat) (tag : strainTag) (F : nat -> nat -> R) (i j : nat) : R :=
  match tag with
  | deformationGradient => F i j
  | displacementGradient => F i j - identity i j
  | rightCauchyGreenTensor => rightCauchyGreenOf d F i j
  | greenLagrangian => (rightCauchyGreenOf d F i j - identity i j) / 2
  | linear => (F i j + F j i) / 2 - identity i j
  end.

(** The measures of the Cauchy stress sigma, with J and P the determinant and the inverse of F:
    Kirchhoff J sigma, PK1 J sigma P^T, PK2 J P sigma P^T *)
Definition stressOf (d : nat) (J : R) (P : nat -> nat -> R) (tag : stressTag) (sigma : nat -> nat -> R) (i j : nat) : R :=
  match tag with
  | Cauchy | linearStress => sigma i j
  | Kirchhoff => J * sigma i j
  | PK1 => J * sum d (fun k => sigma i k * P j k)
  | PK2 => J * sum d (fun k => sum d (fun l => P i k * sigma k l * P j l))
  end.

Definition nonlinear (a : stressTag) : Prop := a <> linearStress.

(** U is positive definite *)
Definition positive (d : nat) (U : nat -> nat -> R) : Prop :=
  forall x : nat -> R, (exists i, (i < d)%nat /\ x i <> 0) -> 0 < sum d (fun i => sum d (fun j => x i * U i j * x j)).

(** A matrix square root: of a positive definite symmetric matrix it gives the positive definite symmetric root *)
Definition squareRoot (d : nat) (msqrt : (nat -> nat -> R) -> nat -> nat -> R) : Prop :=
  forall M, symmetric d M -> positive d M ->
  symmetric d (msqrt M) /\ positive d (msqrt M) /\ eqm d (mul d (msqrt M) (msqrt M)) M.
