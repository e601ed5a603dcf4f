(** Specification of the stress results: the stress state of a plane body, and the Kirchhoff and Cauchy stresses of a three-dimensional deformation. *)

From Coq Require Import List Arith Reals.
From Verif Require Import Tensor_Spec.
Import ListNotations.
Local Open Scope R_scope.

Definition mat3 (r : list (list R)) (i j : nat) : R := nth j (nth i r []) 0.

(** The strain of a plane body: the components 11, 22 and twice 12 in the plane, [t] in thickness direction, no transverse shear *)
Definition planeTensor (e : nat -> R) (t : R) : nat -> nat -> R :=
  mat3 [[e 0%nat; e 2%nat / 2; 0]; [e 2%nat / 2; e 1%nat; 0]; [0; 0; t]].
(** The plane deformation gradient [F] with thickness stretch [th] *)
Definition planeDeformationOf (F : nat -> nat -> R) (th : R) : nat -> nat -> R :=
  mat3 [[F 0%nat 0%nat; F 0%nat 1%nat; 0]; [F 1%nat 0%nat; F 1%nat 1%nat; 0]; [0; 0; th]].
(** The stress tensor with the Voigt components [s] *)
Definition stressTensor (s : nat -> R) : nat -> nat -> R :=
  mat3 [[s 0%nat; s 5%nat; s 4%nat]; [s 5%nat; s 1%nat; s 3%nat]; [s 4%nat; s 3%nat; s 2%nat]].
(** Where 11, 22 and 12 stand among six components *)
Definition inPlane (k : nat) : nat := match k with 0 => 0 | 1 => 1 | _ => 5 end%nat.

Definition greenLagrange (F : nat -> nat -> R) (i j : nat) : R := / 2 * (mul 3 (transpose F) F i j - identity i j).
(** Determinant by the first row *)
Definition jacobian (F : nat -> nat -> R) : R :=
  F 0%nat 0%nat * (F 1%nat 1%nat * F 2%nat 2%nat - F 1%nat 2%nat * F 2%nat 1%nat)
  - F 0%nat 1%nat * (F 1%nat 0%nat * F 2%nat 2%nat - F 1%nat 2%nat * F 2%nat 0%nat)
  + F 0%nat 2%nat * (F 1%nat 0%nat * F 2%nat 1%nat - F 1%nat 1%nat * F 2%nat 0%nat).
(** tau = F S F^T, sigma = tau / J *)
Definition kirchhoffOf (F S : nat -> nat -> R) : nat -> nat -> R := mul 3 (mul 3 F S) (transpose F).
Definition cauchyOf (F S : nat -> nat -> R) (i j : nat) : R := kirchhoffOf F S i j / jacobian F.
(** A function of the nine entries of a matrix *)
Definition entriesOnly (f : (nat -> nat -> R) -> nat -> R) : Prop :=
  forall A B, (forall i j, (i < 3)%nat -> (j < 3)%nat -> A i j = B i j) -> forall k, (k < 6)%nat -> f A k = f B k.
