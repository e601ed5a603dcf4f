(** Specification of mixed elements with assumed stresses: the functional of Hellinger and Reissner, complementary energies, and the Newton
    step of a system in two groups of unknowns. *)

From Coq Require Import Reals Arith List.
From Coquelicot Require Import Coquelicot.
From Verif Require Import Tensor_Spec Element_Spec Eas_Spec.
Local Open Scope R_scope.

(** The integral of S . E - chi(S) *)
Definition hellingerReissner {P : Type} (s : nat) (points : list P) (vol : P -> R) (E S : P -> nat -> R) (chi : (nat -> R) -> R) : R :=
  quadrature points vol (fun gp => dot s (S gp) (E gp) - chi (S gp)).

(** The complementary energy of a material with the energy psi whose stress is inverted by Es *)
Definition legendre (s : nat) (psi : (nat -> R) -> R) (Es : (nat -> R) -> nat -> R) (T : nat -> R) : R := dot s T (Es T) - psi (Es T).

(** (v, w) is the Newton step of a system of N and p equations with the residuals f, r and the derivatives A, B, C, D *)
Definition newtonStep (N p : nat) (f r : nat -> R) (A B C D : nat -> nat -> R) (v w : nat -> R) : Prop :=
  (forall k, (k < N)%nat -> f k + dot N (A k) v + dot p (B k) w = 0) /\
  (forall q, (q < p)%nat -> r q + dot N (C q) v + dot p (D q) w = 0).
