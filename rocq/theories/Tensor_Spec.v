(** Specification of tensors in Voigt notation. *)

From Coq Require Import List Arith Reals.
Import ListNotations.
Local Open Scope R_scope.

Fixpoint sum (n : nat) (f : nat -> R) : R := match n with O => 0 | S n => sum n f + f n end.

(** A : B *)
Definition contract (d : nat) (A B : nat -> nat -> R) : R := sum d (fun i => sum d (fun j => A i j * B i j)).
(** (C : B)_ij *)
Definition apply4 (d : nat) (C : nat -> nat -> nat -> nat -> R) (B : nat -> nat -> R) (i j : nat) : R :=
  sum d (fun k => sum d (fun l => C i j k l * B k l)).
(** (A B)_ij, A B^T *)
Definition mul (d : nat) (A B : nat -> nat -> R) (i j : nat) : R := sum d (fun k => A i k * B k j).
Definition transpose (A : nat -> nat -> R) (i j : nat) : R := A j i.
Definition apply (n : nat) (M : nat -> nat -> R) (v : nat -> R) (i : nat) : R := sum n (fun k => M i k * v k).
Definition dot (n : nat) (v w : nat -> R) : R := sum n (fun k => v k * w k).
Definition identity (i j : nat) : R := if (i =? j)%nat then 1 else 0.

Definition symmetric (d : nat) (A : nat -> nat -> R) : Prop := forall i j, (i < d)%nat -> (j < d)%nat -> A i j = A j i.

(** The components of a symmetric tensor in Voigt order: 11 22 33 23 13 12, in two dimensions 11 22 12 *)
Definition component (d k : nat) : nat * nat :=
  match d, k with
  | 1, 0 => (0, 0)
  | 2, 0 => (0, 0) | 2, 1 => (1, 1) | 2, 2 => (0, 1)
  | 3, 0 => (0, 0) | 3, 1 => (1, 1) | 3, 2 => (2, 2) | 3, 3 => (1, 2) | 3, 4 => (0, 2) | 3, 5 => (0, 1)
  | _, _ => (0, 0)
  end%nat.
Definition voigtLength (d : nat) : nat := (d * (d + 1) / 2)%nat.

(** Strains have doubled shear components *)
Definition strainVector (d : nat) (E : nat -> nat -> R) (k : nat) : R :=
  let (i, j) := component d k in if (i =? j)%nat then E i j else 2 * E i j.
Definition stressVector (d : nat) (S : nat -> nat -> R) (k : nat) : R := let (i, j) := component d k in S i j.
Definition voigtVector (d : nat) (isStrain : bool) := if isStrain then strainVector d else stressVector d.

Definition minorSymmetric (d : nat) (C : nat -> nat -> nat -> nat -> R) : Prop :=
  forall i j k l, (i < d)%nat -> (j < d)%nat -> (k < d)%nat -> (l < d)%nat -> C i j k l = C j i k l /\ C i j k l = C i j l k.
Definition majorSymmetric (d : nat) (C : nat -> nat -> nat -> nat -> R) : Prop :=
  forall i j k l, (i < d)%nat -> (j < d)%nat -> (k < d)%nat -> (l < d)%nat -> C i j k l = C k l i j.
