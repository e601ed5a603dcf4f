(** Specification of elements whose corners are numbered in another way. *)

From Coq Require Import Reals Arith.
From Verif Require Import Tensor_Spec Element_Model.
Local Open Scope R_scope.

(** The symmetries of the square and of the cube [-1, 1]^d: every new coordinate is one of the old ones or its opposite *)
Definition signedPermutation (d : nat) (W : nat -> nat -> R) : Prop := exists pi sigma,
  (forall a, (a < d)%nat -> (pi a < d)%nat) /\ (forall a b, (a < d)%nat -> (b < d)%nat -> pi a = pi b -> a = b) /\
  (forall a, (a < d)%nat -> sigma a = 1 \/ sigma a = -1) /\
  (forall a b, (a < d)%nat -> (b < d)%nat -> W a b = if (b =? pi a)%nat then sigma a else 0).
(** gp' has the local coordinates W x, where x are those of gp, in [-1, 1]^d *)
Definition sameSpot (d : nat) (W : nat -> nat -> R) (gp gp' : point) : Prop :=
  forall a, (a < d)%nat -> 2 * position gp' a - 1 = sum d (fun b => W a b * (2 * position gp b - 1)).
(** The corner i of the second element is the corner nu i of the first one *)
Definition renumberedVector (d : nat) (nu : nat -> nat) (u : nat -> R) (k : nat) : R := u (d * nu (k / d) + k mod d)%nat.
Definition numbering (n : nat) (nu : nat -> nat) : Prop :=
  (forall i, (i < n)%nat -> (nu i < n)%nat) /\ (forall i j, (i < n)%nat -> (j < n)%nat -> nu i = nu j -> i = j).
