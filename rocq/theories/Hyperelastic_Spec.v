(** Specification: what is assumed of an eigenvalue solver for symmetric 3 x 3 matrices. *)

From Coq Require Import Reals.
From Verif Require Import Tensor_Spec Conversions_Spec.
Local Open Scope R_scope.

Definition orthogonalMatrix (N : nat -> nat -> R) : Prop :=
  eqm 3 (mul 3 (transpose N) N) identity /\ eqm 3 (mul 3 N (transpose N)) identity.

(** C = N diag(e) N^T with N orthogonal and e ascending *)
Definition decomposition (C : nat -> nat -> R) (e : nat -> R) (N : nat -> nat -> R) : Prop :=
  (e 0%nat <= e 1%nat /\ e 1%nat <= e 2%nat) /\ orthogonalMatrix N /\
  eqm 3 C (fun i j => sum 3 (fun k => N i k * e k * N j k)).

(** Eigen::SelfAdjointEigenSolver succeeds for symmetric matrices *)
Definition solvesSymmetric (eigensolver : (nat -> nat -> R) -> option ((nat -> R) * (nat -> nat -> R))) : Prop :=
  forall C, symmetric 3 C -> exists e N, eigensolver C = Some (e, N) /\ decomposition C e N.

(** Q C Q^T *)
Definition rotated (Q C : nat -> nat -> R) (i j : nat) : R := sum 3 (fun k => sum 3 (fun l => Q i k * C k l * Q j l)).

(** The same for tensors of order four *)
Definition rotated4 (Q : nat -> nat -> R) (T : nat -> nat -> nat -> nat -> R) (p q r s : nat) : R :=
  sum 3 (fun a => sum 3 (fun b => sum 3 (fun c => sum 3 (fun d => Q p a * Q q b * Q r c * Q s d * T a b c d)))).
