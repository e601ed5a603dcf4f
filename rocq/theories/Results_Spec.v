(** Equivalent stresses of stress tensors, without reference to the implementation. *)

From Coq Require Import Reals Arith Bool.
From Verif Require Import Tensor_Spec.
Local Open Scope R_scope.

(** The 3 x 3 tensor of a state of stress that only has components in the first d directions *)
Definition embed (d : nat) (s : nat -> nat -> R) (i j : nat) : R := if ((i <? d) && (j <? d))%nat then s i j else 0.

Definition meanStress (s : nat -> nat -> R) : R := sum 3 (fun i => s i i) / 3.
Definition deviator (s : nat -> nat -> R) (i j : nat) : R := s i j - meanStress s * identity i j.
Definition equivalentStress (s : nat -> nat -> R) : R := sqrt (3 / 2 * contract 3 (deviator s) (deviator s)).

(** The stress in direction m on the plane with normal n *)
Definition traction (d : nat) (s : nat -> nat -> R) (n m : nat -> R) : R := dot d m (apply d s n).
Definition unitVector (d : nat) (n : nat -> R) : Prop := dot d n n = 1.
