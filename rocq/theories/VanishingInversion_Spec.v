(** Specification: the compliance of plane stress elasticity. *)

From Coq Require Import List Arith Reals.
Local Open Scope R_scope.

(** 1/E [1 -nu 0; -nu 1 0; 0 0 2 (1 + nu)] *)
Definition planeStressCompliance (E nu : R) (i j : nat) : R :=
  / E *
  match i, j with
  | 0%nat, 0%nat => 1 | 0%nat, 1%nat => - nu | 1%nat, 0%nat => - nu | 1%nat, 1%nat => 1 | 2%nat, 2%nat => 2 * (1 + nu) | _, _ => 0
  end.
(** The in-plane components 11, 22, 12 among the six components *)
Definition inPlane (j : nat) : nat := match j with 0%nat => 0 | 1%nat => 1 | _ => 5 end.
