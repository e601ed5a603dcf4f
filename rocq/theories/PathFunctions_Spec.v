(** Specification of the subsidiary functions over the real numbers, written without the helpers of the model. *)

From Coq Require Import List Reals.
From Coquelicot Require Import Coquelicot.
Import ListNotations.
Local Open Scope R_scope.

(** Scalar product and moving along a direction *)
Fixpoint dotR (a b : list R) : R :=
  match a, b with x :: a', y :: b' => x * y + dotR a' b' | _, _ => 0 end.

Fixpoint along (u v : list R) (t : R) : list R :=
  match u, v with x :: u', y :: v' => (x + t * y) :: along u' v' t | _, _ => [] end.

(** [g] and [h] are the derivatives at [(u, l)] of the function [f] of a vector and a number: every directional derivative is given by them *)
Definition hasDerivatives (f : list R -> R -> R) (u : list R) (l : R) (g : list R) (h : R) : Prop :=
  length g = length u /\
  forall v m, length v = length u -> is_derive (fun t => f (along u v t) (l + t * m)) 0 (dotR g v + h * m).

(** The equation of the arc-length method with prescribed displacements [Dl * d0] *)
Definition arcLengthValue (psi : R) (d0 : list R) (stepSize : R) (DD : list R) (Dl : R) : R :=
  sqrt (dotR DD DD + Dl * Dl * dotR d0 d0 + psi * psi * Dl * Dl) - stepSize.

Definition displacementValue (idx : list nat) (stepSize : R) (DD : list R) : R :=
  sqrt (fold_right (fun i acc => nth i DD 0 * nth i DD 0 + acc) 0 idx) - stepSize.

(** Prescribed displacements proportional to the load factor: [Some c] where the displacement is [c] times the load factor, [None] where it is free *)
Fixpoint prescribed (cs : list (option R)) (x : list R) (lambda : R) : list R :=
  match cs, x with
  | Some c :: cs', _ :: x' => c * lambda :: prescribed cs' x' lambda
  | None :: cs', y :: x' => y :: prescribed cs' x' lambda
  | _, _ => []
  end.
(** The change of the prescribed displacements per load factor *)
Definition prescribedRate (cs : list (option R)) : list R := map (fun c => match c with Some v => v | None => 0 end) cs.
(** The solution satisfies the prescribed displacements at the load factor *)
Definition satisfies (cs : list (option R)) (x : list R) (lambda : R) : Prop := length x = length cs /\ prescribed cs x lambda = x.
