(** Specification for elements with internal variables: one Newton step for displacements and internal variables together. *)

Set Warnings "-notation-overridden,-ambiguous-paths".
From mathcomp Require Import ssreflect ssrfun ssrbool eqtype ssrnat seq fintype bigop ssralg matrix.
Import GRing.Theory.
Local Open Scope ring_scope.

Section Spec.
Variables (F : fieldType) (N m : nat).

(** The linearised equations of one element: [K u + B a + f] and [L u + D a + r] for increments [u] and [a]. *)
Record linearised := mkLin {
  l_n : nat; l_p : nat; l_dofs : 'I_l_n -> 'I_N;
  l_K : 'M[F]_l_n; l_B : 'M[F]_(l_n, l_p); l_f : 'cV[F]_l_n;
  l_L : 'M[F]_(l_p, l_n); l_D : 'M[F]_l_p; l_r : 'cV[F]_l_p }.

(** The increments [dx], [da] solve the equations of all elements: constrained displacements do not change, the forces of the elements at
    every free dof are in equilibrium, and every internal equation holds. *)
Definition blockNewton (c : 'I_N -> bool) (els : 'I_m -> linearised) (dx : 'cV[F]_N) (da : forall k, 'cV[F]_(l_p (els k))) : Prop :=
  let local k := \col_i dx (l_dofs (els k) i) ord0 in
  (forall i, c i -> dx i ord0 = 0) /\
  (forall i, ~~ c i ->
     \sum_k \sum_(j | l_dofs (els k) j == i) (l_K (els k) *m local k + l_B (els k) *m da k + l_f (els k)) j ord0 = 0) /\
  (forall k, l_L (els k) *m local k + l_D (els k) *m da k + l_r (els k) = 0).
End Spec.

(** [n] steps of a relation. *)
Inductive steps {S : Type} (R : S -> S -> Prop) : nat -> S -> S -> Prop :=
| steps0 s : steps R 0 s s
| stepsS n s t u : R s t -> steps R n t u -> steps R n.+1 s u.
