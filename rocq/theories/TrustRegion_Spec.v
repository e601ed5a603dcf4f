(** Specification of a run of the trust-region solver: what the registered listeners see. *)

From Coq Require Import List ZArith Bool Reals.
From Verif Require Import Newton_Model TCG_Model.
Import ListNotations.

Section Blocks.
Context {T V X : Type}.

(** One iteration: start, proposed step, acceptance, radius before and after *)
Record block := mkBlock { b_x : X; b_c : V; b_eta : V; b_acc : bool; b_D : T; b_D' : T; b_i : nlinfo T; b_i' : nlinfo T }.

Variables (update : X -> V -> X) (neg zeroLike : V -> V).

(** The solution after the iteration *)
Definition after (b : block) : X := if b_acc b then update (b_x b) (b_eta b) else update (update (b_x b) (b_eta b)) (neg (b_eta b)).

Definition blockTrace (b : block) : list (nlmsg * nlinfo T * V * X * T) :=
  let seen m := (m, b_i' b, b_eta b, update (b_x b) (b_eta b), b_D' b) in
  (ITERATION_STARTED, b_i b, b_c b, b_x b, b_D b) :: seen CORRECTION_UPDATED ::
  if b_acc b then [seen CORRECTIONNORM_UPDATED; seen RESIDUALNORM_UPDATED; seen SOLUTION_CHANGED; seen ITERATION_ENDED]
  else [(ITERATION_ENDED, b_i' b, zeroLike (b_eta b), after b, b_D' b)].

(** Every iteration starts where the one before ended. *)
Fixpoint linked (x : X) (D : T) (bl : list block) (xe : X) (De : T) : Prop :=
  match bl with
  | [] => xe = x /\ De = D
  | b :: bl' => b_x b = x /\ b_D b = D /\ linked (after b) (b_D' b) bl' xe De
  end.
End Blocks.
Arguments mkBlock {T V X}. Arguments b_x {T V X}. Arguments b_c {T V X}. Arguments b_eta {T V X}. Arguments b_acc {T V X}. Arguments b_D {T V X}.
Arguments b_D' {T V X}. Arguments b_i {T V X}. Arguments b_i' {T V X}.

(** Messages of one iteration *)
Definition iterationMessages (accepted : bool) : list nlmsg :=
  ITERATION_STARTED :: CORRECTION_UPDATED ::
  (if accepted then [CORRECTIONNORM_UPDATED; RESIDUALNORM_UPDATED; SOLUTION_CHANGED] else []) ++ [ITERATION_ENDED].

Definition entryMsg {T V X} (e : nlmsg * nlinfo T * V * X * T) : nlmsg := fst (fst (fst (fst e))).
Definition entryX {T V X} (e : nlmsg * nlinfo T * V * X * T) : X := snd (fst e).
Definition entryEta {T V X} (e : nlmsg * nlinfo T * V * X * T) : V := snd (fst (fst e)).
Definition entryDelta {T V X} (e : nlmsg * nlinfo T * V * X * T) : T := snd e.

Local Open Scope R_scope.
(** Agreement of the quadratic model with the energy, regularised *)
Definition regularisation (E rhoReg : R) : R := Rmax 1 (Rabs E) * (1 / 8192) * rhoReg.
Definition predicted (model : R) (E rhoReg : R) : R := - model + regularisation E rhoReg.
Definition agreement (E Enew model rhoReg : R) : R := (E - Enew + regularisation E rhoReg) / predicted model E rhoReg.
