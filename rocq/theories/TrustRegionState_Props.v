(** Property C92: internal variables of elements driven by the trust-region solver. *)

From Coq Require Import Floats.
From Coq Require Import List ZArith Bool.
From Verif Require Import Newton_Model TCG_Model TrustRegion_Model TrustRegion_Spec TrustRegion_Props TrustRegionState_Model.
Import ListNotations.
Local Open Scope Z_scope.

Section General.
Context {T V H X W : Type}.
Variable N : trNum T.
Variables (energy : W -> X -> T) (gradient : W -> X -> V) (hessian : W -> X -> H).
Variables (vnorm : V -> T) (vdot : V -> V -> T) (vadd : V -> V -> V) (vscale : T -> V -> V) (vneg : V -> V) (vzeroLike : V -> V) (hmul : H -> V -> V).
Variable update : X -> V -> X.
Variable rnd : H -> T -> V.
Variable inner : V -> H -> V -> tcgInfo T -> option (V * tcgInfo T).
Variable change : X -> V -> W -> W.
Notation body := (trwBody N energy gradient hessian vnorm vdot vadd vscale vneg vzeroLike hmul update rnd inner change).

(** What an iteration does: with the proposed step [eta], the state of the listeners becomes what they make of the solution that already
    contains the step, also if the step is then undone. *)
Theorem C92_iteration_partial : forall st s w s' w', body st (s, w) = Some (s', w') -> exists eta,
  w' = change (update (u_x s) eta) eta w /\
  (u_x s' = update (u_x s) eta \/ u_x s' = update (update (u_x s) eta) (vneg eta)).
Proof.
  intros st s w s' w'. unfold trwBody. cbv zeta.
  destruct (trPropose _ _ _ _ _ _ _ _ _ _ _) as [[[eta Heta] inf]|]; try discriminate.
  destruct (trDecide _ _ _ _ _ _ _ _ _ _ _ _) as [D acc]. intro E. inversion E; subst. clear E. exists eta. split; [reflexivity|].
  destruct acc; cbn; auto.
Qed.

(** Listeners without state: the solver of TrustRegion_Model. *)
Theorem C92_stateless_agrees : forall st inf x eta0 i w, (forall x v w, change x v w = w) ->
  trwSolve N energy gradient hessian vnorm vdot vadd vscale vneg vzeroLike hmul update rnd inner change st inf x eta0 i w =
  match trSolve N (energy w) (gradient w) (hessian w) vnorm vdot vadd vscale vneg vzeroLike hmul update rnd inner st inf x eta0 i with
  | TrDone r s => TrwDone r s w
  | TrThrew => TrwThrew
  | TrFuel => TrwFuel
  end.
Proof.
  intros st inf x eta0 i w Hc. unfold trwSolve, trSolve.
  generalize (trStart N (energy w) (gradient w) vnorm st inf x eta0 i). generalize (Z.to_nat (tr_maxIter st)).
  assert (forall s, body st (s, w) = match trBody N (energy w) (gradient w) (hessian w) vnorm vdot vadd vscale vneg vzeroLike hmul update rnd inner st s with Some s' => Some (s', w) | None => None end) as B.
  { intro s. unfold trwBody, trBody. cbv zeta. destruct (trPropose _ _ _ _ _ _ _ _ _ _ _) as [[[eta Heta] ii]|]; auto.
    destruct (trDecide _ _ _ _ _ _ _ _ _ _ _ _) as [D acc]. rewrite Hc. reflexivity. }
  induction n as [|n IH]; intro s; cbn [trwLoop trLoop fst snd]; destruct (trStop N st s); auto.
  rewrite B. destruct (trBody _ _ _ _ _ _ _ _ _ _ _ _ _ _ _ s) as [s1|]; auto.
Qed.
End General.
Print Assumptions C92_iteration_partial.
Print Assumptions C92_stateless_agrees.

(** One degree of freedom and one stress parameter: energy b u - b²/2 - p u, that is coupling, compliance and material equal to 1
    (assumedstress.hh with load p = 1).  The condensed gradient u - p does not depend on b. *)
Local Open Scope float_scope.
Definition asEnergy (b u : float) : float := b * u - b * b / 2 - u.
Definition asInternal (u b : float) : float := u - b.                       (** Rtilde *)
Definition asGradient (b u : float) : float := (b - 1) + asInternal u b.    (** f + G^T H^-1 Rtilde *)
Definition asHessian (b u : float) : float := 1.                            (** K + G^T H^-1 G with K = 0 *)
Definition asChange (u du b : float) : float := b + (asInternal u b + du).  (** updateStateImpl *)
Definition solveAs (st : trSettings float) (x b : float) :=
  trwSolve NF asEnergy asGradient asHessian PrimFloat.abs PrimFloat.mul PrimFloat.add PrimFloat.mul PrimFloat.opp (fun _ => 0) PrimFloat.mul PrimFloat.add
    (fun _ _ => 0) innerF asChange st infinity x 0 info0 b.

(** The solver reports success at the exact displacement u = 1, but the stress parameter is 2 instead of 1: its equation u = b is violated. *)
Theorem C92_accepted_refuted : exists st x b0, trSetup NF st = true /\
  match solveAs st x b0 with
  | TrwDone r s b => i_success (u_info s) = true /\ PrimFloat.eqb (u_x s) 1 = true /\ PrimFloat.eqb (asGradient b (u_x s)) 0 = true /\
                     PrimFloat.eqb (asInternal (u_x s) b) (- 1) = true
  | _ => False end.
Proof. exists (settingsF 1000 1000000), 0, 0. vm_compute. auto. Qed.

(** A single iteration whose step is rejected: the displacement is restored, the stress parameter has changed from 3 to 2. *)
Theorem C92_rejected_refuted : exists st x b0, trSetup NF st = true /\ PrimFloat.eqb b0 3 = true /\
  match solveAs st x b0 with
  | TrwDone r s b => ~ In SOLUTION_CHANGED (map entryMsg (u_trace s)) /\ PrimFloat.eqb (u_x s) x = true /\ PrimFloat.eqb b 2 = true
  | _ => False end.
Proof.
  exists (settingsF 1 1000000), 0, 3. split; [vm_compute; reflexivity|]. split; [vm_compute; reflexivity|].
  match goal with |- match ?t with _ => _ end => let v := eval vm_compute in t in change t with v end. cbv beta iota.
  split; [vm_compute; intuition discriminate|]. split; vm_compute; reflexivity.
Qed.

(** The Newton solver with the same element ends in the right state, cf. C91. *)
Example C92_newton :
  match nrSolve (fun a b => PrimFloat.ltb b a) infinity asGradient asHessian PrimFloat.abs PrimFloat.abs (fun h g => - g / h) PrimFloat.add None
    (fun m _ c d b => match m with CORRECTION_UPDATED => asChange d c b | _ => b end) (mkNRSettings 0x1p-40 20%Z 0%Z) 0 0 0 with
  | Some s => i_success (s_info s) = true /\ PrimFloat.eqb (s_d s) 1 = true /\ PrimFloat.eqb (s_w s) 1 = true
  | None => False end.
Proof. vm_compute. auto. Qed.
Print Assumptions C92_accepted_refuted.
Print Assumptions C92_rejected_refuted.
