(** The trust-region solver (ikarus/solver/nonlinearsolver/trustregion.hh) together with listeners whose state changes with every
    CORRECTION_UPDATED message, as that of elements with internal variables does (enhancedassumedstrains.hh:350-359, assumedstress.hh:343-352).
    Energy, gradient and Hessian depend on that state [W].  The parts of an iteration that do not involve it are those of TrustRegion_Model. *)

From Coq Require Import List ZArith Bool.
From Verif Require Import Newton_Model TCG_Model TrustRegion_Model.
Import ListNotations.
Local Open Scope Z_scope.

Section TRW.
Context {T V H X W : Type}.
Variable N : trNum T.
Variables (energy : W -> X -> T) (gradient : W -> X -> V) (hessian : W -> X -> H).
Variables (vnorm : V -> T) (vdot : V -> V -> T) (vadd : V -> V -> V) (vscale : T -> V -> V) (vneg : V -> V) (vzeroLike : V -> V) (hmul : H -> V -> V).
Variable update : X -> V -> X.
Variable rnd : H -> T -> V.
Variable inner : V -> H -> V -> tcgInfo T -> option (V * tcgInfo T).
(** What the elements do when they are told solution and correction. *)
Variable change : X -> V -> W -> W.

(** Loop body, 258-412: the message CORRECTION_UPDATED of line 400 is sent after the solution was updated in line 308, and before a
    rejected step is undone in line 409. *)
Definition trwBody (st : trSettings T) (p : @trState T V X * W) : option (@trState T V X * W) :=
  let '(s0, w) := p in
  let s1 := tremit ITERATION_STARTED s0 in
  match trPropose N (gradient w) (hessian w) vdot vscale vzeroLike hmul rnd inner st s1 with
  | None => None
  | Some (eta, Heta, inf) =>
    let g := gradient w (u_x s1) in
    let etaNorm := vnorm eta in
    let xp := update (u_x s1) eta in
    let eProp := energy w xp in
    let '(D, acc) := trDecide N vnorm vdot vadd vscale st s1 g eta Heta inf eProp in
    let inf' := withDelta inf D in
    let i := u_info s1 in
    let s2 := tremit CORRECTION_UPDATED (mkTRS xp eta inf' (u_gradNorm s1) etaNorm (u_energy s1) (u_outer s1 + 1)
                (if acc then 0 else u_rejected s1 + 1) (mkInfo (i_success i) (u_gradNorm s1) etaNorm (i_iter i)) (u_trace s1)) in
    let w' := change (u_x s2) (u_eta s2) w in
    let s3 := if acc then
                tremit SOLUTION_CHANGED (tremit RESIDUALNORM_UPDATED (tremit CORRECTIONNORM_UPDATED
                  (mkTRS (u_x s2) (u_eta s2) (u_inner s2) (u_gradNorm s2) (u_etaNorm s2) eProp (u_outer s2) (u_rejected s2) (u_info s2) (u_trace s2))))
              else mkTRS (update (u_x s2) (vneg eta)) (vzeroLike eta) (u_inner s2) (u_gradNorm s2) (u_etaNorm s2) (u_energy s2) (u_outer s2) (u_rejected s2) (u_info s2) (u_trace s2) in
    Some (tremit ITERATION_ENDED (mkTRS (u_x s3) (u_eta s3) (u_inner s3) (vnorm (gradient w' (u_x s3))) (u_etaNorm s3) (u_energy s3)
            (u_outer s3) (u_rejected s3) (u_info s3) (u_trace s3)), w')
  end.

Inductive trwResult := TrwDone (r : stopReason) (s : @trState T V X) (w : W) | TrwThrew | TrwFuel.

Fixpoint trwLoop (fuel : nat) (st : trSettings T) (p : @trState T V X * W) : trwResult :=
  match trStop N st (fst p) with
  | Some r => TrwDone r (fst p) (snd p)
  | None => match fuel with
            | O => TrwFuel
            | S fuel' => match trwBody st p with None => TrwThrew | Some p' => trwLoop fuel' st p' end
            end
  end.

(** 233-428 *)
Definition trwSolve (st : trSettings T) (inf : T) (x : X) (eta0 : V) (innerInfo : tcgInfo T) (w : W) : trwResult :=
  match trwLoop (Z.to_nat (tr_maxIter st)) st (trStart N (energy w) (gradient w) vnorm st inf x eta0 innerInfo, w) with
  | TrwDone r s w' => TrwDone r (trFinish r s) w'
  | r => r
  end.
End TRW.
Arguments TrwDone {T V X W}. Arguments TrwThrew {T V X W}. Arguments TrwFuel {T V X W}.
