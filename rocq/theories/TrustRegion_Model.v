(** Model of the trust-region solver, ikarus/solver/nonlinearsolver/trustregion.hh.

    Numbers, vectors, energy, gradient, Hessian, update function and the inner solver are parameters.  Simplifications: listeners do not change the
    energy; the random start direction (useRand) is a parameter, so its scaling loop 264-269 is assumed to end; logging and the counters
    that only steer logging (consecutive_TRplus/minus) are left out. *)

From Coq Require Import List ZArith Bool.
From Verif Require Import Newton_Model TCG_Model.
Import ListNotations.
Local Open Scope Z_scope.

(** Arithmetic of the solver.  Comparisons are false when NaN is involved. *)
Record trNum (T : Type) := mkTrNum {
  n0 : T; n1 : T; n2 : T; n4 : T; nHalf : T;
  nRhoBad : T;      (** 1e-4, 320 *)
  nRhoGood : T;     (** 0.99, 331 *)
  nGrow : T;        (** 3.5, 334 *)
  nEps : T;         (** eps_, 561 *)
  nESlack : T;      (** 1e-12, 317 *)
  nCmpEps : T;      (** default epsilon of Dune::FloatCmp: 8 times the machine epsilon *)
  nadd : T -> T -> T; nsub : T -> T -> T; nmul : T -> T -> T; ndiv : T -> T -> T; nopp : T -> T; nabs : T -> T;
  nltb : T -> T -> bool; nleb : T -> T -> bool; nnan : T -> bool }.
Arguments n0 {T}. Arguments n1 {T}. Arguments n2 {T}. Arguments n4 {T}. Arguments nHalf {T}. Arguments nRhoBad {T}. Arguments nRhoGood {T}.
Arguments nGrow {T}. Arguments nEps {T}. Arguments nESlack {T}. Arguments nCmpEps {T}. Arguments nadd {T}. Arguments nsub {T}. Arguments nmul {T}.
Arguments ndiv {T}. Arguments nopp {T}. Arguments nabs {T}. Arguments nltb {T}. Arguments nleb {T}. Arguments nnan {T}.

(** TRSettings, 43-57.  debug, verbosity and minIter do not influence the computation. *)
Record trSettings (T : Type) := mkTR { tr_maxtime : T; tr_maxIter : Z; tr_gradTol : T; tr_corrTol : T; tr_rhoPrime : T; tr_useRand : bool;
                                       tr_rhoReg : T; tr_deltaBar : T; tr_delta0 : T }.
Arguments mkTR {T}. Arguments tr_maxtime {T}. Arguments tr_maxIter {T}. Arguments tr_gradTol {T}. Arguments tr_corrTol {T}. Arguments tr_rhoPrime {T}.
Arguments tr_useRand {T}. Arguments tr_rhoReg {T}. Arguments tr_deltaBar {T}. Arguments tr_delta0 {T}.

(** 131-138 *)
Inductive stopReason := gradientNormTolReached | correctionNormTolReached | maximumTimeReached | maximumIterationsReached.

Section TR.
Context {T V H X : Type}.
Variable N : trNum T.
Variables (energy : X -> T) (gradient : X -> V) (hessian : X -> H).
Variables (vnorm : V -> T) (vdot : V -> V -> T) (vadd : V -> V -> V) (vscale : T -> V -> V) (vneg : V -> V) (vzeroLike : V -> V) (hmul : H -> V -> V).
Variable update : X -> V -> X.
Variable rnd : H -> T -> V.
(** solveInnerProblem, 529-550: gradient, Hessian, start vector, info; [None]: MathError *)
Variable inner : V -> H -> V -> tcgInfo T -> option (V * tcgInfo T).

(** setup, 219-225: what the assertions demand *)
Definition trSetup (s : trSettings T) : bool :=
  nltb N (tr_rhoPrime s) (ndiv N (n1 N) (n4 N)) && nltb N (n0 N) (tr_deltaBar s) && nltb N (n0 N) (tr_delta0 s) && nltb N (tr_delta0 s) (tr_deltaBar s).

Definition nmin (a b : T) : T := if nltb N b a then b else a.
Definition nmax (a b : T) : T := if nltb N a b then b else a.

(** Dune::FloatCmp::eq and ge (relative weak) *)
Definition floatEq (a b : T) : bool := nleb N (nabs N (nsub N a b)) (nmul N (nCmpEps N) (nmax (nabs N a) (nabs N b))).
Definition floatGe (a b : T) : bool := nltb N b a || floatEq a b.

Record trState := mkTRS { u_x : X; u_eta : V; u_inner : tcgInfo T; u_gradNorm : T; u_etaNorm : T; u_energy : T; u_outer : Z; u_rejected : Z;
                          u_info : nlinfo T; u_trace : list (nlmsg * nlinfo T * V * X * T) }.

(** Messages carry the information, the correction and the solution; the radius is added for the statements on it. *)
Definition tremit (m : nlmsg) (s : trState) : trState :=
  mkTRS (u_x s) (u_eta s) (u_inner s) (u_gradNorm s) (u_etaNorm s) (u_energy s) (u_outer s) (u_rejected s) (u_info s)
        (u_trace s ++ [(m, u_info s, u_eta s, u_x s, tcg_Delta (u_inner s))]).

(** stoppingCriterion, 487-527; the time is never measured and stays 0 *)
Definition trStop (st : trSettings T) (s : trState) : option stopReason :=
  if nltb N (u_gradNorm s) (tr_gradTol st) && negb (u_outer s =? 0) then Some gradientNormTolReached
  else if nltb N (u_etaNorm s) (tr_corrTol st) && negb (u_outer s =? 0) then Some correctionNormTolReached
  else if nleb N (tr_maxtime st) (n0 N) then Some maximumTimeReached
  else if tr_maxIter st <=? u_outer s then Some maximumIterationsReached
  else None.

(** The step proposed in an iteration: 262-306. *)
Definition trPropose (st : trSettings T) (s : trState) : option (V * V * tcgInfo T) :=
  let g := gradient (u_x s) in let h := hessian (u_x s) in
  let first := u_outer s =? 0 in
  let guess := if tr_useRand st && first then rnd h (tcg_Delta (u_inner s)) else vzeroLike g in
  match inner g h guess (u_inner s) with
  | None => None
  | Some (eta, inf) =>
    let Heta := hmul h eta in
    if tr_useRand st && first then
      let Hg := hmul h g in
      let gHg := vdot g Hg in
      let D := tcg_Delta inf in
      let gn := u_gradNorm s in
      let tauC := if nleb N gHg (n0 N) then n1 N else nmin (ndiv N (nmul N (nmul N gn gn) gn) (nmul N D gHg)) (n1 N) in
      let f := ndiv N (nmul N (nopp N tauC) D) gn in
      let etaC := vscale f g in
      let HetaC := vscale f Hg in
      let mdle := nadd N (nadd N (u_energy s) (vdot g eta)) (nmul N (nHalf N) (vdot Heta eta)) in
      let mdlec := nadd N (nadd N (u_energy s) (vdot g etaC)) (nmul N (nHalf N) (vdot HetaC etaC)) in
      if nltb N mdlec mdle then Some (etaC, HetaC, inf) else Some (eta, Heta, inf)
    else Some (eta, Heta, inf)
  end.

(** The quality measure rho and modelDecreased, 314-330 *)
Definition trRho (st : trSettings T) (s : trState) (g eta Heta : V) (eProp : T) : T * bool :=
  let reg := nmul N (nmul N (nmax (n1 N) (nabs N (u_energy s))) (nEps N)) (tr_rhoReg st) in
  let rhonum := nadd N (nsub N (u_energy s) eProp) reg in
  let rhoden := nadd N (nopp N (vdot eta (vadd g (vscale (nHalf N) Heta)))) reg in
  let rho := ndiv N rhonum rhoden in
  ((if nltb N rho (n0 N) then nopp N (n1 N) else rho), nltb N (n0 N) rhoden).

Definition boundaryHit (inf : tcgInfo T) : bool :=
  match tcg_stop inf with negativeCurvature | exceededTrustRegion => true | _ => false end.

Definition withDelta (inf : tcgInfo T) (d : T) : tcgInfo T := mkTcg (tcg_stop inf) d (tcg_kappa inf) (tcg_mininner inf) (tcg_numInner inf).

(** The decision of an iteration: 314-382.  Result: new radius and whether the step is accepted *)
Definition trDecide (st : trSettings T) (s : trState) (g eta Heta : V) (inf : tcgInfo T) (eProp : T) : T * bool :=
  let '(rho, modelDecreased) := trRho st s g eta Heta eProp in
  let energyDecreased := floatGe (nsub N (u_energy s) eProp) (nopp N (nESlack N)) in
  let D := tcg_Delta inf in
  let D1 := if nltb N rho (nRhoBad N) || negb modelDecreased || nnan N rho || negb energyDecreased then ndiv N D (n4 N)
            else if nltb N (nRhoGood N) rho && boundaryHit inf then nmin (nmul N (nGrow N) D) (tr_deltaBar st)
            else D in
  if modelDecreased && nltb N (tr_rhoPrime st) rho && energyDecreased then (D1, true)
  else ((if 5 <=? u_rejected s then ndiv N D1 (n2 N) else nmin D1 (ndiv N (vnorm eta) (n2 N))), false).

(** Loop body, 258-412; [None]: MathError of the inner solver *)
Definition trBody (st : trSettings T) (s0 : trState) : option trState :=
  let s1 := tremit ITERATION_STARTED s0 in
  match trPropose st s1 with
  | None => None
  | Some (eta, Heta, inf) =>
    let g := gradient (u_x s1) in
    let etaNorm := vnorm eta in
    let xp := update (u_x s1) eta in
    let eProp := energy xp in
    let '(D, acc) := trDecide st s1 g eta Heta inf eProp in
    let inf' := withDelta inf D in
    let i := u_info s1 in
    let s2 := tremit CORRECTION_UPDATED (mkTRS xp eta inf' (u_gradNorm s1) etaNorm (u_energy s1) (u_outer s1 + 1)
                (if acc then 0 else u_rejected s1 + 1) (mkInfo (i_success i) (u_gradNorm s1) etaNorm (i_iter i)) (u_trace s1)) in
    let s3 := if acc then
                tremit SOLUTION_CHANGED (tremit RESIDUALNORM_UPDATED (tremit CORRECTIONNORM_UPDATED
                  (mkTRS (u_x s2) (u_eta s2) (u_inner s2) (u_gradNorm s2) (u_etaNorm s2) eProp (u_outer s2) (u_rejected s2) (u_info s2) (u_trace s2))))
              else mkTRS (update (u_x s2) (vneg eta)) (vzeroLike eta) (u_inner s2) (u_gradNorm s2) (u_etaNorm s2) (u_energy s2) (u_outer s2) (u_rejected s2) (u_info s2) (u_trace s2) in
    Some (tremit ITERATION_ENDED (mkTRS (u_x s3) (u_eta s3) (u_inner s3) (vnorm (gradient (u_x s3))) (u_etaNorm s3) (u_energy s3)
            (u_outer s3) (u_rejected s3) (u_info s3) (u_trace s3)))
  end.

(** Result of the loop: finished with a reason, an exception, or out of fuel *)
Inductive trResult := TrDone (r : stopReason) (s : trState) | TrThrew | TrFuel.

Fixpoint trLoop (fuel : nat) (st : trSettings T) (s : trState) : trResult :=
  match trStop st s with
  | Some r => TrDone r s
  | None => match fuel with
            | O => TrFuel
            | S fuel' => match trBody st s with None => TrThrew | Some s' => trLoop fuel' st s' end
            end
  end.

(** 233-256 *)
Definition trStart (st : trSettings T) (inf : T) (x : X) (eta0 : V) (innerInfo : tcgInfo T) : trState :=
  let info := mkInfo false inf inf (-1) in
  let s0 := tremit INIT (mkTRS x eta0 innerInfo (n1 N) (n1 N) (n0 N) 0 0 info []) in
  mkTRS x eta0 (withDelta innerInfo (tr_delta0 st)) (vnorm (gradient x)) (n1 N) (energy x) 0 0 info (u_trace s0).

(** 414-427 *)
Definition trFinish (r : stopReason) (s : trState) : trState :=
  let ok := match r with gradientNormTolReached | correctionNormTolReached => true | _ => false end in
  let i := u_info s in
  let s1 := mkTRS (u_x s) (u_eta s) (u_inner s) (u_gradNorm s) (u_etaNorm s) (u_energy s) (u_outer s) (u_rejected s)
              (mkInfo ok (u_gradNorm s) (i_corr i) (u_outer s)) (u_trace s) in
  if ok then tremit FINISHED_SUCESSFULLY s1 else s1.

(** solve, 233-428.  [inf] is infinity, [innerInfo] the info left by an earlier solve (or the default) *)
Definition trSolve (st : trSettings T) (inf : T) (x : X) (eta0 : V) (innerInfo : tcgInfo T) : trResult :=
  match trLoop (Z.to_nat (tr_maxIter st)) st (trStart st inf x eta0 innerInfo) with
  | TrDone r s => TrDone r (trFinish r s)
  | r => r
  end.
End TR.
Arguments mkTRS {T V X}. Arguments u_x {T V X}. Arguments u_eta {T V X}. Arguments u_inner {T V X}. Arguments u_gradNorm {T V X}. Arguments u_etaNorm {T V X}.
Arguments u_energy {T V X}. Arguments u_outer {T V X}. Arguments u_rejected {T V X}. Arguments u_info {T V X}. Arguments u_trace {T V X}.
Arguments TrDone {T V X}. Arguments TrThrew {T V X}. Arguments TrFuel {T V X}.
