(** Model of what the truncated conjugate gradient solver reports besides the solution: the number of iterations, the error and the
    success of the Eigen interface, together with the solution and the info of TCG_Model.v.

    Source: ikarus/linearalgebra/truncatedconjugategradient.hh 69-165 (truncated_conjugate_gradient) and 255-277
    (TruncatedConjugateGradient::_solve_vector_with_guess_impl). *)

From Coq Require Import ZArith Bool.
From Verif Require Import TCG_Model.
Local Open Scope Z_scope.

Section Report.
Context {T V : Type}.
Variables (t0 t2 : T) (tadd tsub tmul tdiv : T -> T -> T) (topp tsqrt : T -> T) (tltb tleb : T -> T -> bool) (tiny : T).
Variables (vzero : V) (vadd vsub : V -> V -> V) (vscale : T -> V -> V) (dot : V -> V -> T) (mat precond : V -> V).

(** 108-160, as [tcgLoop]; [residualNorm2] is the variable of that name *)
Fixpoint reportLoop (fuel : nat) (maxIters i : Z) (rhsNorm2 threshold : T) (info : tcgInfo T) (s : tcgState) (residualNorm2 : T) : V * Z * tcgStop * T :=
  match fuel with
  | O => (ts_x s, i, maximumInnerIterations, residualNorm2)
  | S fuel' =>
    if i <? maxIters then
      let tmp := mat (ts_p s) in
      let dHd := dot (ts_p s) tmp in
      let alpha := tdiv (ts_absNew s) dHd in
      let ePeNew := tadd (tadd (ts_ePe s) (tmul (tmul t2 alpha) (ts_ePd s))) (tmul (tmul alpha alpha) (ts_dPd s)) in
      let D := tcg_Delta info in
      if tleb dHd t0 || tleb (tmul D D) ePeNew then
        let tau := tdiv (tadd (topp (ts_ePd s)) (tsqrt (tadd (tmul (ts_ePd s) (ts_ePd s)) (tmul (ts_dPd s) (tsub (tmul D D) (ts_ePe s)))))) (ts_dPd s) in
        (vadd (ts_x s) (vscale tau (ts_p s)), i, if tleb dHd t0 then negativeCurvature else exceededTrustRegion, residualNorm2)
      else
        let x := vadd (ts_x s) (vscale alpha (ts_p s)) in
        let r := vsub (ts_r s) (vscale alpha tmp) in
        let rn := vnorm tsqrt dot r in
        if (tcg_mininner info <=? i) && tleb rn (tmul rhsNorm2 (tmin tltb rhsNorm2 (tcg_kappa info))) then
          (x, i, if tltb (tcg_kappa info) rhsNorm2 then reachedTargetResidualKappaLinear else reachedTargetResidualThetaSuperLinear, rn)
        else if tltb rn threshold then (x, i, maximumInnerIterations, rn)
        else
          let z := precond r in
          let absNew := dot r z in
          let beta := tdiv absNew (ts_absNew s) in
          reportLoop fuel' maxIters (i + 1) rhsNorm2 threshold info
            (mkTS x r (vadd z (vscale beta (ts_p s))) absNew
                  (tmul beta (tadd (ts_ePd s) (tmul alpha (ts_dPd s)))) ePeNew
                  (tadd absNew (tmul (tmul beta beta) (ts_dPd s)))) rn
    else (ts_x s, i, maximumInnerIterations, residualNorm2)
  end.

(** The solution, iterations(), error(), info() == Success, and the info of the algorithm *)
Record report := mkReport { rp_x : V; rp_iterations : Z; rp_error : T; rp_success : bool; rp_info : tcgInfo T }.

(** 69-165, called with the iteration limit and the tolerance of the solver, 270-276 *)
Definition solveReport (maxIters : Z) (tol : T) (rhs x0 : V) (info : tcgInfo T) : report :=
  let result x iters error info := mkReport x iters error (tleb error tol) info in
  let residual := vsub rhs (mat x0) in
  let rhsNorm2 := vnorm tsqrt dot rhs in
  if tleb rhsNorm2 tiny then result vzero 0 t0 info
  else
    let threshold := tmax tltb (tmul (tmul (tmul tol tol) rhsNorm2) rhsNorm2) tiny in
    let residualNorm2 := vnorm tsqrt dot residual in
    if tltb (tmul residualNorm2 residualNorm2) threshold then result x0 0 (tdiv residualNorm2 rhsNorm2) info
    else
      let p := precond residual in
      let absNew := dot residual p in
      let '(x, i, st, rn) := reportLoop (Z.to_nat maxIters) maxIters 1 rhsNorm2 threshold info
                               (mkTS x0 residual p absNew t0 (dot x0 x0) absNew) residualNorm2 in
      result x i (tdiv rn rhsNorm2) (mkTcg st (tcg_Delta info) (tcg_kappa info) (tcg_mininner info) i).
End Report.
Arguments rp_x {T V}. Arguments rp_iterations {T V}. Arguments rp_error {T V}. Arguments rp_success {T V}. Arguments rp_info {T V}.
