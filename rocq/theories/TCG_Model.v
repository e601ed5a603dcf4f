(** Model of the truncated conjugate gradient method, ikarus/linearalgebra/truncatedconjugategradient.hh.

    Numbers, vectors, the matrix and the preconditioner are parameters. *)

From Coq Require Import List ZArith Bool.
Import ListNotations.
Local Open Scope Z_scope.

(** 24-32 *)
Inductive tcgStop := negativeCurvature | exceededTrustRegion | reachedTargetResidualKappaLinear
                   | reachedTargetResidualThetaSuperLinear | maximumInnerIterations | modelIncreased.

(** 33-48; theta is never used *)
Record tcgInfo (T : Type) := mkTcg { tcg_stop : tcgStop; tcg_Delta : T; tcg_kappa : T; tcg_mininner : Z; tcg_numInner : Z }.
Arguments mkTcg {T}. Arguments tcg_stop {T}. Arguments tcg_Delta {T}. Arguments tcg_kappa {T}. Arguments tcg_mininner {T}. Arguments tcg_numInner {T}.

Section TCG.
Context {T V : Type}.
Variables (t0 t2 : T) (tadd tsub tmul tdiv : T -> T -> T) (topp tsqrt : T -> T).
Variables (tltb tleb : T -> T -> bool).      (** a < b, a <= b; false when NaN is involved *)
Variable tiny : T.                           (** numeric_limits::min, considerAsZero *)
Variables (vzero : V) (vadd vsub : V -> V -> V) (vscale : T -> V -> V) (dot : V -> V -> T).
Variables (mat precond : V -> V).

Definition tmax (a b : T) : T := if tltb a b then b else a.
Definition tmin (a b : T) : T := if tltb b a then b else a.
Definition vnorm (v : V) : T := tsqrt (dot v v).

(** The variables of the loop *)
Record tcgState := mkTS { ts_x : V; ts_r : V; ts_p : V; ts_absNew : T; ts_ePd : T; ts_ePe : T; ts_dPd : T }.

(** Result: solution, iteration counter and stop reason *)
(** 108-160.  [fuel] bounds the number of passes; the loop runs while i < maxIters *)
Fixpoint tcgLoop (fuel : nat) (maxIters i : Z) (rhsNorm2 threshold : T) (info : tcgInfo T) (s : tcgState) : V * Z * tcgStop :=
  match fuel with
  | O => (ts_x s, i, maximumInnerIterations)
  | S fuel' =>
    if i <? maxIters then
      let tmp := mat (ts_p s) in
      let dHd := dot (ts_p s) tmp in
      let alpha := tdiv (ts_absNew s) dHd in
      let ePeNew := tadd (tadd (ts_ePe s) (tmul (tmul t2 alpha) (ts_ePd s))) (tmul (tmul alpha alpha) (ts_dPd s)) in
      let D := tcg_Delta info in
      if tleb dHd t0 || tleb (tmul D D) ePeNew then
        let tau := tdiv (tadd (topp (ts_ePd s)) (tsqrt (tadd (tmul (ts_ePd s) (ts_ePd s)) (tmul (ts_dPd s) (tsub (tmul D D) (ts_ePe s)))))) (ts_dPd s) in
        (vadd (ts_x s) (vscale tau (ts_p s)), i, if tleb dHd t0 then negativeCurvature else exceededTrustRegion)
      else
        let x := vadd (ts_x s) (vscale alpha (ts_p s)) in
        let r := vsub (ts_r s) (vscale alpha tmp) in
        let rn := vnorm r in
        if (tcg_mininner info <=? i) && tleb rn (tmul rhsNorm2 (tmin rhsNorm2 (tcg_kappa info))) then
          (x, i, if tltb (tcg_kappa info) rhsNorm2 then reachedTargetResidualKappaLinear else reachedTargetResidualThetaSuperLinear)
        else if tltb rn threshold then (x, i, maximumInnerIterations)
        else
          let z := precond r in
          let absNew := dot r z in
          let beta := tdiv absNew (ts_absNew s) in
          tcgLoop fuel' maxIters (i + 1) rhsNorm2 threshold info
            (mkTS x r (vadd z (vscale beta (ts_p s))) absNew
                  (tmul beta (tadd (ts_ePd s) (tmul alpha (ts_dPd s)))) ePeNew
                  (tadd absNew (tmul (tmul beta beta) (ts_dPd s))))
    else (ts_x s, i, maximumInnerIterations)
  end.

(** truncated_conjugate_gradient, 69-165.  The early returns leave the info untouched. *)
Definition tcg (maxIters : Z) (tol : T) (rhs x0 : V) (info : tcgInfo T) : V * tcgInfo T :=
  let residual := vsub rhs (mat x0) in
  let rhsNorm2 := vnorm rhs in
  if tleb rhsNorm2 tiny then (vzero, info)
  else
    let threshold := tmax (tmul (tmul (tmul tol tol) rhsNorm2) rhsNorm2) tiny in
    let residualNorm2 := vnorm residual in
    if tltb (tmul residualNorm2 residualNorm2) threshold then (x0, info)
    else
      let p := precond residual in
      let absNew := dot residual p in
      let '(x, i, st) := tcgLoop (Z.to_nat maxIters) maxIters 1 rhsNorm2 threshold info
                           (mkTS x0 residual p absNew t0 (dot x0 x0) absNew) in
      (x, mkTcg st (tcg_Delta info) (tcg_kappa info) (tcg_mininner info) i).
End TCG.
Arguments ts_x {T V}. Arguments ts_r {T V}. Arguments ts_p {T V}. Arguments ts_absNew {T V}. Arguments ts_ePd {T V}. Arguments ts_ePe {T V}.
Arguments ts_dPd {T V}. Arguments mkTS {T V}.
