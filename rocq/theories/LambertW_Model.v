(** Model of ikarus/utils/lambertw.hh.  The arithmetic, exp and log are those of the real numbers; NaN and the infinities are
    distinguished from the real numbers because the code treats them separately. *)

From Coq Require Import Reals Bool.
Local Open Scope R_scope.

Inductive extended := NaN | Infinite (negative : bool) | Finite (z : R).
Inductive outcome := Returned (x : extended) | InvalidState | MathError.

Section LambertW.
  (** [cmp] is the default tolerance of Dune::FloatCmp for relative comparisons *)
  Variable cmp : R.

  (** Dune::FloatCmp::eq, relativeWeak *)
  Definition floatEq (a b : R) : bool := if Rle_dec (Rabs (a - b)) (cmp * Rmax (Rabs a) (Rabs b)) then true else false.
  (** Dune::FloatCmp::gt and le *)
  Definition floatGt (a b : R) : bool := (if Rlt_dec b a then true else false) && negb (floatEq a b).
  Definition floatLe (a b : R) : bool := negb (floatGt a b).

  (** lambertw.hh: 52 *)
  Definition branchPoint : R := -1 / exp 1.

  (** 62-70: the initial guess; Impl::log1p(x) = log(1 + x) (22-26) *)
  Definition initialGuess (z : R) : R :=
    if floatGt z 1 then let lx := ln z in let llx := ln lx in lx - llx - 0.5 * ln (1 + - llx / lx) else 0.567 * z.

  (** 77-83: newX *)
  Definition halley (z x : R) : R :=
    let ex := exp x in let f := x * ex - z in let fPrime := ex * (x + 1) in let fPrimePrime := ex * (x + 2) in
    let denom := fPrime - 1 / 2 * (fPrimePrime / fPrime) * f in x - f / denom.

  (** 72-92, [fuel] iterations are left *)
  Fixpoint iterate (eps z x lastDiff : R) (fuel : nat) : outcome :=
    match fuel with
    | O => MathError
    | S fuel =>
        let newX := halley z x in let diff := Rabs (newX - x) in
        if floatLe diff (3 * eps * Rabs x) || floatEq diff lastDiff then Returned (Finite newX) else iterate eps z newX diff fuel
    end.

  (** 42-93; [maxIterations] of the code is an int, negative values are as 0 *)
  Definition lambertW0 (z : extended) (maxIterations : nat) (eps : R) : outcome :=
    match z with
    | NaN => Returned NaN
    | Infinite negative => Returned (Infinite negative)
    | Finite z =>
        if floatEq z branchPoint then Returned (Finite (-1))
        else if Rlt_dec z branchPoint then InvalidState
        else iterate eps z (initialGuess z) 0 maxIterations
    end.
End LambertW.
