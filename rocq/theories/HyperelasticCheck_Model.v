(** Model of the admissibility check of Hyperelastic: principalStretches and checkPositiveOrAbort of
    ikarus/finiteelements/mechanics/materials/materialhelpers.hh (lines 119-126, 139-164) and detF of hyperelastic/interface.hh
    (lines 243-253) with the not-a-number values of floating point arithmetic: a number is a real number (rounding and overflow
    are left out) or a NaN, which every operation passes on and for which every comparison is false. *)

From Coq Require Import Reals Bool.
From Verif Require Import Tensor_Model Hyperelastic_Model.
Local Open Scope R_scope.

Inductive number := Num (x : R) | NaN.

Definition nsqrt (a : number) : number := match a with Num x => if Rlt_dec x 0 then NaN else Num (sqrt x) | NaN => NaN end.
Definition nmul (a b : number) : number := match a, b with Num x, Num y => Num (x * y) | _, _ => NaN end.
Definition nsub (a b : number) : number := match a, b with Num x, Num y => Num (x - y) | _, _ => NaN end.
Definition nabs (a : number) : number := match a with Num x => Num (Rabs x) | NaN => NaN end.
(** std::max(a, b) is (a < b) ? b : a *)
Definition nlt (a b : number) : bool := match a, b with Num x, Num y => if Rlt_dec x y then true else false | _, _ => false end.
Definition nle (a b : number) : bool := match a, b with Num x, Num y => if Rle_dec x y then true else false | _, _ => false end.
Definition nmax (a b : number) : number := if nlt a b then b else a.

(** Dune::FloatCmp::eq and le (relativeWeak): |a - b| <= eps max(|a|, |b|);  a < b || eq(a, b) *)
Definition nFloatEq (eps : R) (a b : number) : bool := nle (nabs (nsub a b)) (nmul (Num eps) (nmax (nabs a) (nabs b))).
Definition nFloatLe (eps : R) (a b : number) : bool := nlt a b || nFloatEq eps a b.

(** checkPositiveOrAbort, lines 119-126; eps is 1e-10 *)
Definition checkPositiveOrAbort (d : number) : result number := if nFloatLe (1 / 10 ^ 10) d (Num 0) then Aborts else Returns d.

(** The eigenvalues of C to J: principalStretches lines 139-153 (cwiseSqrt), determinantFromPrincipalValues 161-164 (prod), detF 243-253 *)
Definition numericDetF (e : nat -> R) : result number :=
  checkPositiveOrAbort (nmul (nmul (nsqrt (Num (e 0%nat))) (nsqrt (Num (e 1%nat)))) (nsqrt (Num (e 2%nat)))).

(** NeoHooke (neohooke.hh lines 82-84, 104-106, 129-131) checks the determinant of C itself *)
Definition numericDetC (d : R) : result number := checkPositiveOrAbort (Num d).
