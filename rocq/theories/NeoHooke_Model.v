(** Model of ikarus/finiteelements/mechanics/materials/hyperelastic/neohooke.hh over the real numbers.
    [None]: the program aborts. *)

From Coq Require Import List Arith Reals Bool.
From Verif Require Import Tensor_Model SVK_Model.
Import ListNotations.
Local Open Scope R_scope.

(** Eigen's determinant() and inverse() of a 3x3 matrix: cofactors *)
Definition det3 (C : rmat) : R :=
  C 0%nat 0%nat * (C 1%nat 1%nat * C 2%nat 2%nat - C 1%nat 2%nat * C 2%nat 1%nat)
  - C 0%nat 1%nat * (C 1%nat 0%nat * C 2%nat 2%nat - C 1%nat 2%nat * C 2%nat 0%nat)
  + C 0%nat 2%nat * (C 1%nat 0%nat * C 2%nat 1%nat - C 1%nat 1%nat * C 2%nat 0%nat).
Definition inv3 (C : rmat) : rmat :=
  fun i j => entries
    [[C 1%nat 1%nat * C 2%nat 2%nat - C 1%nat 2%nat * C 2%nat 1%nat; C 0%nat 2%nat * C 2%nat 1%nat - C 0%nat 1%nat * C 2%nat 2%nat;
      C 0%nat 1%nat * C 1%nat 2%nat - C 0%nat 2%nat * C 1%nat 1%nat];
     [C 1%nat 2%nat * C 2%nat 0%nat - C 1%nat 0%nat * C 2%nat 2%nat; C 0%nat 0%nat * C 2%nat 2%nat - C 0%nat 2%nat * C 2%nat 0%nat;
      C 0%nat 2%nat * C 1%nat 0%nat - C 0%nat 0%nat * C 1%nat 2%nat];
     [C 1%nat 0%nat * C 2%nat 1%nat - C 1%nat 1%nat * C 2%nat 0%nat; C 0%nat 1%nat * C 2%nat 0%nat - C 0%nat 0%nat * C 2%nat 1%nat;
      C 0%nat 0%nat * C 1%nat 1%nat - C 0%nat 1%nat * C 1%nat 0%nat]] i j / det3 C.

Section NeoHooke.
Variables lambda mu : R.

(** materialhelpers.hh 119-126: FloatCmp::le(det, 0, eps) is det <= 0 *)
Definition checkPositive {A} (d : R) (x : A) : option A := if Rle_dec d 0 then None else Some x.

(** 78-92 *)
Definition nhEnergy (C : rmat) : option R :=
  let logdetF := ln (sqrt (det3 C)) in
  checkPositive (det3 C) (mu / 2 * (trace C - 3 - 2 * logdetF) + lambda / 2 * logdetF * logdetF).

(** 101-118 *)
Definition nhStress (C : rmat) : option rmat :=
  let logdetF := ln (sqrt (det3 C)) in
  checkPositive (det3 C) (fun i j => mu * (kron i j - inv3 C i j) + lambda * logdetF * inv3 C i j).

(** 127-145 *)
Definition nhModuli (C : rmat) : option rtensor4 :=
  let logdetF := ln (sqrt (det3 C)) in
  checkPositive (det3 C) (fun i j k l =>
    lambda * dyadic (inv3 C) (inv3 C) i j k l
    + 2 * (mu - lambda * logdetF) * symTwoSlots (fourthOrderIKJL (inv3 C) (inv3 C)) 2 3 i j k l).

(** 164-186, S as matrix; [W] is util::lambertW0, [inverse] the inverse of an n x n matrix.  FloatCmp::eq(Lambda, 0) is Lambda = 0 *)
Variable W : R -> R.
Variable inverse : nat -> rmat -> rmat.

(** 192-208: ne(a, 0) is a <> 0; gt(a, x, eps): a > x and not |a - x| <= eps max(|a|, |x|) *)
Definition checkInvertability (a : R) : bool :=
  let x := - (3 / 2) ^ 3 * exp (- 3 - 2 * mu / lambda) in
  let eps := / 10 ^ 10 in
  (if Req_EM_T a 0 then false else true) &&
  (if Rlt_dec x a then true else false) &&
  (if Rle_dec (Rabs (a - x)) (eps * Rmax (Rabs a) (Rabs x)) then false else true).

(** Dune::sign *)
Definition sign (a : R) : R := if Rlt_dec a 0 then -1 else 1.

(** neohooke.hh 165-182 *)
Definition nhInverseStrain (s : rmat) : option rmat :=
  if Req_EM_T lambda 0 then Some (inv3 (fun i j => kron i j - 1 / mu * s i j))
  else
    let A := fun i j => 1 / lambda * (mu * kron i j - s i j) in
    let a := det3 A in
    if checkInvertability a then
      let b := 2 / 3 * mu / lambda - ln (3 / 2) + 1 / 3 * ln (Rabs a) in
      let lnJ := mu / lambda - 3 / 2 * W (sign a * exp b) in
      Some (fun i j => (mu / lambda - lnJ) * inv3 A i j)
    else None.

(** neohooke.hh 183-186 *)
Definition nhMaterialInversion (s : rmat) : option (rmat * (nat -> R)) :=
  match nhInverseStrain s with
  | None => None
  | Some C =>
    match nhModuli C with
    | None => None
    | Some L =>
      match readVec 6 (toVoigt 3 C true) with
      | Some v => Some (inverse 6%nat (fun a b => match toVoigtTensor L a b with Some x => x | None => 0 end), v)
      | None => None
      end
    end
  end.
End NeoHooke.
