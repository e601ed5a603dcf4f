(** Model of ikarus/finiteelements/mechanics/materials/hyperelastic/volumetric/volumetricfunctions.hh (VF0 to VF12) and interface.hh
    over the real numbers.  pow(x, y) with a real exponent is Rpower, with an integer constant a power of the real number. *)

From Coq Require Import Reals.
Local Open Scope R_scope.

(** The structs VF0 to VF12, lines 25-380 *)
Inductive volumetricFunction :=
  | VF0 | VF1 | VF2 | VF3 | VF4 (beta : R) | VF5 | VF6 | VF7 (beta : R) | VF8 | VF9 | VF10 (beta : R) | VF11 | VF12.

(** storedEnergyImpl: lines 25-29, 51-55, 77-81, 104-108, 130-134, 164-168, 190-194, 216-220, 250-254, 276-280, 303-307, 337-341, 362-366 *)
Definition vfEnergy (f : volumetricFunction) (J : R) : R :=
  match f with
  | VF0 => 0
  | VF1 => 1 / 2 * (J - 1) ^ 2
  | VF2 => 1 / 4 * ((J - 1) ^ 2 + ln J ^ 2)
  | VF3 => 1 / 2 * ln J ^ 2
  | VF4 beta => 1 / beta ^ 2 * (1 / Rpower J beta - 1 + beta * ln J)
  | VF5 => 1 / 4 * (J ^ 2 - 1 - 2 * ln J)
  | VF6 => J - ln J - 1
  | VF7 beta => Rpower J beta * (beta * ln J - 1) + 1
  | VF8 => J * ln J - J + 1
  | VF9 => 1 / 32 * (J ^ 2 - / J ^ 2) ^ 2
  | VF10 beta => J / beta * (1 - Rpower J (- beta) / (1 - beta)) + 1 / (beta - 1)
  | VF11 => 1 / 50 * (J ^ 5 + / J ^ 5 - 2)
  | VF12 => J - 1
  end.

(** firstDerivativeImpl: lines 33, 59, 85, 112, 138, 172, 198, 224, 258, 284, 311, 345, 370 *)
Definition vfFirst (f : volumetricFunction) (J : R) : R :=
  match f with
  | VF0 => 0
  | VF1 => J - 1
  | VF2 => 1 / 2 * (J - 1 + 1 / J * ln J)
  | VF3 => 1 / J * ln J
  | VF4 beta => 1 / beta * (1 / J - 1 / Rpower J (1 + beta))
  | VF5 => 1 / 2 * (J - 1 / J)
  | VF6 => 1 - 1 / J
  | VF7 beta => beta ^ 2 * (1 / Rpower J (1 - beta)) * ln J
  | VF8 => ln J
  | VF9 => 1 / 8 * (J ^ 3 - 1 / J ^ 5)
  | VF10 beta => 1 / beta * (1 - Rpower J (- beta))
  | VF11 => 1 / 10 * (J ^ 4 - / J ^ 6)
  | VF12 => 1
  end.

(** secondDerivativeImpl *)
Definition vfSecond (f : volumetricFunction) (J : R) : R :=
  match f with
  | VF0 => 0
  | VF1 => 1
  | VF2 => let Jsq := J ^ 2 in 1 / (2 * Jsq) * (1 + Jsq - ln J)
  | VF3 => 1 / J ^ 2 * (1 - ln J)
  | VF4 beta => 1 / beta * (1 / Rpower J (2 + beta) * (1 + beta - Rpower J beta))
  | VF5 => 1 / 2 * (1 + 1 / J ^ 2)
  | VF6 => 1 / J ^ 2
  | VF7 beta => beta ^ 2 * Rpower J (beta - 2) * (1 + (beta - 1) * ln J)
  | VF8 => 1 / J
  | VF9 => 1 / 8 * (5 * / J ^ 6 + 3 * J ^ 2)
  | VF10 beta => Rpower J (-1 - beta)
  | VF11 => 1 / 10 * (4 * J ^ 3 + 6 * / J ^ 7)
  | VF12 => 0
  end.

(** interface.hh 69-97 *)
Definition volEnergy (kappa : R) (f : volumetricFunction) (J : R) : R := kappa * vfEnergy f J.
Definition volFirst (kappa : R) (f : volumetricFunction) (J : R) : R := kappa * vfFirst f J.
Definition volSecond (kappa : R) (f : volumetricFunction) (J : R) : R := kappa * vfSecond f J.
