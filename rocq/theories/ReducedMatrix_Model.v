(** Model of the matrix form (voigt = false) of stresses and tangent moduli of ikarus/finiteelements/mechanics/materials/vanishingstrain.hh
    and vanishingstress.hh, and of vanishingstrain.hh for all strain measures of the wrapped material.
    The wrapped material is given by its energy, its stress and its tangent in Voigt notation as functions of its own strain measure.
    [None]: a conversion that does not compile, or Dune::MathError. *)

From Coq Require Import List Arith Reals Bool.
From Verif Require Import Tensor_Model LinearAlgebra_Model SVK_Model Conversions_Model VanishingStress_Model PythonMaterial_Model.
Import ListNotations.
Local Open Scope R_scope.

Section VanishingStrain.
Variable msqrt : rmat -> rmat.
Variable own : strainTag.
Variable fixed : list (nat * nat).
Variable fx : list nat.

(** vanishingstrain.hh 80-83 *)
Definition strainEnergy (energy : rmat -> R) (e : rmat) : option R :=
  match reduceStrain msqrt fixed own e with Some e => Some (energy e) | None => None end.
(** 92-102, voigt = true *)
Definition strainStressesVoigt (stress : rmat -> nat -> R) (e : rmat) : option (nat * (nat -> R)) :=
  match reduceStrain msqrt fixed own e with Some e => removeCol 6 (stress e) fx | None => None end.
(** 92-102, voigt = false: stressesRed(fixedVoigtIndices).setZero() *)
Definition strainStressesMatrix (stress : rmat -> nat -> R) (e : rmat) : option (nat * mat) :=
  match reduceStrain msqrt fixed own e with
  | Some e => fromVoigt 6 (fun k => if in_dec Nat.eq_dec k fx then 0 else stress e k) false
  | None => None
  end.
(** 112-120, voigt = true *)
Definition strainModuliVoigt (moduli : rmat -> rmat) (e : rmat) : option (nat * rmat) :=
  match reduceStrain msqrt fixed own e with Some e => reduceMatrix 6 (moduli e) fx | None => None end.
(** 112-120, voigt = false *)
Definition strainModuliTensor (moduli : rmat -> rmat) (e : rmat) : option (nat * tensor4) :=
  match reduceStrain msqrt fixed own e with Some e => fromVoigtMatrix 6 (moduli e) | None => None end.
End VanishingStrain.

Section VanishingStress.
Variable stress : rmat -> nat -> R.
Variable moduli : rmat -> rmat.
Variable factor : R.
Variable unitStart : bool.
Variable inverse : nat -> rmat -> rmat.
Variable fixed : list (nat * nat).
Variable fx : list nat.
Variable tol : R.

(** vanishingstress.hh 99-108, voigt = false *)
Definition vsStressesMatrix (E : rmat) : option (nat * mat) :=
  match reduceStress stress moduli factor unitStart inverse fixed fx tol E with Some E' => fromVoigt 6 (stress E') false | None => None end.
(** 117-125, voigt = false *)
Definition vsModuliTensor (E : rmat) : option (nat * tensor4) :=
  match reduceStress stress moduli factor unitStart inverse fixed fx tol E with Some E' => fromVoigtMatrix 6 (moduli E') | None => None end.
End VanishingStress.
