(** Model of displacement-pressure elements with plane materials: the reduction of the two parts in decomposehyperelastic.hh 56-69, the
    constitutive driver (displacementpressure.hh 53-74) and calculateStress of the results (299-305, 329-336).

    The deviatoric and the volumetric part are given by their stored energies, stresses and moduli in Voigt notation as functions of the 3x3
    Green-Lagrange strain.  The split of the material is modelled in PressureMaterial_Model.v. *)

From Coq Require Import List Arith Reals Bool.
From Verif Require Import Tensor_Model LinearAlgebra_Model SVK_Model VanishingStress_Model StressResult_Model.
Import ListNotations.
Local Open Scope R_scope.

Record part := mkPart { energyOf : rmat -> R; stressesOf : rmat -> nat -> R; moduliOf : rmat -> rmat }.

Section PlanePressure.
Variable red : reduction.
Variable factor : R.                          (** derivativeFactor of the hyperelastic materials *)
Variable inverse : nat -> rmat -> rmat.       (** Eigen's inverse() of an n x n matrix *)
Variable tol : R.                             (** the default tolerance of VanishingStress (vanishingstress.hh 53), for both parts *)

(** decomposehyperelastic.hh 56-69: each part is reduced for itself *)
Definition partStresses (m : part) (e : nat -> R) : option (nat * (nat -> R)) :=
  calculateStress red (stressesOf m) (moduliOf m) factor inverse tol false e.
Definition partEnergy (m : part) (e : nat -> R) : option R :=
  match maybeFromVoigt (Vector6 (enlargeIfReduced red e)) true with
  | None => None
  | Some E =>
    match red with
    | threeD => Some (energyOf m E)
    | planeStrain => Some (vsnEnergy planeStressPairs (energyOf m) E)
    | planeStress => vsStoredEnergy (stressesOf m) (moduliOf m) factor false inverse planeStressPairs planeStressIndices tol (energyOf m) E
    end
  end.

Variables dev vol : part.
(** displacementpressure.hh 55-59 *)
Definition driverEnergy (kappa : R) (e : nat -> R) (p : R) : option R :=
  match partEnergy dev e, partEnergy vol e with
  | Some w, Some u => Some (w + p * u - 1 / (2 * kappa) * p ^ 2)
  | _, _ => None
  end.
(** 61-66, and 299-305 for PK2Stress *)
Definition driverStresses (e : nat -> R) (p : R) : option (nat * (nat -> R)) :=
  match partStresses dev e, partStresses vol e with
  | Some (n, a), Some (_, b) => Some (n, fun k => a k + p * b k)
  | _, _ => None
  end.
(** 329-336: PK2StressFull uses the underlying materials of both parts *)
Definition driverFull (e : nat -> R) (p : R) : option (nat * (nat -> R)) :=
  match calculateStress red (stressesOf dev) (moduliOf dev) factor inverse tol true e,
        calculateStress red (stressesOf vol) (moduliOf vol) factor inverse tol true e with
  | Some (n, a), Some (_, b) => Some (n, fun k => a k + p * b k)
  | _, _ => None
  end.
End PlanePressure.
