(** Model of ikarus/finiteelements/mechanics/materials/decomposehyperelastic.hh and of DPConstitutiveDriver
    (ikarus/finiteelements/mechanics/displacementpressure.hh lines 47-101) for a hyperelastic material that is not reduced, as functions of
    the right Cauchy-Green tensor over the real numbers.  Pressure_Model.v has the same driver as functions of a Voigt vector for
    arbitrary materials. *)

From Coq Require Import Reals.
From Verif Require Import Tensor_Model NeoHooke_Model Volumetric_Model Deviatoric_Model Hyperelastic_Model.
Local Open Scope R_scope.

(** decomposehyperelastic.hh lines 46-56, materials/hyperelastic/interface.hh lines 73-76 (the constructor without a volumetric part),
    materials/hyperelastic/factory.hh lines 185-189 (makePureVolumetric with K = 1) *)
Definition deviatoricMaterial (m : hyperelastic) : hyperelastic := {| dev := dev m; bulk := 0; vol := VF0 |}.
Definition volumetricMaterial (m : hyperelastic) : hyperelastic := {| dev := NoDev; bulk := 1; vol := vol m |}.
Definition volumetricParameter (m : hyperelastic) : R := bulk m.

Section Driver.
Variable eigensolver : rmat -> option ((nat -> R) * rmat).

(** displacementpressure.hh lines 52-58 *)
Definition pressureEnergy (m : hyperelastic) (C : rmat) (p : R) : result R :=
  bind (storedEnergy eigensolver (deviatoricMaterial m) C) (fun Wdev =>
  bind (storedEnergy eigensolver (volumetricMaterial m) C) (fun uhat =>
  Returns (Wdev + p * uhat - 1 / (2 * volumetricParameter m) * p ^ 2))).

(** Lines 60-65: the stresses S *)
Definition pressureStresses (m : hyperelastic) (C : rmat) (p : R) : result rmat :=
  bind (stresses eigensolver (deviatoricMaterial m) C) (fun Sdev =>
  bind (stresses eigensolver (volumetricMaterial m) C) (fun dUdE =>
  Returns (fun i j => Sdev i j + p * dUdE i j))).

(** Lines 67-72 *)
Definition pressureModuli (m : hyperelastic) (C : rmat) (p : R) : result rtensor4 :=
  bind (tangentModuli eigensolver (deviatoricMaterial m) C) (fun Cdev =>
  bind (tangentModuli eigensolver (volumetricMaterial m) C) (fun d2UdE2 =>
  Returns (fun i j k l => Cdev i j k l + p * d2UdE2 i j k l))).
End Driver.
