(** Model of ikarus/finiteelements/mechanics/materials/strainconversions.hh, stressconversions.hh and materialconversions.hh over the
    real numbers, for d x d matrices (the program allows 2 and 3).  Strains and stresses are matrices here; for vectors in Voigt
    notation maybeFromVoigt is applied first, see [transformStrain3] and [transformStress3].
    Conversions that do not compile (static_assert) are [None]. *)

From Coq Require Import List Arith Reals Bool.
From Verif Require Import Tensor_Model LinearAlgebra_Model SVK_Model.
Import ListNotations.
Local Open Scope R_scope.

(** materials/tags.hh 19, 26, 33 *)
Inductive strainTag := linear | deformationGradient | displacementGradient | greenLagrangian | rightCauchyGreenTensor.
Inductive stressTag := linearStress | PK1 | PK2 | Kirchhoff | Cauchy.
Inductive moduliTag := Material | Spatial | TwoPoint.
Definition strainTag_eqb (a b : strainTag) : bool :=
  match a, b with
  | linear, linear | deformationGradient, deformationGradient | displacementGradient, displacementGradient
  | greenLagrangian, greenLagrangian | rightCauchyGreenTensor, rightCauchyGreenTensor => true
  | _, _ => false
  end.
Definition stressTag_eqb (a b : stressTag) : bool :=
  match a, b with
  | linearStress, linearStress | PK1, PK1 | PK2, PK2 | Kirchhoff, Kirchhoff | Cauchy, Cauchy => true
  | _, _ => false
  end.

(** Matrix operations *)
Definition mprod (d : nat) (A B : rmat) : rmat := fun i j => sumL (seq 0 d) (fun k => A i k * B k j).
Definition mt (A : rmat) : rmat := fun i j => A j i.
Definition madd (A B : rmat) : rmat := fun i j => A i j + B i j.
Definition msub (A B : rmat) : rmat := fun i j => A i j - B i j.
Definition mscale (c : R) (A : rmat) : rmat := fun i j => c * A i j.

Section Conversions.
Variable d : nat.
Variable msqrt : rmat -> rmat.      (** Eigen's matrix square root *)
Variable inv : rmat -> rmat.        (** Eigen's inverse() *)
Variable det : rmat -> R.           (** Eigen's determinant() *)

(** strainconversions.hh 33-46 *)
Definition createGreenLagrangianStrains (tag : strainTag) (e : rmat) : option rmat :=
  match tag with
  | greenLagrangian => Some e
  | deformationGradient => Some (mscale (1 / 2) (msub (mprod d (mt e) e) kron))
  | displacementGradient => Some (mscale (1 / 2) (madd (madd e (mt e)) (mprod d (mt e) e)))
  | rightCauchyGreenTensor => Some (mscale (1 / 2) (msub e kron))
  | linear => None
  end.
(** 58-76 *)
Definition createDeformationGradient (tag : strainTag) (e : rmat) : option rmat :=
  match tag with
  | greenLagrangian => Some (msqrt (madd (mscale 2 e) kron))
  | deformationGradient => Some e
  | displacementGradient => Some (madd e kron)
  | rightCauchyGreenTensor => Some (msqrt e)
  | linear => None
  end.
(** 88-106 *)
Definition createRightCauchyGreen (tag : strainTag) (e : rmat) : option rmat :=
  match tag with
  | greenLagrangian => Some (madd (mscale 2 e) kron)
  | deformationGradient => Some (mprod d (mt e) e)
  | displacementGradient => let F := madd e kron in Some (mprod d (mt F) F)
  | rightCauchyGreenTensor => Some e
  | linear => None
  end.
(** 118-134 *)
Definition transformStrain (from to : strainTag) (e : rmat) : option rmat :=
  if strainTag_eqb from to then Some e
  else match to with
       | greenLagrangian => createGreenLagrangianStrains from e
       | deformationGradient => createDeformationGradient from e
       | rightCauchyGreenTensor => createRightCauchyGreen from e
       | linear | displacementGradient => None
       end.

(** stressconversions.hh 32-49 *)
Definition createPK2Stress (tag : stressTag) (s F : rmat) : option rmat :=
  match tag with
  | Cauchy => Some (mprod d (mprod d (mscale (det F) (inv F)) s) (mt (inv F)))
  | Kirchhoff => Some (mprod d (mprod d (inv F) s) (mt (inv F)))
  | PK1 => Some (mprod d (inv F) s)
  | PK2 => Some s
  | linearStress => None
  end.
(** 61-75 *)
Definition createPK1Stress (tag : stressTag) (s F : rmat) : option rmat :=
  match tag with
  | Cauchy => Some (mprod d (mscale (det F) s) (mt (inv F)))
  | Kirchhoff => Some (mprod d s (mt (inv F)))
  | PK1 => Some s
  | PK2 => Some (mprod d F s)
  | linearStress => None
  end.
(** 87-101 *)
Definition createKirchhoffStress (tag : stressTag) (s F : rmat) : option rmat :=
  match tag with
  | Cauchy => Some (mscale (det F) s)
  | Kirchhoff => Some s
  | PK1 => Some (mprod d s (mt F))
  | PK2 => Some (mprod d (mprod d F s) (mt F))
  | linearStress => None
  end.
(** 113-128 *)
Definition createCauchyStress (tag : stressTag) (s F : rmat) : option rmat :=
  let invJ := 1 / det F in
  match tag with
  | Cauchy => Some s
  | Kirchhoff => Some (mscale invJ s)
  | PK1 => Some (mprod d (mscale invJ s) (mt F))
  | PK2 => Some (mprod d (mprod d (mscale invJ F) s) (mt F))
  | linearStress => None
  end.
(** 141-162 *)
Definition transformStress (from to : stressTag) (s F : rmat) : option rmat :=
  if stressTag_eqb from to then Some s
  else match to with
       | PK2 => createPK2Stress from s F
       | PK1 => createPK1Stress from s F
       | Kirchhoff => createKirchhoffStress from s F
       | Cauchy => createCauchyStress from s F
       | linearStress => None
       end.
End Conversions.

(** The raw argument is a 3x3 matrix or a vector in Voigt notation, strainconversions.hh 121, stressconversions.hh 147 *)
Definition transformStrain3 (msqrt : rmat -> rmat) (from to : strainTag) (x : tensor2) : option rmat :=
  match maybeFromVoigt x true with Some e => transformStrain 3 msqrt from to e | None => None end.
Definition transformStress3 (inv : rmat -> rmat) (det : rmat -> R) (from to : stressTag) (x : tensor2) (F : rmat) : option rmat :=
  match maybeFromVoigt x false with Some s => transformStress 3 inv det from to s F | None => None end.

(** materialconversions.hh 37-66 *)
Definition createTwoPointMaterialTensor (tag : moduliTag) (L : rtensor4) (s F : rmat) : option rtensor4 :=
  match tag with
  | Material => Some (fun i J k l =>
      loop 3 (fun I => loop 3 (fun K a => a + L I J K l * F i I * F k K)) (0 + kron i k * s J l))
  | TwoPoint => Some L
  | Spatial => None
  end.
