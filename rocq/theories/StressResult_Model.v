(** Model of the stress results of solid elements: calculateStress and calculateAtImpl of linearelastic.hh 220-254, nonlinearelastic.hh
    223-271, enhancedassumedstrains.hh 127-187 and assumedstress.hh 124-170 and 457-464, with enlargeIfReduced (linearalgebrahelper.hh 616-642).

    The material under the reduction is given by its stresses and tangent in Voigt notation, both as functions of the 3x3 strain in the strain
    measure of the element (vanishingstress.hh and vanishingstrain.hh wrap exactly such a function, see VanishingStress_Model.v).
    Simplification: the strain or displacement gradient at the point is an argument; the interpolation of the nodal values that gives it is
    modelled in the files of the elements.  [None] is an exception (Dune::MathError of the plane stress iteration). *)

From Coq Require Import List Arith Reals Bool.
From Verif Require Import Tensor_Model LinearAlgebra_Model SVK_Model NeoHooke_Model Conversions_Model VanishingStress_Model.
Import ListNotations.
Local Open Scope R_scope.

(** The material of the element: three-dimensional, planeStrain (vanishingstrain.hh 195-198) or planeStress (vanishingstress.hh 258-268) *)
Inductive reduction := threeD | planeStrain | planeStress.
Definition worldDim (red : reduction) : nat := match red with threeD => 3 | _ => 2 end.
(** freeVoigtIndices of both reductions *)
Definition planeFree : list nat := [0; 1; 5]%nat.

(** Eigen's determinant() of a 2x2 or 3x3 matrix *)
Definition determinant (d : nat) (F : rmat) : R :=
  if (d =? 2)%nat then F 0%nat 0%nat * F 1%nat 1%nat - F 0%nat 1%nat * F 1%nat 0%nat else det3 F.

(** feresulttypes.hh 126-132 *)
Inductive stressResult := PK2Stress | PK2StressFull | kirchhoffStress | cauchyStress.

Section StressResult.
Variable red : reduction.
Variable stress : rmat -> nat -> R.           (** stresses<strainTag, true> of the underlying material *)
Variable moduli : rmat -> rmat.               (** tangentModuli<strainTag, true> of it *)
Variable factor : R.                          (** its derivativeFactor *)
Variable inverse : nat -> rmat -> rmat.       (** Eigen's inverse() of an n x n matrix *)
Variable tol : R.                             (** tolerance of the plane stress iteration *)

(** linearalgebrahelper.hh 616-627 *)
Definition enlargeIfReduced (e : nat -> R) : nat -> R := match red with threeD => e | _ => enlargeVector planeFree e end.

(** stresses of the underlying material; interface.hh converts the vector with six components to a matrix *)
Definition underlyingStresses (e6 : nat -> R) : option (nat * (nat -> R)) :=
  match maybeFromVoigt (Vector6 e6) true with Some E => Some (6%nat, stress E) | None => None end.
(** stresses of the material of the element *)
Definition materialStresses (e6 : nat -> R) : option (nat * (nat -> R)) :=
  match maybeFromVoigt (Vector6 e6) true with
  | None => None
  | Some E =>
    match red with
    | threeD => Some (6%nat, stress E)
    | planeStrain => vsnStressesVoigt planeStressPairs stress planeStressIndices E
    | planeStress => vsStressesVoigt stress moduli factor false inverse planeStressPairs planeStressIndices tol E
    end
  end.

(** linearelastic.hh 220-223, nonlinearelastic.hh 223-226, enhancedassumedstrains.hh 127-131: calculateStress with the material chosen by
    calculateAtImpl (linearelastic.hh 241-246, nonlinearelastic.hh 249-254, enhancedassumedstrains.hh 153-158, 167-172) *)
Definition calculateStress (full : bool) (e : nat -> R) : option (nat * (nat -> R)) :=
  if full then match red with threeD => materialStresses (enlargeIfReduced e) | _ => underlyingStresses (enlargeIfReduced e) end
  else materialStresses (enlargeIfReduced e).

(** calculateAtImpl of linear elements: linearelastic.hh 233-254 with the strain of the displacements, enhancedassumedstrains.hh 147-162 with
    the enhanced strain *)
Definition linearResult (full : bool) (e : nat -> R) : option (nat * (nat -> R)) := calculateStress full e.

(** fromVoigt(stress, false), transformStress<PK2, to>(., F), toVoigt(., false): nonlinearelastic.hh 262-267, enhancedassumedstrains.hh 177-183;
    msqrt and inverse are not used by these conversions *)
Definition pushForward (to : stressTag) (s F : rmat) : option rmat :=
  transformStress (worldDim red) (fun A => A) (determinant (worldDim red)) PK2 to s F.
Definition readSquare (n : nat) (m : mat) : rmat := fun i j => match m i j with Some x => x | None => 0 end.
Definition transformed (to : stressTag) (r : nat * (nat -> R)) (F : rmat) : option (nat * (nat -> R)) :=
  match fromVoigt (fst r) (snd r) false with
  | None => None
  | Some (n, m) =>
    match pushForward to (readSquare n m) F with
    | None => None
    | Some t => match readVec (fst r) (toVoigt n t false) with Some v => Some (fst r, v) | None => None end
    end
  end.

(** calculateAtImpl of nonlinear elements, 237-271 and 164-185: [e] is the Green-Lagrange strain in Voigt notation (enhanced or not), [F] the
    deformation gradient of the displacements *)
Definition nonlinearResult (rt : stressResult) (e : nat -> R) (F : rmat) : option (nat * (nat -> R)) :=
  match calculateStress (match rt with PK2StressFull => true | _ => false end) e with
  | None => None
  | Some s =>
    match rt with
    | PK2Stress | PK2StressFull => Some s
    | kirchhoffStress => transformed Kirchhoff s F
    | cauchyStress => transformed Cauchy s F
    end
  end.

(** nonlinearelastic.hh 245-258, without enhancement: both from the displacement gradient *)
Definition gradientResult (rt : stressResult) (H : rmat) : option (nat * (nat -> R)) :=
  let d := worldDim red in
  match transformStrain d (fun A => A) displacementGradient greenLagrangian H,
        transformStrain d (fun A => A) displacementGradient deformationGradient H with
  | Some E, Some F =>
    match readVec (d * (d + 1) / 2) (toVoigt d E true) with Some e => nonlinearResult rt e F | None => None end
  | _, _ => None
  end.

(** assumedstress.hh 124-170 with enlargeStressAnsatz (457-464), reduced materials: [inversion] is materialInversion of the reduced material,
    which gives three strain components *)
Definition assumedResult (full : bool) (inversion : (nat -> R) -> nat -> R) (s : nat -> R) : option (nat * (nat -> R)) :=
  if full then underlyingStresses (enlargeIfReduced (inversion s)) else Some (3%nat, s).
End StressResult.
