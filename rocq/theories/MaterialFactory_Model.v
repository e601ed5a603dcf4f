(** Model of ikarus/finiteelements/mechanics/materials/hyperelastic/factory.hh.  [None]: the constructor of the deviatoric function throws.
    Arrays of n parameters and exponents are lists of length n; they are paired by their index. *)

From Coq Require Import List Reals.
From Verif Require Import Volumetric_Model Deviatoric_Model Hyperelastic_Model.
Import ListNotations.
Local Open Scope R_scope.

(** 34-39: Hyperelastic without volumetric part, interface.hh: Volumetric<VF0> with parameter zero *)
Definition makeBlatzKo (mu : R) : hyperelastic := {| dev := BlatzKo mu; bulk := 0; vol := VF0 |}.

(** 56-65 *)
Inductive stretchTag := total_ | deviatoric_.
Definition makeOgden (tag : stretchTag) (mu alpha : list R) (K : R) (vf : volumetricFunction) : hyperelastic :=
  {| dev := match tag with total_ => OgdenTotal (combine mu alpha) | deviatoric_ => OgdenDeviatoric (combine mu alpha) end; bulk := K; vol := vf |}.

(** 81-91; checkExponents is called by the constructor of InvariantBased *)
Definition makeInvariantBased (mu : list R) (pex qex : list nat) (K : R) (vf : volumetricFunction) : option hyperelastic :=
  let terms := map (fun t => (fst (fst t), snd (fst t), snd t)) (combine (combine mu pex) qex) in
  if checkExponents terms then Some {| dev := InvariantBased terms; bulk := K; vol := vf |} else None.

(** 105-112 *)
Definition makeMooneyRivlin (mu0 mu1 : R) (K : R) (vf : volumetricFunction) : option hyperelastic :=
  makeInvariantBased [mu0; mu1] [1; 0]%nat [0; 1]%nat K vf.

(** 126-133 *)
Definition makeYeoh (mu0 mu1 mu2 : R) (K : R) (vf : volumetricFunction) : option hyperelastic :=
  makeInvariantBased [mu0; mu1; mu2] [1; 2; 3]%nat [0; 0; 0]%nat K vf.

(** 147-155 *)
Definition makeArrudaBoyce (mu lambdaM : R) (K : R) (vf : volumetricFunction) : hyperelastic :=
  {| dev := ArrudaBoyce mu lambdaM; bulk := K; vol := vf |}.

(** 169-177 *)
Definition makeGent (mu Jm : R) (K : R) (vf : volumetricFunction) : hyperelastic := {| dev := Gent mu Jm; bulk := K; vol := vf |}.

(** 185-189 *)
Definition makePureVolumetric (vf : volumetricFunction) (K : R) : hyperelastic := {| dev := NoDev; bulk := K; vol := vf |}.
