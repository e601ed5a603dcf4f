(** Model of ikarus/finiteelements/mechanics/materials/hyperelastic/interface.hh (the struct Hyperelastic for double, lines 31-245 and
    262-265, 316-318) over the real numbers, with Impl::principalStretches of materials/materialhelpers.hh (lines 139-153).
    The argument is C as a 3 x 3 matrix (StrainTags::rightCauchyGreenTensor).  Eigen's SelfAdjointEigenSolver is a parameter:
    None when its info() is not Success.  The square root of a negative number, which is a NaN in C++, is not modelled here
    (see HyperelasticCheck_Model.v). *)

From Coq Require Import Reals List.
From Verif Require Import Tensor_Model NeoHooke_Model Volumetric_Model Deviatoric_Model.
Local Open Scope R_scope.

(** Raises: an exception (Dune::MathError of principalStretches, Dune::InvalidStateException of Gent).  Aborts: abort() of
    checkPositiveOrAbort.  Undefined: an access outside an array (Ogden with more than three parameters) *)
Inductive result (A : Type) :=
  | Returns (a : A)
  | Raises
  | Aborts
  | Undefined.
Arguments Returns {A} _.
Arguments Raises {A}.
Arguments Aborts {A}.
Arguments Undefined {A}.

Definition bind {A B} (r : result A) (k : A -> result B) : result B :=
  match r with Returns a => k a | Raises => Raises | Aborts => Aborts | Undefined => Undefined end.

Definition ofOutcome {A} (o : outcome A) : result A :=
  match o with Value a => Returns a | Throws => Raises | OutOfBounds => Undefined end.

(** The deviatoric and the volumetric part of the material (lines 84-86) *)
Record hyperelastic := { dev : deviatoricFunction; bulk : R; vol : volumetricFunction }.

Section Hyperelastic.
Variable eigensolver : rmat -> option ((nat -> R) * rmat).

(** An Eigen::Vector of three entries: nothing is kept beyond them *)
Definition vector3 (v : nat -> R) : nat -> R := fun i => if Nat.ltb i 3 then v i else 0.

(** materialhelpers.hh principalStretches, lines 139-153 *)
Definition principalStretches (C : rmat) : result (stretches * rmat) :=
  match eigensolver C with
  | None => Raises
  | Some (eigenvalues, eigenvectors) => Returns (fun i => sqrt (vector3 eigenvalues i), eigenvectors)
  end.

(** detF, lines 243-253: Impl::checkPositiveOrAbort(detC), which aborts for le(detC, 0) *)
Definition detF (lambda : stretches) : result R :=
  let J := prod3 lambda in if Rle_dec J 0 then Aborts else Returns J.

(** storedEnergyImpl, lines 105-113 *)
Definition storedEnergy (m : hyperelastic) (C : rmat) : result R :=
  bind (principalStretches C) (fun '(lambdas, _) =>
  bind (detF lambdas) (fun J =>
  bind (ofOutcome (devEnergy (dev m) lambdas)) (fun W =>
  Returns (W + volEnergy (bulk m) (vol m) J)))).

(** transformDeviatoricStresses, lines 175-179: N diag(principalStress) N^T *)
Definition transformDeviatoricStresses (principalStress : nat -> R) (N : rmat) : rmat := fun i j =>
  N i 0%nat * principalStress 0%nat * N j 0%nat + N i 1%nat * principalStress 1%nat * N j 1%nat
  + N i 2%nat * principalStress 2%nat * N j 2%nat.

(** transformVolumetricStresses, lines 181-184 *)
Definition transformVolumetricStresses (Uprime : R) (C : rmat) (J : R) : rmat := fun i j => J * Uprime * inv3 C i j.

(** stressesImpl, lines 122-136 *)
Definition stresses (m : hyperelastic) (C : rmat) : result rmat :=
  bind (principalStretches C) (fun '(lambdas, N) =>
  bind (detF lambdas) (fun J =>
  bind (ofOutcome (devStresses (dev m) lambdas)) (fun S =>
  let Sdev := transformDeviatoricStresses S N in
  let Svol := transformVolumetricStresses (volFirst (bulk m) (vol m) J) C J in
  Returns (fun i j => Sdev i j + Svol i j)))).

(** The loops over dimensionRange *)
Definition loop3 (f : nat -> R) : R := f 0%nat + f 1%nat + f 2%nat.

(** transformDeviatoricTangentModuli, lines 187-212 *)
Definition transformDeviatoricTangentModuli (L : rtensor4) (N : rmat) : rtensor4 := fun p q r s =>
  loop3 (fun i => loop3 (fun k =>
    L i i k k * ((N p i * N q i) * (N r k * N s k))
    + (if Nat.eqb i k then 0 else L i k i k * ((N p i * N q k) * (N r i * N s k + N r k * N s i))))).

(** transformVolumetricTangentModuli, lines 214-225 *)
Definition transformVolumetricTangentModuli (Uprime Uprimeprime : R) (C : rmat) (J : R) : rtensor4 := fun p q r s =>
  J * ((Uprime + J * Uprimeprime) * dyadic (inv3 C) (inv3 C) p q r s
       - 2 * Uprime * symTwoSlots (fourthOrderIKJL (inv3 C) (inv3 C)) 2 3 p q r s).

(** tangentModuliImpl, lines 145-159 *)
Definition tangentModuli (m : hyperelastic) (C : rmat) : result rtensor4 :=
  bind (principalStretches C) (fun '(lambdas, N) =>
  bind (detF lambdas) (fun J =>
  bind (ofOutcome (devTangent (dev m) lambdas)) (fun L =>
  let moduliDev := transformDeviatoricTangentModuli L N in
  let moduliVol := transformVolumetricTangentModuli (volFirst (bulk m) (vol m) J) (volSecond (bulk m) (vol m) J) C J in
  Returns (fun p q r s => moduliDev p q r s + moduliVol p q r s)))).
End Hyperelastic.
