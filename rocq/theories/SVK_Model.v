(** Model of ikarus/finiteelements/mechanics/materials/svk.hh and linearelasticity.hh over the real numbers, with the parts of
    interface.hh that choose the representation.  LinearElasticity forwards every call to SVK (linearelasticity.hh 68-137), so the
    functions below are both.  The strain tag is the one of the material (no conversion, see Conversions_Model.v for the others). *)

From Coq Require Import List Arith Reals Bool.
From Verif Require Import Tensor_Model.
Import ListNotations.
Local Open Scope R_scope.

(** A strain or stress given as 3x3 matrix or as vector with six components *)
Inductive tensor2 := Matrix33 (E : rmat) | Vector6 (v : nat -> R).

(** Reading all entries of a 3x3 matrix or of a vector with n components; None: an entry was never written *)
Definition readMat (m : mat) : option rmat :=
  if forallb (fun i => forallb (fun j => match m i j with Some _ => true | None => false end) (seq 0 3)) (seq 0 3)
  then Some (fun i j => match m i j with Some x => x | None => 0 end) else None.
Definition readVec (n : nat) (v : vec) : option (nat -> R) :=
  if forallb (fun i => match v i with Some _ => true | None => false end) (seq 0 n)
  then Some (fun i => match v i with Some x => x | None => 0 end) else None.

(** materialhelpers.hh 89-94 *)
Definition maybeFromVoigt (x : tensor2) (isStrain : bool) : option rmat :=
  match x with
  | Matrix33 E => Some E
  | Vector6 v => match fromVoigt 6 v isStrain with Some (3%nat, m) => readMat m | _ => None end
  end.
(** materialhelpers.hh 105-111 *)
Definition maybeToVoigt (x : tensor2) (isStrain : bool) : option (nat -> R) :=
  match x with
  | Matrix33 E => readVec 6 (toVoigt 3 E isStrain)
  | Vector6 v => Some v
  end.

Section SVK.
Variables lambda mu : R.

Definition trace (E : rmat) : R := E 0%nat 0%nat + E 1%nat 1%nat + E 2%nat 2%nat.
(** squaredNorm of a 3x3 matrix *)
Definition squaredNorm (E : rmat) : R :=
  E 0%nat 0%nat * E 0%nat 0%nat + E 0%nat 1%nat * E 0%nat 1%nat + E 0%nat 2%nat * E 0%nat 2%nat +
  E 1%nat 0%nat * E 1%nat 0%nat + E 1%nat 1%nat * E 1%nat 1%nat + E 1%nat 2%nat * E 1%nat 2%nat +
  E 2%nat 0%nat * E 2%nat 0%nat + E 2%nat 1%nat * E 2%nat 1%nat + E 2%nat 2%nat * E 2%nat 2%nat.

(** svk.hh 77-89 *)
Definition storedEnergyImpl (x : tensor2) : R :=
  match x with
  | Vector6 e =>
    let traceE := e 0%nat + e 1%nat + e 2%nat in
    let n := e 0%nat * e 0%nat + e 1%nat * e 1%nat + e 2%nat * e 2%nat
             + (e 3%nat * e 3%nat + e 4%nat * e 4%nat + e 5%nat * e 5%nat) / 2 in
    lambda / 2 * traceE * traceE + mu * n
  | Matrix33 E => lambda / 2 * trace E * trace E + mu * squaredNorm E
  end.

(** svk.hh 98-138, voigt = false *)
Definition stressesImplMatrix (x : tensor2) : rmat :=
  match x with
  | Vector6 e =>
    let t := e 0%nat + e 1%nat + e 2%nat in
    entries [[lambda * t + 2 * mu * e 0%nat; mu * e 5%nat; mu * e 4%nat];
             [mu * e 5%nat; lambda * t + 2 * mu * e 1%nat; mu * e 3%nat];
             [mu * e 4%nat; mu * e 3%nat; lambda * t + 2 * mu * e 2%nat]]
  | Matrix33 E => fun i j => lambda * trace E * kron i j + 2 * mu * E i j
  end.
Definition vector (l : list R) : nat -> R := fun i => nth i l 0.
(** voigt = true *)
Definition stressesImplVoigt (x : tensor2) : nat -> R :=
  match x with
  | Vector6 e =>
    let t := e 0%nat + e 1%nat + e 2%nat in
    vector [t * lambda + mu * 2 * e 0%nat; t * lambda + mu * 2 * e 1%nat; t * lambda + mu * 2 * e 2%nat;
            mu * e 3%nat; mu * e 4%nat; mu * e 5%nat]
  | Matrix33 E =>
    vector [trace E * lambda + 2 * mu * E 0%nat 0%nat; trace E * lambda + 2 * mu * E 1%nat 1%nat;
            trace E * lambda + 2 * mu * E 2%nat 2%nat;
            2 * mu * E 1%nat 2%nat; 2 * mu * E 0%nat 2%nat; 2 * mu * E 0%nat 1%nat]
  end.

(** svk.hh 148-164 *)
Definition tangentModuliImplTensor : rtensor4 :=
  fun i j k l => lambda * identityFourthOrder 3 i j k l + 2 * mu * symmetricIdentityFourthOrder i j k l.
Definition tangentModuliImplVoigt : rmat :=
  entries [[lambda + 2 * mu; lambda; lambda; 0; 0; 0];
           [lambda; lambda + 2 * mu; lambda; 0; 0; 0];
           [lambda; lambda; lambda + 2 * mu; 0; 0; 0];
           [0; 0; 0; mu; 0; 0];
           [0; 0; 0; 0; mu; 0];
           [0; 0; 0; 0; 0; mu]].

(** interface.hh 187-200 *)
Definition storedEnergy (x : tensor2) : option R :=
  match maybeFromVoigt x true with
  | None => None
  | Some E =>
    match x with
    | Vector6 _ => match readVec 6 (toVoigt 3 E true) with Some v => Some (storedEnergyImpl (Vector6 v)) | None => None end
    | Matrix33 _ => Some (storedEnergyImpl (Matrix33 E))
    end
  end.

(** interface.hh 211-221, 302-311: after the strain transformation the argument is always a matrix *)
Definition stressesVoigt (x : tensor2) : option (nat -> R) :=
  match maybeFromVoigt x true with Some E => Some (stressesImplVoigt (Matrix33 E)) | None => None end.
Definition stressesMatrix (x : tensor2) : option rmat :=
  match maybeFromVoigt x true with Some E => Some (stressesImplMatrix (Matrix33 E)) | None => None end.

(** svk.hh 183-190; [inverse] is Eigen's inverse() of a 6x6 matrix *)
Variable inverse : rmat -> rmat.
Definition matVec6 (A : rmat) (v : nat -> R) (i : nat) : R :=
  A i 0%nat * v 0%nat + A i 1%nat * v 1%nat + A i 2%nat * v 2%nat + A i 3%nat * v 3%nat + A i 4%nat * v 4%nat + A i 5%nat * v 5%nat.
Definition materialInversionImpl (x : tensor2) : option (rmat * (nat -> R)) :=
  let D := inverse tangentModuliImplVoigt in
  match maybeToVoigt x false with Some s => Some (D, matVec6 D s) | None => None end.

(** interface.hh 264-285, voigt = true *)
Definition materialInversion (x : tensor2) : option (rmat * (nat -> R)) :=
  match maybeFromVoigt x false with
  | None => None
  | Some s =>
    match materialInversionImpl (Matrix33 s) with
    | None => None
    | Some (D, Eraw) =>
      match maybeFromVoigt (Vector6 Eraw) true with
      | None => None
      | Some E => match readVec 6 (toVoigt 3 E true) with Some v => Some (D, v) | None => None end
      end
    end
  end.
End SVK.
