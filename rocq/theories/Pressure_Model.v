(** Model of ikarus/finiteelements/mechanics/displacementpressure.hh over the real numbers.
    The element-local vector of unknowns has the displacements at (node * dim + direction), followed by the pressures: in a composite
    basis the local indices of the second child start after those of the first, of which there are dim * numberOfNodes.
    See FEHelper_Model for the global indices. *)

From Coq Require Import Reals Arith Bool List.
From Verif Require Import Tensor_Spec Tensor_Model Element_Model.
Import ListNotations.
Local Open Scope R_scope.

(** force(i) += v *)
Definition addEntry (i : nat) (v : R) (f : nat -> R) : nat -> R := fun k => if (k =? i)%nat then f k + v else f k.
(** K.block<d, 1>(i * d, j) += v and K.block<1, d>(i, j * d) += v *)
Definition addColumn (d i j : nat) (v : nat -> R) (K : nat -> nat -> R) : nat -> nat -> R :=
  fun k l => if ((i * d <=? k) && (k <? i * d + d) && (l =? j))%nat then K k l + v (k - i * d)%nat else K k l.
Definition addRow (d i j : nat) (v : nat -> R) (K : nat -> nat -> R) : nat -> nat -> R :=
  fun k l => if ((k =? i) && ((j * d <=? l) && (l <? j * d + d)))%nat then K k l + v (l - j * d)%nat else K k l.
(** K(i, j) -= v *)
Definition subtractAt (i j : nat) (v : R) (K : nat -> nat -> R) : nat -> nat -> R :=
  fun k l => if ((k =? i) && (l =? j))%nat then K k l - v else K k l.

Section DisplacementPressure.
  Variables (d n s m : nat).                 (* myDim, numberOfNodes_, strainDim and the number of shape functions of the pressure *)
  Variable points : list point.
  Variable eps : point -> (nat -> R) -> nat -> R.
  Variable bop : point -> (nat -> R) -> nat -> nat -> nat -> R.
  Variable kg : point -> (nat -> R) -> (nat -> R) -> nat -> nat -> nat -> nat -> R.
  Variable Np : point -> nat -> R.           (* the shape functions of the pressure *)
  (** The deviatoric and the volumetric material in Voigt notation, and kappa_ *)
  Variables (devEnergy : (nat -> R) -> R) (devStress : (nat -> R) -> nat -> R) (devModuli : (nat -> R) -> nat -> nat -> R).
  Variables (volEnergy : (nat -> R) -> R) (volStress : (nat -> R) -> nat -> R) (volModuli : (nat -> R) -> nat -> nat -> R).
  Variable kappa : R.

  (** DPConstitutiveDriver, lines 53-73 *)
  Definition Uhat (E : nat -> R) : R := volEnergy E.
  Definition driverEnergy (E : nat -> R) (p : R) : R := devEnergy E + p * Uhat E - 1 / (2 * kappa) * (p * p).
  Definition driverStress (E : nat -> R) (p : R) (k : nat) : R := devStress E k + p * volStress E k.
  Definition driverModuli (E : nat -> R) (p : R) (k l : nat) : R := devModuli E k l + p * volModuli E k l.

  (** localIndex of the second child *)
  Definition pressureIndex (j : nat) : nat := (d * n + j)%nat.
  (** pressureFunction, 248-256, evaluated at an integration point *)
  Definition pressure (gp : point) (x : nat -> R) : R := sum m (fun j => Np gp j * x (pressureIndex j)).

  (** energyFunction, 433-451, and calculateScalarImpl, 530-539 *)
  Definition dpScalar (x : nat -> R) : R :=
    fold_left (fun energy gp =>
      let e := driverEnergy (eps gp x) (pressure gp x) in energy + e * integrationElement gp * weight gp) points 0.

  (** calculateVectorImpl, 541-580; internalForcesFunction is that of Element_Model *)
  Definition dpVector (x force : nat -> R) : nat -> R :=
    fold_left (fun force gp =>
      let E := eps gp x in
      let p := pressure gp x in
      let S := driverStress E p in
      let force := loop n (fun i force => internalForces d s S (bop gp x i) i gp force) force in
      loop m (fun i force =>
        let pTerm := Np gp i * (Uhat E - p / kappa) in
        addEntry (pressureIndex i) (pTerm * integrationElement gp * weight gp) force) force) points force.

  (** calculateMatrixImpl, 459-528 *)
  Definition dpMatrix (x : nat -> R) (K : nat -> nat -> R) : nat -> nat -> R :=
    fold_left (fun K gp =>
      let E := eps gp x in
      let p := pressure gp x in
      let intElement := integrationElement gp * weight gp in
      let dUdE := volStress E in
      let S := driverStress E p in
      let C := driverModuli E p in
      let K := loop n (fun i K => loop n (fun j K =>
        geometricStiffness d (kg gp x S i j) i j gp (materialStiffness d s C (bop gp x i) (bop gp x j) i j gp K)) K) K in
      let K := loop n (fun i K => loop m (fun j K =>
        addColumn d i (pressureIndex j) (fun a => sum s (fun k => bop gp x i k a * dUdE k) * Np gp j * intElement) K) K) K in
      let K := loop m (fun i K => loop n (fun j K =>
        addRow d (pressureIndex i) j (fun a => sum s (fun k => bop gp x j k a * dUdE k) * Np gp i * intElement) K) K) K in
      loop m (fun i K => loop m (fun j K =>
        subtractAt (pressureIndex i) (pressureIndex j) (Np gp i * (1 / kappa) * Np gp j * intElement) K) K) K) points K.
End DisplacementPressure.
