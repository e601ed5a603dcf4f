(** Model of the displacement based solid elements, of the loads and of the composition of skills, over the real numbers:
      ikarus/finiteelements/mechanics/linearelastic.hh, nonlinearelastic.hh, loads/volume.hh, loads/traction.hh and mixin.hh.
    The element-local vector of displacements has the entries (node * dim + direction), see FEHelper_Model (fehelper.hh 27-46).
    An expression of dune-localfefunctions (linear or Green-Lagrange strains of the displacement function) is given by its value
    [eps], its derivative with respect to the coefficient of a node [bop] and its second derivative along a vector [kg]. *)

From Coq Require Import Reals Arith Bool List.
From Verif Require Import Tensor_Spec Tensor_Model.
Import ListNotations.
Local Open Scope R_scope.

(** f.segment<d>(d * i) += v *)
Definition addSegment (d i : nat) (v : nat -> R) (f : nat -> R) : nat -> R :=
  fun k => if ((d * i <=? k) && (k <? d * i + d))%nat then f k + v (k - d * i)%nat else f k.
(** K.block<d, d>(i * d, j * d) += B *)
Definition addBlock (d i j : nat) (B : nat -> nat -> R) (K : nat -> nat -> R) : nat -> nat -> R :=
  fun k l => if ((i * d <=? k) && (k <? i * d + d) && ((j * d <=? l) && (l <? j * d + d)))%nat
             then K k l + B (k - i * d)%nat (l - j * d)%nat else K k l.

(** An integration point: its coordinates, the integration element of the geometry there and its weight *)
Record point := { position : nat -> R; integrationElement : R; weight : R }.

Section Elastic.
  Variables (d : nat) (numberOfNodes s : nat).          (* dimension, nodes, components of the strain *)
  Variable points : list point.                           (* viewOverIntegrationPoints *)
  Variable eps : point -> (nat -> R) -> nat -> R.
  Variable bop : point -> (nat -> R) -> nat -> nat -> nat -> R.                        (* node, component, direction *)
  Variable kg : point -> (nat -> R) -> (nat -> R) -> nat -> nat -> nat -> nat -> R.    (* along, node, node, directions *)
  Variables (storedEnergy : (nat -> R) -> R) (stresses : (nat -> R) -> nat -> R) (tangentModuli : (nat -> R) -> nat -> nat -> R).

  (** energyFunction, nonlinearelastic.hh 353-366, linearelastic.hh 338-351, with internalEnergy *)
  Definition energyFunction (internalEnergy : (nat -> R) -> R) (u : nat -> R) : R :=
    fold_left (fun energy gp => energy + internalEnergy (eps gp u) * integrationElement gp * weight gp) points 0.

  (** internalForcesFunction, nonlinearelastic.hh 336-343, linearelastic.hh 321-328 *)
  Definition internalForces (stress : nat -> R) (bopI : nat -> nat -> R) (i : nat) (gp : point) (force : nat -> R) : nat -> R :=
    let intElement := integrationElement gp * weight gp in
    addSegment d i (fun a => sum s (fun k => bopI k a * stress k) * intElement) force.

  (** calculateVectorImpl, nonlinearelastic.hh 411-430, linearelastic.hh 386-406 *)
  Definition solidVector (stress : (nat -> R) -> nat -> R) (u force : nat -> R) : nat -> R :=
    fold_left (fun force gp =>
      let stresses := stress (eps gp u) in
      loop numberOfNodes (fun i force => internalForces stresses (bop gp u i) i gp force) force) points force.

  (** materialStiffnessMatrixFunction, nonlinearelastic.hh 314-323, linearelastic.hh 299-308 *)
  Definition materialStiffness (C : nat -> nat -> R) (bopI bopJ : nat -> nat -> R) (i j : nat) (gp : point) (K : nat -> nat -> R) :
    nat -> nat -> R :=
    let intElement := integrationElement gp * weight gp in
    addBlock d i j (fun a b => sum s (fun k => sum s (fun l => bopI k a * C k l * bopJ l b)) * intElement) K.
  (** geometricStiffnessMatrixFunction, nonlinearelastic.hh 295-302 *)
  Definition geometricStiffness (kgIJ : nat -> nat -> R) (i j : nat) (gp : point) (K : nat -> nat -> R) : nat -> nat -> R :=
    let intElement := integrationElement gp * weight gp in
    addBlock d i j (fun a b => kgIJ a b * intElement) K.

  (** NonLinearElastic: internalEnergy 166-168, stress 180-182, materialTangent 194-196, calculateScalarImpl 403-408,
      calculateVectorImpl 411-430, calculateMatrixImpl 376-400; mixed elements contribute nothing here *)
  Definition nonlinearScalar (isMixed : bool) (u : nat -> R) : R := if isMixed then 0 else energyFunction storedEnergy u.
  Definition nonlinearVector (isMixed : bool) (u force : nat -> R) : nat -> R := if isMixed then force else solidVector stresses u force.
  Definition nonlinearMatrix (isMixed : bool) (u : nat -> R) (K : nat -> nat -> R) : nat -> nat -> R :=
    if isMixed then K else
    fold_left (fun K gp =>
      let E := eps gp u in
      let S := stresses E in
      loop numberOfNodes (fun i K => loop numberOfNodes (fun j K =>
        geometricStiffness (kg gp u S i j) i j gp (materialStiffness (tangentModuli E) (bop gp u i) (bop gp u j) i j gp K)) K) K)
      points K.

  (** LinearElastic: internalEnergy 159-162, stress 174-177, calculateScalarImpl 378-383, calculateVectorImpl 386-406,
      calculateMatrixImpl 354-375 *)
  Definition linearEnergy (strain : nat -> R) : R := 1 / 2 * dot s strain (apply s (tangentModuli strain) strain).
  Definition linearStress_ (strain : nat -> R) : nat -> R := apply s (tangentModuli strain) strain.
  Definition linearScalar (isMixed : bool) (u : nat -> R) : R := if isMixed then 0 else energyFunction linearEnergy u.
  Definition linearVector (isMixed : bool) (u force : nat -> R) : nat -> R := if isMixed then force else solidVector linearStress_ u force.
  Definition linearMatrix (isMixed : bool) (u : nat -> R) (K : nat -> nat -> R) : nat -> nat -> R :=
    if isMixed then K else
    fold_left (fun K gp =>
      let e := eps gp u in
      loop numberOfNodes (fun i K => loop numberOfNodes (fun j K =>
        materialStiffness (tangentModuli e) (bop gp u i) (bop gp u j) i j gp K) K) K)
      points K.
End Elastic.

Section Loads.
  Variables (w numberOfNodes : nat).                 (* world dimension, nodes *)
  Variable shape : point -> nat -> R.                (* the value of the shape function of a node at a point *)
  Variable load : option ((nat -> R) -> R -> nat -> R).    (* a std::function of the global position and the load factor *)

  (** The displacement function: uFunction.evaluate and its derivative with respect to the coefficient of a node *)
  Definition displacement (gp : point) (u : nat -> R) (a : nat) : R :=
    sum numberOfNodes (fun i => shape gp i * u (w * i + a)%nat).
  Definition displacementDerivative (gp : point) (i : nat) (a b : nat) : R := shape gp i * identity a b.

  (** One integration point, volume.hh 77-81 and traction.hh 85-99 *)
  Definition pointEnergy (f : (nat -> R) -> R -> nat -> R) (lambda : R) (u : nat -> R) (energy : R) (gp : point) : R :=
    let fext := f (position gp) lambda in
    energy - dot w (displacement gp u) fext * integrationElement gp * weight gp.
  (** volume.hh 97-104 and traction.hh 124-134 *)
  Definition pointForce (f : (nat -> R) -> R -> nat -> R) (lambda : R) (force : nat -> R) (gp : point) : nat -> R :=
    let fext := f (position gp) lambda in
    loop numberOfNodes (fun i force =>
      addSegment w i (fun a => - (apply w (displacementDerivative gp i) fext a * (integrationElement gp * weight gp))) force) force.

  (** VolumeLoad::calculateScalarImpl 67-84, calculateVectorImpl 86-106 and calculateMatrixImpl 108-111 *)
  Definition volumeScalar (points : list point) (lambda : R) (u : nat -> R) : R :=
    match load with None => 0 | Some f => fold_left (pointEnergy f lambda u) points 0 end.
  Definition volumeVector (points : list point) (lambda : R) (u force : nat -> R) : nat -> R :=
    match load with None => force | Some f => fold_left (pointForce f lambda) points force end.

  (** Traction. The intersections of the element: the points of the quadrature rule, and whether the boundary contains it.
      Errors: a null pointer is dereferenced (undefined), an empty std::function is called (std::bad_function_call) *)
  Inductive outcome (A : Type) := Done (a : A) | NullPointer | BadFunctionCall.
  Arguments Done {A}. Arguments NullPointer {A}. Arguments BadFunctionCall {A}.

  Definition isSome {A} (o : option A) : bool := match o with Some _ => true | None => false end.

  (** The two nested loops of traction.hh 80-101 and 115-137 *)
  Fixpoint overIntersections {A} (step : ((nat -> R) -> R -> nat -> R) -> A -> point -> A)
    (intersections : list (bool * list point)) (a : A) : outcome A :=
    match intersections with
    | [] => Done a
    | (false, _) :: rest => overIntersections step rest a
    | (true, points) :: rest =>
      match points, load with
      | [], _ => overIntersections step rest a
      | _, None => BadFunctionCall
      | _, Some f => overIntersections step rest (fold_left (step f) points a)
      end
    end.

  (** Traction::calculateScalarImpl 70-103, calculateVectorImpl 105-138; [boundary] is the pointer to the boundary patch *)
  Definition tractionScalar (boundary : option (list (bool * list point))) (lambda : R) (u : nat -> R) : outcome R :=
    if negb (isSome boundary) && negb (isSome load) then Done 0
    else match boundary with
         | None => NullPointer
         | Some intersections => overIntersections (fun f => pointEnergy f lambda u) intersections 0
         end.
  Definition tractionVector (boundary : option (list (bool * list point))) (lambda : R) (u force : nat -> R) : outcome (nat -> R) :=
    if negb (isSome boundary) && negb (isSome load) then Done force
    else match boundary with
         | None => NullPointer
         | Some intersections => overIntersections (fun f => pointForce f lambda) intersections force
         end.
End Loads.
Arguments Done {A}. Arguments NullPointer {A}. Arguments BadFunctionCall {A}.

(** A skill, mixin.hh; the matrix of a load is unchanged *)
Record skill := {
  skillScalar : (nat -> R) -> R;
  skillVector : (nat -> R) -> (nat -> R) -> nat -> R;
  skillMatrix : (nat -> R) -> (nat -> nat -> R) -> nat -> nat -> R }.

(** calculateScalarImpl 198-208: a right fold with + and 0; calculateVectorImpl 226-236, calculateMatrixImpl 254-264 *)
Definition mixinScalar (skills : list skill) (u : nat -> R) : R :=
  fold_right (fun sk rest => skillScalar sk u + rest) 0 skills.
Definition mixinVector (skills : list skill) (u force : nat -> R) : nat -> R :=
  fold_left (fun force sk => skillVector sk u force) skills force.
Definition mixinMatrix (skills : list skill) (u : nat -> R) (K : nat -> nat -> R) : nat -> nat -> R :=
  fold_left (fun K sk => skillMatrix sk u K) skills K.
