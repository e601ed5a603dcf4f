(** Model of the way a result is asked for: the list of supported result types and calculateAt of a finite element made of skills (mixin.hh
    57-69, 104-110, 156-170), supportsResultType (feresulttypes.hh 276-289), the result types each skill lists and the branches of its
    calculateAtImpl, and the lookup by name of the Python bindings (python/finiteelements/fe.hh 50-71, python/io/vtkwriter.hh 75-86).

    What a skill computes for a result type is an argument; here only which skill answers is modelled, and whether it writes the result.  A
    result wrapper that is returned without assignment holds an Eigen vector that was never written.
    Not modelled: elements whose skill list has two skills of the same kind (their names are ambiguous and do not compile). *)

From Coq Require Import List Arith Bool String.
Import ListNotations.
Local Open Scope string_scope.

(** feresulttypes.hh 124-149 *)
Inductive resultType :=
  linearStress | PK2Stress | kirchhoffStress | cauchyStress | linearStressFull | PK2StressFull | cauchyStressFull
| director | magnetization | gradientNormOfMagnetization | vectorPotential | divergenceOfVectorPotential | BField | HField
| cauchyAxialForce | PK2AxialForce | linearAxialForce | customType.
Scheme Equality for resultType.
(** 69: the name is the one in the source *)
Definition toString (rt : resultType) : string :=
  match rt with
  | linearStress => "linearStress" | PK2Stress => "PK2Stress" | kirchhoffStress => "kirchhoffStress" | cauchyStress => "cauchyStress"
  | linearStressFull => "linearStressFull" | PK2StressFull => "PK2StressFull" | cauchyStressFull => "cauchyStressFull"
  | director => "director" | magnetization => "magnetization" | gradientNormOfMagnetization => "gradientNormOfMagnetization"
  | vectorPotential => "vectorPotential" | divergenceOfVectorPotential => "divergenceOfVectorPotential" | BField => "BField" | HField => "HField"
  | cauchyAxialForce => "cauchyAxialForce" | PK2AxialForce => "PK2AxialForce" | linearAxialForce => "linearAxialForce" | customType => "customType"
  end.

(** The skills; [enhanced true]: EAS::LinearStrain, [assumed true]: PS::LinearStress, else one of the nonlinear functions *)
Inductive skill := linearElastic | nonLinearElastic | displacementPressure | enhanced (lin : bool) | assumed (lin : bool)
| truss | kirchhoffLoveShell | volumeLoad | neumannBoundaryLoad.

Definition nonlinearTypes : list resultType := [PK2Stress; PK2StressFull; kirchhoffStress; cauchyStress].
Definition linearTypes : list resultType := [linearStress; linearStressFull].
(** SupportedResultTypes of a skill, in order: linearelastic.hh 58, nonlinearelastic.hh 64-65, displacementpressure.hh 131-132,
    enhancedassumedstrains.hh 57-60, assumedstress.hh 59-62, truss.hh 46, kirchhoffloveshell.hh 51; loads have none (mixin.hh 57-62) *)
Definition supportedBy (s : skill) : list resultType :=
  match s with
  | linearElastic => linearTypes
  | nonLinearElastic | displacementPressure => nonlinearTypes
  | enhanced lin | assumed lin => if lin then linearTypes else nonlinearTypes
  | truss => [cauchyAxialForce; PK2AxialForce; linearAxialForce]
  | kirchhoffLoveShell | volumeLoad | neumannBoundaryLoad => []
  end.
(** feresulttypes.hh 283-286; the calculateAtImpl of loads is never viable (volume.hh 62-65, traction.hh 65-68) *)
Definition supportsResultType (s : skill) (rt : resultType) : bool := existsb (resultType_beq rt) (supportedBy s).
(** The PriorityTag of its calculateAtImpl: linearelastic.hh 236, nonlinearelastic.hh 240, displacementpressure.hh 319,
    enhancedassumedstrains.hh 130, assumedstress.hh 127, truss.hh 173 *)
Definition priority (s : skill) : nat :=
  match s with
  | linearElastic | nonLinearElastic | displacementPressure => 1
  | enhanced _ | assumed _ => 2
  | truss | kirchhoffLoveShell | volumeLoad | neumannBoundaryLoad => 0
  end.

(** A finite element: its skills in order and whether its material is a reduced one *)
Record element := mkElement { skills : list skill; reduced : bool }.
(** mixin.hh 68-69 *)
Definition supportedResultTypes (fe : element) : list resultType := flat_map supportedBy (skills fe).
(** mixin.hh 105-110 *)
Definition isMixed (fe : element) : bool := existsb (fun s => match s with enhanced _ | assumed _ => true | _ => false end) (skills fe).

(** Overload resolution among the viable calculateAtImpl (mixin.hh 156-170): the greatest priority; [None]: none is viable or the call is
    ambiguous, it does not compile *)
Definition viable (fe : element) (rt : resultType) : list skill := filter (fun s => supportsResultType s rt) (skills fe).
Definition better (s t : skill) : bool := Nat.ltb (priority t) (priority s).
Definition resolve (fe : element) (rt : resultType) : option skill :=
  match filter (fun s => forallb (fun t => negb (better t s)) (viable fe rt)) (viable fe rt) with [s] => Some s | _ => None end.

Section Dispatch.
Context {V : Type}.
(** what a skill computes for the result type *)
Variable compute : skill -> resultType -> V.

(** A returned result *)
Inductive result := Written (v : V) | Uninitialised.
Arguments result : clear implicits.

Definition isFull (rt : resultType) : bool := match rt with linearStressFull | PK2StressFull => true | _ => false end.
(** The branches of calculateAtImpl: linearelastic.hh 237-253, nonlinearelastic.hh 241-270, displacementpressure.hh 339-349,
    enhancedassumedstrains.hh 171-182, assumedstress.hh 153-166, truss.hh 176-187 *)
Definition answer (fe : element) (s : skill) (rt : resultType) : result :=
  let write := Written (compute s rt) in
  match s with
  | linearElastic =>
    if isMixed fe then Uninitialised else match rt with linearStress | linearStressFull => write | _ => Uninitialised end
  | nonLinearElastic =>
    if isMixed fe then Uninitialised
    else match rt with PK2Stress | PK2StressFull | kirchhoffStress | cauchyStress => write | _ => Uninitialised end
  | displacementPressure =>
    match rt with PK2Stress | PK2StressFull | kirchhoffStress | cauchyStress => write | _ => Uninitialised end
  | enhanced _ =>
    match rt with
    | linearStress | PK2Stress | linearStressFull | PK2StressFull | kirchhoffStress | cauchyStress => write
    | _ => Uninitialised
    end
  | assumed _ =>
    if isFull rt && reduced fe then write
    else match rt with PK2Stress | linearStress | kirchhoffStress | cauchyStress => write | _ => Uninitialised end
  | truss => match rt with cauchyAxialForce | PK2AxialForce | linearAxialForce => write | _ => Uninitialised end
  | kirchhoffLoveShell | volumeLoad | neumannBoundaryLoad => Uninitialised
  end.

(** calculateAt<RT>, mixin.hh 164-170; [None]: does not compile *)
Definition calculateAt (fe : element) (rt : resultType) : option result :=
  match resolve fe rt with Some s => Some (answer fe s rt) | None => None end.

(** python/finiteelements/fe.hh 50-71; [None]: Dune::NotImplemented.  The forEach runs over the whole tuple *)
Definition calculateAtName (fe : element) (name : string) : option result :=
  fold_left (fun r rt => if String.eqb name (toString rt) then calculateAt fe rt else r) (supportedResultTypes fe) None.

(** io/vtkwriter.hh 104-108 and python/io/vtkwriter.hh 75-86: the result types for which a result function is added to the writer, in order;
    [None]: Dune::NotImplemented *)
Definition addedByAll (fe : element) : list resultType := supportedResultTypes fe.
Definition addedByName (fe : element) (name : string) : option (list resultType) :=
  match filter (fun rt => String.eqb name (toString rt)) (supportedResultTypes fe) with [] => None | l => Some l end.
End Dispatch.
Arguments result : clear implicits.

(** The static_asserts of the constructors: enhancedassumedstrains.hh 83-90, assumedstress.hh 89-95.  [FE::strainType] is the one of the solid skill *)
Definition linearStrain (fe : element) : bool := existsb (fun s => match s with linearElastic => true | _ => false end) (skills fe).
Definition constructible (fe : element) : bool :=
  forallb (fun s => match s with enhanced lin | assumed lin => negb (linearStrain fe) || lin | _ => true end) (skills fe).
