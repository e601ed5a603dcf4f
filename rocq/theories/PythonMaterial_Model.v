(** Model of the Python interface of materials: ikarus/python/finiteelements/material.hh (parameters from keywords, lines 57-93, calls
    with a strain tag, lines 23-53, reduced materials, lines 111-191, options of Muesli materials, lines 209-230), the default of the
    tolerance in ikarus/finiteelements/mechanics/materials/vanishingstress.hh 255-286, and
    ikarus/finiteelements/mechanics/materials/muesli/mueslimaterials.hh 71-115.

    Simplifications: a keyword argument is a number or something that cannot be cast to one; Python passes every name at most once.
    Calls with a strain tag are modelled for the sizes of the unreduced material (6 components) and of plane strain (3 components). *)

From Coq Require Import List Arith Reals Bool String.
From Verif Require Import Tensor_Model LinearAlgebra_Model SVK_Model Conversions_Model VanishingStress_Model Lame_Model.
Import ListNotations.
Local Open Scope R_scope.

(** ** Parameters *)
Inductive pyValue := Number (x : R) | NotANumber.
Definition kwargs := list (string * pyValue).

(** kwargs.contains and kwargs[...] *)
Fixpoint lookup (kw : kwargs) (name : string) : option pyValue :=
  match kw with
  | [] => None
  | (n, v) :: kw => if String.eqb n name then Some v else lookup kw name
  end.
Definition contains (kw : kwargs) (name : string) : bool := match lookup kw name with Some _ => true | None => false end.

(** What a Python call does: a value, the exception of a failed cast, Dune::IOError, Dune::MathError *)
Inductive outcome (A : Type) := Value (a : A) | CastError | IOError | MathError.
Arguments Value {A} _.
Arguments CastError {A}.
Arguments IOError {A}.
Arguments MathError {A}.

(** cast<double>, both arguments of the braces are evaluated in order *)
Definition castBoth (kw : kwargs) (a b : string) : option (R * R) :=
  match lookup kw a, lookup kw b with
  | Some (Number x), Some (Number y) => Some (x, y)
  | _, _ => None
  end.

(** convertMaterialParameters, 58-64 *)
Definition convertMaterialParameters (T : R -> R -> valuePair) (a b : string) (kw : kwargs) : outcome (extended * R) :=
  match castBoth kw a b with
  | Some (x, y) => Value (toLamesFirstParameter (T x y), toShearModulus (T x y))
  | None => CastError
  end.
(** the last converter, 74 *)
Definition lameParameters (kw : kwargs) : outcome (extended * R) :=
  match castBoth kw "Lambda" "mu" with
  | Some (x, y) => Value (Finite x, y)
  | None => CastError
  end.

(** conversionMap, 68-75, in the order of std::map *)
Definition conversionMap : list ((string * string) * (kwargs -> outcome (extended * R))) :=
  [ (("E", "K"), convertMaterialParameters YoungsModulusAndBulkModulus "E" "K");
    (("E", "Lambda"), convertMaterialParameters YoungsModulusAndLamesFirstParameter "E" "Lambda");
    (("E", "mu"), convertMaterialParameters YoungsModulusAndShearModulus "E" "mu");
    (("E", "nu"), convertMaterialParameters YoungsModulusAndPoissonsRatio "E" "nu");
    (("K", "Lambda"), convertMaterialParameters BulkModulusAndLamesFirstParameter "K" "Lambda");
    (("Lambda", "mu"), lameParameters) ]%string.

(** 81-86 *)
Fixpoint findConversion (m : list ((string * string) * (kwargs -> outcome (extended * R)))) (kw : kwargs) : outcome (extended * R) :=
  match m with
  | [] => IOError
  | ((a, b), f) :: m => if (contains kw a && contains kw b)%bool then f kw else findConversion m kw
  end.

(** extractMaterialParameters, 66-91 *)
Definition extractMaterialParameters (kw : kwargs) : outcome (extended * R) :=
  if (List.length kw =? 2)%nat then findConversion conversionMap kw else IOError.

(** The combinations named by the message of the exception, 88-90 *)
Definition combinationsInMessage : list (string * string) :=
  [("E", "nu"); ("E", "mu"); ("E", "K"); ("E", "Lambda"); ("K", "Lambda"); ("Lambda", "nu")]%string.

(** ** Calls with a strain tag, 23-53 *)
Section Call.
Variable T : Type.                       (** energy, stresses or moduli *)
Variable msqrt : rmat -> rmat.
Variable own : strainTag.                (** materialName::strainTag *)
Variable f : rmat -> T.                  (** the function of the material for its own strain, interface.hh 191-246 *)

(** self.functionname<tag>(eVoigt); None: does not compile *)
Definition callWith (tag : strainTag) (v : nat -> R) : option T :=
  match transformStrain3 msqrt tag own (Vector6 v) with Some e => Some (f e) | None => None end.

Definition materialFunction (tag : strainTag) (v : nat -> R) : outcome (option T) :=
  if negb (strainTag_eqb own linear) then
    match tag with
    | rightCauchyGreenTensor => Value (callWith rightCauchyGreenTensor v)
    | greenLagrangian => Value (callWith greenLagrangian v)
    | linear => MathError
    | displacementGradient => MathError
    | deformationGradient => MathError
    end
  else
    match tag with
    | linear => Value (callWith linear v)
    | _ => MathError
    end.
End Call.

(** ** Plane strain *)
(** reduceStrain, vanishingstrain.hh 147-159; [e] is a matrix *)
Definition reduceStrain (msqrt : rmat -> rmat) (fixed : list (nat * nat)) (own : strainTag) (e : rmat) : option rmat :=
  match own with
  | linear | greenLagrangian => Some (setStrainsToZero fixed e)
  | _ =>
    match transformStrain 3 msqrt own greenLagrangian e with
    | Some g => transformStrain 3 msqrt greenLagrangian own (setStrainsToZero fixed g)
    | None => None
    end
  end.
(** planeStrain, vanishingstrain.hh 195-198 *)
Definition planeStrainPairs : list (nat * nat) := [(2, 1); (2, 0); (2, 2)]%nat.
Definition planeStrainFree : list nat := [0; 1; 5]%nat.

(** The strain the wrapped material is evaluated at when called with three components: interface.hh 192-193 (and 213-214, 234-235),
    then vanishingstrain.hh 81, 94, 114 *)
Definition planeStrainArgument (msqrt : rmat -> rmat) (own tag : strainTag) (v : nat -> R) : option rmat :=
  match transformStrain3 msqrt tag own (Vector6 (enlargeVector planeStrainFree v)) with
  | Some e => reduceStrain msqrt planeStrainPairs own e
  | None => None
  end.

(** MAKE_MaterialFunction for PlaneStrainClass with 3 components, 145-147 *)
Definition planeStrainFunction (T : Type) (msqrt : rmat -> rmat) (own : strainTag) (f : rmat -> T) (tag : strainTag) (v : nat -> R) :
  outcome (option T) :=
  let call tag := match planeStrainArgument msqrt own tag v with Some e => Some (f e) | None => None end in
  if negb (strainTag_eqb own linear) then
    match tag with
    | rightCauchyGreenTensor => Value (call rightCauchyGreenTensor)
    | greenLagrangian => Value (call greenLagrangian)
    | _ => MathError
    end
  else match tag with linear => Value (call linear) | _ => MathError end.

(** ** Reduced materials *)
(** planeStress, shellMaterial, beamMaterial: the default of tol, vanishingstress.hh 255, 268, 281 *)
Definition defaultTol : R := 1 / 10 ^ 8.

Section Reduced.
Variable stress : rmat -> nat -> R.
Variable moduli : rmat -> rmat.
Variable factor : R.
Variable unitStart : bool.
Variable inverse : nat -> rmat -> rmat.

(** The strains of a reduced material with a tolerance *)
Definition reducedStrain (fixed : list (nat * nat)) (fx : list nat) (tol : R) (E : rmat) : option rmat :=
  reduceStress stress moduli factor unitStart inverse fixed fx tol E.

(** asPlaneStress(tol), 130-132; asShellMaterial(tol), 171-173; asBeamMaterial(tol), 189-191 *)
Definition asPlaneStress (tol : R) : rmat -> option rmat := reducedStrain planeStressPairs planeStressIndices defaultTol.
Definition asShellMaterial (tol : R) : rmat -> option rmat := reducedStrain shellPairs shellIndices defaultTol.
Definition asBeamMaterial (tol : R) : rmat -> option rmat := reducedStrain beamPairs beamIndices defaultTol.
End Reduced.

(** ** Options of Muesli materials, 217-226; mueslimaterials.hh 71-115 *)
(** muesli::materialProperties is a multimap of names and numbers; tags have the number 0 *)
Definition properties := list (string * R).
Definition addTag (p : properties) (tag : string) : properties := p ++ [(tag, 0)].

(** mueslimaterials.hh 71-79 *)
Definition makeMuesliArrudaBoyce (C1 lambda_m K : R) (compressible : bool) : properties :=
  let p := [("c1", C1); ("lambdam", lambda_m); ("bulk", K)]%string in
  if compressible then addTag p "compressible" else p.
(** mueslimaterials.hh 89-98 *)
Definition makeMuesliYeoh (C1 C2 C3 K : R) (compressible : bool) : properties :=
  let p := [("c1", C1); ("c2", C2); ("c3", C3); ("bulk", K)]%string in
  if compressible then addTag p "compressible" else p.
(** mueslimaterials.hh 107-115 *)
Definition makeMooneyRivlin (a0 a1 a2 : R) (incompressible : bool) : properties :=
  let p := [("alpha0", a0); ("alpha1", a1); ("alpha2", a2)]%string in
  if incompressible then addTag p "incompressible" else p.

(** material.hh 217-226.  The optional keyword: absent, or a bool *)
Definition arrudaBoyce (C1 lambda_m K : R) (option : option bool) : properties :=
  let compressible := match option with Some b => b | None => true end in
  makeMuesliArrudaBoyce C1 lambda_m K true.
Definition yeoh (C1 C2 C3 K : R) (option : option bool) : properties :=
  let compressible := match option with Some b => b | None => true end in
  makeMuesliYeoh C1 C2 C3 K true.
Definition mooney (a0 a1 a2 : R) (option : option bool) : properties :=
  let incompressible := match option with Some b => b | None => false end in
  makeMooneyRivlin a0 a1 a2 incompressible.
