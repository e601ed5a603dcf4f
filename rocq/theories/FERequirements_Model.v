(** Model of the affordances and of the class FERequirements,
    ikarus/finiteelements/ferequirements.hh.

    The two members [sol_] and [parameter_] are std::unique_ptr.  The model keeps a heap per member type.
    A location that was freed stays free: using it is undefined behaviour ([UB]). *)

From Coq Require Import List Arith Bool.
Import ListNotations.

(** ** Affordances *)

(** 35-39, 46-50, 57-65; MAKE_ENUM (utils/makeenum.hh 40-54) adds BEGIN and END *)
Inductive scalarAff := sBegin | sNo | sMechanicalPotentialEnergy | sMicroMagneticPotentialEnergy | sEnd.
Inductive vectorAff := vBegin | vNo | vForces | vMicroMagneticForces | vEnd.
Inductive matrixAff := mBegin | mNo | mStiffness | mMaterialstiffness | mGeometricstiffness | mStiffnessdiffBucklingVector
                     | mMicroMagneticHessian | mMass | mEnd.

(** Values of the enumerators, in the order of lines 35-65 *)
Definition scalarAff_val (a : scalarAff) : nat :=
  match a with sBegin => 0 | sNo => 1 | sMechanicalPotentialEnergy => 2 | sMicroMagneticPotentialEnergy => 3 | sEnd => 4 end.
Definition vectorAff_val (a : vectorAff) : nat :=
  match a with vBegin => 0 | vNo => 1 | vForces => 2 | vMicroMagneticForces => 3 | vEnd => 4 end.
Definition matrixAff_val (a : matrixAff) : nat :=
  match a with mBegin => 0 | mNo => 1 | mStiffness => 2 | mMaterialstiffness => 3 | mGeometricstiffness => 4
             | mStiffnessdiffBucklingVector => 5 | mMicroMagneticHessian => 6 | mMass => 7 | mEnd => 8 end.
Definition scalarAff_eqb (a b : scalarAff) : bool := scalarAff_val a =? scalarAff_val b.
Definition vectorAff_eqb (a b : vectorAff) : bool := vectorAff_val a =? vectorAff_val b.
Definition matrixAff_eqb (a b : matrixAff) : bool := matrixAff_val a =? matrixAff_val b.

(** 178-185 *)
Definition vectorAffordanceOfMatrix (m : matrixAff) : vectorAff :=
  if matrixAff_eqb m mStiffness then vForces
  else if matrixAff_eqb m mMicroMagneticHessian then vMicroMagneticForces
  else vNo.

(** 187-194 *)
Definition scalarAffordanceOfMatrix (m : matrixAff) : scalarAff :=
  if matrixAff_eqb m mStiffness then sMechanicalPotentialEnergy
  else if matrixAff_eqb m mMicroMagneticHessian then sMicroMagneticPotentialEnergy
  else sNo.

(** 196-203 *)
Definition scalarAffordanceOfVector (v : vectorAff) : scalarAff :=
  if vectorAff_eqb v vForces then sMechanicalPotentialEnergy
  else if vectorAff_eqb v vMicroMagneticForces then sMicroMagneticPotentialEnergy
  else sNo.

(** 104-168: a collection holds at most one affordance of each kind that can be asked for
    (std::get by type needs the type to occur exactly once) *)
Record collection := mkCollection { c_scalar : option scalarAff; c_vector : option vectorAff; c_matrix : option matrixAff }.

Inductive affordance := AScalar (a : scalarAff) | AVector (a : vectorAff) | AMatrix (a : matrixAff).

(** 127-151 *)
Definition hasAffordance (c : collection) (a : affordance) : bool :=
  match a with
  | AScalar x => match c_scalar c with Some y => scalarAff_eqb x y | None => false end
  | AVector x => match c_vector c with Some y => vectorAff_eqb x y | None => false end
  | AMatrix x => match c_matrix c with Some y => matrixAff_eqb x y | None => false end
  end.

(** 109: the default constructor value-initialises the members of the tuple: the first enumerator, BEGIN *)
Definition defaultCollection (hasScalar hasVector hasMatrix : bool) : collection :=
  mkCollection (if hasScalar then Some sBegin else None) (if hasVector then Some vBegin else None)
               (if hasMatrix then Some mBegin else None).

(** 205-208 *)
Definition elastoStatics : collection :=
  mkCollection (Some sMechanicalPotentialEnergy) (Some vForces) (Some mStiffness).

(** ** Unique pointers *)

Definition upd {X : Type} (f : nat -> X) (i : nat) (x : X) : nat -> X := fun j => if j =? i then x else f j.

Section Ptr.
Context {X : Type}.

(** The heap of objects of type X and the pointer member of every object of the class, by number *)
Record ptrs := mkPtrs { heap : nat -> option X; next : nat; ptr : nat -> option nat }.

Definition emptyPtrs : ptrs := mkPtrs (fun _ => None) 0 (fun _ => None).

Definition free (h : nat -> option X) (l : option nat) : nat -> option X :=
  match l with Some l => upd h l None | None => h end.

(** p = std::make_unique<X>(x): the new object is made before the old one is destroyed *)
Definition assignNew (s : ptrs) (i : nat) (x : X) : ptrs :=
  mkPtrs (free (upd (heap s) (next s) (Some x)) (ptr s i)) (S (next s)) (upd (ptr s) i (Some (next s))).

(** p = nullptr *)
Definition assignNull (s : ptrs) (i : nat) : ptrs :=
  mkPtrs (free (heap s) (ptr s i)) (next s) (upd (ptr s) i None).

(** Writing through a reference to location [l] *)
Definition write (s : ptrs) (l : nat) (x : X) : ptrs := mkPtrs (upd (heap s) l (Some x)) (next s) (ptr s).

Inductive access := Null | Dangling | Found (l : nat) (x : X).

Definition deref (s : ptrs) (i : nat) : access :=
  match ptr s i with
  | None => Null
  | Some l => match heap s l with None => Dangling | Some x => Found l x end
  end.

(** p = other ? std::make_unique<X>( *other) : nullptr *)
Definition copyPtr (s : ptrs) (i j : nat) : option ptrs :=
  match deref s j with
  | Null => Some (assignNull s i)
  | Dangling => None
  | Found _ x => Some (assignNew s i x)
  end.
End Ptr.
Arguments ptrs : clear implicits.
Arguments access : clear implicits.

(** ** FERequirements *)

Section FERequirements.
Context {SV PM : Type}.
Variable add : SV -> SV -> SV.          (** sol_ += rhs *)

(** A program: the objects, which of them are alive, and the references it has taken *)
Record prog := mkProg {
  sols : ptrs SV; pars : ptrs PM;
  count : nat; alive : nat -> bool;
  solRefs : list nat; parRefs : list nat }.

Definition emptyProg : prog := mkProg emptyPtrs emptyPtrs 0 (fun _ => false) [] [].

Inductive op :=
| Default                               (** FERequirements() *)
| Construct (v : SV) (p : PM)           (** FERequirements(solVec, parameter) *)
| CopyConstruct (j : nat)               (** FERequirements(other), also used for moves: there is no move constructor *)
| Destroy (i : nat)
| Assign (i j : nat)                    (** i = j *)
| InsertParameter (i : nat) (p : PM)
| InsertSolution (i : nat) (v : SV)
| InsertSolutionOf (i j : nat)          (** i.insertGlobalSolution(j.globalSolution()), also for i = j *)
| InsertParameterOf (i j : nat)
| ReadSolution (i : nat)              (** read globalSolution() *)
| ReadParameter (i : nat)
| Populated (i : nat)
| PlusEq (i : nat) (v : SV)             (** i += v *)
| PlusEqSync (i : nat)                  (** i += SyncFERequirements *)
| SetSolution (i : nat) (v : SV)        (** i.globalSolution() = v *)
| SetParameter (i : nat) (p : PM)
| TakeSolution (i : nat)                (** auto& r = i.globalSolution() *)
| TakeParameter (i : nat)
| ReadSolutionRef (r : nat) | WriteSolutionRef (r : nat) (v : SV)
| ReadParameterRef (r : nat) | WriteParameterRef (r : nat) (p : PM).

Inductive obs := ODone | OSol (v : SV) | OPar (p : PM) | OBool (b : bool) | OThrown.

(** None is undefined behaviour *)
Definition step := option (prog * obs).

Definition withSols (s : prog) (x : ptrs SV) : prog := mkProg x (pars s) (count s) (alive s) (solRefs s) (parRefs s).
Definition withPars (s : prog) (x : ptrs PM) : prog := mkProg (sols s) x (count s) (alive s) (solRefs s) (parRefs s).
Definition born (s : prog) : prog :=
  mkProg (sols s) (pars s) (S (count s)) (upd (alive s) (count s) true) (solRefs s) (parRefs s).

(** 232, default member initialisers of unique_ptr: null *)
Definition defaultCtor (s : prog) : step := Some (born s, ODone).

(** 240-243 *)
Definition valueCtor (s : prog) (v : SV) (p : PM) : step :=
  let i := count s in
  Some (withPars (withSols (born s) (assignNew (sols s) i v)) (assignNew (pars s) i p), ODone).

Definition copyInto (s : prog) (i j : nat) : step :=
  match copyPtr (sols s) i j, copyPtr (pars s) i j with
  | Some a, Some b => Some (withPars (withSols s a) b, ODone)
  | _, _ => None
  end.

(** 262-264 *)
Definition copyCtor (s : prog) (j : nat) : step := if alive s j then copyInto (born s) (count s) j else None.

Definition dtor (s : prog) (i : nat) : step :=
  if alive s i then
    Some (mkProg (assignNull (sols s) i) (assignNull (pars s) i) (count s) (upd (alive s) i false) (solRefs s) (parRefs s), ODone)
  else None.

(** 274-280 *)
Definition copyAssign (s : prog) (i j : nat) : step :=
  if alive s i && alive s j then
    if negb (i =? j) then copyInto s i j else Some (s, ODone)
  else None.

(** 290-293 *)
Definition insertParameter (s : prog) (i : nat) (p : PM) : step :=
  if alive s i then Some (withPars s (assignNew (pars s) i p), ODone) else None.
(** 304-307 *)
Definition insertGlobalSolution (s : prog) (i : nat) (v : SV) : step :=
  if alive s i then Some (withSols s (assignNew (sols s) i v), ODone) else None.

(** 314-318, 325-330 *)
Definition globalSolution (s : prog) (i : nat) (k : nat -> SV -> step) : step :=
  if alive s i then
    match deref (sols s) i with Null => Some (s, OThrown) | Dangling => None | Found l v => k l v end
  else None.

(** 349-354, 361-366 *)
Definition parameter (s : prog) (i : nat) (k : nat -> PM -> step) : step :=
  if alive s i then
    match deref (pars s) i with Null => Some (s, OThrown) | Dangling => None | Found l v => k l v end
  else None.

Definition isSet {X} (o : option X) : bool := match o with Some _ => true | None => false end.

(** 373 *)
Definition populated (s : prog) (i : nat) : step :=
  if alive s i then Some (s, OBool (isSet (ptr (sols s) i) && isSet (ptr (pars s) i))) else None.

(** 382-389; the result is a reference to the solution, read here *)
Definition plusEq (s : prog) (i : nat) (rhs : option SV) : step :=
  globalSolution s i (fun l v =>
    match rhs with
    | Some d => Some (withSols s (write (sols s) l (add v d)), OSol (add v d))
    | None => Some (s, OSol v)
    end).

Definition run1 (s : prog) (o : op) : step :=
  match o with
  | Default => defaultCtor s
  | Construct v p => valueCtor s v p
  | CopyConstruct j => copyCtor s j
  | Destroy i => dtor s i
  | Assign i j => copyAssign s i j
  | InsertParameter i p => insertParameter s i p
  | InsertSolution i v => insertGlobalSolution s i v
  | InsertSolutionOf i j => globalSolution s j (fun _ v => insertGlobalSolution s i v)
  | InsertParameterOf i j => parameter s j (fun _ p => insertParameter s i p)
  | ReadSolution i => globalSolution s i (fun _ v => Some (s, OSol v))
  | ReadParameter i => parameter s i (fun _ p => Some (s, OPar p))
  | Populated i => populated s i
  | PlusEq i v => plusEq s i (Some v)
  | PlusEqSync i => plusEq s i None
  | SetSolution i v => globalSolution s i (fun l _ => Some (withSols s (write (sols s) l v), ODone))
  | SetParameter i p => parameter s i (fun l _ => Some (withPars s (write (pars s) l p), ODone))
  | TakeSolution i => globalSolution s i (fun l _ =>
      Some (mkProg (sols s) (pars s) (count s) (alive s) (solRefs s ++ [l]) (parRefs s), ODone))
  | TakeParameter i => parameter s i (fun l _ =>
      Some (mkProg (sols s) (pars s) (count s) (alive s) (solRefs s) (parRefs s ++ [l]), ODone))
  | ReadSolutionRef r =>
      match nth_error (solRefs s) r with
      | Some l => match heap (sols s) l with Some v => Some (s, OSol v) | None => None end
      | None => None
      end
  | WriteSolutionRef r v =>
      match nth_error (solRefs s) r with
      | Some l => match heap (sols s) l with Some _ => Some (withSols s (write (sols s) l v), ODone) | None => None end
      | None => None
      end
  | ReadParameterRef r =>
      match nth_error (parRefs s) r with
      | Some l => match heap (pars s) l with Some v => Some (s, OPar v) | None => None end
      | None => None
      end
  | WriteParameterRef r v =>
      match nth_error (parRefs s) r with
      | Some l => match heap (pars s) l with Some _ => Some (withPars s (write (pars s) l v), ODone) | None => None end
      | None => None
      end
  end.

(** The observations of a program; None when it runs into undefined behaviour *)
Fixpoint runAll (s : prog) (os : list op) : option (list obs) :=
  match os with
  | [] => Some []
  | o :: os =>
    match run1 s o with
    | Some (s', b) => match runAll s' os with Some bs => Some (b :: bs) | None => None end
    | None => None
    end
  end.
End FERequirements.
Arguments op : clear implicits.
Arguments obs : clear implicits.
Arguments prog : clear implicits.
