(** Specification of FERequirements: values, no pointers.

    An object holds at most one solution and at most one parameter.  A reference taken from an object stands for the
    value the object holds at present, until that value is replaced by an insertion, an assignment or the end of the
    object. *)

From Coq Require Import List Arith Bool.
From Verif Require Import FERequirements_Model.
Import ListNotations.

(** Which energy, gradient and Hessian belong together *)
Inductive belongTogether : scalarAff -> vectorAff -> matrixAff -> Prop :=
| mechanics : belongTogether sMechanicalPotentialEnergy vForces mStiffness
| microMagnetics : belongTogether sMicroMagneticPotentialEnergy vMicroMagneticForces mMicroMagneticHessian.

Section Spec.
Context {SV PM : Type}.
Variable add : SV -> SV -> SV.

Record obj := mkObj { o_sol : option SV; o_par : option PM }.
Record vals := mkVals {
  objs : nat -> option obj;                     (** None: not alive *)
  made : nat;                                   (** objects constructed so far *)
  solOf : list (option nat);                    (** references to solutions: the object, or None when void *)
  parOf : list (option nat) }.

Definition noVals : vals := mkVals (fun _ => None) 0 [] [].

Definition void (i : nat) (refs : list (option nat)) : list (option nat) :=
  map (fun r => match r with Some j => if j =? i then None else Some j | None => None end) refs.

Definition put (s : vals) (i : nat) (o : option obj) : vals := mkVals (upd (objs s) i o) (made s) (solOf s) (parOf s).
Definition create (s : vals) (o : obj) : vals := mkVals (upd (objs s) (made s) (Some o)) (S (made s)) (solOf s) (parOf s).
Definition voidSol (s : vals) (i : nat) : vals := mkVals (objs s) (made s) (void i (solOf s)) (parOf s).
Definition voidPar (s : vals) (i : nat) : vals := mkVals (objs s) (made s) (solOf s) (void i (parOf s)).

(** Act on the solution / parameter of object i, error if there is none *)
Definition withSol (s : vals) (i : nat) (k : obj -> SV -> option (vals * obs SV PM)) : option (vals * obs SV PM) :=
  match objs s i with
  | Some o => match o_sol o with Some v => k o v | None => Some (s, OThrown) end
  | None => None
  end.
Definition withPar (s : vals) (i : nat) (k : obj -> PM -> option (vals * obs SV PM)) : option (vals * obs SV PM) :=
  match objs s i with
  | Some o => match o_par o with Some v => k o v | None => Some (s, OThrown) end
  | None => None
  end.

Definition newSol (s : vals) (i : nat) (v : SV) : option (vals * obs SV PM) :=
  match objs s i with
  | Some o => Some (voidSol (put s i (Some (mkObj (Some v) (o_par o)))) i, ODone)
  | None => None
  end.
Definition newPar (s : vals) (i : nat) (p : PM) : option (vals * obs SV PM) :=
  match objs s i with
  | Some o => Some (voidPar (put s i (Some (mkObj (o_sol o) (Some p)))) i, ODone)
  | None => None
  end.

Definition spec1 (s : vals) (o : op SV PM) : option (vals * obs SV PM) :=
  match o with
  | Default => Some (create s (mkObj None None), ODone)
  | Construct v p => Some (create s (mkObj (Some v) (Some p)), ODone)
  | CopyConstruct j => match objs s j with Some b => Some (create s b, ODone) | None => None end
  | Destroy i => match objs s i with Some _ => Some (voidPar (voidSol (put s i None) i) i, ODone) | None => None end
  | Assign i j =>
      match objs s i, objs s j with
      | Some _, Some b => if i =? j then Some (s, ODone) else Some (voidPar (voidSol (put s i (Some b)) i) i, ODone)
      | _, _ => None
      end
  | InsertSolution i v => newSol s i v
  | InsertParameter i p => newPar s i p
  | InsertSolutionOf i j => withSol s j (fun _ v => newSol s i v)
  | InsertParameterOf i j => withPar s j (fun _ p => newPar s i p)
  | ReadSolution i => withSol s i (fun _ v => Some (s, OSol v))
  | ReadParameter i => withPar s i (fun _ p => Some (s, OPar p))
  | Populated i =>
      match objs s i with
      | Some b => Some (s, OBool (match o_sol b, o_par b with Some _, Some _ => true | _, _ => false end))
      | None => None
      end
  | PlusEq i d => withSol s i (fun b v => Some (put s i (Some (mkObj (Some (add v d)) (o_par b))), OSol (add v d)))
  | PlusEqSync i => withSol s i (fun _ v => Some (s, OSol v))
  | SetSolution i v => withSol s i (fun b _ => Some (put s i (Some (mkObj (Some v) (o_par b))), ODone))
  | SetParameter i p => withPar s i (fun b _ => Some (put s i (Some (mkObj (o_sol b) (Some p))), ODone))
  | TakeSolution i => withSol s i (fun _ _ => Some (mkVals (objs s) (made s) (solOf s ++ [Some i]) (parOf s), ODone))
  | TakeParameter i => withPar s i (fun _ _ => Some (mkVals (objs s) (made s) (solOf s) (parOf s ++ [Some i]), ODone))
  | ReadSolutionRef r =>
      match nth_error (solOf s) r with Some (Some i) => withSol s i (fun _ v => Some (s, OSol v)) | _ => None end
  | WriteSolutionRef r v =>
      match nth_error (solOf s) r with
      | Some (Some i) => withSol s i (fun b _ => Some (put s i (Some (mkObj (Some v) (o_par b))), ODone))
      | _ => None
      end
  | ReadParameterRef r =>
      match nth_error (parOf s) r with Some (Some i) => withPar s i (fun _ v => Some (s, OPar v)) | _ => None end
  | WriteParameterRef r p =>
      match nth_error (parOf s) r with
      | Some (Some i) => withPar s i (fun b _ => Some (put s i (Some (mkObj (o_sol b) (Some p))), ODone))
      | _ => None
      end
  end.

Fixpoint specAll (s : vals) (os : list (op SV PM)) : option (list (obs SV PM)) :=
  match os with
  | [] => Some []
  | o :: os =>
    match spec1 s o with
    | Some (s', b) => match specAll s' os with Some bs => Some (b :: bs) | None => None end
    | None => None
    end
  end.

(** The operations that may change what object [i] holds; a write through a reference may change any object *)
Definition mayChange (o : op SV PM) (i : nat) : bool :=
  match o with
  | Destroy j | Assign j _ | InsertParameter j _ | InsertSolution j _ | InsertSolutionOf j _ | InsertParameterOf j _
  | PlusEq j _ | SetSolution j _ | SetParameter j _ => j =? i
  | WriteSolutionRef _ _ | WriteParameterRef _ _ => true
  | _ => false
  end.
End Spec.
Arguments vals : clear implicits.
Arguments obj : clear implicits.
