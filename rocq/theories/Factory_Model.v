(** Model of ikarus/utils/differentiablefunctionfactory.hh (DifferentiableFunctionFactory) and
    ikarus/solver/nonlinearsolver/nonlinearsolverfactory.hh (NonlinearSolverFactory): which objects the results refer to.

    Objects: assemblers, variables of type shared pointer to assembler, functions made from assemblers, factories and solvers.  An assembler exists
    as long as some variable or function owns it.  What an assembler computes for given requirement, affordance and option does not depend on its
    history (C07), so it is a function here; the buffers it is stored in are modelled (simpleassemblers.hh, .inl: scal_, vecRaw_, vec_, vecRed_ and
    three matrices). *)

From Coq Require Import List Bool Arith.
Import ListNotations.

Section Factory.
Context {Req SA VA MA X : Type}.     (** requirements, affordances, results *)

Inductive dbc := Raw | Reduced | Full.
(** AffordanceCollection, ferequirements.hh 105-160: the scalar affordance may be absent *)
Record affordances := mkAff { scalarAff : option SA; vectorAff : VA; matrixAff : MA }.

Inductive slot := ScalarSlot | VectorSlot (o : dbc) | MatrixSlot (o : dbc).
Record assembler := mkAsm {
  a_aff : option affordances;        (** affordances_, interface.hh:262 *)
  a_dbc : option dbc;                (** dBCOption_, 265 *)
  a_scalar : Req -> SA -> X;
  a_vector : Req -> VA -> dbc -> X;
  a_matrix : Req -> MA -> dbc -> X;
  a_buffer : slot -> option X }.

Inductive variable := Destroyed | Null | Points (a : nat).

(** The three functions; they hold the pointer, the affordances and the option by value, differentiablefunctionfactory.hh:31-46 *)
Record function := mkFun { f_target : nat; f_owns : bool; f_aff : affordances; f_dbc : dbc }.

(** Settings: what the update function of the settings does is a number here; the force function for inhomogeneous boundary conditions refers to a
    variable, nonlinearsolverfactory.hh:28 *)
Record settings := mkSettings { s_update : nat; s_force : option nat }.
(** A solver: its function; the update function refers to the variable and to the factory's settings, 34-44, 119-121; the force function is a copy *)
Record solver := mkSolver { v_fun : nat; v_var : nat; v_factory : nat; v_force : option nat }.

Record state := mkState {
  objs : list assembler; vars : list variable; funs : list function;
  factories : list (option settings);      (** [None]: destroyed *)
  solvers : list solver }.

Definition pointsTo (a : nat) (v : variable) : bool := match v with Points b => b =? a | _ => false end.
Definition alive (st : state) (a : nat) : bool :=
  existsb (pointsTo a) (vars st) || existsb (fun f => f_owns f && (f_target f =? a)) (funs st).

Fixpoint set {A} (l : list A) (i : nat) (a : A) : list A :=
  match l, i with [], _ => [] | _ :: l, O => a :: l | b :: l, S i => b :: set l i a end.

Definition withVars st w := mkState (objs st) w (funs st) (factories st) (solvers st).
Definition withObjs st o := mkState o (vars st) (funs st) (factories st) (solvers st).
Definition withFuns st f := mkState (objs st) (vars st) f (factories st) (solvers st).
Definition withFactories st f := mkState (objs st) (vars st) (funs st) f (solvers st).

(** ** DifferentiableFunctionFactory::op *)

(** How the assembler is passed: a variable as lvalue, a variable moved from, a temporary shared pointer, a plain pointer, an object (copied or moved into a new shared pointer) *)
Inductive argument := Lvalue (v : nat) | Moved (v : nat) | Temporary (a : nat) | Plain (a : nat) | Object (a : assembler).

Inductive outcome := Made (st : state) (f : nat) | Throws (st : state) | Undefined.

(** toSharedPointer and the initialisation of asPtr, 27 / 55 / 66 and 79-86: the new pointer, whether it owns, and the state afterwards, in which a
    moved variable is null.  [None]: the pointer is null or its variable does not exist any more. *)
Definition take (st : state) (arg : argument) : option (nat * bool * state) :=
  match arg with
  | Lvalue v => match nth_error (vars st) v with Some (Points a) => Some (a, true, st) | _ => None end
  | Moved v => match nth_error (vars st) v with Some (Points a) => Some (a, true, withVars st (set (vars st) v Null)) | _ => None end
  | Temporary a => Some (a, true, st)
  | Plain a => Some (a, false, st)
  | Object o => Some (length (objs st), true, withObjs st (objs st ++ [o]))
  end.

Definition makeFun (st : state) (a : nat) (owns : bool) (aff : affordances) (o : dbc) : outcome :=
  Made (withFuns st (funs st ++ [mkFun a owns aff o])) (length (funs st)).

(** op(as, affordances, dbcOption), 24-51 *)
Definition op3 (st : state) (arg : argument) (aff : affordances) (o : dbc) : outcome :=
  match take st arg with Some (a, owns, st) => makeFun st a owns aff o | None => Undefined end.

(** op(as, dbcOption), 53-62: asPtr is taken, then [as] is asked *)
Definition op2 (st : state) (arg : argument) (o : dbc) : outcome :=
  match take st arg with
  | None => Undefined
  | Some (a, owns, st) =>
    let asked := match arg with
                 | Lvalue v => match nth_error (vars st) v with Some (Points b) => Some b | _ => None end
                 | Moved v => match nth_error (vars st) v with Some (Points b) => Some b | _ => None end
                 | Temporary _ => None                 (* moved from, null now *)
                 | Plain b => Some b
                 | Object _ => Some a                  (* does not compile: an object has no operator-> *)
                 end in
    match asked with
    | None => Undefined
    | Some b => match nth_error (objs st) b with
                | Some x => match a_aff x with Some aff => makeFun st a owns aff o | None => Throws st end
                | None => Undefined
                end
    end
  end.

(** op(as), 64-74: asPtr is asked *)
Definition op1 (st : state) (arg : argument) : outcome :=
  match take st arg with
  | None => Undefined
  | Some (a, owns, st) =>
    match nth_error (objs st) a with
    | Some x => match a_aff x, a_dbc x with Some aff, Some o => makeFun st a owns aff o | _, _ => Throws st end
    | None => Undefined
    end
  end.

(** Evaluating the function (0), its derivative (1), the second derivative (2): the assembler fills a buffer and returns a reference to it.  Without
    scalar affordance the function is the residual, 48-50. *)
Inductive evaluation := Value (st : state) (a : nat) (s : slot) | UndefinedValue | NoSuchDerivative.
Definition fill (st : state) (a : nat) (s : slot) (x : X) : state :=
  match nth_error (objs st) a with
  | Some o => withObjs st (set (objs st) a (mkAsm (a_aff o) (a_dbc o) (a_scalar o) (a_vector o) (a_matrix o)
      (fun s' => match s, s' with
                 | ScalarSlot, ScalarSlot => Some x
                 | VectorSlot Raw, VectorSlot Raw | VectorSlot Reduced, VectorSlot Reduced | VectorSlot Full, VectorSlot Full => Some x
                 | MatrixSlot Raw, MatrixSlot Raw | MatrixSlot Reduced, MatrixSlot Reduced | MatrixSlot Full, MatrixSlot Full => Some x
                 | _, _ => a_buffer o s'
                 end)))
  | None => st
  end.
Definition evaluate (st : state) (f derivative : nat) (r : Req) : evaluation :=
  match nth_error (funs st) f with
  | None => UndefinedValue
  | Some f =>
    let a := f_target f in
    if alive st a then
      match nth_error (objs st) a with
      | None => UndefinedValue
      | Some o =>
        let aff := f_aff f in
        let vec := Value (fill st a (VectorSlot (f_dbc f)) (a_vector o r (vectorAff aff) (f_dbc f))) a (VectorSlot (f_dbc f)) in
        let mat := Value (fill st a (MatrixSlot (f_dbc f)) (a_matrix o r (matrixAff aff) (f_dbc f))) a (MatrixSlot (f_dbc f)) in
        match scalarAff aff, derivative with
        | Some sa, 0 => Value (fill st a ScalarSlot (a_scalar o r sa)) a ScalarSlot
        | Some _, 1 => vec
        | Some _, 2 => mat
        | None, 0 => vec
        | None, 1 => mat
        | _, _ => NoSuchDerivative
        end
      end
    else UndefinedValue
  end.
(** Reading a reference *)
Definition read (st : state) (a : nat) (s : slot) : option X := match nth_error (objs st) a with Some o => a_buffer o s | None => None end.

(** ** NonlinearSolverFactory *)

(** withIDBCForceFunction, 90-95: a new factory with a copy of the settings and the force function, which refers to the variable *)
Definition withForce (st : state) (factory v : nat) : option (state * nat) :=
  match nth_error (factories st) factory with
  | Some (Some s) => Some (withFactories st (factories st ++ [Some (mkSettings (s_update s) (Some v))]), length (factories st))
  | _ => None
  end.
(** create, 110-122: the variable is passed on as lvalue *)
Definition create (st : state) (factory v : nat) : outcome :=
  match nth_error (factories st) factory with
  | Some (Some s) =>
    match op1 st (Lvalue v) with
    | Made st f => Made (mkState (objs st) (vars st) (funs st) (factories st) (solvers st ++ [mkSolver f v factory (s_force s)])) (length (solvers st))
    | r => r
    end
  | _ => Undefined
  end.

(** What the solver uses when it corrects the solution: the update function of the settings and the assembler asked for sizes and Dirichlet values,
    36-53; and when it needs the forces of inhomogeneous boundary conditions: the assembler, 28.  [None]: undefined *)
Definition usedUpdate (st : state) (s : solver) : option (nat * nat) :=
  match nth_error (factories st) (v_factory s), nth_error (vars st) (v_var s) with
  | Some (Some z), Some (Points a) => Some (s_update z, a)
  | _, _ => None
  end.
Definition usedForce (st : state) (s : solver) : option (option nat) :=
  match v_force s with
  | None => Some None
  | Some v => match nth_error (vars st) v with Some (Points a) => Some (Some a) | _ => None end
  end.

(** ** What else may happen *)
Inductive command :=
| NewAssembler (o : assembler)                              (* auto a = makeSparseFlatAssembler(...) *)
| Assign (v a : nat)                                        (* a = b, shared pointers; [a] has to exist *)
| Destroy (v : nat)                                         (* end of scope of a pointer variable *)
| Bind (a : nat) (aff : option affordances) (o : option dbc)  (* bind(...) on an existing assembler *)
| NewFactory (s : settings)
| DestroyFactory (f : nat)
| Make (arg : argument) (aff : affordances) (o : dbc)
| WithForce (factory v : nat)
| Create (factory v : nat)
| Evaluate (f derivative : nat) (r : Req).

(** [None]: undefined behaviour *)
Definition run (st : state) (c : command) : option state :=
  match c with
  | NewAssembler o => Some (mkState (objs st ++ [o]) (vars st ++ [Points (length (objs st))]) (funs st) (factories st) (solvers st))
  | Assign v a => if alive st a then Some (withVars st (set (vars st) v (Points a))) else None
  | Destroy v => Some (withVars st (set (vars st) v Destroyed))
  | Bind a aff o =>
    if alive st a then
      match nth_error (objs st) a with
      | Some x => Some (withObjs st (set (objs st) a (mkAsm aff o (a_scalar x) (a_vector x) (a_matrix x) (a_buffer x))))
      | None => None
      end
    else None
  | NewFactory s => Some (withFactories st (factories st ++ [Some s]))
  | DestroyFactory f => Some (withFactories st (set (factories st) f None))
  | Make arg aff o => match op3 st arg aff o with Made st _ => Some st | Throws st => Some st | Undefined => None end
  | WithForce f v => match withForce st f v with Some (st, _) => Some st | None => None end
  | Create f v => match create st f v with Made st _ => Some st | Throws st => Some st | Undefined => None end
  | Evaluate f d r => match evaluate st f d r with Value st _ _ => Some st | UndefinedValue => None | NoSuchDerivative => Some st end
  end.
Fixpoint runs (st : state) (cs : list command) : option state :=
  match cs with [] => Some st | c :: cs => match run st c with Some st => runs st cs | None => None end end.
End Factory.
