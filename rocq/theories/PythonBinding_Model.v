(** Model of requirements in Python and of assemblers bound to them: ikarus/python/finiteelements/registerferequirements.hh,
    ikarus/python/finiteelements/scalarwrapper.hh, ikarus/python/assembler/flatassembler.hh, flatassemblermanipulator.hh, ikarus/python/io/vtkwriter.hh, with
    ikarus/assembler/interface.hh and ikarus/finiteelements/ferequirements.hh.

    Python objects are numbered in the order of their creation.  The solution vector of a requirement is an Eigen::VectorXd, also for elements made from Python
    (useEigenRef only changes the types passed to calculateVector and calculateMatrix, fetraits.hh 78-86).  Affordances and Dirichlet options are left out: they
    are stored by value (Binding_Model). *)

From Coq Require Import List Arith Bool.
Import ListNotations.

Section Python.
Context {SV PM : Type}.

Inductive object :=
| anArray (v : SV)                                      (** numpy array *)
| aScalar (p : PM)                                      (** ikarus.Scalar *)
| aRequirement (sol : option SV) (par : option PM)      (** ferequirements.hh 395-396 *)
| anAssembler (req : option nat)                        (** also manipulators; interface.hh 261: optional reference to a requirement *)
| aWriter (assembler : nat).                            (** vtkwriter.hh 59-65: shared pointer and keep_alive<1, 2> *)

Record heap := mkHeap { objects : list object; names : list nat }.
Definition empty := mkHeap [] [].

Inductive call :=
| makeArray (v : SV)                  (** numpy.array *)
| setArray (x : nat) (v : SV)         (** x[:] = v *)
| makeScalar (p : PM)                 (** ikarus.Scalar(p) *)
| setScalar (x : nat) (p : PM)        (** changes a Scalar in place: +=, -=, *=, /= *)
| createRequirement                   (** fe.createRequirement(), FERequirements() *)
| insertSolution (r x : nat)          (** r.insertGlobalSolution(x) *)
| insertParameter (r x : nat)         (** r.insertParameter(x) *)
| makeAssembler
| makeManipulator (a : nat)
| makeWriter (a : nat)
| bind (a r : nat)                    (** a.bind(r), a.bind(r, affordances, option) *)
| requirementOf (a : nat)             (** a.requirement() *)
| forget (x : nat).                   (** del, or the end of a scope *)

(** A call succeeds, raises an exception or has undefined behaviour *)
Inductive result := Done (h : heap) | Raises | UB.

Definition isNamed (h : heap) (x : nat) : bool := existsb (Nat.eqb x) (names h).
Definition look (h : heap) (x : nat) : option object := nth_error (objects h) x.
Fixpoint setNth (l : list object) (x : nat) (o : object) : list object :=
  match l, x with [], _ => [] | _ :: l, 0 => o :: l | a :: l, S x => a :: setNth l x o end.
Definition store (h : heap) (x : nat) (o : object) : heap := mkHeap (setNth (objects h) x o) (names h).
Definition create (h : heap) (o : object) : heap := mkHeap (objects h ++ [o]) (length (objects h) :: names h).

Definition arguments (c : call) : list nat :=
  match c with
  | makeArray _ | makeScalar _ | createRequirement | makeAssembler => []
  | setArray x _ | setScalar x _ | makeManipulator x | makeWriter x | requirementOf x | forget x => [x]
  | insertSolution r x | insertParameter r x => [r; x]
  | bind a r => [a; r]
  end.

(** Arguments of other types raise a TypeError, unnamed objects a NameError *)
Definition run1 (h : heap) (c : call) : result :=
  if forallb (isNamed h) (arguments c) then
    match c with
    | makeArray v => Done (create h (anArray v))
    | setArray x v => match look h x with Some (anArray _) => Done (store h x (anArray v)) | _ => Raises end
    | makeScalar p => Done (create h (aScalar p))
    (** scalarwrapper.hh 88-125, _ikarus.cc 58-66 *)
    | setScalar x p => match look h x with Some (aScalar _) => Done (store h x (aScalar p)) | _ => Raises end
    (** registerferequirements.hh 22-24, 31: default constructor *)
    | createRequirement => Done (create h (aRequirement None None))
    (** registerferequirements.hh 34-37 and ferequirements.hh 304-307: the array is converted, a copy *)
    | insertSolution r x =>
        match look h r, look h x with
        | Some (aRequirement _ p), Some (anArray v) => Done (store h r (aRequirement (Some v) p))
        | _, _ => Raises
        end
    (** registerferequirements.hh 41-44 and ferequirements.hh 290-293: make_unique<PM>(val), a copy, although the binding keeps the Scalar alive *)
    | insertParameter r x =>
        match look h r, look h x with
        | Some (aRequirement s _), Some (aScalar p) => Done (store h r (aRequirement s (Some p)))
        | _, _ => Raises
        end
    (** flatassembler.hh 50-57 *)
    | makeAssembler => Done (create h (anAssembler None))
    (** flatassemblermanipulator.hh 79: copies the assembler with its reference to the requirement *)
    | makeManipulator a => match look h a with Some (anAssembler b) => Done (create h (anAssembler b)) | _ => Raises end
    | makeWriter a => match look h a with Some (anAssembler _) => Done (create h (aWriter a)) | _ => Raises end
    (** flatassembler.hh 107-109, without keep_alive; interface.hh 150-164: std::ref(req) *)
    | bind a r =>
        match look h a, look h r with
        | Some (anAssembler _), Some (aRequirement _ _) => Done (store h a (anAssembler (Some r)))
        | _, _ => Raises
        end
    (** flatassembler.hh 116: returns by value, the copy constructor ferequirements.hh 262-264; interface.hh 229-234.  Nothing but its name keeps a requirement *)
    | requirementOf a =>
        match look h a with
        | Some (anAssembler (Some r)) =>
            if isNamed h r then match look h r with Some (aRequirement s p) => Done (create h (aRequirement s p)) | _ => UB end else UB
        | _ => Raises
        end
    | forget x => Done (mkHeap (objects h) (filter (fun y => negb (y =? x)) (names h)))
    end
  else Raises.

(** An exception ends the program *)
Fixpoint run (h : heap) (cs : list call) : result :=
  match cs with
  | [] => Done h
  | c :: cs => match run1 h c with Done h' => run h' cs | r => r end
  end.

(** What the elements see when x.matrix(), x.vector(), x.scalar() of an assembler or write() of a writer with results is called: the values in the bound requirement.
    interface.hh 310-313 and the same for vector and matrix, 229-234, resultfunction.hh 76-82.  Elements read both solution and load factor *)
Inductive seen := Sees (s : SV) (p : PM) | Error | Undefined.
Definition evaluateAssembler (h : heap) (a : nat) : seen :=
  match look h a with
  | Some (anAssembler (Some r)) =>
      if isNamed h r then
        match look h r with
        | Some (aRequirement (Some s) (Some p)) => Sees s p
        | Some (aRequirement _ _) => Error
        | _ => Undefined
        end
      else Undefined
  | _ => Error
  end.
Definition evaluate (h : heap) (x : nat) : seen :=
  match look h x with Some (aWriter a) => evaluateAssembler h a | _ => evaluateAssembler h x end.
End Python.
Arguments object : clear implicits.
Arguments heap : clear implicits.
Arguments call : clear implicits.
Arguments seen : clear implicits.
Arguments result : clear implicits.
