(** Model of elements with internal variables in Python: ikarus/python/finiteelements/fe.hh, ikarus/python/assembler/flatassembler.hh,
    flatassemblermanipulator.hh, ikarus/python/io/vtkwriter.hh, and of the Newton iteration of ikarus/python/test/helperfunctions.py, which
    shows how elements are meant to be updated.

    Python objects are numbered in the order of their creation; none is deleted here (PythonLifetime_Model).  [State] is what an element
    stores: the internal variables and everything set by bind; [step] is updateState for one correction. *)

From Coq Require Import List Arith Bool.
Import ListNotations.

Section Python.
Context {State Dx : Type}.
Variable step : State -> Dx -> State.

Inductive object :=
| anElement (s : State)
| anAssembler (elements : list State)     (** an assembler stores a vector of elements, not pointers; also manipulators *)
| aWriter (assembler : nat).              (** vtkwriter.hh 59-65: shared pointer *)
Definition heap := list object.

Inductive call :=
| makeFE (s : State)                      (** iks.finite_elements.makeFE(...) and bind, fe.hh 94-102 *)
| updateState (e : nat) (dx : Dx)         (** e.updateState(req, dx), fe.hh 103-104 *)
| makeAssembler (fes : list nat)          (** sparseFlatAssembler(fes, ...), denseFlatAssembler *)
| makeManipulator (a : nat)
| makeWriter (a : nat).

Fixpoint setNth (l : heap) (x : nat) (o : object) : heap :=
  match l, x with [], _ => [] | _ :: l, 0 => o :: l | a :: l, S x => a :: setNth l x o end.

(** The state of a Python element *)
Definition elementState (h : heap) (e : nat) : option State := match nth_error h e with Some (anElement s) => Some s | _ => None end.
(** flatassembler.hh 50-56: fes.cast<FEContainer>() copies every element; other objects in the list raise an exception *)
Fixpoint castElements (h : heap) (fes : list nat) : option (list State) :=
  match fes with
  | [] => Some []
  | e :: fes => match elementState h e, castElements h fes with Some s, Some l => Some (s :: l) | _, _ => None end
  end.

(** None: an exception *)
Definition run1 (h : heap) (c : call) : option heap :=
  match c with
  | makeFE s => Some (h ++ [anElement s])
  | updateState e dx => option_map (fun s => setNth h e (anElement (step s dx))) (elementState h e)
  (** assembler/__init__.py 17, 44: fes[0] raises an exception for an empty list *)
  | makeAssembler [] => None
  | makeAssembler fes => option_map (fun l => h ++ [anAssembler l]) (castElements h fes)
  (** flatassemblermanipulator.hh 79, assemblermanipulatorfuser.hh 366-384: a copy of the assembler with its elements *)
  | makeManipulator a => match nth_error h a with Some (anAssembler l) => Some (h ++ [anAssembler l]) | _ => None end
  | makeWriter a => match nth_error h a with Some (anAssembler _) => Some (h ++ [aWriter a]) | _ => None end
  end.
Fixpoint run (h : heap) (cs : list call) : option heap :=
  match cs with [] => Some h | c :: cs => match run1 h c with Some h => run h cs | None => None end end.

(** The states that are used by scalar, vector and matrix of an assembler and manipulator, and by the results a writer writes *)
Definition uses (h : heap) (x : nat) : option (list State) :=
  match nth_error h x with
  | Some (anAssembler l) => Some l
  | Some (aWriter a) => match nth_error h a with Some (anAssembler l) => Some l | _ => None end
  | _ => None
  end.

(** helperfunctions.py 6-8 *)
Fixpoint updateAllElements (h : heap) (fes : list nat) (dx : Dx) : option heap :=
  match fes with [] => Some h | e :: fes => match run1 h (updateState e dx) with Some h => updateAllElements h fes dx | None => None end end.

(** solveWithNewtonRaphson, helperfunctions.py 46-66: gradFun and hessFun ask the assembler; n more iterations are allowed *)
Section Newton.
Context {V M : Type}.
Variables (gradient : list State -> V -> V) (hessian : list State -> V -> M) (solve : M -> V -> V) (minus : V -> V -> V) (small : V -> bool) (full : V -> Dx).
Fixpoint newton (n : nat) (h : heap) (a : nat) (fes : list nat) (d : V) : option (bool * V * heap) :=
  match uses h a with
  | None => None
  | Some l =>
    let R := gradient l d in
    let delta := solve (hessian l d) R in
    match updateAllElements h fes (full delta) with
    | None => None
    | Some h =>
      let d := minus d delta in
      if small R then Some (true, d, h) else match n with 0 => Some (false, d, h) | S n => newton n h a fes d end
    end
  end.
End Newton.
End Python.
