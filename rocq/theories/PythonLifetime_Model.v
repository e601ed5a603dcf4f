(** Model of which objects the Python bindings keep alive: ikarus/python/finiteelements/registerpreelement.hh, fe.hh,
    ikarus/python/assembler/flatassembler.hh, flatassemblermanipulator.hh, ikarus/python/io/vtkwriter.hh.

    Python objects are numbered in the order of their creation.  pybind11::keep_alive<1, n> (and shared pointers) lets a new object hold a reference
    to an older one, so there are no cycles and an object exists exactly as long as it is reachable from a name.  Copies made when arguments are
    converted are part of the object that stores them. *)

From Coq Require Import List Arith Bool.
Import ListNotations.

(** [keeps]: what the object keeps alive; [patches], [bases]: the boundary patches and bases its C++ object points to;
    [callsBases]: whether calls read
    the bases *)
Record object := mkObject { keeps : list nat; patches : list nat; bases : list nat; callsBases : bool }.
Record heap := mkHeap { objects : list object; names : list nat }.
Definition empty := mkHeap [] [].

Section Python.
(** Whether bound local views still read the basis (dune-functions: Lagrange nodes do not, spline nodes do) *)
Variable nodesReadBasis : bool.

Inductive call :=
| makePatch                                        (** ikarus.utils.boundaryPatch: the grid is left out *)
| makeBasis                                        (** ikarus.basis *)
| makeLoad (patch : nat)                           (** ikarus.finite_elements.neumannBoundaryLoad *)
| makeFE (basis : nat) (loads : list nat)          (** ikarus.finite_elements.makeFE; skills without references are left out *)
| makeAssembler (elements : list nat)              (** ikarus.assembler.sparseFlatAssembler, denseFlatAssembler *)
| makeManipulator (assembler : nat)                (** ikarus.assembler.assemblerManipulator *)
| makeWriter (assembler : nat)                     (** ikarus.io.vtkWriter *)
| forget (x : nat).                                (** del, or the end of a scope *)

Definition get (h : heap) (x : nat) : object := nth x (objects h) (mkObject [] [] [] false).
Definition isNamed (h : heap) (x : nat) : bool := existsb (Nat.eqb x) (names h).

Definition made (h : heap) (c : call) : option object :=
  match c with
  | makePatch => Some (mkObject [] [] [] false)
  | makeBasis => Some (mkObject [] [] [] false)
  (** registerpreelement.hh 116-119: &patch, keep_alive<1, 2> *)
  | makeLoad p => Some (mkObject [p] [p] [] false)
  (** fe.hh 94-100: the tuple of pre-elements is converted to C++, a copy; keep_alive<1, 2> is the basis.
      fe.hh 135-145 (localView) reads the basis *)
  | makeFE b loads => Some (mkObject [b] (flat_map (fun l => patches (get h l)) loads) [b] true)
  (** flatassembler.hh 50-57: elements and Dirichlet values are copied, keep_alive<1, 3> are the Dirichlet values (which refer to nothing) *)
  | makeAssembler es => Some (mkObject [] (flat_map (fun e => patches (get h e)) es) (flat_map (fun e => bases (get h e)) es) nodesReadBasis)
  (** flatassemblermanipulator.hh 79: copies the assembler *)
  | makeManipulator a => Some (mkObject [] (patches (get h a)) (bases (get h a)) nodesReadBasis)
  (** vtkwriter.hh 59-65: shared pointer and keep_alive<1, 2> *)
  | makeWriter a => Some (mkObject [a] (patches (get h a)) (bases (get h a)) nodesReadBasis)
  | forget _ => None
  end.

Definition arguments (c : call) : list nat :=
  match c with
  | makePatch | makeBasis => [] | makeLoad p => [p] | makeFE b ls => b :: ls | makeAssembler es => es
  | makeManipulator a => [a] | makeWriter a => [a] | forget x => [x]
  end.

(** Arguments have to be objects with a name; a call with others is not a Python program *)
Definition run1 (h : heap) (c : call) : option heap :=
  if forallb (isNamed h) (arguments c) then
    match made h c with
    | Some o => Some (mkHeap (objects h ++ [o]) (length (objects h) :: names h))
    | None => match c with forget x => Some (mkHeap (objects h) (filter (fun y => negb (y =? x)) (names h))) | _ => None end
    end
  else None.
Fixpoint run (h : heap) (cs : list call) : option heap :=
  match cs with [] => Some h | c :: cs => match run1 h c with Some h' => run h' cs | None => None end end.

(** What methods of an object dereference *)
Definition reads (o : object) : list nat := patches o ++ (if callsBases o then bases o else []).
End Python.
