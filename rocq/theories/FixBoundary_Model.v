(** Model of DirichletValues::fixBoundaryDOFs (ikarus/utils/dirichletvalues.hh) and of its Python binding (forwardCorrectFunction in
    ikarus/python/dirichletvalues/dirichletvalues.hh, python/ikarus/dirichlet_values.py).

    The grid, the basis and Dune::Functions::forEachBoundaryDOF are outside the repository: a grid is the list of its elements in the order
    of traversal, [boundary e] are the intersections of e with the boundary, [dofs p e s] the local indices of the degrees of freedom on
    such an intersection in the subspace at tree path p, [index e i] is localView.index(i). *)

From Coq Require Import List Arith Bool.
From Verif Require Import Assembler_Model.
Import ListNotations.

Section Fix.
Context {Element Intersection Path : Type}.
Variable grid : list Element.
Variable boundary : Element -> list Intersection.
Variable dofs : Path -> Element -> Intersection -> list nat.
Variable index : Element -> nat -> nat.

(** The flags, handed to the callback by reference; None: access out of bounds or an exception *)
Definition flags := list bool.

(** dirichletvalues.hh 110-131: the three signatures, told apart in this order.  A local view is its element. *)
Inductive callback :=
| onGlobal (f : flags -> nat -> option flags)
| onLocal (f : flags -> nat -> Element -> option flags)
| onIntersection (f : flags -> nat -> Element -> Intersection -> option flags).

(** forEachBoundaryDOF with (localIndex, localView, intersection) *)
Definition visits (p : Path) : list (Element * Intersection * nat) :=
  flat_map (fun e => flat_map (fun s => map (fun i => (e, s, i)) (dofs p e s)) (boundary e)) grid.

(** dirichletvalues.hh 116-127; forEachBoundaryDOF gives localView.index(localIndex) to functions of the global index *)
Definition invoke (c : callback) (fl : flags) (v : Element * Intersection * nat) : option flags :=
  let '(e, s, i) := v in
  match c with onGlobal f => f fl (index e i) | onLocal f => f fl i e | onIntersection f => f fl i e s end.
Definition fixBoundaryDOFs (p : Path) (c : callback) (fl : flags) : option flags := foldM (invoke c) fl (visits p).

(** A Python function: inspect.signature(f).parameters counts the parameters without and with default values; [body] is what a call with
    a flag vector, an index and the further arguments does *)
Inductive argument := aView (e : Element) | anIntersection (s : Intersection).
Record pyFunction := mkPy { required : nat; withDefault : nat; body : flags -> nat -> list argument -> option flags }.

(** python/dirichletvalues/dirichletvalues.hh 67-114 *)
Definition forwardCorrectFunction (f : pyFunction) : option callback :=
  match required f + withDefault f with
  | 2 => Some (onGlobal (fun fl k => body f fl k []))
  | 3 => Some (onLocal (fun fl i e => body f fl i [aView e]))
  | 4 => Some (onIntersection (fun fl i e s => body f fl i [aView e; anIntersection s]))
  | _ => None                                                        (** DUNE_THROW NotImplemented *)
  end.

(** dirichlet_values.py 12-35: the flags afterwards, and whether an exception was raised.  An exception in the callback leaves what was
    written so far, which is not modelled: [None]. *)
Definition pyFixBoundaryDOFs (p : Path) (f : pyFunction) (fl : flags) : option (flags * bool) :=
  match forwardCorrectFunction f with
  | None => Some (fl, true)
  | Some c => option_map (fun fl => (fl, false)) (fixBoundaryDOFs p c fl)
  end.
End Fix.
