(** Model of ikarus/utils/traversal.hh, forEachLagrangeNodePosition, and of ikarus/utils/functionhelper.hh, globalIndexFromGlobalPosition and
    obtainLagrangeGlobalNodePositions.

    Contracts: interpolating the i-th coordinate with the nodal interpolation of a Lagrange element gives the i-th coordinates of its nodes;
    the hierarchic search of the grid returns an element that contains the point, or fails.  Coordinates are real numbers. *)

From Coq Require Import List Reals Bool Arith.
Import ListNotations.
Local Open Scope R_scope.

(** Points are lists of coordinates. *)
Definition point := list R.

(** traversal.hh:92-101: coordinate after coordinate, the interpolation of [x[i]] fills the i-th coordinate of all nodes.
    [interpolate f] is the local interpolation of the element: the coefficient of each shape function. *)
Definition nodeCoords (myDim : nat) (interpolate : (point -> R) -> list R) (size : nat) : list point :=
  map (fun j => map (fun i => nth j (interpolate (fun x => nth i x 0)) 0) (seq 0 myDim)) (seq 0 size).

(** traversal.hh:102-104: the function is called with the numbers from 0 and the positions until it returns true.
    The state [S] is what the function changes. *)
Fixpoint forEachFrom {S} (f : nat -> point -> S -> S * bool) (n : nat) (l : list point) (s : S) : S :=
  match l with
  | [] => s
  | x :: l => let '(s', stop) := f n x s in if stop then s' else forEachFrom f (Datatypes.S n) l s'
  end.
Definition forEachNode {S} (myDim : nat) (interpolate : (point -> R) -> list R) (size : nat) (f : nat -> point -> S -> S * bool) (s : S) : S :=
  forEachFrom f 0 (nodeCoords myDim interpolate size) s.

(** Dune::FloatCmp::eq for vectors with absolute comparison: every coordinate differs by at most the tolerance. *)
Definition within (tol : R) (a b : R) : bool := if Rle_dec (Rabs (a - b)) tol then true else false.
Fixpoint eqAbs (tol : R) (a b : point) : bool :=
  match a, b with
  | [], [] => true
  | x :: a, y :: b => within tol x y && eqAbs tol a b
  | _, _ => false
  end.

(** An element of the grid with the basis bound to it: nodes of its Lagrange basis in local coordinates (through the interpolation), its
    geometry, and the global index of component [c] of node [n] (localView.index(node.child(c).localIndex(n))). *)
Record element (I : Type) := mkElement { el_dim : nat; el_interpolate : (point -> R) -> list R; el_size : nat; el_global : point -> point; el_index : nat -> nat -> I }.
Arguments mkElement {I}. Arguments el_dim {I}. Arguments el_interpolate {I}. Arguments el_size {I}. Arguments el_global {I}. Arguments el_index {I}.

Definition tol : R := 1 / 100000000.

Inductive searchResult (I : Type) := NotInGrid | NoNode | Found (indices : list I).
Arguments NotInGrid {I}. Arguments NoNode {I}. Arguments Found {I}.

(** functionhelper.hh:62-116.  [components]: the number of children of the power node; for a scalar basis the one index is returned
    directly.  Both exceptions are explicit outcomes. *)
Definition globalIndex {I} (components : nat) (found : option (element I)) (pos : point) : searchResult I :=
  match found with
  | None => NotInGrid
  | Some e =>
    match forEachNode (el_dim e) (el_interpolate e) (el_size e)
            (fun n x s => if eqAbs tol (el_global e x) pos then (Some (map (el_index e n) (seq 0 components)), true) else (s, false)) None with
    | None => NoNode
    | Some l => Found l
    end
  end.

(** functionhelper.hh:28-39: the vector is appended to *)
Definition globalNodePositions {I} (e : element I) (coords : list point) : list point :=
  forEachNode (el_dim e) (el_interpolate e) (el_size e) (fun _ x s => (s ++ [el_global e x], false)) coords.
