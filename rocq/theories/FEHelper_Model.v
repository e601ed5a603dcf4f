(** Model of ikarus/finiteelements/fehelper.hh and of forEachLeafOrPowerLeafNode, ikarus/utils/traversal.hh lines 30-53.
    A tree of a basis: a leaf has the local indices of its shape functions; a power node has children of the same kind; a composite
    node has children of different kinds. *)

From Coq Require Import List Arith Bool.
Import ListNotations.

Inductive tree := Leaf (localIndex : list nat) | Power (children : list tree) | Composite (children : list tree).

Definition isLeaf (t : tree) : bool := match t with Leaf _ => true | _ => false end.
Definition leafIndices (t : tree) : list nat := match t with Leaf l => l | _ => [] end.

Section Indices.
  Variable G : Type.
  Variable index : nat -> G.          (* localView.index: global index of a local index *)

  (** leafNodeIndices, lines 127-133 *)
  Definition leafNodeIndices (localIndex : list nat) : list G := map index localIndex.

  (** powerNodeIndices, lines 145-153; the number of shape functions is that of the first child *)
  Definition powerNodeIndices (children : list tree) : list G :=
    match children with
    | [] => []
    | c :: _ => flat_map (fun i => map (fun t => index (nth i (leafIndices t) 0)) children) (seq 0 (length (leafIndices c)))
    end.

  (** globalIndicesFromLocalView, lines 164-181, with forEachLeafOrPowerLeafNode *)
  Fixpoint globalIndices (t : tree) : list G :=
    match t with
    | Leaf l => leafNodeIndices l
    | Power children =>
      match children with
      | c :: _ => if isLeaf c then powerNodeIndices children else flat_map globalIndices children
      | [] => []
      end
    | Composite children => flat_map globalIndices children
    end.
End Indices.
Arguments leafNodeIndices {G}. Arguments powerNodeIndices {G}. Arguments globalIndices {G}.

Section Solution.
  Variable V : Type.
  Variables (add : V -> V -> V).
  Variable index : nat -> nat.

  (** One entry of the local solution: None is an access outside of a vector *)
  Definition entry (dx : option (list V)) (position : nat) (x : list V) (globalIndex : nat) : option V :=
    match nth_error x globalIndex, dx with
    | Some v, None => Some v
    | Some v, Some d => match nth_error d position with Some w => Some (add w v) | None => None end
    | None, _ => None
    end.

  (** localSolutionBlockVector, lines 27-46: node i, direction j; worldDim is the number of children *)
  Definition localSolution (x : list V) (children : list tree) (dx : option (list V)) (i j : nat) : option V :=
    entry dx (i * length children + j) x (index (nth i (leafIndices (nth j children (Leaf []))) 0)).

  (** localSolutionBlockVectorScalar, lines 61-80 *)
  Definition localSolutionScalar (x : list V) (localIndex : list nat) (dx : option (list V)) (i : nat) : option V :=
    let g := index (nth i localIndex 0) in entry dx g x g.

  (** localSolutionBlockVectorComposite, lines 95-116 *)
  Definition localSolutionComposite (x : list V) (children : list tree) (dx : option (list V)) (i j : nat) : option V :=
    let g := index (nth i (leafIndices (nth j children (Leaf []))) 0) in entry dx g x g.
End Solution.
Arguments entry {V}. Arguments localSolution {V}. Arguments localSolutionScalar {V}. Arguments localSolutionComposite {V}.
