(** Model of the types of interpolated fields: ikarus/io/vtkcontainertypes.hh and the part of ikarus/io/vtkwriter.hh that uses them.
    Bases are the trees of dune-functions: scalar bases, powers and composites (their polynomial degree plays no role here). *)

From Coq Require Import List Arith.
Import ListNotations.

Inductive preBasis := ScalarBasis | PowerBasis (n : nat) (b : preBasis) | CompositeBasis (bs : list preBasis).
(** The types of the containers: double and std::array *)
Inductive container := Double | Array (n : nat) (c : container).

(** vtkcontainertypes.hh:32-36 (scalar), 80-84 (power), 44-53 (composite: the container of the first basis as often as there are bases).
    None: the program does not compile (a composite without bases) *)
Fixpoint resultContainerPre (b : preBasis) : option container :=
  match b with
  | ScalarBasis => Some Double
  | PowerBasis n b => match resultContainerPre b with Some c => Some (Array n c) | None => None end
  | CompositeBasis [] => None
  | CompositeBasis (b :: bs) => match resultContainerPre b with Some c => Some (Array (S (length bs)) c) | None => None end
  end.

(** vtkcontainertypes.hh:56-69: subspaces of composites take the basis of the first index of the path, others are scalars *)
Definition resultContainerSSB (root : preBasis) (path : list nat) : option container :=
  match root with
  | CompositeBasis bs =>
    match path with
    | [] => None
    | i :: _ => match nth_error bs i with Some b => resultContainerPre b | None => None end
    end
  | _ => Some Double
  end.

(** A basis given by the user: a basis or a subspace basis (root and path) *)
Inductive userBasis := Whole (b : preBasis) | Subspace (root : preBasis) (path : list nat).

(** vtkcontainertypes.hh:38-42, 72-78 *)
Definition resultContainer (u : userBasis) : option container :=
  match u with
  | Whole b => resultContainerPre b
  | Subspace root path => resultContainerSSB root path
  end.

(** vtkcontainertypes.hh:22-28 *)
Definition sizeOfContainer (c : container) : nat := match c with Double => 1 | Array n _ => n end.

(** vtkwriter.hh:130-135: the type of the values of the interpolated function and the number of components of the field *)
Definition interpolationType (u : userBasis) : option (container * nat) :=
  match resultContainer u with Some c => Some (c, sizeOfContainer c) | None => None end.
