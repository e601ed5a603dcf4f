(** Specification for C165: what a user expects of the components of an interpolated field. *)

From Coq Require Import List Arith.
From Verif Require Import FieldShape_Model.
Import ListNotations.

(** The basis that a path leads to *)
Fixpoint at_path (b : preBasis) (path : list nat) : option preBasis :=
  match path with
  | [] => Some b
  | i :: path =>
    match b with
    | ScalarBasis => None
    | PowerBasis n b => if i <? n then at_path b path else None
    | CompositeBasis bs => match nth_error bs i with Some b => at_path b path | None => None end
    end
  end.
(** The basis that the user means *)
Definition meant (u : userBasis) : option preBasis := match u with Whole b => Some b | Subspace root path => at_path root path end.

(** The paths to the scalar functions of a basis, in their order *)
Fixpoint scalarPaths (b : preBasis) : list (list nat) :=
  match b with
  | ScalarBasis => [[]]
  | PowerBasis n b => flat_map (fun i => map (cons i) (scalarPaths b)) (seq 0 n)
  | CompositeBasis bs =>
    (fix go (i : nat) (bs : list preBasis) := match bs with [] => [] | b :: bs => map (cons i) (scalarPaths b) ++ go (S i) bs end) 0 bs
  end.
(** The numbers of a container, addressed by their indices, in their order *)
Fixpoint numbers (c : container) : list (list nat) :=
  match c with
  | Double => [[]]
  | Array n c => flat_map (fun i => map (cons i) (numbers c)) (seq 0 n)
  end.

(** The values have a place for every scalar function of the basis and no others, and the field has as many components *)
Definition fits (u : userBasis) : Prop :=
  exists b c size, meant u = Some b /\ interpolationType u = Some (c, size) /\ numbers c = scalarPaths b /\ size = length (scalarPaths b).

(** Scalars and vectors of scalars *)
Inductive vectorValued : preBasis -> Prop :=
| vv_scalar : vectorValued ScalarBasis
| vv_power n : vectorValued (PowerBasis n ScalarBasis)
| vv_composite n : vectorValued (CompositeBasis (repeat ScalarBasis (S n))).

(** Bases and subspaces for which the writer works: scalars and vectors, their components, and the parts of a composite of them *)
Inductive supported : userBasis -> Prop :=
| s_whole b : vectorValued b -> supported (Whole b)
| s_component n i : i < n -> supported (Subspace (PowerBasis n ScalarBasis) [i])
| s_part bs i b : nth_error bs i = Some b -> vectorValued b -> supported (Subspace (CompositeBasis bs) [i]).
