(** Model of a mesh of finite elements as the assemblers see it: what ties the skills of an element (Element_Model.v), the collection of
    its local solution and global indices (FEHelper_Model.v) and the assembly loops (Assembler_Model.v) together.

    Sources: ikarus/assembler/simpleassemblers.inl, ikarus/finiteelements/mixin.hh, fehelper.hh.
    Numbers are real numbers.  The basis of an element is a power basis (displacements). *)

From Coq Require Import List Arith Bool Reals.
From Verif Require Import FEHelper_Model Assembler_Model Element_Model.
Import ListNotations.
Local Open Scope R_scope.

(** A finite element: the children of its power basis (one per direction), localView.index, and what its skills do together *)
Record meshElement := mkMeshElement {
  me_children : list tree;
  me_index : nat -> nat;
  me_skill : skill }.

(** fehelper.hh 196-199 *)
Definition me_dofs (e : meshElement) : list nat := globalIndices (me_index e) (Power (me_children e)).

(** The local solution for the global solution U of n dofs, entry d * i + j is that of node i and direction j;
    localSolutionBlockVector, fehelper.hh 27-46, an access out of range is the value 0 here *)
Definition localOf (n : nat) (e : meshElement) (U : nat -> R) (k : nat) : R :=
  let d := length (me_children e) in
  match localSolution Rplus (me_index e) (map U (seq 0 n)) (me_children e) None (k / d) (k mod d) with Some v => v | None => 0 end.

(** mixin.hh 127-152 called from simpleassemblers.inl 17-24, 66-70 and 306-309 (the local vector and matrix are zero before); the local matrix is stored by columns *)
Definition toElement (n : nat) (e : meshElement) : element (V := R) (nat -> R) :=
  let N := length (me_dofs e) in
  mkElement (me_dofs e)
    (fun U => skillScalar (me_skill e) (localOf n e U))
    (fun U => map (skillVector (me_skill e) (localOf n e U) (fun _ => 0)) (seq 0 N))
    (fun U => map (fun p => skillMatrix (me_skill e) (localOf n e U) (fun _ _ => 0) (p mod N) (p / N)) (seq 0 (N * N))).

Definition toElements (n : nat) (mesh : list meshElement) : list (element (V := R) (nat -> R)) := map (toElement n) mesh.
