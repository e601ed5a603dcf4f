(** Model of ikarus/utils/flatprebasis.hh, FlatPreBasis, and of the bases made from it by BasisHandler, ikarus/utils/basis.hh:42-44.

    The indices of a pre-basis are modelled after dune-functions (PowerPreBasis and CompositePreBasis); this part is a contract.  A degree of freedom
    is named by the children on the way to its leaf basis and its index there. *)

From Coq Require Import List Arith.
Import ListNotations.

(** Dune::Functions::BasisFactory *)
Inductive ims := BlockedInterleaved | BlockedLexicographic | FlatInterleaved | FlatLexicographic.

Inductive preBasis := LeafB (n : nat) | PowerB (s : ims) (degree : nat) (sub : preBasis) | CompositeB (s : ims) (subs : list preBasis).

(** FlatIndexMergingStrategy, flatprebasis.hh:51-67 *)
Definition flatStrategy (s : ims) : ims :=
  match s with BlockedInterleaved => FlatInterleaved | BlockedLexicographic => FlatLexicographic | s => s end.

(** FlatPreBasis::create, 36-45 (leaf), 69-84 (composite), 86-96 (power) *)
Fixpoint flatten (b : preBasis) : preBasis :=
  match b with
  | LeafB n => LeafB n
  | PowerB s k sub => PowerB (flatStrategy s) k (flatten sub)
  | CompositeB s subs => CompositeB (flatStrategy s) (map flatten subs)
  end.

(** dune-functions: number of first digits *)
Fixpoint size (b : preBasis) : nat :=
  match b with
  | LeafB n => n
  | PowerB BlockedInterleaved _ sub => size sub
  | PowerB BlockedLexicographic k _ => k
  | PowerB _ k sub => k * size sub
  | CompositeB BlockedLexicographic subs => length subs
  | CompositeB _ subs => list_sum (map size subs)
  end.

(** number of degrees of freedom *)
Fixpoint dimension (b : preBasis) : nat :=
  match b with
  | LeafB n => n
  | PowerB _ k sub => k * dimension sub
  | CompositeB _ subs => list_sum (map dimension subs)
  end.

Definition onFirst (f : nat -> nat) (mi : list nat) : list nat := match mi with [] => [] | d :: mi => f d :: mi end.

(** dune-functions: the multi-index of a degree of freedom.  [offset]: sizes of the children before *)
Definition merge (s : ims) (degree child offset : nat) (mi : list nat) : list nat :=
  match s with
  | BlockedInterleaved => mi ++ [child]
  | BlockedLexicographic => child :: mi
  | FlatInterleaved => onFirst (fun d => d * degree + child) mi
  | FlatLexicographic => onFirst (fun d => d + offset) mi
  end.

Fixpoint index (b : preBasis) (dof : list nat) : list nat :=
  match b, dof with
  | LeafB _, _ => dof
  | PowerB s k sub, c :: p => merge s k c (c * size sub) (index sub p)
  | CompositeB s subs, c :: p =>
      (fix at_ (l : list preBasis) (n offset : nat) : list nat :=
         match l, n with
         | [], _ => []
         | b :: _, O => merge s (length subs) c offset (index b p)
         | b :: l, S n => at_ l n (offset + size b)
         end) subs c 0
  | _, _ => []
  end.
