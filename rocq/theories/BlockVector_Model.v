(** Model of the operations on vectors of manifold points (Dune::BlockVector and Dune::TupleVector of points that have a
    correctionSize and a valueSize) in ikarus/utils/linearalgebrahelper.hh, 47-248.

    Points are abstract: [plus] is what `operator+=` and [embed] what `addInEmbedding` of the point type does with one segment.
    Sizes are natural numbers; an overflow of std::size_t is not modelled.  Assertions are enabled. *)

From Coq Require Import List Arith Bool Lia.
Import ListNotations.

Inductive outcome (A : Type) : Type := Returns (a : A) | AssertionFails | Undefined.
Arguments Returns {A} a.
Arguments AssertionFails {A}.
Arguments Undefined {A}.
Definition bind {A B : Type} (x : outcome A) (f : A -> outcome B) : outcome B :=
  match x with Returns a => f a | AssertionFails => AssertionFails | Undefined => Undefined end.

Section Blocks.
  Variables (P K : Type).

  (** b.segment<len>(start) and b(Eigen::seqN(start, len)): Eigen asserts that the range exists *)
  Definition segment (b : list K) (start len : nat) : outcome (list K) :=
    if start + len <=? length b then Returns (firstn len (skipn start b)) else AssertionFails.

  (** correctionSize(a) and valueSize(a), 148-168: [size] is Type::correctionSize or Type::valueSize *)
  Definition totalSize (size : nat) (a : list P) : nat := length a * size.

  (** the loops 184-185 and 244-245, from index i on *)
  Fixpoint addFrom (size : nat) (plus : P -> list K -> P) (b : list K) (i : nat) (a : list P) : outcome (list P) :=
    match a with
    | [] => Returns []
    | p :: a => bind (segment b (i * size) size) (fun s => bind (addFrom size plus b (S i) a) (fun a => Returns (plus p s :: a)))
    end.

  (** operator+= of a block vector, 178-187, with correctionSize and operator+= of the points;
      addInEmbedding, 237-248, with valueSize and addInEmbedding of the points *)
  Definition addBlocks (size : nat) (plus : P -> list K -> P) (a : list P) (b : list K) : outcome (list P) :=
    if totalSize size a =? length b then addFrom size plus b 0 a else AssertionFails.

  (** operator-= of a block vector, 198-204 *)
  Definition subtractBlocks (opp : K -> K) (size : nat) (plus : P -> list K -> P) (a : list P) (b : list K) : outcome (list P) :=
    addBlocks size plus a (map opp b).

  (** One member of a Dune::TupleVector: points of its own type (here the sum P of all types) *)
  Record member := mkMember { m_size : nat; m_plus : P -> list K -> P; m_points : list P }.

  (** operator+= of a tuple vector, 215-226; [posStart] is where the next member begins *)
  Fixpoint addTupleFrom (b : list K) (posStart : nat) (a : list member) : outcome (list member) :=
    match a with
    | [] => Returns []
    | m :: a =>
      let size := totalSize (m_size m) (m_points m) in
      bind (segment b posStart size) (fun s =>
      bind (addBlocks (m_size m) (m_plus m) (m_points m) s) (fun points =>
      bind (addTupleFrom b (posStart + size) a) (fun a => Returns (mkMember (m_size m) (m_plus m) points :: a))))
    end.
  Definition addTuple (a : list member) (b : list K) : outcome (list member) := addTupleFrom b 0 a.
End Blocks.
Arguments segment {K} b start len.
Arguments totalSize {P} size a.
Arguments addFrom {P K} size plus b i a.
Arguments addBlocks {P K} size plus a b.
Arguments subtractBlocks {P K} opp size plus a b.
Arguments m_size {P K} m.
Arguments m_plus {P K} m.
Arguments m_points {P K} m.
Arguments mkMember {P K}.
Arguments addTupleFrom {P K} b posStart a.
Arguments addTuple {P K} a b.

(** ** Views, 55-138: an Eigen::Map on the memory of the block vector, which begins with the first entry of the first block.
    The coordinates of a point are contiguous and without padding: the memory is the concatenation of the blocks. *)
Section Views.
  Variable K : Type.

  Inductive view := Flat | DynFixed | FixedDyn.

  (** Rows and columns; blockedVector[0] and blockedVector.begin()->begin() of an empty vector do not exist *)
  Definition extent (v : view) (a : list (list K)) : outcome (nat * nat) :=
    match a with
    | [] => Undefined
    | p :: _ => Returns match v with
                        | Flat => (length a * length p, 1)
                        | DynFixed => (length a, length p)
                        | FixedDyn => (length p, length a)
                        end
    end.

  (** Position in memory of row i and column j: DynFixed is stored by rows, the others by columns *)
  Definition address (v : view) (rows cols i j : nat) : nat := match v with DynFixed => i * cols + j | _ => j * rows + i end.

  Definition readView (v : view) (a : list (list K)) (i j : nat) : outcome K :=
    bind (extent v a) (fun '(rows, cols) =>
      if (i <? rows) && (j <? cols) then match nth_error (concat a) (address v rows cols i j) with Some x => Returns x | None => Undefined end else AssertionFails).

  (** Writing a place of the memory: the block it belongs to *)
  Fixpoint replace (l : list K) (k : nat) (x : K) : list K :=
    match l, k with [], _ => [] | _ :: l, O => x :: l | y :: l, S k => y :: replace l k x end.
  Fixpoint write (a : list (list K)) (k : nat) (x : K) : list (list K) :=
    match a with [] => [] | p :: a => if k <? length p then replace p k x :: a else p :: write a (k - length p) x end.

  Definition writeView (v : view) (a : list (list K)) (i j : nat) (x : K) : outcome (list (list K)) :=
    bind (extent v a) (fun '(rows, cols) => if (i <? rows) && (j <? cols) then Returns (write a (address v rows cols i j) x) else AssertionFails).
End Views.
Arguments extent {K} v a.
Arguments readView {K} v a i j.
Arguments replace {K} l k x.
Arguments write {K} a k x.
Arguments writeView {K} v a i j x.
