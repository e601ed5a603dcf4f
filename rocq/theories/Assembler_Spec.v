(** Specification of flat assembly, written without reference to the algorithms of
    Assembler_Model.v (only its data types are used). *)

From Coq Require Import List Arith Bool.
From Verif Require Import Assembler_Model.
Import ListNotations.

(** Dof [i] is free / constrained. *)
Definition free (flags : list bool) (i : nat) : Prop := nth_error flags i = Some false.
Definition constrained (flags : list bool) (i : nat) : Prop := nth_error flags i = Some true.

(** Number of constrained dofs with index smaller than [i]. *)
Definition below (flags : list bool) (i : nat) : nat := count_occ Bool.bool_dec (firstn i flags) true.

(** Number of constrained / free dofs. *)
Definition nConstrained (flags : list bool) : nat := count_occ Bool.bool_dec flags true.
Definition nFree (flags : list bool) : nat := count_occ Bool.bool_dec flags false.

(** The entries of [v] at the free dofs in increasing order. *)
Fixpoint restrict {A} (flags : list bool) (v : list A) : list A :=
  match flags, v with
  | b :: ft, x :: vt => if b then restrict ft vt else x :: restrict ft vt
  | _, _ => []
  end.

(** The free dofs in increasing order. *)
Definition freeList (flags : list bool) : list nat := restrict flags (seq 0 (length flags)).

Section Sums.
Context {V Q : Type} (vzero : V) (vadd : V -> V -> V).

(** Left-to-right sum. *)
Definition sum (l : list V) : V := fold_left vadd l vzero.

(** Entries of the element vector whose global index is [d]. *)
Definition vecContrib (e : element (V:=V) Q) (q : Q) (d : nat) : list V :=
  flat_map (fun i => if nth i (dofs e) 0 =? d then [nth i (evec e q) vzero] else [])
           (seq 0 (length (dofs e))).

(** Entries of the element matrix (stored by columns) whose global indices are [(r, c)], row by row. *)
Definition matContrib (e : element (V:=V) Q) (q : Q) (r c : nat) : list V :=
  let k := length (dofs e) in
  flat_map (fun i => flat_map (fun j =>
      if (nth i (dofs e) 0 =? r) && (nth j (dofs e) 0 =? c) then [nth (i + j * k) (emat e q) vzero] else [])
    (seq 0 k)) (seq 0 k).

(** The assembled quantities. *)
Definition vecEntry (els : list (element (V:=V) Q)) (q : Q) (d : nat) : V :=
  sum (flat_map (fun e => vecContrib e q d) els).
Definition matEntry (els : list (element (V:=V) Q)) (q : Q) (r c : nat) : V :=
  sum (flat_map (fun e => matContrib e q r c) els).

(** Matrix with Dirichlet rows and columns: unit diagonal at constrained dofs, otherwise zero in
    constrained rows and columns, unchanged elsewhere. *)
Definition fullEntry (vone : V) (flags : list bool) (f : nat -> nat -> V) (r c : nat) : V :=
  if nth r flags false || nth c flags false then (if r =? c then vone else vzero) else f r c.

(** The same, when zero is produced by multiplication with zero, once for a constrained column and once
    for a constrained row. *)
Definition sparseFullEntry (vone : V) (vmul : V -> V -> V) (flags : list bool) (f : nat -> nat -> V) (r c : nat) : V :=
  if (r =? c) && nth r flags false then vone
  else let x := if nth c flags false then vmul (f r c) vzero else f r c in
       if nth r flags false then vmul x vzero else x.

(** What a finite element has to provide: indices inside the basis, vector and matrix of matching size. *)
Definition wfElement (n : nat) (e : element (V:=V) Q) : Prop :=
  (forall d, In d (dofs e) -> d < n) /\
  (forall q, length (evec e q) = length (dofs e)) /\
  (forall q, length (emat e q) = length (dofs e) * length (dofs e)).

Definition wfElements (n : nat) (els : list (element (V:=V) Q)) : Prop :=
  forall e, In e els -> wfElement n e.

(** No element lists a dof twice. *)
Definition distinctDofs (els : list (element (V:=V) Q)) : Prop := forall e, In e els -> NoDup (dofs e).

(** Every constrained dof belongs to some element. *)
Definition constrainedCovered (flags : list bool) (els : list (element (V:=V) Q)) : Prop :=
  forall i, constrained flags i -> exists e, In e els /\ In i (dofs e).
End Sums.

(** Position of free dof [i] among the free dofs. *)
Definition rank (flags : list bool) (i : nat) : nat := i - below flags i.

(** Slot [p] of the compressed column storage holds entry [(r, c)]. *)
Definition holds {V} (m : sparse (V:=V)) (r c p : nat) : Prop :=
  exists start stop, nth_error (souter m) c = Some start /\ nth_error (souter m) (S c) = Some stop /\
    start <= p < stop /\ nth_error (sinner m) p = Some r.

(** Reduced indices of the free dofs of an element, in local order. *)
Definition freeRanks {V Q} (flags : list bool) (e : element (V:=V) Q) : list nat :=
  map (fun d => d - below flags d) (filter (fun d => negb (nth d flags true)) (dofs e)).
