(** Model of the access to sparse matrices from Python callbacks: SparseMatrixWrapper, ikarus/python/assembler/flatassemblermanipulator.hh 43-68.

    Simplified: after inserting an entry Eigen's matrix is no longer compressed (columns get room for further entries); here the columns stay packed.
    In both cases the slots of other entries move. *)

From Coq Require Import List Arith Bool.
From Verif Require Import Assembler_Model Binding_Model.
Import ListNotations.

Section PythonSparse.
Context {V : Type}.
Variable vzero : V.

Fixpoint insertAt {A} (p : nat) (a : A) (l : list A) : list A :=
  match p, l with 0, _ => a :: l | S p, x :: l => x :: insertAt p a l | S _, [] => [a] end.
Fixpoint replaceAt {A} (p : nat) (a : A) (l : list A) : list A :=
  match p, l with _, [] => [] | 0, _ :: l => a :: l | S p, x :: l => x :: replaceAt p a l end.

Definition findSlot (m : sparse (V:=V)) (row col : nat) : option nat :=
  find (fun p => match nth_error (sinner m) p with Some r => r =? row | None => false end) (slots m col).
(** Where the entry belongs: after the entries of the column with smaller row *)
Definition place (m : sparse (V:=V)) (row col : nat) : nat :=
  nth col (souter m) 0 + length (filter (fun p => match nth_error (sinner m) p with Some r => r <? row | None => false end) (slots m col)).

(** Eigen's SparseMatrix::coeffRef(row, col): the matrix afterwards and the slot.  None: indices outside of the matrix (assertion) *)
Definition coeffRef (m : sparse (V:=V)) (row col : nat) : option (sparse (V:=V) * nat) :=
  if (row <? srows m) && (col <? scols m) then
    match findSlot m row col with
    | Some p => Some (m, p)
    | None =>
      let p := place m row col in
      Some (mkSparse (srows m) (scols m) (firstn (S col) (souter m) ++ map S (skipn (S col) (souter m)))
              (insertAt p row (sinner m)) (insertAt p vzero (svals m)), p)
    end
  else None.

(** __getitem__, 63-65: the matrix afterwards and the value *)
Definition getItem (m : sparse (V:=V)) (row col : nat) : option (sparse (V:=V) * V) :=
  match coeffRef m row col with
  | Some (m', p) => match nth_error (svals m') p with Some x => Some (m', x) | None => None end
  | None => None
  end.
(** __setitem__, 61-62 *)
Definition setItem (m : sparse (V:=V)) (row col : nat) (x : V) : option (sparse (V:=V)) :=
  match coeffRef m row col with Some (m', p) => Some (with_vals m' (replaceAt p x (svals m'))) | None => None end.

(** A callback that only looks at one entry *)
Definition looksAt {RV AF : Type} (row col : nat) : mcb (V:=V) (RV:=RV) (AF:=AF) :=
  fun _ _ m => match getItem m row col with Some (m', _) => m' | None => m end.
End PythonSparse.
