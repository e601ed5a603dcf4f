(** Model of ResultWrapper, ikarus/finiteelements/feresulttypes.hh 18-60 and 165-226: results of elements stored as a vector or as a
    matrix and given in both forms.

    A vector has a length and entries, a matrix numbers of rows and columns and entries.  Assertions are checked (a build without NDEBUG);
    Eigen's reshaped asserts that the number of entries is kept. *)

From Coq Require Import List Arith Reals Bool.
From Verif Require Import Tensor_Model SVK_Model.
Import ListNotations.
Local Open Scope R_scope.

Record vectorValue := { v_size : nat; v_entry : nat -> R }.
Record matrixValue := { m_rows : nat; m_cols : nat; m_entry : nat -> nat -> R }.

(** The registered types, 66-141: symmetric with a fixed size and Voigt notation, or general with rows and columns that are fixed or
    dynamic (None) *)
Inductive resultType :=
  | Symmetric (n : nat) (strainlike : bool)
  | General (rows cols : option nat).

(** 126-141; the dimension of the world where it is used *)
Definition linearStress (worldDim : nat) := Symmetric worldDim false.
Definition PK2Stress (worldDim : nat) := Symmetric worldDim false.
Definition kirchhoffStress (worldDim : nat) := Symmetric worldDim false.
Definition cauchyStress (worldDim : nat) := Symmetric worldDim false.
Definition linearStressFull := Symmetric 3 false.
Definition PK2StressFull := Symmetric 3 false.
Definition cauchyStressFull := Symmetric 3 false.
Definition director (worldDim : nat) := General (Some worldDim) (Some 1%nat).
Definition magnetization (worldDim : nat) := General (Some worldDim) (Some 1%nat).
Definition gradientNormOfMagnetization := General (Some 1%nat) (Some 1%nat).
Definition vectorPotential (worldDim : nat) := General (Some worldDim) (Some 1%nat).
Definition divergenceOfVectorPotential := General (Some 1%nat) (Some 1%nat).
Definition BField (worldDim : nat) := General (Some worldDim) (Some 1%nat).
Definition HField (worldDim : nat) := General (Some worldDim) (Some 1%nat).
Definition cauchyAxialForce := General (Some 1%nat) (Some 1%nat).
Definition PK2AxialForce := General (Some 1%nat) (Some 1%nat).
Definition linearAxialForce := General (Some 1%nat) (Some 1%nat).
Definition customType := General None None.

Inductive outcome (A : Type) := Returns (a : A) | AssertionFails | Unreadable.
Arguments Returns {A} _.
Arguments AssertionFails {A}.
Arguments Unreadable {A}.

(** Reading all entries that were written *)
Definition readM (n : nat) (m : mat) : option (nat -> nat -> R) :=
  if forallb (fun i => forallb (fun j => match m i j with Some _ => true | None => false end) (seq 0 n)) (seq 0 n)
  then Some (fun i j => match m i j with Some x => x | None => 0 end) else None.

(** VectorizeWithVoigt, 20-27; VectorizeGeneric, 29-35: column by column *)
Definition vectorize (t : resultType) (m : matrixValue) : outcome vectorValue :=
  match t with
  | Symmetric n strainlike =>
    let size := (n * (n + 1) / 2)%nat in
    match readVec size (toVoigt n (m_entry m) strainlike) with
    | Some v => Returns {| v_size := size; v_entry := v |}
    | None => Unreadable
    end
  | General _ _ => Returns {| v_size := m_rows m * m_cols m; v_entry := fun k => m_entry m (k mod m_rows m) (k / m_rows m) |}
  end.

(** MatricizeWithVoigt, 37-49; MatricizeGeneric, 51-58 *)
Definition matricize (t : resultType) (v : vectorValue) (rows cols : option nat) : outcome matrixValue :=
  match t with
  | Symmetric n strainlike =>
    match rows, cols with
    | Some r, Some c =>
      if ((r =? n) && (c =? n))%nat then
        match fromVoigt (v_size v) (v_entry v) strainlike with
        | Some (k, m) => match readM k m with Some m => Returns {| m_rows := k; m_cols := k; m_entry := m |} | None => Unreadable end
        | None => Unreadable
        end
      else AssertionFails
    | _, _ => AssertionFails
    end
  | General _ _ =>
    match rows, cols with
    | Some r, Some c =>
      if (r * c =? v_size v)%nat then Returns {| m_rows := r; m_cols := c; m_entry := fun i j => v_entry v (j * r + i)%nat |}
      else AssertionFails
    | _, _ => AssertionFails
    end
  end.

Inductive stored := AsVector (v : vectorValue) | AsMatrix (m : matrixValue).

Definition rowsAtCompileTime (t : resultType) : option nat := match t with Symmetric n _ => Some n | General r _ => r end.
Definition colsAtCompileTime (t : resultType) : option nat := match t with Symmetric n _ => Some n | General _ c => c end.

(** asVec, 178-183 *)
Definition asVec (t : resultType) (s : stored) : outcome vectorValue :=
  match s with AsVector v => Returns v | AsMatrix m => vectorize t m end.

(** asMat, 191-206; a missing argument (None) is the size at compile time.  For a fixed size Eigen asserts that the size passed is that
    size (Eigen::fix<N>(n) keeps N) *)
Definition argumentOr (given compileTime : option nat) : option nat := match given with Some n => Some n | None => compileTime end.
Definition agrees (compileTime : option nat) (n : option nat) : bool :=
  match compileTime, n with Some a, Some b => (a =? b)%nat | None, Some _ => true | _, None => false end.
Definition asMat (t : resultType) (s : stored) (rows cols : option nat) : outcome matrixValue :=
  match s with
  | AsVector v =>
    let r := argumentOr rows (rowsAtCompileTime t) in
    let c := argumentOr cols (colsAtCompileTime t) in
    if agrees (rowsAtCompileTime t) r && agrees (colsAtCompileTime t) c then matricize t v r c else AssertionFails
  | AsMatrix m => Returns m
  end.
