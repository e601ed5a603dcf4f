(** Model of functions in ikarus/utils/linearalgebrahelper.hh and of the index helpers in
    ikarus/finiteelements/mechanics/materials/materialhelpers.hh, over the real numbers. *)

From Coq Require Import List Arith Reals Bool.
From Verif Require Import Tensor_Model.
Import ListNotations.
Local Open Scope R_scope.

(** ** orthonormalizeMatrixColumns, 33-46 *)
Section GramSchmidt.
Variable m : nat.                         (** number of rows *)
Definition column := nat -> R.

Fixpoint dotTo (n : nat) (v w : column) : R := match n with O => 0 | S n => dotTo n v w + v n * w n end.
Definition dot (v w : column) : R := dotTo m v w.

(** Eigen's normalize(): divides by the norm if the squared norm is positive *)
Definition normalize (v : column) : column :=
  if Rlt_dec 0 (dot v v) then fun i => v i / sqrt (dot v v) else v.

(** Q.leftCols(c) * (Q.leftCols(c)^T * a), entry i *)
Fixpoint project (qs : list column) (a : column) (i : nat) : R :=
  match qs with [] => 0 | q :: qs => q i * dot q a + project qs a i end.

Fixpoint gramSchmidt (done todo : list column) : list column :=
  match todo with
  | [] => done
  | a :: todo => gramSchmidt (done ++ [normalize (fun i => a i - project done a i)]) todo
  end.

(** linearalgebrahelper.hh 33-46.  The first column is normalised without projection; None: Q.col(0) of a matrix without columns *)
Definition orthonormalizeMatrixColumns (A : list column) : option (list column) :=
  match A with [] => None | a :: A => Some (gramSchmidt [normalize a] A) end.
End GramSchmidt.

(** ** Index sets *)

(** std::ranges::set_difference *)
Fixpoint set_difference (a : list nat) : list nat -> list nat :=
  fix inner (b : list nat) : list nat :=
    match a with
    | [] => []
    | x :: a' =>
      match b with
      | [] => a
      | y :: b' =>
        if (x <? y)%nat then x :: set_difference a' b
        else if (y <? x)%nat then inner b' else set_difference a' b'
      end
    end.

(** linearalgebrahelper.hh 527-528, 542-543, 568-569: remainingIndices has n - k entries, value-initialised; writing more is out of range *)
Definition remainingIndices (n : nat) (indices : list nat) : option (list nat) :=
  let r := set_difference (seq 0 n) indices in
  if (n <? length indices)%nat then None
  else if (n - length indices <? length r)%nat then None
  else Some (r ++ repeat 0%nat (n - length indices - length r)).

Fixpoint sumL (l : list nat) (f : nat -> R) : R := match l with [] => 0 | x :: l => f x + sumL l f end.

(** A matrix given by its entries at positions *)
Definition positions (l : list nat) (E : rmat) (i j : nat) : R := E (nth i l 0%nat) (nth j l 0%nat).

(** 521-535: rows and columns are counted by position.  [inv] is K22.inverse(), by position *)
Definition staticCondensation (n : nat) (E : rmat) (indices : list nat) (inv : rmat) : option (nat * rmat) :=
  match remainingIndices n indices with
  | None => None
  | Some rem =>
    let K11 := fun i j => E (nth i rem 0%nat) (nth j rem 0%nat) in
    let K12 := fun a j => E (nth a indices 0%nat) (nth j rem 0%nat) in
    let k := length indices in
    Some (length rem, fun i j =>
      K11 i j - sumL (seq 0 k) (fun b => sumL (seq 0 k) (fun a => K12 a i * inv a b) * K12 b j))
  end.

(** 537-548 *)
Definition reduceMatrix (n : nat) (E : rmat) (indices : list nat) : option (nat * rmat) :=
  match remainingIndices n indices with
  | None => None
  | Some rem => Some (length rem, fun i j => E (nth i rem 0%nat) (nth j rem 0%nat))
  end.

(** 562-572 *)
Definition removeCol (n : nat) (v : nat -> R) (indices : list nat) : option (nat * (nat -> R)) :=
  match remainingIndices n indices with
  | None => None
  | Some rem => Some (length rem, fun i => v (nth i rem 0%nat))
  end.

(** materialhelpers.hh 39-62.  [sort] is std::ranges::sort; None: index out of range (not a constant expression) *)
Section VoigtIndices.
Variable sort : list nat -> list nat.

Fixpoint voigtIndices (fixed : list (nat * nat)) : option (list nat) :=
  match fixed with
  | [] => Some []
  | (i, j) :: fixed =>
    match toVoigtIndex 3 i j, voigtIndices fixed with Some k, Some ks => Some (k :: ks) | _, _ => None end
  end.

(** 55-62 *)
Definition createFixedVoigtIndices (fixed : list (nat * nat)) : option (list nat) :=
  match voigtIndices fixed with Some ks => Some (sort ks) | None => None end.

(** 39-48 *)
Definition createfreeVoigtIndices (fixed : list (nat * nat)) : option (list nat) :=
  match voigtIndices fixed with
  | Some ks => match remainingIndices 6 (sort ks) with Some r => Some (sort r) | None => None end
  | None => None
  end.
End VoigtIndices.

(** 616-642, vector case: the reduced vector spread over six components, the others zero *)
Fixpoint enlargeFrom (free : list nat) (ri : nat) (v : nat -> R) (res : nat -> R) : nat -> R :=
  match free with
  | [] => res
  | i :: free => enlargeFrom free (S ri) v (fun k => if (k =? i)%nat then v ri else res k)
  end.
Definition enlargeVector (free : list nat) (v : nat -> R) : nat -> R := enlargeFrom free 0 v (fun _ => 0).
Fixpoint enlargeRowFrom (free : list nat) (i ri rj : nat) (E : rmat) (res : rmat) : rmat :=
  match free with
  | [] => res
  | j :: free => enlargeRowFrom free i ri (S rj) E (fun a b => if ((a =? i) && (b =? j))%nat then E ri rj else res a b)
  end.
Fixpoint enlargeMatFrom (all free : list nat) (ri : nat) (E : rmat) (res : rmat) : rmat :=
  match free with
  | [] => res
  | i :: free => enlargeMatFrom all free (S ri) E (enlargeRowFrom all i ri 0 E res)
  end.
Definition enlargeMatrix (free : list nat) (E : rmat) : rmat := enlargeMatFrom free free 0 E (fun _ _ => 0).
