(** Model of small helpers: ikarus/utils/math.hh, utils/algorithms.hh, utils/findlinesegment.cpp. *)

From Coq Require Import List ZArith Bool Arith.
Import ListNotations.

(** ** ct_sqrt, utils/math.hh *)
Section Sqrt.
Local Open Scope Z_scope.
Variable tmax : Z.        (** largest value of the integer type T *)

(** The value of an intermediate result, None when it does not fit into the type *)
Definition fits (x : Z) : option Z := if (0 <=? x) && (x <=? tmax) then Some x else None.

(** 23-34; division of non-negative integers rounds down.  [fuel] bounds the recursion depth. *)
Fixpoint sqrt_helper (fuel : nat) (x lo hi : Z) : option Z :=
  match fuel with
  | O => None
  | S fuel =>
    if lo =? hi then Some lo
    else
      match fits (lo + hi + 1) with
      | None => None
      | Some s =>
        let mid := s / 2 in
        if mid =? 0 then None                       (* division by zero *)
        else if x / mid <? mid
        then match fits (mid - 1) with Some h => sqrt_helper fuel x lo h | None => None end
        else sqrt_helper fuel x mid hi
      end
  end.

(** 45-49 *)
Definition ct_sqrt (fuel : nat) (x : Z) : option Z :=
  match fits (x / 2 + 1) with Some h => sqrt_helper fuel x 0 h | None => None end.
End Sqrt.

(** ** utils/algorithms.hh *)
Section Algorithms.
Context {A : Type}.
Variable eqb : A -> A -> bool.             (** operator== *)

(** std::unique followed by erase: of every run of equal elements the first is kept *)
Fixpoint uniqueFrom (last : A) (l : list A) : list A :=
  match l with
  | [] => []
  | x :: l => if eqb last x then uniqueFrom last l else x :: uniqueFrom x l
  end.
Definition unique (l : list A) : list A := match l with [] => [] | x :: l => x :: uniqueFrom x l end.

(** 28-31; std::sort is a parameter *)
Definition makeUniqueAndSort (sort : list A -> list A) (r : list A) : list A := unique (sort r).

(** std::find: the position of the first equal element, the length when there is none *)
Fixpoint find (l : list A) (v : A) : nat :=
  match l with [] => 0 | x :: l => if eqb x v then 0 else S (find l v) end.

(** 43-52: the new range and the index *)
Definition appendUnique (r : list A) (v : A) : list A * nat :=
  let index := find r v in
  ((if index =? length r then r ++ [v] else r), index).
End Algorithms.

(** ** findLineSegment, utils/findlinesegment.cpp 11-28 *)
Section LineSegment.
Context {T P : Type}.
Variable ltb : T -> T -> bool.                      (** operator<, false when NaN is involved *)
Variable polyfit : list T -> list T -> P * T.       (** polyfit(x, y, 1): the line and the residual norm *)

(** Eigen::seq(i, i+segmentSize): both ends included; None when out of range *)
Definition window (l : list T) (i segmentSize : nat) : option (list T) :=
  if i + segmentSize <? length l then Some (firstn (S segmentSize) (skipn i l)) else None.

(** 17-23: lines and errors *)
Fixpoint fits_from (x y : list T) (segmentSize i count : nat) : option (list (P * T)) :=
  match count with
  | O => Some []
  | S c =>
    match window x i segmentSize, window y i segmentSize with
    | Some wx, Some wy =>
      match fits_from x y segmentSize (S i) c with Some r => Some (polyfit wx wy :: r) | None => None end
    | _, _ => None
    end
  end.

(** std::ranges::min_element: position of the first element that no later one is less than *)
Fixpoint minFrom (best : T) (besti : nat) (i : nat) (l : list T) : nat :=
  match l with
  | [] => besti
  | e :: l => if ltb e best then minFrom e i (S i) l else minFrom best besti (S i) l
  end.
Definition min_element (l : list T) : nat := match l with [] => 0 | e :: l => minFrom e 0 1 l end.

(** findlinesegment.cpp 11-27.  None: Eigen assertion or access out of range.  The result is the line, the first and the last index *)
Definition findLineSegment (x y : list T) (segmentSize : Z) : option (P * nat * nat) :=
  if ((Z.of_nat (length x) <? segmentSize) || (segmentSize <? 0))%Z then None
  else
    let m := Z.to_nat segmentSize in
    match fits_from x y m 0 (length x - m) with
    | None => None
    | Some r =>
      let index := min_element (map snd r) in
      match nth_error r index with
      | Some (line, _) => Some (line, index, index + m)
      | None => None
      end
    end.
End LineSegment.
