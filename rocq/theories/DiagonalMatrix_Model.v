(** Model of the operators on diagonal matrices and of the symmetric and skew parts, ikarus/utils/linearalgebrahelper.hh 295-435,
    over the real numbers.  Results are values: that Eigen evaluates the product and the negative lazily, when the operands may have
    changed or ended, is not modelled. *)

From Coq Require Import Arith Bool Reals.
Local Open Scope R_scope.

Record dense := mkDense { rows : nat; cols : nat; entry : nat -> nat -> R }.
Record diagonal := mkDiagonal { size : nat; diag : nat -> R }.

(** None: Eigen asserts that the sizes agree (at compile time for fixed sizes) *)

(** 304-307 *)
Definition times (a b : diagonal) : option diagonal :=
  if (size a =? size b)%nat then Some (mkDiagonal (size a) (fun i => diag a i * diag b i)) else None.
(** 318-322; the new value of a *)
Definition plusAssign (a b : diagonal) : option diagonal :=
  if (size a =? size b)%nat then Some (mkDiagonal (size a) (fun i => diag a i + diag b i)) else None.
(** 334-339 and 378-383: c.diagonal() is the main diagonal, as long as the shorter side *)
Definition plus (a : dense) (b : diagonal) : option dense :=
  if (Nat.min (rows a) (cols a) =? size b)%nat
  then Some (mkDense (rows a) (cols a) (fun i j => if (i =? j)%nat then entry a i j + diag b i else entry a i j)) else None.
(** 351-354 and 394-397 *)
Definition plusLeft (a : diagonal) (b : dense) : option dense := plus b a.
(** 364-367 *)
Definition negative (a : diagonal) : diagonal := mkDiagonal (size a) (fun i => - diag a i).

(** 421-424: A + A^T needs a square matrix *)
Definition sym (A : dense) : option dense :=
  if (rows A =? cols A)%nat then Some (mkDense (rows A) (cols A) (fun i j => / 2 * (entry A i j + entry A j i))) else None.
(** 433-436 *)
Definition skew (A : dense) : option dense :=
  if (rows A =? cols A)%nat then Some (mkDense (rows A) (cols A) (fun i j => / 2 * (entry A i j - entry A j i))) else None.
