(** Model of GeneralizedSymEigenSolver for dense matrices, ikarus/solver/eigenvaluesolver/generalizedeigensolver.hh lines 178-262: construction, compute(),
    eigenvalues(), eigenvectors().  Eigen's GeneralizedSelfAdjointEigenSolver is a parameter: what its compute() leaves behind (eigenvalues, eigenvectors and
    info()).  Of its constructor with a size k only what is visible is modelled: it reserves a matrix with k rows and k columns, and for matrices of fixed
    size the assertion of Eigen that k is that size. *)

From Coq Require Import List Arith Bool.
From Verif Require Import EigenSolver_Model.
Import ListNotations.

(** [Built k]: a matrix with [k] entries was reserved *)
Inductive construction := Built (reserved : nat) | Refused | AssertionFails.

(** Constructor, 194-201; members first: solver_(A.size()), where A may have been moved from *)
Definition constructDense (assertions : bool) (A B : argument) : construction :=
  let k := fst (forwarded A) * snd (forwarded A) in
  if assertions && negb (dynamic A) && negb (k =? rows A) then AssertionFails else
  match constructEigen A B with Answer _ => Built (k * k) | _ => Refused end.

Section Dense.
Context {V W : Type}.
(** What Eigen's solver holds after its compute() *)
Record solved := mkSolved { values : list V; vectors : option W; success : bool }.
(** solver_ and computed_ *)
Record dense := mkDense { solver_ : option solved; computedDense : bool }.
Definition newDense : dense := mkDense None false.

(** compute, 223-227; [withVectors]: options, [run] the outcome of Eigen's compute *)
Definition denseCompute (d : dense) (run : solved) : dense * bool :=
  let c := snd (computeEigen (values run)) in (mkDense (Some run) c, c).

(** eigenvalues, 234-237; no values: Eigen's solver has computed nothing, its assertion fails *)
Definition denseValues (d : dense) : answer (list V) :=
  if computedDense d then Answer (match solver_ d with Some r => values r | None => [] end) else InvalidState.
(** eigenvectors, 244-247; None: Eigen's assertion that they were computed *)
Definition denseVectors (d : dense) : answer (option W) :=
  if computedDense d then Answer (match solver_ d with Some r => vectors r | None => None end) else InvalidState.

(** A sequence of computations: the object and what compute() returned the last time *)
Fixpoint denseRun (d : dense) (last : option bool) (runs : list solved) : dense * option bool :=
  match runs with [] => (d, last) | r :: runs => let '(d, b) := denseCompute d r in denseRun d (Some b) runs end.
End Dense.
