(** Property C170: operators on diagonal matrices and the symmetric and skew parts of a matrix. *)

From Coq Require Import Arith Bool Reals Lia Lra.
From Verif Require Import Tensor_Spec Conversions_Props DiagonalMatrix_Model.
Local Open Scope R_scope.

(** ** Specification: the operations on full matrices *)
Definition full (a : diagonal) : dense := mkDense (size a) (size a) (fun i j => if (i =? j)%nat then diag a i else 0).
Definition same (A B : dense) : Prop :=
  rows A = rows B /\ cols A = cols B /\ forall i j, (i < rows A)%nat -> (j < cols A)%nat -> entry A i j = entry B i j.
Definition productOf (A B : dense) : dense := mkDense (rows A) (cols B) (fun i j => sum (cols A) (fun k => entry A i k * entry B k j)).
Definition sumOf (A B : dense) : dense := mkDense (rows A) (cols A) (fun i j => entry A i j + entry B i j).
Definition scaled (c : R) (A : dense) : dense := mkDense (rows A) (cols A) (fun i j => c * entry A i j).
Definition transposed (A : dense) : dense := mkDense (cols A) (rows A) (fun i j => entry A j i).

(** C170: products, sums and negatives of diagonal matrices are those of the full matrices; other sizes are refused *)
Theorem C170_diagonal a b :
  (size a = size b ->
     (exists c, times a b = Some c /\ same (full c) (productOf (full a) (full b))) /\
     (exists c, plusAssign a b = Some c /\ same (full c) (sumOf (full a) (full b)))) /\
  (size a <> size b -> times a b = None /\ plusAssign a b = None) /\
  same (full (negative a)) (scaled (-1) (full a)).
Proof.
  unfold times, plusAssign. split; [|split].
  - intros E. rewrite (proj2 (Nat.eqb_eq _ _) E). split; eexists; (split; [reflexivity|]).
    + split; [reflexivity|]. split; [cbn; exact E|]. cbn. intros i j Hi Hj.
      rewrite (sum_pick (size a) i); [rewrite Nat.eqb_refl; destruct (i =? j)%nat; ring|exact Hi|].
      intros k _ N. destruct (Nat.eqb_spec i k); [congruence|ring].
    + split; [reflexivity|]. split; [reflexivity|]. cbn. intros i j _ _. destruct (i =? j)%nat; ring.
  - intros N. destruct (Nat.eqb_spec (size a) (size b)); [contradiction|]. split; reflexivity.
  - split; [reflexivity|]. split; [reflexivity|]. cbn. intros i j _ _. destruct (i =? j)%nat; ring.
Qed.
Print Assumptions C170_diagonal.

(** C170: the sum with a square matrix of the same size is the sum of the full matrices, from both sides *)
Theorem C170_sum_partial A b : rows A = size b -> cols A = size b ->
  exists C, plus A b = Some C /\ plusLeft b A = Some C /\ same C (sumOf A (full b)).
Proof.
  intros R1 C1. unfold plusLeft, plus. rewrite R1, C1, Nat.min_id, Nat.eqb_refl. eexists. split; [reflexivity|]. split; [reflexivity|].
  split; [cbn; congruence|]. split; [cbn; congruence|]. cbn. intros i j _ _. destruct (i =? j)%nat; ring.
Qed.
Print Assumptions C170_sum_partial.

(** C170, false: sums with matrices of another shape are refused *)
Theorem C170_shape_refuted : ~ (forall A b, ~ (rows A = size b /\ cols A = size b) -> plus A b = None).
Proof. intros H. specialize (H (mkDense 2 3 (fun _ _ => 0)) (mkDiagonal 2 (fun _ => 1))). cbn in H. discriminate H. intros [_ X]. discriminate X. Qed.
Print Assumptions C170_shape_refuted.

(** C170: the symmetric part is symmetric, the skew part is skew, together they are the matrix, and no other parts are; other matrices are refused *)
Theorem C170_parts A :
  (rows A = cols A -> exists S W, sym A = Some S /\ skew A = Some W /\ same S (transposed S) /\ same W (scaled (-1) (transposed W)) /\ same (sumOf S W) A /\
     forall S' W', same S' (transposed S') -> same W' (scaled (-1) (transposed W')) -> same (sumOf S' W') A -> rows W' = rows A -> same S' S /\ same W' W) /\
  (rows A <> cols A -> sym A = None /\ skew A = None).
Proof.
  unfold sym, skew. split.
  - intros E. rewrite (proj2 (Nat.eqb_eq _ _) E). do 2 eexists. split; [reflexivity|]. split; [reflexivity|].
    split; [split; [exact E|split; [now symmetry|cbn; intros; ring]]|]. split; [split; [exact E|split; [now symmetry|cbn; intros; ring]]|].
    split; [split; [reflexivity|split; [reflexivity|cbn; intros; field]]|].
    intros S' W' (S1 & S2 & S3) (W1 & W2 & W3) (T1 & T2 & T3) Rw. cbn in *.
    assert (K : forall i j, (i < rows A)%nat -> (j < cols A)%nat -> entry S' i j = / 2 * (entry A i j + entry A j i) /\ entry W' i j = / 2 * (entry A i j - entry A j i)).
    { intros i j Hi Hj. assert (X1 := S3 i j ltac:(lia) ltac:(lia)). assert (X2 := W3 i j ltac:(lia) ltac:(lia)).
      assert (X3 := T3 i j ltac:(lia) ltac:(lia)). assert (X4 := T3 j i ltac:(lia) ltac:(lia)). split; lra. }
    split; (split; [cbn; lia|split; [cbn; lia|cbn; intros i j Hi Hj; apply K; lia]]).
  - intros N. destruct (Nat.eqb_spec (rows A) (cols A)); [contradiction|]. split; reflexivity.
Qed.
Print Assumptions C170_parts.

Example C170_applies :
  (exists c, times (mkDiagonal 2 (fun i => INR i + 1)) (mkDiagonal 2 (fun _ => 3)) = Some c /\ entry (full c) 1 1 = 6 /\ entry (full c) 0 1 = 0) /\
  (exists C, plus (mkDense 2 2 (fun _ _ => 1)) (mkDiagonal 2 (fun i => INR i)) = Some C /\ entry C 1 1 = 2 /\ entry C 1 0 = 1) /\
  (exists S W, sym (mkDense 2 2 (fun i j => INR i)) = Some S /\ skew (mkDense 2 2 (fun i j => INR i)) = Some W /\ entry S 1 0 = / 2 /\ entry W 1 0 = / 2 /\ entry W 0 1 = - / 2).
Proof.
  split; [|split].
  - eexists. split; [reflexivity|]. cbn. split; [ring|reflexivity].
  - eexists. split; [reflexivity|]. cbn. split; [ring|reflexivity].
  - do 2 eexists. split; [reflexivity|]. split; [reflexivity|]. cbn. repeat split; field.
Qed.
