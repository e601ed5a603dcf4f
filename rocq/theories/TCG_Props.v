(** Properties C32 and C65 of the truncated conjugate gradient method. *)

From Coq Require Import List ZArith Bool Lia Floats Reals Lra.
From Verif Require Import TCG_Model TrustRegion_Proofs TCG_Proofs.
Import ListNotations.
Local Open Scope R_scope.

(** Vectors of dimension [n] are functions of the index, of which only the entries below [n] matter; matrices likewise. *)
Fixpoint sumTo (n : nat) (f : nat -> R) : R := match n with O => 0 | S n' => sumTo n' f + f n' end.
Definition dotN (n : nat) (u v : nat -> R) : R := sumTo n (fun i => u i * v i).
Definition matVec (n : nat) (A : nat -> nat -> R) (v : nat -> R) : nat -> R := fun i => sumTo n (fun j => A i j * v j).
Definition symmetric (n : nat) (A : nat -> nat -> R) : Prop := forall i j, (i < n)%nat -> (j < n)%nat -> A i j = A j i.
Definition positiveDefinite (n : nat) (A : nat -> nat -> R) : Prop := forall v, (exists i, (i < n)%nat /\ v i <> 0) -> 0 < dotN n v (matVec n A v).
Definition inverse (n : nat) (A B : nat -> nat -> R) : Prop :=
  forall i k, (i < n)%nat -> (k < n)%nat -> sumTo n (fun j => A i j * B j k) = if Nat.eqb i k then 1 else 0.

Lemma sumTo_ext n f g : (forall i, (i < n)%nat -> f i = g i) -> sumTo n f = sumTo n g.
Proof. induction n as [|n IH]; intro H; simpl; auto. rewrite IH, H; auto. Qed.
Lemma sumTo_plus n f g : sumTo n (fun i => f i + g i) = sumTo n f + sumTo n g.
Proof. induction n as [|n IH]; simpl; [ring|]. rewrite IH. ring. Qed.
Lemma sumTo_scale n c f : sumTo n (fun i => c * f i) = c * sumTo n f.
Proof. induction n as [|n IH]; simpl; [ring|]. rewrite IH. ring. Qed.
Lemma sumTo_zero n : sumTo n (fun _ => 0) = 0.
Proof. induction n as [|n IH]; simpl; auto. rewrite IH. ring. Qed.
Lemma sumTo_swap n m (f : nat -> nat -> R) : sumTo n (fun i => sumTo m (f i)) = sumTo m (fun j => sumTo n (fun i => f i j)).
Proof.
  induction n as [|n IH]; simpl; [rewrite sumTo_zero; auto|]. rewrite IH, <- sumTo_plus. reflexivity.
Qed.
Lemma sumTo_pos n f : (forall i, (i < n)%nat -> 0 <= f i) -> 0 <= sumTo n f.
Proof. induction n as [|n IH]; intro H; simpl; [lra|]. pose proof (H n (Nat.lt_succ_diag_r n)). assert (0 <= sumTo n f) by auto. lra. Qed.
Lemma sumTo_delta n (f : nat -> R) i : (i < n)%nat -> sumTo n (fun j => (if Nat.eqb i j then 1 else 0) * f j) = f i.
Proof.
  induction n as [|n IH]; intro H; [lia|]. simpl. destruct (Nat.eqb_spec i n) as [->|Hne].
  - rewrite (sumTo_ext n _ (fun _ => 0)); [rewrite sumTo_zero; ring|]. intros j Hj. destruct (Nat.eqb_spec n j); [lia|ring].
  - rewrite IH by lia. ring.
Qed.

Lemma dotN_mat n A u v : symmetric n A -> dotN n (matVec n A u) v = dotN n u (matVec n A v).
Proof.
  intro HS. unfold dotN, matVec.
  rewrite (sumTo_ext n (fun i => sumTo n (fun j => A i j * u j) * v i) (fun i => sumTo n (fun j => u j * (A j i * v i)))).
  2:{ intros i Hi. rewrite Rmult_comm, <- sumTo_scale. apply sumTo_ext. intros j Hj. rewrite (HS i j) by auto. ring. }
  rewrite sumTo_swap. apply sumTo_ext. intros j Hj. rewrite sumTo_scale. reflexivity.
Qed.

(** C32: for every dimension, symmetric matrix (also indefinite or singular), symmetric positive definite preconditioner [P] with inverse [M],
    right-hand side, radius and iteration limit; the start vector is zero. *)
Theorem C32_trust_region : forall n (A P M : nat -> nat -> R) (rhs : nat -> R) maxIters tol tiny info,
  symmetric n A -> symmetric n P -> symmetric n M -> positiveDefinite n P -> inverse n P M ->
  0 < tiny -> 0 < tcg_Delta info ->
  let '(x, _) := tcg 0 2 Rplus Rminus Rmult Rdiv Ropp sqrt rltb rleb tiny (fun _ => 0) (fun u v i => u i + v i) (fun u v i => u i - v i)
                   (fun s u i => s * u i) (dotN n) (matVec n A) (matVec n P) maxIters tol rhs (fun _ => 0) info in
  (** the step is inside the region *)
  dotN n x (matVec n M x) <= tcg_Delta info * tcg_Delta info /\
  (** the quadratic model does not exceed its value at zero *)
  1 / 2 * dotN n x (matVec n A x) - dotN n rhs x <= 0.
Proof.
  intros n A P M rhs maxIters tol tiny info SA SP SM PD PI Ht HD.
  apply (tcg_good (fun _ => 0) (fun u v i => u i + v i) (fun u v i => u i - v i) (fun s u i => s * u i) (dotN n) (matVec n A) (matVec n P) (matVec n M)); auto.
  - intros u v. apply sumTo_ext. intros; ring.
  - intros u v w. unfold dotN. rewrite <- sumTo_plus. apply sumTo_ext. intros; ring.
  - intros u v w. unfold dotN. unfold Rminus at 2. replace (- sumTo n (fun i => v i * w i)) with (-1 * sumTo n (fun i => v i * w i)) by ring.
    rewrite <- sumTo_scale, <- sumTo_plus. apply sumTo_ext. intros; ring.
  - intros s u w. unfold dotN. rewrite <- sumTo_scale. apply sumTo_ext. intros; ring.
  - intro w. unfold dotN. rewrite (sumTo_ext n _ (fun _ => 0)); [apply sumTo_zero|]. intros; ring.
  - intro u. apply sumTo_pos. intros. apply Rle_0_sqr.
  - intros. apply dotN_mat; auto.
  - intros. apply dotN_mat; auto.
  - intros. apply dotN_mat; auto.
  - intros u v. rewrite dotN_mat by auto. apply sumTo_ext. intros i Hi. f_equal. unfold matVec.
    rewrite (sumTo_ext n _ (fun j => sumTo n (fun k => P i j * M j k * v k))).
    2:{ intros j Hj. rewrite <- sumTo_scale. apply sumTo_ext. intros; ring. }
    rewrite sumTo_swap. rewrite (sumTo_ext n _ (fun k => (if Nat.eqb i k then 1 else 0) * v k)).
    + apply sumTo_delta. auto.
    + intros k Hk. rewrite <- (PI i k) by auto. rewrite Rmult_comm, <- sumTo_scale. apply sumTo_ext. intros; ring.
  - intros u Hu. apply PD.
    assert (K : forall m, 0 < dotN m u u -> exists i, (i < m)%nat /\ u i <> 0).
    { induction m as [|m IH]; unfold dotN in *; simpl; intro Q; [lra|]. destruct (Req_dec (u m) 0) as [E|E].
      - rewrite E in Q. destruct IH as [i [Hi1 Hi2]]; [lra|]. exists i. split; [lia|auto].
      - exists m. split; [lia|auto]. }
    apply K. auto.
  - intro w. unfold dotN. rewrite (sumTo_ext n _ (fun _ => 0)); [apply sumTo_zero|]. intros; ring.
Qed.

(** Non-vacuity: dimension 2, an indefinite matrix and a scaled identity as preconditioner. *)
Example C32_example : exists A P M : nat -> nat -> R, symmetric 2 A /\ symmetric 2 P /\ symmetric 2 M /\ positiveDefinite 2 P /\ inverse 2 P M /\
  dotN 2 (fun i => match i with O => 0 | _ => 1 end) (matVec 2 A (fun i => match i with O => 0 | _ => 1 end)) < 0.
Proof.
  exists (fun i j => match i, j with O, O => 1 | 1%nat, 1%nat => -1 | _, _ => 3 end),
         (fun i j => if Nat.eqb i j then 2 else 0), (fun i j => if Nat.eqb i j then 1 / 2 else 0).
  repeat split.
  - intros i j Hi Hj. destruct i as [|[|i]]; destruct j as [|[|j]]; try lia; reflexivity.
  - intros i j _ _. rewrite Nat.eqb_sym. reflexivity.
  - intros i j _ _. rewrite Nat.eqb_sym. reflexivity.
  - intros v [i [Hi Hv]]. unfold dotN, matVec. simpl.
    pose proof (Rle_0_sqr (v 0%nat)). pose proof (Rle_0_sqr (v 1%nat)). unfold Rsqr in *.
    assert (0 < v i * v i) by (apply Rsqr_pos_lt in Hv; exact Hv). destruct i as [|[|i]]; try lia; nra.
  - intros i k Hi Hk. destruct i as [|[|i]]; destruct k as [|[|k]]; try lia; simpl; field.
  - unfold dotN, matVec. simpl. lra.
Qed.

(** ** C65: with a start vector other than zero (setting useRand) the step can leave the region.  One unknown, identity preconditioner, start vector 1,
    radius 2: the product of start vector and direction is taken as zero. *)
Local Open Scope float_scope.
Theorem C65_start_vector_refuted : exists h g x0 D : float,
  PrimFloat.ltb (PrimFloat.abs x0) D = true /\
  let '(x, i) := tcg 0 2 PrimFloat.add PrimFloat.sub PrimFloat.mul PrimFloat.div PrimFloat.opp PrimFloat.sqrt PrimFloat.ltb PrimFloat.leb 0x1p-1022
          0 PrimFloat.add PrimFloat.sub PrimFloat.mul PrimFloat.mul (PrimFloat.mul h) (fun v => v) 2%Z 0x1p-52 (- g) x0
          (mkTcg maximumInnerIterations D 0x1.999999999999ap-4 1 0) in
  PrimFloat.ltb D (PrimFloat.abs x) = true /\ tcg_stop i = exceededTrustRegion.
Proof.
  exists 1, (-10), 1, 2. split; [vm_compute; reflexivity|].
  match goal with |- let '(_, _) := ?t in _ => let v := eval vm_compute in t in change t with v end. cbv beta iota.
  split; vm_compute; reflexivity.
Qed.

Print Assumptions C32_trust_region.
Print Assumptions C65_start_vector_refuted.
