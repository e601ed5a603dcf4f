(** Lambert's function, inverses and the compliance of the Neo-Hooke material. *)

From Coq Require Import List Arith ZArith Reals Lra Lia Bool.
From Coquelicot Require Import Coquelicot.
From Verif Require Import Tensor_Model Tensor_Spec Tensor_Props SVK_Model SVK_Spec SVK_Props NeoHooke_Model NeoHooke_Props VanishingStress_Spec.
Import ListNotations.
Local Open Scope R_scope.

(** The principal branch of Lambert's function *)
Definition lambert (W : R -> R) : Prop := forall z, - exp (-1) <= z -> -1 <= W z /\ W z * exp (W z) = z.

Lemma xexp_increasing x y : -1 <= x -> x < y -> x * exp x < y * exp y.
Proof.
  intros H L. replace y with (x + (y - x)) by ring. set (d := y - x). assert (0 < d) by (unfold d; lra). clearbody d. clear y L.
  rewrite exp_plus. assert (Px := exp_pos x). replace ((x + d) * (exp x * exp d)) with (exp x * ((x + d) * exp d)) by ring.
  rewrite (Rmult_comm x). apply Rmult_lt_compat_l; auto.
  assert (E1 := exp_ineq1 d ltac:(lra)). assert (E2 := exp_ineq1 (- d) ltac:(lra)). assert (Pd := exp_pos d).
  assert (I : exp d * exp (- d) = 1) by (rewrite <- exp_plus; replace (d + - d) with 0 by ring; apply exp_0).
  destruct (Rle_lt_dec 0 (x + d)).
  - apply Rlt_le_trans with (x + d); [lra|]. rewrite <- (Rmult_1_r (x + d)) at 1. apply Rmult_le_compat_l; lra.
  - (* x + d < x exp(-d) *)
    replace x with (x * (exp d * exp (- d))) at 2 by (rewrite I; ring).
    replace (x * (exp d * exp (- d))) with (x * exp (- d) * exp d) by ring.
    apply Rmult_lt_reg_r with (exp (- d)); [apply exp_pos|]. 
    rewrite !Rmult_assoc, I. assert (N : exp (- d) < 1) by (rewrite <- exp_0; apply exp_increasing; lra).
    assert (0 < exp (- d)) by apply exp_pos.
    replace (exp (- d) * (exp d * exp (- d))) with (exp (- d)) by (rewrite I; ring).
    nra.
Qed.

Lemma lambert_unique W w : lambert W -> -1 <= w -> W (w * exp w) = w.
Proof.
  intros L H. assert (M : - exp (-1) <= w * exp w).
  { destruct (Req_dec w (-1)) as [->|N]; [lra|]. assert (X := xexp_increasing (-1) w ltac:(lra) ltac:(lra)). lra. }
  destruct (L _ M) as [B E]. destruct (Rtotal_order (W (w * exp w)) w) as [X|[X|X]]; auto.
  - apply xexp_increasing in X; lra.
  - apply xexp_increasing in X; lra.
Qed.

Lemma exp3 x : exp x ^ 3 = exp (3 * x).
Proof. replace (3 * x) with (x + x + x) by ring. rewrite !exp_plus. ring. Qed.

(** The argument of Lambert's function *)
Definition argument (m a : R) : R := sign a * exp (2 / 3 * m - ln (3 / 2) + 1 / 3 * ln (Rabs a)).

Lemma argument_cube m a : a <> 0 -> argument m a ^ 3 = a * (8 / 27) * exp (2 * m).
Proof.
  intros N. unfold argument. rewrite Rpow_mult_distr, exp3.
  assert (P : 0 < Rabs a) by now apply Rabs_pos_lt.
  replace (3 * (2 / 3 * m - ln (3 / 2) + 1 / 3 * ln (Rabs a))) with (2 * m + - ln (3 / 2) + - ln (3 / 2) + - ln (3 / 2) + ln (Rabs a)) by field.
  rewrite !exp_plus, exp_Ropp, !exp_ln by lra. unfold sign. destruct (Rlt_dec a 0).
  - rewrite Rabs_left by auto. field.
  - rewrite Rabs_right by lra. field.
Qed.

Lemma argument_bound m a : a <> 0 -> - (3 / 2) ^ 3 * exp (- 3 - 2 * m) < a -> - exp (-1) < argument m a.
Proof.
  intros N H. assert (P : 0 < Rabs a) by now apply Rabs_pos_lt. unfold argument, sign. assert (E1 := exp_pos (-1)).
  match goal with |- _ < _ * exp ?b => assert (Eb := exp_pos b); set (b0 := b) in * end.
  destruct (Rlt_dec a 0); [|lra]. assert (exp b0 < exp (-1)); [|lra]. apply exp_increasing.
  rewrite Rabs_left in * by auto.
  assert (ln (- a) < 3 * ln (3 / 2) + (- 3 - 2 * m)).
  { replace (3 * ln (3 / 2) + (- 3 - 2 * m)) with (ln ((3 / 2) ^ 3 * exp (- 3 - 2 * m))).
    - apply ln_increasing; [lra|]. replace (- (3 / 2) ^ 3 * exp (- 3 - 2 * m)) with (- ((3 / 2) ^ 3 * exp (- 3 - 2 * m))) in H by ring. lra.
    - assert (T := exp_pos (- 3 - 2 * m)). rewrite ln_mult by lra. rewrite ln_exp. simpl. rewrite !ln_mult, ln_1 by lra. ring. }
  unfold b0. rewrite ?Rabs_left by auto. lra.
Qed.

Lemma cube_inj x y : x ^ 3 = y ^ 3 -> x = y.
Proof.
  intros E. assert (F : (x - y) * (x * x + x * y + y * y) = 0) by (replace 0 with (x ^ 3 - y ^ 3) by lra; ring).
  apply Rmult_integral in F. destruct F as [F|F]; [lra|].
  assert (x * x + x * y + y * y = (x + y / 2) * (x + y / 2) + 3 / 4 * (y * y)) by field.
  assert (0 <= (x + y / 2) * (x + y / 2)) by apply Rle_0_sqr. assert (0 <= y * y) by apply Rle_0_sqr.
  assert (y * y = 0) by lra. apply Rsqr_0_uniq in H2. subst. rewrite Rmult_0_r, Rmult_0_r, !Rplus_0_r in F. apply Rsqr_0_uniq in F. lra.
Qed.

Lemma lambert_solution W m a : lambert W -> a <> 0 -> - (3 / 2) ^ 3 * exp (- 3 - 2 * m) < a ->
  let w := W (argument m a) in -1 < w /\ w <> 0 /\ (0 < a -> 0 < w) /\ w ^ 3 * exp (3 * w) = a * (8 / 27) * exp (2 * m).
Proof.
  intros L N H w. assert (B := argument_bound m a N H). destruct (L (argument m a) ltac:(lra)) as [B1 E]. fold w in B1, E.
  assert (C := argument_cube m a N). rewrite <- E, Rpow_mult_distr, exp3 in C. assert (P := exp_pos (2 * m)).
  assert (N' : w <> 0). { intros Z. rewrite Z in C. replace (0 ^ 3) with 0 in C by ring. rewrite Rmult_0_l in C. symmetry in C.
    apply Rmult_integral in C. destruct C as [C|C]; lra. }
  split; [|split; [|split]]; auto.
  - destruct (Req_dec w (-1)) as [Z|Z]; [rewrite Z in E; lra|lra].
  - intros Pa. destruct (Rlt_dec 0 w); auto. exfalso. assert (w * exp w < 0) by (assert (0 < exp w) by apply exp_pos; nra).
    unfold argument, sign in E. destruct (Rlt_dec a 0); [lra|].
    match type of E with _ = 1 * exp ?b => assert (Eb := exp_pos b) end. lra.
Qed.

(** Determinants *)
Lemma det3_scale c A : det3 (fun i j => c * A i j) = c ^ 3 * det3 A.
Proof. unfold det3. ring. Qed.
Lemma det3_inv A : det3 A <> 0 -> det3 (inv3 A) = / det3 A.
Proof. intros H. unfold inv3, det3, entries in *. cbn. field. auto. Qed.
Lemma inv3_scale c A i j : c <> 0 -> det3 A <> 0 -> (i < 3)%nat -> (j < 3)%nat -> inv3 (fun i j => c * A i j) i j = / c * inv3 A i j.
Proof.
  intros Hc H Hi Hj. unfold inv3. rewrite det3_scale. unfold entries. cases i; cases j; cbn; field; auto.
Qed.
Lemma inv3_inv A i j : det3 A <> 0 -> (i < 3)%nat -> (j < 3)%nat -> inv3 (inv3 A) i j = A i j.
Proof.
  intros H Hi Hj. unfold inv3 at 1. rewrite det3_inv by auto. unfold inv3, det3, entries in *. cases i; cases j; cbn; field; auto.
Qed.
Lemma det3_ext A B : eq3 A B -> det3 A = det3 B.
Proof. intros H. unfold det3. rew3 H. reflexivity. Qed.
Lemma inv3_ext A B : eq3 A B -> eq3 (inv3 A) (inv3 B).
Proof. intros H i j Hi Hj. unfold inv3. rewrite (det3_ext A B H). unfold entries. cases i; cases j; cbn; rew3 H; reflexivity. Qed.

(** The moduli lambda P (x) P + 2 m P H P, P the inverse of C, are invertible if m <> 0 and 3 lambda + 2 m <> 0 *)
Definition compliance (lambda m : R) (C : nat -> nat -> R) (a b : nat) : R :=
  let (i, j) := component 3 a in let (k, l) := component 3 b in
  (if (i =? j)%nat then 1 else 2) * (if (k =? l)%nat then 1 else 2) *
  (/ (2 * m) * ((C i k * C j l + C i l * C j k) / 2 - lambda / (3 * lambda + 2 * m) * C i j * C k l)).

Lemma compliance_ok lambda m C : symmetric 3 C -> det3 C <> 0 -> m <> 0 -> 3 * lambda + 2 * m <> 0 ->
  isInverse 6 (voigtMatrix (fun i j k l => lambda * dyadic (inv3 C) (inv3 C) i j k l
    + 2 * m * symTwoSlots (fourthOrderIKJL (inv3 C) (inv3 C)) 2 3 i j k l)) (compliance lambda m C).
Proof.
  intros SC D M K a b Ha Hb.
  assert (S1 := SC 1%nat 0%nat). assert (S2 := SC 2%nat 0%nat). assert (S3 := SC 2%nat 1%nat). clear SC.
  unfold mul, voigtMatrix, compliance, dyadic, symTwoSlots, shuffled, swapSlots, fourthOrderIKJL, identity, inv3, det3, entries in *.
  rewrite S1, S2, S3 in D by lia.
  cases a; cases b.
  all: cbn.
  all: rewrite S1, S2, S3 by lia.
  all: set (c00 := C 0%nat 0%nat) in *; set (c01 := C 0%nat 1%nat) in *; set (c02 := C 0%nat 2%nat) in *;
  set (c11 := C 1%nat 1%nat) in *; set (c12 := C 1%nat 2%nat) in *; set (c22 := C 2%nat 2%nat) in *;
  clearbody c00 c01 c02 c11 c12 c22; clear S1 S2 S3.
  all: split; field; auto.
Qed.

(** Lambert's function exists *)
Lemma lambert_exists : exists W, lambert W.
Proof.
  assert (F : forall z, {w | - exp (-1) <= z -> -1 <= w /\ w * exp w = z}).
  { intros z. destruct (Rlt_dec (- exp (-1)) z) as [H|H].
    - destruct (IVT (fun t => t * exp t - z) (-1) (Rabs z + 1)) as (w & Hw & E).
      + intros t. apply continuity_pt_minus; [|apply continuity_pt_const; intros ? ?; reflexivity].
        apply continuity_pt_mult; [apply derivable_continuous_pt, derivable_pt_id|apply derivable_continuous_pt, derivable_pt_exp].
      + assert (0 <= Rabs z) by apply Rabs_pos. lra.
      + lra.
      + assert (P : 0 <= Rabs z) by apply Rabs_pos. assert (z <= Rabs z) by apply Rle_abs.
        assert (X : exp 0 < exp (Rabs z + 1)) by (apply exp_increasing; lra). rewrite exp_0 in X.
        assert ((Rabs z + 1) * 1 < (Rabs z + 1) * exp (Rabs z + 1)) by (apply Rmult_lt_compat_l; lra). lra.
      + exists w. intros _. split; lra.
    - exists (-1). intros H'. split; lra. }
  exists (fun z => proj1_sig (F z)). intros z. destruct (F z) as [w H]. exact H.
Qed.
