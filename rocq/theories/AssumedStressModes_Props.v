(** Properties C117 and C118: the modes of assumed stress elements. *)

From Coq Require Import Reals Arith Bool List Lia Lra FunctionalExtensionality.
From Coquelicot Require Import Coquelicot.
From Verif Require Import Tensor_Spec Conversions_Spec Conversions_Props Tensor_Model Tensor_Props Element_Spec Element_Model Element_Proofs Element_Props.
From Verif Require Import Eas_Spec Eas_Model Eas_Proofs Eas_Props EasStrains_Props EasModes_Props EasInvertible_Props.
From Verif Require Import AssumedStress_Spec AssumedStress_Model AssumedStress_Proofs AssumedStress_Props AssumedStressEnergy_Props.
Import ListNotations.
Local Open Scope R_scope.

(** ** The squares of the modes, integrated *)
Lemma norm_W5_0 points a : exactOnCube 2 2 points position weight ->
  sumP points (fun gp => weight gp * (apply 5 (modesS W5 gp) a 0%nat * apply 5 (modesS W5 gp) a 0%nat)) =
  (1) * (a 0%nat * a 0%nat) + (1 / 3) * (a 3%nat * a 3%nat).
Proof.
  intros E. unfold apply. cbn [sum]. cbv [modesS S5modes shifted app repeat length Nat.sub entries nth].
  poly E [((1) * (a 0%nat * a 0%nat), (0, 0, 0)%nat); ((2) * (a 0%nat * a 3%nat), (0, 1, 0)%nat); ((1) * (a 3%nat * a 3%nat), (0, 2, 0)%nat)].
Qed.

Lemma norm_W5_1 points a : exactOnCube 2 2 points position weight ->
  sumP points (fun gp => weight gp * (apply 5 (modesS W5 gp) a 1%nat * apply 5 (modesS W5 gp) a 1%nat)) =
  (1) * (a 1%nat * a 1%nat) + (1 / 3) * (a 4%nat * a 4%nat).
Proof.
  intros E. unfold apply. cbn [sum]. cbv [modesS S5modes shifted app repeat length Nat.sub entries nth].
  poly E [((1) * (a 1%nat * a 1%nat), (0, 0, 0)%nat); ((2) * (a 1%nat * a 4%nat), (1, 0, 0)%nat); ((1) * (a 4%nat * a 4%nat), (2, 0, 0)%nat)].
Qed.

Lemma norm_W5_2 points a : exactOnCube 2 2 points position weight ->
  sumP points (fun gp => weight gp * (apply 5 (modesS W5 gp) a 2%nat * apply 5 (modesS W5 gp) a 2%nat)) =
  (1) * (a 2%nat * a 2%nat).
Proof.
  intros E. unfold apply. cbn [sum]. cbv [modesS S5modes shifted app repeat length Nat.sub entries nth].
  poly E [((1) * (a 2%nat * a 2%nat), (0, 0, 0)%nat)].
Qed.

Lemma zero_W5 points a : exactOnCube 2 2 points position weight ->
  (forall k, (k < 3)%nat -> sumP points (fun gp => weight gp * (apply 5 (modesS W5 gp) a k * apply 5 (modesS W5 gp) a k)) = 0) ->
  forall q, (q < 5)%nat -> a q = 0.
Proof.
  intros E H q Hq.
  assert (A0 : a 0%nat = 0 /\ a 3%nat = 0).
  { specialize (H 0%nat ltac:(lia)). rewrite norm_W5_0 in H by assumption. assert (S0 := Rle_0_sqr (a 0%nat)). unfold Rsqr in S0. assert (S3 := Rle_0_sqr (a 3%nat)). unfold Rsqr in S3. repeat split; vanish. }
  assert (A1 : a 1%nat = 0 /\ a 4%nat = 0).
  { specialize (H 1%nat ltac:(lia)). rewrite norm_W5_1 in H by assumption. assert (S1 := Rle_0_sqr (a 1%nat)). unfold Rsqr in S1. assert (S4 := Rle_0_sqr (a 4%nat)). unfold Rsqr in S4. repeat split; vanish. }
  assert (A2 : a 2%nat = 0).
  { specialize (H 2%nat ltac:(lia)). rewrite norm_W5_2 in H by assumption. assert (S2 := Rle_0_sqr (a 2%nat)). unfold Rsqr in S2. repeat split; vanish. }
  clear H. do 5 (destruct q as [|q]; [tauto|]). lia.
Qed.

Lemma norm_W18_0 points a : exactOnCube 3 2 points position weight ->
  sumP points (fun gp => weight gp * (apply 18 (modesS W18 gp) a 0%nat * apply 18 (modesS W18 gp) a 0%nat)) =
  (1) * (a 0%nat * a 0%nat) + (1 / 3) * (a 1%nat * a 1%nat) + (1 / 3) * (a 2%nat * a 2%nat) + (1 / 9) * (a 3%nat * a 3%nat).
Proof.
  intros E. unfold apply. cbn [sum]. cbv [modesS S18modes shifted app repeat length Nat.sub entries nth].
  poly E [((1) * (a 0%nat * a 0%nat), (0, 0, 0)%nat); ((2) * (a 0%nat * a 1%nat), (0, 1, 0)%nat); ((2) * (a 0%nat * a 2%nat), (0, 0, 1)%nat); ((2) * (a 0%nat * a 3%nat) + (2) * (a 1%nat * a 2%nat), (0, 1, 1)%nat); ((1) * (a 1%nat * a 1%nat), (0, 2, 0)%nat); ((2) * (a 1%nat * a 3%nat), (0, 2, 1)%nat); ((1) * (a 2%nat * a 2%nat), (0, 0, 2)%nat); ((2) * (a 2%nat * a 3%nat), (0, 1, 2)%nat); ((1) * (a 3%nat * a 3%nat), (0, 2, 2)%nat)].
Qed.

Lemma norm_W18_1 points a : exactOnCube 3 2 points position weight ->
  sumP points (fun gp => weight gp * (apply 18 (modesS W18 gp) a 1%nat * apply 18 (modesS W18 gp) a 1%nat)) =
  (1) * (a 4%nat * a 4%nat) + (1 / 3) * (a 5%nat * a 5%nat) + (1 / 3) * (a 6%nat * a 6%nat) + (1 / 9) * (a 7%nat * a 7%nat).
Proof.
  intros E. unfold apply. cbn [sum]. cbv [modesS S18modes shifted app repeat length Nat.sub entries nth].
  poly E [((1) * (a 4%nat * a 4%nat), (0, 0, 0)%nat); ((2) * (a 4%nat * a 5%nat), (1, 0, 0)%nat); ((2) * (a 4%nat * a 6%nat), (0, 0, 1)%nat); ((2) * (a 4%nat * a 7%nat) + (2) * (a 5%nat * a 6%nat), (1, 0, 1)%nat); ((1) * (a 5%nat * a 5%nat), (2, 0, 0)%nat); ((2) * (a 5%nat * a 7%nat), (2, 0, 1)%nat); ((1) * (a 6%nat * a 6%nat), (0, 0, 2)%nat); ((2) * (a 6%nat * a 7%nat), (1, 0, 2)%nat); ((1) * (a 7%nat * a 7%nat), (2, 0, 2)%nat)].
Qed.

Lemma norm_W18_2 points a : exactOnCube 3 2 points position weight ->
  sumP points (fun gp => weight gp * (apply 18 (modesS W18 gp) a 2%nat * apply 18 (modesS W18 gp) a 2%nat)) =
  (1) * (a 8%nat * a 8%nat) + (1 / 3) * (a 9%nat * a 9%nat) + (1 / 3) * (a 10%nat * a 10%nat) + (1 / 9) * (a 11%nat * a 11%nat).
Proof.
  intros E. unfold apply. cbn [sum]. cbv [modesS S18modes shifted app repeat length Nat.sub entries nth].
  poly E [((1) * (a 8%nat * a 8%nat), (0, 0, 0)%nat); ((2) * (a 8%nat * a 9%nat), (1, 0, 0)%nat); ((2) * (a 8%nat * a 10%nat), (0, 1, 0)%nat); ((2) * (a 8%nat * a 11%nat) + (2) * (a 9%nat * a 10%nat), (1, 1, 0)%nat); ((1) * (a 9%nat * a 9%nat), (2, 0, 0)%nat); ((2) * (a 9%nat * a 11%nat), (2, 1, 0)%nat); ((1) * (a 10%nat * a 10%nat), (0, 2, 0)%nat); ((2) * (a 10%nat * a 11%nat), (1, 2, 0)%nat); ((1) * (a 11%nat * a 11%nat), (2, 2, 0)%nat)].
Qed.

Lemma norm_W18_3 points a : exactOnCube 3 2 points position weight ->
  sumP points (fun gp => weight gp * (apply 18 (modesS W18 gp) a 3%nat * apply 18 (modesS W18 gp) a 3%nat)) =
  (1) * (a 12%nat * a 12%nat) + (1 / 3) * (a 13%nat * a 13%nat).
Proof.
  intros E. unfold apply. cbn [sum]. cbv [modesS S18modes shifted app repeat length Nat.sub entries nth].
  poly E [((1) * (a 12%nat * a 12%nat), (0, 0, 0)%nat); ((2) * (a 12%nat * a 13%nat), (1, 0, 0)%nat); ((1) * (a 13%nat * a 13%nat), (2, 0, 0)%nat)].
Qed.

Lemma norm_W18_4 points a : exactOnCube 3 2 points position weight ->
  sumP points (fun gp => weight gp * (apply 18 (modesS W18 gp) a 4%nat * apply 18 (modesS W18 gp) a 4%nat)) =
  (1) * (a 14%nat * a 14%nat) + (1 / 3) * (a 15%nat * a 15%nat).
Proof.
  intros E. unfold apply. cbn [sum]. cbv [modesS S18modes shifted app repeat length Nat.sub entries nth].
  poly E [((1) * (a 14%nat * a 14%nat), (0, 0, 0)%nat); ((2) * (a 14%nat * a 15%nat), (0, 1, 0)%nat); ((1) * (a 15%nat * a 15%nat), (0, 2, 0)%nat)].
Qed.

Lemma norm_W18_5 points a : exactOnCube 3 2 points position weight ->
  sumP points (fun gp => weight gp * (apply 18 (modesS W18 gp) a 5%nat * apply 18 (modesS W18 gp) a 5%nat)) =
  (1) * (a 16%nat * a 16%nat) + (1 / 3) * (a 17%nat * a 17%nat).
Proof.
  intros E. unfold apply. cbn [sum]. cbv [modesS S18modes shifted app repeat length Nat.sub entries nth].
  poly E [((1) * (a 16%nat * a 16%nat), (0, 0, 0)%nat); ((2) * (a 16%nat * a 17%nat), (0, 0, 1)%nat); ((1) * (a 17%nat * a 17%nat), (0, 0, 2)%nat)].
Qed.

Lemma zero_W18 points a : exactOnCube 3 2 points position weight ->
  (forall k, (k < 6)%nat -> sumP points (fun gp => weight gp * (apply 18 (modesS W18 gp) a k * apply 18 (modesS W18 gp) a k)) = 0) ->
  forall q, (q < 18)%nat -> a q = 0.
Proof.
  intros E H q Hq.
  assert (A0 : a 0%nat = 0 /\ a 1%nat = 0 /\ a 2%nat = 0 /\ a 3%nat = 0).
  { specialize (H 0%nat ltac:(lia)). rewrite norm_W18_0 in H by assumption. assert (S0 := Rle_0_sqr (a 0%nat)). unfold Rsqr in S0. assert (S1 := Rle_0_sqr (a 1%nat)). unfold Rsqr in S1. assert (S2 := Rle_0_sqr (a 2%nat)). unfold Rsqr in S2. assert (S3 := Rle_0_sqr (a 3%nat)). unfold Rsqr in S3. repeat split; vanish. }
  assert (A1 : a 4%nat = 0 /\ a 5%nat = 0 /\ a 6%nat = 0 /\ a 7%nat = 0).
  { specialize (H 1%nat ltac:(lia)). rewrite norm_W18_1 in H by assumption. assert (S4 := Rle_0_sqr (a 4%nat)). unfold Rsqr in S4. assert (S5 := Rle_0_sqr (a 5%nat)). unfold Rsqr in S5. assert (S6 := Rle_0_sqr (a 6%nat)). unfold Rsqr in S6. assert (S7 := Rle_0_sqr (a 7%nat)). unfold Rsqr in S7. repeat split; vanish. }
  assert (A2 : a 8%nat = 0 /\ a 9%nat = 0 /\ a 10%nat = 0 /\ a 11%nat = 0).
  { specialize (H 2%nat ltac:(lia)). rewrite norm_W18_2 in H by assumption. assert (S8 := Rle_0_sqr (a 8%nat)). unfold Rsqr in S8. assert (S9 := Rle_0_sqr (a 9%nat)). unfold Rsqr in S9. assert (S10 := Rle_0_sqr (a 10%nat)). unfold Rsqr in S10. assert (S11 := Rle_0_sqr (a 11%nat)). unfold Rsqr in S11. repeat split; vanish. }
  assert (A3 : a 12%nat = 0 /\ a 13%nat = 0).
  { specialize (H 3%nat ltac:(lia)). rewrite norm_W18_3 in H by assumption. assert (S12 := Rle_0_sqr (a 12%nat)). unfold Rsqr in S12. assert (S13 := Rle_0_sqr (a 13%nat)). unfold Rsqr in S13. repeat split; vanish. }
  assert (A4 : a 14%nat = 0 /\ a 15%nat = 0).
  { specialize (H 4%nat ltac:(lia)). rewrite norm_W18_4 in H by assumption. assert (S14 := Rle_0_sqr (a 14%nat)). unfold Rsqr in S14. assert (S15 := Rle_0_sqr (a 15%nat)). unfold Rsqr in S15. repeat split; vanish. }
  assert (A5 : a 16%nat = 0 /\ a 17%nat = 0).
  { specialize (H 5%nat ltac:(lia)). rewrite norm_W18_5 in H by assumption. assert (S16 := Rle_0_sqr (a 16%nat)). unfold Rsqr in S16. assert (S17 := Rle_0_sqr (a 17%nat)). unfold Rsqr in S17. repeat split; vanish. }
  clear H. do 18 (destruct q as [|q]; [tauto|]). lia.
Qed.

Lemma norm_W24_0 points a : exactOnCube 3 2 points position weight ->
  sumP points (fun gp => weight gp * (apply 24 (modesS W24 gp) a 0%nat * apply 24 (modesS W24 gp) a 0%nat)) =
  (1) * (a 0%nat * a 0%nat) + (1 / 3) * (a 1%nat * a 1%nat) + (1 / 3) * (a 2%nat * a 2%nat) + (1 / 9) * (a 3%nat * a 3%nat).
Proof.
  intros E. unfold apply. cbn [sum]. cbv [modesS S24modes shifted app repeat length Nat.sub entries nth].
  poly E [((1) * (a 0%nat * a 0%nat), (0, 0, 0)%nat); ((2) * (a 0%nat * a 1%nat), (0, 1, 0)%nat); ((2) * (a 0%nat * a 2%nat), (0, 0, 1)%nat); ((2) * (a 0%nat * a 3%nat) + (2) * (a 1%nat * a 2%nat), (0, 1, 1)%nat); ((1) * (a 1%nat * a 1%nat), (0, 2, 0)%nat); ((2) * (a 1%nat * a 3%nat), (0, 2, 1)%nat); ((1) * (a 2%nat * a 2%nat), (0, 0, 2)%nat); ((2) * (a 2%nat * a 3%nat), (0, 1, 2)%nat); ((1) * (a 3%nat * a 3%nat), (0, 2, 2)%nat)].
Qed.

Lemma norm_W24_1 points a : exactOnCube 3 2 points position weight ->
  sumP points (fun gp => weight gp * (apply 24 (modesS W24 gp) a 1%nat * apply 24 (modesS W24 gp) a 1%nat)) =
  (1) * (a 4%nat * a 4%nat) + (1 / 3) * (a 5%nat * a 5%nat) + (1 / 3) * (a 6%nat * a 6%nat) + (1 / 9) * (a 7%nat * a 7%nat).
Proof.
  intros E. unfold apply. cbn [sum]. cbv [modesS S24modes shifted app repeat length Nat.sub entries nth].
  poly E [((1) * (a 4%nat * a 4%nat), (0, 0, 0)%nat); ((2) * (a 4%nat * a 5%nat), (1, 0, 0)%nat); ((2) * (a 4%nat * a 6%nat), (0, 0, 1)%nat); ((2) * (a 4%nat * a 7%nat) + (2) * (a 5%nat * a 6%nat), (1, 0, 1)%nat); ((1) * (a 5%nat * a 5%nat), (2, 0, 0)%nat); ((2) * (a 5%nat * a 7%nat), (2, 0, 1)%nat); ((1) * (a 6%nat * a 6%nat), (0, 0, 2)%nat); ((2) * (a 6%nat * a 7%nat), (1, 0, 2)%nat); ((1) * (a 7%nat * a 7%nat), (2, 0, 2)%nat)].
Qed.

Lemma norm_W24_2 points a : exactOnCube 3 2 points position weight ->
  sumP points (fun gp => weight gp * (apply 24 (modesS W24 gp) a 2%nat * apply 24 (modesS W24 gp) a 2%nat)) =
  (1) * (a 8%nat * a 8%nat) + (1 / 3) * (a 9%nat * a 9%nat) + (1 / 3) * (a 10%nat * a 10%nat) + (1 / 9) * (a 11%nat * a 11%nat).
Proof.
  intros E. unfold apply. cbn [sum]. cbv [modesS S24modes shifted app repeat length Nat.sub entries nth].
  poly E [((1) * (a 8%nat * a 8%nat), (0, 0, 0)%nat); ((2) * (a 8%nat * a 9%nat), (1, 0, 0)%nat); ((2) * (a 8%nat * a 10%nat), (0, 1, 0)%nat); ((2) * (a 8%nat * a 11%nat) + (2) * (a 9%nat * a 10%nat), (1, 1, 0)%nat); ((1) * (a 9%nat * a 9%nat), (2, 0, 0)%nat); ((2) * (a 9%nat * a 11%nat), (2, 1, 0)%nat); ((1) * (a 10%nat * a 10%nat), (0, 2, 0)%nat); ((2) * (a 10%nat * a 11%nat), (1, 2, 0)%nat); ((1) * (a 11%nat * a 11%nat), (2, 2, 0)%nat)].
Qed.

Lemma norm_W24_3 points a : exactOnCube 3 2 points position weight ->
  sumP points (fun gp => weight gp * (apply 24 (modesS W24 gp) a 3%nat * apply 24 (modesS W24 gp) a 3%nat)) =
  (1) * (a 12%nat * a 12%nat) + (1 / 3) * (a 13%nat * a 13%nat) + (1 / 9) * (a 14%nat * a 14%nat) + (1 / 9) * (a 15%nat * a 15%nat).
Proof.
  intros E. unfold apply. cbn [sum]. cbv [modesS S24modes shifted app repeat length Nat.sub entries nth].
  poly E [((1) * (a 12%nat * a 12%nat), (0, 0, 0)%nat); ((2) * (a 12%nat * a 13%nat), (1, 0, 0)%nat); ((2) * (a 12%nat * a 14%nat), (1, 1, 0)%nat); ((2) * (a 12%nat * a 15%nat), (1, 0, 1)%nat); ((1) * (a 13%nat * a 13%nat), (2, 0, 0)%nat); ((2) * (a 13%nat * a 14%nat), (2, 1, 0)%nat); ((2) * (a 13%nat * a 15%nat), (2, 0, 1)%nat); ((1) * (a 14%nat * a 14%nat), (2, 2, 0)%nat); ((2) * (a 14%nat * a 15%nat), (2, 1, 1)%nat); ((1) * (a 15%nat * a 15%nat), (2, 0, 2)%nat)].
Qed.

Lemma norm_W24_4 points a : exactOnCube 3 2 points position weight ->
  sumP points (fun gp => weight gp * (apply 24 (modesS W24 gp) a 4%nat * apply 24 (modesS W24 gp) a 4%nat)) =
  (1) * (a 16%nat * a 16%nat) + (1 / 3) * (a 17%nat * a 17%nat) + (1 / 9) * (a 18%nat * a 18%nat) + (1 / 9) * (a 19%nat * a 19%nat).
Proof.
  intros E. unfold apply. cbn [sum]. cbv [modesS S24modes shifted app repeat length Nat.sub entries nth].
  poly E [((1) * (a 16%nat * a 16%nat), (0, 0, 0)%nat); ((2) * (a 16%nat * a 17%nat), (0, 1, 0)%nat); ((2) * (a 16%nat * a 18%nat), (1, 1, 0)%nat); ((2) * (a 16%nat * a 19%nat), (0, 1, 1)%nat); ((1) * (a 17%nat * a 17%nat), (0, 2, 0)%nat); ((2) * (a 17%nat * a 18%nat), (1, 2, 0)%nat); ((2) * (a 17%nat * a 19%nat), (0, 2, 1)%nat); ((1) * (a 18%nat * a 18%nat), (2, 2, 0)%nat); ((2) * (a 18%nat * a 19%nat), (1, 2, 1)%nat); ((1) * (a 19%nat * a 19%nat), (0, 2, 2)%nat)].
Qed.

Lemma norm_W24_5 points a : exactOnCube 3 2 points position weight ->
  sumP points (fun gp => weight gp * (apply 24 (modesS W24 gp) a 5%nat * apply 24 (modesS W24 gp) a 5%nat)) =
  (1) * (a 20%nat * a 20%nat) + (1 / 3) * (a 21%nat * a 21%nat) + (1 / 9) * (a 22%nat * a 22%nat) + (1 / 9) * (a 23%nat * a 23%nat).
Proof.
  intros E. unfold apply. cbn [sum]. cbv [modesS S24modes shifted app repeat length Nat.sub entries nth].
  poly E [((1) * (a 20%nat * a 20%nat), (0, 0, 0)%nat); ((2) * (a 20%nat * a 21%nat), (0, 0, 1)%nat); ((2) * (a 20%nat * a 22%nat), (0, 1, 1)%nat); ((2) * (a 20%nat * a 23%nat), (1, 0, 1)%nat); ((1) * (a 21%nat * a 21%nat), (0, 0, 2)%nat); ((2) * (a 21%nat * a 22%nat), (0, 1, 2)%nat); ((2) * (a 21%nat * a 23%nat), (1, 0, 2)%nat); ((1) * (a 22%nat * a 22%nat), (0, 2, 2)%nat); ((2) * (a 22%nat * a 23%nat), (1, 1, 2)%nat); ((1) * (a 23%nat * a 23%nat), (2, 0, 2)%nat)].
Qed.

Lemma zero_W24 points a : exactOnCube 3 2 points position weight ->
  (forall k, (k < 6)%nat -> sumP points (fun gp => weight gp * (apply 24 (modesS W24 gp) a k * apply 24 (modesS W24 gp) a k)) = 0) ->
  forall q, (q < 24)%nat -> a q = 0.
Proof.
  intros E H q Hq.
  assert (A0 : a 0%nat = 0 /\ a 1%nat = 0 /\ a 2%nat = 0 /\ a 3%nat = 0).
  { specialize (H 0%nat ltac:(lia)). rewrite norm_W24_0 in H by assumption. assert (S0 := Rle_0_sqr (a 0%nat)). unfold Rsqr in S0. assert (S1 := Rle_0_sqr (a 1%nat)). unfold Rsqr in S1. assert (S2 := Rle_0_sqr (a 2%nat)). unfold Rsqr in S2. assert (S3 := Rle_0_sqr (a 3%nat)). unfold Rsqr in S3. repeat split; vanish. }
  assert (A1 : a 4%nat = 0 /\ a 5%nat = 0 /\ a 6%nat = 0 /\ a 7%nat = 0).
  { specialize (H 1%nat ltac:(lia)). rewrite norm_W24_1 in H by assumption. assert (S4 := Rle_0_sqr (a 4%nat)). unfold Rsqr in S4. assert (S5 := Rle_0_sqr (a 5%nat)). unfold Rsqr in S5. assert (S6 := Rle_0_sqr (a 6%nat)). unfold Rsqr in S6. assert (S7 := Rle_0_sqr (a 7%nat)). unfold Rsqr in S7. repeat split; vanish. }
  assert (A2 : a 8%nat = 0 /\ a 9%nat = 0 /\ a 10%nat = 0 /\ a 11%nat = 0).
  { specialize (H 2%nat ltac:(lia)). rewrite norm_W24_2 in H by assumption. assert (S8 := Rle_0_sqr (a 8%nat)). unfold Rsqr in S8. assert (S9 := Rle_0_sqr (a 9%nat)). unfold Rsqr in S9. assert (S10 := Rle_0_sqr (a 10%nat)). unfold Rsqr in S10. assert (S11 := Rle_0_sqr (a 11%nat)). unfold Rsqr in S11. repeat split; vanish. }
  assert (A3 : a 12%nat = 0 /\ a 13%nat = 0 /\ a 14%nat = 0 /\ a 15%nat = 0).
  { specialize (H 3%nat ltac:(lia)). rewrite norm_W24_3 in H by assumption. assert (S12 := Rle_0_sqr (a 12%nat)). unfold Rsqr in S12. assert (S13 := Rle_0_sqr (a 13%nat)). unfold Rsqr in S13. assert (S14 := Rle_0_sqr (a 14%nat)). unfold Rsqr in S14. assert (S15 := Rle_0_sqr (a 15%nat)). unfold Rsqr in S15. repeat split; vanish. }
  assert (A4 : a 16%nat = 0 /\ a 17%nat = 0 /\ a 18%nat = 0 /\ a 19%nat = 0).
  { specialize (H 4%nat ltac:(lia)). rewrite norm_W24_4 in H by assumption. assert (S16 := Rle_0_sqr (a 16%nat)). unfold Rsqr in S16. assert (S17 := Rle_0_sqr (a 17%nat)). unfold Rsqr in S17. assert (S18 := Rle_0_sqr (a 18%nat)). unfold Rsqr in S18. assert (S19 := Rle_0_sqr (a 19%nat)). unfold Rsqr in S19. repeat split; vanish. }
  assert (A5 : a 20%nat = 0 /\ a 21%nat = 0 /\ a 22%nat = 0 /\ a 23%nat = 0).
  { specialize (H 5%nat ltac:(lia)). rewrite norm_W24_5 in H by assumption. assert (S20 := Rle_0_sqr (a 20%nat)). unfold Rsqr in S20. assert (S21 := Rle_0_sqr (a 21%nat)). unfold Rsqr in S21. assert (S22 := Rle_0_sqr (a 22%nat)). unfold Rsqr in S22. assert (S23 := Rle_0_sqr (a 23%nat)). unfold Rsqr in S23. repeat split; vanish. }
  clear H. do 24 (destruct q as [|q]; [tauto|]). lia.
Qed.

Lemma norm_W30_0 points a : exactOnCube 3 2 points position weight ->
  sumP points (fun gp => weight gp * (apply 30 (modesS W30 gp) a 0%nat * apply 30 (modesS W30 gp) a 0%nat)) =
  (1) * (a 0%nat * a 0%nat) + (1 / 3) * (a 1%nat * a 1%nat) + (1 / 3) * (a 2%nat * a 2%nat) + (1 / 9) * (a 3%nat * a 3%nat).
Proof.
  intros E. unfold apply. cbn [sum]. cbv [modesS S30modes shifted app repeat length Nat.sub entries nth].
  poly E [((1) * (a 0%nat * a 0%nat), (0, 0, 0)%nat); ((2) * (a 0%nat * a 1%nat), (0, 1, 0)%nat); ((2) * (a 0%nat * a 2%nat), (0, 0, 1)%nat); ((2) * (a 0%nat * a 3%nat) + (2) * (a 1%nat * a 2%nat), (0, 1, 1)%nat); ((1) * (a 1%nat * a 1%nat), (0, 2, 0)%nat); ((2) * (a 1%nat * a 3%nat), (0, 2, 1)%nat); ((1) * (a 2%nat * a 2%nat), (0, 0, 2)%nat); ((2) * (a 2%nat * a 3%nat), (0, 1, 2)%nat); ((1) * (a 3%nat * a 3%nat), (0, 2, 2)%nat)].
Qed.

Lemma norm_W30_1 points a : exactOnCube 3 2 points position weight ->
  sumP points (fun gp => weight gp * (apply 30 (modesS W30 gp) a 1%nat * apply 30 (modesS W30 gp) a 1%nat)) =
  (1) * (a 4%nat * a 4%nat) + (1 / 3) * (a 5%nat * a 5%nat) + (1 / 3) * (a 6%nat * a 6%nat) + (1 / 9) * (a 7%nat * a 7%nat).
Proof.
  intros E. unfold apply. cbn [sum]. cbv [modesS S30modes shifted app repeat length Nat.sub entries nth].
  poly E [((1) * (a 4%nat * a 4%nat), (0, 0, 0)%nat); ((2) * (a 4%nat * a 5%nat), (1, 0, 0)%nat); ((2) * (a 4%nat * a 6%nat), (0, 0, 1)%nat); ((2) * (a 4%nat * a 7%nat) + (2) * (a 5%nat * a 6%nat), (1, 0, 1)%nat); ((1) * (a 5%nat * a 5%nat), (2, 0, 0)%nat); ((2) * (a 5%nat * a 7%nat), (2, 0, 1)%nat); ((1) * (a 6%nat * a 6%nat), (0, 0, 2)%nat); ((2) * (a 6%nat * a 7%nat), (1, 0, 2)%nat); ((1) * (a 7%nat * a 7%nat), (2, 0, 2)%nat)].
Qed.

Lemma norm_W30_2 points a : exactOnCube 3 2 points position weight ->
  sumP points (fun gp => weight gp * (apply 30 (modesS W30 gp) a 2%nat * apply 30 (modesS W30 gp) a 2%nat)) =
  (1) * (a 8%nat * a 8%nat) + (1 / 3) * (a 9%nat * a 9%nat) + (1 / 3) * (a 10%nat * a 10%nat) + (1 / 9) * (a 11%nat * a 11%nat).
Proof.
  intros E. unfold apply. cbn [sum]. cbv [modesS S30modes shifted app repeat length Nat.sub entries nth].
  poly E [((1) * (a 8%nat * a 8%nat), (0, 0, 0)%nat); ((2) * (a 8%nat * a 9%nat), (1, 0, 0)%nat); ((2) * (a 8%nat * a 10%nat), (0, 1, 0)%nat); ((2) * (a 8%nat * a 11%nat) + (2) * (a 9%nat * a 10%nat), (1, 1, 0)%nat); ((1) * (a 9%nat * a 9%nat), (2, 0, 0)%nat); ((2) * (a 9%nat * a 11%nat), (2, 1, 0)%nat); ((1) * (a 10%nat * a 10%nat), (0, 2, 0)%nat); ((2) * (a 10%nat * a 11%nat), (1, 2, 0)%nat); ((1) * (a 11%nat * a 11%nat), (2, 2, 0)%nat)].
Qed.

Lemma norm_W30_3 points a : exactOnCube 3 2 points position weight ->
  sumP points (fun gp => weight gp * (apply 30 (modesS W30 gp) a 3%nat * apply 30 (modesS W30 gp) a 3%nat)) =
  (1) * (a 12%nat * a 12%nat) + (1 / 3) * (a 13%nat * a 13%nat) + (1 / 3) * (a 14%nat * a 14%nat) + (1 / 3) * (a 15%nat * a 15%nat) + (1 / 9) * (a 16%nat * a 16%nat) + (1 / 9) * (a 17%nat * a 17%nat).
Proof.
  intros E. unfold apply. cbn [sum]. cbv [modesS S30modes shifted app repeat length Nat.sub entries nth].
  poly E [((1) * (a 12%nat * a 12%nat), (0, 0, 0)%nat); ((2) * (a 12%nat * a 13%nat), (1, 0, 0)%nat); ((2) * (a 12%nat * a 14%nat), (0, 1, 0)%nat); ((2) * (a 12%nat * a 15%nat), (0, 0, 1)%nat); ((2) * (a 12%nat * a 16%nat) + (2) * (a 13%nat * a 14%nat), (1, 1, 0)%nat); ((2) * (a 12%nat * a 17%nat) + (2) * (a 13%nat * a 15%nat), (1, 0, 1)%nat); ((1) * (a 13%nat * a 13%nat), (2, 0, 0)%nat); ((2) * (a 13%nat * a 16%nat), (2, 1, 0)%nat); ((2) * (a 13%nat * a 17%nat), (2, 0, 1)%nat); ((1) * (a 14%nat * a 14%nat), (0, 2, 0)%nat); ((2) * (a 14%nat * a 15%nat), (0, 1, 1)%nat); ((2) * (a 14%nat * a 16%nat), (1, 2, 0)%nat); ((2) * (a 14%nat * a 17%nat) + (2) * (a 15%nat * a 16%nat), (1, 1, 1)%nat); ((1) * (a 15%nat * a 15%nat), (0, 0, 2)%nat); ((2) * (a 15%nat * a 17%nat), (1, 0, 2)%nat); ((1) * (a 16%nat * a 16%nat), (2, 2, 0)%nat); ((2) * (a 16%nat * a 17%nat), (2, 1, 1)%nat); ((1) * (a 17%nat * a 17%nat), (2, 0, 2)%nat)].
Qed.

Lemma norm_W30_4 points a : exactOnCube 3 2 points position weight ->
  sumP points (fun gp => weight gp * (apply 30 (modesS W30 gp) a 4%nat * apply 30 (modesS W30 gp) a 4%nat)) =
  (1) * (a 18%nat * a 18%nat) + (1 / 3) * (a 19%nat * a 19%nat) + (1 / 3) * (a 20%nat * a 20%nat) + (1 / 3) * (a 21%nat * a 21%nat) + (1 / 9) * (a 22%nat * a 22%nat) + (1 / 9) * (a 23%nat * a 23%nat).
Proof.
  intros E. unfold apply. cbn [sum]. cbv [modesS S30modes shifted app repeat length Nat.sub entries nth].
  poly E [((1) * (a 18%nat * a 18%nat), (0, 0, 0)%nat); ((2) * (a 18%nat * a 19%nat), (1, 0, 0)%nat); ((2) * (a 18%nat * a 20%nat), (0, 1, 0)%nat); ((2) * (a 18%nat * a 21%nat), (0, 0, 1)%nat); ((2) * (a 18%nat * a 22%nat) + (2) * (a 19%nat * a 20%nat), (1, 1, 0)%nat); ((2) * (a 18%nat * a 23%nat) + (2) * (a 20%nat * a 21%nat), (0, 1, 1)%nat); ((1) * (a 19%nat * a 19%nat), (2, 0, 0)%nat); ((2) * (a 19%nat * a 21%nat), (1, 0, 1)%nat); ((2) * (a 19%nat * a 22%nat), (2, 1, 0)%nat); ((2) * (a 19%nat * a 23%nat) + (2) * (a 21%nat * a 22%nat), (1, 1, 1)%nat); ((1) * (a 20%nat * a 20%nat), (0, 2, 0)%nat); ((2) * (a 20%nat * a 22%nat), (1, 2, 0)%nat); ((2) * (a 20%nat * a 23%nat), (0, 2, 1)%nat); ((1) * (a 21%nat * a 21%nat), (0, 0, 2)%nat); ((2) * (a 21%nat * a 23%nat), (0, 1, 2)%nat); ((1) * (a 22%nat * a 22%nat), (2, 2, 0)%nat); ((2) * (a 22%nat * a 23%nat), (1, 2, 1)%nat); ((1) * (a 23%nat * a 23%nat), (0, 2, 2)%nat)].
Qed.

Lemma norm_W30_5 points a : exactOnCube 3 2 points position weight ->
  sumP points (fun gp => weight gp * (apply 30 (modesS W30 gp) a 5%nat * apply 30 (modesS W30 gp) a 5%nat)) =
  (1) * (a 24%nat * a 24%nat) + (1 / 3) * (a 25%nat * a 25%nat) + (1 / 3) * (a 26%nat * a 26%nat) + (1 / 3) * (a 27%nat * a 27%nat) + (1 / 9) * (a 28%nat * a 28%nat) + (1 / 9) * (a 29%nat * a 29%nat).
Proof.
  intros E. unfold apply. cbn [sum]. cbv [modesS S30modes shifted app repeat length Nat.sub entries nth].
  poly E [((1) * (a 24%nat * a 24%nat), (0, 0, 0)%nat); ((2) * (a 24%nat * a 25%nat), (1, 0, 0)%nat); ((2) * (a 24%nat * a 26%nat), (0, 1, 0)%nat); ((2) * (a 24%nat * a 27%nat), (0, 0, 1)%nat); ((2) * (a 24%nat * a 28%nat) + (2) * (a 26%nat * a 27%nat), (0, 1, 1)%nat); ((2) * (a 24%nat * a 29%nat) + (2) * (a 25%nat * a 27%nat), (1, 0, 1)%nat); ((1) * (a 25%nat * a 25%nat), (2, 0, 0)%nat); ((2) * (a 25%nat * a 26%nat), (1, 1, 0)%nat); ((2) * (a 25%nat * a 28%nat) + (2) * (a 26%nat * a 29%nat), (1, 1, 1)%nat); ((2) * (a 25%nat * a 29%nat), (2, 0, 1)%nat); ((1) * (a 26%nat * a 26%nat), (0, 2, 0)%nat); ((2) * (a 26%nat * a 28%nat), (0, 2, 1)%nat); ((1) * (a 27%nat * a 27%nat), (0, 0, 2)%nat); ((2) * (a 27%nat * a 28%nat), (0, 1, 2)%nat); ((2) * (a 27%nat * a 29%nat), (1, 0, 2)%nat); ((1) * (a 28%nat * a 28%nat), (0, 2, 2)%nat); ((2) * (a 28%nat * a 29%nat), (1, 1, 2)%nat); ((1) * (a 29%nat * a 29%nat), (2, 0, 2)%nat)].
Qed.

Lemma zero_W30 points a : exactOnCube 3 2 points position weight ->
  (forall k, (k < 6)%nat -> sumP points (fun gp => weight gp * (apply 30 (modesS W30 gp) a k * apply 30 (modesS W30 gp) a k)) = 0) ->
  forall q, (q < 30)%nat -> a q = 0.
Proof.
  intros E H q Hq.
  assert (A0 : a 0%nat = 0 /\ a 1%nat = 0 /\ a 2%nat = 0 /\ a 3%nat = 0).
  { specialize (H 0%nat ltac:(lia)). rewrite norm_W30_0 in H by assumption. assert (S0 := Rle_0_sqr (a 0%nat)). unfold Rsqr in S0. assert (S1 := Rle_0_sqr (a 1%nat)). unfold Rsqr in S1. assert (S2 := Rle_0_sqr (a 2%nat)). unfold Rsqr in S2. assert (S3 := Rle_0_sqr (a 3%nat)). unfold Rsqr in S3. repeat split; vanish. }
  assert (A1 : a 4%nat = 0 /\ a 5%nat = 0 /\ a 6%nat = 0 /\ a 7%nat = 0).
  { specialize (H 1%nat ltac:(lia)). rewrite norm_W30_1 in H by assumption. assert (S4 := Rle_0_sqr (a 4%nat)). unfold Rsqr in S4. assert (S5 := Rle_0_sqr (a 5%nat)). unfold Rsqr in S5. assert (S6 := Rle_0_sqr (a 6%nat)). unfold Rsqr in S6. assert (S7 := Rle_0_sqr (a 7%nat)). unfold Rsqr in S7. repeat split; vanish. }
  assert (A2 : a 8%nat = 0 /\ a 9%nat = 0 /\ a 10%nat = 0 /\ a 11%nat = 0).
  { specialize (H 2%nat ltac:(lia)). rewrite norm_W30_2 in H by assumption. assert (S8 := Rle_0_sqr (a 8%nat)). unfold Rsqr in S8. assert (S9 := Rle_0_sqr (a 9%nat)). unfold Rsqr in S9. assert (S10 := Rle_0_sqr (a 10%nat)). unfold Rsqr in S10. assert (S11 := Rle_0_sqr (a 11%nat)). unfold Rsqr in S11. repeat split; vanish. }
  assert (A3 : a 12%nat = 0 /\ a 13%nat = 0 /\ a 14%nat = 0 /\ a 15%nat = 0 /\ a 16%nat = 0 /\ a 17%nat = 0).
  { specialize (H 3%nat ltac:(lia)). rewrite norm_W30_3 in H by assumption. assert (S12 := Rle_0_sqr (a 12%nat)). unfold Rsqr in S12. assert (S13 := Rle_0_sqr (a 13%nat)). unfold Rsqr in S13. assert (S14 := Rle_0_sqr (a 14%nat)). unfold Rsqr in S14. assert (S15 := Rle_0_sqr (a 15%nat)). unfold Rsqr in S15. assert (S16 := Rle_0_sqr (a 16%nat)). unfold Rsqr in S16. assert (S17 := Rle_0_sqr (a 17%nat)). unfold Rsqr in S17. repeat split; vanish. }
  assert (A4 : a 18%nat = 0 /\ a 19%nat = 0 /\ a 20%nat = 0 /\ a 21%nat = 0 /\ a 22%nat = 0 /\ a 23%nat = 0).
  { specialize (H 4%nat ltac:(lia)). rewrite norm_W30_4 in H by assumption. assert (S18 := Rle_0_sqr (a 18%nat)). unfold Rsqr in S18. assert (S19 := Rle_0_sqr (a 19%nat)). unfold Rsqr in S19. assert (S20 := Rle_0_sqr (a 20%nat)). unfold Rsqr in S20. assert (S21 := Rle_0_sqr (a 21%nat)). unfold Rsqr in S21. assert (S22 := Rle_0_sqr (a 22%nat)). unfold Rsqr in S22. assert (S23 := Rle_0_sqr (a 23%nat)). unfold Rsqr in S23. repeat split; vanish. }
  assert (A5 : a 24%nat = 0 /\ a 25%nat = 0 /\ a 26%nat = 0 /\ a 27%nat = 0 /\ a 28%nat = 0 /\ a 29%nat = 0).
  { specialize (H 5%nat ltac:(lia)). rewrite norm_W30_5 in H by assumption. assert (S24 := Rle_0_sqr (a 24%nat)). unfold Rsqr in S24. assert (S25 := Rle_0_sqr (a 25%nat)). unfold Rsqr in S25. assert (S26 := Rle_0_sqr (a 26%nat)). unfold Rsqr in S26. assert (S27 := Rle_0_sqr (a 27%nat)). unfold Rsqr in S27. assert (S28 := Rle_0_sqr (a 28%nat)). unfold Rsqr in S28. assert (S29 := Rle_0_sqr (a 29%nat)). unfold Rsqr in S29. repeat split; vanish. }
  clear H. do 30 (destruct q as [|q]; [tauto|]). lia.
Qed.

Definition dimensionS (v : variantS) : nat := match v with W5 => 2 | _ => 3 end%nat.

Lemma zero_modesS v d points a : d = dimensionS v -> exactOnCube d 2 points position weight ->
  (forall k, (k < voigtLength d)%nat ->
    sumP points (fun gp => weight gp * (apply (sizeS v) (modesS v gp) a k * apply (sizeS v) (modesS v gp) a k)) = 0) ->
  forall q, (q < sizeS v)%nat -> a q = 0.
Proof.
  intros -> E H. destruct v; cbn [sizeS dimensionS] in *.
  - exact (zero_W5 points a E H).
  - exact (zero_W18 points a E H).
  - exact (zero_W24 points a E H).
  - exact (zero_W30 points a E H).
Qed.

(** C117: the numbers of stress parameters that are accepted, and the nodes of the elements *)
Theorem C117_accepts d k : (d = 2 \/ d = 3)%nat ->
  (forall v, makeS d k = Some v -> sizeS v = k /\ dimensionS v = d) /\
  ((exists v, makeS d k = Some v) <-> (d = 2 /\ k = 5 \/ d = 3 /\ (k = 18 \/ k = 24 \/ k = 30))%nat) /\
  (forall n, asApplicable n d = true <-> n = (2 ^ d)%nat).
Proof.
  intros Hd. split; [|split].
  - intros v. unfold makeS. destruct Hd as [->| ->]; cbn [Nat.eqb].
    + destruct (Nat.eqb_spec k 5); [|discriminate]. intros [= <-]. subst. split; reflexivity.
    + destruct (Nat.eqb_spec k 18); [intros [= <-]; subst; split; reflexivity|].
      destruct (Nat.eqb_spec k 24); [intros [= <-]; subst; split; reflexivity|].
      destruct (Nat.eqb_spec k 30); [intros [= <-]; subst; split; reflexivity|discriminate].
  - unfold makeS. destruct Hd as [->| ->]; cbn [Nat.eqb]; split.
    + intros (v & Hv). destruct (Nat.eqb_spec k 5); [lia|discriminate].
    + intros Hk. destruct (Nat.eqb_spec k 5); [eexists; reflexivity|lia].
    + intros (v & Hv). destruct (Nat.eqb_spec k 18); [lia|]. destruct (Nat.eqb_spec k 24); [lia|]. destruct (Nat.eqb_spec k 30); [lia|discriminate].
    + intros Hk. destruct (Nat.eqb_spec k 18); [eexists; reflexivity|]. destruct (Nat.eqb_spec k 24); [eexists; reflexivity|].
      destruct (Nat.eqb_spec k 30); [eexists; reflexivity|lia].
  - intros n. unfold asApplicable. destruct Hd as [->| ->]; cbn [Nat.eqb Nat.pow Nat.mul Nat.add]; rewrite ?andb_true_r, ?andb_false_r, ?orb_false_r, ?orb_false_l; apply Nat.eqb_eq.
Qed.
Print Assumptions C117_accepts.

(** ** The transformation *)
Lemma transformation_inverse d J0 Ji : (d = 2 \/ d = 3)%nat -> isInverse d J0 Ji ->
  forall i j, (i < voigtLength d)%nat -> (j < voigtLength d)%nat ->
  mul (voigtLength d) (transformationMatrix d J0) (transformationMatrix d Ji) i j = identity i j /\
  mul (voigtLength d) (transformationMatrix d Ji) (transformationMatrix d J0) i j = identity i j.
Proof.
  intros Hd (HR & HL) i j Hi Hj.
  assert (X : forall A B, (forall i j, (i < d)%nat -> (j < d)%nat -> mul d A B i j = identity i j) ->
    mul (voigtLength d) (transformationMatrix d A) (transformationMatrix d B) i j = identity i j).
  { intros A B HAB. unfold transformationMatrix. destruct Hd as [->| ->]; cbn [Nat.eqb].
    - change (voigtLength 2) with 3%nat in *. destruct (C38_multiplicative2 A B i j Hi Hj) as (E & _). rewrite <- E.
      destruct (C38_multiplicative2 A B i j Hi Hj) as (_ & E'). rewrite <- E'. unfold transformationMatrix2. rewrite !HAB by lia. reflexivity.
    - change (voigtLength 3) with 6%nat in *. destruct (C38_multiplicative3 A B i j Hi Hj) as (E & _). rewrite <- E.
      destruct (C38_multiplicative3 A B i j Hi Hj) as (_ & E'). rewrite <- E'. unfold transformationMatrix3. rewrite !HAB by lia. reflexivity. }
  split; apply X; assumption.
Qed.

(** C117: the assumed stresses of natural coordinates are transformed as a contravariant tensor: S becomes J^T S J (J is transposed) *)
Theorem C117_transformation d J0 Sn m : (d = 2 \/ d = 3)%nat -> symmetric d Sn -> (m < voigtLength d)%nat ->
  apply (voigtLength d) (T0transposed d J0) (stressVector d Sn) m = stressVector d (mul d (transpose J0) (mul d Sn J0)) m.
Proof.
  intros Hd Sy Hm. unfold apply, T0transposed, transformationMatrix. destruct Hd as [->| ->]; cbn [Nat.eqb].
  - change (voigtLength 2) with 3%nat in *. assert (S1 := Sy 1%nat 0%nat ltac:(lia) ltac:(lia)).
    destruct m as [|[|[|m]]]; [..|lia]; unfold transformationMatrix2, mul, transpose; cbn; rewrite S1; ring.
  - change (voigtLength 3) with 6%nat in *. assert (S1 := Sy 1%nat 0%nat ltac:(lia) ltac:(lia)). assert (S2 := Sy 2%nat 0%nat ltac:(lia) ltac:(lia)).
    assert (S3 := Sy 2%nat 1%nat ltac:(lia) ltac:(lia)).
    destruct m as [|[|[|[|[|[|m]]]]]]; [..|lia]; unfold transformationMatrix3, mul, transpose; cbn; rewrite S1, S2, S3; ring.
Qed.
Print Assumptions C117_transformation.

Section Modes.
  Variables (d : nat) (points : list point) (J0 Ji : nat -> nat -> R).
  Hypothesis dim : (d = 2 \/ d = 3)%nat.
  Hypothesis regular : isInverse d J0 Ji.
  Let s := voigtLength d.
  Let P v := asFunction d J0 v.

  Lemma transformedS v gp b m : apply (sizeS v) (P v gp) b m = apply s (T0transposed d J0) (apply (sizeS v) (modesS v gp) b) m.
  Proof.
    unfold apply, P, asFunction. fold s.
    transitivity (sum (sizeS v) (fun q => sum s (fun k => T0transposed d J0 m k * (modesS v gp k q * b q)))).
    - apply sum_ext. intros q _. rewrite <- sum_mul_r. apply sum_ext. intros. ring.
    - rewrite sum_swap. apply sum_ext. intros k _. rewrite <- sum_mul_l. reflexivity.
  Qed.
  Lemma undo y k : (k < s)%nat -> apply s (T0transposed d Ji) (apply s (T0transposed d J0) y) k = y k.
  Proof.
    intros Hk. unfold apply. rewrite (sum_ext s _ (fun m => sum s (fun j => T0transposed d Ji k m * T0transposed d J0 m j * y j))).
    2:{ intros m _. rewrite <- sum_mul_l. apply sum_ext. intros. ring. }
    rewrite sum_swap. rewrite (sum_ext s _ (fun j => identity k j * y j)); [apply sum_id_l, Hk|]. intros j Hj. rewrite sum_mul_r. f_equal.
    destruct (transformation_inverse d J0 Ji dim regular j k Hj Hk) as (E & _). fold s in E. unfold mul in E. unfold identity in *. rewrite (Nat.eqb_sym k j), <- E.
    apply sum_ext. intros. unfold T0transposed. ring.
  Qed.
  Lemma undo' y k : (k < s)%nat -> apply s (T0transposed d J0) (apply s (T0transposed d Ji) y) k = y k.
  Proof.
    intros Hk. unfold apply. rewrite (sum_ext s _ (fun m => sum s (fun j => T0transposed d J0 k m * T0transposed d Ji m j * y j))).
    2:{ intros m _. rewrite <- sum_mul_l. apply sum_ext. intros. ring. }
    rewrite sum_swap. rewrite (sum_ext s _ (fun j => identity k j * y j)); [apply sum_id_l, Hk|]. intros j Hj. rewrite sum_mul_r. f_equal.
    destruct (transformation_inverse d J0 Ji dim regular j k Hj Hk) as (_ & E). fold s in E. unfold mul in E. unfold identity in *. rewrite (Nat.eqb_sym k j), <- E.
    apply sum_ext. intros. unfold T0transposed. ring.
  Qed.

  Lemma form_h p Q st b : sum p (fun q => sum p (fun r => b q * asH s points Q st q r * b r)) =
    sumP points (fun gp => sum s (fun i => sum s (fun j => apply p (Q gp) b i * invertedMaterialStates st gp i j * apply p (Q gp) b j)) * vol gp).
  Proof.
    transitivity (sum p (fun q => sum p (fun r => sumP points (fun gp =>
      sum s (fun i => sum s (fun j => (Q gp i q * b q) * invertedMaterialStates st gp i j * (Q gp j r * b r))) * vol gp)))).
    { apply sum_ext. intros q _. apply sum_ext. intros r _. rewrite as_h_sum. rewrite <- (Rmult_comm (b r)), <- Rmult_assoc, (Rmult_comm _ (sumP _ _)), <- sumP_mul_r.
      apply sumP_ext. intros gp _.
      transitivity (sum s (fun i => sum s (fun j => Q gp i q * invertedMaterialStates st gp i j * Q gp j r)) * (b r * b q) * vol gp); [ring|].
      f_equal. rewrite <- sum_mul_r. apply sum_ext. intros i _. rewrite <- sum_mul_r. apply sum_ext. intros j _. ring. }
    transitivity (sum p (fun q => sumP points (fun gp => sum p (fun r =>
      sum s (fun i => sum s (fun j => (Q gp i q * b q) * invertedMaterialStates st gp i j * (Q gp j r * b r))) * vol gp)))).
    { apply sum_ext. intros q _. rewrite sumP_swap. reflexivity. }
    rewrite <- sumP_swap. apply sumP_ext. intros gp _.
    transitivity (sum p (fun q => sum p (fun r => sum s (fun i => sum s (fun j => (Q gp i q * b q) * invertedMaterialStates st gp i j * (Q gp j r * b r))))) * vol gp).
    { rewrite <- sum_mul_r. apply sum_ext. intros q _. rewrite sum_mul_r. reflexivity. }
    f_equal.
    transitivity (sum p (fun q => sum s (fun i => sum s (fun j => (Q gp i q * b q) * invertedMaterialStates st gp i j * apply p (Q gp) b j)))).
    { apply sum_ext. intros q _. rewrite sum_swap. apply sum_ext. intros i _. rewrite sum_swap. apply sum_ext. intros j _. rewrite sum_mul_l. reflexivity. }
    rewrite sum_swap. apply sum_ext. intros i _. rewrite sum_swap. apply sum_ext. intros j _. rewrite sum_mul_r. f_equal. rewrite sum_mul_r. reflexivity.
  Qed.

  (** C117: with a quadrature rule that is exact for quadratic functions, the matrix H that is inverted is positive definite, for all
      numbers of parameters, geometries that are not degenerate at the center, and positive definite inverted materials *)
  Theorem C117_positive_definite v st : d = dimensionS v -> exactOnCube d 2 points position weight ->
    (forall gp, In gp points -> 0 < weight gp /\ 0 < integrationElement gp) ->
    (forall gp, In gp points -> positive s (invertedMaterialStates st gp)) -> positive (sizeS v) (asH s points (P v) st).
  Proof.
    intros Hd Ex Hw HC b Hb. rewrite form_h.
    set (e gp := apply (sizeS v) (P v gp) b).
    assert (Nonneg : forall gp, In gp points -> 0 <= sum s (fun i => sum s (fun j => e gp i * invertedMaterialStates st gp i j * e gp j)) * vol gp).
    { intros gp Hgp. destruct (Hw gp Hgp) as (W & I). assert (V : 0 < vol gp) by (apply Rmult_lt_0_compat; assumption).
      apply Rmult_le_pos; [|lra]. destruct (vanishes (e gp) s) as [Z|Z].
      - rewrite sum_zero; [apply Rle_refl|]. intros i Hi. apply sum_zero. intros j Hj. rewrite (Z i Hi). ring.
      - apply Rlt_le, (HC gp Hgp (e gp) Z). }
    destruct (sumP_nonneg points _ Nonneg) as [L|L]; [exact L|exfalso]. destruct Hb as (q & Hq & Hbq). apply Hbq.
    assert (Zero := sumP_nonneg_zero points _ Nonneg (eq_sym L)). clear L Nonneg.
    apply (zero_modesS v d points b Hd Ex); [|assumption]. intros k Hk. apply sumP_zero. intros gp Hgp.
    destruct (Hw gp Hgp) as (W & I). assert (V : 0 < vol gp) by (apply Rmult_lt_0_compat; assumption).
    assert (Z : forall i, (i < s)%nat -> e gp i = 0).
    { destruct (vanishes (e gp) s) as [Z|Z]; [exact Z|]. exfalso. assert (Q := HC gp Hgp (e gp) Z). specialize (Zero gp Hgp). cbv beta in Zero.
      apply Rmult_integral in Zero. lra. }
    assert (Y : apply (sizeS v) (modesS v gp) b k = 0).
    { rewrite <- (undo (apply (sizeS v) (modesS v gp) b) k Hk). unfold apply at 1. apply sum_zero. intros m Hm. rewrite <- transformedS. fold (e gp).
      change (T0transposed d Ji k m * e gp m = 0). rewrite (Z m Hm). ring. }
    rewrite Y. ring.
  Qed.

  (** ** Constant stresses *)
  Definition constantModes (v : variantS) : list nat :=
    match v with W5 => [0; 1; 2] | W18 => [0; 4; 8; 12; 14; 16] | W24 => [0; 4; 8; 12; 16; 20] | W30 => [0; 4; 8; 12; 18; 24] end%nat.
  (** The stress parameters of the constant stress y in natural coordinates *)
  Definition constantParameters (v : variantS) (y : nat -> R) (q : nat) : R :=
    fold_right (fun k acc => if (q =? nth k (constantModes v) 0)%nat then y k else acc) 0 (seq 0 (length (constantModes v))).

  Lemma constant_modes v gp y k : d = dimensionS v -> (k < s)%nat -> apply (sizeS v) (modesS v gp) (constantParameters v y) k = y k.
  Proof.
    intros E Hk. unfold s in Hk. clear -E Hk. subst d. unfold apply, constantParameters. destruct v; cbn [dimensionS sizeS] in *.
    - change (voigtLength 2) with 3%nat in Hk. destruct k as [|[|[|k]]]; [..|lia];
      cbn [sum]; cbv [modesS S5modes entries nth constantModes length seq fold_right Nat.eqb]; ring.
    - change (voigtLength 3) with 6%nat in Hk. destruct k as [|[|[|[|[|[|k]]]]]]; [..|lia];
      cbn [sum]; cbv [modesS S18modes shifted app repeat Nat.sub entries nth constantModes length seq fold_right Nat.eqb]; ring.
    - change (voigtLength 3) with 6%nat in Hk. destruct k as [|[|[|[|[|[|k]]]]]]; [..|lia];
      cbn [sum]; cbv [modesS S24modes shifted app repeat Nat.sub entries nth constantModes length seq fold_right Nat.eqb]; ring.
    - change (voigtLength 3) with 6%nat in Hk. destruct k as [|[|[|[|[|[|k]]]]]]; [..|lia];
      cbn [sum]; cbv [modesS S30modes shifted app repeat Nat.sub entries nth constantModes length seq fold_right Nat.eqb]; ring.
  Qed.

  (** C118: every constant stress is among the assumed stresses *)
  Theorem C118_constant v sigma : d = dimensionS v ->
    exists b, forall gp m, (m < s)%nat -> stressValue s (sizeS v) (P v) gp b m = sigma m.
  Proof.
    intros E. exists (constantParameters v (apply s (T0transposed d Ji) sigma)). intros gp m Hm. unfold stressValue.
    destruct (Nat.ltb_spec m s); [|lia]. rewrite transformedS. rewrite <- (undo' sigma m Hm). unfold apply at 1. unfold apply at 2. apply sum_ext. intros k Hk. f_equal.
    apply constant_modes; assumption.
  Qed.

  (** C118: at displacements with the same gradient everywhere there are stress parameters at which their residual vanishes and the element
      has the forces of the displacement based element, for every material law that can be inverted *)
  Theorem C118_patch_test v n dN u Gr stress Es Dc inverse f : d = dimensionS v ->
    (forall gp k l, In gp points -> (k < d)%nat -> (l < d)%nat -> displacementGradientOf d n (dN gp) u k l = Gr k l) ->
    (forall e e', (forall m, (m < s)%nat -> e m = e' m) -> forall m, (m < s)%nat -> stress e m = stress e' m) ->
    (forall e e', (forall m, (m < s)%nat -> e m = e' m) -> forall m, (m < s)%nat -> Es e m = Es e' m) ->
    (forall e m, (m < s)%nat -> Es (stress e) m = e m) ->
    exists b, let st := stateAt s (sizeS v) (P v) Es Dc b in
    (forall q, asRtilde s points (glStrain d n dN) (P v) u st q = 0) /\
    (forall k, (k < d * n)%nat -> asVectorImpl d n s (sizeS v) points (glStrain d n dN) (glBop d n dN) (P v) inverse u st f k =
       nonlinearVector d n s points (glStrain d n dN) (glBop d n dN) stress false u f k).
  Proof.
    intros Hd Hom Hst HEs Inv. set (e := strainVector d (greenLagrangeOf d Gr)).
    destruct (C118_constant v (stress e) Hd) as (b & Hb). exists b. cbv zeta.
    assert (E : forall gp m, In gp points -> (m < s)%nat -> glStrain d n dN gp u m = e m).
    { intros gp m Hgp Hm. exact (gl_strain_same d n points dim dN u Gr Hom gp m Hgp Hm). }
    assert (Rest : forall q, asRtilde s points (glStrain d n dN) (P v) u (stateAt s (sizeS v) (P v) Es Dc b) q = 0).
    { intros q. rewrite as_rtilde_sum. apply sumP_zero. intros gp Hgp. rewrite sum_zero; [ring|]. intros m Hm. cbn [stateAt strainStates].
      rewrite (E gp m Hgp Hm), (HEs _ (stress e)) by (try assumption; intros; apply Hb; assumption). rewrite Inv by assumption. ring. }
    split; [exact Rest|]. intros k Hk. assert (dpos : (0 < d)%nat) by lia. unfold asVectorImpl, nonlinearVector.
    rewrite (sum_zero (sizeS v)), Rplus_0_r; [|intros q _; apply sum_zero; intros r _; rewrite Rest; ring].
    rewrite as_forces_sum, (vector_sum d n s points dpos) by assumption. unfold pointVector. f_equal. apply sumP_ext. intros gp Hgp. f_equal.
    apply sum_ext. intros m Hm. f_equal. cbn [stateAt beta]. rewrite Hb by assumption. symmetry. apply Hst; [|assumption]. intros. apply E; assumption.
  Qed.
End Modes.

(** C118: a linear element passes the patch test whatever its stress parameters are: in a constant state of strain e of the stress sigma it
    has the forces of sigma *)
Theorem C118_linear d n points J0 Ji v B C inverse eps bop (kg : point -> (nat -> R) -> (nat -> R) -> nat -> nat -> nat -> nat -> R) Es Dc u b e sigma k : d = dimensionS v -> isInverse d J0 Ji ->
  let s := voigtLength d in let N := (d * n)%nat in let P := asFunction d J0 v in let p := sizeS v in
  (forall gp u m, In gp points -> (m < s)%nat -> eps gp u m = sum N (fun k => B gp (k / d)%nat m (k mod d) * u k)) ->
  (forall gp u i m a, bop gp u i m a = B gp i m a) -> (forall gp u T i j a c, kg gp u T i j a c = 0) ->
  (forall T m, (m < s)%nat -> Es T m = sum s (fun l => C m l * T l)) -> (forall T, Dc T = C) -> symmetric s C ->
  isInverse p (asH s points P (stateAt s p P Es Dc b)) (inverse (asH s points P (stateAt s p P Es Dc b))) ->
  (forall gp m, In gp points -> (m < s)%nat -> eps gp u m = e m) -> (forall m, (m < s)%nat -> e m = sum s (fun l => C m l * sigma l)) ->
  (k < N)%nat ->
  asVectorImpl d n s p points eps bop P inverse u (stateAt s p P Es Dc b) zeroVector k =
  sumP points (fun gp => sum s (fun m => B gp (k / d)%nat m (k mod d) * sigma m) * vol gp).
Proof.
  intros Hd HJ s N P p Hs Ho Hk Hm Hmod HC HZ He Hsig Hkn.
  assert (dim : (d = 2 \/ d = 3)%nat) by (destruct v; cbn in Hd; lia). assert (dpos : (0 < d)%nat) by lia.
  destruct (C118_constant d J0 Ji dim HJ v sigma Hd) as (b' & Hb).
  assert (SameH : asH s points P (stateAt s p P Es Dc b) = asH s points P (stateAt s p P Es Dc b')).
  { exact (h_same s p points P Es Dc C Hmod b b'). }
  assert (HZ' : isInverse p (asH s points P (stateAt s p P Es Dc b')) (inverse (asH s points P (stateAt s p P Es Dc b')))) by (rewrite <- SameH; exact HZ).
  rewrite (C116_linear_vector d n s p points dpos eps bop kg P Es Dc inverse B C Hs Ho Hk Hm Hmod HC u b k HZ Hkn).
  transitivity (dot N (asMatrixImpl d n s p points bop kg P inverse u (stateAt s p P Es Dc b') zeroMatrix k) u).
  { apply sum_ext. intros l Hl. f_equal. unfold asMatrixImpl. cbv zeta. rewrite SameH.
    assert (G : forall k l, (k < N)%nat -> (l < N)%nat -> asGeometric d n s p points kg P u (stateAt s p P Es Dc b) zeroMatrix k l = asGeometric d n s p points kg P u (stateAt s p P Es Dc b') zeroMatrix k l).
    { intros k' l' Hk' Hl'. rewrite !as_geometric_sum by assumption. f_equal. apply sumP_ext. intros. rewrite !Hk. reflexivity. }
    destruct (l <? k)%nat; [destruct (l <=? k)%nat|destruct (k <=? l)%nat]; rewrite G by assumption; reflexivity. }
  etransitivity; [symmetry; exact (C116_linear_vector d n s p points dpos eps bop kg P Es Dc inverse B C Hs Ho Hk Hm Hmod HC u b' k HZ' Hkn)|].
  unfold asVectorImpl. rewrite (sum_zero p), Rplus_0_r.
  - rewrite as_forces_sum by assumption. unfold zeroVector. rewrite Rplus_0_l. apply sumP_ext. intros gp Hgp. f_equal. apply sum_ext. intros m Hm'.
    rewrite Ho. f_equal. apply Hb, Hm'.
  - intros q _. apply sum_zero. intros r _. rewrite as_rtilde_sum, sumP_zero; [ring|]. intros gp Hgp. rewrite sum_zero; [ring|]. intros m Hm'.
    cbn [stateAt strainStates]. rewrite He, Hsig, Hm by assumption.
    rewrite (sum_ext s (fun l => C m l * stressValue s p P gp b' l) (fun l => C m l * sigma l)); [ring|]. intros l Hl. rewrite Hb by exact Hl. reflexivity.
Qed.

(** The hypotheses of C117 and C118 are met: the rule of the elements, a sheared geometry *)
Example C117_example ie : (forall i, 0 < ie i) ->
  exactOnCube 2 2 (gauss2 ie) position weight /\ exactOnCube 3 2 (gauss3 ie) position weight /\
  (forall gp, In gp (gauss2 ie) \/ In gp (gauss3 ie) -> 0 < weight gp /\ 0 < integrationElement gp) /\
  isInverse 2 (entries [[2; 1]; [0; 1]]) (entries [[/ 2; - / 2]; [0; 1]]).
Proof.
  intros Hie. split; [|split; [|split]].
  - intros i j k Hi Hj Hk. apply gauss2_exact; lia.
  - intros i j k Hi Hj Hk. apply gauss3_exact; lia.
  - intros gp [Hgp|Hgp]; cbn [gauss2 gauss3 In] in Hgp; repeat (destruct Hgp as [<-|Hgp]; [split; [cbn; lra|apply Hie]|]); contradiction.
  - split; intros i j Hi Hj; (destruct i as [|[|i]]; [..|lia]); (destruct j as [|[|j]]; [..|lia]); unfold mul, identity; cbn; field.
Qed.
Print Assumptions C117_positive_definite.
Print Assumptions C118_constant.
Print Assumptions C118_patch_test.
Print Assumptions C118_linear.
