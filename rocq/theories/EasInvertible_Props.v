(** Property C111: the matrix of the internal variables of enhanced assumed strain elements that the condensation inverts. *)

From Coq Require Import Reals Arith Bool List Lia Lra.
From Coquelicot Require Import Coquelicot.
From Verif Require Import Tensor_Spec Conversions_Spec Conversions_Props Tensor_Model Element_Spec Element_Model Element_Proofs Element_Props.
From Verif Require Import Eas_Spec Eas_Model Eas_Proofs Eas_Props EasStrains_Props EasModes_Props.
Import ListNotations.
Local Open Scope R_scope.

(** ** The squares of the modes, integrated *)
Ltac vanish := apply Rsqr_0_uniq; unfold Rsqr; lra.

Lemma norm_V4_0 points a : exactOnCube 2 2 points position weight ->
  sumP points (fun gp => weight gp * (apply 4 (modesE V4 gp) a 0%nat * apply 4 (modesE V4 gp) a 0%nat)) =
  (1 / 3) * (a 0%nat * a 0%nat).
Proof.
  intros E. unfold apply. cbn [sum]. cbv [modesE E4modes entries nth].
  poly E [((1) * (a 0%nat * a 0%nat), (2, 0, 0)%nat)].
Qed.

Lemma norm_V4_1 points a : exactOnCube 2 2 points position weight ->
  sumP points (fun gp => weight gp * (apply 4 (modesE V4 gp) a 1%nat * apply 4 (modesE V4 gp) a 1%nat)) =
  (1 / 3) * (a 1%nat * a 1%nat).
Proof.
  intros E. unfold apply. cbn [sum]. cbv [modesE E4modes entries nth].
  poly E [((1) * (a 1%nat * a 1%nat), (0, 2, 0)%nat)].
Qed.

Lemma norm_V4_2 points a : exactOnCube 2 2 points position weight ->
  sumP points (fun gp => weight gp * (apply 4 (modesE V4 gp) a 2%nat * apply 4 (modesE V4 gp) a 2%nat)) =
  (1 / 3) * (a 2%nat * a 2%nat) + (1 / 3) * (a 3%nat * a 3%nat).
Proof.
  intros E. unfold apply. cbn [sum]. cbv [modesE E4modes entries nth].
  poly E [((1) * (a 2%nat * a 2%nat), (2, 0, 0)%nat); ((2) * (a 2%nat * a 3%nat), (1, 1, 0)%nat); ((1) * (a 3%nat * a 3%nat), (0, 2, 0)%nat)].
Qed.


Lemma norm_V5_0 points a : exactOnCube 2 2 points position weight ->
  sumP points (fun gp => weight gp * (apply 5 (modesE V5 gp) a 0%nat * apply 5 (modesE V5 gp) a 0%nat)) =
  (1 / 3) * (a 0%nat * a 0%nat).
Proof.
  intros E. unfold apply. cbn [sum]. cbv [modesE E5modes entries nth].
  poly E [((1) * (a 0%nat * a 0%nat), (2, 0, 0)%nat)].
Qed.

Lemma norm_V5_1 points a : exactOnCube 2 2 points position weight ->
  sumP points (fun gp => weight gp * (apply 5 (modesE V5 gp) a 1%nat * apply 5 (modesE V5 gp) a 1%nat)) =
  (1 / 3) * (a 1%nat * a 1%nat).
Proof.
  intros E. unfold apply. cbn [sum]. cbv [modesE E5modes entries nth].
  poly E [((1) * (a 1%nat * a 1%nat), (0, 2, 0)%nat)].
Qed.

Lemma norm_V5_2 points a : exactOnCube 2 2 points position weight ->
  sumP points (fun gp => weight gp * (apply 5 (modesE V5 gp) a 2%nat * apply 5 (modesE V5 gp) a 2%nat)) =
  (1 / 3) * (a 2%nat * a 2%nat) + (1 / 3) * (a 3%nat * a 3%nat) + (1 / 9) * (a 4%nat * a 4%nat).
Proof.
  intros E. unfold apply. cbn [sum]. cbv [modesE E5modes entries nth].
  poly E [((1) * (a 2%nat * a 2%nat), (2, 0, 0)%nat); ((2) * (a 2%nat * a 3%nat), (1, 1, 0)%nat); ((2) * (a 2%nat * a 4%nat), (2, 1, 0)%nat); ((1) * (a 3%nat * a 3%nat), (0, 2, 0)%nat); ((2) * (a 3%nat * a 4%nat), (1, 2, 0)%nat); ((1) * (a 4%nat * a 4%nat), (2, 2, 0)%nat)].
Qed.


Lemma norm_V7_0 points a : exactOnCube 2 2 points position weight ->
  sumP points (fun gp => weight gp * (apply 7 (modesE V7 gp) a 0%nat * apply 7 (modesE V7 gp) a 0%nat)) =
  (1 / 3) * (a 0%nat * a 0%nat) + (1 / 9) * (a 4%nat * a 4%nat).
Proof.
  intros E. unfold apply. cbn [sum]. cbv [modesE E7modes entries nth].
  poly E [((1) * (a 0%nat * a 0%nat), (2, 0, 0)%nat); ((2) * (a 0%nat * a 4%nat), (2, 1, 0)%nat); ((1) * (a 4%nat * a 4%nat), (2, 2, 0)%nat)].
Qed.

Lemma norm_V7_1 points a : exactOnCube 2 2 points position weight ->
  sumP points (fun gp => weight gp * (apply 7 (modesE V7 gp) a 1%nat * apply 7 (modesE V7 gp) a 1%nat)) =
  (1 / 3) * (a 1%nat * a 1%nat) + (1 / 9) * (a 5%nat * a 5%nat).
Proof.
  intros E. unfold apply. cbn [sum]. cbv [modesE E7modes entries nth].
  poly E [((1) * (a 1%nat * a 1%nat), (0, 2, 0)%nat); ((2) * (a 1%nat * a 5%nat), (1, 2, 0)%nat); ((1) * (a 5%nat * a 5%nat), (2, 2, 0)%nat)].
Qed.

Lemma norm_V7_2 points a : exactOnCube 2 2 points position weight ->
  sumP points (fun gp => weight gp * (apply 7 (modesE V7 gp) a 2%nat * apply 7 (modesE V7 gp) a 2%nat)) =
  (1 / 3) * (a 2%nat * a 2%nat) + (1 / 3) * (a 3%nat * a 3%nat) + (1 / 9) * (a 6%nat * a 6%nat).
Proof.
  intros E. unfold apply. cbn [sum]. cbv [modesE E7modes entries nth].
  poly E [((1) * (a 2%nat * a 2%nat), (2, 0, 0)%nat); ((2) * (a 2%nat * a 3%nat), (1, 1, 0)%nat); ((2) * (a 2%nat * a 6%nat), (2, 1, 0)%nat); ((1) * (a 3%nat * a 3%nat), (0, 2, 0)%nat); ((2) * (a 3%nat * a 6%nat), (1, 2, 0)%nat); ((1) * (a 6%nat * a 6%nat), (2, 2, 0)%nat)].
Qed.


Lemma norm_V11_0 points a : exactOnCube 2 4 points position weight ->
  sumP points (fun gp => weight gp * (apply 11 (modesE V11 gp) a 0%nat * apply 11 (modesE V11 gp) a 0%nat)) =
  (4 / 5) * ((a 0%nat + (1 / 3) * a 2%nat) * (a 0%nat + (1 / 3) * a 2%nat)) + (16 / 225) * (a 2%nat * a 2%nat) + (4 / 15) * (a 1%nat * a 1%nat).
Proof.
  intros E. unfold apply. cbn [sum]. cbv [modesE E11modes entries nth].
  poly E [((1) * (a 0%nat * a 0%nat), (0, 0, 0)%nat); ((-6) * (a 0%nat * a 0%nat), (2, 0, 0)%nat); ((9) * (a 0%nat * a 0%nat), (4, 0, 0)%nat); ((2) * (a 0%nat * a 1%nat), (0, 1, 0)%nat); ((-12) * (a 0%nat * a 1%nat), (2, 1, 0)%nat); ((18) * (a 0%nat * a 1%nat), (4, 1, 0)%nat); ((2) * (a 0%nat * a 2%nat) + (1) * (a 1%nat * a 1%nat), (0, 2, 0)%nat); ((-12) * (a 0%nat * a 2%nat) + (-6) * (a 1%nat * a 1%nat), (2, 2, 0)%nat); ((18) * (a 0%nat * a 2%nat) + (9) * (a 1%nat * a 1%nat), (4, 2, 0)%nat); ((2) * (a 1%nat * a 2%nat), (0, 3, 0)%nat); ((-12) * (a 1%nat * a 2%nat), (2, 3, 0)%nat); ((18) * (a 1%nat * a 2%nat), (4, 3, 0)%nat); ((1) * (a 2%nat * a 2%nat), (0, 4, 0)%nat); ((-6) * (a 2%nat * a 2%nat), (2, 4, 0)%nat); ((9) * (a 2%nat * a 2%nat), (4, 4, 0)%nat)].
Qed.

Lemma norm_V11_1 points a : exactOnCube 2 4 points position weight ->
  sumP points (fun gp => weight gp * (apply 11 (modesE V11 gp) a 1%nat * apply 11 (modesE V11 gp) a 1%nat)) =
  (4 / 5) * ((a 3%nat + (1 / 3) * a 5%nat) * (a 3%nat + (1 / 3) * a 5%nat)) + (16 / 225) * (a 5%nat * a 5%nat) + (4 / 15) * (a 4%nat * a 4%nat).
Proof.
  intros E. unfold apply. cbn [sum]. cbv [modesE E11modes entries nth].
  poly E [((1) * (a 3%nat * a 3%nat), (0, 0, 0)%nat); ((-6) * (a 3%nat * a 3%nat), (0, 2, 0)%nat); ((9) * (a 3%nat * a 3%nat), (0, 4, 0)%nat); ((2) * (a 3%nat * a 4%nat), (1, 0, 0)%nat); ((-12) * (a 3%nat * a 4%nat), (1, 2, 0)%nat); ((18) * (a 3%nat * a 4%nat), (1, 4, 0)%nat); ((2) * (a 3%nat * a 5%nat) + (1) * (a 4%nat * a 4%nat), (2, 0, 0)%nat); ((-12) * (a 3%nat * a 5%nat) + (-6) * (a 4%nat * a 4%nat), (2, 2, 0)%nat); ((18) * (a 3%nat * a 5%nat) + (9) * (a 4%nat * a 4%nat), (2, 4, 0)%nat); ((2) * (a 4%nat * a 5%nat), (3, 0, 0)%nat); ((-12) * (a 4%nat * a 5%nat), (3, 2, 0)%nat); ((18) * (a 4%nat * a 5%nat), (3, 4, 0)%nat); ((1) * (a 5%nat * a 5%nat), (4, 0, 0)%nat); ((-6) * (a 5%nat * a 5%nat), (4, 2, 0)%nat); ((9) * (a 5%nat * a 5%nat), (4, 4, 0)%nat)].
Qed.

Lemma norm_V11_2 points a : exactOnCube 2 4 points position weight ->
  sumP points (fun gp => weight gp * (apply 11 (modesE V11 gp) a 2%nat * apply 11 (modesE V11 gp) a 2%nat)) =
  (4 / 5) * (a 6%nat * a 6%nat) + (4 / 5) * (a 7%nat * a 7%nat) + (4 / 15) * (a 8%nat * a 8%nat) + (4 / 15) * (a 9%nat * a 9%nat) + (16 / 25) * (a 10%nat * a 10%nat).
Proof.
  intros E. unfold apply. cbn [sum]. cbv [modesE E11modes entries nth].
  poly E [((1) * (a 6%nat * a 6%nat) + (2) * (a 6%nat * a 7%nat) + (2) * (a 6%nat * a 10%nat) + (1) * (a 7%nat * a 7%nat) + (2) * (a 7%nat * a 10%nat) + (1) * (a 10%nat * a 10%nat), (0, 0, 0)%nat); ((-6) * (a 6%nat * a 6%nat) + (-6) * (a 6%nat * a 7%nat) + (-12) * (a 6%nat * a 10%nat) + (-6) * (a 7%nat * a 10%nat) + (1) * (a 9%nat * a 9%nat) + (-6) * (a 10%nat * a 10%nat), (2, 0, 0)%nat); ((9) * (a 6%nat * a 6%nat) + (18) * (a 6%nat * a 10%nat) + (9) * (a 10%nat * a 10%nat), (4, 0, 0)%nat); ((-6) * (a 6%nat * a 7%nat) + (-6) * (a 6%nat * a 10%nat) + (-6) * (a 7%nat * a 7%nat) + (-12) * (a 7%nat * a 10%nat) + (1) * (a 8%nat * a 8%nat) + (-6) * (a 10%nat * a 10%nat), (0, 2, 0)%nat); ((18) * (a 6%nat * a 7%nat) + (36) * (a 6%nat * a 10%nat) + (36) * (a 7%nat * a 10%nat) + (-6) * (a 8%nat * a 8%nat) + (-6) * (a 9%nat * a 9%nat) + (36) * (a 10%nat * a 10%nat), (2, 2, 0)%nat); ((2) * (a 6%nat * a 8%nat) + (2) * (a 7%nat * a 8%nat) + (2) * (a 8%nat * a 10%nat), (0, 1, 0)%nat); ((-12) * (a 6%nat * a 8%nat) + (-6) * (a 7%nat * a 8%nat) + (-12) * (a 8%nat * a 10%nat), (2, 1, 0)%nat); ((18) * (a 6%nat * a 8%nat) + (18) * (a 8%nat * a 10%nat), (4, 1, 0)%nat); ((2) * (a 6%nat * a 9%nat) + (2) * (a 7%nat * a 9%nat) + (2) * (a 9%nat * a 10%nat), (1, 0, 0)%nat); ((-6) * (a 6%nat * a 9%nat) + (-12) * (a 7%nat * a 9%nat) + (-12) * (a 9%nat * a 10%nat), (1, 2, 0)%nat); ((-6) * (a 6%nat * a 9%nat) + (-6) * (a 9%nat * a 10%nat), (3, 0, 0)%nat); ((18) * (a 6%nat * a 9%nat) + (36) * (a 9%nat * a 10%nat), (3, 2, 0)%nat); ((-54) * (a 6%nat * a 10%nat) + (9) * (a 8%nat * a 8%nat) + (-54) * (a 10%nat * a 10%nat), (4, 2, 0)%nat); ((9) * (a 7%nat * a 7%nat) + (18) * (a 7%nat * a 10%nat) + (9) * (a 10%nat * a 10%nat), (0, 4, 0)%nat); ((-6) * (a 7%nat * a 8%nat) + (-6) * (a 8%nat * a 10%nat), (0, 3, 0)%nat); ((18) * (a 7%nat * a 8%nat) + (36) * (a 8%nat * a 10%nat), (2, 3, 0)%nat); ((18) * (a 7%nat * a 9%nat) + (18) * (a 9%nat * a 10%nat), (1, 4, 0)%nat); ((-54) * (a 7%nat * a 10%nat) + (9) * (a 9%nat * a 9%nat) + (-54) * (a 10%nat * a 10%nat), (2, 4, 0)%nat); ((2) * (a 8%nat * a 9%nat), (1, 1, 0)%nat); ((-6) * (a 8%nat * a 9%nat), (1, 3, 0)%nat); ((-6) * (a 8%nat * a 9%nat), (3, 1, 0)%nat); ((18) * (a 8%nat * a 9%nat), (3, 3, 0)%nat); ((-54) * (a 8%nat * a 10%nat), (4, 3, 0)%nat); ((-54) * (a 9%nat * a 10%nat), (3, 4, 0)%nat); ((81) * (a 10%nat * a 10%nat), (4, 4, 0)%nat)].
Qed.


Lemma norm_V9_0 points a : exactOnCube 3 2 points position weight ->
  sumP points (fun gp => weight gp * (apply 9 (modesE V9 gp) a 0%nat * apply 9 (modesE V9 gp) a 0%nat)) =
  (1 / 3) * (a 0%nat * a 0%nat).
Proof.
  intros E. unfold apply. cbn [sum]. cbv [modesE E9modes entries nth].
  poly E [((1) * (a 0%nat * a 0%nat), (2, 0, 0)%nat)].
Qed.

Lemma norm_V9_1 points a : exactOnCube 3 2 points position weight ->
  sumP points (fun gp => weight gp * (apply 9 (modesE V9 gp) a 1%nat * apply 9 (modesE V9 gp) a 1%nat)) =
  (1 / 3) * (a 1%nat * a 1%nat).
Proof.
  intros E. unfold apply. cbn [sum]. cbv [modesE E9modes entries nth].
  poly E [((1) * (a 1%nat * a 1%nat), (0, 2, 0)%nat)].
Qed.

Lemma norm_V9_2 points a : exactOnCube 3 2 points position weight ->
  sumP points (fun gp => weight gp * (apply 9 (modesE V9 gp) a 2%nat * apply 9 (modesE V9 gp) a 2%nat)) =
  (1 / 3) * (a 2%nat * a 2%nat).
Proof.
  intros E. unfold apply. cbn [sum]. cbv [modesE E9modes entries nth].
  poly E [((1) * (a 2%nat * a 2%nat), (0, 0, 2)%nat)].
Qed.

Lemma norm_V9_3 points a : exactOnCube 3 2 points position weight ->
  sumP points (fun gp => weight gp * (apply 9 (modesE V9 gp) a 3%nat * apply 9 (modesE V9 gp) a 3%nat)) =
  (1 / 3) * (a 3%nat * a 3%nat) + (1 / 3) * (a 4%nat * a 4%nat).
Proof.
  intros E. unfold apply. cbn [sum]. cbv [modesE E9modes entries nth].
  poly E [((1) * (a 3%nat * a 3%nat), (0, 2, 0)%nat); ((2) * (a 3%nat * a 4%nat), (0, 1, 1)%nat); ((1) * (a 4%nat * a 4%nat), (0, 0, 2)%nat)].
Qed.

Lemma norm_V9_4 points a : exactOnCube 3 2 points position weight ->
  sumP points (fun gp => weight gp * (apply 9 (modesE V9 gp) a 4%nat * apply 9 (modesE V9 gp) a 4%nat)) =
  (1 / 3) * (a 5%nat * a 5%nat) + (1 / 3) * (a 6%nat * a 6%nat).
Proof.
  intros E. unfold apply. cbn [sum]. cbv [modesE E9modes entries nth].
  poly E [((1) * (a 5%nat * a 5%nat), (2, 0, 0)%nat); ((2) * (a 5%nat * a 6%nat), (1, 0, 1)%nat); ((1) * (a 6%nat * a 6%nat), (0, 0, 2)%nat)].
Qed.

Lemma norm_V9_5 points a : exactOnCube 3 2 points position weight ->
  sumP points (fun gp => weight gp * (apply 9 (modesE V9 gp) a 5%nat * apply 9 (modesE V9 gp) a 5%nat)) =
  (1 / 3) * (a 7%nat * a 7%nat) + (1 / 3) * (a 8%nat * a 8%nat).
Proof.
  intros E. unfold apply. cbn [sum]. cbv [modesE E9modes entries nth].
  poly E [((1) * (a 7%nat * a 7%nat), (2, 0, 0)%nat); ((2) * (a 7%nat * a 8%nat), (1, 1, 0)%nat); ((1) * (a 8%nat * a 8%nat), (0, 2, 0)%nat)].
Qed.


Lemma norm_V21_0 points a : exactOnCube 3 2 points position weight ->
  sumP points (fun gp => weight gp * (apply 21 (modesE V21 gp) a 0%nat * apply 21 (modesE V21 gp) a 0%nat)) =
  (1 / 3) * (a 0%nat * a 0%nat) + (1 / 9) * (a 15%nat * a 15%nat) + (1 / 9) * (a 16%nat * a 16%nat).
Proof.
  intros E. unfold apply. cbn [sum]. cbv [modesE E21modes entries nth].
  poly E [((1) * (a 0%nat * a 0%nat), (2, 0, 0)%nat); ((2) * (a 0%nat * a 15%nat), (2, 1, 0)%nat); ((2) * (a 0%nat * a 16%nat), (2, 0, 1)%nat); ((1) * (a 15%nat * a 15%nat), (2, 2, 0)%nat); ((2) * (a 15%nat * a 16%nat), (2, 1, 1)%nat); ((1) * (a 16%nat * a 16%nat), (2, 0, 2)%nat)].
Qed.

Lemma norm_V21_1 points a : exactOnCube 3 2 points position weight ->
  sumP points (fun gp => weight gp * (apply 21 (modesE V21 gp) a 1%nat * apply 21 (modesE V21 gp) a 1%nat)) =
  (1 / 3) * (a 1%nat * a 1%nat) + (1 / 9) * (a 17%nat * a 17%nat) + (1 / 9) * (a 18%nat * a 18%nat).
Proof.
  intros E. unfold apply. cbn [sum]. cbv [modesE E21modes entries nth].
  poly E [((1) * (a 1%nat * a 1%nat), (0, 2, 0)%nat); ((2) * (a 1%nat * a 17%nat), (1, 2, 0)%nat); ((2) * (a 1%nat * a 18%nat), (0, 2, 1)%nat); ((1) * (a 17%nat * a 17%nat), (2, 2, 0)%nat); ((2) * (a 17%nat * a 18%nat), (1, 2, 1)%nat); ((1) * (a 18%nat * a 18%nat), (0, 2, 2)%nat)].
Qed.

Lemma norm_V21_2 points a : exactOnCube 3 2 points position weight ->
  sumP points (fun gp => weight gp * (apply 21 (modesE V21 gp) a 2%nat * apply 21 (modesE V21 gp) a 2%nat)) =
  (1 / 3) * (a 2%nat * a 2%nat) + (1 / 9) * (a 19%nat * a 19%nat) + (1 / 9) * (a 20%nat * a 20%nat).
Proof.
  intros E. unfold apply. cbn [sum]. cbv [modesE E21modes entries nth].
  poly E [((1) * (a 2%nat * a 2%nat), (0, 0, 2)%nat); ((2) * (a 2%nat * a 19%nat), (1, 0, 2)%nat); ((2) * (a 2%nat * a 20%nat), (0, 1, 2)%nat); ((1) * (a 19%nat * a 19%nat), (2, 0, 2)%nat); ((2) * (a 19%nat * a 20%nat), (1, 1, 2)%nat); ((1) * (a 20%nat * a 20%nat), (0, 2, 2)%nat)].
Qed.

Lemma norm_V21_3 points a : exactOnCube 3 2 points position weight ->
  sumP points (fun gp => weight gp * (apply 21 (modesE V21 gp) a 3%nat * apply 21 (modesE V21 gp) a 3%nat)) =
  (1 / 3) * (a 3%nat * a 3%nat) + (1 / 3) * (a 4%nat * a 4%nat) + (1 / 9) * (a 9%nat * a 9%nat) + (1 / 9) * (a 10%nat * a 10%nat).
Proof.
  intros E. unfold apply. cbn [sum]. cbv [modesE E21modes entries nth].
  poly E [((1) * (a 3%nat * a 3%nat), (0, 2, 0)%nat); ((2) * (a 3%nat * a 4%nat), (0, 1, 1)%nat); ((2) * (a 3%nat * a 9%nat), (1, 2, 0)%nat); ((2) * (a 3%nat * a 10%nat) + (2) * (a 4%nat * a 9%nat), (1, 1, 1)%nat); ((1) * (a 4%nat * a 4%nat), (0, 0, 2)%nat); ((2) * (a 4%nat * a 10%nat), (1, 0, 2)%nat); ((1) * (a 9%nat * a 9%nat), (2, 2, 0)%nat); ((2) * (a 9%nat * a 10%nat), (2, 1, 1)%nat); ((1) * (a 10%nat * a 10%nat), (2, 0, 2)%nat)].
Qed.

Lemma norm_V21_4 points a : exactOnCube 3 2 points position weight ->
  sumP points (fun gp => weight gp * (apply 21 (modesE V21 gp) a 4%nat * apply 21 (modesE V21 gp) a 4%nat)) =
  (1 / 3) * (a 5%nat * a 5%nat) + (1 / 3) * (a 6%nat * a 6%nat) + (1 / 9) * (a 11%nat * a 11%nat) + (1 / 9) * (a 12%nat * a 12%nat).
Proof.
  intros E. unfold apply. cbn [sum]. cbv [modesE E21modes entries nth].
  poly E [((1) * (a 5%nat * a 5%nat), (2, 0, 0)%nat); ((2) * (a 5%nat * a 6%nat), (1, 0, 1)%nat); ((2) * (a 5%nat * a 11%nat), (2, 1, 0)%nat); ((2) * (a 5%nat * a 12%nat) + (2) * (a 6%nat * a 11%nat), (1, 1, 1)%nat); ((1) * (a 6%nat * a 6%nat), (0, 0, 2)%nat); ((2) * (a 6%nat * a 12%nat), (0, 1, 2)%nat); ((1) * (a 11%nat * a 11%nat), (2, 2, 0)%nat); ((2) * (a 11%nat * a 12%nat), (1, 2, 1)%nat); ((1) * (a 12%nat * a 12%nat), (0, 2, 2)%nat)].
Qed.

Lemma norm_V21_5 points a : exactOnCube 3 2 points position weight ->
  sumP points (fun gp => weight gp * (apply 21 (modesE V21 gp) a 5%nat * apply 21 (modesE V21 gp) a 5%nat)) =
  (1 / 3) * (a 7%nat * a 7%nat) + (1 / 3) * (a 8%nat * a 8%nat) + (1 / 9) * (a 13%nat * a 13%nat) + (1 / 9) * (a 14%nat * a 14%nat).
Proof.
  intros E. unfold apply. cbn [sum]. cbv [modesE E21modes entries nth].
  poly E [((1) * (a 7%nat * a 7%nat), (2, 0, 0)%nat); ((2) * (a 7%nat * a 8%nat), (1, 1, 0)%nat); ((2) * (a 7%nat * a 13%nat), (2, 0, 1)%nat); ((2) * (a 7%nat * a 14%nat) + (2) * (a 8%nat * a 13%nat), (1, 1, 1)%nat); ((1) * (a 8%nat * a 8%nat), (0, 2, 0)%nat); ((2) * (a 8%nat * a 14%nat), (0, 2, 1)%nat); ((1) * (a 13%nat * a 13%nat), (2, 0, 2)%nat); ((2) * (a 13%nat * a 14%nat), (1, 1, 2)%nat); ((1) * (a 14%nat * a 14%nat), (0, 2, 2)%nat)].
Qed.


Lemma zero_V4 points a : exactOnCube 2 2 points position weight ->
  (forall k, (k < 3)%nat -> sumP points (fun gp => weight gp * (apply 4 (modesE V4 gp) a k * apply 4 (modesE V4 gp) a k)) = 0) ->
  forall q, (q < 4)%nat -> a q = 0.
Proof.
  intros E H.
  assert (H0 := H 0%nat ltac:(lia)). rewrite norm_V4_0 in H0 by assumption.
  assert (H1 := H 1%nat ltac:(lia)). rewrite norm_V4_1 in H1 by assumption.
  assert (H2 := H 2%nat ltac:(lia)). rewrite norm_V4_2 in H2 by assumption.
  clear H.
  assert (S0 := Rle_0_sqr (a 0%nat)). unfold Rsqr in S0.
  assert (S1 := Rle_0_sqr (a 1%nat)). unfold Rsqr in S1.
  assert (S2 := Rle_0_sqr (a 2%nat)). unfold Rsqr in S2. assert (S3 := Rle_0_sqr (a 3%nat)). unfold Rsqr in S3.
  intros q Hq. do 4 (destruct q as [|q]; [vanish|]). lia.
Qed.

Lemma zero_V5 points a : exactOnCube 2 2 points position weight ->
  (forall k, (k < 3)%nat -> sumP points (fun gp => weight gp * (apply 5 (modesE V5 gp) a k * apply 5 (modesE V5 gp) a k)) = 0) ->
  forall q, (q < 5)%nat -> a q = 0.
Proof.
  intros E H.
  assert (H0 := H 0%nat ltac:(lia)). rewrite norm_V5_0 in H0 by assumption.
  assert (H1 := H 1%nat ltac:(lia)). rewrite norm_V5_1 in H1 by assumption.
  assert (H2 := H 2%nat ltac:(lia)). rewrite norm_V5_2 in H2 by assumption.
  clear H.
  assert (S0 := Rle_0_sqr (a 0%nat)). unfold Rsqr in S0.
  assert (S1 := Rle_0_sqr (a 1%nat)). unfold Rsqr in S1.
  assert (S2 := Rle_0_sqr (a 2%nat)). unfold Rsqr in S2. assert (S3 := Rle_0_sqr (a 3%nat)). unfold Rsqr in S3. assert (S4 := Rle_0_sqr (a 4%nat)). unfold Rsqr in S4.
  intros q Hq. do 5 (destruct q as [|q]; [vanish|]). lia.
Qed.

Lemma zero_V7 points a : exactOnCube 2 2 points position weight ->
  (forall k, (k < 3)%nat -> sumP points (fun gp => weight gp * (apply 7 (modesE V7 gp) a k * apply 7 (modesE V7 gp) a k)) = 0) ->
  forall q, (q < 7)%nat -> a q = 0.
Proof.
  intros E H.
  assert (H0 := H 0%nat ltac:(lia)). rewrite norm_V7_0 in H0 by assumption.
  assert (H1 := H 1%nat ltac:(lia)). rewrite norm_V7_1 in H1 by assumption.
  assert (H2 := H 2%nat ltac:(lia)). rewrite norm_V7_2 in H2 by assumption.
  clear H.
  assert (S0 := Rle_0_sqr (a 0%nat)). unfold Rsqr in S0. assert (S4 := Rle_0_sqr (a 4%nat)). unfold Rsqr in S4.
  assert (S1 := Rle_0_sqr (a 1%nat)). unfold Rsqr in S1. assert (S5 := Rle_0_sqr (a 5%nat)). unfold Rsqr in S5.
  assert (S2 := Rle_0_sqr (a 2%nat)). unfold Rsqr in S2. assert (S3 := Rle_0_sqr (a 3%nat)). unfold Rsqr in S3. assert (S6 := Rle_0_sqr (a 6%nat)). unfold Rsqr in S6.
  intros q Hq. do 7 (destruct q as [|q]; [vanish|]). lia.
Qed.

Lemma zero_V11 points a : exactOnCube 2 4 points position weight ->
  (forall k, (k < 3)%nat -> sumP points (fun gp => weight gp * (apply 11 (modesE V11 gp) a k * apply 11 (modesE V11 gp) a k)) = 0) ->
  forall q, (q < 11)%nat -> a q = 0.
Proof.
  intros E H.
  assert (H0 := H 0%nat ltac:(lia)). rewrite norm_V11_0 in H0 by assumption.
  assert (H1 := H 1%nat ltac:(lia)). rewrite norm_V11_1 in H1 by assumption.
  assert (H2 := H 2%nat ltac:(lia)). rewrite norm_V11_2 in H2 by assumption.
  clear H.
  assert (S0 := Rle_0_sqr (a 0%nat)). unfold Rsqr in S0. assert (S1 := Rle_0_sqr (a 1%nat)). unfold Rsqr in S1. assert (S2 := Rle_0_sqr (a 2%nat)). unfold Rsqr in S2.
  assert (S3 := Rle_0_sqr (a 3%nat)). unfold Rsqr in S3. assert (S4 := Rle_0_sqr (a 4%nat)). unfold Rsqr in S4. assert (S5 := Rle_0_sqr (a 5%nat)). unfold Rsqr in S5.
  assert (S6 := Rle_0_sqr (a 6%nat)). unfold Rsqr in S6. assert (S7 := Rle_0_sqr (a 7%nat)). unfold Rsqr in S7. assert (S8 := Rle_0_sqr (a 8%nat)). unfold Rsqr in S8. assert (S9 := Rle_0_sqr (a 9%nat)). unfold Rsqr in S9. assert (S10 := Rle_0_sqr (a 10%nat)). unfold Rsqr in S10.
  assert (T0 := Rle_0_sqr (a 0%nat + (1 / 3) * a 2%nat)). assert (T3 := Rle_0_sqr (a 3%nat + (1 / 3) * a 5%nat)). unfold Rsqr in T0, T3.
  assert (A2 : a 2%nat = 0) by vanish. assert (A5 : a 5%nat = 0) by vanish. rewrite A2, A5 in *.
  intros q Hq. do 11 (destruct q as [|q]; [first [assumption|vanish]|]). lia.
Qed.

Lemma zero_V9 points a : exactOnCube 3 2 points position weight ->
  (forall k, (k < 6)%nat -> sumP points (fun gp => weight gp * (apply 9 (modesE V9 gp) a k * apply 9 (modesE V9 gp) a k)) = 0) ->
  forall q, (q < 9)%nat -> a q = 0.
Proof.
  intros E H.
  assert (H0 := H 0%nat ltac:(lia)). rewrite norm_V9_0 in H0 by assumption.
  assert (H1 := H 1%nat ltac:(lia)). rewrite norm_V9_1 in H1 by assumption.
  assert (H2 := H 2%nat ltac:(lia)). rewrite norm_V9_2 in H2 by assumption.
  assert (H3 := H 3%nat ltac:(lia)). rewrite norm_V9_3 in H3 by assumption.
  assert (H4 := H 4%nat ltac:(lia)). rewrite norm_V9_4 in H4 by assumption.
  assert (H5 := H 5%nat ltac:(lia)). rewrite norm_V9_5 in H5 by assumption.
  clear H.
  assert (S0 := Rle_0_sqr (a 0%nat)). unfold Rsqr in S0.
  assert (S1 := Rle_0_sqr (a 1%nat)). unfold Rsqr in S1.
  assert (S2 := Rle_0_sqr (a 2%nat)). unfold Rsqr in S2.
  assert (S3 := Rle_0_sqr (a 3%nat)). unfold Rsqr in S3. assert (S4 := Rle_0_sqr (a 4%nat)). unfold Rsqr in S4.
  assert (S5 := Rle_0_sqr (a 5%nat)). unfold Rsqr in S5. assert (S6 := Rle_0_sqr (a 6%nat)). unfold Rsqr in S6.
  assert (S7 := Rle_0_sqr (a 7%nat)). unfold Rsqr in S7. assert (S8 := Rle_0_sqr (a 8%nat)). unfold Rsqr in S8.
  intros q Hq. do 9 (destruct q as [|q]; [vanish|]). lia.
Qed.

Lemma zero_V21 points a : exactOnCube 3 2 points position weight ->
  (forall k, (k < 6)%nat -> sumP points (fun gp => weight gp * (apply 21 (modesE V21 gp) a k * apply 21 (modesE V21 gp) a k)) = 0) ->
  forall q, (q < 21)%nat -> a q = 0.
Proof.
  intros E H.
  assert (H0 := H 0%nat ltac:(lia)). rewrite norm_V21_0 in H0 by assumption.
  assert (H1 := H 1%nat ltac:(lia)). rewrite norm_V21_1 in H1 by assumption.
  assert (H2 := H 2%nat ltac:(lia)). rewrite norm_V21_2 in H2 by assumption.
  assert (H3 := H 3%nat ltac:(lia)). rewrite norm_V21_3 in H3 by assumption.
  assert (H4 := H 4%nat ltac:(lia)). rewrite norm_V21_4 in H4 by assumption.
  assert (H5 := H 5%nat ltac:(lia)). rewrite norm_V21_5 in H5 by assumption.
  clear H.
  assert (S0 := Rle_0_sqr (a 0%nat)). unfold Rsqr in S0. assert (S15 := Rle_0_sqr (a 15%nat)). unfold Rsqr in S15. assert (S16 := Rle_0_sqr (a 16%nat)). unfold Rsqr in S16.
  assert (S1 := Rle_0_sqr (a 1%nat)). unfold Rsqr in S1. assert (S17 := Rle_0_sqr (a 17%nat)). unfold Rsqr in S17. assert (S18 := Rle_0_sqr (a 18%nat)). unfold Rsqr in S18.
  assert (S2 := Rle_0_sqr (a 2%nat)). unfold Rsqr in S2. assert (S19 := Rle_0_sqr (a 19%nat)). unfold Rsqr in S19. assert (S20 := Rle_0_sqr (a 20%nat)). unfold Rsqr in S20.
  assert (S3 := Rle_0_sqr (a 3%nat)). unfold Rsqr in S3. assert (S4 := Rle_0_sqr (a 4%nat)). unfold Rsqr in S4. assert (S9 := Rle_0_sqr (a 9%nat)). unfold Rsqr in S9. assert (S10 := Rle_0_sqr (a 10%nat)). unfold Rsqr in S10.
  assert (S5 := Rle_0_sqr (a 5%nat)). unfold Rsqr in S5. assert (S6 := Rle_0_sqr (a 6%nat)). unfold Rsqr in S6. assert (S11 := Rle_0_sqr (a 11%nat)). unfold Rsqr in S11. assert (S12 := Rle_0_sqr (a 12%nat)). unfold Rsqr in S12.
  assert (S7 := Rle_0_sqr (a 7%nat)). unfold Rsqr in S7. assert (S8 := Rle_0_sqr (a 8%nat)). unfold Rsqr in S8. assert (S13 := Rle_0_sqr (a 13%nat)). unfold Rsqr in S13. assert (S14 := Rle_0_sqr (a 14%nat)). unfold Rsqr in S14.
  intros q Hq. do 21 (destruct q as [|q]; [vanish|]). lia.
Qed.

Lemma zero_modes v d points a : d = dimensionOf v -> exactOnCube d (2 * modeDegree v) points position weight ->
  (forall k, (k < voigtLength d)%nat ->
    sumP points (fun gp => weight gp * (apply (sizeE v) (modesE v gp) a k * apply (sizeE v) (modesE v gp) a k)) = 0) ->
  forall q, (q < sizeE v)%nat -> a q = 0.
Proof.
  intros -> E H. destruct v; cbn [sizeE dimensionOf modeDegree Nat.mul Nat.add] in *; [lia|..].
  - exact (zero_V4 points a E H).
  - exact (zero_V5 points a E H).
  - exact (zero_V7 points a E H).
  - exact (zero_V11 points a E H).
  - exact (zero_V9 points a E H).
  - exact (zero_V21 points a E H).
Qed.

Lemma sumP_nonneg {A} (l : list A) f : (forall x, In x l -> 0 <= f x) -> 0 <= sumP l f.
Proof. induction l as [|x l IH]; intros H; [apply Rle_refl|]. cbn. specialize (IH (fun y Hy => H y (or_intror Hy))). specialize (H x (or_introl eq_refl)). lra. Qed.
Lemma sumP_nonneg_zero {A} (l : list A) f : (forall x, In x l -> 0 <= f x) -> sumP l f = 0 -> forall x, In x l -> f x = 0.
Proof.
  induction l as [|y l IH]; intros H S x [].
  - subst y. cbn in S. assert (G := sumP_nonneg l f (fun y Hy => H y (or_intror Hy))). specialize (H x (or_introl eq_refl)). lra.
  - cbn in S. assert (G := sumP_nonneg l f (fun y Hy => H y (or_intror Hy))). assert (0 <= f y) by (apply H; left; reflexivity).
    apply IH; [intros; apply H; right; assumption|lra|assumption].
Qed.
Lemma sumP_zero {A} (l : list A) f : (forall x, In x l -> f x = 0) -> sumP l f = 0.
Proof. induction l as [|x l IH]; intros H; [reflexivity|]. cbn. rewrite IH by auto with datatypes. rewrite H by auto with datatypes. ring. Qed.

Lemma vanishes (e : nat -> R) s : (forall i, (i < s)%nat -> e i = 0) \/ exists i, (i < s)%nat /\ e i <> 0.
Proof.
  induction s as [|s [IH|(i & Hi & N)]]; [left; intros; lia| |right; exists i; split; [lia|exact N]].
  destruct (Req_dec (e s) 0) as [Z|N]; [left|right; exists s; split; [lia|exact N]].
  intros i Hi. destruct (Nat.eq_dec i s) as [->|]; [exact Z|apply IH; lia].
Qed.
Section Invertible.
  Variables (d : nat) (points : list point).
  Variables (stress : (nat -> R) -> nat -> R) (tangent : (nat -> R) -> nat -> nat -> R).
  Variable E : point -> (nat -> R) -> (nat -> R) -> nat -> R.
  Variables (inverse : (nat -> nat -> R) -> nat -> nat -> R) (J0 : nat -> nat -> R) (detJ0 : R).
  Let s := voigtLength d.
  Let M v := easFunctionE inverse d J0 detJ0 v.
  Let T k l := transformationMatrix d J0 k l * detJ0.
  Let D v := easD s points stress tangent E (additive_a (M v)) zero_aa.

  Lemma transformed v gp b m : apply (sizeE v) (M v gp) b m = / integrationElement gp * apply s (inverse T) (apply (sizeE v) (modesE v gp) b) m.
  Proof.
    unfold apply, M, easFunctionE, T0InverseTransformed. fold T. fold s. rewrite <- sum_mul_l.
    transitivity (sum (sizeE v) (fun q => sum s (fun k => / integrationElement gp * (inverse T m k * (modesE v gp k q * b q))))).
    - apply sum_ext. intros q _. rewrite <- sum_mul_r. apply sum_ext. intros. unfold Rdiv. ring.
    - rewrite sum_swap. apply sum_ext. intros k _. rewrite <- sum_mul_l, <- sum_mul_l. reflexivity.
  Qed.

  Lemma form v u a b : sum (sizeE v) (fun q => sum (sizeE v) (fun r => b q * D v u a q r * b r)) =
    sumP points (fun gp => sum s (fun i => sum s (fun j =>
      apply (sizeE v) (M v gp) b i * tangent (E gp u a) i j * apply (sizeE v) (M v gp) b j)) * vol gp).
  Proof.
    transitivity (sum (sizeE v) (fun q => sum (sizeE v) (fun r => sumP points (fun gp =>
      sum s (fun i => sum s (fun j => (M v gp i q * b q) * tangent (E gp u a) i j * (M v gp j r * b r))) * vol gp)))).
    { apply sum_ext. intros q _. apply sum_ext. intros r _. unfold D. rewrite d_sum. rewrite <- (Rmult_comm (b r)), <- Rmult_assoc, (Rmult_comm _ (sumP _ _)), <- sumP_mul_r.
      apply sumP_ext. intros gp _. unfold zero_aa, additive_a. rewrite Rplus_0_r.
      transitivity (sum s (fun i => sum s (fun j => M v gp i q * tangent (E gp u a) i j * M v gp j r)) * (b r * b q) * vol gp); [ring|].
      f_equal. rewrite <- sum_mul_r. apply sum_ext. intros i _. rewrite <- sum_mul_r. apply sum_ext. intros j _. ring. }
    transitivity (sum (sizeE v) (fun q => sumP points (fun gp => sum (sizeE v) (fun r =>
      sum s (fun i => sum s (fun j => (M v gp i q * b q) * tangent (E gp u a) i j * (M v gp j r * b r))) * vol gp)))).
    { apply sum_ext. intros q _. rewrite sumP_swap. reflexivity. }
    rewrite <- sumP_swap. apply sumP_ext. intros gp _.
    transitivity (sum (sizeE v) (fun q => sum (sizeE v) (fun r => sum s (fun i => sum s (fun j => (M v gp i q * b q) * tangent (E gp u a) i j * (M v gp j r * b r))))) * vol gp).
    { rewrite <- sum_mul_r. apply sum_ext. intros q _. rewrite sum_mul_r. reflexivity. }
    f_equal.
    transitivity (sum (sizeE v) (fun q => sum s (fun i => sum s (fun j => (M v gp i q * b q) * tangent (E gp u a) i j * apply (sizeE v) (M v gp) b j)))).
    { apply sum_ext. intros q _. rewrite sum_swap. apply sum_ext. intros i _. rewrite sum_swap. apply sum_ext. intros j _. rewrite sum_mul_l. reflexivity. }
    rewrite sum_swap. apply sum_ext. intros i _. rewrite sum_swap. apply sum_ext. intros j _. rewrite sum_mul_r. f_equal. rewrite sum_mul_r. reflexivity.
  Qed.

  (** C111: with the quadrature rule exact for the squares of the modes, D is positive definite, for any number of parameters, geometry,
      strain and positive definite material tangent *)
  Theorem C111_positive_definite v u a : d = dimensionOf v -> exactOnCube d (2 * modeDegree v) points position weight ->
    (forall gp, In gp points -> 0 < weight gp /\ 0 < integrationElement gp) -> isInverse s T (inverse T) ->
    (forall gp, In gp points -> positive s (tangent (E gp u a))) -> positive (sizeE v) (D v u a).
  Proof.
    intros Hd Ex Hw HT HC b Hb. rewrite form.
    set (e gp := apply (sizeE v) (M v gp) b).
    assert (Nonneg : forall gp, In gp points -> 0 <= sum s (fun i => sum s (fun j => e gp i * tangent (E gp u a) i j * e gp j)) * vol gp).
    { intros gp Hgp. destruct (Hw gp Hgp) as (W & I). assert (V : 0 < vol gp) by (apply Rmult_lt_0_compat; assumption).
      apply Rmult_le_pos; [|lra]. destruct (vanishes (e gp) s) as [Z|Z].
      - rewrite sum_zero; [apply Rle_refl|]. intros i Hi. apply sum_zero. intros j Hj. rewrite (Z i Hi). ring.
      - apply Rlt_le, (HC gp Hgp (e gp) Z). }
    destruct (sumP_nonneg points _ Nonneg) as [L|L]; [exact L|exfalso]. destruct Hb as (q & Hq & Hbq). apply Hbq.
    assert (Zero := sumP_nonneg_zero points _ Nonneg (eq_sym L)). clear L Nonneg.
    apply (zero_modes v d points b Hd Ex); [|assumption]. intros k Hk. apply sumP_zero. intros gp Hgp.
    destruct (Hw gp Hgp) as (W & I). assert (V : 0 < vol gp) by (apply Rmult_lt_0_compat; assumption).
    assert (Z : forall i, (i < s)%nat -> e gp i = 0).
    { destruct (vanishes (e gp) s) as [Z|Z]; [exact Z|]. exfalso. assert (P := HC gp Hgp (e gp) Z). specialize (Zero gp Hgp). cbv beta in Zero.
      apply Rmult_integral in Zero. lra. }
    assert (R : apply (sizeE v) (modesE v gp) b k = 0).
    { transitivity (sum s (fun m => T k m * (integrationElement gp * e gp m))).
      - rewrite (sum_ext s _ (fun m => sum s (fun j => T k m * inverse T m j * apply (sizeE v) (modesE v gp) b j))).
        + rewrite sum_swap. rewrite (sum_ext s _ (fun j => identity k j * apply (sizeE v) (modesE v gp) b j)).
          * symmetry. apply sum_id_l. exact Hk.
          * intros j Hj. rewrite <- (proj1 HT k j Hk Hj). unfold mul. rewrite <- sum_mul_r. reflexivity.
        + intros m _. unfold e. rewrite transformed.
          transitivity (T k m * apply s (inverse T) (apply (sizeE v) (modesE v gp) b) m); [field; lra|].
          unfold apply at 1. rewrite <- sum_mul_l. apply sum_ext. intros. ring.
      - apply sum_zero. intros m Hm. rewrite (Z m Hm). ring. }
    rewrite R. ring.
  Qed.
End Invertible.
Print Assumptions C111_positive_definite.

(** ** The Gauss rules with two points per direction, of any geometry *)
Definition gaussPosition : R := / sqrt 3.
Definition gaussPoint (ie : nat -> R) (w x y z : R) (i : nat) : point :=
  {| position := fun k => match k with O => (1 + x) / 2 | S O => (1 + y) / 2 | _ => (1 + z) / 2 end; integrationElement := ie i; weight := w |}.
Definition gauss2 (ie : nat -> R) : list point :=
  let g := gaussPosition in
  [gaussPoint ie (/ 4) (- g) (- g) 0 0; gaussPoint ie (/ 4) g (- g) 0 1; gaussPoint ie (/ 4) (- g) g 0 2; gaussPoint ie (/ 4) g g 0 3].
Definition gauss3 (ie : nat -> R) : list point :=
  let g := gaussPosition in
  [gaussPoint ie (/ 8) (- g) (- g) (- g) 0; gaussPoint ie (/ 8) g (- g) (- g) 1; gaussPoint ie (/ 8) (- g) g (- g) 2; gaussPoint ie (/ 8) g g (- g) 3;
   gaussPoint ie (/ 8) (- g) (- g) g 4; gaussPoint ie (/ 8) g (- g) g 5; gaussPoint ie (/ 8) (- g) g g 6; gaussPoint ie (/ 8) g g g 7].

Lemma gauss_square : gaussPosition * gaussPosition = / 3.
Proof. unfold gaussPosition. rewrite <- Rinv_mult, sqrt_sqrt by lra. reflexivity. Qed.
Lemma gauss_moment i : (i <= 3)%nat -> (gaussPosition ^ i + (- gaussPosition) ^ i) / 2 = mean i.
Proof.
  intros Hi. assert (S := gauss_square). destruct i as [|[|[|[|i]]]]; [..|lia]; unfold mean; cbn [pow Nat.even Nat.add INR]; try field.
  rewrite !Rmult_1_r. rewrite S. replace (- gaussPosition * - gaussPosition) with (/ 3) by (rewrite <- S; ring). field.
Qed.
Lemma half x : 2 * ((1 + x) / 2) - 1 = x. Proof. field. Qed.
Lemma gauss2_exact ie : exactOnCube 2 3 (gauss2 ie) position weight.
Proof.
  intros i j k Hi Hj Hk H0. rewrite (H0 (le_n _)). rewrite <- (gauss_moment i), <- (gauss_moment j) by assumption.
  unfold quadrature, gauss2, gaussPoint, mean. cbn [map fold_right position weight pow Nat.even Nat.add INR]. rewrite !half. field.
Qed.
Lemma gauss3_exact ie : exactOnCube 3 3 (gauss3 ie) position weight.
Proof.
  intros i j k Hi Hj Hk _. rewrite <- (gauss_moment i), <- (gauss_moment j), <- (gauss_moment k) by assumption.
  unfold quadrature, gauss3, gaussPoint. cbn [map fold_right position weight]. rewrite !half. field.
Qed.

(** C111: the rule that elements with linear shape functions use suffices for all numbers of parameters but 11 *)
Corollary C111_gauss_partial d v stress tangent E inverse J0 detJ0 ie u a : v <> V11 -> d = dimensionOf v ->
  (forall i, 0 < ie i) ->
  isInverse (voigtLength d) (fun k l => transformationMatrix d J0 k l * detJ0) (inverse (fun k l => transformationMatrix d J0 k l * detJ0)) ->
  (forall gp, positive (voigtLength d) (tangent (E gp u a))) ->
  positive (sizeE v)
    (easD (voigtLength d) (if (d =? 2)%nat then gauss2 ie else gauss3 ie) stress tangent E (additive_a (easFunctionE inverse d J0 detJ0 v)) zero_aa u a).
Proof.
  intros Hv Hd Hie HT HC. apply C111_positive_definite; [assumption| | |assumption|intros; apply HC].
  - assert (Le : (2 * modeDegree v <= 3)%nat) by (destruct v; cbn; try lia; congruence).
    intros i j k Hi Hj Hk H0. subst d. destruct v; cbn [dimensionOf Nat.eqb] in *; first [apply gauss2_exact; lia|apply gauss3_exact; lia].
  - intros gp Hgp. subst d. destruct v; cbn [dimensionOf Nat.eqb gauss2 gauss3 In] in Hgp;
    repeat (destruct Hgp as [<-|Hgp]; [split; [cbn; lra|apply Hie]|]); contradiction.
Qed.
Print Assumptions C111_gauss_partial.

(** The accepted numbers of parameters are those with modes for the dimension of the element, and the internal vector has that many entries *)
Theorem C111_accepted : forall d p, (d = 2 \/ d = 3)%nat ->
  (forall v, makeE d p = Some v -> sizeE v = p /\ (v = V0 \/ dimensionOf v = d)) /\
  (forall k, makeH d p = Some k -> k = p) /\
  (makeE d p <> None <-> In p (if (d =? 2)%nat then [0; 4; 5; 7; 11] else [0; 9; 21])%nat) /\
  (makeH d p <> None <-> In p (if (d =? 2)%nat then [0; 4] else [0; 9])%nat).
Proof.
  intros d p Hd. unfold makeE, makeH.
  repeat match goal with |- context [(p =? ?k)%nat] => destruct (Nat.eqb_spec p k) as [->|] end;
  destruct Hd as [-> | ->]; cbn [Nat.eqb];
  (split; [intros v E; try discriminate; injection E as <-; cbn; auto|split; [intros k E; try discriminate; injection E as <-; reflexivity|]]);
  cbn [In]; split; split; intros; try congruence; try discriminate; intuition lia.
Qed.

(** C111 is false for 11 parameters on elements with linear shape functions: the modes vanish at the integration points, so that D is zero
    whatever the geometry, the material and the state, and has no inverse *)
Theorem C111_eleven_refuted : exists points : (nat -> R) -> list point, (forall ie, exactOnCube 2 3 (points ie) position weight) /\
  makeE 2 11 = Some V11 /\
  forall ie stress tangent E inverse J0 detJ0 u a,
  let D := easD 3 (points ie) stress tangent E (additive_a (easFunctionE inverse 2 J0 detJ0 V11)) zero_aa u a in
  (forall q r, (q < 11)%nat -> D q r = 0) /\ ~ exists Z, isInverse 11 D Z.
Proof.
  exists gauss2. split; [exact gauss2_exact|split; [reflexivity|]]. intros ie stress tangent E inverse J0 detJ0 u a D.
  assert (Zero : forall q r, (q < 11)%nat -> D q r = 0).
  { intros q r Hq. unfold D. rewrite d_sum. apply sumP_zero. intros gp Hgp. unfold zero_aa, additive_a.
    assert (Z : forall k, easFunctionE inverse 2 J0 detJ0 V11 gp k q = 0).
    { intros k. unfold easFunctionE. apply sum_zero. intros l Hl. change (voigtLength 2) with 3%nat in Hl.
      assert (X : (2 * position gp 0%nat - 1) * (2 * position gp 0%nat - 1) = / 3 /\ (2 * position gp 1%nat - 1) * (2 * position gp 1%nat - 1) = / 3).
      { assert (S := gauss_square). cbn [gauss2 In] in Hgp.
        repeat (destruct Hgp as [<-|Hgp]; [cbn [gaussPoint position]; rewrite !half; split; lra|]); contradiction. }
      destruct X as (X & Y).
      assert (Mz : modesE V11 gp l q = 0).
      { unfold modesE, E11modes. cbv zeta. rewrite X, Y.
        destruct l as [|[|[|l]]]; [..|lia]; (destruct q as [|[|[|[|[|[|[|[|[|[|[|q]]]]]]]]]]]; [..|lia]); cbn [entries nth]; try reflexivity; try field. }
      rewrite Mz. ring. }
    rewrite sum_zero; [ring|]. intros k _. apply sum_zero. intros l _. rewrite Z. ring. }
  split; [exact Zero|]. intros (Z & I & _). specialize (I 0%nat 0%nat ltac:(lia) ltac:(lia)). unfold mul in I.
  rewrite sum_zero in I; [unfold identity in I; cbn in I; lra|]. intros k Hk. 
  rewrite (Zero 0%nat k) by lia. ring.
Qed.
Print Assumptions C111_eleven_refuted.

(** The hypotheses of C111 are met: a parallelogram and a linear elastic material *)
Example C111_example : exists (inverse : (nat -> nat -> R) -> nat -> nat -> R) J0 detJ0 C,
  isInverse 3 (fun k l => transformationMatrix 2 J0 k l * detJ0) (inverse (fun k l => transformationMatrix 2 J0 k l * detJ0)) /\
  positive 3 C.
Proof.
  exists (fun _ => entries [[/ 2; 0; 0]; [0; / 2; 0]; [0; 0; / 2]]), identity, 2, (entries [[2; 1; 0]; [1; 2; 0]; [0; 0; / 2]]).
  split.
  - split; intros i j Hi Hj; (destruct i as [|[|[|i]]]; [..|lia]); (destruct j as [|[|[|j]]]; [..|lia]);
    unfold mul, transformationMatrix, transformationMatrix2, identity; cbn [Nat.eqb sum entries nth]; field.
  - intros x (i & Hi & N). cbn [sum entries nth].
    assert (S0 := Rle_0_sqr (x 0%nat)). assert (S1 := Rle_0_sqr (x 1%nat)). assert (S2 := Rle_0_sqr (x 2%nat)). assert (S3 := Rle_0_sqr (x 0%nat + x 1%nat)).
    assert (S : 0 < Rsqr (x i)) by (apply Rsqr_pos_lt; assumption). unfold Rsqr in *.
    destruct i as [|[|[|i]]]; [..|lia]; lra.
Qed.
