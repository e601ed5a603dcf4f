(** Lemmas: the modes of enhanced strains and assumed stresses under the symmetries of the square and the cube. *)

From Coq Require Import Reals Arith Bool List Lia Lra Permutation.
From Coquelicot Require Import Coquelicot.
From Verif Require Import Tensor_Spec Tensor_Model Tensor_Props Conversions_Spec Conversions_Model Conversions_Props Element_Spec Element_Model Element_Proofs Element_Props.
From Verif Require Import Eas_Spec Eas_Model Eas_Proofs Eas_Props EasStrains_Props EasModes_Props.
From Verif Require Import AssumedStress_Model AssumedStress_Proofs AssumedStressModes_Props CornerNumbering_Spec CornerNumbering_Proofs.
Import ListNotations.
Local Open Scope R_scope.

Lemma mode_V4_swap0 : strainModes 2 4 (modesE V4) exchange0.
Proof.
  apply (strain_table 2 4 (modesE V4) exchange0 [(1, true); (0, true); (3, true); (2, true)]%nat); [reflexivity|]. intros gp gp' Hs m q Hm Hq.
  assert (X := spot2 _ _ _ Hs). cbv [exchange0 Nat.eqb] in X.
  assert (X0 : position gp' 0%nat = position gp 1%nat) by lra.
  assert (X1 : position gp' 1%nat = position gp 0%nat) by lra.
  clear X Hs. change (voigtLength 2) with 3%nat in *. cbv [modesE modesS]. rewrite X0, X1. clear X0 X1.
  generalize (position gp 0%nat) (position gp 1%nat). clear gp gp'. intros.
  cases m; cases q; cbv [column nth signOf fst snd sum transformationMatrix transformationMatrix2 transformationMatrix3 exchange0 Nat.eqb entries E4modes shifted repeat app length Nat.sub]; ring.
Qed.

Lemma mode_V4_flip0 : strainModes 2 4 (modesE V4) (reflect 0).
Proof.
  apply (strain_table 2 4 (modesE V4) (reflect 0) [(0, false); (1, true); (2, true); (3, false)]%nat); [reflexivity|]. intros gp gp' Hs m q Hm Hq.
  assert (X := spot2 _ _ _ Hs). cbv [reflect Nat.eqb] in X.
  assert (X0 : position gp' 0%nat = 1 - position gp 0%nat) by lra.
  assert (X1 : position gp' 1%nat = position gp 1%nat) by lra.
  clear X Hs. change (voigtLength 2) with 3%nat in *. cbv [modesE modesS]. rewrite X0, X1. clear X0 X1.
  generalize (position gp 0%nat) (position gp 1%nat). clear gp gp'. intros.
  cases m; cases q; cbv [column nth signOf fst snd sum transformationMatrix transformationMatrix2 transformationMatrix3 reflect Nat.eqb entries E4modes shifted repeat app length Nat.sub]; ring.
Qed.

Lemma mode_V4_flip1 : strainModes 2 4 (modesE V4) (reflect 1).
Proof.
  apply (strain_table 2 4 (modesE V4) (reflect 1) [(0, true); (1, false); (2, false); (3, true)]%nat); [reflexivity|]. intros gp gp' Hs m q Hm Hq.
  assert (X := spot2 _ _ _ Hs). cbv [reflect Nat.eqb] in X.
  assert (X0 : position gp' 0%nat = position gp 0%nat) by lra.
  assert (X1 : position gp' 1%nat = 1 - position gp 1%nat) by lra.
  clear X Hs. change (voigtLength 2) with 3%nat in *. cbv [modesE modesS]. rewrite X0, X1. clear X0 X1.
  generalize (position gp 0%nat) (position gp 1%nat). clear gp gp'. intros.
  cases m; cases q; cbv [column nth signOf fst snd sum transformationMatrix transformationMatrix2 transformationMatrix3 reflect Nat.eqb entries E4modes shifted repeat app length Nat.sub]; ring.
Qed.

Lemma mode_V5_swap0 : strainModes 2 5 (modesE V5) exchange0.
Proof.
  apply (strain_table 2 5 (modesE V5) exchange0 [(1, true); (0, true); (3, true); (2, true); (4, true)]%nat); [reflexivity|]. intros gp gp' Hs m q Hm Hq.
  assert (X := spot2 _ _ _ Hs). cbv [exchange0 Nat.eqb] in X.
  assert (X0 : position gp' 0%nat = position gp 1%nat) by lra.
  assert (X1 : position gp' 1%nat = position gp 0%nat) by lra.
  clear X Hs. change (voigtLength 2) with 3%nat in *. cbv [modesE modesS]. rewrite X0, X1. clear X0 X1.
  generalize (position gp 0%nat) (position gp 1%nat). clear gp gp'. intros.
  cases m; cases q; cbv [column nth signOf fst snd sum transformationMatrix transformationMatrix2 transformationMatrix3 exchange0 Nat.eqb entries E5modes shifted repeat app length Nat.sub]; ring.
Qed.

Lemma mode_V5_flip0 : strainModes 2 5 (modesE V5) (reflect 0).
Proof.
  apply (strain_table 2 5 (modesE V5) (reflect 0) [(0, false); (1, true); (2, true); (3, false); (4, true)]%nat); [reflexivity|]. intros gp gp' Hs m q Hm Hq.
  assert (X := spot2 _ _ _ Hs). cbv [reflect Nat.eqb] in X.
  assert (X0 : position gp' 0%nat = 1 - position gp 0%nat) by lra.
  assert (X1 : position gp' 1%nat = position gp 1%nat) by lra.
  clear X Hs. change (voigtLength 2) with 3%nat in *. cbv [modesE modesS]. rewrite X0, X1. clear X0 X1.
  generalize (position gp 0%nat) (position gp 1%nat). clear gp gp'. intros.
  cases m; cases q; cbv [column nth signOf fst snd sum transformationMatrix transformationMatrix2 transformationMatrix3 reflect Nat.eqb entries E5modes shifted repeat app length Nat.sub]; ring.
Qed.

Lemma mode_V5_flip1 : strainModes 2 5 (modesE V5) (reflect 1).
Proof.
  apply (strain_table 2 5 (modesE V5) (reflect 1) [(0, true); (1, false); (2, false); (3, true); (4, true)]%nat); [reflexivity|]. intros gp gp' Hs m q Hm Hq.
  assert (X := spot2 _ _ _ Hs). cbv [reflect Nat.eqb] in X.
  assert (X0 : position gp' 0%nat = position gp 0%nat) by lra.
  assert (X1 : position gp' 1%nat = 1 - position gp 1%nat) by lra.
  clear X Hs. change (voigtLength 2) with 3%nat in *. cbv [modesE modesS]. rewrite X0, X1. clear X0 X1.
  generalize (position gp 0%nat) (position gp 1%nat). clear gp gp'. intros.
  cases m; cases q; cbv [column nth signOf fst snd sum transformationMatrix transformationMatrix2 transformationMatrix3 reflect Nat.eqb entries E5modes shifted repeat app length Nat.sub]; ring.
Qed.

Lemma mode_V7_swap0 : strainModes 2 7 (modesE V7) exchange0.
Proof.
  apply (strain_table 2 7 (modesE V7) exchange0 [(1, true); (0, true); (3, true); (2, true); (5, true); (4, true); (6, true)]%nat); [reflexivity|]. intros gp gp' Hs m q Hm Hq.
  assert (X := spot2 _ _ _ Hs). cbv [exchange0 Nat.eqb] in X.
  assert (X0 : position gp' 0%nat = position gp 1%nat) by lra.
  assert (X1 : position gp' 1%nat = position gp 0%nat) by lra.
  clear X Hs. change (voigtLength 2) with 3%nat in *. cbv [modesE modesS]. rewrite X0, X1. clear X0 X1.
  generalize (position gp 0%nat) (position gp 1%nat). clear gp gp'. intros.
  cases m; cases q; cbv [column nth signOf fst snd sum transformationMatrix transformationMatrix2 transformationMatrix3 exchange0 Nat.eqb entries E7modes shifted repeat app length Nat.sub]; ring.
Qed.

Lemma mode_V7_flip0 : strainModes 2 7 (modesE V7) (reflect 0).
Proof.
  apply (strain_table 2 7 (modesE V7) (reflect 0) [(0, false); (1, true); (2, true); (3, false); (4, false); (5, false); (6, true)]%nat); [reflexivity|]. intros gp gp' Hs m q Hm Hq.
  assert (X := spot2 _ _ _ Hs). cbv [reflect Nat.eqb] in X.
  assert (X0 : position gp' 0%nat = 1 - position gp 0%nat) by lra.
  assert (X1 : position gp' 1%nat = position gp 1%nat) by lra.
  clear X Hs. change (voigtLength 2) with 3%nat in *. cbv [modesE modesS]. rewrite X0, X1. clear X0 X1.
  generalize (position gp 0%nat) (position gp 1%nat). clear gp gp'. intros.
  cases m; cases q; cbv [column nth signOf fst snd sum transformationMatrix transformationMatrix2 transformationMatrix3 reflect Nat.eqb entries E7modes shifted repeat app length Nat.sub]; ring.
Qed.

Lemma mode_V7_flip1 : strainModes 2 7 (modesE V7) (reflect 1).
Proof.
  apply (strain_table 2 7 (modesE V7) (reflect 1) [(0, true); (1, false); (2, false); (3, true); (4, false); (5, false); (6, true)]%nat); [reflexivity|]. intros gp gp' Hs m q Hm Hq.
  assert (X := spot2 _ _ _ Hs). cbv [reflect Nat.eqb] in X.
  assert (X0 : position gp' 0%nat = position gp 0%nat) by lra.
  assert (X1 : position gp' 1%nat = 1 - position gp 1%nat) by lra.
  clear X Hs. change (voigtLength 2) with 3%nat in *. cbv [modesE modesS]. rewrite X0, X1. clear X0 X1.
  generalize (position gp 0%nat) (position gp 1%nat). clear gp gp'. intros.
  cases m; cases q; cbv [column nth signOf fst snd sum transformationMatrix transformationMatrix2 transformationMatrix3 reflect Nat.eqb entries E7modes shifted repeat app length Nat.sub]; ring.
Qed.

Lemma mode_V11_swap0 : strainModes 2 11 (modesE V11) exchange0.
Proof.
  apply (strain_table 2 11 (modesE V11) exchange0 [(3, true); (4, true); (5, true); (0, true); (1, true); (2, true); (7, true); (6, true); (9, true); (8, true); (10, true)]%nat); [reflexivity|]. intros gp gp' Hs m q Hm Hq.
  assert (X := spot2 _ _ _ Hs). cbv [exchange0 Nat.eqb] in X.
  assert (X0 : position gp' 0%nat = position gp 1%nat) by lra.
  assert (X1 : position gp' 1%nat = position gp 0%nat) by lra.
  clear X Hs. change (voigtLength 2) with 3%nat in *. cbv [modesE modesS]. rewrite X0, X1. clear X0 X1.
  generalize (position gp 0%nat) (position gp 1%nat). clear gp gp'. intros.
  cases m; cases q; cbv [column nth signOf fst snd sum transformationMatrix transformationMatrix2 transformationMatrix3 exchange0 Nat.eqb entries E11modes shifted repeat app length Nat.sub]; ring.
Qed.

Lemma mode_V11_flip0 : strainModes 2 11 (modesE V11) (reflect 0).
Proof.
  apply (strain_table 2 11 (modesE V11) (reflect 0) [(0, true); (1, true); (2, true); (3, true); (4, false); (5, true); (6, false); (7, false); (8, false); (9, true); (10, false)]%nat); [reflexivity|]. intros gp gp' Hs m q Hm Hq.
  assert (X := spot2 _ _ _ Hs). cbv [reflect Nat.eqb] in X.
  assert (X0 : position gp' 0%nat = 1 - position gp 0%nat) by lra.
  assert (X1 : position gp' 1%nat = position gp 1%nat) by lra.
  clear X Hs. change (voigtLength 2) with 3%nat in *. cbv [modesE modesS]. rewrite X0, X1. clear X0 X1.
  generalize (position gp 0%nat) (position gp 1%nat). clear gp gp'. intros.
  cases m; cases q; cbv [column nth signOf fst snd sum transformationMatrix transformationMatrix2 transformationMatrix3 reflect Nat.eqb entries E11modes shifted repeat app length Nat.sub]; ring.
Qed.

Lemma mode_V11_flip1 : strainModes 2 11 (modesE V11) (reflect 1).
Proof.
  apply (strain_table 2 11 (modesE V11) (reflect 1) [(0, true); (1, false); (2, true); (3, true); (4, true); (5, true); (6, false); (7, false); (8, true); (9, false); (10, false)]%nat); [reflexivity|]. intros gp gp' Hs m q Hm Hq.
  assert (X := spot2 _ _ _ Hs). cbv [reflect Nat.eqb] in X.
  assert (X0 : position gp' 0%nat = position gp 0%nat) by lra.
  assert (X1 : position gp' 1%nat = 1 - position gp 1%nat) by lra.
  clear X Hs. change (voigtLength 2) with 3%nat in *. cbv [modesE modesS]. rewrite X0, X1. clear X0 X1.
  generalize (position gp 0%nat) (position gp 1%nat). clear gp gp'. intros.
  cases m; cases q; cbv [column nth signOf fst snd sum transformationMatrix transformationMatrix2 transformationMatrix3 reflect Nat.eqb entries E11modes shifted repeat app length Nat.sub]; ring.
Qed.

Lemma mode_V9_swap0 : strainModes 3 9 (modesE V9) exchange0.
Proof.
  apply (strain_table 3 9 (modesE V9) exchange0 [(1, true); (0, true); (2, true); (5, true); (6, true); (3, true); (4, true); (8, true); (7, true)]%nat); [reflexivity|]. intros gp gp' Hs m q Hm Hq.
  assert (X := spot3 _ _ _ Hs). cbv [exchange0 Nat.eqb] in X.
  assert (X0 : position gp' 0%nat = position gp 1%nat) by lra.
  assert (X1 : position gp' 1%nat = position gp 0%nat) by lra.
  assert (X2 : position gp' 2%nat = position gp 2%nat) by lra.
  clear X Hs. change (voigtLength 3) with 6%nat in *. cbv [modesE modesS]. rewrite X0, X1, X2. clear X0 X1 X2.
  generalize (position gp 0%nat) (position gp 1%nat) (position gp 2%nat). clear gp gp'. intros.
  cases m; cases q; cbv [column nth signOf fst snd sum transformationMatrix transformationMatrix2 transformationMatrix3 exchange0 Nat.eqb entries E9modes shifted repeat app length Nat.sub]; ring.
Qed.

Lemma mode_V9_swap1 : strainModes 3 9 (modesE V9) exchange1.
Proof.
  apply (strain_table 3 9 (modesE V9) exchange1 [(0, true); (2, true); (1, true); (4, true); (3, true); (7, true); (8, true); (5, true); (6, true)]%nat); [reflexivity|]. intros gp gp' Hs m q Hm Hq.
  assert (X := spot3 _ _ _ Hs). cbv [exchange1 Nat.eqb] in X.
  assert (X0 : position gp' 0%nat = position gp 0%nat) by lra.
  assert (X1 : position gp' 1%nat = position gp 2%nat) by lra.
  assert (X2 : position gp' 2%nat = position gp 1%nat) by lra.
  clear X Hs. change (voigtLength 3) with 6%nat in *. cbv [modesE modesS]. rewrite X0, X1, X2. clear X0 X1 X2.
  generalize (position gp 0%nat) (position gp 1%nat) (position gp 2%nat). clear gp gp'. intros.
  cases m; cases q; cbv [column nth signOf fst snd sum transformationMatrix transformationMatrix2 transformationMatrix3 exchange1 Nat.eqb entries E9modes shifted repeat app length Nat.sub]; ring.
Qed.

Lemma mode_V9_flip0 : strainModes 3 9 (modesE V9) (reflect 0).
Proof.
  apply (strain_table 3 9 (modesE V9) (reflect 0) [(0, false); (1, true); (2, true); (3, true); (4, true); (5, true); (6, false); (7, true); (8, false)]%nat); [reflexivity|]. intros gp gp' Hs m q Hm Hq.
  assert (X := spot3 _ _ _ Hs). cbv [reflect Nat.eqb] in X.
  assert (X0 : position gp' 0%nat = 1 - position gp 0%nat) by lra.
  assert (X1 : position gp' 1%nat = position gp 1%nat) by lra.
  assert (X2 : position gp' 2%nat = position gp 2%nat) by lra.
  clear X Hs. change (voigtLength 3) with 6%nat in *. cbv [modesE modesS]. rewrite X0, X1, X2. clear X0 X1 X2.
  generalize (position gp 0%nat) (position gp 1%nat) (position gp 2%nat). clear gp gp'. intros.
  cases m; cases q; cbv [column nth signOf fst snd sum transformationMatrix transformationMatrix2 transformationMatrix3 reflect Nat.eqb entries E9modes shifted repeat app length Nat.sub]; ring.
Qed.

Lemma mode_V9_flip1 : strainModes 3 9 (modesE V9) (reflect 1).
Proof.
  apply (strain_table 3 9 (modesE V9) (reflect 1) [(0, true); (1, false); (2, true); (3, true); (4, false); (5, true); (6, true); (7, false); (8, true)]%nat); [reflexivity|]. intros gp gp' Hs m q Hm Hq.
  assert (X := spot3 _ _ _ Hs). cbv [reflect Nat.eqb] in X.
  assert (X0 : position gp' 0%nat = position gp 0%nat) by lra.
  assert (X1 : position gp' 1%nat = 1 - position gp 1%nat) by lra.
  assert (X2 : position gp' 2%nat = position gp 2%nat) by lra.
  clear X Hs. change (voigtLength 3) with 6%nat in *. cbv [modesE modesS]. rewrite X0, X1, X2. clear X0 X1 X2.
  generalize (position gp 0%nat) (position gp 1%nat) (position gp 2%nat). clear gp gp'. intros.
  cases m; cases q; cbv [column nth signOf fst snd sum transformationMatrix transformationMatrix2 transformationMatrix3 reflect Nat.eqb entries E9modes shifted repeat app length Nat.sub]; ring.
Qed.

Lemma mode_V9_flip2 : strainModes 3 9 (modesE V9) (reflect 2).
Proof.
  apply (strain_table 3 9 (modesE V9) (reflect 2) [(0, true); (1, true); (2, false); (3, false); (4, true); (5, false); (6, true); (7, true); (8, true)]%nat); [reflexivity|]. intros gp gp' Hs m q Hm Hq.
  assert (X := spot3 _ _ _ Hs). cbv [reflect Nat.eqb] in X.
  assert (X0 : position gp' 0%nat = position gp 0%nat) by lra.
  assert (X1 : position gp' 1%nat = position gp 1%nat) by lra.
  assert (X2 : position gp' 2%nat = 1 - position gp 2%nat) by lra.
  clear X Hs. change (voigtLength 3) with 6%nat in *. cbv [modesE modesS]. rewrite X0, X1, X2. clear X0 X1 X2.
  generalize (position gp 0%nat) (position gp 1%nat) (position gp 2%nat). clear gp gp'. intros.
  cases m; cases q; cbv [column nth signOf fst snd sum transformationMatrix transformationMatrix2 transformationMatrix3 reflect Nat.eqb entries E9modes shifted repeat app length Nat.sub]; ring.
Qed.

Lemma mode_V21_swap0 : strainModes 3 21 (modesE V21) exchange0.
Proof.
  apply (strain_table 3 21 (modesE V21) exchange0 [(1, true); (0, true); (2, true); (5, true); (6, true); (3, true); (4, true); (8, true); (7, true); (11, true); (12, true); (9, true); (10, true); (14, true); (13, true); (17, true); (18, true); (15, true); (16, true); (20, true); (19, true)]%nat); [reflexivity|]. intros gp gp' Hs m q Hm Hq.
  assert (X := spot3 _ _ _ Hs). cbv [exchange0 Nat.eqb] in X.
  assert (X0 : position gp' 0%nat = position gp 1%nat) by lra.
  assert (X1 : position gp' 1%nat = position gp 0%nat) by lra.
  assert (X2 : position gp' 2%nat = position gp 2%nat) by lra.
  clear X Hs. change (voigtLength 3) with 6%nat in *. cbv [modesE modesS]. rewrite X0, X1, X2. clear X0 X1 X2.
  generalize (position gp 0%nat) (position gp 1%nat) (position gp 2%nat). clear gp gp'. intros.
  cases m; cases q; cbv [column nth signOf fst snd sum transformationMatrix transformationMatrix2 transformationMatrix3 exchange0 Nat.eqb entries E21modes shifted repeat app length Nat.sub]; ring.
Qed.

Lemma mode_V21_swap1 : strainModes 3 21 (modesE V21) exchange1.
Proof.
  apply (strain_table 3 21 (modesE V21) exchange1 [(0, true); (2, true); (1, true); (4, true); (3, true); (7, true); (8, true); (5, true); (6, true); (10, true); (9, true); (13, true); (14, true); (11, true); (12, true); (16, true); (15, true); (19, true); (20, true); (17, true); (18, true)]%nat); [reflexivity|]. intros gp gp' Hs m q Hm Hq.
  assert (X := spot3 _ _ _ Hs). cbv [exchange1 Nat.eqb] in X.
  assert (X0 : position gp' 0%nat = position gp 0%nat) by lra.
  assert (X1 : position gp' 1%nat = position gp 2%nat) by lra.
  assert (X2 : position gp' 2%nat = position gp 1%nat) by lra.
  clear X Hs. change (voigtLength 3) with 6%nat in *. cbv [modesE modesS]. rewrite X0, X1, X2. clear X0 X1 X2.
  generalize (position gp 0%nat) (position gp 1%nat) (position gp 2%nat). clear gp gp'. intros.
  cases m; cases q; cbv [column nth signOf fst snd sum transformationMatrix transformationMatrix2 transformationMatrix3 exchange1 Nat.eqb entries E21modes shifted repeat app length Nat.sub]; ring.
Qed.

Lemma mode_V21_flip0 : strainModes 3 21 (modesE V21) (reflect 0).
Proof.
  apply (strain_table 3 21 (modesE V21) (reflect 0) [(0, false); (1, true); (2, true); (3, true); (4, true); (5, true); (6, false); (7, true); (8, false); (9, false); (10, false); (11, true); (12, false); (13, true); (14, false); (15, false); (16, false); (17, false); (18, true); (19, false); (20, true)]%nat); [reflexivity|]. intros gp gp' Hs m q Hm Hq.
  assert (X := spot3 _ _ _ Hs). cbv [reflect Nat.eqb] in X.
  assert (X0 : position gp' 0%nat = 1 - position gp 0%nat) by lra.
  assert (X1 : position gp' 1%nat = position gp 1%nat) by lra.
  assert (X2 : position gp' 2%nat = position gp 2%nat) by lra.
  clear X Hs. change (voigtLength 3) with 6%nat in *. cbv [modesE modesS]. rewrite X0, X1, X2. clear X0 X1 X2.
  generalize (position gp 0%nat) (position gp 1%nat) (position gp 2%nat). clear gp gp'. intros.
  cases m; cases q; cbv [column nth signOf fst snd sum transformationMatrix transformationMatrix2 transformationMatrix3 reflect Nat.eqb entries E21modes shifted repeat app length Nat.sub]; ring.
Qed.

Lemma mode_V21_flip1 : strainModes 3 21 (modesE V21) (reflect 1).
Proof.
  apply (strain_table 3 21 (modesE V21) (reflect 1) [(0, true); (1, false); (2, true); (3, true); (4, false); (5, true); (6, true); (7, false); (8, true); (9, true); (10, false); (11, false); (12, false); (13, false); (14, true); (15, false); (16, true); (17, false); (18, false); (19, true); (20, false)]%nat); [reflexivity|]. intros gp gp' Hs m q Hm Hq.
  assert (X := spot3 _ _ _ Hs). cbv [reflect Nat.eqb] in X.
  assert (X0 : position gp' 0%nat = position gp 0%nat) by lra.
  assert (X1 : position gp' 1%nat = 1 - position gp 1%nat) by lra.
  assert (X2 : position gp' 2%nat = position gp 2%nat) by lra.
  clear X Hs. change (voigtLength 3) with 6%nat in *. cbv [modesE modesS]. rewrite X0, X1, X2. clear X0 X1 X2.
  generalize (position gp 0%nat) (position gp 1%nat) (position gp 2%nat). clear gp gp'. intros.
  cases m; cases q; cbv [column nth signOf fst snd sum transformationMatrix transformationMatrix2 transformationMatrix3 reflect Nat.eqb entries E21modes shifted repeat app length Nat.sub]; ring.
Qed.

Lemma mode_V21_flip2 : strainModes 3 21 (modesE V21) (reflect 2).
Proof.
  apply (strain_table 3 21 (modesE V21) (reflect 2) [(0, true); (1, true); (2, false); (3, false); (4, true); (5, false); (6, true); (7, true); (8, true); (9, false); (10, true); (11, false); (12, true); (13, false); (14, false); (15, true); (16, false); (17, true); (18, false); (19, false); (20, false)]%nat); [reflexivity|]. intros gp gp' Hs m q Hm Hq.
  assert (X := spot3 _ _ _ Hs). cbv [reflect Nat.eqb] in X.
  assert (X0 : position gp' 0%nat = position gp 0%nat) by lra.
  assert (X1 : position gp' 1%nat = position gp 1%nat) by lra.
  assert (X2 : position gp' 2%nat = 1 - position gp 2%nat) by lra.
  clear X Hs. change (voigtLength 3) with 6%nat in *. cbv [modesE modesS]. rewrite X0, X1, X2. clear X0 X1 X2.
  generalize (position gp 0%nat) (position gp 1%nat) (position gp 2%nat). clear gp gp'. intros.
  cases m; cases q; cbv [column nth signOf fst snd sum transformationMatrix transformationMatrix2 transformationMatrix3 reflect Nat.eqb entries E21modes shifted repeat app length Nat.sub]; ring.
Qed.

Lemma mode_W5_swap0 : stressModes 2 5 (modesS W5) exchange0.
Proof.
  apply (stress_table 2 5 (modesS W5) exchange0 [(1, true); (0, true); (2, true); (4, true); (3, true)]%nat); [reflexivity|]. intros gp gp' Hs m q Hm Hq.
  assert (X := spot2 _ _ _ Hs). cbv [exchange0 Nat.eqb] in X.
  assert (X0 : position gp' 0%nat = position gp 1%nat) by lra.
  assert (X1 : position gp' 1%nat = position gp 0%nat) by lra.
  clear X Hs. change (voigtLength 2) with 3%nat in *. cbv [modesE modesS]. rewrite X0, X1. clear X0 X1.
  generalize (position gp 0%nat) (position gp 1%nat). clear gp gp'. intros.
  cases m; cases q; cbv [column nth signOf fst snd sum transformationMatrix transformationMatrix2 transformationMatrix3 exchange0 Nat.eqb entries S5modes shifted repeat app length Nat.sub]; ring.
Qed.

Lemma mode_W5_flip0 : stressModes 2 5 (modesS W5) (reflect 0).
Proof.
  apply (stress_table 2 5 (modesS W5) (reflect 0) [(0, true); (1, true); (2, false); (3, true); (4, false)]%nat); [reflexivity|]. intros gp gp' Hs m q Hm Hq.
  assert (X := spot2 _ _ _ Hs). cbv [reflect Nat.eqb] in X.
  assert (X0 : position gp' 0%nat = 1 - position gp 0%nat) by lra.
  assert (X1 : position gp' 1%nat = position gp 1%nat) by lra.
  clear X Hs. change (voigtLength 2) with 3%nat in *. cbv [modesE modesS]. rewrite X0, X1. clear X0 X1.
  generalize (position gp 0%nat) (position gp 1%nat). clear gp gp'. intros.
  cases m; cases q; cbv [column nth signOf fst snd sum transformationMatrix transformationMatrix2 transformationMatrix3 reflect Nat.eqb entries S5modes shifted repeat app length Nat.sub]; ring.
Qed.

Lemma mode_W5_flip1 : stressModes 2 5 (modesS W5) (reflect 1).
Proof.
  apply (stress_table 2 5 (modesS W5) (reflect 1) [(0, true); (1, true); (2, false); (3, false); (4, true)]%nat); [reflexivity|]. intros gp gp' Hs m q Hm Hq.
  assert (X := spot2 _ _ _ Hs). cbv [reflect Nat.eqb] in X.
  assert (X0 : position gp' 0%nat = position gp 0%nat) by lra.
  assert (X1 : position gp' 1%nat = 1 - position gp 1%nat) by lra.
  clear X Hs. change (voigtLength 2) with 3%nat in *. cbv [modesE modesS]. rewrite X0, X1. clear X0 X1.
  generalize (position gp 0%nat) (position gp 1%nat). clear gp gp'. intros.
  cases m; cases q; cbv [column nth signOf fst snd sum transformationMatrix transformationMatrix2 transformationMatrix3 reflect Nat.eqb entries S5modes shifted repeat app length Nat.sub]; ring.
Qed.

Lemma mode_W18_swap0 : stressModes 3 18 (modesS W18) exchange0.
Proof.
  apply (stress_table 3 18 (modesS W18) exchange0 [(4, true); (5, true); (6, true); (7, true); (0, true); (1, true); (2, true); (3, true); (8, true); (10, true); (9, true); (11, true); (14, true); (15, true); (12, true); (13, true); (16, true); (17, true)]%nat); [reflexivity|]. intros gp gp' Hs m q Hm Hq.
  assert (X := spot3 _ _ _ Hs). cbv [exchange0 Nat.eqb] in X.
  assert (X0 : position gp' 0%nat = position gp 1%nat) by lra.
  assert (X1 : position gp' 1%nat = position gp 0%nat) by lra.
  assert (X2 : position gp' 2%nat = position gp 2%nat) by lra.
  clear X Hs. change (voigtLength 3) with 6%nat in *. cbv [modesE modesS]. rewrite X0, X1, X2. clear X0 X1 X2.
  generalize (position gp 0%nat) (position gp 1%nat) (position gp 2%nat). clear gp gp'. intros.
  cases m; cases q; cbv [column nth signOf fst snd sum transformationMatrix transformationMatrix2 transformationMatrix3 exchange0 Nat.eqb entries S18modes shifted repeat app length Nat.sub]; ring.
Qed.

Lemma mode_W18_swap1 : stressModes 3 18 (modesS W18) exchange1.
Proof.
  apply (stress_table 3 18 (modesS W18) exchange1 [(0, true); (2, true); (1, true); (3, true); (8, true); (9, true); (10, true); (11, true); (4, true); (5, true); (6, true); (7, true); (12, true); (13, true); (16, true); (17, true); (14, true); (15, true)]%nat); [reflexivity|]. intros gp gp' Hs m q Hm Hq.
  assert (X := spot3 _ _ _ Hs). cbv [exchange1 Nat.eqb] in X.
  assert (X0 : position gp' 0%nat = position gp 0%nat) by lra.
  assert (X1 : position gp' 1%nat = position gp 2%nat) by lra.
  assert (X2 : position gp' 2%nat = position gp 1%nat) by lra.
  clear X Hs. change (voigtLength 3) with 6%nat in *. cbv [modesE modesS]. rewrite X0, X1, X2. clear X0 X1 X2.
  generalize (position gp 0%nat) (position gp 1%nat) (position gp 2%nat). clear gp gp'. intros.
  cases m; cases q; cbv [column nth signOf fst snd sum transformationMatrix transformationMatrix2 transformationMatrix3 exchange1 Nat.eqb entries S18modes shifted repeat app length Nat.sub]; ring.
Qed.

Lemma mode_W18_flip0 : stressModes 3 18 (modesS W18) (reflect 0).
Proof.
  apply (stress_table 3 18 (modesS W18) (reflect 0) [(0, true); (1, true); (2, true); (3, true); (4, true); (5, false); (6, true); (7, false); (8, true); (9, false); (10, true); (11, false); (12, true); (13, false); (14, false); (15, false); (16, false); (17, false)]%nat); [reflexivity|]. intros gp gp' Hs m q Hm Hq.
  assert (X := spot3 _ _ _ Hs). cbv [reflect Nat.eqb] in X.
  assert (X0 : position gp' 0%nat = 1 - position gp 0%nat) by lra.
  assert (X1 : position gp' 1%nat = position gp 1%nat) by lra.
  assert (X2 : position gp' 2%nat = position gp 2%nat) by lra.
  clear X Hs. change (voigtLength 3) with 6%nat in *. cbv [modesE modesS]. rewrite X0, X1, X2. clear X0 X1 X2.
  generalize (position gp 0%nat) (position gp 1%nat) (position gp 2%nat). clear gp gp'. intros.
  cases m; cases q; cbv [column nth signOf fst snd sum transformationMatrix transformationMatrix2 transformationMatrix3 reflect Nat.eqb entries S18modes shifted repeat app length Nat.sub]; ring.
Qed.

Lemma mode_W18_flip1 : stressModes 3 18 (modesS W18) (reflect 1).
Proof.
  apply (stress_table 3 18 (modesS W18) (reflect 1) [(0, true); (1, false); (2, true); (3, false); (4, true); (5, true); (6, true); (7, true); (8, true); (9, true); (10, false); (11, false); (12, false); (13, false); (14, true); (15, false); (16, false); (17, false)]%nat); [reflexivity|]. intros gp gp' Hs m q Hm Hq.
  assert (X := spot3 _ _ _ Hs). cbv [reflect Nat.eqb] in X.
  assert (X0 : position gp' 0%nat = position gp 0%nat) by lra.
  assert (X1 : position gp' 1%nat = 1 - position gp 1%nat) by lra.
  assert (X2 : position gp' 2%nat = position gp 2%nat) by lra.
  clear X Hs. change (voigtLength 3) with 6%nat in *. cbv [modesE modesS]. rewrite X0, X1, X2. clear X0 X1 X2.
  generalize (position gp 0%nat) (position gp 1%nat) (position gp 2%nat). clear gp gp'. intros.
  cases m; cases q; cbv [column nth signOf fst snd sum transformationMatrix transformationMatrix2 transformationMatrix3 reflect Nat.eqb entries S18modes shifted repeat app length Nat.sub]; ring.
Qed.

Lemma mode_W18_flip2 : stressModes 3 18 (modesS W18) (reflect 2).
Proof.
  apply (stress_table 3 18 (modesS W18) (reflect 2) [(0, true); (1, true); (2, false); (3, false); (4, true); (5, true); (6, false); (7, false); (8, true); (9, true); (10, true); (11, true); (12, false); (13, false); (14, false); (15, false); (16, true); (17, false)]%nat); [reflexivity|]. intros gp gp' Hs m q Hm Hq.
  assert (X := spot3 _ _ _ Hs). cbv [reflect Nat.eqb] in X.
  assert (X0 : position gp' 0%nat = position gp 0%nat) by lra.
  assert (X1 : position gp' 1%nat = position gp 1%nat) by lra.
  assert (X2 : position gp' 2%nat = 1 - position gp 2%nat) by lra.
  clear X Hs. change (voigtLength 3) with 6%nat in *. cbv [modesE modesS]. rewrite X0, X1, X2. clear X0 X1 X2.
  generalize (position gp 0%nat) (position gp 1%nat) (position gp 2%nat). clear gp gp'. intros.
  cases m; cases q; cbv [column nth signOf fst snd sum transformationMatrix transformationMatrix2 transformationMatrix3 reflect Nat.eqb entries S18modes shifted repeat app length Nat.sub]; ring.
Qed.

Lemma mode_W24_swap0 : stressModes 3 24 (modesS W24) exchange0.
Proof.
  apply (stress_table 3 24 (modesS W24) exchange0 [(4, true); (5, true); (6, true); (7, true); (0, true); (1, true); (2, true); (3, true); (8, true); (10, true); (9, true); (11, true); (16, true); (17, true); (18, true); (19, true); (12, true); (13, true); (14, true); (15, true); (20, true); (21, true); (23, true); (22, true)]%nat); [reflexivity|]. intros gp gp' Hs m q Hm Hq.
  assert (X := spot3 _ _ _ Hs). cbv [exchange0 Nat.eqb] in X.
  assert (X0 : position gp' 0%nat = position gp 1%nat) by lra.
  assert (X1 : position gp' 1%nat = position gp 0%nat) by lra.
  assert (X2 : position gp' 2%nat = position gp 2%nat) by lra.
  clear X Hs. change (voigtLength 3) with 6%nat in *. cbv [modesE modesS]. rewrite X0, X1, X2. clear X0 X1 X2.
  generalize (position gp 0%nat) (position gp 1%nat) (position gp 2%nat). clear gp gp'. intros.
  cases m; cases q; cbv [column nth signOf fst snd sum transformationMatrix transformationMatrix2 transformationMatrix3 exchange0 Nat.eqb entries S24modes shifted repeat app length Nat.sub]; ring.
Qed.

Lemma mode_W24_swap1 : stressModes 3 24 (modesS W24) exchange1.
Proof.
  apply (stress_table 3 24 (modesS W24) exchange1 [(0, true); (2, true); (1, true); (3, true); (8, true); (9, true); (10, true); (11, true); (4, true); (5, true); (6, true); (7, true); (12, true); (13, true); (15, true); (14, true); (20, true); (21, true); (23, true); (22, true); (16, true); (17, true); (19, true); (18, true)]%nat); [reflexivity|]. intros gp gp' Hs m q Hm Hq.
  assert (X := spot3 _ _ _ Hs). cbv [exchange1 Nat.eqb] in X.
  assert (X0 : position gp' 0%nat = position gp 0%nat) by lra.
  assert (X1 : position gp' 1%nat = position gp 2%nat) by lra.
  assert (X2 : position gp' 2%nat = position gp 1%nat) by lra.
  clear X Hs. change (voigtLength 3) with 6%nat in *. cbv [modesE modesS]. rewrite X0, X1, X2. clear X0 X1 X2.
  generalize (position gp 0%nat) (position gp 1%nat) (position gp 2%nat). clear gp gp'. intros.
  cases m; cases q; cbv [column nth signOf fst snd sum transformationMatrix transformationMatrix2 transformationMatrix3 exchange1 Nat.eqb entries S24modes shifted repeat app length Nat.sub]; ring.
Qed.

Lemma mode_W24_flip0 : stressModes 3 24 (modesS W24) (reflect 0).
Proof.
  apply (stress_table 3 24 (modesS W24) (reflect 0) [(0, true); (1, true); (2, true); (3, true); (4, true); (5, false); (6, true); (7, false); (8, true); (9, false); (10, true); (11, false); (12, true); (13, false); (14, false); (15, false); (16, false); (17, false); (18, true); (19, false); (20, false); (21, false); (22, false); (23, true)]%nat); [reflexivity|]. intros gp gp' Hs m q Hm Hq.
  assert (X := spot3 _ _ _ Hs). cbv [reflect Nat.eqb] in X.
  assert (X0 : position gp' 0%nat = 1 - position gp 0%nat) by lra.
  assert (X1 : position gp' 1%nat = position gp 1%nat) by lra.
  assert (X2 : position gp' 2%nat = position gp 2%nat) by lra.
  clear X Hs. change (voigtLength 3) with 6%nat in *. cbv [modesE modesS]. rewrite X0, X1, X2. clear X0 X1 X2.
  generalize (position gp 0%nat) (position gp 1%nat) (position gp 2%nat). clear gp gp'. intros.
  cases m; cases q; cbv [column nth signOf fst snd sum transformationMatrix transformationMatrix2 transformationMatrix3 reflect Nat.eqb entries S24modes shifted repeat app length Nat.sub]; ring.
Qed.

Lemma mode_W24_flip1 : stressModes 3 24 (modesS W24) (reflect 1).
Proof.
  apply (stress_table 3 24 (modesS W24) (reflect 1) [(0, true); (1, false); (2, true); (3, false); (4, true); (5, true); (6, true); (7, true); (8, true); (9, true); (10, false); (11, false); (12, false); (13, false); (14, true); (15, false); (16, true); (17, false); (18, false); (19, false); (20, false); (21, false); (22, true); (23, false)]%nat); [reflexivity|]. intros gp gp' Hs m q Hm Hq.
  assert (X := spot3 _ _ _ Hs). cbv [reflect Nat.eqb] in X.
  assert (X0 : position gp' 0%nat = position gp 0%nat) by lra.
  assert (X1 : position gp' 1%nat = 1 - position gp 1%nat) by lra.
  assert (X2 : position gp' 2%nat = position gp 2%nat) by lra.
  clear X Hs. change (voigtLength 3) with 6%nat in *. cbv [modesE modesS]. rewrite X0, X1, X2. clear X0 X1 X2.
  generalize (position gp 0%nat) (position gp 1%nat) (position gp 2%nat). clear gp gp'. intros.
  cases m; cases q; cbv [column nth signOf fst snd sum transformationMatrix transformationMatrix2 transformationMatrix3 reflect Nat.eqb entries S24modes shifted repeat app length Nat.sub]; ring.
Qed.

Lemma mode_W24_flip2 : stressModes 3 24 (modesS W24) (reflect 2).
Proof.
  apply (stress_table 3 24 (modesS W24) (reflect 2) [(0, true); (1, true); (2, false); (3, false); (4, true); (5, true); (6, false); (7, false); (8, true); (9, true); (10, true); (11, true); (12, false); (13, false); (14, false); (15, true); (16, false); (17, false); (18, false); (19, true); (20, true); (21, false); (22, false); (23, false)]%nat); [reflexivity|]. intros gp gp' Hs m q Hm Hq.
  assert (X := spot3 _ _ _ Hs). cbv [reflect Nat.eqb] in X.
  assert (X0 : position gp' 0%nat = position gp 0%nat) by lra.
  assert (X1 : position gp' 1%nat = position gp 1%nat) by lra.
  assert (X2 : position gp' 2%nat = 1 - position gp 2%nat) by lra.
  clear X Hs. change (voigtLength 3) with 6%nat in *. cbv [modesE modesS]. rewrite X0, X1, X2. clear X0 X1 X2.
  generalize (position gp 0%nat) (position gp 1%nat) (position gp 2%nat). clear gp gp'. intros.
  cases m; cases q; cbv [column nth signOf fst snd sum transformationMatrix transformationMatrix2 transformationMatrix3 reflect Nat.eqb entries S24modes shifted repeat app length Nat.sub]; ring.
Qed.

Lemma mode_W30_swap0 : stressModes 3 30 (modesS W30) exchange0.
Proof.
  apply (stress_table 3 30 (modesS W30) exchange0 [(4, true); (5, true); (6, true); (7, true); (0, true); (1, true); (2, true); (3, true); (8, true); (10, true); (9, true); (11, true); (18, true); (20, true); (19, true); (21, true); (22, true); (23, true); (12, true); (14, true); (13, true); (15, true); (16, true); (17, true); (24, true); (26, true); (25, true); (27, true); (29, true); (28, true)]%nat); [reflexivity|]. intros gp gp' Hs m q Hm Hq.
  assert (X := spot3 _ _ _ Hs). cbv [exchange0 Nat.eqb] in X.
  assert (X0 : position gp' 0%nat = position gp 1%nat) by lra.
  assert (X1 : position gp' 1%nat = position gp 0%nat) by lra.
  assert (X2 : position gp' 2%nat = position gp 2%nat) by lra.
  clear X Hs. change (voigtLength 3) with 6%nat in *. cbv [modesE modesS]. rewrite X0, X1, X2. clear X0 X1 X2.
  generalize (position gp 0%nat) (position gp 1%nat) (position gp 2%nat). clear gp gp'. intros.
  cases m; cases q; cbv [column nth signOf fst snd sum transformationMatrix transformationMatrix2 transformationMatrix3 exchange0 Nat.eqb entries S30modes shifted repeat app length Nat.sub]; ring.
Qed.

Lemma mode_W30_swap1 : stressModes 3 30 (modesS W30) exchange1.
Proof.
  apply (stress_table 3 30 (modesS W30) exchange1 [(0, true); (2, true); (1, true); (3, true); (8, true); (9, true); (10, true); (11, true); (4, true); (5, true); (6, true); (7, true); (12, true); (13, true); (15, true); (14, true); (17, true); (16, true); (24, true); (25, true); (27, true); (26, true); (29, true); (28, true); (18, true); (19, true); (21, true); (20, true); (23, true); (22, true)]%nat); [reflexivity|]. intros gp gp' Hs m q Hm Hq.
  assert (X := spot3 _ _ _ Hs). cbv [exchange1 Nat.eqb] in X.
  assert (X0 : position gp' 0%nat = position gp 0%nat) by lra.
  assert (X1 : position gp' 1%nat = position gp 2%nat) by lra.
  assert (X2 : position gp' 2%nat = position gp 1%nat) by lra.
  clear X Hs. change (voigtLength 3) with 6%nat in *. cbv [modesE modesS]. rewrite X0, X1, X2. clear X0 X1 X2.
  generalize (position gp 0%nat) (position gp 1%nat) (position gp 2%nat). clear gp gp'. intros.
  cases m; cases q; cbv [column nth signOf fst snd sum transformationMatrix transformationMatrix2 transformationMatrix3 exchange1 Nat.eqb entries S30modes shifted repeat app length Nat.sub]; ring.
Qed.

Lemma mode_W30_flip0 : stressModes 3 30 (modesS W30) (reflect 0).
Proof.
  apply (stress_table 3 30 (modesS W30) (reflect 0) [(0, true); (1, true); (2, true); (3, true); (4, true); (5, false); (6, true); (7, false); (8, true); (9, false); (10, true); (11, false); (12, true); (13, false); (14, true); (15, true); (16, false); (17, false); (18, false); (19, true); (20, false); (21, false); (22, true); (23, false); (24, false); (25, true); (26, false); (27, false); (28, false); (29, true)]%nat); [reflexivity|]. intros gp gp' Hs m q Hm Hq.
  assert (X := spot3 _ _ _ Hs). cbv [reflect Nat.eqb] in X.
  assert (X0 : position gp' 0%nat = 1 - position gp 0%nat) by lra.
  assert (X1 : position gp' 1%nat = position gp 1%nat) by lra.
  assert (X2 : position gp' 2%nat = position gp 2%nat) by lra.
  clear X Hs. change (voigtLength 3) with 6%nat in *. cbv [modesE modesS]. rewrite X0, X1, X2. clear X0 X1 X2.
  generalize (position gp 0%nat) (position gp 1%nat) (position gp 2%nat). clear gp gp'. intros.
  cases m; cases q; cbv [column nth signOf fst snd sum transformationMatrix transformationMatrix2 transformationMatrix3 reflect Nat.eqb entries S30modes shifted repeat app length Nat.sub]; ring.
Qed.

Lemma mode_W30_flip1 : stressModes 3 30 (modesS W30) (reflect 1).
Proof.
  apply (stress_table 3 30 (modesS W30) (reflect 1) [(0, true); (1, false); (2, true); (3, false); (4, true); (5, true); (6, true); (7, true); (8, true); (9, true); (10, false); (11, false); (12, false); (13, false); (14, true); (15, false); (16, true); (17, false); (18, true); (19, true); (20, false); (21, true); (22, false); (23, false); (24, false); (25, false); (26, true); (27, false); (28, true); (29, false)]%nat); [reflexivity|]. intros gp gp' Hs m q Hm Hq.
  assert (X := spot3 _ _ _ Hs). cbv [reflect Nat.eqb] in X.
  assert (X0 : position gp' 0%nat = position gp 0%nat) by lra.
  assert (X1 : position gp' 1%nat = 1 - position gp 1%nat) by lra.
  assert (X2 : position gp' 2%nat = position gp 2%nat) by lra.
  clear X Hs. change (voigtLength 3) with 6%nat in *. cbv [modesE modesS]. rewrite X0, X1, X2. clear X0 X1 X2.
  generalize (position gp 0%nat) (position gp 1%nat) (position gp 2%nat). clear gp gp'. intros.
  cases m; cases q; cbv [column nth signOf fst snd sum transformationMatrix transformationMatrix2 transformationMatrix3 reflect Nat.eqb entries S30modes shifted repeat app length Nat.sub]; ring.
Qed.

Lemma mode_W30_flip2 : stressModes 3 30 (modesS W30) (reflect 2).
Proof.
  apply (stress_table 3 30 (modesS W30) (reflect 2) [(0, true); (1, true); (2, false); (3, false); (4, true); (5, true); (6, false); (7, false); (8, true); (9, true); (10, true); (11, true); (12, false); (13, false); (14, false); (15, true); (16, false); (17, true); (18, false); (19, false); (20, false); (21, true); (22, false); (23, true); (24, true); (25, true); (26, true); (27, false); (28, false); (29, false)]%nat); [reflexivity|]. intros gp gp' Hs m q Hm Hq.
  assert (X := spot3 _ _ _ Hs). cbv [reflect Nat.eqb] in X.
  assert (X0 : position gp' 0%nat = position gp 0%nat) by lra.
  assert (X1 : position gp' 1%nat = position gp 1%nat) by lra.
  assert (X2 : position gp' 2%nat = 1 - position gp 2%nat) by lra.
  clear X Hs. change (voigtLength 3) with 6%nat in *. cbv [modesE modesS]. rewrite X0, X1, X2. clear X0 X1 X2.
  generalize (position gp 0%nat) (position gp 1%nat) (position gp 2%nat). clear gp gp'. intros.
  cases m; cases q; cbv [column nth signOf fst snd sum transformationMatrix transformationMatrix2 transformationMatrix3 reflect Nat.eqb entries S30modes shifted repeat app length Nat.sub]; ring.
Qed.

Lemma all_strain v d W : d = dimensionOf v -> signedPermutation d W -> strainModes d (sizeE v) (modesE v) W.
Proof.
  intros Hd HW. assert (Hd' : (d = 2 \/ d = 3)%nat) by (subst d; destruct v; cbn; auto).
  assert (Ml : forall gp gp', (forall a, (a < d)%nat -> position gp' a = position gp a) -> forall m q, modesE v gp' m q = modesE v gp m q).
  { intros gp gp' H m q. destruct v; cbn [dimensionOf] in Hd; subst d; cbv [modesE]; rewrite ?(H 0%nat), ?(H 1%nat), ?(H 2%nat) by lia; reflexivity. }
  destruct v.
  1:{ exists identity, identity. split; [apply identity_inverse|]. intros gp gp' _ m q _ Hq. cbn in Hq. lia. }
  all: cbn [dimensionOf] in Hd; subst d; cbn [sizeE];
    apply (generated _ (strainModes _ _ (modesE _)) (strain_ext _ _ _ Hd') (strain_mul _ _ _ Hd') (strain_id _ _ _ Hd' Ml)); try assumption; try (intros; exfalso; lia).
  - intros k Hk. cases k; [exact mode_V4_flip0 | exact mode_V4_flip1].
  - intros _. exact mode_V4_swap0.
  - intros k Hk. cases k; [exact mode_V5_flip0 | exact mode_V5_flip1].
  - intros _. exact mode_V5_swap0.
  - intros k Hk. cases k; [exact mode_V7_flip0 | exact mode_V7_flip1].
  - intros _. exact mode_V7_swap0.
  - intros k Hk. cases k; [exact mode_V11_flip0 | exact mode_V11_flip1].
  - intros _. exact mode_V11_swap0.
  - intros k Hk. cases k; [exact mode_V9_flip0 | exact mode_V9_flip1 | exact mode_V9_flip2].
  - intros _. exact mode_V9_swap0.
  - intros _. exact mode_V9_swap1.
  - intros k Hk. cases k; [exact mode_V21_flip0 | exact mode_V21_flip1 | exact mode_V21_flip2].
  - intros _. exact mode_V21_swap0.
  - intros _. exact mode_V21_swap1.
Qed.
Lemma all_stress v d W : d = dimensionS v -> signedPermutation d W -> stressModes d (sizeS v) (modesS v) W.
Proof.
  intros Hd HW. assert (Hd' : (d = 2 \/ d = 3)%nat) by (subst d; destruct v; cbn; auto).
  assert (Ml : forall gp gp', (forall a, (a < d)%nat -> position gp' a = position gp a) -> forall m q, modesS v gp' m q = modesS v gp m q).
  { intros gp gp' H m q. destruct v; cbn [dimensionS] in Hd; subst d; cbv [modesS]; rewrite ?(H 0%nat), ?(H 1%nat), ?(H 2%nat) by lia; reflexivity. }
  destruct v; cbn [dimensionS] in Hd; subst d; cbn [sizeS];
    apply (generated _ (stressModes _ _ (modesS _)) (stress_ext _ _ _ Hd') (stress_mul _ _ _ Hd') (stress_id _ _ _ Hd' Ml)); try assumption; try (intros; exfalso; lia).
  - intros k Hk. cases k; [exact mode_W5_flip0 | exact mode_W5_flip1].
  - intros _. exact mode_W5_swap0.
  - intros k Hk. cases k; [exact mode_W18_flip0 | exact mode_W18_flip1 | exact mode_W18_flip2].
  - intros _. exact mode_W18_swap0.
  - intros _. exact mode_W18_swap1.
  - intros k Hk. cases k; [exact mode_W24_flip0 | exact mode_W24_flip1 | exact mode_W24_flip2].
  - intros _. exact mode_W24_swap0.
  - intros _. exact mode_W24_swap1.
  - intros k Hk. cases k; [exact mode_W30_flip0 | exact mode_W30_flip1 | exact mode_W30_flip2].
  - intros _. exact mode_W30_swap0.
  - intros _. exact mode_W30_swap1.
Qed.

(** Matrices of displacement gradients *)
Definition gradientModes (d p : nat) (M : point -> nat -> nat -> nat -> R) (W : nat -> nat -> R) : Prop := exists P Pi, isInverse p P Pi /\
  forall gp gp', sameSpot d W gp gp' -> forall q k l, (q < p)%nat -> (k < d)%nat -> (l < d)%nat ->
  mul d (mt W) (mul d (M gp' q) W) k l = sum p (fun r => P r q * M gp r k l).

Section GradientClosure.
  Variables (d p : nat) (M : point -> nat -> nat -> nat -> R).
  Hypothesis Mlocal : forall gp gp', (forall a, (a < d)%nat -> position gp' a = position gp a) -> forall q k l, M gp' q k l = M gp q k l.
  Lemma gradient_ext W W' : eqm d W W' -> gradientModes d p M W -> gradientModes d p M W'.
  Proof.
    intros E (P & Pi & HP & H). exists P, Pi. split; [exact HP|]. intros gp gp' Hs q k l Hq Hk Hl. rewrite <- (H gp gp' (spot_ext d W W' gp gp' E Hs) q k l Hq Hk Hl).
    unfold mul, mt. apply sum_ext. intros c Hc. rewrite (E c k) by assumption. f_equal. apply sum_ext. intros e He. rewrite (E e l) by assumption. reflexivity.
  Qed.
  Lemma gradient_mul V W : gradientModes d p M V -> gradientModes d p M W -> gradientModes d p M (mul d V W).
  Proof.
    intros (P & Pi & HP & H) (P' & Pi' & HP' & H'). exists (mul p P' P), (mul p Pi Pi'). split; [now apply mul_inverse|].
    intros gp gp' Hs q k l Hq Hk Hl. destruct (spot_mul d V W gp gp' Hs) as (S1 & S2).
    rewrite mt_mul, mul_assoc, <- (mul_assoc d (M gp' q) V W), <- (mul_assoc d (mt V)).
    transitivity (sum p (fun r => P r q * mul d (mt W) (mul d (M (between d W gp) r) W) k l)).
    - unfold mul at 1 2.
      rewrite (sum_ext d _ (fun c => sum p (fun r => P r q * (mt W k c * sum d (fun e => M (between d W gp) r c e * W e l))))).
      + rewrite sum_swap. apply sum_ext. intros r _. rewrite sum_mul_l. reflexivity.
      + intros c Hc. rewrite (sum_ext d _ (fun e => sum p (fun r => P r q * (M (between d W gp) r c e * W e l)))).
        * rewrite sum_swap, <- sum_mul_l. apply sum_ext. intros r _. rewrite !sum_mul_l. ring.
        * intros e He. fold (mul d (M gp' q) V). fold (mul d (mt V) (mul d (M gp' q) V)). rewrite (H _ _ S2 q c e Hq Hc He). rewrite <- sum_mul_r. apply sum_ext. intros. ring.
    - rewrite (sum_ext p _ (fun r => sum p (fun j => P' j r * P r q * M gp j k l))).
      + rewrite sum_swap. apply sum_ext. intros j _. unfold mul. now rewrite sum_mul_r.
      + intros r Hr. rewrite (H' _ _ S1 r k l Hr Hk Hl). rewrite <- sum_mul_l. apply sum_ext. intros. ring.
  Qed.
  Lemma gradient_id : gradientModes d p M identity.
  Proof.
    exists identity, identity. split; [apply identity_inverse|]. intros gp gp' Hs q k l Hq Hk Hl.
    rewrite (sum_ext p _ (fun r => identity q r * M gp r k l)) by (intros; unfold identity; now rewrite Nat.eqb_sym). rewrite sum_id_l by assumption.
    transitivity (M gp' q k l).
    - transitivity (mul d identity (mul d (M gp' q) identity) k l).
      + unfold mul at 1 3. apply sum_ext. intros c _. unfold mt, identity at 1 3. now rewrite Nat.eqb_sym.
      + rewrite mul_id_l by assumption. now apply mul_id_r.
    - apply Mlocal. intros a Ha. specialize (Hs a Ha). rewrite sum_id_l in Hs by assumption. lra.
  Qed.
  Lemma gradient_table W t : involution p t = true ->
    (forall gp gp', sameSpot d W gp gp' -> forall q k l, (q < p)%nat -> (k < d)%nat -> (l < d)%nat ->
       mul d (mt W) (mul d (M gp' q) W) k l = signOf (snd (column t q)) * M gp (fst (column t q)) k l) ->
    gradientModes d p M W.
  Proof.
    intros I H. exists (exchangeOf t), (exchangeOf t). split; [now apply exchange_inverse|]. intros gp gp' Hs q k l Hq Hk Hl. rewrite (H gp gp' Hs q k l Hq Hk Hl).
    now rewrite (exchange_sum p t q (fun r => M gp r k l)).
  Qed.
End GradientClosure.
Lemma mode_H4_swap0 : gradientModes 2 4 (modesH 2) exchange0.
Proof.
  apply (gradient_table 2 4 (modesH 2) exchange0 [(3, true); (2, true); (1, true); (0, true)]%nat); [reflexivity|]. intros gp gp' Hs q k l Hq Hk Hl.
  assert (X := spot2 _ _ _ Hs). cbv [exchange0 Nat.eqb] in X.
  assert (X0 : position gp' 0%nat = position gp 1%nat) by lra.
  assert (X1 : position gp' 1%nat = position gp 0%nat) by lra.
  clear X Hs. cbv [modesH Nat.eqb]. rewrite X0, X1. clear X0 X1.
  generalize (position gp 0%nat) (position gp 1%nat). clear gp gp'. intros.
  cases q; cases k; cases l; cbv [column nth signOf fst snd mul mt sum exchange0 Nat.eqb entries H4modes H9modes]; ring.
Qed.
Lemma mode_H4_flip0 : gradientModes 2 4 (modesH 2) (reflect 0).
Proof.
  apply (gradient_table 2 4 (modesH 2) (reflect 0) [(0, false); (1, false); (2, true); (3, true)]%nat); [reflexivity|]. intros gp gp' Hs q k l Hq Hk Hl.
  assert (X := spot2 _ _ _ Hs). cbv [reflect Nat.eqb] in X.
  assert (X0 : position gp' 0%nat = 1 - position gp 0%nat) by lra.
  assert (X1 : position gp' 1%nat = position gp 1%nat) by lra.
  clear X Hs. cbv [modesH Nat.eqb]. rewrite X0, X1. clear X0 X1.
  generalize (position gp 0%nat) (position gp 1%nat). clear gp gp'. intros.
  cases q; cases k; cases l; cbv [column nth signOf fst snd mul mt sum reflect Nat.eqb entries H4modes H9modes]; ring.
Qed.
Lemma mode_H4_flip1 : gradientModes 2 4 (modesH 2) (reflect 1).
Proof.
  apply (gradient_table 2 4 (modesH 2) (reflect 1) [(0, true); (1, true); (2, false); (3, false)]%nat); [reflexivity|]. intros gp gp' Hs q k l Hq Hk Hl.
  assert (X := spot2 _ _ _ Hs). cbv [reflect Nat.eqb] in X.
  assert (X0 : position gp' 0%nat = position gp 0%nat) by lra.
  assert (X1 : position gp' 1%nat = 1 - position gp 1%nat) by lra.
  clear X Hs. cbv [modesH Nat.eqb]. rewrite X0, X1. clear X0 X1.
  generalize (position gp 0%nat) (position gp 1%nat). clear gp gp'. intros.
  cases q; cases k; cases l; cbv [column nth signOf fst snd mul mt sum reflect Nat.eqb entries H4modes H9modes]; ring.
Qed.
Lemma mode_H9_swap0 : gradientModes 3 9 (modesH 3) exchange0.
Proof.
  apply (gradient_table 3 9 (modesH 3) exchange0 [(4, true); (3, true); (5, true); (1, true); (0, true); (2, true); (7, true); (6, true); (8, true)]%nat); [reflexivity|]. intros gp gp' Hs q k l Hq Hk Hl.
  assert (X := spot3 _ _ _ Hs). cbv [exchange0 Nat.eqb] in X.
  assert (X0 : position gp' 0%nat = position gp 1%nat) by lra.
  assert (X1 : position gp' 1%nat = position gp 0%nat) by lra.
  assert (X2 : position gp' 2%nat = position gp 2%nat) by lra.
  clear X Hs. cbv [modesH Nat.eqb]. rewrite X0, X1, X2. clear X0 X1 X2.
  generalize (position gp 0%nat) (position gp 1%nat) (position gp 2%nat). clear gp gp'. intros.
  cases q; cases k; cases l; cbv [column nth signOf fst snd mul mt sum exchange0 Nat.eqb entries H4modes H9modes]; ring.
Qed.
Lemma mode_H9_swap1 : gradientModes 3 9 (modesH 3) exchange1.
Proof.
  apply (gradient_table 3 9 (modesH 3) exchange1 [(0, true); (2, true); (1, true); (6, true); (8, true); (7, true); (3, true); (5, true); (4, true)]%nat); [reflexivity|]. intros gp gp' Hs q k l Hq Hk Hl.
  assert (X := spot3 _ _ _ Hs). cbv [exchange1 Nat.eqb] in X.
  assert (X0 : position gp' 0%nat = position gp 0%nat) by lra.
  assert (X1 : position gp' 1%nat = position gp 2%nat) by lra.
  assert (X2 : position gp' 2%nat = position gp 1%nat) by lra.
  clear X Hs. cbv [modesH Nat.eqb]. rewrite X0, X1, X2. clear X0 X1 X2.
  generalize (position gp 0%nat) (position gp 1%nat) (position gp 2%nat). clear gp gp'. intros.
  cases q; cases k; cases l; cbv [column nth signOf fst snd mul mt sum exchange1 Nat.eqb entries H4modes H9modes]; ring.
Qed.
Lemma mode_H9_flip0 : gradientModes 3 9 (modesH 3) (reflect 0).
Proof.
  apply (gradient_table 3 9 (modesH 3) (reflect 0) [(0, false); (1, false); (2, false); (3, true); (4, true); (5, true); (6, true); (7, true); (8, true)]%nat); [reflexivity|]. intros gp gp' Hs q k l Hq Hk Hl.
  assert (X := spot3 _ _ _ Hs). cbv [reflect Nat.eqb] in X.
  assert (X0 : position gp' 0%nat = 1 - position gp 0%nat) by lra.
  assert (X1 : position gp' 1%nat = position gp 1%nat) by lra.
  assert (X2 : position gp' 2%nat = position gp 2%nat) by lra.
  clear X Hs. cbv [modesH Nat.eqb]. rewrite X0, X1, X2. clear X0 X1 X2.
  generalize (position gp 0%nat) (position gp 1%nat) (position gp 2%nat). clear gp gp'. intros.
  cases q; cases k; cases l; cbv [column nth signOf fst snd mul mt sum reflect Nat.eqb entries H4modes H9modes]; ring.
Qed.
Lemma mode_H9_flip1 : gradientModes 3 9 (modesH 3) (reflect 1).
Proof.
  apply (gradient_table 3 9 (modesH 3) (reflect 1) [(0, true); (1, true); (2, true); (3, false); (4, false); (5, false); (6, true); (7, true); (8, true)]%nat); [reflexivity|]. intros gp gp' Hs q k l Hq Hk Hl.
  assert (X := spot3 _ _ _ Hs). cbv [reflect Nat.eqb] in X.
  assert (X0 : position gp' 0%nat = position gp 0%nat) by lra.
  assert (X1 : position gp' 1%nat = 1 - position gp 1%nat) by lra.
  assert (X2 : position gp' 2%nat = position gp 2%nat) by lra.
  clear X Hs. cbv [modesH Nat.eqb]. rewrite X0, X1, X2. clear X0 X1 X2.
  generalize (position gp 0%nat) (position gp 1%nat) (position gp 2%nat). clear gp gp'. intros.
  cases q; cases k; cases l; cbv [column nth signOf fst snd mul mt sum reflect Nat.eqb entries H4modes H9modes]; ring.
Qed.
Lemma mode_H9_flip2 : gradientModes 3 9 (modesH 3) (reflect 2).
Proof.
  apply (gradient_table 3 9 (modesH 3) (reflect 2) [(0, true); (1, true); (2, true); (3, true); (4, true); (5, true); (6, false); (7, false); (8, false)]%nat); [reflexivity|]. intros gp gp' Hs q k l Hq Hk Hl.
  assert (X := spot3 _ _ _ Hs). cbv [reflect Nat.eqb] in X.
  assert (X0 : position gp' 0%nat = position gp 0%nat) by lra.
  assert (X1 : position gp' 1%nat = position gp 1%nat) by lra.
  assert (X2 : position gp' 2%nat = 1 - position gp 2%nat) by lra.
  clear X Hs. cbv [modesH Nat.eqb]. rewrite X0, X1, X2. clear X0 X1 X2.
  generalize (position gp 0%nat) (position gp 1%nat) (position gp 2%nat). clear gp gp'. intros.
  cases q; cases k; cases l; cbv [column nth signOf fst snd mul mt sum reflect Nat.eqb entries H4modes H9modes]; ring.
Qed.
Lemma all_gradient d W : (d = 2 \/ d = 3)%nat -> signedPermutation d W -> gradientModes d (d * d) (modesH d) W.
Proof.
  intros Hd HW.
  assert (Ml : forall gp gp', (forall a, (a < d)%nat -> position gp' a = position gp a) -> forall q k l, modesH d gp' q k l = modesH d gp q k l).
  { intros gp gp' H q k l. destruct Hd as [->| ->]; cbv [modesH Nat.eqb]; rewrite ?(H 0%nat), ?(H 1%nat), ?(H 2%nat) by lia; reflexivity. }
  apply (generated d (gradientModes d (d * d) (modesH d)) (gradient_ext _ _ _) (gradient_mul _ _ _) (gradient_id _ _ _ Ml)); try assumption.
  - intros k Hk. destruct Hd as [->| ->]; [cases k; [exact mode_H4_flip0|exact mode_H4_flip1]|cases k; [exact mode_H9_flip0|exact mode_H9_flip1|exact mode_H9_flip2]].
  - intros _. destruct Hd as [->| ->]; [exact mode_H4_swap0|exact mode_H9_swap0].
  - intros H3. destruct Hd as [->| ->]; [lia|exact mode_H9_swap1].
Qed.
