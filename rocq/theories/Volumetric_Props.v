(** C49, C50, C74: the volumetric functions. *)

From Coq Require Import List Reals Lra Lia.
From Coquelicot Require Import Coquelicot.
From Verif Require Import Volumetric_Model.
Local Open Scope R_scope.

(** The parameters for which the functions are defined *)
Definition admissible (f : volumetricFunction) : Prop :=
  match f with
  | VF4 beta => beta <> 0
  | VF10 beta => beta <> 0 /\ beta <> 1
  | _ => True
  end.

Lemma exp_neg x : exp (- x) = / exp x. Proof. apply exp_Ropp. Qed.

Theorem C49_derivatives : forall kappa f J, admissible f -> 0 < J ->
  is_derive (volEnergy kappa f) J (volFirst kappa f J) /\ is_derive (volFirst kappa f) J (volSecond kappa f J).
Proof.
  intros kappa f J A P. assert (N : J <> 0) by lra.
  destruct f; cbn [admissible] in A; unfold volEnergy, volFirst, volSecond, vfEnergy, vfFirst, vfSecond, Rpower.
  1-4, 6-7, 9-10, 12-13: split; (auto_derive; [repeat split; auto; try (repeat apply Rmult_integral_contrapositive_currified; auto; lra)|field; auto]).
  - assert (E : forall x, exp x <> 0) by (intros x; apply Rgt_not_eq, exp_pos).
    assert (EJ : exp (ln J) = J) by now apply exp_ln.
    split; (auto_derive; [repeat split; auto|]).
    + replace ((1 + beta) * ln J) with (ln J + beta * ln J) by ring. rewrite exp_plus, EJ. field. auto.
    + replace ((1 + beta) * ln J) with (ln J + beta * ln J) by ring. replace ((2 + beta) * ln J) with (ln J + ln J + beta * ln J) by ring.
      rewrite !exp_plus, EJ. field. auto.
  - assert (E : forall x, exp x <> 0) by (intros x; apply Rgt_not_eq, exp_pos).
    assert (EJ : exp (ln J) = J) by now apply exp_ln. assert (EN : exp (- ln J) = / J) by (now rewrite exp_neg, EJ).
    split; (auto_derive; [repeat split; auto|]).
    + replace ((1 - beta) * ln J) with (ln J + - (beta * ln J)) by ring. rewrite exp_plus, EJ, exp_neg. field. auto.
    + replace ((1 - beta) * ln J) with (ln J + - (beta * ln J)) by ring. replace ((beta - 2) * ln J) with (beta * ln J + - ln J + - ln J) by ring.
      rewrite !exp_plus, EN, EJ, !exp_neg. field. auto.
  - destruct A as [B0 B1]. assert (E : forall x, exp x <> 0) by (intros x; apply Rgt_not_eq, exp_pos).
    assert (EJ : exp (ln J) = J) by now apply exp_ln. assert (EN : exp (- ln J) = / J) by (now rewrite exp_neg, EJ).
    split; (auto_derive; [repeat split; auto|]).
    + field. repeat split; auto; lra.
    + replace ((-1 - beta) * ln J) with (- beta * ln J + - ln J) by ring. rewrite exp_plus, EN. field. auto.
Qed.
Print Assumptions C49_derivatives.

Lemma pow1 b : Rpower 1 b = 1.
Proof. unfold Rpower. rewrite ln_1, Rmult_0_r. apply exp_0. Qed.

(** C50: energy and first derivative vanish at J = 1, except for the energy of VF10 and the first derivative of VF12 *)
Theorem C50_reference_partial : forall f, admissible f ->
  (match f with VF10 _ => True | _ => vfEnergy f 1 = 0 end) /\ (match f with VF12 => True | _ => vfFirst f 1 = 0 end).
Proof. intros f A. destruct f; cbn in *; rewrite ?pow1, ?ln_1; split; auto; try (destruct A as [A _]); field; auto. Qed.
Print Assumptions C50_reference_partial.

Theorem C50_reference_refuted : (forall beta, admissible (VF10 beta) -> vfEnergy (VF10 beta) 1 = 2 / (beta - 1) /\ vfEnergy (VF10 beta) 1 <> 0) /\
  exists beta, admissible (VF10 beta) /\ vfEnergy (VF10 beta) 1 < 0.
Proof.
  assert (V : forall beta, admissible (VF10 beta) -> vfEnergy (VF10 beta) 1 = 2 / (beta - 1)).
  { intros beta [B0 B1]. cbn. rewrite pow1. field. repeat split; lra. }
  split.
  - intros beta A. split; auto. rewrite V by auto. destruct A as [B0 B1]. apply Rmult_integral_contrapositive. split; [lra|]. apply Rinv_neq_0_compat. lra.
  - exists (1 / 2). assert (A : admissible (VF10 (1 / 2))) by (split; lra). split; auto. rewrite V by auto. lra.
Qed.
Print Assumptions C50_reference_refuted.

(** C74: the parameter of the volumetric part is the modulus at J = 1 *)
Theorem C74_modulus : forall kappa f, admissible f ->
  volSecond kappa f 1 = match f with VF0 | VF12 => 0 | VF7 beta => kappa * beta ^ 2 | _ => kappa end.
Proof. intros kappa f A. destruct f; unfold volSecond, vfSecond; cbn [admissible] in A; rewrite ?pow1, ?ln_1; field; auto. Qed.
Print Assumptions C74_modulus.

(** J = 1 is the minimum of the energy (VF10: up to the offset; VF7 for beta <> 0) *)
Definition minimum (f : volumetricFunction) : Prop := match f with VF0 | VF12 => False | VF7 beta => beta <> 0 | _ => True end.

Lemma ln_le x : 0 < x -> ln x <= x - 1.
Proof.
  intros P. destruct (Req_dec x 1) as [->|N]; [rewrite ln_1; lra|].
  assert (L : ln x <> 0). { intros Z. apply N. rewrite <- (exp_ln x), Z by auto. apply exp_0. }
  assert (E := exp_ineq1 (ln x) L). rewrite exp_ln in E by auto. lra.
Qed.
Lemma ln_lt x : 0 < x -> x <> 1 -> ln x < x - 1.
Proof.
  intros P N. assert (L : ln x <> 0). { intros Z. apply N. rewrite <- (exp_ln x), Z by auto. apply exp_0. }
  assert (E := exp_ineq1 (ln x) L). rewrite exp_ln in E by auto. lra.
Qed.
Lemma ln_ne x : 0 < x -> x <> 1 -> ln x <> 0.
Proof. intros P N Z. apply N. rewrite <- (exp_ln x), Z by auto. apply exp_0. Qed.
Lemma sq_pos x : x <> 0 -> 0 < x ^ 2.
Proof. intros N. assert (0 < x²) by now apply Rsqr_pos_lt. unfold Rsqr in *. simpl. lra. Qed.

Lemma sign_exp beta x : beta <> 0 -> 0 < x -> 0 < 1 / beta * (1 - exp (- beta * x)).
Proof.
  intros B P. unfold Rdiv. rewrite Rmult_1_l. destruct (Rlt_dec 0 beta) as [Q|Q].
  - apply Rmult_lt_0_compat; [now apply Rinv_0_lt_compat|]. assert (exp (- beta * x) < exp 0) by (apply exp_increasing; nra). rewrite exp_0 in *. lra.
  - rewrite <- Rmult_opp_opp. apply Rmult_lt_0_compat.
    + assert (/ beta < 0) by (apply Rinv_lt_0_compat; lra). lra.
    + assert (exp 0 < exp (- beta * x)) by (apply exp_increasing; nra). rewrite exp_0 in *. lra.
Qed.
Lemma vf10_sign beta c : beta <> 0 -> 1 < c -> 0 < vfFirst (VF10 beta) c.
Proof. intros B H. apply sign_exp; auto. rewrite <- ln_1. apply ln_increasing; lra. Qed.
Lemma vf10_sign' beta c : beta <> 0 -> 0 < c < 1 -> vfFirst (VF10 beta) c < 0.
Proof.
  intros B H. assert (L : 0 < - ln c). { assert (ln c < ln 1) by (apply ln_increasing; lra). rewrite ln_1 in *. lra. }
  assert (Q := sign_exp (- beta) (- ln c) ltac:(lra) L). unfold vfFirst, Rpower.
  replace (- - beta * - ln c) with (- beta * ln c) in Q by ring. replace (1 / - beta) with (- (1 / beta)) in Q by (field; auto). lra.
Qed.

Theorem C74_minimum : forall f J, admissible f -> minimum f -> 0 < J -> J <> 1 -> vfEnergy f 1 < vfEnergy f J.
Proof.
  intros f J A M P N. assert (L := ln_ne J P N). assert (L2 := sq_pos (ln J) L). assert (J2 := sq_pos (J - 1) ltac:(lra)).
  assert (PI : 0 < / J) by now apply Rinv_0_lt_compat.
  destruct f; cbn [admissible minimum] in *; try tauto; unfold vfEnergy; rewrite ?pow1, ?ln_1.
  - simpl. simpl in J2. lra.
  - simpl in *. lra.
  - simpl in *. lra.
  - (* VF4: x - 1 - ln x at x = J^-beta *)
    assert (X : ln (/ Rpower J beta) = - (beta * ln J)) by (unfold Rpower; rewrite <- exp_neg, ln_exp; ring).
    assert (PX : 0 < / Rpower J beta) by (apply Rinv_0_lt_compat, exp_pos).
    assert (NX : / Rpower J beta <> 1).
    { intros E. rewrite E, ln_1 in X. assert (beta * ln J <> 0) by now apply Rmult_integral_contrapositive. lra. }
    assert (Q := ln_lt _ PX NX). rewrite X in Q. assert (B := sq_pos beta A).
    assert (0 < 1 / beta ^ 2 * (1 / Rpower J beta - 1 + beta * ln J)).
    { apply Rmult_lt_0_compat; [unfold Rdiv; rewrite Rmult_1_l; now apply Rinv_0_lt_compat|]. unfold Rdiv. rewrite Rmult_1_l. lra. }
    assert (Z : 1 / beta ^ 2 * (1 / 1 - 1 + beta * 0) = 0) by (field; auto). lra.
  - assert (Q := ln_lt (J * J) ltac:(nra)). rewrite ln_mult in Q by auto. assert (J * J <> 1) by (intros E; apply N; nra). apply Q in H. simpl. lra.
  - assert (Q := ln_lt J P N). lra.
  - (* VF7: with y = J^beta: y (ln y - 1) + 1 *)
    assert (X : ln (Rpower J beta) = beta * ln J) by (unfold Rpower; apply ln_exp).
    assert (PX : 0 < Rpower J beta) by apply exp_pos. set (y := Rpower J beta) in *.
    assert (NX : / y <> 1).
    { intros E. assert (y = 1) by (rewrite <- (Rinv_inv y), E; field). rewrite H, ln_1 in X. assert (beta * ln J <> 0) by now apply Rmult_integral_contrapositive. lra. }
    assert (Q := ln_lt (/ y) ltac:(now apply Rinv_0_lt_compat) NX). rewrite ln_Rinv in Q by auto. rewrite <- X.
    assert (y * (- ln y) < y * (/ y - 1)) by (apply Rmult_lt_compat_l; auto). rewrite Rmult_minus_distr_l, Rinv_r in H by lra. lra.
  - assert (NX : / J <> 1) by (intros E; apply N; rewrite <- (Rinv_inv J), E; field).
    assert (Q := ln_lt (/ J) ltac:(now apply Rinv_0_lt_compat) NX). rewrite ln_Rinv in Q by auto.
    assert (J * (- ln J) < J * (/ J - 1)) by (apply Rmult_lt_compat_l; auto). rewrite Rmult_minus_distr_l, Rinv_r in H by lra. lra.
  - assert (X : J ^ 2 - / J ^ 2 <> 0).
    { intros E. apply N. assert (Q : (J ^ 2 - / J ^ 2) * J ^ 2 = 0) by (rewrite E; ring).
      replace ((J ^ 2 - / J ^ 2) * J ^ 2) with ((J - 1) * ((J + 1) * (J * J + 1))) in Q by (field; lra).
      apply Rmult_integral in Q. destruct Q as [Q|Q]; [lra|]. exfalso. assert (0 < (J + 1) * (J * J + 1)) by (apply Rmult_lt_0_compat; nra). lra. }
    apply sq_pos in X. assert (Z : 1 / 32 * (1 ^ 2 - / 1 ^ 2) ^ 2 = 0) by field. rewrite Z. lra.
  - (* VF10: the derivative (1 - J^-beta) / beta has the sign of J - 1 *)
    assert (D : forall x, 0 < x -> derivable_pt_lim (vfEnergy (VF10 beta)) x (vfFirst (VF10 beta) x)).
    { intros x Px. apply is_derive_Reals. destruct (C49_derivatives 1 (VF10 beta) x A Px) as [D _]. unfold volEnergy, volFirst in D.
      rewrite Rmult_1_l in D. eapply is_derive_ext; [|exact D]. intros t. cbv beta. apply Rmult_1_l. }
    assert (G : vfEnergy (VF10 beta) 1 < vfEnergy (VF10 beta) J).
    { destruct A as [B0 B1]. destruct (Rlt_dec 1 J) as [J1|J1].
      - destruct (MVT_cor2 (vfEnergy (VF10 beta)) (vfFirst (VF10 beta)) 1 J J1) as (c & E & C1 & C2); [intros; apply D; lra|].
        assert (0 < vfFirst (VF10 beta) c * (J - 1)); [|lra]. apply Rmult_lt_0_compat; [|lra]. now apply vf10_sign.
      - destruct (MVT_cor2 (vfEnergy (VF10 beta)) (vfFirst (VF10 beta)) J 1 ltac:(lra)) as (c & E & C1 & C2); [intros; apply D; lra|].
        assert (0 < - vfFirst (VF10 beta) c * (1 - J)); [|lra]. apply Rmult_lt_0_compat; [|lra].
        assert (vfFirst (VF10 beta) c < 0) by (apply vf10_sign'; auto; lra). lra. }
    unfold vfEnergy in G. rewrite pow1 in G. exact G.
  - assert (X : J ^ 5 <> 1). { intros E. assert (Q : (J - 1) * (J ^ 4 + J ^ 3 + J ^ 2 + J + 1) = 0) by (replace 0 with (J ^ 5 - 1) by lra; ring).
      apply Rmult_integral in Q. assert (0 < J ^ 4 + J ^ 3 + J ^ 2 + J + 1) by (assert (0 < J ^ 4) by (now apply pow_lt); assert (0 < J ^ 3) by (now apply pow_lt); assert (0 < J ^ 2) by (now apply pow_lt); lra). lra. }
    assert (P5 : 0 < J ^ 5) by now apply pow_lt. assert (I5 : 0 < / J ^ 5) by now apply Rinv_0_lt_compat.
    assert (J ^ 5 + / J ^ 5 - 2 = (J ^ 5 - 1) ^ 2 * / J ^ 5) by (field; lra). rewrite H.
    assert (0 < (J ^ 5 - 1) ^ 2 * / J ^ 5) by (apply Rmult_lt_0_compat; auto; apply sq_pos; lra).
    assert (Z : 1 / 50 * (1 ^ 5 + / 1 ^ 5 - 2) = 0) by field. lra.
Qed.
Print Assumptions C74_minimum.

Example C49_applies : admissible (VF10 (1 / 2)) /\ minimum (VF7 3) /\ 0 < 2 /\ vfFirst (VF7 3) 2 <> 0.
Proof.
  split; [split; lra|]. split; [simpl; lra|]. split; [lra|]. unfold vfFirst.
  assert (0 < Rpower 2 (1 - 3)) by apply exp_pos. assert (0 < / Rpower 2 (1 - 3)) by now apply Rinv_0_lt_compat.
  assert (0 < ln 2) by (rewrite <- ln_1; apply ln_increasing; lra). apply Rgt_not_eq. unfold Rdiv. rewrite Rmult_1_l.
  apply Rmult_lt_0_compat; auto. apply Rmult_lt_0_compat; auto. simpl. lra.
Qed.
