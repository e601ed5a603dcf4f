(** C46, C72, C70 (refutation): strains of given stresses for the Neo-Hooke material. *)

From Coq Require Import List Arith ZArith Reals Lra Lia Bool.
From Coquelicot Require Import Coquelicot.
From Verif Require Import Tensor_Model Tensor_Spec Tensor_Props SVK_Model SVK_Spec SVK_Props NeoHooke_Model NeoHooke_Props NeoHookeInversion_Proofs VanishingStress_Spec.
From Verif Require Import VanishingStress_Model VanishingStress_Props Newton_Model LinearAlgebra_Model.
Import ListNotations.
Local Open Scope R_scope.

Lemma checked lambda mu a : checkInvertability lambda mu a = true -> a <> 0 /\ - (3 / 2) ^ 3 * exp (- 3 - 2 * (mu / lambda)) < a.
Proof.
  unfold checkInvertability. replace (2 * mu / lambda) with (2 * (mu / lambda)) by (unfold Rdiv; ring).
  destruct (Req_EM_T a 0); [discriminate|]. destruct (Rlt_dec _ a); [|discriminate]. auto.
Qed.
Lemma checked_pos lambda mu a : 0 < a -> checkInvertability lambda mu a = true.
Proof.
  intros H. unfold checkInvertability. destruct (Req_EM_T a 0); [lra|].
  assert (P := exp_pos (- 3 - 2 * mu / lambda)). set (x := exp _) in *.
  replace (- (3 / 2) ^ 3 * x) with (- (27 / 8 * x)) by field.
  destruct (Rlt_dec _ a); [|lra]. destruct (Rle_dec _ _) as [Q|]; auto. exfalso.
  rewrite Rabs_right in Q by lra. rewrite (Rabs_right a) in Q by lra. rewrite Rabs_left in Q by lra.
  assert (M : Rmax a (- - (27 / 8 * x)) <= a + 27 / 8 * x) by (apply Rmax_lub; lra).
  assert (E : / 10 ^ 10 <= / 2). { apply Rinv_le_contravar; [lra|]. simpl. lra. }
  assert (0 < / 10 ^ 10). { apply Rinv_0_lt_compat. simpl. lra. }
  assert (0 < Rmax a (- - (27 / 8 * x))) by (eapply Rlt_le_trans; [exact H|apply Rmax_l]).
  assert (/ 10 ^ 10 * Rmax a (- - (27 / 8 * x)) <= / 2 * (a + 27 / 8 * x)) by (apply Rmult_le_compat; lra). lra.
Qed.

(** The returned strain: its determinant, its inverse and ln J *)
Lemma inverse_strain lambda mu W s C : lambert W -> mu <> 0 -> (lambda = 0 -> det3 (fun i j => mu * identity i j - s i j) <> 0) ->
  nhInverseStrain lambda mu W s = Some C -> (lambda = 0 -> 0 < det3 C) ->
  exists m, 0 < det3 C /\ m <> 0 /\ 3 * lambda + 2 * m <> 0 /\ m = mu - lambda * ln (sqrt (det3 C)) /\
    eq3 (fun i j => m * inv3 C i j) (fun i j => mu * identity i j - s i j) /\
    exists A, det3 A <> 0 /\ (symmetric 3 s -> symmetric 3 A) /\ eq3 C (inv3 A).
Proof.
  intros HW Hm HN H HD. unfold nhInverseStrain in H. destruct (Req_EM_T lambda 0) as [Z|Z].
  - injection H as <-. exists mu. subst lambda. specialize (HD eq_refl). specialize (HN eq_refl).
    set (A := fun i j => kron i j - 1 / mu * s i j) in *.
    assert (EA : eq3 A (fun i j => / mu * (mu * identity i j - s i j))).
    { intros i j _ _. unfold A, kron, identity. destruct (i =? j)%nat; field; auto. }
    assert (DA : det3 A <> 0).
    { rewrite (det3_ext _ _ EA), (det3_scale (/ mu) (fun i j => mu * identity i j - s i j)). apply Rmult_integral_contrapositive. split; auto.
      apply pow_nonzero. now apply Rinv_neq_0_compat. }
    split; auto. split; auto. split; [lra|]. split; [ring|]. split.
    + intros i j Hi Hj. rewrite inv3_inv, EA by auto. field. auto.
    + exists A. split; auto. split; [|intros i j _ _; reflexivity].
      intros Ss i j Hi Hj. unfold A, kron. rewrite (Ss i j), Nat.eqb_sym by auto. reflexivity.
  - cbv zeta in H. set (A := fun i j => 1 / lambda * (mu * kron i j - s i j)) in *.
    destruct (checkInvertability lambda mu (det3 A)) eqn:K; [|discriminate]. apply checked in K as [Na Ba]. clear HD HN.
    assert (L := lambert_solution W (mu / lambda) (det3 A) HW Na Ba). cbv zeta in L. unfold argument in L.
    replace (2 / 3 * mu / lambda) with (2 / 3 * (mu / lambda)) in H by (unfold Rdiv; ring).
    set (w := W _) in *. clearbody w. destruct L as (L1 & L2 & _ & L3).
    replace (mu / lambda - (mu / lambda - 3 / 2 * w)) with (3 / 2 * w) in H by ring. injection H as <-.
    set (B := fun i j => / (3 / 2 * w) * A i j).
    assert (N : / (3 / 2 * w) <> 0) by (apply Rinv_neq_0_compat; intros ?; apply L2; lra).
    assert (DB : det3 B <> 0). { unfold B. rewrite det3_scale. apply Rmult_integral_contrapositive. split; auto. now apply pow_nonzero. }
    assert (EC : eq3 (fun i j => 3 / 2 * w * inv3 A i j) (inv3 B)).
    { intros i j Hi Hj. unfold B. rewrite inv3_scale, Rinv_inv by auto. reflexivity. }
    assert (DC : det3 (fun i j => 3 / 2 * w * inv3 A i j) = exp (2 * (mu / lambda) - 3 * w)).
    { rewrite det3_scale, det3_inv by auto. unfold Rminus. rewrite exp_plus, exp_Ropp.
      assert (Q := exp_pos (3 * w)). apply (Rmult_eq_reg_r (det3 A * exp (3 * w))); [|apply Rmult_integral_contrapositive; split; auto; apply Rgt_not_eq; lra].
      transitivity (27 / 8 * (w ^ 3 * exp (3 * w))); [field; auto|]. rewrite L3. field. lra. }
    assert (P : 0 < det3 (fun i j => 3 / 2 * w * inv3 A i j)) by (rewrite DC; apply exp_pos).
    assert (J : ln (sqrt (det3 (fun i j => 3 / 2 * w * inv3 A i j))) = mu / lambda - 3 / 2 * w).
    { rewrite DC. replace (2 * (mu / lambda) - 3 * w) with ((mu / lambda - 3 / 2 * w) + (mu / lambda - 3 / 2 * w)) by (field; auto).
      rewrite exp_plus, sqrt_square by (left; apply exp_pos). apply ln_exp. }
    exists (lambda * (3 / 2 * w)). split; auto. split; [apply Rmult_integral_contrapositive; split; auto; intros ?; apply L2; lra|].
    split. { replace (3 * lambda + 2 * (lambda * (3 / 2 * w))) with (lambda * (3 * (1 + w))) by field. apply Rmult_integral_contrapositive. split; auto; intros ?; lra. }
    split; [rewrite J; field; auto|]. split.
    + intros i j Hi Hj. rewrite (inv3_ext _ _ EC i j Hi Hj), inv3_inv by auto. unfold B, A, kron, identity. destruct (i =? j)%nat; field; auto.
    + exists B. split; auto. split; auto. intros Ss i j Hi Hj. unfold B, A, kron. rewrite (Ss i j), Nat.eqb_sym by auto. reflexivity.
Qed.

(** C46: a stress that is inverted successfully is the stress of the returned strain, and the returned matrix is the inverse of the
    moduli there.  With lambda = 0, mu must not be a principal stress. *)
Theorem C46_inversion : forall lambda mu W inverse S D v,
  lambert W -> inverts inverse -> mu <> 0 -> symmetric 3 S ->
  (lambda = 0 -> det3 (fun i j => mu * identity i j - S i j) <> 0) ->
  nhMaterialInversion lambda mu W inverse S = Some (D, v) ->
  exists C s L, symmetric 3 C /\ 0 < det3 C /\ eqv 6 v (strainVector 3 C) /\
    nhStress lambda mu C = Some s /\ eq3 s S /\ nhModuli lambda mu C = Some L /\ isInverse 6 (voigtMatrix L) D.
Proof.
  intros lambda mu W inverse S D v HW HI Hm HS HN H. unfold nhMaterialInversion in H.
  destruct (nhInverseStrain lambda mu W S) as [C|] eqn:EC; [|discriminate].
  destruct (nhModuli lambda mu C) as [L|] eqn:EL; [|discriminate].
  assert (DC : 0 < det3 C). { unfold nhModuli, checkPositive in EL. destruct (Rle_dec (det3 C) 0); [discriminate|lra]. }
  destruct (inverse_strain lambda mu W S C HW Hm HN EC ltac:(auto)) as (m & _ & M1 & M2 & M3 & M4 & A & A1 & A2 & A3).
  assert (SC : symmetric 3 C). { intros i j Hi Hj. rewrite !A3 by auto. apply inv3_sym; auto. }
  assert (SI := inv3_sym C SC).
  exists C, (fun i j => mu * (kron i j - inv3 C i j) + lambda * ln (sqrt (det3 C)) * inv3 C i j), L.
  split; auto. split; auto.
  assert (RV : exists v', readVec 6 (toVoigt 3 C true) = Some v' /\ eqv 6 v' (strainVector 3 C)).
  { cbn. eexists. split; [reflexivity|]. intros i Hi. cases i; cbn; ring. }
  destruct RV as (v' & RV & Ev). rewrite RV in H. injection H as <- <-. split; auto.
  split; [unfold nhStress; now rewrite checkPositive_some by auto|]. split.
  { intros i j Hi Hj. assert (Q := M4 i j Hi Hj). cbv beta in Q. rewrite M3 in Q. unfold kron, identity in *. destruct (i =? j)%nat; lra. }
  split; auto.
  assert (EL' : L = fun i j k l => lambda * dyadic (inv3 C) (inv3 C) i j k l + 2 * m * symTwoSlots (fourthOrderIKJL (inv3 C) (inv3 C)) 2 3 i j k l).
  { unfold nhModuli in EL. rewrite checkPositive_some in EL by auto. injection EL as <-. rewrite M3. reflexivity. }
  assert (MS : minorSymmetric 3 L).
  { unfold nhModuli in EL. rewrite checkPositive_some in EL by auto. injection EL as <-. apply moduli_symmetric; auto. }
  assert (CO := compliance_ok lambda m C SC ltac:(lra) M1 M2). rewrite <- EL' in CO.
  set (M := fun a b => match toVoigtTensor L a b with Some x => x | None => 0 end).
  assert (EM : forall a b, (a < 6)%nat -> (b < 6)%nat -> M a b = voigtMatrix L a b).
  { intros a b Ha Hb. unfold M. now rewrite C36_matrix. }
  assert (X : isInverse 6 M (inverse 6%nat M)).
  { apply HI. exists (compliance lambda m C). intros i j Hi Hj. destruct (CO i j Hi Hj) as [Q1 Q2]. unfold mul in *. cbn [sum] in *.
    rewrite !EM by lia. auto. }
  intros i j Hi Hj. destruct (X i j Hi Hj) as [Q1 Q2]. unfold mul in *. cbn [sum] in *. rewrite !EM in * by lia. auto.
Qed.
Print Assumptions C46_inversion.

(** Conversely the strain of a state with ln J < mu / lambda is found again *)
Theorem C46_roundtrip : forall lambda mu W inverse C s,
  lambert W -> 0 < lambda -> symmetric 3 C ->
  nhStress lambda mu C = Some s -> ln (sqrt (det3 C)) < mu / lambda ->
  exists D v, nhMaterialInversion lambda mu W inverse s = Some (D, v) /\ eqv 6 v (strainVector 3 C).
Proof.
  intros lambda mu W inverse C s HW Hl SC Hs HJ. unfold nhStress, checkPositive in Hs.
  destruct (Rle_dec (det3 C) 0) as [|P]; [discriminate|]. injection Hs as Hs. assert (P' : 0 < det3 C) by lra. clear P.
  set (lj := ln (sqrt (det3 C))) in *.
  assert (Z : lambda <> 0) by lra. assert (DI : det3 (inv3 C) <> 0) by (rewrite det3_inv by lra; apply Rinv_neq_0_compat; lra).
  set (y := mu / lambda - lj). assert (Y : 0 < y) by (unfold y; lra).
  assert (E : exists C', nhInverseStrain lambda mu W s = Some C' /\ eq3 C' C).
  { unfold nhInverseStrain. destruct (Req_EM_T lambda 0); [lra|]. cbv zeta.
    set (A := fun i j => 1 / lambda * (mu * kron i j - s i j)).
    assert (EA : eq3 A (fun i j => y * inv3 C i j)).
    { intros i j Hi Hj. unfold A, y. rewrite <- Hs. field. auto. }
    assert (a1 : det3 A = y ^ 3 / det3 C). { rewrite (det3_ext _ _ EA), (det3_scale y (inv3 C)), det3_inv by lra. reflexivity. }
    assert (Y3 : 0 < y ^ 3) by now apply pow_lt.
    assert (a2 : 0 < det3 A) by (rewrite a1; apply Rdiv_lt_0_compat; auto).
    rewrite checked_pos by auto. eexists. split; [reflexivity|].
    assert (Wy : W (argument (mu / lambda) (det3 A)) = 2 / 3 * y).
    { replace (argument (mu / lambda) (det3 A)) with (2 / 3 * y * exp (2 / 3 * y)); [apply lambert_unique; auto; lra|].
      apply cube_inj. rewrite argument_cube by lra. rewrite Rpow_mult_distr, exp3, a1.
      assert (X : det3 C = exp (2 * lj)).
      { unfold lj. replace (2 * ln (sqrt (det3 C))) with (ln (sqrt (det3 C)) + ln (sqrt (det3 C))) by ring.
        rewrite exp_plus, exp_ln by (now apply sqrt_lt_R0). now rewrite sqrt_sqrt by lra. }
      rewrite X. replace (3 * (2 / 3 * y)) with (2 * (mu / lambda) + - (2 * lj)) by (unfold y; field; auto).
      rewrite exp_plus, exp_Ropp. assert (0 < exp (2 * lj)) by apply exp_pos. field. lra. }
    unfold argument in Wy. replace (2 / 3 * mu / lambda) with (2 / 3 * (mu / lambda)) by (unfold Rdiv; ring). rewrite Wy.
    intros i j Hi Hj. rewrite (inv3_ext _ _ EA i j Hi Hj), inv3_scale, inv3_inv by (auto; lra). field. lra. }
  destruct E as (C' & E & EC). unfold nhMaterialInversion. rewrite E.
  unfold nhModuli. rewrite (det3_ext _ _ EC), checkPositive_some by auto.
  cbn -[strainVector toVoigtTensor]. do 2 eexists. split; [reflexivity|].
  intros i Hi. cases i; cbn; rewrite !EC by lia; ring.
Qed.
Print Assumptions C46_roundtrip.

(** Which stresses are rejected: with lambda = 0 none that belongs to a strain; otherwise those of strains with ln J = mu / lambda, where
    the shear stiffness vanishes, and those with ln J close to mu / lambda + 3 / 2, where the bulk stiffness does. *)
Definition stateMeasure (m : R) : R := m ^ 3 * exp (2 * m).
Lemma stateMeasure_least m : stateMeasure (- (3 / 2)) <= stateMeasure m.
Proof.
  unfold stateMeasure. set (w := 2 / 3 * m).
  assert (L : - exp (-1) <= w * exp w).
  { assert (B := exp_ineq1_le (- (w + 1))). replace (1 + - (w + 1)) with (- w) in B by ring.
    replace (exp (- (w + 1))) with (exp (-1) / exp w) in B by (unfold Rdiv; rewrite <- exp_Ropp, <- exp_plus; f_equal; ring).
    assert (P := exp_pos w). apply (Rmult_le_compat_r (exp w)) in B; [|lra]. replace (exp (-1) / exp w * exp w) with (exp (-1)) in B by (field; lra). lra. }
  replace (m ^ 3 * exp (2 * m)) with (27 / 8 * (w * exp w) ^ 3).
  2:{ rewrite Rpow_mult_distr, exp3. unfold w. replace (3 * (2 / 3 * m)) with (2 * m) by field. field. }
  replace ((- (3 / 2)) ^ 3 * exp (2 * - (3 / 2))) with (27 / 8 * (- exp (-1)) ^ 3).
  2:{ replace ((- exp (-1)) ^ 3) with (- exp (-1) ^ 3) by ring. rewrite exp3. replace (3 * -1) with (2 * - (3 / 2)) by field. field. }
  apply Rmult_le_compat_l; [lra|]. set (a := - exp (-1)) in *. set (b := w * exp w) in *. clearbody a b.
  assert (b ^ 3 - a ^ 3 = (b - a) * ((b + a / 2) ^ 2 + 3 / 4 * a ^ 2)) by field.
  assert (0 <= (b + a / 2) ^ 2 + 3 / 4 * a ^ 2) by (pose proof (pow2_ge_0 (b + a / 2)); pose proof (pow2_ge_0 a); lra). nra.
Qed.

Theorem C46_rejects : forall lambda mu W inverse C s, lambert W -> mu <> 0 -> symmetric 3 C -> nhStress lambda mu C = Some s ->
  let m := mu / lambda - ln (sqrt (det3 C)) in
  nhMaterialInversion lambda mu W inverse s = None <->
    lambda <> 0 /\ (m = 0 \/ stateMeasure m - stateMeasure (- (3 / 2)) <= / 10 ^ 10 * Rmax (Rabs (stateMeasure m)) (Rabs (stateMeasure (- (3 / 2))))).
Proof.
  intros lambda mu W inverse C s HW Hm SC Hs m.
  assert (P' : 0 < det3 C). { unfold nhStress, checkPositive in Hs. destruct (Rle_dec (det3 C) 0); [discriminate|lra]. }
  assert (SS : symmetric 3 s).
  { unfold nhStress in Hs. rewrite checkPositive_some in Hs by auto. injection Hs as <-. intros i j Hi Hj. rewrite (inv3_sym C SC i j) by auto. unfold kron. rewrite (Nat.eqb_sym i j). reflexivity. }
  unfold nhStress in Hs. rewrite checkPositive_some in Hs by auto. injection Hs as Hs. set (lj := ln (sqrt (det3 C))) in *.
  assert (Ready : forall C', nhInverseStrain lambda mu W s = Some C' -> 0 < det3 C' -> nhMaterialInversion lambda mu W inverse s <> None).
  { intros C' E D. unfold nhMaterialInversion. rewrite E. unfold nhModuli. rewrite checkPositive_some by auto. cbn -[strainVector toVoigtTensor]. discriminate. }
  destruct (Req_EM_T lambda 0) as [Z|Z].
  - split; [|intros [N _]; contradiction]. intros N. exfalso. revert N. apply (Ready (inv3 (fun i j => kron i j - 1 / mu * s i j))).
    + unfold nhInverseStrain. destruct (Req_EM_T lambda 0); [reflexivity|contradiction].
    + assert (EA : eq3 (fun i j => kron i j - 1 / mu * s i j) (inv3 C)). { intros i j Hi Hj. rewrite <- Hs, Z. field. auto. }
      rewrite (det3_ext _ _ (inv3_ext _ _ EA)), det3_inv, det3_inv by (try rewrite det3_inv by lra; try apply Rinv_neq_0_compat; lra). rewrite Rinv_inv. exact P'.
  - set (A := fun i j => 1 / lambda * (mu * kron i j - s i j)).
    assert (EA : eq3 A (fun i j => m * inv3 C i j)). { intros i j Hi Hj. unfold A, m. rewrite <- Hs. field. auto. }
    assert (X : det3 C = exp (2 * lj)).
    { unfold lj. replace (2 * ln (sqrt (det3 C))) with (ln (sqrt (det3 C)) + ln (sqrt (det3 C))) by ring.
      rewrite exp_plus, exp_ln by (now apply sqrt_lt_R0). now rewrite sqrt_sqrt by lra. }
    set (c := exp (- 2 * (mu / lambda))). assert (Pc : 0 < c) by apply exp_pos.
    assert (a1 : det3 A = c * stateMeasure m).
    { rewrite (det3_ext _ _ EA), (det3_scale m (inv3 C)), det3_inv by lra. rewrite X, <- exp_Ropp. unfold stateMeasure, c.
      replace (- (2 * lj)) with (-2 * (mu / lambda) + 2 * m) by (unfold m; ring). rewrite exp_plus. ring. }
    assert (x1 : - (3 / 2) ^ 3 * exp (- 3 - 2 * mu / lambda) = c * stateMeasure (- (3 / 2))).
    { unfold stateMeasure, c. replace (- 3 - 2 * mu / lambda) with (-2 * (mu / lambda) + 2 * - (3 / 2)) by (field; auto). rewrite exp_plus. field. }
    assert (G := stateMeasure_least m). set (g := stateMeasure m) in *. set (x0 := stateMeasure (- (3 / 2))) in *.
    assert (Zm : det3 A = 0 <-> m = 0).
    { rewrite a1. unfold g, stateMeasure. assert (Q := exp_pos (2 * m)). split; [|intros ->; ring]. intros E.
      apply Rmult_integral in E. destruct E as [E|E]; [lra|]. apply Rmult_integral in E. destruct E as [E|E]; [|lra].
      destruct (Req_dec m 0) as [|Nm]; auto. exfalso. exact (pow_nonzero m 3 Nm E). }
    assert (Nr : Rabs (det3 A - - (3 / 2) ^ 3 * exp (- 3 - 2 * mu / lambda)) <= / 10 ^ 10 * Rmax (Rabs (det3 A)) (Rabs (- (3 / 2) ^ 3 * exp (- 3 - 2 * mu / lambda))) <->
                 g - x0 <= / 10 ^ 10 * Rmax (Rabs g) (Rabs x0)).
    { rewrite a1, x1, !Rabs_mult, (Rabs_pos_eq c), RmaxRmult by lra. rewrite <- Rmult_minus_distr_l, Rabs_mult, (Rabs_pos_eq c), (Rabs_pos_eq (g - x0)) by lra.
      set (M := Rmax (Rabs g) (Rabs x0)). set (e := / 10 ^ 10). clearbody M e. split; intros Q.
      - apply (Rmult_le_reg_l c); [exact Pc|]. lra.
      - replace (e * (c * M)) with (c * (e * M)) by ring. apply Rmult_le_compat_l; lra. }
    assert (K : checkInvertability lambda mu (det3 A) = false <-> m = 0 \/ g - x0 <= / 10 ^ 10 * Rmax (Rabs g) (Rabs x0)).
    { unfold checkInvertability. destruct (Req_EM_T (det3 A) 0) as [E|E]; [cbn [andb]; tauto|].
      destruct (Rle_dec _ _) as [Q|Q]; [rewrite Bool.andb_false_r; tauto|].
      destruct (Rlt_dec _ _) as [L|L]; [cbn [andb]; split; [discriminate|tauto]|]. exfalso. apply Q, Nr.
      assert (g = x0). { rewrite a1, x1 in L. apply Rle_antisym; [|exact G]. apply (Rmult_le_reg_l c); lra. }
      replace (g - x0) with 0 by lra. apply Rmult_le_pos; [left; apply Rinv_0_lt_compat; simpl; lra|]. eapply Rle_trans; [apply Rabs_pos|apply Rmax_l]. }
    destruct (checkInvertability lambda mu (det3 A)) eqn:Ec.
    + assert (E : exists C', nhInverseStrain lambda mu W s = Some C').
      { unfold nhInverseStrain. destruct (Req_EM_T lambda 0); [contradiction|]. cbv zeta. fold A. rewrite Ec. eexists. reflexivity. }
      destruct E as (C' & E). destruct (inverse_strain lambda mu W s C' HW Hm ltac:(intros; contradiction) E ltac:(intros; contradiction)) as (_ & D & _).
      split; [intros N; exfalso; exact (Ready C' E D N)|]. intros [_ Q]. apply K in Q. discriminate.
    + split; [intros _; split; [auto|apply K; reflexivity]|]. intros _. unfold nhMaterialInversion, nhInverseStrain. destruct (Req_EM_T lambda 0); [contradiction|]. cbv zeta. fold A. rewrite Ec. reflexivity.
Qed.
Print Assumptions C46_rejects.

(** Such states exist for every pair of positive parameters, among them the undeformed one and its neighbours *)
Example C46_applies : exists W C, lambert W /\ symmetric 3 C /\ C 0%nat 1%nat = 1 / 2 /\
  exists s, nhStress 1 1 C = Some s /\ ln (sqrt (det3 C)) < 1 / 1.
Proof.
  destruct lambert_exists as [W HW]. exists W, (fun i j => entries [[1; 1/2; 0]; [1/2; 1; 0]; [0; 0; 1]] i j).
  split; auto. split; [intros i j Hi Hj; cases i; cases j; reflexivity|]. split; [reflexivity|].
  assert (D : det3 (fun i j => entries [[1; 1/2; 0]; [1/2; 1; 0]; [0; 0; 1]] i j) = 3 / 4) by (unfold det3, entries; cbn; field).
  eexists. split; [unfold nhStress; rewrite checkPositive_some by lra; reflexivity|]. rewrite D.
  assert (sqrt (3 / 4) < 1) by (rewrite <- sqrt_1; apply sqrt_lt_1; lra). assert (0 < sqrt (3 / 4)) by (apply sqrt_lt_R0; lra).
  assert (ln (sqrt (3 / 4)) < ln 1) by (now apply ln_increasing). rewrite ln_1 in *. lra.
Qed.

(** C72: the returned strain need not be positive definite *)
Definition positiveDefinite (C : nat -> nat -> R) : Prop :=
  forall x : nat -> R, (exists i, (i < 3)%nat /\ x i <> 0) -> 0 < sum 3 (fun i => sum 3 (fun j => x i * C i j * x j)).

Theorem C72_admissible_refuted : forall W inverse, lambert W -> exists lambda mu S D v,
  0 < lambda /\ 0 < mu /\ symmetric 3 S /\ nhMaterialInversion lambda mu W inverse S = Some (D, v) /\
  v 0%nat < 0 /\ forall C, eqv 6 v (strainVector 3 C) -> ~ positiveDefinite C.
Proof.
  intros W inverse HW. exists 1, 1, (fun i j => entries [[2; 0; 0]; [0; 2; 0]; [0; 0; 0]] i j).
  set (S := fun i j => entries [[2; 0; 0]; [0; 2; 0]; [0; 0; 0]] i j).
  assert (SS : symmetric 3 S) by (intros i j Hi Hj; cases i; cases j; reflexivity).
  assert (E : exists w, 0 < w /\ nhInverseStrain 1 1 W S = Some (fun i j => 3 / 2 * w * inv3 (fun i j => 1 / 1 * (1 * kron i j - S i j)) i j)).
  { unfold nhInverseStrain. destruct (Req_EM_T 1 0); [lra|]. cbv zeta.
    set (A := fun i j => 1 / 1 * (1 * kron i j - S i j)).
    assert (DA : det3 A = 1) by (unfold det3, A, S, kron, entries; cbn; field).
    rewrite checked_pos by lra. rewrite DA.
    assert (B : - (3 / 2) ^ 3 * exp (- 3 - 2 * (1 / 1)) < 1).
    { replace (- (3 / 2) ^ 3 * exp (- 3 - 2 * (1 / 1))) with (- (27 / 8 * exp (- 3 - 2 * (1 / 1)))) by field.
      assert (P := exp_pos (- 3 - 2 * (1 / 1))). lra. }
    assert (L := lambert_solution W (1 / 1) 1 HW ltac:(lra) B). cbv zeta in L. destruct L as (_ & _ & L & _).
    unfold argument in L. replace (2 / 3 * 1 / 1) with (2 / 3 * (1 / 1)) by field.
    eexists. split; [apply L; lra|]. f_equal.
    match goal with |- (fun i j => ?c * _) = (fun i j => ?d * _) => replace c with d by field; reflexivity end. }
  destruct E as (w & Pw & E). unfold nhMaterialInversion. rewrite E.
  set (A := fun i j => 1 / 1 * (1 * kron i j - S i j)).
  assert (DA : det3 A = 1) by (unfold det3, A, S, kron, entries; cbn; field).
  assert (DC : 0 < det3 (fun i j => 3 / 2 * w * inv3 A i j)).
  { rewrite det3_scale, det3_inv, DA by lra. assert (0 < (3 / 2 * w) ^ 3) by (apply pow_lt; lra). lra. }
  assert (C0 : 3 / 2 * w * inv3 A 0%nat 0%nat = - (3 / 2 * w)).
  { unfold inv3. rewrite DA. unfold A, S, kron, entries. cbn. field. }
  unfold nhModuli. rewrite checkPositive_some by auto.
  cbn -[strainVector toVoigtTensor inv3]. fold A. do 2 eexists. split; [lra|]. split; [lra|]. split; auto. split; [reflexivity|].
  assert (N : 3 / 2 * w * inv3 A 0%nat 0%nat < 0) by (rewrite C0; lra). split; [exact N|].
  intros C EC PD. assert (Q := EC 0%nat ltac:(lia)). cbn -[inv3] in Q.
  assert (K := PD (fun i => if (i =? 0)%nat then 1 else 0)). cbn -[inv3] in K.
  assert (K' : 0 < C 0%nat 0%nat); [|rewrite <- Q in K'; lra].
  assert (X : exists i, (i < 3)%nat /\ (if (i =? 0)%nat then 1 else 0) <> 0) by (exists 0%nat; split; [lia|simpl; lra]).
  apply K in X. lra.
Qed.
Print Assumptions C72_admissible_refuted.

Lemma pd_det A : symmetric 3 A -> positiveDefinite A -> 0 < det3 A.
Proof.
  intros SA PD.
  assert (P0 : 0 < A 0%nat 0%nat).
  { assert (K := PD (fun i => if (i =? 0)%nat then 1 else 0)). cbn in K. 
    assert (X : exists i, (i < 3)%nat /\ (if (i =? 0)%nat then 1 else 0) <> 0) by (exists 0%nat; split; [lia|simpl; lra]). apply K in X. lra. }
  assert (S1 := SA 1%nat 0%nat ltac:(lia) ltac:(lia)). assert (S2 := SA 2%nat 0%nat ltac:(lia) ltac:(lia)). assert (S3 := SA 2%nat 1%nat ltac:(lia) ltac:(lia)).
  assert (P1 : 0 < A 0%nat 0%nat * A 1%nat 1%nat - A 0%nat 1%nat * A 0%nat 1%nat).
  { assert (K := PD (fun i => match i with 0%nat => - A 0%nat 1%nat | 1%nat => A 0%nat 0%nat | _ => 0 end)). cbn in K. rewrite S1 in K.
    lapply K; [clear K; intros X|exists 1%nat; split; [lia|simpl; lra]].
    apply (Rmult_lt_reg_l (A 0%nat 0%nat)); auto. lra. }
  set (m := A 0%nat 0%nat * A 1%nat 1%nat - A 0%nat 1%nat * A 0%nat 1%nat) in *.
  assert (K := PD (fun i => match i with 0%nat => A 0%nat 1%nat * A 1%nat 2%nat - A 0%nat 2%nat * A 1%nat 1%nat
    | 1%nat => A 0%nat 2%nat * A 0%nat 1%nat - A 0%nat 0%nat * A 1%nat 2%nat | _ => m end)). cbn in K.
  lapply K; [clear K; intros X|exists 2%nat; split; [lia|simpl; lra]]. rewrite S1, S2, S3 in X.
  apply (Rmult_lt_reg_l m); auto. unfold det3. rewrite S1, S2, S3. unfold m in *. lra.
Qed.

(** If all principal stresses are below mu, the inversion succeeds with a positive definite strain. *)
Theorem C72_admissible_partial : forall lambda mu W inverse S, lambert W -> 0 < lambda -> 0 < mu -> symmetric 3 S ->
  positiveDefinite (fun i j => mu * identity i j - S i j) ->
  exists D v C, nhMaterialInversion lambda mu W inverse S = Some (D, v) /\ eqv 6 v (strainVector 3 C) /\ symmetric 3 C /\ positiveDefinite C.
Proof.
  intros lambda mu W inverse S HW Hl Hm SS PD.
  set (A := fun i j => 1 / lambda * (mu * kron i j - S i j)).
  assert (SA : symmetric 3 A). { intros i j Hi Hj. unfold A, kron. rewrite (SS i j), Nat.eqb_sym by auto. reflexivity. }
  assert (PA : positiveDefinite A).
  { intros x Hx. assert (K := PD x Hx). unfold A. cbn [sum] in *. apply (Rmult_lt_reg_l lambda); auto. rewrite Rmult_0_r.
    eapply Rlt_le_trans; [exact K|]. right. unfold kron, identity. cbn. field. lra. }
  assert (a2 := pd_det A SA PA).
  assert (B : - (3 / 2) ^ 3 * exp (- 3 - 2 * (mu / lambda)) < det3 A).
  { replace (- (3 / 2) ^ 3 * exp (- 3 - 2 * (mu / lambda))) with (- (27 / 8 * exp (- 3 - 2 * (mu / lambda)))) by field.
    assert (P := exp_pos (- 3 - 2 * (mu / lambda))). lra. }
  assert (L := lambert_solution W (mu / lambda) (det3 A) HW ltac:(lra) B). cbv zeta in L. destruct L as (_ & _ & L & _). specialize (L a2).
  unfold nhMaterialInversion, nhInverseStrain. destruct (Req_EM_T lambda 0); [lra|]. cbv zeta. fold A. rewrite checked_pos by auto.
  unfold argument in L. replace (2 / 3 * mu / lambda) with (2 / 3 * (mu / lambda)) by (unfold Rdiv; ring). set (w := W _) in *. clearbody w.
  replace (mu / lambda - (mu / lambda - 3 / 2 * w)) with (3 / 2 * w) by ring.
  assert (SI := inv3_sym A SA).
  assert (DC : 0 < det3 (fun i j => 3 / 2 * w * inv3 A i j)).
  { rewrite det3_scale, det3_inv by lra. apply Rmult_lt_0_compat; [apply pow_lt; lra|]. now apply Rinv_0_lt_compat. }
  unfold nhModuli. rewrite checkPositive_some by auto. cbn -[strainVector toVoigtTensor inv3].
  do 2 eexists. exists (fun i j => 3 / 2 * w * inv3 A i j). split; [reflexivity|]. split; [|split].
  - intros i Hi. cases i; cbn -[inv3]; ring.
  - intros i j Hi Hj. now rewrite (SI i j).
  - intros x (k & Hk & Nk). set (y := fun i => sum 3 (fun j => inv3 A i j * x j)).
    assert (Xy : forall i, (i < 3)%nat -> x i = sum 3 (fun j => A i j * y j)).
    { intros i Hi. assert (I := inv3_spec A ltac:(lra)). 
      assert (I0 := proj1 (I i 0%nat Hi ltac:(lia))). assert (I1 := proj1 (I i 1%nat Hi ltac:(lia))). assert (I2 := proj1 (I i 2%nat Hi ltac:(lia))).
      unfold mul, y in *. cbn [sum] in *.
      transitivity (identity i 0%nat * x 0%nat + identity i 1%nat * x 1%nat + identity i 2%nat * x 2%nat).
      - unfold identity. cases i; cbn; ring.
      - rewrite <- I0, <- I1, <- I2. ring. }
    assert (Ny : exists i, (i < 3)%nat /\ y i <> 0).
    { destruct (Req_dec (y 0%nat) 0) as [Z0|]; [|exists 0%nat; split; auto; lia].
      destruct (Req_dec (y 1%nat) 0) as [Z1|]; [|exists 1%nat; split; auto; lia].
      destruct (Req_dec (y 2%nat) 0) as [Z2|]; [|exists 2%nat; split; auto; lia].
      exfalso. apply Nk. rewrite Xy by auto. cbn [sum]. rewrite Z0, Z1, Z2. ring. }
    assert (K := PA y Ny).
    replace (sum 3 (fun i => sum 3 (fun j => x i * (3 / 2 * w * inv3 A i j) * x j)))
      with (3 / 2 * w * sum 3 (fun i => sum 3 (fun j => y i * A i j * y j))); [apply Rmult_lt_0_compat; lra|].
    transitivity (3 / 2 * w * (y 0%nat * x 0%nat + y 1%nat * x 1%nat + y 2%nat * x 2%nat)).
    + rewrite !Xy by lia. cbn [sum]. ring.
    + unfold y. cbn [sum]. ring.
Qed.
Print Assumptions C72_admissible_partial.

Example C72_applies : positiveDefinite (fun i j => 1 * identity i j - entries [[1/2; 0; 0]; [0; -3; 0]; [0; 0; 0]] i j).
Proof.
  intros x (i & Hi & N). cbn. 
  assert (0 <= x 0%nat * x 0%nat) by apply Rle_0_sqr. assert (0 <= x 1%nat * x 1%nat) by apply Rle_0_sqr. assert (0 <= x 2%nat * x 2%nat) by apply Rle_0_sqr.
  assert (0 < x i * x i) by (now apply Rsqr_pos_lt). cases i; lra.
Qed.

(** ** C70 for the Neo-Hooke material *)
Definition nhStressV (lambda mu : R) (C : rmat) (k : nat) : R :=
  match nhStress lambda mu C with Some s => stressVector 3 s k | None => 0 end.
Definition nhModuliV (lambda mu : R) (C : rmat) (a b : nat) : R :=
  match nhModuli lambda mu C with Some L => voigtMatrix L a b | None => 0 end.

Lemma reduce_at_once stress moduli factor unitStart inverse fixed fx tol E :
  normOf fx (residualOf stress fx (initUnknownStrains unitStart fixed E)) <= tol ->
  reduceStress stress moduli factor unitStart inverse fixed fx tol E = Some (initUnknownStrains unitStart fixed E).
Proof.
  intros H. unfold reduceStress, nrSolve, nrStart. cbv zeta.
  change (Z.to_nat (Z.max (nr_maxIter (mkNRSettings tol 100 0)) (nr_minIter (mkNRSettings tol 100 0)))) with (Datatypes.S 99).
  cbn [nrLoop]. unfold nrCond. cbn [nr_tol nr_maxIter nr_minIter emit s_d s_w].
  destruct (rgt _ tol) eqn:G; [apply rgt_spec in G; lra|]. reflexivity.
Qed.

(** C70: makeVanishingStress<{0,1}> of a Neo-Hooke material: the stress 01 is not zero, whatever the tolerance *)
Theorem C70_vanishing_refuted : forall tol inverse, 0 <= tol -> exists lambda mu E E',
  0 < lambda /\ 0 < mu /\ symmetric 3 E /\ 0 < det3 E /\
  reduceStress (nhStressV lambda mu) (nhModuliV lambda mu) 2 true inverse [(0, 1)]%nat [5%nat] tol E = Some E' /\
  tol < Rabs (nhStressV lambda mu E' 5%nat).
Proof.
  intros tol inverse Ht. set (E := fun i j => entries [[1; 0; 1/2]; [0; 1; 1/2]; [1/2; 1/2; 1]] i j).
  set (mu := 2 * tol + 1). exists 1, mu, E, (initUnknownStrains true [(0, 1)]%nat E).
  split; [lra|]. split; [unfold mu; lra|]. split; [intros i j Hi Hj; cases i; cases j; reflexivity|].
  assert (D : det3 E = 1 / 2) by (unfold det3, E, entries; cbn; field). split; [lra|]. split.
  - apply reduce_at_once. unfold normOf. cbn. rewrite sqrt_0. lra.
  - assert (EE : eq3 (initUnknownStrains true [(0, 1)]%nat E) E).
    { intros i j Hi Hj. cases i; cases j; reflexivity. }
    assert (D' : det3 (initUnknownStrains true [(0, 1)]%nat E) = 1 / 2) by (rewrite (det3_ext _ _ EE); exact D).
    unfold nhStressV, nhStress. rewrite checkPositive_some by lra. cbn -[inv3 initUnknownStrains]. rewrite (inv3_ext _ _ EE) by lia. rewrite D'.
    assert (I : inv3 E 0%nat 1%nat = 1 / 2) by (unfold inv3; rewrite D; unfold E, entries; cbn; field). rewrite I.
    assert (L : ln (sqrt (1 / 2)) < 0).
    { rewrite <- ln_1. apply ln_increasing; [apply sqrt_lt_R0; lra|]. assert (X : sqrt (1 / 2) < sqrt 1) by (apply sqrt_lt_1; lra). rewrite sqrt_1 in X. exact X. }
    unfold kron. cbn. rewrite Rabs_left; unfold mu; lra.
Qed.
Print Assumptions C70_vanishing_refuted.

(** For plane stress of the Neo-Hooke material all three stresses vanish (the normal stress within the tolerance) *)
Theorem C70_plane_stress_partial : forall lambda mu tol inverse C C', symmetric 3 C -> 0 <= tol ->
  reduceStress (nhStressV lambda mu) (nhModuliV lambda mu) 2 true inverse planeStressPairs planeStressIndices tol C = Some C' ->
  Rabs (nhStressV lambda mu C' 2%nat) <= tol /\ nhStressV lambda mu C' 3%nat = 0 /\ nhStressV lambda mu C' 4%nat = 0.
Proof.
  intros lambda mu tol inverse C C' SC Ht H.
  destruct (C70_reduction_partial (nhStressV lambda mu) (nhModuliV lambda mu) 2 true inverse planeStressPairs planeStressIndices tol C C') as (T & O & F); auto.
  { intros k Hk K3. unfold planeStressIndices, planeStressPairs in *. cases k; simpl in *; try tauto; exfalso; intuition discriminate. }
  destruct (O 2%nat 1%nat) as [Z1 Z2]; [simpl; auto|lia|]. destruct (O 2%nat 0%nat) as [Z3 Z4]; [simpl; auto|lia|].
  split; [apply T; [simpl; auto|lia]|].
  unfold nhStressV, nhStress, checkPositive. destruct (Rle_dec (det3 C') 0); [auto|].
  cbn -[inv3]. unfold inv3, entries. cbn. rewrite ?Z1, ?Z2, ?Z3, ?Z4. unfold kron. cbn. unfold Rdiv. split; ring.
Qed.
Print Assumptions C70_plane_stress_partial.
