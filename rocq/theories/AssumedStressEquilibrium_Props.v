(** Property C160, assumed stress elements that are not linear: how far the equations of the stress parameters are violated after an update
    of the parameters, and how far the element's vector is then from the forces. *)

From Coq Require Import Reals Arith Bool List Lia Lra FunctionalExtensionality.
From Coquelicot Require Import Coquelicot.
From Verif Require Import Tensor_Spec Conversions_Spec Conversions_Props Tensor_Model Element_Spec Element_Model Element_Proofs Element_Props.
From Verif Require Import Spectral_Proofs Eas_Spec Eas_Model Eas_Proofs Eas_Props AssumedStress_Spec AssumedStress_Model AssumedStress_Proofs.
From Verif Require Import AssumedStress_Props EasEquilibrium_Props.
Import ListNotations.
Local Open Scope R_scope.

(** The rate of a function of two groups of unknowns along a straight line *)
Lemma rateAlong N p (f : (nat -> R) -> (nat -> R) -> R) g h u du b db t :
  isGradient2 N p f g h (along u du t) (along b db t) -> is_derive (fun t => f (along u du t) (along b db t)) t (dot N g du + dot p h db).
Proof.
  intros HR.
  assert (P : forall m x v, passes m (fun r => along x v (t + r)) (along x v t) v).
  { intros m x v k _. split; [unfold along; ring|]. unfold along. auto_derive; [exact I|ring]. }
  specialize (HR _ _ _ _ (P N u du) (P p b db)). cbv beta in HR.
  apply (is_derive_ext (fun r => f (along u du (t + (r - t))) (along b db (t + (r - t))))).
  { intros r. assert (Er : t + (r - t) = (r : R)) by (clear; cbn in r |- *; lra). rewrite Er. reflexivity. }
  rewrite <- (Rmult_1_l (dot N _ du + _)).
  apply (is_derive_comp (fun r => f (along u du (t + r)) (along b db (t + r))) (fun r => r - t)).
  - replace (t - t) with 0 by ring. exact HR.
  - auto_derive; [exact I|reflexivity].
Qed.

Section AssumedStress.
  Variables (d n s p : nat) (points : list point).
  Hypothesis dpos : (0 < d)%nat.
  Variable eps : point -> (nat -> R) -> nat -> R.
  Variable bop : point -> (nat -> R) -> nat -> nat -> nat -> R.
  Variable kg : point -> (nat -> R) -> (nat -> R) -> nat -> nat -> nat -> nat -> R.
  Variable P : point -> nat -> nat -> R.
  Variables (chi : (nat -> R) -> R) (Es : (nat -> R) -> nat -> R) (Dc : (nat -> R) -> nat -> nat -> R).
  Variable materialInversion : (nat -> R) -> (nat -> R) -> (nat -> nat -> R) * (nat -> R).
  Variable inverse : (nat -> nat -> R) -> nat -> nat -> R.
  Let N := (d * n)%nat.
  Let state := stateAt s p P Es Dc.
  Let force u st := asForces d n s p points bop P u st zeroVector.
  Let rest u st := asRtilde s points eps P u st.
  Let G u := asG d n s points bop P u.
  Let H b := asH s points P (state b).
  Let vectorOf := asVectorImpl d n s p points eps bop P inverse.
  Let updated u du b := updateState d n s p points eps bop P materialInversion inverse u du (state b).

  (** The update of the stress parameters solves the linearised equation exactly *)
  Theorem C160_stress_update u du b q : isInverse p (H b) (inverse (H b)) -> (q < p)%nat ->
    rest u (state b) q + dot N (G u q) du - dot p (H b q) (fun r => beta (updated u du b) r - b r) = 0.
  Proof.
    intros (HZ & _) Hq. set (y r := rest u (state b) r + dot N (G u r) du).
    assert (W : forall r, beta (updated u du b) r - b r = sum p (fun l => inverse (H b) r l * y l)).
    { intros r. transitivity (b r + sum p (fun l => inverse (H b) r l * y l) - b r); [reflexivity|ring]. }
    change (y q - dot p (H b q) (fun r => beta (updated u du b) r - b r) = 0).
    replace (dot p (H b q) (fun r => beta (updated u du b) r - b r)) with (y q); [ring|].
    transitivity (sum p (fun r => mul p (H b) (inverse (H b)) q r * y r)).
    - rewrite (sum_ext p _ (fun r => identity q r * y r)); [rewrite sum_id_l by assumption; ring|]. intros r Hr. rewrite HZ by assumption. reflexivity.
    - unfold dot. rewrite (sum_ext p (fun i => H b q i * _) (fun i => sum p (fun r => H b q i * inverse (H b) i r * y r))).
      + rewrite sum_swap. apply sum_ext. intros r _. unfold mul. rewrite <- !sum_mul_r. reflexivity.
      + intros i _. rewrite W, <- sum_mul_l. apply sum_ext. intros. ring.
  Qed.

  (** C160: with the state that is stored after the update the equation of the stress parameters is violated by no more than half the change
      of its derivative along the step *)
  Theorem C160_stress_defect u du b q M : (forall T e, materialInversion T e = (Dc T, Es T)) ->
    isInverse p (H b) (inverse (H b)) -> (q < p)%nat ->
    let db r := beta (updated u du b) r - b r in
    (forall t, 0 <= t <= 1 -> suited d n s p points eps bop kg P chi Es Dc (along u du t) (along b db t)) ->
    (forall t, 0 <= t <= 1 -> Rabs (dot N (fun k => G (along u du t) q k - G u q k) du -
       dot p (fun r => H (along b db t) q r - H b q r) db) <= M * t) ->
    Rabs (rest (fun k => u k + du k) (updated u du b) q) <= M / 2.
  Proof.
    intros Inv HI Hq db HS HM.
    assert (A0 : forall x v, along x v 0 = x) by (intros; apply functional_extensionality; intros; unfold along; ring).
    assert (Ec : forall t, 0 <= t <= 1 -> is_derive (fun t => rest (along u du t) (state (along b db t)) q) t
       (dot N (G (along u du t) q) du + dot p (fun r => - H (along b db t) q r) db)).
    { intros t Ht. apply (rateAlong N p (fun u b => rest u (state b) q)).
      exact (proj2 (C114_tangent d n s p points dpos eps bop kg P chi Es Dc _ _ (HS t Ht)) q Hq). }
    generalize (linearisationError _ _ M Ec). intros LE. cbv beta in LE. rewrite !A0 in LE.
    assert (A1 : along u du 1 = (fun k => u k + du k)) by (apply functional_extensionality; intros; unfold along; ring).
    assert (A2 : along b db 1 = beta (updated u du b)) by (apply functional_extensionality; intros; unfold along, db; ring).
    assert (A3 : updated u du b = state (beta (updated u du b))).
    { unfold updated, updateState, invertMaterial, state, stateAt. cbn. f_equal; apply functional_extensionality; intros; rewrite Inv; reflexivity. }
    rewrite A1, A2, <- A3 in LE.
    generalize (C160_stress_update u du b q HI Hq). intros EU. fold db in EU.
    assert (Neg : forall h, dot p (fun r => - h r) db = - dot p h db).
    { intros h. unfold dot. replace (- sum p _) with (-1 * sum p (fun k => h k * db k)) by ring. rewrite <- sum_mul_l. apply sum_ext. intros. ring. }
    rewrite (Neg (H b q)) in LE.
    replace (rest (fun k => u k + du k) (updated u du b) q - rest u (state b) q - (dot N (G u q) du + - dot p (H b q) db)) with
      (rest (fun k => u k + du k) (updated u du b) q) in LE by lra.
    apply LE. intros t Ht. eapply Rle_trans; [right|apply (HM t Ht)]. f_equal. rewrite (Neg (H (along b db t) q)).
    unfold dot. rewrite (sum_ext N (fun k => (G (along u du t) q k - G u q k) * du k) (fun k => G (along u du t) q k * du k + (-1) * (G u q k * du k))) by (intros; ring).
    rewrite (sum_ext p (fun k => (H (along b db t) q k - H b q k) * db k) (fun k => H (along b db t) q k * db k + (-1) * (H b q k * db k))) by (intros; ring).
    rewrite !sum_add, !sum_mul_l. ring.
  Qed.

  (** C160: the vector of the element differs from the forces by that defect only, whatever the stored state *)
  Theorem C160_stress_forces u st e k : (forall r, (r < p)%nat -> Rabs (rest u st r) <= e) ->
    Rabs (vectorOf u st zeroVector k - force u st k) <= e * sum p (fun q => sum p (fun r => Rabs (G u q k * inverse (asH s points P st) q r))).
  Proof.
    intros Hr. unfold vectorOf, asVectorImpl. fold (force u st).
    replace (force u st k + _ - force u st k) with (sum p (fun q => sum p (fun r => G u q k * inverse (asH s points P st) q r * rest u st r))) by (unfold G, rest; ring).
    eapply Rle_trans; [apply sum_abs|]. rewrite <- sum_mul_l. apply sum_monotone. intros q Hq.
    eapply Rle_trans; [apply sum_abs|]. rewrite <- sum_mul_l. apply sum_monotone. intros r Hl.
    rewrite Rabs_mult, Rmult_comm. apply Rmult_le_compat_r; [apply Rabs_pos|apply Hr, Hl].
  Qed.
End AssumedStress.
Print Assumptions C160_stress_update.
Print Assumptions C160_stress_defect.
Print Assumptions C160_stress_forces.

(** Non-vacuity: a bar with the Green-Lagrange strain u + u^2 / 2, one stress parameter b and the unit modulus; the step du = 1 from zero takes
    b to 1, the derivative of the equation changes by t, and its defect 3/2 - 1 is exactly the bound. *)
Example C160_stress_defect_applies :
  let dN := fun (_ : point) (_ _ : nat) => 1 in let C := fun (_ _ : nat) => 1 in let P := fun (_ : point) (_ _ : nat) => 1 in
  let eps := glStrain 1 1 dN in let bop := glBop 1 1 dN in let inversion := fun (T _ : nat -> R) => (C, linearStress_ 1 (fun _ => C) T) in
  let state := stateAt 1 1 P (linearStress_ 1 (fun _ => C)) (fun _ => C) in
  let new := updateState 1 1 1 1 exPoints eps bop P inversion exInverse ex0 (fun _ => 1) (state ex0) in
  (forall u b, suited 1 1 1 1 exPoints eps bop (glKg 1 dN) P (linearEnergy 1 (fun _ => C)) (linearStress_ 1 (fun _ => C)) (fun _ => C) u b) /\
  isInverse 1 (asH 1 exPoints P (state ex0)) (exInverse (asH 1 exPoints P (state ex0))) /\
  beta new 0%nat = 1 /\ asRtilde 1 exPoints eps P (fun k => ex0 k + 1) new 0%nat = 1 / 2 /\
  forall t, 0 <= t <= 1 -> Rabs (dot 1 (fun k => asG 1 1 1 exPoints bop P (along ex0 (fun _ => 1) t) 0%nat k - asG 1 1 1 exPoints bop P ex0 0%nat k) (fun _ => 1) -
    dot 1 (fun r => asH 1 exPoints P (state (along ex0 (fun r => beta new r - ex0 r) t)) 0%nat r - asH 1 exPoints P (state ex0) 0%nat r) (fun r => beta new r - ex0 r)) <= 1 * t.
Proof.
  cbv zeta.
  assert (H1 : forall st, asH 1 exPoints (fun _ _ _ => 1) {| beta := st; strainStates := fun _ _ => 0; invertedMaterialStates := fun _ _ _ => 1 |} 0%nat 0%nat = 1).
  { intros. unfold asH, exPoints. cbn. field. }
  assert (HS : forall b, asH 1 exPoints (fun _ _ _ => 1) (stateAt 1 1 (fun _ _ _ => 1) (linearStress_ 1 (fun _ _ _ => 1)) (fun _ _ _ => 1) b) 0%nat 0%nat = 1).
  { intros b. exact (H1 b). }
  assert (G1 : forall u, asG 1 1 1 exPoints (glBop 1 1 (fun _ _ _ => 1)) (fun _ _ _ => 1) u 0%nat 0%nat = 1 + u 0%nat).
  { intros. unfold asG, exPoints, addColumns, glBop, strainVector, component, glFirst, identity, displacementGradientOf. cbn. field. }
  assert (N1 : beta (updateState 1 1 1 1 exPoints (glStrain 1 1 (fun _ _ _ => 1)) (glBop 1 1 (fun _ _ _ => 1)) (fun _ _ _ => 1)
      (fun T _ => (fun _ _ => 1, linearStress_ 1 (fun _ _ _ => 1) T)) exInverse ex0 (fun _ => 1) (stateAt 1 1 (fun _ _ _ => 1) (linearStress_ 1 (fun _ _ _ => 1)) (fun _ _ _ => 1) ex0)) 0%nat = 1).
  { cbn [updateState invertMaterial beta Nat.mul Nat.add sum]. unfold exInverse. rewrite HS, G1. unfold asRtilde, exPoints, glStrain, strainVector, component, greenLagrangeOf, displacementGradientOf, linearStress_, stressValue, apply, ex0. cbn. unfold linearStress_, stressValue, apply. cbn. field. }
  split; [|split; [|split; [|split]]].
  - intros u b. exact (C114_applies 1 1 1 exPoints _ _ (fun _ _ => 1) u b ltac:(lia) (fun i j _ _ => eq_refl)).
  - unfold exInverse. split; intros i j Hi Hj; assert (i = 0%nat) by lia; assert (j = 0%nat) by lia; subst; unfold mul, identity; cbn [sum Nat.eqb]; rewrite HS; field.
  - exact N1.
  - revert N1. match goal with |- beta ?st _ = 1 -> _ =>
      assert (A : forall gp, strainStates st gp = linearStress_ 1 (fun _ _ _ => 1) (stressValue 1 1 (fun _ _ _ => 1) gp (beta st))) by reflexivity;
      revert A; generalize st end.
    intros st A N1. unfold asRtilde, exPoints. cbn. rewrite A. unfold glStrain, strainVector, component, greenLagrangeOf, displacementGradientOf, linearStress_, stressValue, apply, dot, ex0.
    cbn. rewrite N1. field.
  - intros t Ht. unfold dot. cbn [sum]. rewrite !HS, !G1. unfold along, ex0. match goal with |- Rabs ?x <= _ => replace x with t by ring end. rewrite Rabs_pos_eq; lra.
Qed.
