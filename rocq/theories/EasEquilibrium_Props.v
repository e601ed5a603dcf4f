(** Property C160, elements that are not linear: how far the internal equations are violated after an update of the internal variables, and
    how far the element's vector is then from the forces. *)

From Coq Require Import Reals Arith Bool List Lia Lra FunctionalExtensionality.
From Coquelicot Require Import Coquelicot.
From Verif Require Import Tensor_Spec Conversions_Spec Conversions_Props Tensor_Model Element_Spec Element_Model Element_Proofs Element_Props.
From Verif Require Import Spectral_Proofs Eas_Spec Eas_Model Eas_Proofs Eas_Props.
Import ListNotations.
Local Open Scope R_scope.

(** A function that changes with the rate g, which is at most M t away from g 0 *)
Lemma linearisationError (h g : R -> R) (M : R) : (forall t, 0 <= t <= 1 -> is_derive h t (g t)) ->
  (forall t, 0 <= t <= 1 -> Rabs (g t - g 0) <= M * t) -> Rabs (h 1 - h 0 - g 0) <= M / 2.
Proof.
  intros D B.
  assert (P : forall s, (s = 1 \/ s = -1) -> s * (h 1 - h 0 - g 0) <= M / 2).
  { intros s Hs.
    destruct (MVT_cor2 (fun t => s * (h t - g 0 * t) - M / 2 * (t * t)) (fun t => s * (g t - g 0) - M * t) 0 1 ltac:(lra)) as (x & E & X1).
    { intros t Ht. apply is_derive_Reals.
      apply (is_derive_ext (fun t => minus (scal s (minus (h t) (scal (g 0) t))) (scal (M / 2) (t * t)))); [reflexivity|].
      replace (s * (g t - g 0) - M * t) with (minus (scal s (minus (g t) (scal (g 0) 1))) (scal (M / 2) (2 * t))) by (unfold minus, plus, opp, scal, mult; cbn; unfold mult; cbn; field).
      apply @is_derive_minus; [apply is_derive_scal, @is_derive_minus; [apply D, Ht|apply is_derive_scal, @is_derive_id]|].
      apply is_derive_scal. auto_derive; [exact I|ring]. }
    specialize (B x ltac:(lra)). assert (s * (g x - g 0) <= M * x).
    { apply Rabs_le_between in B. destruct Hs; subst s; lra. }
    lra. }
  apply Rabs_le_between. generalize (P 1 (or_introl eq_refl)), (P (-1) (or_intror eq_refl)). lra.
Qed.

Lemma sum_monotone m f g : (forall k, (k < m)%nat -> f k <= g k) -> sum m f <= sum m g.
Proof. induction m as [|m IH]; cbn; intros H; [lra|]. generalize (H m ltac:(lia)), (IH (fun k Hk => H k ltac:(lia))). lra. Qed.

Section Eas.
  Variables (d n s p : nat) (points : list point).
  Hypothesis dpos : (0 < d)%nat.
  Variables (psi : (nat -> R) -> R) (stress : (nat -> R) -> nat -> R) (tangent : (nat -> R) -> nat -> nat -> R).
  Variable E : point -> (nat -> R) -> (nat -> R) -> nat -> R.
  Variable E_d : point -> (nat -> R) -> (nat -> R) -> nat -> nat -> nat -> R.
  Variable E_a : point -> (nat -> R) -> (nat -> R) -> nat -> nat -> R.
  Variable E_dd : point -> (nat -> R) -> (nat -> R) -> (nat -> R) -> nat -> nat -> nat -> nat -> R.
  Variable E_aa : point -> (nat -> R) -> (nat -> R) -> (nat -> R) -> nat -> nat -> R.
  Variable E_ad : point -> (nat -> R) -> (nat -> R) -> (nat -> R) -> nat -> nat -> nat -> R.
  Variable inverse : (nat -> nat -> R) -> nat -> nat -> R.
  Let N := (d * n)%nat.
  Let force u a := easForces d n s points stress E E_d u a zeroVector.
  Let rest u a := easRtilde s points stress E E_a u a.
  Let L u a := easL d n s points stress tangent E E_d E_a E_ad u a.
  Let D u a := easD s points stress tangent E E_a E_aa u a.
  Let vectorOf := easVectorImpl d n s p points stress tangent E E_d E_a E_aa E_ad inverse.
  Let updated := easUpdateImpl d n s p points stress tangent E E_d E_a E_aa E_ad inverse.
  Let smooth := suitable d n s p points psi stress tangent E E_d E_a E_dd E_aa E_ad.

  (** The update solves the linearised internal equation exactly *)
  Theorem C160_update u du a q : isInverse p (D u a) (inverse (D u a)) -> (q < p)%nat ->
    rest u a q + dot N (L u a q) du + dot p (D u a q) (fun r => updated u du a r - a r) = 0.
  Proof.
    intros (HI & _) Hq. unfold updated, easUpdateImpl. fold N.
    set (b r := easRtilde s points stress E E_a u a r + sum N (fun k => easL d n s points stress tangent E E_d E_a E_ad u a r k * du k)).
    transitivity (b q + dot p (D u a q) (fun r => - sum p (fun l => inverse (D u a) r l * b l))).
    { unfold b at 1. unfold dot. f_equal. apply sum_ext. intros r _. unfold b, D. ring. }
    unfold dot. transitivity (b q - sum p (fun l => mul p (D u a) (inverse (D u a)) q l * b l)).
    - unfold Rminus. f_equal. unfold mul.
      rewrite (sum_ext p (fun l => sum p _ * b l) (fun l => sum p (fun r => D u a q r * inverse (D u a) r l * b l))) by (intros; symmetry; apply sum_mul_r).
      rewrite sum_swap. rewrite <- (Rmult_1_l (sum p (fun j => sum p _))), Ropp_mult_distr_l, <- sum_mul_l. apply sum_ext. intros r _.
      rewrite (sum_ext p (fun i => D u a q r * _ * _) (fun i => D u a q r * (inverse (D u a) r i * b i))) by (intros; ring).
      rewrite sum_mul_l. ring.
    - rewrite (sum_ext p _ (fun l => identity q l * b l)) by (intros l Hl; rewrite HI by assumption; reflexivity).
      rewrite sum_id_l by assumption. ring.
  Qed.

  (** C160: after the update the internal equation is violated by no more than half the change of its derivative along the step; here along
      the straight line from the old displacements and internal variables to the new ones *)
  Theorem C160_defect_partial u du a q M : isInverse p (D u a) (inverse (D u a)) -> (q < p)%nat ->
    let da r := updated u du a r - a r in
    (forall t, 0 <= t <= 1 -> smooth (along u du t) (along a da t)) ->
    (forall t, 0 <= t <= 1 -> Rabs (dot N (fun k => L (along u du t) (along a da t) q k - L u a q k) du +
       dot p (fun r => D (along u du t) (along a da t) q r - D u a q r) da) <= M * t) ->
    Rabs (rest (fun k => u k + du k) (updated u du a) q) <= M / 2.
  Proof.
    intros HI Hq da HS HM.
    assert (A0 : forall x v, along x v 0 = x) by (intros; apply functional_extensionality; intros; unfold along; ring).
    assert (Ec : forall t, 0 <= t <= 1 -> is_derive (fun t => rest (along u du t) (along a da t) q) t
       (dot N (L (along u du t) (along a da t) q) du + dot p (D (along u du t) (along a da t) q) da)).
    { intros t Ht.
      destruct (C107_tangent d n s p points dpos psi stress tangent E E_d E_a E_dd E_aa E_ad _ _ (HS t Ht)) as (_ & HR).
      assert (P : forall m x v, passes m (fun r => along x v (t + r)) (along x v t) v).
      { intros m x v k _. split; [unfold along; ring|]. unfold along. auto_derive; [exact I|ring]. }
      specialize (HR q Hq _ _ _ _ (P N u du) (P p a da)). cbv beta in HR.
      apply (is_derive_ext (fun r => rest (along u du (t + (r - t))) (along a da (t + (r - t))) q)).
      { intros r. assert (Er : t + (r - t) = (r : R)) by (clear; cbn in r |- *; lra). rewrite Er. reflexivity. }
      rewrite <- (Rmult_1_l (dot N _ du + _)).
      apply (is_derive_comp (fun r => rest (along u du (t + r)) (along a da (t + r)) q) (fun r => r - t)).
      - replace (t - t) with 0 by ring. exact HR.
      - auto_derive; [exact I|reflexivity]. }
    generalize (linearisationError _ _ M Ec). intros LE. cbv beta in LE. rewrite !A0 in LE.
    assert (A1 : along u du 1 = (fun k => u k + du k)) by (apply functional_extensionality; intros; unfold along; ring).
    assert (A2 : along a da 1 = updated u du a) by (apply functional_extensionality; intros; unfold along, da; ring).
    rewrite A1, A2 in LE.
    generalize (C160_update u du a q HI Hq). intros EU. fold da in EU.
    replace (rest (fun k => u k + du k) (updated u du a) q - rest u a q - (dot N (L u a q) du + dot p (D u a q) da)) with
      (rest (fun k => u k + du k) (updated u du a) q) in LE by lra.
    apply LE. intros t Ht. eapply Rle_trans; [right|apply (HM t Ht)]. f_equal.
    unfold dot. rewrite (sum_ext N (fun k => (L (along u du t) (along a da t) q k - L u a q k) * du k) (fun k => L (along u du t) (along a da t) q k * du k + (-1) * (L u a q k * du k))) by (intros; ring).
    rewrite (sum_ext p (fun k => (D (along u du t) (along a da t) q k - D u a q k) * da k) (fun k => D (along u du t) (along a da t) q k * da k + (-1) * (D u a q k * da k))) by (intros; ring).
    rewrite !sum_add, !sum_mul_l. ring.
  Qed.

  (** C160: the vector of the element differs from the forces by the defect of the internal equations only *)
  Theorem C160_forces u a e k : (forall r, (r < p)%nat -> Rabs (rest u a r) <= e) ->
    Rabs (force u a k - vectorOf u a zeroVector k) <= e * sum p (fun q => sum p (fun r => Rabs (L u a q k * inverse (D u a) q r))).
  Proof.
    intros H. unfold vectorOf, easVectorImpl. fold (force u a).
    replace (force u a k - (force u a k - _)) with (sum p (fun q => sum p (fun r => L u a q k * inverse (D u a) q r * rest u a r))) by (unfold L, D, rest; ring).
    eapply Rle_trans; [apply sum_abs|]. rewrite <- sum_mul_l. apply sum_monotone. intros q Hq.
    eapply Rle_trans; [apply sum_abs|]. rewrite <- sum_mul_l. apply sum_monotone. intros r Hr.
    rewrite Rabs_mult, Rmult_comm. apply Rmult_le_compat_r; [apply Rabs_pos|apply H, Hr].
  Qed.
End Eas.
Print Assumptions C160_update.
Print Assumptions C160_defect_partial.
Print Assumptions C160_forces.

(** Non-vacuity: one displacement u, one internal variable a, the strain u + a + a^2 / 2 and the energy strain^2 / 2; the step du = 1 from zero
    displacements takes a to -1, and the derivative of the internal equation changes by t - 3/2 t^2. *)
Definition ex0 : nat -> R := fun _ => 0.
Definition exE (gp : point) (u a : nat -> R) (m : nat) : R := u 0%nat + a 0%nat + a 0%nat * a 0%nat / 2.
Definition exPoints : list point := [{| position := fun _ => 0; integrationElement := 1; weight := 1 |}].
Definition exD (gp : point) (u a : nat -> R) (i m b : nat) : R := 1.
Definition exA (gp : point) (u a : nat -> R) (m q : nat) : R := 1 + a 0%nat.
Definition exDD (gp : point) (u a S : nat -> R) (i j b c : nat) : R := 0.
Definition exAA (gp : point) (u a S : nat -> R) (q r : nat) : R := S 0%nat.
Definition exAD (gp : point) (u a S : nat -> R) (i q b : nat) : R := 0.
Definition exStress (e : nat -> R) (_ : nat) : R := e 0%nat.
Definition exTangent (e : nat -> R) (_ _ : nat) : R := 1.
Definition exInverse (M : nat -> nat -> R) (_ _ : nat) : R := / M 0%nat 0%nat.
Lemma exRate1 (f g : R -> R) f' g' : is_derive f 0 f' -> is_derive g 0 g' -> is_derive (fun t => f t + g t + g t * g t / 2) 0 (f' + (1 + g 0) * g').
Proof.
  intros F G. auto_derive; [repeat split; eexists; eassumption|]. rewrite (is_derive_unique (fun x : R => f x) 0 f' F : Derive (fun x : R => f x) 0 = f'), (is_derive_unique (fun x : R => g x) 0 g' G : Derive (fun x : R => g x) 0 = g'). field.
Qed.
Lemma exRate2 (g : R -> R) g' x : is_derive g 0 g' -> is_derive (fun t => 0 + x * (1 + g t)) 0 (x * g').
Proof. intros G. auto_derive; [eexists; eassumption|]. rewrite (is_derive_unique (fun x : R => g x) 0 g' G : Derive (fun x : R => g x) 0 = g'). ring. Qed.
Lemma exRate3 (g : R -> R) g' : is_derive g 0 g' -> is_derive (fun t => g t * g t / 2) 0 (g 0 * g').
Proof. intros G. auto_derive; [repeat split; eexists; eassumption|]. rewrite (is_derive_unique (fun x : R => g x) 0 g' G : Derive (fun x : R => g x) 0 = g'). field. Qed.
Lemma exSuitable u a : suitable 1 1 1 1 exPoints (fun e => e 0%nat * e 0%nat / 2) exStress exTangent exE exD exA exDD exAA exAD u a.
Proof.
  assert (P0 : forall c x v, passes 1 c x v -> c 0 0%nat = x 0%nat /\ is_derive (fun t => c t 0%nat) 0 (v 0%nat)) by (intros c x v H; apply H; lia).
  intros gp _. split; [|split; [split|]].
  - split; [|split].
    + intros m _ c v b w Pc Pb. apply P0 in Pc, Pb. destruct Pc as (Ac & Bc), Pb as (Ab & Bb).
      eapply derive_eq; [apply (exRate1 _ _ _ _ Bc Bb)|]. unfold exD, exA, dot. cbn [sum Nat.mul Nat.add]. cbv beta. rewrite Ab. ring.
    + intros S k _ c v b w Pc Pb. eapply derive_eq; [exact (@is_derive_const R_AbsRing R_NormedModule (0 + S 0%nat * 1) 0)|]. unfold exDD, exAD, dot, zero. cbn. ring.
    + intros S k Hk c v b w Pc Pb. apply P0 in Pb. destruct Pb as (Ab & Bb).
      eapply derive_eq; [apply (exRate2 _ _ (S 0%nat) Bb)|]. unfold exAA, exAD, dot. cbn [sum Nat.mul Nat.add]. ring.
  - intros c v Pc. apply P0 in Pc. destruct Pc as (Ac & Bc). eapply derive_eq; [apply (exRate3 _ _ Bc)|].
    unfold exStress, dot. cbn [sum]. cbv beta. rewrite Ac. ring.
  - intros i _ c v Pc. apply P0 in Pc. destruct Pc as (Ac & Bc). eapply derive_eq; [apply Bc|]. unfold exTangent, dot. cbn [sum]. ring.
  - intros i j _ _. reflexivity.
Qed.
Example C160_defect_applies : let D := easD 1 exPoints exStress exTangent exE exA exAA in let L := easL 1 1 1 exPoints exStress exTangent exE exD exA exAD in
  let new := easUpdateImpl 1 1 1 1 exPoints exStress exTangent exE exD exA exAA exAD exInverse ex0 (fun _ => 1) ex0 in
  isInverse 1 (D ex0 ex0) (exInverse (D ex0 ex0)) /\ new 0%nat = -1 /\
  forall t, 0 <= t <= 1 -> Rabs (dot 1 (fun k => L (along ex0 (fun _ => 1) t) (along ex0 (fun r => new r - ex0 r) t) 0%nat k - L ex0 ex0 0%nat k) (fun _ => 1) +
    dot 1 (fun r => D (along ex0 (fun _ => 1) t) (along ex0 (fun r => new r - ex0 r) t) 0%nat r - D ex0 ex0 0%nat r) (fun r => new r - ex0 r)) <= 1 * t.
Proof.
  cbv zeta.
  assert (D0 : easD 1 exPoints exStress exTangent exE exA exAA ex0 ex0 0%nat 0%nat = 1).
  { unfold easD, exPoints, exA, exAA, exTangent, exStress, exE, ex0. cbn. field. }
  assert (N0 : easUpdateImpl 1 1 1 1 exPoints exStress exTangent exE exD exA exAA exAD exInverse ex0 (fun _ => 1) ex0 0%nat = -1).
  { unfold easUpdateImpl, exInverse. cbn [sum]. rewrite D0. unfold easRtilde, easL, addColumns, exPoints, exA, exAD, exD, exTangent, exStress, exE, ex0. cbn. field. }
  split; [|split; [exact N0|]].
  - unfold exInverse. split; intros i j Hi Hj; assert (i = 0%nat) by lia; assert (j = 0%nat) by lia; subst; unfold mul, identity; cbn [sum Nat.eqb]; rewrite D0; field.
  - intros t Ht. unfold dot. cbn [sum]. rewrite N0, D0.
    assert (along ex0 (fun r => easUpdateImpl 1 1 1 1 exPoints exStress exTangent exE exD exA exAA exAD exInverse ex0 (fun _ => 1) ex0 r - ex0 r) t 0%nat = - t) as A.
    { unfold along. rewrite N0. unfold ex0. ring. }
    revert A. generalize (along ex0 (fun r => easUpdateImpl 1 1 1 1 exPoints exStress exTangent exE exD exA exAA exAD exInverse ex0 (fun _ => 1) ex0 r - ex0 r) t). intros a A.
    unfold easD, easL, addColumns, exPoints, exA, exAA, exAD, exD, exTangent, exStress, exE. cbn. rewrite A. unfold along, ex0.
    match goal with |- Rabs ?x <= _ => replace x with (t - 3 / 2 * (t * t)) by field end. apply Rabs_le_between. nra.
Qed.
