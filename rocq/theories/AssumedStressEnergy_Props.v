(** Property C116: the energy that assumed stress elements report, and linear elements. *)

From Coq Require Import Reals Arith Bool List Lia Lra FunctionalExtensionality.
From Coquelicot Require Import Coquelicot.
From Verif Require Import Tensor_Spec Conversions_Spec Conversions_Props Tensor_Model Element_Spec Element_Model Element_Proofs Element_Props.
From Verif Require Import Eas_Spec Eas_Model Eas_Proofs Eas_Props EasInvertible_Props AssumedStress_Spec AssumedStress_Model AssumedStress_Proofs AssumedStress_Props.
Import ListNotations.
Local Open Scope R_scope.

Section Energy.
  Variables (d n s p : nat) (points : list point).
  Hypothesis dpos : (0 < d)%nat.
  Variable eps : point -> (nat -> R) -> nat -> R.
  Variable bop : point -> (nat -> R) -> nat -> nat -> nat -> R.
  Variable kg : point -> (nat -> R) -> (nat -> R) -> nat -> nat -> nat -> nat -> R.
  Variable P : point -> nat -> nat -> R.
  Variables (chi : (nat -> R) -> R) (Es : (nat -> R) -> nat -> R) (Dc : (nat -> R) -> nat -> nat -> R).
  Variable materialInversion : (nat -> R) -> (nat -> R) -> (nat -> nat -> R) * (nat -> R).
  Variable inverse : (nat -> nat -> R) -> nat -> nat -> R.
  Let N := (d * n)%nat.
  Let S := stressValue s p P.
  Let state := stateAt s p P Es Dc.
  Let energy u b := asScalarImpl s p points eps P u (state b).
  Let force u b := asForces d n s p points bop P u (state b) zeroVector.
  Let rest u b := asRtilde s points eps P u (state b).
  Let G u := asG d n s points bop P u.
  Let H b := asH s points P (state b).
  Let Z b := inverse (H b).

  (** C116: the energy is the mixed functional if the complementary energy is half the product of stress and strain *)
  Theorem C116_energy_partial u b : (forall T, chi T = 1 / 2 * dot s T (Es T)) -> energy u b = mixedEnergy s p points eps P chi u b.
  Proof.
    intros Hc. unfold energy. rewrite as_scalar_sum. unfold mixedEnergy, hellingerReissner, quadrature. unfold sumP, state, stateAt. cbn [beta strainStates].
    induction points as [|gp l IH]; [reflexivity|]. cbn. rewrite IH, Hc. fold S. ring.
  Qed.

  (** ... so it changes with the forces along every pair of curves on which the residual of the stress parameters vanishes *)
  Theorem C116_rate_partial u b c v a w : (forall T, chi T = 1 / 2 * dot s T (Es T)) ->
    suited d n s p points eps bop kg P chi Es Dc u b ->
    passes N c u v -> passes p a b w -> (forall t q, (q < p)%nat -> rest (c t) (a t) q = 0) ->
    is_derive (fun t => energy (c t) (a t)) 0 (dot N (force u b) v).
  Proof.
    intros Hc Hs Pc Pa Hr. eapply derive_eq.
    - eapply is_derive_ext; [intros t; symmetry; apply C116_energy_partial, Hc|].
      exact (C114_forces d n s p points dpos eps bop kg P chi Es Dc u b Hs c v a w Pc Pa).
    - fold (force u b) (rest u b).
      destruct (C114_tangent d n s p points dpos eps bop kg P chi Es Dc u b Hs) as (_ & HR).
      change (dot (d * n) (force u b) v + dot p (rest u b) w = dot N (force u b) v).
      replace (dot p (rest u b) w) with 0; [unfold N; ring|]. symmetry. apply sum_zero. intros q Hq.
      assert (E := value2' (d * n) p u b c a v w _ _ _ Pc Pa (HR q Hq)). cbv beta in E.
      change (rest (c 0) (a 0) q = rest u b q) in E. rewrite <- E, Hr by assumption. ring.
  Qed.

  (** C116: an element that was just bound reports no energy at any displacements *)
  Theorem C116_initial u st : asScalarImpl s p points eps P u (initializeState s p P materialInversion st) = 0.
  Proof.
    rewrite as_scalar_sum.
    assert (Z0 : forall gp e, dot s (stressValue s p P gp (fun _ => 0)) e = 0).
    { intros gp e. apply sum_zero. intros m Hm. unfold stressValue, apply. destruct (m <? s)%nat; [|ring]. rewrite sum_zero; [ring|]. intros. ring. }
    apply sumP_zero. intros gp _. unfold initializeState, invertMaterial. cbn [beta strainStates]. rewrite !Z0. ring.
  Qed.

  (** ** Linear strains and a linear material *)
  Section Linear.
    Variables (B : point -> nat -> nat -> nat -> R) (C : nat -> nat -> R).
    Hypothesis strains : forall gp u m, In gp points -> (m < s)%nat -> eps gp u m = sum N (fun k => B gp (k / d)%nat m (k mod d) * u k).
    Hypothesis operators : forall gp u i m a, bop gp u i m a = B gp i m a.
    Hypothesis noSecond : forall gp u T i j a c, kg gp u T i j a c = 0.
    Hypothesis material : forall T m, (m < s)%nat -> Es T m = sum s (fun l => C m l * T l).
    Hypothesis moduli : forall T, Dc T = C.
    Hypothesis Csym : symmetric s C.

    Lemma linear_strains u q : dot N (G u q) u = sumP points (fun gp => sum s (fun m => P gp m q * eps gp u m) * vol gp).
    Proof.
      unfold dot. transitivity (sum N (fun k => sumP points (fun gp => sum s (fun m => P gp m q * B gp (k / d)%nat m (k mod d) * u k) * vol gp))).
        - apply sum_ext. intros k Hk. unfold G. rewrite as_g_sum by assumption. rewrite <- sumP_mul_r. apply sumP_ext. intros gp _.
          rewrite (sum_mul_r s (u k)). rewrite (sum_ext s (fun m => P gp m q * bop gp u (k / d)%nat m (k mod d)) (fun m => P gp m q * B gp (k / d)%nat m (k mod d))); [ring|].
          intros. rewrite operators. reflexivity.
        - rewrite <- sumP_swap. apply sumP_ext. intros gp Hgp. rewrite sum_mul_r. f_equal. rewrite sum_swap. apply sum_ext. intros m Hm.
          rewrite strains by assumption. rewrite <- sum_mul_l. apply sum_ext. intros. ring.
    Qed.
    Lemma linear_inverted b q : dot p (H b q) b = sumP points (fun gp => sum s (fun m => P gp m q * Es (S gp b) m) * vol gp).
    Proof.
      unfold dot. transitivity (sum p (fun r => sumP points (fun gp => sum s (fun m => sum s (fun l => P gp m q * C m l * P gp l r * b r)) * vol gp))).
        - apply sum_ext. intros r Hr. unfold H. rewrite as_h_sum, <- sumP_mul_r. apply sumP_ext. intros gp _. unfold state, stateAt. cbn [invertedMaterialStates].
          rewrite moduli.
          transitivity (sum s (fun k => sum s (fun l => P gp k q * C k l * P gp l r)) * b r * vol gp); [ring|]. f_equal. rewrite <- sum_mul_r. apply sum_ext. intros.
          rewrite <- sum_mul_r. reflexivity.
        - rewrite <- sumP_swap. apply sumP_ext. intros gp Hgp. rewrite sum_mul_r. f_equal. rewrite sum_swap. apply sum_ext. intros m Hm.
          rewrite material by assumption. rewrite sum_swap, <- sum_mul_l. apply sum_ext. intros l Hl. unfold S, stressValue.
          destruct (Nat.ltb_spec l s); [|lia]. unfold apply. rewrite <- !sum_mul_l. apply sum_ext. intros. ring.
    Qed.
    Lemma linear_rest u b q : rest u b q = dot N (G u q) u - dot p (H b q) b.
    Proof.
      unfold rest. rewrite as_rtilde_sum, linear_strains, linear_inverted.
      transitivity (sumP points (fun gp => sum s (fun m => P gp m q * eps gp u m) * vol gp + sum s (fun m => P gp m q * Es (S gp b) m) * vol gp * -1)).
      - apply sumP_ext. intros gp _. unfold state, stateAt. cbn [strainStates]. fold S.
        transitivity ((sum s (fun m => P gp m q * eps gp u m) + sum s (fun m => P gp m q * Es (S gp b) m) * -1) * vol gp); [|ring]. f_equal.
        rewrite <- sum_mul_r, <- sum_add. apply sum_ext. intros. ring.
      - rewrite sumP_add, sumP_mul_r. ring.
    Qed.

    Lemma linear_force u b k : (k < N)%nat -> force u b k = sum p (fun q => G u q k * b q).
    Proof.
      intros Hk. unfold force. rewrite as_forces_sum by assumption. unfold zeroVector. rewrite Rplus_0_l. unfold state, stateAt. cbn [beta].
      transitivity (sum p (fun q => sumP points (fun gp => sum s (fun m => P gp m q * bop gp u (k / d)%nat m (k mod d) * b q) * vol gp))).
      - rewrite <- sumP_swap. apply sumP_ext. intros gp _. rewrite sum_mul_r. f_equal. rewrite sum_swap. apply sum_ext. intros m Hm.
        unfold stressValue. destruct (Nat.ltb_spec m s); [|lia]. unfold apply. rewrite <- sum_mul_l. apply sum_ext. intros. ring.
      - apply sum_ext. intros q _. unfold G. rewrite as_g_sum by assumption. rewrite <- sumP_mul_r. apply sumP_ext. intros gp _. rewrite sum_mul_r. ring.
    Qed.

    Lemma geometric_zero u b k l : (k < N)%nat -> (l < N)%nat -> asGeometric d n s p points kg P u (state b) zeroMatrix k l = 0.
    Proof.
      intros Hk Hl. rewrite as_geometric_sum by assumption. unfold zeroMatrix. rewrite Rplus_0_l.
      apply sumP_zero. intros. rewrite noSecond. ring.
    Qed.
    Lemma h_same b b' : H b = H b'.
    Proof.
      apply functional_extensionality. intros q. apply functional_extensionality. intros r. unfold H. rewrite !as_h_sum. apply sumP_ext. intros gp _.
      unfold state, stateAt. cbn [invertedMaterialStates]. rewrite !moduli. reflexivity.
    Qed.
    Lemma h_symmetric b q r : H b q r = H b r q.
    Proof.
      unfold H. rewrite !as_h_sum. apply sumP_ext. intros gp _. f_equal. rewrite sum_swap. apply sum_ext. intros m Hm. apply sum_ext. intros o Ho.
      unfold state, stateAt. cbn [invertedMaterialStates]. rewrite moduli, (Csym o m) by assumption. ring.
    Qed.
    Lemma linear_symmetric u b : symmetricState d n s p points kg P Es Dc u b.
    Proof.
      split; [|apply h_symmetric]. intros k l Hk Hl. fold state. rewrite !geometric_zero by assumption. reflexivity.
    Qed.

    (** C116: whatever the stress parameters are, the vector of a linear element is the product of its matrix and the displacements *)
    Theorem C116_linear_vector u b k : isInverse p (H b) (Z b) -> (k < N)%nat ->
      asVectorImpl d n s p points eps bop P inverse u (state b) zeroVector k =
      dot N (asMatrixImpl d n s p points bop kg P inverse u (state b) zeroMatrix k) u.
    Proof.
      intros HZ Hk.
      transitivity (dot N (fun l => sum p (fun q => sum p (fun r => G u q k * Z b q r * G u r l))) u).
      2:{ apply sum_ext. intros l Hl. f_equal. symmetry.
          transitivity (0 + sum p (fun q => sum p (fun r => G u q k * Z b q r * G u r l))); [|ring]. rewrite <- (geometric_zero u b k l Hk Hl).
          exact (C115_schur d n s p points dpos eps bop kg P Es Dc inverse u b k l (linear_symmetric u b) HZ Hk Hl). }
      rewrite (dot_sum_l N p (fun q l => sum p (fun r => G u q k * Z b q r * G u r l))).
      transitivity (sum p (fun q => G u q k * b q + sum p (fun r => G u q k * Z b q r * rest u b r))).
      - rewrite sum_add, <- linear_force by assumption. reflexivity.
      - apply sum_ext. intros q Hq. rewrite (dot_sum_l N p (fun r l => G u q k * Z b q r * G u r l)).
        transitivity (G u q k * b q + (sum p (fun r => dot N (fun l => G u q k * Z b q r * G u r l) u) - G u q k * sum p (fun r => Z b q r * dot p (H b r) b))).
        + f_equal.
          transitivity (sum p (fun r => dot N (fun l => G u q k * Z b q r * G u r l) u) + sum p (fun r => Z b q r * dot p (H b r) b) * (G u q k * -1)); [|ring].
          rewrite <- sum_mul_r, <- sum_add. apply sum_ext. intros r Hr. rewrite linear_rest.
          replace (dot N (fun l => G u q k * Z b q r * G u r l) u) with (G u q k * Z b q r * dot N (G u r) u); [ring|].
          unfold dot. rewrite <- sum_mul_l. apply sum_ext. intros. ring.
        + replace (sum p (fun r => Z b q r * dot p (H b r) b)) with (b q); [ring|].
          transitivity (sum p (fun l => mul p (Z b) (H b) q l * b l)).
          * rewrite (sum_ext p _ (fun l => identity q l * b l)); [symmetry; apply sum_id_l, Hq|]. intros l Hl. rewrite (proj2 HZ) by assumption. reflexivity.
          * unfold mul, dot. rewrite (sum_ext p _ (fun l => sum p (fun r => Z b q r * H b r l * b l))) by (intros; symmetry; apply sum_mul_r).
            rewrite sum_swap. apply sum_ext. intros r _. rewrite <- sum_mul_l. apply sum_ext. intros. ring.
    Qed.

    Lemma linear_energy u b : energy u b = sum p (fun q => b q * dot N (G u q) u) - 1 / 2 * sum p (fun q => b q * dot p (H b q) b).
    Proof.
      unfold energy. rewrite as_scalar_sum. unfold state, stateAt. cbn [beta strainStates]. fold S.
      assert (X : forall e : point -> nat -> R, sumP points (fun gp => dot s (S gp b) (e gp) * vol gp) =
        sum p (fun q => b q * sumP points (fun gp => sum s (fun m => P gp m q * e gp m) * vol gp))).
      { intros e. transitivity (sum p (fun q => sumP points (fun gp => sum s (fun m => P gp m q * e gp m * b q) * vol gp))).
        - rewrite <- sumP_swap. apply sumP_ext. intros gp _. rewrite sum_mul_r. f_equal. rewrite sum_swap. apply sum_ext. intros m Hm.
          unfold S, stressValue. destruct (Nat.ltb_spec m s); [|lia]. unfold apply. rewrite <- sum_mul_r. apply sum_ext. intros. ring.
        - apply sum_ext. intros q _. rewrite Rmult_comm, <- sumP_mul_r. apply sumP_ext. intros gp _. rewrite sum_mul_r. ring. }
      transitivity (sumP points (fun gp => dot s (S gp b) (eps gp u) * vol gp) + sumP points (fun gp => dot s (S gp b) (Es (S gp b)) * vol gp) * (- (1 / 2))).
      - rewrite <- sumP_mul_r, <- sumP_add. apply sumP_ext. intros. ring.
      - rewrite (X (fun gp => eps gp u)), (X (fun gp => Es (S gp b))).
        rewrite (sum_ext p (fun q => b q * dot N (G u q) u) (fun q => b q * sumP points (fun gp => sum s (fun m => P gp m q * eps gp u m) * vol gp))) by (intros; rewrite linear_strains; reflexivity).
        rewrite (sum_ext p (fun q => b q * dot p (H b q) b) (fun q => b q * sumP points (fun gp => sum s (fun m => P gp m q * Es (S gp b) m) * vol gp))) by (intros; rewrite linear_inverted; reflexivity).
        ring.
    Qed.

    Lemma g_same u u' q k : (k < N)%nat -> G u q k = G u' q k.
    Proof. intros Hk. unfold G. rewrite !as_g_sum by assumption. apply sumP_ext. intros gp _. f_equal. apply sum_ext. intros. rewrite !operators. reflexivity. Qed.

    (** C116: when the displacements u of a linear element are corrected by dx, the updated stress parameters are in equilibrium with
        u + dx, and the energy there is half the product of the forces and the displacements *)
    Theorem C116_linear_update u b dx : isInverse p (H b) (Z b) -> (forall T e, materialInversion T e = (Dc T, Es T)) ->
      let y k := u k + dx k in
      let st := updateState d n s p points eps bop P materialInversion inverse u dx (state b) in
      (forall q, (q < p)%nat -> asRtilde s points eps P y st q = 0) /\
      asScalarImpl s p points eps P y st =
        1 / 2 * dot N (asVectorImpl d n s p points eps bop P inverse y st zeroVector) y.
    Proof.
      intros HZ Inv y st.
      set (b' := beta st).
      assert (Est : st = state b').
      { unfold b', st, updateState, invertMaterial, state, stateAt. cbv zeta. cbn [beta strainStates invertedMaterialStates].
        f_equal; apply functional_extensionality; intros; rewrite Inv; reflexivity. }
      assert (Hb : forall r, b' r = b r + sum p (fun t => Z b r t * (rest u b t + dot N (G u t) dx))) by reflexivity.
      assert (Rest : forall q, (q < p)%nat -> rest y b' q = 0).
      { intros q Hq. rewrite linear_rest, (h_same b' b).
        assert (X : forall t, dot N (G y t) y = dot N (G u t) u + dot N (G u t) dx).
        { intros t. unfold dot. rewrite <- sum_add. apply sum_ext. intros k Hk. rewrite (g_same y u) by assumption. unfold y. ring. }
        rewrite X.
        assert (Y : dot p (H b q) b' = dot p (H b q) b + (rest u b q + dot N (G u q) dx)).
        { unfold dot at 1. rewrite (sum_ext p _ (fun r => H b q r * b r + sum p (fun t => H b q r * Z b r t * (rest u b t + dot N (G u t) dx)))).
          - rewrite sum_add. f_equal. rewrite sum_swap. rewrite (sum_ext p _ (fun t => identity q t * (rest u b t + dot N (G u t) dx))); [apply sum_id_l, Hq|].
            intros t Ht. rewrite <- (proj1 HZ) by assumption. unfold mul. rewrite <- sum_mul_r. reflexivity.
          - intros r Hr. rewrite Hb, Rmult_plus_distr_l. f_equal. rewrite <- sum_mul_l. apply sum_ext. intros. ring. }
        rewrite Y, linear_rest. ring. }
      rewrite Est. split; [exact Rest|].
      assert (V : forall k, (k < N)%nat -> asVectorImpl d n s p points eps bop P inverse y (state b') zeroVector k = force y b' k).
      { intros k Hk. unfold asVectorImpl. fold (force y b'). rewrite sum_zero; [apply Rplus_0_r|]. intros q Hq. apply sum_zero. intros r Hr.
        change (asRtilde s points eps P y (state b') r) with (rest y b' r). rewrite Rest by assumption. ring. }
      change (energy y b' = 1 / 2 * dot N (asVectorImpl d n s p points eps bop P inverse y (state b') zeroVector) y).
      rewrite linear_energy.
      assert (F : dot N (asVectorImpl d n s p points eps bop P inverse y (state b') zeroVector) y = sum p (fun q => b' q * dot N (G y q) y)).
      { unfold dot at 1. rewrite (sum_ext N _ (fun k => sum p (fun q => G y q k * b' q * y k))).
        - rewrite sum_swap. apply sum_ext. intros q _. unfold dot. rewrite <- sum_mul_l. apply sum_ext. intros. ring.
        - intros k Hk. rewrite V, linear_force by assumption. rewrite <- sum_mul_r. reflexivity. }
      rewrite F. rewrite (sum_ext p (fun q => b' q * dot p (H b' q) b') (fun q => b' q * dot N (G y q) y)); [field|].
      intros q Hq. f_equal. specialize (Rest q Hq). rewrite linear_rest in Rest. lra.
    Qed.
  End Linear.
End Energy.

(** ** Counterexamples: one component, one node, one integration point of volume 1, the strain u and the stress b *)
Section Counterexamples.
  Let gp : point := {| position := fun _ => 0; integrationElement := 1; weight := 1 |}.
  Let eps (_ : point) (u : nat -> R) (_ : nat) : R := u 0%nat.
  Let bop (_ : point) (_ : nat -> R) (_ _ _ : nat) : R := 1.
  Let kg (_ : point) (_ _ : nat -> R) (_ _ _ _ : nat) : R := 0.
  Let P (_ : point) (_ _ : nat) : R := 1.

  (** C116: the energy does not change with the forces for a material with the complementary energy T^2 / 2 + T^4 / 4 *)
  Theorem C116_rate_refuted : exists chi Es Dc u b c v a w,
    let state := stateAt 1 1 P Es Dc in
    suited 1 1 1 1 [gp] eps bop kg P chi Es Dc u b /\ passes 1 c u v /\ passes 1 a b w /\
    (forall t q, (q < 1)%nat -> asRtilde 1 [gp] eps P (c t) (state (a t)) q = 0) /\
    ~ is_derive (fun t => asScalarImpl 1 1 [gp] eps P (c t) (state (a t))) 0 (dot 1 (asForces 1 1 1 1 [gp] bop P u (state b) zeroVector) v).
  Proof.
    exists (fun T => T 0%nat ^ 2 / 2 + T 0%nat ^ 4 / 4), (fun T _ => T 0%nat + T 0%nat ^ 3), (fun T _ _ => 1 + 3 * T 0%nat ^ 2),
      (fun _ => 2), (fun _ => 1), (fun t _ => (1 + t) + (1 + t) ^ 3), (fun _ => 4), (fun t _ => 1 + t), (fun _ => 1). cbv zeta.
    split; [|split; [|split; [|split]]].
    - intros g _. split; [split|split; [|split; [split|]]].
      + intros m Hm c v Pc. destruct (Pc 0%nat ltac:(cbn; lia)) as (_ & D). unfold eps, bop. eapply derive_eq; [exact D|]. cbn. ring.
      + intros T k Hk c v Pc. unfold bop, kg. eapply derive_eq; [apply @is_derive_const|]. cbn. change zero with 0. ring.
      + intros. reflexivity.
      + intros c v Pc. destruct (Pc 0%nat ltac:(cbn; lia)) as (E0 & D). cbv beta in *.
        eapply derive_eq.
        * apply (is_derive_comp (fun x : R => x ^ 2 / 2 + x ^ 4 / 4) (fun t => c t 0%nat) 0 (c 0 0%nat + c 0 0%nat ^ 3) (v 0%nat)); [|exact D].
          auto_derive; [trivial|]. field.
        * rewrite E0. cbn. change (v 0%nat * (stressValue 1 1 P g (fun _ => 1) 0%nat + stressValue 1 1 P g (fun _ => 1) 0%nat ^ 3) = 0 + (stressValue 1 1 P g (fun _ => 1) 0%nat + stressValue 1 1 P g (fun _ => 1) 0%nat ^ 3) * v 0%nat). ring.
      + intros i Hi c v Pc. destruct (Pc 0%nat ltac:(cbn; lia)) as (E0 & D). cbv beta in *.
        eapply derive_eq.
        * apply (is_derive_comp (fun x : R => x + x ^ 3) (fun t => c t 0%nat) 0 (1 + 3 * c 0 0%nat ^ 2) (v 0%nat)); [|exact D].
          auto_derive; [trivial|]. ring.
        * rewrite E0. cbn. change (v 0%nat * (1 + 3 * stressValue 1 1 P g (fun _ => 1) 0%nat ^ 2) = 0 + (1 + 3 * stressValue 1 1 P g (fun _ => 1) 0%nat ^ 2) * v 0%nat). ring.
      + intros i j _ _. reflexivity.
    - intros k Hk. cbv beta. split; [ring|]. auto_derive; [trivial|]. ring.
    - intros k Hk. cbv beta. split; [ring|]. auto_derive; [trivial|]. ring.
    - intros t q Hq. cbn. unfold stressValue, eps, P, apply. cbn. ring.
    - intros D. assert (D' : is_derive (fun t => / 2 * ((1 + t) * ((1 + t) + (1 + t) ^ 3))) 0 3) by (auto_derive; [trivial|field]).
      assert (D'' : is_derive (fun t => asScalarImpl 1 1 [gp] eps P (fun _ => (1 + t) + (1 + t) ^ 3) (stateAt 1 1 P (fun T _ => T 0%nat + T 0%nat ^ 3) (fun T _ _ => 1 + 3 * T 0%nat ^ 2) (fun _ => 1 + t))) 0 3).
      { eapply is_derive_ext; [|exact D']. intros t. cbn. unfold dot, stressValue, eps, P, apply. cbn. field. }
      assert (E := derive_uniq _ _ _ D D''). revert E. cbn. unfold dot, addSegment, stressValue, bop, P, apply, zeroVector. cbn. lra.
  Qed.

  (** C116: an element that was not told the corrections reports no energy at any displacements although it has forces *)
  Theorem C116_stale_refuted : exists materialInversion inverse,
    let st := initializeState 1 1 P materialInversion {| beta := fun _ => 0; strainStates := fun _ _ => 0; invertedMaterialStates := fun _ _ _ => 0 |} in
    (forall T e, materialInversion T e = (fun _ _ => 1, T)) /\ isInverse 1 (asH 1 [gp] P st) (inverse (asH 1 [gp] P st)) /\
    forall u, asScalarImpl 1 1 [gp] eps P u st = 0 /\ asVectorImpl 1 1 1 1 [gp] eps bop P inverse u st zeroVector 0%nat = u 0%nat.
  Proof.
    exists (fun T _ => (fun _ _ => 1, T)), (fun _ _ _ => 1). cbv zeta. split; [reflexivity|split].
    - split; intros i j Hi Hj; replace i with O by lia; replace j with O by lia; cbn; unfold mul, identity, P; cbn; ring.
    - intros u. split; [apply C116_initial|]. unfold asVectorImpl. cbn. unfold addSegment, addColumns, stressValue, eps, bop, P, zeroVector, apply. cbn. ring.
  Qed.
End Counterexamples.
Print Assumptions C116_energy_partial.
Print Assumptions C116_rate_partial.
Print Assumptions C116_initial.
Print Assumptions C116_linear_vector.
Print Assumptions C116_linear_update.
Print Assumptions C116_rate_refuted.
Print Assumptions C116_stale_refuted.
