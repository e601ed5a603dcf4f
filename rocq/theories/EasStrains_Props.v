(** Property C109: the derivatives of the enhanced strains. *)

From Coq Require Import Reals Arith Bool List Lia Lra.
From Coquelicot Require Import Coquelicot.
From Verif Require Import Tensor_Spec Conversions_Spec Conversions_Props Tensor_Model Element_Spec Element_Model Element_Proofs Element_Props.
From Verif Require Import Eas_Spec Eas_Model Eas_Proofs Eas_Props.
Import ListNotations.
Local Open Scope R_scope.

Section Calculus.
  Variables (N p : nat) (u a : nat -> R).

  Lemma gradient2_plus f f' g g' h h' : isGradient2 N p f g h u a -> isGradient2 N p f' g' h' u a ->
    isGradient2 N p (fun u a => f u a + f' u a) (fun k => g k + g' k) (fun q => h q + h' q) u a.
  Proof.
    intros H H' c v b w Pc Pb. eapply derive_eq; [apply (is_derive_plus (fun t => f (c t) (b t))); [apply H|apply H']; eassumption|].
    rewrite !dot_add_l. change (plus ?x ?y) with (x + y). ring.
  Qed.
  Lemma gradient2_scale f g h x : isGradient2 N p f g h u a ->
    isGradient2 N p (fun u a => f u a * x) (fun k => g k * x) (fun q => h q * x) u a.
  Proof. intros H c v b w Pc Pb. eapply derive_eq; [apply derive_scale, H; eassumption|]. rewrite !dot_scale_l. ring. Qed.
  Lemma gradient2_const x : isGradient2 N p (fun _ _ => x) (fun _ => 0) (fun _ => 0) u a.
  Proof.
    intros c v b w _ _. eapply derive_eq; [apply @is_derive_const|]. change zero with 0. symmetry. unfold dot.
    rewrite !sum_zero by (intros; ring). ring.
  Qed.
  Lemma gradient2_sum m f g h : (forall j, (j < m)%nat -> isGradient2 N p (f j) (g j) (h j) u a) ->
    isGradient2 N p (fun u a => sum m (fun j => f j u a)) (fun k => sum m (fun j => g j k)) (fun q => sum m (fun j => h j q)) u a.
  Proof.
    intros H c v b w Pc Pb. eapply derive_eq.
    - apply (derive_sum m (fun j t => f j (c t) (b t))). intros j Hj. apply H; eassumption.
    - rewrite sum_add, !dot_sum_l. reflexivity.
  Qed.
  Lemma gradient2_mult f f' g g' h h' : isGradient2 N p f g h u a -> isGradient2 N p f' g' h' u a ->
    isGradient2 N p (fun u a => f u a * f' u a) (fun k => g k * f' u a + f u a * g' k) (fun q => h q * f' u a + f u a * h' q) u a.
  Proof.
    intros H H' c v b w Pc Pb.
    eapply derive_eq; [apply (derive_mult (fun t => f (c t) (b t)) (fun t => f' (c t) (b t))); [apply H|apply H']; eassumption|].
    cbv beta. rewrite (value2' N p u a c b v w f _ _ Pc Pb H), (value2' N p u a c b v w f' _ _ Pc Pb H').
    rewrite !dot_add_l, !dot_scale_l.
    assert (X : forall m x (g : nat -> R) v, dot m (fun k => x * g k) v = x * dot m g v).
    { intros. unfold dot. rewrite <- sum_mul_l. apply sum_ext. intros. ring. }
    rewrite !X. ring.
  Qed.
  Lemma gradient2_eq f g g' h h' : isGradient2 N p f g h u a -> (forall k, (k < N)%nat -> g k = g' k) -> (forall q, (q < p)%nat -> h q = h' q) ->
    isGradient2 N p f g' h' u a.
  Proof. intros H Hg Hh. exact (gradient2_ext N p f f g g' h h' u a H (fun _ _ => eq_refl) Hg Hh). Qed.
  Lemma gradient2_u f g : isGradient N f g u -> isGradient2 N p (fun u _ => f u) g (fun _ => 0) u a.
  Proof.
    intros H c v b w Pc _. eapply derive_eq; [apply (H c v Pc)|]. replace (dot p (fun _ => 0) w) with 0; [ring|].
    symmetry. apply sum_zero. intros. ring.
  Qed.
  Lemma gradient2_a f h : isGradient p f h a -> isGradient2 N p (fun _ a => f a) (fun _ => 0) h u a.
  Proof.
    intros H c v b w _ Pb. eapply derive_eq; [apply (H b w Pb)|]. replace (dot N (fun _ => 0) v) with 0; [ring|].
    symmetry. apply sum_zero. intros. ring.
  Qed.
End Calculus.

Lemma gradient_linear p h a : isGradient p (fun a => sum p (fun q => h q * a q)) h a.
Proof.
  intros b w Pb. apply (derive_sum p (fun q t => h q * b t q)). intros q Hq.
  apply (is_derive_ext (fun t => b t q * h q)); [intros; apply Rmult_comm|]. rewrite Rmult_comm. apply derive_scale, Pb, Hq.
Qed.
Lemma gradient_unique n f g g' x k : isGradient n f g x -> isGradient n f g' x -> (k < n)%nat -> g k = g' k.
Proof.
  intros H H' Hk. set (v j := identity j k).
  assert (E := derive_uniq _ _ _ (H _ _ (passes_line n x v)) (H' _ _ (passes_line n x v))).
  assert (P : forall g, dot n g v = g k).
  { intros g0. unfold dot, v. rewrite (sum_pick n k); [unfold identity; rewrite Nat.eqb_refl; ring|assumption|].
    intros j _ Hj. unfold identity. destruct (Nat.eqb_spec j k); [contradiction|ring]. }
  rewrite !P in E. exact E.
Qed.

(** ** C109: linear and Green-Lagrange strains with enhanced strains *)
Section Additive.
  Variables (d n s p : nat).
  Hypothesis dpos : (0 < d)%nat.
  Variable eps : point -> (nat -> R) -> nat -> R.
  Variable bop : point -> (nat -> R) -> nat -> nat -> nat -> R.
  Variable kg : point -> (nat -> R) -> (nat -> R) -> nat -> nat -> nat -> nat -> R.
  Variable M : point -> nat -> nat -> R.

  Theorem C109_additive gp u a : strainExpression d n s eps bop kg gp u ->
    enhancedExpression d n s p (additiveValue p eps M) (additive_d bop) (additive_a M) (additive_dd kg) zero_aa zero_ad gp u a.
  Proof.
    intros (H1 & H2). split; [|split].
    - intros m Hm. unfold additiveValue, additive_d, additive_a, apply.
      eapply gradient2_eq.
      + apply (gradient2_plus _ _ _ _ (fun u a => eps gp u m) (fun u a => sum p (fun q => M gp m q * a q))).
        * apply gradient2_u, H1, Hm.
        * apply gradient2_a, gradient_linear.
      + intros. cbv beta. ring.
      + intros. cbv beta. ring.
    - intros S k Hk. unfold additive_d, additive_dd, zero_ad. apply gradient2_u, H2, Hk.
    - intros S q Hq. unfold additive_a, zero_ad, zero_aa. apply gradient2_const.
  Qed.
End Additive.
Print Assumptions C109_additive.

(** ** C109: enhanced displacement gradients *)
Section Gradients.
  Variables (d n p : nat).
  Hypothesis dim : d = 2%nat \/ d = 3%nat.
  Let N := (d * n)%nat.
  Let s := voigtLength d.
  Variable dN : point -> nat -> nat -> R.
  Variable H : point -> nat -> nat -> nat -> R.

  Lemma dpos : (0 < d)%nat. Proof. lia. Qed.

  Lemma columns_rows x F k m : (k < d)%nat -> voigtColumns d (rowOf x k) F m = voigtRows d x (F k) m.
  Proof.
    intros Hk. unfold voigtColumns, voigtRows, rowOf.
    destruct dim as [->| ->]; cbn [Nat.eqb];
      (destruct k as [|[|[|k]]]; [..|lia]); try lia; (destruct m as [|[|[|[|[|m]]]]]); cbn [sum Nat.eqb]; ring.
  Qed.

  Lemma columns_symmetric X Y m : voigtColumns d X Y m = voigtColumns d Y X m.
  Proof.
    unfold voigtColumns. destruct dim as [->| ->]; cbn [Nat.eqb]; (destruct m as [|[|[|[|[|m]]]]]); cbn [sum]; ring.
  Qed.

  Lemma columns_contract S X Y : sum s (fun m => S m * voigtColumns d X Y m) = stressColumns d S X Y.
  Proof.
    unfold s, voigtColumns, stressColumns, atVoigt. destruct dim as [->| ->].
    - change (voigtLength 2) with 3%nat. cbn [sum loop Nat.eqb toVoigtIndex andb orb]. field.
    - change (voigtLength 3) with 6%nat. cbn [sum loop Nat.eqb toVoigtIndex andb orb]. field.
  Qed.

  Section At.
    Variables (u a : nat -> R).

    Lemma columns_gradient (X Y : (nat -> R) -> (nat -> R) -> nat -> nat -> R) Xd Xa Yd Ya m :
      (forall k l, (k < d)%nat -> (l < d)%nat -> isGradient2 N p (fun u a => X u a k l) (fun j => Xd j k l) (fun q => Xa q k l) u a) ->
      (forall k l, (k < d)%nat -> (l < d)%nat -> isGradient2 N p (fun u a => Y u a k l) (fun j => Yd j k l) (fun q => Ya q k l) u a) ->
      isGradient2 N p (fun u a => voigtColumns d (X u a) (Y u a) m)
        (fun j => voigtColumns d (Xd j) (Y u a) m + voigtColumns d (X u a) (Yd j) m)
        (fun q => voigtColumns d (Xa q) (Y u a) m + voigtColumns d (X u a) (Ya q) m) u a.
    Proof.
      intros HX HY.
      assert (HC : forall b c, (b < d)%nat -> (c < d)%nat ->
        isGradient2 N p (fun u a => sum d (fun k => X u a k b * Y u a k c))
          (fun j => sum d (fun k => Xd j k b * Y u a k c) + sum d (fun k => X u a k b * Yd j k c))
          (fun q => sum d (fun k => Xa q k b * Y u a k c) + sum d (fun k => X u a k b * Ya q k c)) u a).
      { intros b c Hb Hc. eapply gradient2_eq.
        - apply (gradient2_sum N p u a d (fun k u a => X u a k b * Y u a k c)). intros k Hk. apply gradient2_mult; [apply HX|apply HY]; assumption.
        - intros j _. cbv beta. rewrite <- sum_add. reflexivity.
        - intros j _. cbv beta. rewrite <- sum_add. reflexivity. }
      unfold voigtColumns. cbv zeta.
      destruct dim as [E|E]; rewrite E in *; cbn [Nat.eqb]; (destruct m as [|[|[|[|[|m]]]]]);
        first [apply HC; lia | eapply gradient2_eq; [apply (gradient2_plus N p u a); apply HC; lia|intros; cbv beta; ring|intros; cbv beta; ring]].
    Qed.

    Lemma contract_gradient (X Y : (nat -> R) -> (nat -> R) -> nat -> nat -> R) Xd Xa Yd Ya S :
      (forall k l, (k < d)%nat -> (l < d)%nat -> isGradient2 N p (fun u a => X u a k l) (fun j => Xd j k l) (fun q => Xa q k l) u a) ->
      (forall k l, (k < d)%nat -> (l < d)%nat -> isGradient2 N p (fun u a => Y u a k l) (fun j => Yd j k l) (fun q => Ya q k l) u a) ->
      isGradient2 N p (fun u a => sum s (fun m => S m * voigtColumns d (X u a) (Y u a) m))
        (fun j => stressColumns d S (Xd j) (Y u a) + stressColumns d S (X u a) (Yd j))
        (fun q => stressColumns d S (Xa q) (Y u a) + stressColumns d S (X u a) (Ya q)) u a.
    Proof.
      intros HX HY. eapply (gradient2_ext N p).
      - apply (gradient2_sum N p u a s (fun m u a => voigtColumns d (X u a) (Y u a) m * S m)). intros m _. apply gradient2_scale, columns_gradient; eassumption.
      - intros. apply sum_ext. intros. ring.
      - intros j _. cbv beta. rewrite <- !columns_contract, <- sum_add. apply sum_ext. intros. ring.
      - intros j _. cbv beta. rewrite <- !columns_contract, <- sum_add. apply sum_ext. intros. ring.
    Qed.

    Lemma strain_gradient (G : (nat -> R) -> (nat -> R) -> nat -> nat -> R) Gd Ga m : (m < s)%nat ->
      (forall k l, (k < d)%nat -> (l < d)%nat -> isGradient2 N p (fun u a => G u a k l) (fun j => Gd j k l) (fun q => Ga q k l) u a) ->
      isGradient2 N p (fun u a => strainOfGradient d (G u a) m)
        (fun j => voigtColumns d (Gd j) (fun k l => identity k l + G u a k l) m)
        (fun q => voigtColumns d (Ga q) (fun k l => identity k l + G u a k l) m) u a.
    Proof.
      intros Hm HG.
      set (F u a k l := identity k l + G u a k l).
      assert (HF : forall k l, (k < d)%nat -> (l < d)%nat -> isGradient2 N p (fun u a => F u a k l) (fun j => Gd j k l) (fun q => Ga q k l) u a).
      { intros k l Hk Hl. eapply gradient2_eq; [apply (gradient2_plus N p u a (fun _ _ => identity k l)); [apply gradient2_const|apply HG; assumption]|..];
          intros; cbv beta; ring. }
      assert (E : forall u a, strainOfGradient d (G u a) m = voigtColumns d (F u a) (F u a) m * / 2 + - (voigtColumns d identity identity m * / 2)).
      { intros u' a'. unfold strainOfGradient, voigtColumns, F. unfold s in Hm. destruct dim as [E|E]; rewrite E in *.
        - change (voigtLength 2) with 3%nat in Hm. destruct m as [|[|[|m]]]; [..|lia]; cbn [sum Nat.eqb toVoigt loop setV factorTo]; unfold identity; cbn [Nat.eqb]; field.
        - change (voigtLength 3) with 6%nat in Hm. destruct m as [|[|[|[|[|[|m]]]]]]; [..|lia];
            unfold toVoigt; cbn [sum Nat.eqb loop Nat.add factorTo]; unfold setV, identity; cbn [Nat.eqb]; field. }
      eapply (gradient2_ext N p).
      - apply (gradient2_plus N p u a (fun u a => voigtColumns d (F u a) (F u a) m * / 2)).
        + apply gradient2_scale. apply (columns_gradient F F Gd Ga Gd Ga m HF HF).
        + apply gradient2_const.
      - intros. cbv beta. rewrite E. reflexivity.
      - intros j _. cbv beta. rewrite (columns_symmetric (F u a)). fold (F u a). change (fun k l => identity k l + G u a k l) with (F u a). lra.
      - intros j _. cbv beta. rewrite (columns_symmetric (F u a)). change (fun k l => identity k l + G u a k l) with (F u a). lra.
    Qed.

    Lemma interpolation_gradient (x : nat -> nat -> R) k l : (k < d)%nat ->
      isGradient2 N p (fun u a => displacementGradientOf d n x u k l) (fun j => rowOf (x (j / d)%nat) (j mod d) k l) (fun _ => 0) u a.
    Proof.
      intros Hk. eapply gradient2_eq; [apply (gradient2_u N p u a (fun u => displacementGradientOf d n x u k l)), (gradient_interpolation d n (fun i => x i l)), Hk| |reflexivity].
      intros j _. cbv beta. unfold rowOf, identity. rewrite (Nat.eqb_sym k). destruct (Nat.eqb_spec (j mod d) k); ring.
    Qed.
    Lemma Htilde_gradient gp k l : isGradient2 N p (fun u a => Htilde p H gp a k l) (fun _ => 0) (fun q => H gp q k l) u a.
    Proof. apply gradient2_a. apply (gradient_linear p (fun q => H gp q k l)). Qed.
  End At.

  (** The plain displacement gradient *)
  Section Plain.
    Variable kg : point -> (nat -> R) -> (nat -> R) -> nat -> nat -> nat -> nat -> R.
    Variable bop : point -> (nat -> R) -> nat -> nat -> nat -> R.
    Variable gp : point.
    (** kg is the second derivative of the Green-Lagrange strains *)
    Hypothesis greenLagrange : forall u, strainExpression d n s (glStrain d n dN) bop kg gp u.

    Lemma kg_is u S k l : (k < N)%nat -> (l < N)%nat ->
      kg gp u S (k / d)%nat (l / d)%nat (k mod d) (l mod d) =
      stressColumns d S (rowOf (dN gp (k / d)%nat) (k mod d)) (rowOf (dN gp (l / d)%nat) (l mod d)).
    Proof.
      intros Hk Hl.
      assert (B : forall y m, (m < s)%nat -> bop gp y (k / d)%nat m (k mod d) = glBop d n dN gp y (k / d)%nat m (k mod d)).
      { intros y m Hm. destruct (greenLagrange y) as (G & _). destruct (C96_green_lagrange d n dpos dN gp y) as ((G' & _) & _); [lia|].
        exact (gradient_unique _ _ _ _ y k (G m Hm) (G' m Hm) Hk). }
      destruct (greenLagrange u) as (_ & G). destruct (C96_green_lagrange d n dpos dN gp u) as ((_ & G') & _); [lia|].
      transitivity (glKg d dN gp u S (k / d)%nat (l / d)%nat (k mod d) (l mod d)).
      - refine (gradient_unique _ _ (fun l => kg gp u S (k / d)%nat (l / d)%nat (k mod d) (l mod d))
          (fun l => glKg d dN gp u S (k / d)%nat (l / d)%nat (k mod d) (l mod d)) u l (G S k Hk) _ Hl).
        eapply gradient_ext; [apply (G' S k Hk)| |reflexivity]. intros y. cbv beta. apply sum_ext. intros m Hm. rewrite B by assumption. reflexivity.
      - unfold glKg. rewrite <- columns_contract. apply sum_ext. intros m Hm. f_equal. unfold strainVector, glSecond, voigtColumns, rowOf, identity.
        unfold s in Hm. assert (Dk := Nat.mod_upper_bound k d). assert (Dl := Nat.mod_upper_bound l d).
        generalize (dN gp (k / d)%nat) (dN gp (l / d)%nat). intros x y. revert Dk Dl. generalize (k mod d) (l mod d). intros k' l' Dk Dl. clear -dim Hm Dk Dl.
        destruct dim as [E|E]; rewrite E in *.
        + change (voigtLength 2) with 3%nat in Hm. specialize (Dk ltac:(lia)). specialize (Dl ltac:(lia)).
          destruct k' as [|[|k']]; [..|lia]; (destruct l' as [|[|l']]; [..|lia]); (destruct m as [|[|[|m]]]; [..|lia]); cbn [component Nat.eqb sum]; lra.
        + change (voigtLength 3) with 6%nat in Hm. specialize (Dk ltac:(lia)). specialize (Dl ltac:(lia)).
          destruct k' as [|[|[|k']]]; [..|lia]; (destruct l' as [|[|[|l']]]; [..|lia]); (destruct m as [|[|[|[|[|[|m]]]]]]; [..|lia]); cbn [component Nat.eqb sum]; lra.
    Qed.

    Lemma dg_gradient u a k l : (k < d)%nat -> (l < d)%nat ->
      isGradient2 N p (fun u a => dgGradient d n p dN H gp u a k l) (fun j => rowOf (dN gp (j / d)%nat) (j mod d) k l) (fun q => H gp q k l) u a.
    Proof.
      intros Hk Hl. eapply gradient2_eq.
      - apply (gradient2_plus N p u a (fun u a => displacementGradientOf d n (dN gp) u k l)); [apply interpolation_gradient, Hk|apply Htilde_gradient].
      - intros; cbv beta; ring.
      - intros; cbv beta; ring.
    Qed.
    Lemma dgF_gradient u a k l : (k < d)%nat -> (l < d)%nat ->
      isGradient2 N p (fun u a => dgF d n p dN H gp u a k l) (fun j => rowOf (dN gp (j / d)%nat) (j mod d) k l) (fun q => H gp q k l) u a.
    Proof.
      intros Hk Hl. eapply gradient2_eq; [apply (gradient2_plus N p u a (fun _ _ => identity k l)); [apply gradient2_const|apply dg_gradient; assumption]|..];
        intros; cbv beta; ring.
    Qed.

    Lemma stress_zero S X (Y : nat -> nat -> R) : (forall k l, Y k l = 0) -> stressColumns d S X Y = 0 /\ stressColumns d S Y X = 0.
    Proof.
      intros HY. rewrite <- !columns_contract. split; apply sum_zero; intros m _; unfold voigtColumns; cbv zeta;
        destruct (d =? 2)%nat; destruct m as [|[|[|[|[|m]]]]]; rewrite !sum_zero by (intros; rewrite HY; ring); ring.
    Qed.
    Lemma stress_symmetric S X Y : stressColumns d S X Y = stressColumns d S Y X.
    Proof. rewrite <- !columns_contract. apply sum_ext. intros. rewrite columns_symmetric. reflexivity. Qed.

    Theorem C109_displacement_gradient u a :
      enhancedExpression d n s p (dgValue d n p dN H) (dg_d d n p dN H) (dg_a d n p dN H) (dg_dd kg) (dg_aa d H) (dg_ad d dN H) gp u a.
    Proof.
      assert (Hmod : forall j, (j mod d < d)%nat) by (intros; apply Nat.mod_upper_bound; lia).
      assert (Z0 : forall k l, (k < d)%nat -> (l < d)%nat -> isGradient2 N p (fun _ _ => 0) (fun _ => 0) (fun _ => 0) u a)
        by (intros; apply gradient2_const).
      split; [|split].
      - intros m Hm. unfold dgValue. eapply gradient2_eq.
        + apply (strain_gradient u a (dgGradient d n p dN H gp)); [exact Hm|]. intros; apply dg_gradient; assumption.
        + intros k Hk. cbv beta. unfold dg_d. rewrite columns_rows by apply Hmod. reflexivity.
        + intros q _. reflexivity.
      - intros S k Hk. eapply (gradient2_ext N p).
        + apply (contract_gradient u a (fun _ _ => rowOf (dN gp (k / d)%nat) (k mod d)) (dgF d n p dN H gp) (fun _ _ _ => 0) (fun _ _ _ => 0)
            (fun j => rowOf (dN gp (j / d)%nat) (j mod d)) (H gp) S).
          * intros; apply gradient2_const.
          * intros; apply dgF_gradient; assumption.
        + intros u' a'. cbv beta. apply sum_ext. intros m _. unfold dg_d. rewrite columns_rows by apply Hmod. reflexivity.
        + intros l Hl. cbv beta. unfold dg_dd. rewrite kg_is by assumption.
          rewrite (proj2 (stress_zero S _ (fun _ _ => 0) (fun _ _ => eq_refl))). ring.
        + intros q _. cbv beta. unfold dg_ad. rewrite (proj2 (stress_zero S _ (fun _ _ => 0) (fun _ _ => eq_refl))), (stress_symmetric S (H gp q)). ring.
      - intros S q Hq. eapply (gradient2_ext N p).
        + apply (contract_gradient u a (fun _ _ => H gp q) (dgF d n p dN H gp) (fun _ _ _ => 0) (fun _ _ _ => 0)
            (fun j => rowOf (dN gp (j / d)%nat) (j mod d)) (H gp) S).
          * intros; apply gradient2_const.
          * intros; apply dgF_gradient; assumption.
        + intros u' a'. reflexivity.
        + intros l Hl. cbv beta. unfold dg_ad. rewrite (proj2 (stress_zero S _ (fun _ _ => 0) (fun _ _ => eq_refl))). ring.
        + intros r _. cbv beta. unfold dg_aa. rewrite (proj2 (stress_zero S _ (fun _ _ => 0) (fun _ _ => eq_refl))). ring.
    Qed.
  End Plain.

  (** The transposed displacement gradient *)
  Section Transposed.
    Variable dN0 : nat -> nat -> R.
    Variable gp : point.

    Lemma dNtilde_is a i l : dNtilde d p H dN0 gp a i l = sum d (fun b => dN0 i b * Htilde p H gp a l b).
    Proof.
      unfold dNtilde, Htilde. rewrite sum_swap. apply sum_ext. intros b _. rewrite <- sum_mul_l. apply sum_ext. intros. ring.
    Qed.

    Section At2.
      Variables (u a : nat -> R).

      Lemma centerF_gradient k l : (k < d)%nat ->
        isGradient2 N p (fun u a => centerF d n dN0 u k l) (fun j => rowOf (dN0 (j / d)%nat) (j mod d) k l) (fun _ => 0) u a.
      Proof.
        intros Hk. eapply gradient2_eq; [apply (gradient2_plus N p u a (fun _ _ => identity k l)); [apply gradient2_const|apply interpolation_gradient, Hk]|..];
          intros; cbv beta; ring.
      Qed.

      Lemma dgtF_gradient k l : (k < d)%nat -> (l < d)%nat ->
        isGradient2 N p (fun u a => dgtF d n p dN H dN0 gp u a k l) (fun j => rowOf (dNplus d p dN H dN0 gp a (j / d)%nat) (j mod d) k l)
          (fun q => timesTransposed d H (centerF d n dN0 u) gp q k l) u a.
      Proof.
        intros Hk Hl. unfold dgtF, dgtGradient, dgtEnhanced.
        eapply gradient2_eq.
        - apply (gradient2_plus N p u a (fun _ _ => identity k l)); [apply gradient2_const|].
          apply (gradient2_plus N p u a (fun u a => displacementGradientOf d n (dN gp) u k l)); [apply interpolation_gradient, Hk|].
          apply (gradient2_sum N p u a d (fun b u a => centerF d n dN0 u k b * Htilde p H gp a l b)). intros b Hb.
          apply (gradient2_mult N p u a (fun u a => centerF d n dN0 u k b) (fun u a => Htilde p H gp a l b)); [apply centerF_gradient, Hk|apply Htilde_gradient].
        - intros j _. cbv beta. unfold dNplus. unfold rowOf. destruct (Nat.eqb_spec k (j mod d)) as [E|E].
          + rewrite dNtilde_is. rewrite (sum_ext d _ (fun b => dN0 (j / d)%nat b * Htilde p H gp a l b)) by (intros; ring). ring.
          + rewrite sum_zero by (intros; ring). ring.
        - intros q _. cbv beta. unfold timesTransposed. rewrite !Rplus_0_l. apply sum_ext. intros; ring.
      Qed.
      Lemma dgt_gradient k l : (k < d)%nat -> (l < d)%nat ->
        isGradient2 N p (fun u a => dgtGradient d n p dN H dN0 gp u a k l) (fun j => rowOf (dNplus d p dN H dN0 gp a (j / d)%nat) (j mod d) k l)
          (fun q => timesTransposed d H (centerF d n dN0 u) gp q k l) u a.
      Proof.
        intros Hk Hl. eapply (gradient2_ext N p).
        - apply (gradient2_plus N p u a (fun u a => dgtF d n p dN H dN0 gp u a k l) (fun _ _ => - identity k l)); [apply dgtF_gradient; assumption|apply gradient2_const].
        - intros. unfold dgtF. ring.
        - intros; cbv beta; ring.
        - intros; cbv beta; ring.
      Qed.
      (** dNplus depends on the internal variables *)
      Lemma dNplus_gradient i b k l : (b < d)%nat ->
        isGradient2 N p (fun u a => rowOf (dNplus d p dN H dN0 gp a i) b k l) (fun _ => 0)
          (fun q => timesTransposed d H (rowOf (dN0 i) b) gp q k l) u a.
      Proof.
        intros Hb. unfold rowOf, timesTransposed. destruct (Nat.eqb_spec k b) as [E|E].
        - eapply (gradient2_ext N p).
          + apply (gradient2_plus N p u a (fun _ _ => dN gp i l) (fun u a => sum d (fun b => dN0 i b * Htilde p H gp a l b))); [apply gradient2_const|].
            apply (gradient2_sum N p u a d (fun b u a => dN0 i b * Htilde p H gp a l b)). intros c Hc.
            apply (gradient2_mult N p u a (fun _ _ => dN0 i c) (fun u a => Htilde p H gp a l c)); [apply gradient2_const|apply Htilde_gradient].
          + intros. unfold dNplus. rewrite dNtilde_is. reflexivity.
          + intros. cbv beta. rewrite sum_zero by (intros; ring). ring.
          + intros. cbv beta. rewrite Rplus_0_l. apply sum_ext. intros. ring.
        - eapply gradient2_eq; [apply gradient2_const|reflexivity|]. intros q _. cbv beta. symmetry. apply sum_zero. intros. ring.
      Qed.
      (** Fc0 H^T depends on the displacements *)
      Lemma times_gradient q k l : (k < d)%nat ->
        isGradient2 N p (fun u a => timesTransposed d H (centerF d n dN0 u) gp q k l)
          (fun j => timesTransposed d H (rowOf (dN0 (j / d)%nat) (j mod d)) gp q k l) (fun _ => 0) u a.
      Proof.
        intros Hk. unfold timesTransposed. eapply gradient2_eq.
        - apply (gradient2_sum N p u a d (fun b u a => centerF d n dN0 u k b * H gp q l b)). intros b Hb. apply gradient2_scale, centerF_gradient, Hk.
        - reflexivity.
        - intros. cbv beta. apply sum_zero. intros. ring.
      Qed.
    End At2.

    Lemma dgt_dd_is u a S i j k l : (k < d)%nat -> (l < d)%nat ->
      dgt_dd d p dN H dN0 gp u a S i j k l = stressColumns d S (rowOf (dNplus d p dN H dN0 gp a i) k) (rowOf (dNplus d p dN H dN0 gp a j) l).
    Proof.
      intros Hk Hl. unfold dgt_dd. cbv zeta. generalize (dNplus d p dN H dN0 gp a i) (dNplus d p dN H dN0 gp a j). intros x y.
      rewrite <- columns_contract. unfold voigtColumns, rowOf, identity, s. clear -dim Hk Hl. destruct dim as [E|E]; rewrite E in *.
      - change (voigtLength 2) with 3%nat. destruct k as [|[|k]]; [..|lia]; (destruct l as [|[|l]]; [..|lia]); cbn [Nat.eqb sum]; ring.
      - change (voigtLength 3) with 6%nat. destruct k as [|[|[|k]]]; [..|lia]; (destruct l as [|[|[|l]]]; [..|lia]); cbn [Nat.eqb sum]; ring.
    Qed.

    Lemma dgt_ad_is u a S i q b :
      dgt_ad d n p dN H dN0 gp u a S i q b =
      stressColumns d S (timesTransposed d H (centerF d n dN0 u) gp q) (rowOf (dNplus d p dN H dN0 gp a i) b) +
      stressColumns d S (timesTransposed d H (rowOf (dN0 i) b) gp q) (dgtF d n p dN H dN0 gp u a).
    Proof.
      unfold dgt_ad, stressColumns. generalize (timesTransposed d H (centerF d n dN0 u) gp q) (rowOf (dNplus d p dN H dN0 gp a i) b)
        (timesTransposed d H (rowOf (dN0 i) b) gp q) (dgtF d n p dN H dN0 gp u a). intros A B C D. clear -dim.
      destruct dim as [E|E]; rewrite E; cbn [loop sum]; ring.
    Qed.

    Theorem C109_transposed u a :
      enhancedExpression d n s p (dgtValue d n p dN H dN0) (dgt_d d n p dN H dN0) (dgt_a d n p dN H dN0) (dgt_dd d p dN H dN0)
        (dgt_aa d n H dN0) (dgt_ad d n p dN H dN0) gp u a.
    Proof.
      assert (Hmod : forall j, (j mod d < d)%nat) by (intros; apply Nat.mod_upper_bound; lia).
      split; [|split].
      - intros m Hm. unfold dgtValue. eapply gradient2_eq.
        + apply (strain_gradient u a (dgtGradient d n p dN H dN0 gp)); [exact Hm|]. intros; apply dgt_gradient; assumption.
        + intros k Hk. cbv beta. unfold dgt_d. rewrite columns_rows by apply Hmod. reflexivity.
        + intros q _. reflexivity.
      - intros S k Hk. eapply (gradient2_ext N p).
        + apply (contract_gradient u a (fun _ a => rowOf (dNplus d p dN H dN0 gp a (k / d)%nat) (k mod d)) (dgtF d n p dN H dN0 gp)
            (fun _ _ _ => 0) (timesTransposed d H (rowOf (dN0 (k / d)%nat) (k mod d)) gp)
            (fun j => rowOf (dNplus d p dN H dN0 gp a (j / d)%nat) (j mod d)) (timesTransposed d H (centerF d n dN0 u) gp) S).
          * intros; apply dNplus_gradient, Hmod.
          * intros; apply dgtF_gradient; assumption.
        + intros u' a'. cbv beta. apply sum_ext. intros m _. unfold dgt_d. rewrite columns_rows by apply Hmod. reflexivity.
        + intros l Hl. cbv beta. rewrite dgt_dd_is by apply Hmod.
          rewrite (proj2 (stress_zero S _ (fun _ _ => 0) (fun _ _ => eq_refl))). ring.
        + intros q _. cbv beta. rewrite dgt_ad_is. rewrite (stress_symmetric S (timesTransposed d H (centerF d n dN0 u) gp q)). ring.
      - intros S q Hq. eapply (gradient2_ext N p).
        + apply (contract_gradient u a (fun u _ => timesTransposed d H (centerF d n dN0 u) gp q) (dgtF d n p dN H dN0 gp)
            (fun j => timesTransposed d H (rowOf (dN0 (j / d)%nat) (j mod d)) gp q) (fun _ _ _ => 0)
            (fun j => rowOf (dNplus d p dN H dN0 gp a (j / d)%nat) (j mod d)) (timesTransposed d H (centerF d n dN0 u) gp) S).
          * intros; apply times_gradient; assumption.
          * intros; apply dgtF_gradient; assumption.
        + intros u' a'. reflexivity.
        + intros l Hl. cbv beta. rewrite dgt_ad_is. ring.
        + intros r _. cbv beta. unfold dgt_aa. rewrite (proj2 (stress_zero S _ (fun _ _ => 0) (fun _ _ => eq_refl))). ring.
    Qed.
  End Transposed.
End Gradients.
Print Assumptions C109_displacement_gradient.
Print Assumptions C109_transposed.

(** The strains: the Green-Lagrange strain of the enhanced gradient; without internal variables that of the displacements *)
Theorem C109_values d n p dN H dN0 gp u a m : d = 2%nat \/ d = 3%nat -> (m < voigtLength d)%nat ->
  dgValue d n p dN H gp u a m =
    strainVector d (greenLagrangeOf d (fun k l => displacementGradientOf d n (dN gp) u k l + sum p (fun q => H gp q k l * a q))) m /\
  dgtValue d n p dN H dN0 gp u a m =
    strainVector d (greenLagrangeOf d (fun k l => displacementGradientOf d n (dN gp) u k l +
      sum d (fun b => (identity k b + displacementGradientOf d n dN0 u k b) * sum p (fun q => H gp q l b * a q)))) m /\
  ((forall q, (q < p)%nat -> a q = 0) ->
     dgValue d n p dN H gp u a m = glStrain d n dN gp u m /\ dgtValue d n p dN H dN0 gp u a m = glStrain d n dN gp u m).
Proof.
  intros dim Hm.
  assert (V : forall G, strainOfGradient d G m = strainVector d (greenLagrangeOf d G) m).
  { intros G. unfold strainOfGradient, strainVector, greenLagrangeOf. destruct dim as [->| ->].
    - change (voigtLength 2) with 3%nat in Hm. destruct m as [|[|[|m]]]; [..|lia]; unfold toVoigt; cbn [Nat.eqb loop factorTo component]; unfold setV; cbn [Nat.eqb]; ring.
    - change (voigtLength 3) with 6%nat in Hm. destruct m as [|[|[|[|[|[|m]]]]]]; [..|lia];
        unfold toVoigt; cbn [Nat.eqb loop Nat.add factorTo component]; unfold setV; cbn [Nat.eqb]; ring. }
  assert (X : forall G G', (forall k l, G k l = G' k l) -> strainVector d (greenLagrangeOf d G) m = strainVector d (greenLagrangeOf d G') m).
  { intros G G' E. unfold strainVector, greenLagrangeOf. destruct (component d m) as [x y]. 
    rewrite !E. rewrite (sum_ext d (fun k => G k x * G k y) (fun k => G' k x * G' k y)) by (intros; rewrite !E; reflexivity). reflexivity. }
  split; [apply V|]. split; [apply V|]. intros Ha.
  assert (Z : forall k l, Htilde p H gp a k l = 0) by (intros; apply sum_zero; intros q Hq; rewrite Ha by assumption; ring).
  split; unfold dgValue, dgtValue, glStrain; rewrite V; apply X; intros k l.
  - unfold dgGradient. rewrite Z. ring.
  - unfold dgtGradient, dgtEnhanced. rewrite sum_zero; [ring|]. intros. rewrite Z. ring.
Qed.
Print Assumptions C109_values.

(** The second derivatives are symmetric, as C107_symmetric requires *)
Theorem C109_symmetric d n p dN H dN0 gp u a S : d = 2%nat \/ d = 3%nat ->
  (forall i j k l, dgt_dd d p dN H dN0 gp u a S i j k l = dgt_dd d p dN H dN0 gp u a S j i l k) /\
  (forall q r, dgt_aa d n H dN0 gp u a S q r = dgt_aa d n H dN0 gp u a S r q) /\ (forall q r, dg_aa d H gp u a S q r = dg_aa d H gp u a S r q).
Proof.
  intros dim. split; [|split; intros q r].
  - intros i j k l. unfold dgt_dd, identity. rewrite (Nat.eqb_sym l k). destruct (d =? 2)%nat; ring.
  - apply (stress_symmetric d 1 dim).
  - apply (stress_symmetric d 1 dim).
Qed.
Print Assumptions C109_symmetric.

(** The hypotheses of C107 and C108 are met by a Saint Venant-Kirchhoff material and every enhanced strain *)
Theorem C109_suitable d n p points dN H dN0 M C u a : d = 2%nat \/ d = 3%nat -> symmetric (voigtLength d) C ->
  let s := voigtLength d in
  let psi := linearEnergy s (fun _ => C) in let stress := linearStress_ s (fun _ => C) in let tangent := fun _ : nat -> R => C in
  suitable d n s p points psi stress tangent (additiveValue p (glStrain d n dN) M) (additive_d (glBop d n dN)) (additive_a M)
    (additive_dd (glKg d dN)) zero_aa zero_ad u a /\
  suitable d n s p points psi stress tangent (dgValue d n p dN H) (dg_d d n p dN H) (dg_a d n p dN H) (dg_dd (glKg d dN)) (dg_aa d H) (dg_ad d dN H) u a /\
  suitable d n s p points psi stress tangent (dgtValue d n p dN H dN0) (dgt_d d n p dN H dN0) (dgt_a d n p dN H dN0) (dgt_dd d p dN H dN0)
    (dgt_aa d n H dN0) (dgt_ad d n p dN H dN0) u a.
Proof.
  intros dim SC. cbv zeta. assert (dp : (0 < d)%nat) by lia. assert (d3 : (d <= 3)%nat) by lia.
  split; [|split]; intros gp _; (split; [|split; [apply quadratic_hyperelastic, SC|exact SC]]).
  - apply C109_additive. apply C96_green_lagrange; assumption.
  - apply (C109_displacement_gradient d n p dim dN H (glKg d dN) (glBop d n dN)). intros. apply C96_green_lagrange; assumption.
  - apply C109_transposed, dim.
Qed.
Print Assumptions C109_suitable.
