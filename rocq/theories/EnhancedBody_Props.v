(** C190: rigid motions of elements with enhanced strains (model: Eas_Model.v). *)

From Coq Require Import Reals Arith Bool List Lia Lra.
From Coquelicot Require Import Coquelicot.
From Verif Require Import Tensor_Spec Tensor_Model Tensor_Props Conversions_Spec Conversions_Model Conversions_Props Element_Spec Element_Model Element_Proofs Element_Props.
From Verif Require Import Eas_Spec Eas_Model Eas_Proofs Eas_Props EasStrains_Props.
From Verif Require Import Objectivity_Spec Objectivity_Props StructureReactions_Props.
From Verif Require Import Coordinates_Props CornerNumbering_Proofs CornerNumbering_Props CondensedCoordinates_Props.
Import ListNotations.
Local Open Scope R_scope.

Lemma gradient_combination p m (w : nat -> R) (f : nat -> (nat -> R) -> R) (g : nat -> nat -> R) a :
  (forall i, (i < m)%nat -> isGradient p (f i) (g i) a) ->
  isGradient p (fun b => sum m (fun i => w i * f i b)) (fun q => sum m (fun i => w i * g i q)) a.
Proof.
  intros G c v P. induction m as [|m IH].
  - cbn [sum]. unfold dot. rewrite sum_zero by (intros; ring). apply @is_derive_const.
  - eapply derive_eq.
    + apply (is_derive_plus (fun t => sum m (fun i => w i * f i (c t))) (fun t => w m * f m (c t))).
      * apply IH. intros. apply G. lia.
      * apply (is_derive_scal (fun t => f m (c t)) 0 (w m)). apply (G m); [lia|exact P].
    + unfold plus; cbn [AbelianGroup.plus]. cbn. unfold dot. cbn [sum]. rewrite <- sum_mul_l, <- sum_add. apply sum_ext. intros. ring.
Qed.

Lemma Rmult_rearrange (x y z w : R) : x * y * z * w = x * w * y * z.
Proof. ring. Qed.

(** ** Forces without resultant and moment *)
Section Balanced.
  Variables (d n : nat) (X : nat -> nat -> R) (u : nat -> R).
  Hypothesis d3 : (0 < d <= 3)%nat.

  Lemma balanced_ext f g : (forall k, (k < d * n)%nat -> f k = g k) -> selfEquilibrated d n X u g -> selfEquilibrated d n X u f.
  Proof.
    intros E (A & B). assert (B1 : forall i a, (i < n)%nat -> (a < d)%nat -> (d * i + a < d * n)%nat) by (intros; nia). split.
    - intros a Ha. rewrite <- (A a Ha). apply sum_ext. intros i Hi. now apply E, B1.
    - intros a b Ha Hb. rewrite <- (B a b Ha Hb). apply sum_ext. intros i Hi. rewrite !E by (now apply B1). reflexivity.
  Qed.
  Lemma balanced_combination p (f : nat -> R) (c : nat -> R) (l : nat -> nat -> R) : selfEquilibrated d n X u f ->
    (forall q, (q < p)%nat -> selfEquilibrated d n X u (l q)) -> selfEquilibrated d n X u (fun k => f k - sum p (fun q => c q * l q k)).
  Proof.
    intros F. induction p as [|p IH]; intros G.
    - eapply balanced_ext; [|exact F]. intros. cbn [sum]. ring.
    - destruct (IH ltac:(intros; apply G; lia)) as (A & B). destruct (G p ltac:(lia)) as (A' & B'). split.
      + intros a Ha. cbn [sum]. rewrite (sum_ext n _ (fun i => (f (d * i + a)%nat - sum p (fun q => c q * l q (d * i + a)%nat)) + - c p * l p (d * i + a)%nat)) by (intros; ring).
        rewrite sum_add, (A a Ha), sum_mul_l, (A' a Ha). ring.
      + intros a b Ha Hb. cbn [sum].
        rewrite (sum_ext n _ (fun i => (placeOf d X u i a * (f (d * i + b)%nat - sum p (fun q => c q * l q (d * i + b)%nat)) - placeOf d X u i b * (f (d * i + a)%nat - sum p (fun q => c q * l q (d * i + a)%nat))) +
          - c p * (placeOf d X u i a * l p (d * i + b)%nat - placeOf d X u i b * l p (d * i + a)%nat))) by (intros; ring).
        rewrite sum_add, (B a b Ha Hb), sum_mul_l, (B' a b Ha Hb). ring.
  Qed.
  (** if the forces are balanced for all values of parameters close to a, so are their derivatives with respect to the parameters *)
  Lemma balanced_derivative p (F : (nat -> R) -> nat -> R) (l : nat -> nat -> R) a :
    (forall k, (k < d * n)%nat -> isGradient p (fun b => F b k) (fun q => l q k) a) ->
    around p (fun b => selfEquilibrated d n X u (F b)) a -> forall q, (q < p)%nat -> selfEquilibrated d n X u (l q).
  Proof.
    intros G H q Hq. assert (B1 : forall i a, (i < n)%nat -> (a < d)%nat -> (d * i + a < d * n)%nat) by (intros; nia).
    assert (Z : forall m, isGradient m (fun _ => 0) (fun _ => 0) a).
    { intros m c v _. unfold dot. rewrite sum_zero by (intros; ring). apply @is_derive_const. }
    split.
    - intros x Hx.
      assert (C := gradient_combination p n (fun _ => 1) (fun i b => F b (d * i + x)%nat) (fun i q => l q (d * i + x)%nat) a (fun i Hi => G _ (B1 i x Hi Hx))).
      assert (E := gradient_same p _ _ _ _ a (Z p) C).
      rewrite <- (E ltac:(intros c v P; generalize (H c v P); apply filter_imp; intros t (A & _); rewrite <- (A x Hx); apply sum_ext; intros; ring) q Hq).
      apply sum_ext. intros. ring.
    - intros x y Hx Hy.
      assert (C1 := gradient_combination p n (fun i => placeOf d X u i x) (fun i b => F b (d * i + y)%nat) (fun i q => l q (d * i + y)%nat) a (fun i Hi => G _ (B1 i y Hi Hy))).
      assert (C2 := gradient_combination p n (fun i => placeOf d X u i y) (fun i b => F b (d * i + x)%nat) (fun i q => l q (d * i + x)%nat) a (fun i Hi => G _ (B1 i x Hi Hx))).
      assert (E := gradient_same p _ _ _ _ a C2 C1).
      rewrite sum_sub. rewrite (E ltac:(intros c v P; generalize (H c v P); apply filter_imp; intros t (_ & A); specialize (A x y Hx Hy); rewrite sum_sub in A; lra) q Hq). ring.
  Qed.
  (** the energy does not change if the internal variables move along, and its derivatives with respect to them vanish *)
  Lemma balanced_along p E g h a (rho : (nat -> nat -> R) -> nat -> R) : isGradient2 (d * n) p E g h u a ->
    (forall q, (q < p)%nat -> h q = 0) ->
    (forall c, E (moved d X identity c u) a = E u a) -> (forall Q c, rotation d Q -> E (moved d X Q c u) (rho Q) = E u a) ->
    (forall x y, (x < d)%nat -> (y < d)%nat -> x <> y -> exists w, passes p (fun t => rho (turn x y t)) a w) ->
    selfEquilibrated d n X u g.
  Proof.
    intros G Hz It Ir Hw.
    assert (D0 : forall w, dot p h w = 0) by (intros; apply sum_zero; intros; rewrite Hz by assumption; ring).
    assert (Hm : forall k, (k mod d < d)%nat) by (intros; apply Nat.mod_upper_bound; lia).
    assert (Hk : forall k, u (d * (k / d) + k mod d)%nat = u k) by (intros k; rewrite <- (Nat.div_mod_eq k d); reflexivity).
    split.
    - intros a0 Ha.
      set (v := fun k => if (k mod d =? a0)%nat then 1 else 0).
      set (c := fun t => moved d X identity (fun b => if (b =? a0)%nat then t else 0) u).
      assert (P : passes (d * n) c u v).
      { intros k _. unfold c, moved, v. rewrite sum_id_l by apply Hm. unfold placeOf. rewrite Hk. split.
        - destruct (k mod d =? a0)%nat; ring.
        - destruct (k mod d =? a0)%nat; auto_derive; auto; ring. }
      assert (Z : dot (d * n) g v = 0).
      { enough (Y : dot (d * n) g v + dot p h (fun _ => 0) = 0) by (rewrite D0 in Y; lra). apply (derive_uniq (fun t => E (c t) a)); [exact (G _ _ _ _ P (passes_constant p a))|].
        apply (is_derive_ext (fun _ => E u a)); [intros t; symmetry; apply It|]. apply @is_derive_const. }
      rewrite <- Z. unfold dot. rewrite sum_blocks. apply sum_ext. intros i _.
      rewrite (sum_pick d a0); [|assumption|].
      + destruct (Element_Proofs.block_index d i a0 Ha) as (_ & M). unfold v. rewrite M, Nat.eqb_refl. ring.
      + intros b Hb Hba. destruct (Element_Proofs.block_index d i b Hb) as (_ & M). unfold v. rewrite M. destruct (Nat.eqb_spec b a0); [lia|ring].
    - intros a0 b Ha Hb. destruct (Nat.eq_dec a0 b) as [->|Hab]; [apply sum_zero; intros; ring|].
      set (x := placeOf d X u).
      set (v := fun k => if (k mod d =? a0)%nat then - x (k / d)%nat b else if (k mod d =? b)%nat then x (k / d)%nat a0 else 0).
      set (c := fun t => moved d X (turn a0 b t) (fun _ => 0) u).
      assert (T : forall t p i, (p < d)%nat -> sum d (fun q => turn a0 b t p q * x i q) =
        if (p =? a0)%nat then cos t * x i a0 - sin t * x i b else if (p =? b)%nat then cos t * x i b + sin t * x i a0 else x i p).
      { intros t p0 i Hp. rewrite (sum_ext d _ (fun q =>
          if (p0 =? a0)%nat then identity a0 q * (cos t * x i q) - identity b q * (sin t * x i q)
          else if (p0 =? b)%nat then identity b q * (cos t * x i q) + identity a0 q * (sin t * x i q) else identity p0 q * x i q)).
        - destruct (Nat.eqb_spec p0 a0), (Nat.eqb_spec p0 b).
          + lia.
          + rewrite (sum_ext d _ (fun q => identity a0 q * (cos t * x i q) + identity b q * (- sin t * x i q))) by (intros; ring).
            rewrite sum_add, !sum_id_l by assumption. ring.
          + rewrite sum_add, !sum_id_l by assumption. ring.
          + rewrite !sum_id_l by assumption. reflexivity.
        - intros q Hq. unfold turn, identity. rewrite !(Nat.eqb_sym q).
          destruct (Nat.eqb_spec p0 a0), (Nat.eqb_spec p0 b), (Nat.eqb_spec a0 q), (Nat.eqb_spec b q); try lia; ring. }
      assert (P : passes (d * n) c u v).
      { intros k _. unfold c, moved. fold x. split.
        - rewrite T, cos_0, sin_0 by apply Hm. unfold x, placeOf.
          destruct (Nat.eqb_spec (k mod d) a0) as [E1|]; [rewrite <- E1, Hk; ring|].
          destruct (Nat.eqb_spec (k mod d) b) as [E1|]; [rewrite <- E1|]; rewrite Hk; ring.
        - eapply is_derive_ext; [intros t; symmetry; rewrite T by apply Hm; reflexivity|]. unfold v.
          destruct (Nat.eqb_spec (k mod d) a0); [auto_derive; auto; rewrite cos_0, sin_0; ring|].
          destruct (Nat.eqb_spec (k mod d) b); auto_derive; auto; rewrite ?cos_0, ?sin_0; ring. }
      destruct (Hw a0 b Ha Hb Hab) as (w & Pw).
      assert (Z : dot (d * n) g v = 0).
      { enough (Y : dot (d * n) g v + dot p h w = 0) by (rewrite D0 in Y; lra). apply (derive_uniq (fun t => E (c t) (rho (turn a0 b t)))); [exact (G _ _ _ _ P Pw)|].
        apply (is_derive_ext (fun _ => E u a)); [intros t; symmetry; apply Ir, turn_rotation; try assumption; lia|]. apply @is_derive_const. }
      rewrite <- Z. unfold dot. rewrite sum_blocks. apply sum_ext. intros i _. fold x.
      rewrite (sum_ext d _ (fun q => identity b q * (g (d * i + q)%nat * x i a0) + identity a0 q * (- (g (d * i + q)%nat * x i b)))).
      + rewrite sum_add, !sum_id_l by assumption. ring.
      + intros q Hq. destruct (Element_Proofs.block_index d i q Hq) as (D & M). unfold v. rewrite M, D. unfold identity. rewrite !(Nat.eqb_sym q).
        destruct (Nat.eqb_spec a0 q), (Nat.eqb_spec b q); try lia; ring.
  Qed.
End Balanced.

(** ** Elements with internal variables *)
Section Condensed.
  Variables (d n p : nat) (X : nat -> nat -> R) (points : list point).
  Hypothesis d3 : (0 < d <= 3)%nat.
  Let s := voigtLength d.
  Let N := (d * n)%nat.
  Variables (psi : (nat -> R) -> R) (stress : (nat -> R) -> nat -> R) (tangent : (nat -> R) -> nat -> nat -> R) (e : enhancedStrain).
  Variable inverse : (nat -> nat -> R) -> nat -> nat -> R.
  Let energy := enhancedEnergy points psi (e_value e).
  Let good := suitable d n s p points psi stress tangent (e_value e) (e_d e) (e_a e) (e_dd e) (e_aa e) (e_ad e).
  Let force u a := easForces d n s points stress (e_value e) (e_d e) u a zeroVector.
  Let rest u a := easRtilde s points stress (e_value e) (e_a e) u a.
  Let L u a := easL d n s points stress tangent (e_value e) (e_d e) (e_a e) (e_ad e) u a.
  Let D u a := easD s points stress tangent (e_value e) (e_a e) (e_aa e) u a.

  Lemma vector_combination u a k : vectorOf d n stress tangent inverse p points e u a zeroVector k =
    force u a k - sum p (fun q => sum p (fun r => inverse (D u a) q r * rest u a r) * L u a q k).
  Proof.
    unfold vectorOf, easVectorImpl. f_equal. apply sum_ext. intros q _. rewrite <- sum_mul_r. apply sum_ext. intros. unfold D, L, rest, s. ring.
  Qed.
  (** the strains do not change: the forces are balanced whatever the internal variables *)
  Lemma condensed_balanced u a : around2 N p good u a -> (forall b Q c, rotation d Q -> energy (moved d X Q c u) b = energy u b) ->
    selfEquilibrated d n X u (vectorOf d n stress tangent inverse p points e u a zeroVector).
  Proof.
    intros Gd I. assert (G := locally_singleton _ _ (Gd _ _ _ _ (passes_constant N u) (passes_constant p a))). cbv beta in G.
    assert (F : forall b, good u b -> selfEquilibrated d n X u (force u b)).
    { intros b Gb. apply (C100_equilibrium d n X d3 (fun y => energy y b)).
      - exact (gradient2_first _ _ _ _ _ _ _ (C107_forces d n s p points (proj1 d3) psi stress tangent (e_value e) (e_d e) (e_a e) (e_dd e) (e_aa e) (e_ad e) u b Gb)).
      - intros Q c R. now apply I. }
    apply (balanced_ext d n X u d3) with (g := fun k => force u a k - sum p (fun q => sum p (fun r => inverse (D u a) q r * rest u a r) * L u a q k)).
    - intros k _. apply vector_combination.
    - apply (balanced_combination d n X u d3); [now apply F|]. apply (balanced_derivative d n X u d3 p (force u) (L u a) a).
      + intros k Hk. destruct (C107_tangent d n s p points (proj1 d3) psi stress tangent (e_value e) (e_d e) (e_a e) (e_dd e) (e_aa e) (e_ad e) u a G) as (A & _).
        exact (gradient2_second _ _ _ _ _ _ _ (A k Hk)).
      + intros c v P. generalize (Gd _ _ c v (passes_constant N u) P). apply filter_imp. intros t. apply F.
  Qed.
  Lemma condensed_along u a (rho : (nat -> nat -> R) -> nat -> R) : good u a -> (forall q, (q < p)%nat -> rest u a q = 0) ->
    (forall c, energy (moved d X identity c u) a = energy u a) -> (forall Q c, rotation d Q -> energy (moved d X Q c u) (rho Q) = energy u a) ->
    (forall x y, (x < d)%nat -> (y < d)%nat -> x <> y -> exists w, passes p (fun t => rho (turn x y t)) a w) ->
    selfEquilibrated d n X u (vectorOf d n stress tangent inverse p points e u a zeroVector).
  Proof.
    intros G Hz It Ir Hw. apply (balanced_ext d n X u d3) with (g := force u a).
    - intros k _. rewrite vector_combination. rewrite (sum_zero p); [ring|]. intros q _. rewrite sum_zero; [ring|]. intros r Hr. rewrite Hz by assumption. ring.
    - exact (balanced_along d n X u d3 p energy (force u a) (rest u a) a rho
        (C107_forces d n s p points (proj1 d3) psi stress tangent (e_value e) (e_d e) (e_a e) (e_dd e) (e_aa e) (e_ad e) u a G) Hz It Ir Hw).
  Qed.
End Condensed.

Section Elements.
  Variables (d n : nat) (X : nat -> nat -> R) (points : list point) (dN : point -> nat -> nat -> R) (inverse : (nat -> nat -> R) -> nat -> nat -> R).
  Hypothesis dim : (d = 2 \/ d = 3)%nat.
  Let d3 : (0 < d <= 3)%nat := ltac:(lia).
  Let s := voigtLength d.
  Let N := (d * n)%nat.
  Hypothesis shapes : forall gp, In gp points -> shapeDerivatives d n X dN gp.
  Variables (psi : (nat -> R) -> R) (stress : (nat -> R) -> nat -> R) (tangent : (nat -> R) -> nat -> nat -> R).
  Hypothesis local : localEnergy d psi.

  Lemma energy_kept (e : enhancedStrain) u u' a a' :
    (forall gp m, In gp points -> (m < s)%nat -> e_value e gp u' a' m = e_value e gp u a m) ->
    enhancedEnergy points psi (e_value e) u' a' = enhancedEnergy points psi (e_value e) u a.
  Proof. intros E. unfold enhancedEnergy. rewrite !energy_sum. apply sumP_ext. intros gp Hgp. f_equal. apply local. intros m Hm. now apply E. Qed.
  Lemma deformation_turned gp Q c u k a : shapeDerivatives d n X dN gp -> (k < d)%nat -> (a < d)%nat ->
    identity k a + displacementGradientOf d n (dN gp) (moved d X Q c u) k a =
    sum d (fun q => Q k q * (identity q a + displacementGradientOf d n (dN gp) u q a)).
  Proof.
    intros S Hk Ha. rewrite (deformation_gradient d n X dN) by assumption. rewrite moved_sum by (try assumption; apply S, Ha).
    apply sum_ext. intros q Hq. f_equal. symmetry. apply (deformation_gradient d n X dN); assumption.
  Qed.
  (** turned deformation gradients have the same Green-Lagrange strains *)
  Lemma strain_of_turned Q (G G' : nat -> nat -> R) m : rotation d Q -> (m < s)%nat ->
    (forall k a, (k < d)%nat -> (a < d)%nat -> identity k a + G' k a = sum d (fun q => Q k q * (identity q a + G q a))) ->
    strainVector d (greenLagrangeOf d G') m = strainVector d (greenLagrangeOf d G) m.
  Proof.
    intros (R & _) _ T. apply (strainVector_ext d n d3). intros a b Ha Hb.
    rewrite !(greenLagrange_gradient d) by assumption. f_equal. f_equal.
    set (F k a := identity k a + G k a) in *.
    rewrite (sum_ext d _ (fun k => sum d (fun p => sum d (fun q => (Q k p * Q k q) * (F p a * F q b))))).
    - rewrite sum_swap. apply sum_ext. intros p Hp. rewrite sum_swap.
      rewrite (sum_ext d _ (fun q => identity p q * (F p a * F q b))); [apply (sum_id_l d p (fun q => F p a * F q b)), Hp|].
      intros q Hq. rewrite sum_mul_r. f_equal. apply (R p q Hp Hq).
    - intros k Hk. rewrite !T by assumption. rewrite <- sum_mul_r. apply sum_ext. intros p _. rewrite <- sum_mul_l. apply sum_ext. intros. unfold F. ring.
  Qed.

  (** The material has the given stresses and tangent at all states close to the given one *)
  Definition regularAt (p : nat) (e : enhancedStrain) (u a : nat -> R) : Prop :=
    around2 N p (fun y b => materialAt d points psi stress tangent e y b) u a.

  (** *** Green-Lagrange strains *)
  Section GreenLagrange.
    Variables (p : nat) (M : point -> nat -> nat -> R).
    Let e := additive d n p false dN M.
    Theorem C190_green_lagrange u a : regularAt p e u a ->
      (forall gp Q c b m, In gp points -> rotation d Q -> e_value e gp (moved d X Q c u) b m = e_value e gp u b m) /\
      (forall Q c b, rotation d Q -> enhancedEnergy points psi (e_value e) (moved d X Q c u) b = enhancedEnergy points psi (e_value e) u b) /\
      selfEquilibrated d n X u (vectorOf d n stress tangent inverse p points e u a zeroVector).
    Proof.
      intros Rg.
      assert (V : forall gp Q c b m, In gp points -> rotation d Q -> e_value e gp (moved d X Q c u) b m = e_value e gp u b m).
      { intros gp Q c b m Hgp R. unfold e, additive. cbn [e_value]. unfold additiveValue. rewrite (C100_solid_strains d n X dN d3) by auto. reflexivity. }
      assert (En : forall Q c b, rotation d Q -> enhancedEnergy points psi (e_value e) (moved d X Q c u) b = enhancedEnergy points psi (e_value e) u b).
      { intros Q c b R. apply energy_kept. intros. now apply V. }
      split; [exact V|]. split; [exact En|]. apply (condensed_balanced d n p X points d3 psi); [|intros; now apply En].
      intros c v b w P1 P2. generalize (Rg c v b w P1 P2). apply filter_imp. intros t A gp Hgp. split; [|apply A, Hgp].
      unfold e, additive; cbn [e_value e_d e_a e_dd e_aa e_ad]. apply C109_additive. apply (C96_green_lagrange d n (proj1 d3) dN gp (c t)). lia.
    Qed.
  End GreenLagrange.

  (** *** Displacement gradients *)
  Section Gradients.
    Variables (detJ0 : R) (JInv : nat -> nat -> R) (dN0 : nat -> nat -> R).
    Hypothesis center : shapeDerivatives d n X (fun _ => dN0) {| position := fun _ => 0; integrationElement := 1; weight := 1 |}.
    Let p := (d * d)%nat.
    Let H := easFunctionH d detJ0 JInv.

    Lemma gradient_suitable tr gp y b : enhancedExpression d n s p (e_value (gradient d n p tr dN dN0 H)) (e_d (gradient d n p tr dN dN0 H)) (e_a (gradient d n p tr dN dN0 H))
      (e_dd (gradient d n p tr dN dN0 H)) (e_aa (gradient d n p tr dN dN0 H)) (e_ad (gradient d n p tr dN dN0 H)) gp y b.
    Proof.
      unfold gradient. destruct tr; cbn [e_value e_d e_a e_dd e_aa e_ad]; [now apply C109_transposed|].
      apply (C109_displacement_gradient d n p dim dN H (glKg d dN) (glBop d n dN) gp). intros x. apply (C96_green_lagrange d n (proj1 d3) dN gp x). lia.
    Qed.

    Let et := gradient d n p true dN dN0 H.
    Theorem C190_transposed u a : regularAt p et u a ->
      (forall gp Q c b m, In gp points -> rotation d Q -> (m < s)%nat -> e_value et gp (moved d X Q c u) b m = e_value et gp u b m) /\
      (forall Q c b, rotation d Q -> enhancedEnergy points psi (e_value et) (moved d X Q c u) b = enhancedEnergy points psi (e_value et) u b) /\
      selfEquilibrated d n X u (vectorOf d n stress tangent inverse p points et u a zeroVector).
    Proof.
      intros Rg.
      assert (V : forall gp Q c b m, In gp points -> rotation d Q -> (m < s)%nat -> e_value et gp (moved d X Q c u) b m = e_value et gp u b m).
      { intros gp Q c b m Hgp R Hm. unfold et, gradient. cbn [e_value].
        destruct (C109_values d n p dN H dN0 gp (moved d X Q c u) b m dim Hm) as (_ & -> & _). destruct (C109_values d n p dN H dN0 gp u b m dim Hm) as (_ & -> & _).
        apply (strain_of_turned Q); [exact R|exact Hm|]. intros k l Hk Hl.
        assert (D1 := deformation_turned gp Q c u k l (shapes gp Hgp) Hk Hl).
        assert (D0 : forall j, (j < d)%nat -> identity k j + displacementGradientOf d n dN0 (moved d X Q c u) k j = sum d (fun q => Q k q * (identity q j + displacementGradientOf d n dN0 u q j))).
        { intros j Hj. rewrite (deformation_gradient d n X (fun _ => dN0) _ _ k j center) by assumption. rewrite moved_sum by (try assumption; apply (center j Hj)).
          apply sum_ext. intros q Hq. f_equal. symmetry. now apply (deformation_gradient d n X (fun _ => dN0) _ _ q j center). }
        rewrite <- Rplus_assoc, D1.
        rewrite (sum_ext d (fun q => Q k q * (identity q l + (_ + _))) (fun q => Q k q * (identity q l + displacementGradientOf d n (dN gp) u q l) +
          sum d (fun j => Q k q * ((identity q j + displacementGradientOf d n dN0 u q j) * sum p (fun r => H gp r l j * b r))))).
        - rewrite sum_add. f_equal. rewrite sum_swap. apply sum_ext. intros j Hj. rewrite D0 by assumption. rewrite <- sum_mul_r. apply sum_ext. intros. ring.
        - intros q _. rewrite sum_mul_l. ring. }
      assert (En : forall Q c b, rotation d Q -> enhancedEnergy points psi (e_value et) (moved d X Q c u) b = enhancedEnergy points psi (e_value et) u b).
      { intros Q c b R. apply energy_kept. intros. now apply V. }
      split; [exact V|]. split; [exact En|]. apply (condensed_balanced d n p X points d3 psi); [|intros; now apply En].
      intros c v b w P1 P2. generalize (Rg c v b w P1 P2). apply filter_imp. intros t A gp Hgp. split; [|apply A, Hgp]. apply gradient_suitable.
    Qed.

    (** the internal variables turn with the element: entry d * i + j belongs to direction i *)
    Variable J : nat -> nat -> R.
    Hypothesis HJ : isInverse d JInv J.
    Definition turnedVariables (Q : nat -> nat -> R) (a : nat -> R) (q : nat) : R :=
      sum d (fun i => mul d J (mul d Q JInv) (q / d)%nat i * a (d * i + q mod d)%nat).
    Let eg := gradient d n p false dN dN0 H.

    Lemma mode_entries gp q i j : (q < p)%nat -> (i < d)%nat -> (j < d)%nat -> modesH d gp q i j = if (q =? d * i + j)%nat then 2 * position gp j - 1 else 0.
    Proof.
      unfold p, modesH. destruct dim as [->| ->]; cbn [Nat.eqb Nat.mul Nat.add]; intros Hq Hi Hj.
      - do 4 (destruct q as [|q]; [destruct i as [|[|i]]; try lia; destruct j as [|[|j]]; try lia; unfold H4modes, entries; cbn; try reflexivity; try ring|]). lia.
      - do 9 (destruct q as [|q]; [destruct i as [|[|[|i]]]; try lia; destruct j as [|[|[|j]]]; try lia; unfold H9modes, entries; cbn; try reflexivity; try ring|]). lia.
    Qed.
    Lemma modes_value gp a k l : sum p (fun q => H gp q k l * a q) =
      sum d (fun j => sum d (fun i => detJ0 / integrationElement gp * JInv k i * ((2 * position gp j - 1) * a (d * i + j)%nat)) * JInv l j).
    Proof.
      unfold H, easFunctionH.
      rewrite (sum_ext p _ (fun q => sum d (fun j => sum d (fun i => detJ0 / integrationElement gp * JInv k i * JInv l j * (modesH d gp q i j * a q))))).
      - rewrite sum_swap. apply sum_ext. intros j Hj. rewrite sum_swap. rewrite <- sum_mul_r. apply sum_ext. intros i Hi. rewrite sum_mul_l.
        rewrite (sum_pick p (d * i + j)%nat).
        + rewrite mode_entries, Nat.eqb_refl by (unfold p; nia || assumption). ring.
        + unfold p. nia.
        + intros q Hq Nq. rewrite mode_entries by assumption. destruct (Nat.eqb_spec q (d * i + j)); [lia|ring].
      - intros q _. rewrite <- sum_mul_r. apply sum_ext. intros j _. rewrite <- !sum_mul_r. apply sum_ext. intros. ring.
    Qed.
    Lemma variables_turned Q gp a k l : (k < d)%nat -> (l < d)%nat ->
      sum p (fun q => H gp q k l * turnedVariables Q a q) = sum d (fun m => Q k m * sum p (fun q => H gp q m l * a q)).
    Proof.
      intros Hk Hl. rewrite modes_value.
      rewrite (sum_ext d (fun m => Q k m * _) (fun m => sum d (fun j => sum d (fun i => Q k m * JInv m i * (detJ0 / integrationElement gp * ((2 * position gp j - 1) * a (d * i + j)%nat) * JInv l j))))).
      2:{ intros m _. rewrite modes_value, <- sum_mul_l. apply sum_ext. intros j _. rewrite <- sum_mul_r, <- sum_mul_l. apply sum_ext. intros. ring. }
      rewrite sum_swap. apply sum_ext. intros j Hj. rewrite sum_swap.
      rewrite <- sum_mul_r.
      rewrite (sum_ext d _ (fun i => sum d (fun r => JInv k i * mul d J (mul d Q JInv) i r * (detJ0 / integrationElement gp * ((2 * position gp j - 1) * a (d * r + j)%nat) * JInv l j)))).
      - rewrite sum_swap. apply sum_ext. intros r Hr. rewrite !sum_mul_r. f_equal.
        change (mul d JInv (mul d J (mul d Q JInv)) k r = mul d Q JInv k r). rewrite <- mul_assoc.
        assert (Y : eqm d (mul d (mul d JInv J) (mul d Q JInv)) (mul d Q JInv)).
        { eapply eqm_trans; [apply mul_ext; [exact (proj1 HJ)|apply eqm_refl]|apply mul_id_l]. }
        now apply Y.
      - intros i Hi. unfold turnedVariables. destruct (Element_Proofs.block_index d i j Hj) as (-> & ->).
        rewrite <- !sum_mul_l, <- sum_mul_r. apply sum_ext. intros. ring.
    Qed.
    Lemma variables_identity a q : (q < p)%nat -> turnedVariables identity a q = a q.
    Proof.
      intros Hq. unfold turnedVariables. assert (Hd : (q / d < d)%nat) by (apply Nat.div_lt_upper_bound; [lia|exact Hq]).
      assert (Y : eqm d (mul d J (mul d identity JInv)) identity).
      { eapply eqm_trans; [apply mul_ext; [apply eqm_refl|apply mul_id_l]|exact (proj2 HJ)]. }
      rewrite (sum_ext d _ (fun i => identity (q / d)%nat i * a (d * i + q mod d)%nat)) by (intros; rewrite Y by assumption; reflexivity).
      rewrite (sum_id_l d (q / d)%nat (fun i => a (d * i + q mod d)%nat)) by exact Hd. f_equal. symmetry. apply Nat.div_mod_eq.
    Qed.

    Theorem C190_displacement_gradients u a : materialAt d points psi stress tangent eg u a ->
      (forall gp Q c b m, In gp points -> rotation d Q -> (m < s)%nat -> e_value eg gp (moved d X Q c u) (turnedVariables Q b) m = e_value eg gp u b m) /\
      (forall Q c b, rotation d Q -> enhancedEnergy points psi (e_value eg) (moved d X Q c u) (turnedVariables Q b) = enhancedEnergy points psi (e_value eg) u b) /\
      ((forall q, (q < p)%nat -> easRtilde s points stress (e_value eg) (e_a eg) u a q = 0) ->
       selfEquilibrated d n X u (vectorOf d n stress tangent inverse p points eg u a zeroVector)).
    Proof.
      intros Mt.
      assert (V : forall gp Q c b m, In gp points -> rotation d Q -> (m < s)%nat -> e_value eg gp (moved d X Q c u) (turnedVariables Q b) m = e_value eg gp u b m).
      { intros gp Q c b m Hgp R Hm. unfold eg, gradient. cbn [e_value].
        destruct (C109_values d n p dN H dN0 gp (moved d X Q c u) (turnedVariables Q b) m dim Hm) as (-> & _). destruct (C109_values d n p dN H dN0 gp u b m dim Hm) as (-> & _).
        apply (strain_of_turned Q); [exact R|exact Hm|]. intros k l Hk Hl.
        rewrite <- Rplus_assoc, (deformation_turned gp Q c u k l (shapes gp Hgp) Hk Hl), variables_turned by assumption.
        rewrite <- sum_add. apply sum_ext. intros. ring. }
      assert (En : forall Q c b, rotation d Q -> enhancedEnergy points psi (e_value eg) (moved d X Q c u) (turnedVariables Q b) = enhancedEnergy points psi (e_value eg) u b).
      { intros Q c b R. apply energy_kept. intros. now apply V. }
      split; [exact V|]. split; [exact En|]. intros Hz.
      apply (condensed_along d n p X points d3 psi stress tangent eg inverse u a (fun Q => turnedVariables Q a)).
      - intros gp Hgp. split; [apply gradient_suitable|apply Mt, Hgp].
      - exact Hz.
      - intros c. rewrite <- (En identity c a (identity_rotation d d3)). apply energy_kept. intros gp m Hgp Hm.
        unfold eg, gradient. cbn [e_value].
        destruct (C109_values d n p dN H dN0 gp (moved d X identity c u) a m dim Hm) as (-> & _). destruct (C109_values d n p dN H dN0 gp (moved d X identity c u) (turnedVariables identity a) m dim Hm) as (-> & _).
        apply (strainVector_ext d n d3). intros x y Hx Hy.
        assert (Y : forall k l, displacementGradientOf d n (dN gp) (moved d X identity c u) k l + sum p (fun q => H gp q k l * a q) =
          displacementGradientOf d n (dN gp) (moved d X identity c u) k l + sum p (fun q => H gp q k l * turnedVariables identity a q)).
        { intros k l. f_equal. apply sum_ext. intros q Hq. now rewrite variables_identity. }
        unfold greenLagrangeOf. rewrite !Y. f_equal. f_equal. apply sum_ext. intros k Hk. now rewrite !Y.
      - intros Q c R. now apply En.
      - intros x y Hx Hy Nxy.
        set (tdot p0 q := if (p0 =? x)%nat then (if (q =? x)%nat then 0 else if (q =? y)%nat then - (1) else 0)
          else if (p0 =? y)%nat then (if (q =? y)%nat then 0 else if (q =? x)%nat then 1 else 0) else 0).
        exists (fun q => sum d (fun i => sum d (fun j => sum d (fun k => J (q / d)%nat j * tdot j k * JInv k i * a (d * i + q mod d)%nat)))).
        assert (T0 : forall j k, turn x y 0 j k = identity j k).
        { intros j k. unfold turn, identity. rewrite cos_0, sin_0. destruct (Nat.eqb_spec j x), (Nat.eqb_spec k x), (Nat.eqb_spec j y), (Nat.eqb_spec k y), (Nat.eqb_spec j k); try lia; ring. }
        assert (Td : forall j k, is_derive (fun t => turn x y t j k) 0 (tdot j k)).
        { intros j k. unfold turn, tdot. destruct (j =? x)%nat, (k =? x)%nat, (j =? y)%nat, (k =? y)%nat; auto_derive; auto; rewrite ?sin_0, ?cos_0; ring. }
        assert (Sd : forall m (f : nat -> R -> R) (g : nat -> R), (forall i, is_derive (f i) 0 (g i)) -> is_derive (fun t => sum m (fun i => f i t)) 0 (sum m g)).
        { intros m f g Hf. induction m as [|m IH]; cbn [sum]; [apply @is_derive_const|]. apply (is_derive_plus (fun t => sum m (fun i => f i t)) (f m)); [exact IH|apply Hf]. }
        intros q Hq. split.
        + rewrite <- (variables_identity a q Hq). unfold turnedVariables, mul. apply sum_ext. intros i _. f_equal. apply sum_ext. intros j _. f_equal. apply sum_ext. intros k _. now rewrite T0.
        + apply (is_derive_ext (fun t => sum d (fun i => sum d (fun j => sum d (fun k => J (q / d)%nat j * turn x y t j k * JInv k i * a (d * i + q mod d)%nat))))).
          * intros t. unfold turnedVariables, mul. apply sum_ext. intros i _. rewrite <- sum_mul_r. apply sum_ext. intros j _. rewrite <- sum_mul_l, <- sum_mul_r. apply sum_ext. intros. ring.
          * apply Sd. intros i. apply Sd. intros j. apply Sd. intros k.
            apply (is_derive_ext (fun t => (J (q / d)%nat j * JInv k i * a (d * i + q mod d)%nat) * turn x y t j k)); [intros t; apply (Rmult_rearrange (J (q / d)%nat j))|].
            eapply derive_eq; [apply (is_derive_scal (fun t => turn x y t j k)), Td|ring].
    Qed.
  End Gradients.
End Elements.

(** ** The hypotheses hold: the unit square with bilinear shape functions and Hooke's law, in all states *)
Definition cornerPlace (i k : nat) : R := nth k (nth i [[0; 0]; [1; 0]; [0; 1]; [1; 1]] []) 0.
Definition bilinear (x y : R) (i k : nat) : R := nth k (nth i [[- (1 - y); - (1 - x)]; [1 - y; - x]; [- y; 1 - x]; [y; x]] []) 0.
Definition quarter (i j : nat) : R := nth j (nth i [[0; - (1)]; [1; 0]] []) 0.
Lemma bilinear_shapes (x y : R) gp : shapeDerivatives 2 4 cornerPlace (fun _ => bilinear x y) gp.
Proof.
  intros a Ha. split; [destruct a as [|[|a]]; try lia; cbn; ring|].
  intros k Hk. destruct a as [|[|a]]; try lia; destruct k as [|[|k]]; try lia; cbn; unfold identity; cbn; ring.
Qed.
Example C190_applies lambda mu points M p tr u a :
  let dN gp := bilinear (position gp 0%nat) (position gp 1%nat) in
  let C := hooke 2 lambda mu in let psi := linearEnergy 3 (fun _ => C) in
  (forall gp, In gp points -> shapeDerivatives 2 4 cornerPlace dN gp) /\ localEnergy 2 psi /\ rotation 2 quarter /\
  shapeDerivatives 2 4 cornerPlace (fun _ => bilinear (/ 2) (/ 2)) {| position := fun _ => 0; integrationElement := 1; weight := 1 |} /\
  isInverse 2 identity identity /\
  regularAt 2 4 points psi (linearStress_ 3 (fun _ => C)) (fun _ => C) p (additive 2 4 p false dN M) u a /\
  regularAt 2 4 points psi (linearStress_ 3 (fun _ => C)) (fun _ => C) 4 (gradient 2 4 4 tr dN (bilinear (/ 2) (/ 2)) (easFunctionH 2 1 identity)) u a /\
  turnedVariables 2 identity identity quarter (fun q => if (q =? 0)%nat then 1 else 0) 2 = 1 /\
  turnedVariables 2 identity identity quarter (fun q => if (q =? 0)%nat then 1 else 0) 0 = 0.
Proof.
  intros dN C psi.
  split; [intros gp _; apply (bilinear_shapes (position gp 0%nat) (position gp 1%nat) gp)|].
  split; [apply (linear_local 2)|].
  split; [split; [|split; [|cbn; ring]]; intros i j Hi Hj; destruct i as [|[|i]]; try lia; destruct j as [|[|j]]; try lia; unfold mul, transpose, identity; cbn; ring|].
  split; [apply bilinear_shapes|].
  split; [split; intros i j Hi Hj; destruct i as [|[|i]]; try lia; destruct j as [|[|j]]; try lia; unfold mul, identity; cbn; ring|].
  split; [intros c v b w _ _; apply filter_forall; intros t gp _; split; [apply quadratic_hyperelastic|]; apply hooke_symmetric|].
  split; [intros c v b w _ _; apply filter_forall; intros t gp _; split; [apply quadratic_hyperelastic|]; apply hooke_symmetric|].
  split; unfold turnedVariables, mul, identity; cbn; ring.
Qed.

Print Assumptions C190_green_lagrange.
Print Assumptions C190_transposed.
Print Assumptions C190_displacement_gradients.
