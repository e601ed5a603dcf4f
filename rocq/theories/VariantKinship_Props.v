(** C186: in small displacements the variants of the enhanced strains agree (model: Eas_Model.v). *)

From Coq Require Import Reals Arith Bool List Lia Lra.
From Coquelicot Require Import Coquelicot.
From Verif Require Import Tensor_Spec Tensor_Model Tensor_Props Conversions_Spec Conversions_Model Conversions_Props Element_Spec Element_Model Element_Proofs Element_Props.
From Verif Require Import Eas_Spec Eas_Model Eas_Proofs Eas_Props EasStrains_Props StructureReactions_Props.
From Verif Require Import FlatShell_Props ElementKinship_Props Coordinates_Props CornerNumbering_Spec CornerNumbering_Proofs CornerNumbering_Props CondensedCoordinates_Props.
Import ListNotations.
Local Open Scope R_scope.

(** ** An element at rest and an element with linear strains *)
Section AtRest.
  Variables (d n p : nat) (points : list point) (dN M : point -> nat -> nat -> R).
  Hypothesis d0 : (0 < d)%nat.
  Variables (stress : (nat -> R) -> nat -> R) (tangent : (nat -> R) -> nat -> nat -> R) (C : nat -> nat -> R).
  Variables (e : enhancedStrain) (P Pi : nat -> nat -> R) (inverse : (nat -> nat -> R) -> nat -> nat -> R).
  Let s := voigtLength d.
  Let N := (d * n)%nat.
  Hypothesis Un : unstressed s stress tangent C.
  Hypothesis Sy : symmetric s C.
  Hypothesis HP : isInverse p P Pi.
  Let lin := additive d n p true dN M.
  Let stressL := linearStress_ s (fun _ => C).
  Let tangentL (_ : nat -> R) := C.
  Let vanishes (S : nat -> R) := forall m, (m < s)%nat -> S m = 0.
  Hypothesis e_value0 : forall gp, vanishes (e_value e gp zeroVector zeroVector).
  Hypothesis e_d0 : forall gp i m k, (m < s)%nat -> (k < d)%nat -> e_d e gp zeroVector zeroVector i m k = smallBop d dN gp zeroVector i m k.
  Hypothesis e_a0 : forall gp m q, (m < s)%nat -> (q < p)%nat -> e_a e gp zeroVector zeroVector m q = sum p (fun r => M gp m r * P r q).
  Hypothesis e_dd0 : forall gp S i j k l, vanishes S -> e_dd e gp zeroVector zeroVector S i j k l = 0.
  Hypothesis e_aa0 : forall gp S q r, vanishes S -> e_aa e gp zeroVector zeroVector S q r = 0.
  Hypothesis e_ad0 : forall gp S i q b, vanishes S -> e_ad e gp zeroVector zeroVector S i q b = 0.
  Hypothesis e_sym : forall gp S, (forall i j k l, e_dd e gp zeroVector zeroVector S i j k l = e_dd e gp zeroVector zeroVector S j i l k) /\
    (forall q r, e_aa e gp zeroVector zeroVector S q r = e_aa e gp zeroVector zeroVector S r q).

  Let K := easStiffness d n s points stress tangent (e_value e) (e_d e) (e_dd e) zeroVector zeroVector zeroMatrix.
  Let L := easL d n s points stress tangent (e_value e) (e_d e) (e_a e) (e_ad e) zeroVector zeroVector.
  Let D := easD s points stress tangent (e_value e) (e_a e) (e_aa e) zeroVector zeroVector.
  Let KL u a := easStiffness d n s points stressL tangentL (e_value lin) (e_d lin) (e_dd lin) u a zeroMatrix.
  Let LL u a := easL d n s points stressL tangentL (e_value lin) (e_d lin) (e_a lin) (e_ad lin) u a.
  Let DL u a := easD s points stressL tangentL (e_value lin) (e_a lin) (e_aa lin) u a.

  Lemma rest_k u a k l : (k < N)%nat -> (l < N)%nat -> K k l = KL u a k l.
  Proof.
    intros Hk Hl. unfold K, KL. rewrite !stiffness_sum by assumption. f_equal. apply sumP_ext. intros gp _. f_equal.
    destruct (Un _ (e_value0 gp)) as (S0 & T0). rewrite e_dd0 by exact S0. unfold lin, additive. cbn [e_dd e_d e_value]. unfold additive_dd, noKg. f_equal.
    assert (kd := Nat.mod_upper_bound k d ltac:(lia)). assert (ld := Nat.mod_upper_bound l d ltac:(lia)).
    apply sum_ext. intros m Hm. apply sum_ext. intros o Ho. rewrite !e_d0, T0 by assumption. reflexivity.
  Qed.
  Lemma rest_l u a q k : (q < p)%nat -> (k < N)%nat -> L q k = sum p (fun r => P r q * LL u a r k).
  Proof.
    intros Hq Hk. unfold L, LL. rewrite l_sum by assumption.
    rewrite (sum_ext p (fun r => P r q * _) (fun r => sumP points (fun gp => P r q * (sum s (fun m => sum s (fun o => M gp m r * C m o * smallBop d dN gp u (k / d) o (k mod d))) * vol gp)))).
    2:{ intros r _. rewrite l_sum, sumP_const_l by assumption. apply sumP_ext. intros gp _. unfold lin, additive. cbn [e_a e_d e_ad e_value]. unfold additive_a, additive_d, zero_ad, tangentL. rewrite Rplus_0_r. ring. }
    rewrite <- sumP_swap. apply sumP_ext. intros gp _. destruct (Un _ (e_value0 gp)) as (S0 & T0). rewrite e_ad0, Rplus_0_r by exact S0.
    assert (kd := Nat.mod_upper_bound k d ltac:(lia)).
    rewrite <- sum_mul_r. rewrite (sum_ext s _ (fun m => sum p (fun r => P r q * (sum s (fun o => M gp m r * C m o * smallBop d dN gp u (k / d) o (k mod d)) * vol gp)))).
    - rewrite sum_swap. apply sum_ext. intros r _. rewrite sum_mul_l. f_equal. now rewrite sum_mul_r.
    - intros m Hm. rewrite <- sum_mul_r. rewrite (sum_ext p _ (fun r => sum s (fun o => P r q * (M gp m r * C m o * smallBop d dN gp u (k / d) o (k mod d)) * vol gp))).
      + rewrite sum_swap. apply sum_ext. intros o Ho. rewrite e_a0, e_d0, T0 by assumption. rewrite <- !sum_mul_r. apply sum_ext. intros. unfold smallBop. ring.
      + intros r _. rewrite <- sum_mul_r, <- sum_mul_l. apply sum_ext. intros. ring.
  Qed.
  Lemma rest_d u a : eqm p D (mul p (mt P) (mul p (DL u a) P)).
  Proof.
    intros q r Hq Hr. unfold D, DL, mul, mt. rewrite d_sum.
    rewrite (sum_ext p _ (fun i => sumP points (fun gp => sum p (fun j => P i q * (sum s (fun m => sum s (fun o => M gp m i * C m o * M gp o j)) * vol gp) * P j r)))).
    2:{ intros i _. rewrite sumP_swap, <- sum_mul_l. apply sum_ext. intros j _. rewrite d_sum. unfold lin, additive. cbn [e_a e_aa e_value]. unfold additive_a, zero_aa, tangentL.
        rewrite (sumP_ext points (fun gp => P i q * _ * P j r) (fun gp => P i q * P j r * (sum s (fun m => sum s (fun o => M gp m i * C m o * M gp o j)) * vol gp))) by (intros; ring).
        rewrite <- sumP_const_l.
        rewrite (sumP_ext points (fun gp => (_ + 0) * vol gp) (fun gp => sum s (fun m => sum s (fun o => M gp m i * C m o * M gp o j)) * vol gp)) by (intros; ring). ring. }
    rewrite <- sumP_swap. apply sumP_ext. intros gp _. destruct (Un _ (e_value0 gp)) as (S0 & T0). rewrite e_aa0, Rplus_0_r by exact S0.
    rewrite <- sum_mul_r.
    rewrite (sum_ext s _ (fun m => sum s (fun o => sum p (fun i => sum p (fun j => P i q * (M gp m i * C m o * M gp o j * vol gp) * P j r))))).
    - rewrite (sum_ext s _ (fun m => sum p (fun i => sum s (fun o => sum p (fun j => P i q * (M gp m i * C m o * M gp o j * vol gp) * P j r))))) by (intros; apply sum_swap).
      rewrite sum_swap. apply sum_ext. intros i _.
      rewrite (sum_ext s _ (fun m => sum p (fun j => sum s (fun o => P i q * (M gp m i * C m o * M gp o j * vol gp) * P j r)))) by (intros; apply sum_swap).
      rewrite sum_swap. apply sum_ext. intros j _. rewrite <- sum_mul_r, <- sum_mul_l, <- sum_mul_r. apply sum_ext. intros m _. rewrite <- sum_mul_r, <- sum_mul_l, <- sum_mul_r. apply sum_ext. intros. ring.
    - intros m Hm. rewrite <- sum_mul_r. apply sum_ext. intros o Ho. rewrite !e_a0, T0 by assumption. rewrite <- !sum_mul_r. apply sum_ext. intros i _.
      rewrite <- sum_mul_l, <- sum_mul_r. apply sum_ext. intros. ring.
  Qed.
  Lemma rest_symmetric : symmetricAt d n s points stress tangent (e_value e) (e_d e) (e_a e) (e_dd e) (e_aa e) zeroVector zeroVector.
  Proof.
    apply (C107_symmetric d n s points d0). intros gp _. split; [|split; intros; apply e_sym].
    intros i j Hi Hj. destruct (Un _ (e_value0 gp)) as (_ & T0). rewrite !T0 by assumption. now apply Sy.
  Qed.
  Lemma linear_symmetric u a : symmetricAt d n s points stressL tangentL (e_value lin) (e_d lin) (e_a lin) (e_dd lin) (e_aa lin) u a.
  Proof. apply (C107_symmetric d n s points d0). intros gp _. split; [exact Sy|]. split; reflexivity. Qed.

  Lemma at_rest_same u a : isInverse p D (inverse D) -> isInverse p (DL u a) (inverse (DL u a)) ->
    (forall f k, (k < N)%nat -> vectorOf d n stress tangent inverse p points e zeroVector zeroVector f k = f k) /\
    (forall k l, (k < N)%nat -> (l < N)%nat ->
       matrixOf d n stress tangent inverse p points e zeroVector zeroVector zeroMatrix k l = matrixOf d n stressL tangentL inverse p points lin u a zeroMatrix k l).
  Proof.
    intros HZ HZ'. split.
    - intros f k Hk. unfold vectorOf, easVectorImpl. rewrite forces_sum by assumption.
      rewrite sumP_none by (intros gp _; rewrite sum_zero; [ring|]; intros m Hm; rewrite (proj1 (Un _ (e_value0 gp))) by exact Hm; ring).
      rewrite sum_zero; [ring|]. intros q _. apply sum_zero. intros r _. rewrite rtilde_sum.
      rewrite sumP_none by (intros gp _; rewrite sum_zero; [ring|]; intros m Hm; rewrite (proj1 (Un _ (e_value0 gp))) by exact Hm; ring). ring.
    - intros k l Hk Hl. unfold matrixOf. fold s.
      rewrite (C108_schur d n s p points d0 stress tangent (e_value e) (e_d e) (e_a e) (e_dd e) (e_aa e) (e_ad e) inverse zeroVector zeroVector k l rest_symmetric HZ Hk Hl).
      rewrite (C108_schur d n s p points d0 stressL tangentL (e_value lin) (e_d lin) (e_a lin) (e_dd lin) (e_aa lin) (e_ad lin) inverse u a k l (linear_symmetric u a) HZ' Hk Hl).
      unfold schur. f_equal; [now apply rest_k|].
      apply (product_same p P Pi (DL u a) D (inverse (DL u a)) (inverse D) HP (rest_d u a) HZ' HZ (fun q => LL u a q k) (fun q => L q k) (fun q => LL u a q l) (fun q => L q l)); intros; now apply rest_l.
  Qed.
  Lemma at_rest_update du q : isInverse p D (inverse D) -> isInverse p (DL zeroVector zeroVector) (inverse (DL zeroVector zeroVector)) -> (q < p)%nat ->
    sum p (fun r => P q r * updateOf d n stress tangent inverse p points e zeroVector du zeroVector r) =
    updateOf d n stressL tangentL inverse p points lin zeroVector du zeroVector q.
  Proof.
    intros HZ HZ' Hq. unfold updateOf, easUpdateImpl. fold s N.
    assert (Z : forall st ev ea r, (forall gp, vanishes (st (ev gp zeroVector zeroVector))) -> easRtilde s points st ev ea zeroVector zeroVector r = 0).
    { intros st ev ea r H. rewrite rtilde_sum. apply sumP_none. intros gp _. rewrite sum_zero; [ring|]. intros m Hm. rewrite (H gp m Hm). ring. }
    assert (VL : forall gp, vanishes (stressL (e_value lin gp zeroVector zeroVector))).
    { intros gp m Hm. unfold stressL, linearStress_, apply. apply sum_zero. intros o Ho.
      unfold lin, additive, additiveValue, apply. cbn [e_value]. rewrite (sum_zero p) by (intros; unfold zeroVector; ring).
      assert (X : smallStrain d n dN gp zeroVector o = 0).
      { unfold smallStrain, strainVector. destruct (component d o) as (i, j). rewrite !gradient_at_rest. destruct (i =? j)%nat; ring. }
      rewrite X. ring. }
    transitivity (sum p (fun r => P q r * sum p (fun i => inverse D r i * sum N (fun k => L i k * du k))) * -1).
    - rewrite <- sum_mul_r. apply sum_ext. intros r _. change (zeroVector r) with 0. fold D L.
      rewrite (sum_ext p (fun i => _ * (_ + _)) (fun i => inverse D r i * sum N (fun k => L i k * du k))); [ring|].
      intros i _. rewrite Z by (intros gp m Hm; apply (Un _ (e_value0 gp)), Hm). fold D L. ring.
    - change (zeroVector q) with 0. fold (DL zeroVector zeroVector) (LL zeroVector zeroVector).
      rewrite (sum_ext p (fun r => _ * (_ + _)) (fun r => inverse (DL zeroVector zeroVector) q r * sum N (fun k => LL zeroVector zeroVector r k * du k))).
      + rewrite (solve_same p P Pi (DL zeroVector zeroVector) D (inverse (DL zeroVector zeroVector)) (inverse D) HP (rest_d zeroVector zeroVector) HZ' HZ
          (fun r => sum N (fun k => LL zeroVector zeroVector r k * du k)) (fun i => sum N (fun k => L i k * du k))); [ring| |exact Hq].
        intros i Hi. rewrite (sum_ext N _ (fun k => sum p (fun r => P r i * (LL zeroVector zeroVector r k * du k)))).
        * rewrite sum_swap. apply sum_ext. intros. now rewrite sum_mul_l.
        * intros k Hk. rewrite (rest_l zeroVector zeroVector i k Hi Hk), <- sum_mul_r. apply sum_ext. intros. ring.
      + intros r _. rewrite Z by exact VL. fold (DL zeroVector zeroVector) (LL zeroVector zeroVector). ring.
  Qed.
End AtRest.

(** ** The variants *)
Lemma sum_id_right n j f : (j < n)%nat -> sum n (fun k => f k * identity k j) = f j.
Proof.
  intros Hj. rewrite (sum_pick n j) by (exact Hj || (intros k _ Hk; unfold identity; destruct (Nat.eqb_spec k j); [congruence|ring])).
  unfold identity. rewrite Nat.eqb_refl. ring.
Qed.
(** The mode of the strains that is the symmetric part of the mode q of the displacement gradients: in order 11 12 21 22, and 11 12 13 21 ... 33 *)
Definition pairing (d q : nat) : nat := nth q (if (d =? 2)%nat then [0; 3; 2; 1] else [0; 8; 6; 7; 1; 4; 5; 3; 2])%nat 0%nat.
Definition pairingMatrix (d : nat) (c : R) (r q : nat) : R := if (r =? pairing d q)%nat then c else 0.
Definition gradientVariant (d : nat) : variantE := if (d =? 2)%nat then V4 else V9.

Section Variants.
  Variables (d n : nat) (points : list point) (dN : point -> nat -> nat -> R).
  Hypothesis dim : (d = 2 \/ d = 3)%nat.
  Let s := voigtLength d.
  Variables (stress : (nat -> R) -> nat -> R) (tangent : (nat -> R) -> nat -> nat -> R) (C : nat -> nat -> R) (inverse : (nat -> nat -> R) -> nat -> nat -> R).
  Hypothesis Un : unstressed s stress tangent C.
  Hypothesis Sy : symmetric s C.

  (** What an element with the enhanced strain e computes at rest is what the element with linear strains and the modes M computes; its
      internal variables, multiplied by P, are those of the other *)
  Definition linearises (p : nat) (P : nat -> nat -> R) (e : enhancedStrain) (M : point -> nat -> nat -> R) : Prop :=
    let lin := additive d n p true dN M in let stressL := linearStress_ s (fun _ => C) in let tangentL (_ : nat -> R) := C in
    let D := easD s points stress tangent (e_value e) (e_a e) (e_aa e) zeroVector zeroVector in
    let DL u a := easD s points stressL tangentL (e_value lin) (e_a lin) (e_aa lin) u a in
    (forall u a, eqm p D (mul p (mt P) (mul p (DL u a) P))) /\
    (isInverse p D (inverse D) -> (forall u a, isInverse p (DL u a) (inverse (DL u a))) ->
    (forall f k, (k < d * n)%nat -> vectorOf d n stress tangent inverse p points e zeroVector zeroVector f k = f k) /\
    (forall u a k l, (k < d * n)%nat -> (l < d * n)%nat ->
       matrixOf d n stress tangent inverse p points e zeroVector zeroVector zeroMatrix k l = matrixOf d n stressL tangentL inverse p points lin u a zeroMatrix k l) /\
    (forall du q, (q < p)%nat -> sum p (fun r => P q r * updateOf d n stress tangent inverse p points e zeroVector du zeroVector r) =
       updateOf d n stressL tangentL inverse p points lin zeroVector du zeroVector q)).

  (** *** Green-Lagrange strains *)
  Theorem C186_green_lagrange p M : linearises p identity (additive d n p false dN M) M.
  Proof.
    assert (d3 : (0 < d <= 3)%nat) by lia.
    assert (HP : isInverse p identity identity) by (split; apply mul_id_l).
    assert (V : forall gp m, e_value (additive d n p false dN M) gp zeroVector zeroVector m = 0).
    { intros gp m. unfold additive, additiveValue, apply. cbn [e_value]. rewrite strain_at_rest, sum_zero; [ring|]. intros. unfold zeroVector. ring. }
    assert (B : forall gp i m k, e_d (additive d n p false dN M) gp zeroVector zeroVector i m k = smallBop d dN gp zeroVector i m k) by (intros; apply (bop_at_rest d n dN)).
    assert (A : forall gp m q, (q < p)%nat -> e_a (additive d n p false dN M) gp zeroVector zeroVector m q = sum p (fun r => M gp m r * identity r q)) by (intros; symmetry; now apply sum_id_right).
    assert (K : forall gp S i j k l, (forall m, (m < s)%nat -> S m = 0) -> e_dd (additive d n p false dN M) gp zeroVector zeroVector S i j k l = 0).
    { intros gp S i j k l H. unfold additive, additive_dd. cbn [e_dd]. unfold glKg. apply sum_zero. intros m Hm. rewrite H by exact Hm. ring. }
    assert (S0 : forall gp S, (forall i j k l, e_dd (additive d n p false dN M) gp zeroVector zeroVector S i j k l = e_dd (additive d n p false dN M) gp zeroVector zeroVector S j i l k) /\
      (forall q r, e_aa (additive d n p false dN M) gp zeroVector zeroVector S q r = e_aa (additive d n p false dN M) gp zeroVector zeroVector S r q)).
    { intros gp S. split; [|reflexivity]. intros. unfold additive, additive_dd. cbn [e_dd]. apply (C96_green_lagrange d n (proj1 d3) dN gp zeroVector). lia. }
    unfold linearises. split; [intros u a; exact (rest_d d n p points dN M stress tangent C _ identity Un (fun gp m _ => V gp m) (fun gp m q _ Hq => A gp m q Hq) (fun _ _ _ _ _ => eq_refl) u a)|]. intros HZ HZL. split; [|split].
    - exact (proj1 (at_rest_same d n p points dN M (proj1 d3) stress tangent C _ identity identity inverse Un Sy HP (fun gp m _ => V gp m) (fun gp i m k _ _ => B gp i m k) (fun gp m q _ Hq => A gp m q Hq)
        K (fun _ _ _ _ _ => eq_refl) (fun _ _ _ _ _ _ => eq_refl) S0 zeroVector zeroVector HZ (HZL _ _))).
    - intros u a. exact (proj2 (at_rest_same d n p points dN M (proj1 d3) stress tangent C _ identity identity inverse Un Sy HP (fun gp m _ => V gp m) (fun gp i m k _ _ => B gp i m k) (fun gp m q _ Hq => A gp m q Hq)
        K (fun _ _ _ _ _ => eq_refl) (fun _ _ _ _ _ _ => eq_refl) S0 u a HZ (HZL _ _))).
    - intros du q. exact (at_rest_update d n p points dN M (proj1 d3) stress tangent C _ identity identity inverse Un HP (fun gp m _ => V gp m) (fun gp i m k _ _ => B gp i m k) (fun gp m q _ Hq => A gp m q Hq)
        (fun _ _ _ _ _ => eq_refl) (fun _ _ _ _ _ _ => eq_refl) du q HZ (HZL _ _)).
  Qed.

  (** *** Displacement gradients *)
  Lemma columns_ext G G' F F' m : (forall k l, (k < d)%nat -> (l < d)%nat -> G k l = G' k l /\ F k l = F' k l) -> voigtColumns d G F m = voigtColumns d G' F' m.
  Proof.
    intros H. assert (X : forall a b, (a < d)%nat -> (b < d)%nat -> sum d (fun k => G k a * F k b) = sum d (fun k => G' k a * F' k b)).
    { intros a b Ha Hb. apply sum_ext. intros k Hk. now rewrite (proj1 (H k a Hk Ha)), (proj2 (H k b Hk Hb)). }
    unfold voigtColumns. destruct dim as [E|E]; rewrite E in *; cbn [Nat.eqb]; destruct m as [|[|[|[|[|m]]]]]; rewrite !X by lia; reflexivity.
  Qed.
  Lemma columns_identity G m : (m < s)%nat -> voigtColumns d G identity m = strainVector d (fun k l => (G k l + G l k) / 2) m.
  Proof.
    unfold s. destruct dim as [->| ->]; [change (voigtLength 2) with 3%nat|change (voigtLength 3) with 6%nat]; intros Hm; cases m; unfold voigtColumns, strainVector, identity; cbn; field.
  Qed.
  Lemma rows_ext x x' y y' m : (forall k, (k < d)%nat -> x k = x' k /\ y k = y' k) -> voigtRows d x y m = voigtRows d x' y' m.
  Proof.
    intros H. assert (X : forall a, (a < d)%nat -> x a = x' a) by (intros; now apply H). assert (Y : forall a, (a < d)%nat -> y a = y' a) by (intros; now apply H).
    unfold voigtRows. destruct dim as [E|E]; rewrite E in *; cbn [Nat.eqb]; destruct m as [|[|[|[|[|m]]]]]; rewrite ?X, ?Y by lia; reflexivity.
  Qed.
  Lemma rows_identity gp i m k : (m < s)%nat -> (k < d)%nat -> voigtRows d (dN gp i) (identity k) m = smallBop d dN gp zeroVector i m k.
  Proof.
    unfold s. destruct dim as [->| ->]; [change (voigtLength 2) with 3%nat|change (voigtLength 3) with 6%nat]; intros Hm Hk; cases m; cases k; unfold voigtRows, smallBop, strainVector, identity; cbn; field.
  Qed.
  Lemma stress_vanishes S X Y : (forall m, (m < s)%nat -> S m = 0) -> stressColumns d S X Y = 0.
  Proof. intros H. rewrite <- (columns_contract d 1 dim). apply sum_zero. intros m Hm. rewrite H by exact Hm. ring. Qed.

  Variables (transposed : bool) (detJ0 : R) (J0 JInv dN0 : nat -> nat -> R).
  Hypothesis HdetJ0 : detJ0 <> 0.
  (** J0 a b is the derivative of the global coordinate b with respect to the local coordinate a, JInv the reverse, at the center *)
  Hypothesis HJ : isInverse d J0 JInv.
  Let A i j := transformationMatrix d J0 i j * detJ0.
  Hypothesis HA : isInverse s A (inverse A).
  Let p := (d * d)%nat.
  Let H := easFunctionH d detJ0 JInv.
  Let M := easFunctionE inverse d J0 detJ0 (gradientVariant d).
  Let P := pairingMatrix d (detJ0 * detJ0).
  Let Pi q r := pairingMatrix d (/ (detJ0 * detJ0)) r q.

  Lemma pairing_bound q : (q < p)%nat -> (pairing d q < p)%nat.
  Proof. unfold p. destruct dim as [->| ->]; intros Hq; do 9 (destruct q as [|q]; [cbn in *; lia|]); cbn in Hq; lia. Qed.
  Lemma pairing_inverse : isInverse p P Pi.
  Proof.
    assert (N0 : detJ0 * detJ0 <> 0) by (now apply Rmult_integral_contrapositive_currified). unfold P, Pi, p. set (c := detJ0 * detJ0) in *.
    destruct dim as [->| ->]; cbn [Nat.mul Nat.add]; split; intros i j Hi Hj.
    1,2: do 4 (destruct i as [|i]; [do 4 (destruct j as [|j]; [unfold mul, pairingMatrix, pairing, identity; cbn; field; exact N0|]); lia|]); lia.
    1,2: do 9 (destruct i as [|i]; [do 9 (destruct j as [|j]; [unfold mul, pairingMatrix, pairing, identity; cbn; field; exact N0|]); lia|]); lia.
  Qed.
  Lemma modes_paired gp m q : (m < s)%nat -> (q < p)%nat ->
    strainVector d (fun k l => (modesH d gp q k l + modesH d gp q l k) / 2) m = modesE (gradientVariant d) gp m (pairing d q).
  Proof.
    unfold s, p. destruct dim as [->| ->]; [change (voigtLength 2) with 3%nat|change (voigtLength 3) with 6%nat]; cbn [Nat.mul Nat.add]; intros Hm Hq.
    - do 3 (destruct m as [|m]; [do 4 (destruct q as [|q]; [unfold strainVector, modesH, modesE, gradientVariant, pairing, H4modes, E4modes, entries; cbn; field|]); lia|]); lia.
    - do 6 (destruct m as [|m]; [do 9 (destruct q as [|q]; [unfold strainVector, modesH, modesE, gradientVariant, pairing, H9modes, E9modes, entries; cbn; field|]); lia|]); lia.
  Qed.
  Lemma inverse_transformation : eqm s (inverse A) (fun i j => transformationMatrix d JInv i j / detJ0).
  Proof.
    assert (X : isInverse s A (fun i j => transformationMatrix d JInv i j / detJ0)).
    { destruct HJ as (H1 & H2). split; intros i j Hi Hj.
      - transitivity (mul s (transformationMatrix d J0) (transformationMatrix d JInv) i j); [unfold mul, A; apply sum_ext; intros; now field|].
        unfold s in *. rewrite <- transformation_mul, (transformation_ext d _ identity), transformation_id by assumption. reflexivity.
      - transitivity (mul s (transformationMatrix d JInv) (transformationMatrix d J0) i j); [unfold mul, A; apply sum_ext; intros; now field|].
        unfold s in *. rewrite <- transformation_mul, (transformation_ext d _ identity), transformation_id by assumption. reflexivity. }
    exact (inverse_same s A A _ _ X HA (fun _ _ _ _ => eq_refl)).
  Qed.
  Lemma gradient_modes gp m q : (m < s)%nat -> (q < p)%nat -> voigtColumns d (H gp q) identity m = sum p (fun r => M gp m r * P r q).
  Proof.
    intros Hm Hq. rewrite (sum_pick p (pairing d q)) by (now apply pairing_bound || (intros r _ Hr; unfold P, pairingMatrix; destruct (Nat.eqb_spec r (pairing d q)); [congruence|ring])).
    unfold P, pairingMatrix. rewrite Nat.eqb_refl. rewrite (columns_identity _ m Hm).
    set (w := detJ0 / integrationElement gp). set (X k l := (modesH d gp q k l + modesH d gp q l k) / 2).
    transitivity (w * strainVector d (turnTensor d JInv X) m).
    - unfold strainVector. assert (E : forall k l, (H gp q k l + H gp q l k) / 2 = w * turnTensor d JInv X k l).
      { intros k l. unfold H, easFunctionH, turnTensor, X. fold w. generalize (modesH d gp q). intros Y. destruct dim as [->| ->]; cbn [sum]; field. }
      destruct (component d m) as (a, b). rewrite E. destruct (a =? b)%nat; ring.
    - rewrite <- (turn_strain d JInv dim) by (exact Hm || (intros k l _ _; unfold X; rewrite Rplus_comm; reflexivity)).
      unfold turnStrain. fold s. unfold M, easFunctionE, T0InverseTransformed. fold s A. rewrite <- sum_mul_l, <- sum_mul_r. apply sum_ext. intros k Hk.
      replace (strainVector d X k) with (modesE (gradientVariant d) gp k (pairing d q)) by (symmetry; exact (modes_paired gp k q Hk Hq)).
      rewrite inverse_transformation by assumption. unfold w, Rdiv. generalize (/ integrationElement gp). intros v. field. exact HdetJ0.
  Qed.

  Theorem C186_displacement_gradients : linearises p P (gradient d n p transposed dN dN0 H) M.
  Proof.
    assert (d3 : (0 < d <= 3)%nat) by lia. set (e := gradient d n p transposed dN dN0 H).
    assert (T0 : forall gp k l, Htilde p H gp zeroVector k l = 0) by (intros; unfold Htilde; apply sum_zero; intros; unfold zeroVector; ring).
    assert (F0 : forall gp k l, dgF d n p dN H gp zeroVector zeroVector k l = identity k l).
    { intros. unfold dgF, dgGradient. rewrite T0, (gradient_at_rest d n dN). ring. }
    assert (F1 : forall k l, centerF d n dN0 zeroVector k l = identity k l).
    { intros. unfold centerF, displacementGradientOf. rewrite sum_zero by (intros; unfold zeroVector; ring). ring. }
    assert (F2 : forall gp k l, dgtF d n p dN H dN0 gp zeroVector zeroVector k l = identity k l).
    { intros. unfold dgtF, dgtGradient, dgtEnhanced. rewrite (gradient_at_rest d n dN), sum_zero by (intros; rewrite T0; ring). ring. }
    assert (N0 : forall gp i l, dNplus d p dN H dN0 gp zeroVector i l = dN gp i l).
    { intros. unfold dNplus, dNtilde. rewrite sum_zero; [ring|]. intros. apply sum_zero. intros. unfold zeroVector. ring. }
    assert (V : forall gp m, (m < s)%nat -> e_value e gp zeroVector zeroVector m = 0).
    { intros gp m Hm. destruct (C109_values d n p dN H dN0 gp zeroVector zeroVector m dim Hm) as (_ & _ & X). destruct (X ltac:(reflexivity)) as (X1 & X2).
      unfold e, gradient. destruct transposed; cbn [e_value]; [rewrite X2|rewrite X1]; apply strain_at_rest. }
    assert (B : forall gp i m k, (m < s)%nat -> (k < d)%nat -> e_d e gp zeroVector zeroVector i m k = smallBop d dN gp zeroVector i m k).
    { intros gp i m k Hm Hk. rewrite <- rows_identity by assumption. unfold e, gradient. destruct transposed; cbn [e_d].
      - unfold dgt_d. apply rows_ext. intros b Hb. rewrite N0, F2. split; reflexivity.
      - unfold dg_d. apply rows_ext. intros b Hb. rewrite F0. split; reflexivity. }
    assert (Aa : forall gp m q, (m < s)%nat -> (q < p)%nat -> e_a e gp zeroVector zeroVector m q = sum p (fun r => M gp m r * P r q)).
    { intros gp m q Hm Hq. rewrite <- gradient_modes by assumption. unfold e, gradient. destruct transposed; cbn [e_a].
      - unfold dgt_a. transitivity (voigtColumns d (fun k l => H gp q l k) identity m).
        + apply columns_ext. intros k l Hk Hl. split; [|apply F2]. unfold timesTransposed. rewrite (sum_ext d _ (fun b => identity k b * H gp q l b)) by (intros; now rewrite F1). now apply sum_id_l.
        + rewrite !columns_identity by exact Hm. unfold strainVector. destruct (component d m) as (i, j). destruct (i =? j)%nat; now rewrite Rplus_comm.
      - unfold dg_a. apply columns_ext. intros. split; [reflexivity|apply F0]. }
    assert (K : forall gp S i j k l, (forall m, (m < s)%nat -> S m = 0) -> e_dd e gp zeroVector zeroVector S i j k l = 0).
    { intros gp S i j k l HS. unfold e, gradient. destruct transposed; cbn [e_dd].
      - unfold dgt_dd. destruct dim as [E|E]; unfold s in HS; rewrite E in *; cbn [Nat.eqb]; [change (voigtLength 2) with 3%nat in HS|change (voigtLength 3) with 6%nat in HS]; rewrite !HS by lia; cbv zeta; ring.
      - unfold dg_dd, glKg. apply sum_zero. intros m Hm. rewrite HS by exact Hm. ring. }
    assert (Kaa : forall gp S q r, (forall m, (m < s)%nat -> S m = 0) -> e_aa e gp zeroVector zeroVector S q r = 0).
    { intros gp S q r HS. unfold e, gradient. destruct transposed; cbn [e_aa]; [unfold dgt_aa|unfold dg_aa]; now apply stress_vanishes. }
    assert (Kad : forall gp S i q b, (forall m, (m < s)%nat -> S m = 0) -> e_ad e gp zeroVector zeroVector S i q b = 0).
    { intros gp S i q b HS. unfold e, gradient. destruct transposed; cbn [e_ad]; [|unfold dg_ad; now apply stress_vanishes].
      unfold dgt_ad. destruct dim as [E|E]; unfold s in HS; rewrite E in *; [change (voigtLength 2) with 3%nat in HS|change (voigtLength 3) with 6%nat in HS];
        unfold atVoigt; cbn [loop Nat.eqb Nat.add toVoigtIndex andb orb]; rewrite !HS by lia; cbv zeta; ring. }
    assert (S0 : forall gp S, (forall i j k l, e_dd e gp zeroVector zeroVector S i j k l = e_dd e gp zeroVector zeroVector S j i l k) /\
      (forall q r, e_aa e gp zeroVector zeroVector S q r = e_aa e gp zeroVector zeroVector S r q)).
    { intros gp S. destruct (C109_symmetric d n p dN H dN0 gp zeroVector zeroVector S dim) as (S1 & S2 & S3).
      assert (S4 := proj2 (C96_green_lagrange d n (proj1 d3) dN gp zeroVector ltac:(lia)) S). unfold e, gradient. destruct transposed; cbn [e_dd e_aa]; split; assumption. }
    unfold linearises. split; [intros u a; exact (rest_d d n p points dN M stress tangent C e P Un V Aa Kaa u a)|]. intros HZ HZL. split; [|split].
    - exact (proj1 (at_rest_same d n p points dN M (proj1 d3) stress tangent C e P Pi inverse Un Sy pairing_inverse V B Aa K Kaa Kad S0 zeroVector zeroVector HZ (HZL _ _))).
    - intros u a. exact (proj2 (at_rest_same d n p points dN M (proj1 d3) stress tangent C e P Pi inverse Un Sy pairing_inverse V B Aa K Kaa Kad S0 u a HZ (HZL _ _))).
    - intros du q. exact (at_rest_update d n p points dN M (proj1 d3) stress tangent C e P Pi inverse Un pairing_inverse V B Aa Kaa Kad du q HZ (HZL _ _)).
  Qed.
End Variants.

(** ** A case *)
(** A square with four nodes, a material that stiffens, and points at which each mode is of unit size *)
Definition stiffeningStress (e : nat -> R) (m : nat) : R := e m + e m * e m * e m.
Definition stiffeningTangent (e : nat -> R) (p q : nat) : R := if (p =? q)%nat then 1 + 3 * (e p * e p) else 0.
Definition squareDerivatives (xi eta : R) (i a : nat) : R :=
  nth a (nth i [[-(1 - eta); -(1 - xi)]; [1 - eta; - xi]; [- eta; 1 - xi]; [eta; xi]] []) 0.
Definition squarePoint (xi eta : R) : point := {| position := fun a => if (a =? 0)%nat then xi else eta; integrationElement := 1; weight := 2 |}.
Definition squarePoints : list point := [squarePoint (1 / 4) (1 / 2); squarePoint (3 / 4) (1 / 2); squarePoint (1 / 2) (1 / 4); squarePoint (1 / 2) (3 / 4)].
Definition diagonalInverse (D : nat -> nat -> R) (i j : nat) : R := if (i =? j)%nat then / D i i else 0.

Example C186_applies :
  let dN gp := squareDerivatives (position gp 0%nat) (position gp 1%nat) in
  let H := easFunctionH 2 1 identity in let M := easFunctionE diagonalInverse 2 identity 1 V4 in
  unstressed 3 stiffeningStress stiffeningTangent identity /\ symmetric 3 identity /\ isInverse 2 identity identity /\
  isInverse 3 (fun i j => transformationMatrix 2 identity i j * 1) (diagonalInverse (fun i j => transformationMatrix 2 identity i j * 1)) /\
  (forall e, e = gradient 2 4 4 false dN (squareDerivatives (1 / 2) (1 / 2)) H \/ e = gradient 2 4 4 true dN (squareDerivatives (1 / 2) (1 / 2)) H \/ e = additive 2 4 4 false dN M ->
     let D := easD 3 squarePoints stiffeningStress stiffeningTangent (e_value e) (e_a e) (e_aa e) zeroVector zeroVector in
     isInverse 4 D (diagonalInverse D)) /\
  (forall u a, let lin := additive 2 4 4 true dN M in
     let D := easD 3 squarePoints (linearStress_ 3 (fun _ => identity)) (fun _ => identity) (e_value lin) (e_a lin) (e_aa lin) u a in
     isInverse 4 D (diagonalInverse D)).
Proof.
  assert (Di : forall D, eqm 4 D identity -> isInverse 4 D (diagonalInverse D)).
  { intros D HD. split; intros i j Hi Hj; (do 4 (destruct i as [|i]; [do 4 (destruct j as [|j]; [unfold mul, diagonalInverse; cbn [sum Nat.eqb]; rewrite !HD by lia; unfold identity; cbn [Nat.eqb]; field|]); lia|])); lia. }
  assert (Y : forall i j, (i < 3)%nat -> (j < 3)%nat -> transformationMatrix 2 identity i j * 1 = identity i j).
  { intros i j Hi Hj. rewrite Rmult_1_r. apply (transformation_id 2); [now left|assumption..]. }
  intros dN H M.
  set (DL u a := easD 3 squarePoints (linearStress_ 3 (fun _ => identity)) (fun _ => identity) (e_value (additive 2 4 4 true dN M)) (e_a (additive 2 4 4 true dN M)) (e_aa (additive 2 4 4 true dN M)) u a).
  assert (L : forall u a, eqm 4 (DL u a) identity).
  { intros u a i j Hi Hj. do 4 (destruct i as [|i]; [do 4 (destruct j as [|j]; [cbv -[Rplus Rmult Rinv Ropp Rminus IZR]; field|]); lia|]); lia. }
  assert (U : unstressed 3 stiffeningStress stiffeningTangent identity).
  { intros e He. split; intros; unfold stiffeningStress, stiffeningTangent, identity; rewrite ?He by assumption; [ring|]. destruct (p =? q)%nat; ring. }
  assert (Sy : symmetric 3 identity) by (intros i j _ _; unfold identity; now rewrite Nat.eqb_sym).
  assert (J : isInverse 2 identity identity) by (split; apply mul_id_l).
  assert (T : isInverse 3 (fun i j => transformationMatrix 2 identity i j * 1) (diagonalInverse (fun i j => transformationMatrix 2 identity i j * 1))).
  { split; intros i j Hi Hj; (do 3 (destruct i as [|i]; [do 3 (destruct j as [|j]; [unfold mul, diagonalInverse; cbn [sum Nat.eqb]; rewrite !Y by lia; unfold identity; cbn [Nat.eqb]; field|]); lia|])); lia. }
  split; [exact U|]. split; [exact Sy|]. split; [exact J|]. split; [exact T|]. split.
  - intros e He D. apply Di.
    assert (X : exists P, eqm 4 D (mul 4 (mt P) (mul 4 (DL zeroVector zeroVector) P)) /\ (P = identity \/ P = pairingMatrix 2 (1 * 1))).
    { destruct He as [->|[->| ->]]; [exists (pairingMatrix 2 (1 * 1))|exists (pairingMatrix 2 (1 * 1))|exists identity]; (split; [|now (left + right)]).
      - exact (proj1 (C186_displacement_gradients 2 4 squarePoints dN (or_introl eq_refl) _ _ identity diagonalInverse U Sy false 1 identity identity _ R1_neq_R0 J T) zeroVector zeroVector).
      - exact (proj1 (C186_displacement_gradients 2 4 squarePoints dN (or_introl eq_refl) _ _ identity diagonalInverse U Sy true 1 identity identity _ R1_neq_R0 J T) zeroVector zeroVector).
      - exact (proj1 (C186_green_lagrange 2 4 squarePoints dN (or_introl eq_refl) _ _ identity diagonalInverse U Sy 4 M) zeroVector zeroVector). }
    destruct X as (P & X & HP). intros i j Hi Hj. rewrite X by assumption. unfold mul, mt.
    rewrite (sum_ext 4 _ (fun k => P k i * sum 4 (fun l => identity k l * P l j))) by (intros k Hk; f_equal; apply sum_ext; intros l Hl; now rewrite L).
    destruct HP as [->| ->]; (do 4 (destruct i as [|i]; [do 4 (destruct j as [|j]; [unfold identity, pairingMatrix, pairing; cbn; ring|]); lia|])); lia.
  - intros u a lin D. apply Di. apply L.
Qed.

Print Assumptions C186_green_lagrange.
Print Assumptions C186_displacement_gradients.
