(** Lemmas about the integration loops of assumed stress elements. They are those of an enhanced element whose "strain" has 2 s components,
    the strains and the assumed stresses, and whose "energy" is S . E - chi(S). *)

From Coq Require Import Reals Arith Bool List Lia Lra FunctionalExtensionality.
From Coquelicot Require Import Coquelicot.
From Verif Require Import Tensor_Spec Conversions_Spec Conversions_Props Tensor_Model Element_Spec Element_Model Element_Proofs Element_Props.
From Verif Require Import Eas_Spec Eas_Model Eas_Proofs Eas_Props AssumedStress_Model.
Import ListNotations.
Local Open Scope R_scope.

Lemma sum_halves s f : sum (s + s) f = sum s f + sum s (fun m => f (s + m)%nat).
Proof.
  assert (G : forall k, sum (s + k) f = sum s f + sum k (fun m => f (s + m)%nat)).
  { induction k; [rewrite Nat.add_0_r; cbn [sum]; ring|]. rewrite Nat.add_succ_r. cbn [sum]. rewrite IHk. ring. }
  apply G.
Qed.

Section Mixed.
  Variables (s p : nat) (points : list point).
  Variable eps : point -> (nat -> R) -> nat -> R.
  Variable bop : point -> (nat -> R) -> nat -> nat -> nat -> R.
  Variable kg : point -> (nat -> R) -> (nat -> R) -> nat -> nat -> nat -> nat -> R.
  Variable P : point -> nat -> nat -> R.
  Variable inverse : (nat -> nat -> R) -> nat -> nat -> R.
  Let S := stressValue s p P.

  (** ** Closed forms *)
  Lemma as_h_sum st q r : asH s points P st q r =
    sumP points (fun gp => sum s (fun k => sum s (fun l => P gp k q * invertedMaterialStates st gp k l * P gp l r)) * vol gp).
  Proof.
    unfold asH.
    rewrite (fold_matrix points _ _ (fun gp q r => sum s (fun k => sum s (fun l => P gp k q * invertedMaterialStates st gp k l * P gp l r)) * vol gp)); [ring|].
    intros. cbv zeta. unfold vol. ring.
  Qed.
  Lemma as_rtilde_sum u st q : asRtilde s points eps P u st q =
    sumP points (fun gp => sum s (fun m => P gp m q * (eps gp u m - strainStates st gp m)) * vol gp).
  Proof.
    unfold asRtilde.
    rewrite (fold_vector points _ _ (fun gp q => sum s (fun m => P gp m q * (eps gp u m - strainStates st gp m)) * vol gp)); [ring|].
    reflexivity.
  Qed.
  Lemma as_scalar_sum u st : asScalarImpl s p points eps P u st =
    sumP points (fun gp => (dot s (S gp (beta st)) (eps gp u) - 1 / 2 * dot s (S gp (beta st)) (strainStates st gp)) * vol gp).
  Proof.
    unfold asScalarImpl. cbv zeta.
    transitivity (0 + sumP points (fun gp => (dot s (S gp (beta st)) (eps gp u) - 1 / 2 * dot s (S gp (beta st)) (strainStates st gp)) * integrationElement gp * weight gp)).
    - exact (fold_scalar points _ _).
    - rewrite Rplus_0_l. apply sumP_ext. intros. unfold vol. ring.
  Qed.

  (** ** The mixed functional as the energy of an enhanced element *)
  Variables (chi : (nat -> R) -> R) (Es : (nat -> R) -> nat -> R) (Dc : (nat -> R) -> nat -> nat -> R).
  Definition tail (e : nat -> R) (m : nat) : R := e (s + m)%nat.
  Definition mixE (gp : point) (u b : nat -> R) (m : nat) : R := if (m <? s)%nat then eps gp u m else S gp b (m - s)%nat.
  Definition mixE_d (gp : point) (u b : nat -> R) (i m a : nat) : R := if (m <? s)%nat then bop gp u i m a else 0.
  Definition mixE_a (gp : point) (u b : nat -> R) (m q : nat) : R := if (m <? s)%nat then 0 else P gp (m - s)%nat q.
  Definition mixE_dd (gp : point) (u b : nat -> R) (T : nat -> R) : nat -> nat -> nat -> nat -> R := kg gp u (fun m => if (m <? s)%nat then T m else 0).
  Definition mixPsi (e : nat -> R) : R := dot s (tail e) e - chi (tail e).
  Definition mixStress (e : nat -> R) (m : nat) : R := if (m <? s)%nat then tail e m else e (m - s)%nat - Es (tail e) (m - s)%nat.
  Definition mixTangent (e : nat -> R) (m l : nat) : R :=
    if (m <? s)%nat then (if (l <? s)%nat then 0 else identity m (l - s))
    else (if (l <? s)%nat then identity (m - s) l else - Dc (tail e) (m - s)%nat (l - s)%nat).

  Lemma tail_mix gp u b : tail (mixE gp u b) = S gp b.
  Proof.
    apply functional_extensionality. intros m. unfold tail, mixE. destruct (Nat.ltb_spec (s + m) s); [lia|]. f_equal. lia.
  Qed.
  Lemma mixE_low gp u b m : (m < s)%nat -> mixE gp u b m = eps gp u m.
  Proof. intros. unfold mixE. destruct (Nat.ltb_spec m s); [reflexivity|lia]. Qed.
  Lemma mixE_d_low gp u b i m a : (m < s)%nat -> mixE_d gp u b i m a = bop gp u i m a.
  Proof. intros. unfold mixE_d. destruct (Nat.ltb_spec m s); [reflexivity|lia]. Qed.
  Lemma mixE_d_high gp u b i m a : mixE_d gp u b i (s + m) a = 0.
  Proof. unfold mixE_d. destruct (Nat.ltb_spec (s + m) s); [lia|reflexivity]. Qed.
  Lemma mixE_a_low gp u b m q : (m < s)%nat -> mixE_a gp u b m q = 0.
  Proof. intros. unfold mixE_a. destruct (Nat.ltb_spec m s); [reflexivity|lia]. Qed.
  Lemma mixE_a_high gp u b m q : mixE_a gp u b (s + m) q = P gp m q.
  Proof. unfold mixE_a. destruct (Nat.ltb_spec (s + m) s); [lia|f_equal; lia]. Qed.
  Lemma mixStress_low gp u b m : (m < s)%nat -> mixStress (mixE gp u b) m = S gp b m.
  Proof. intros. unfold mixStress. destruct (Nat.ltb_spec m s); [|lia]. rewrite tail_mix. reflexivity. Qed.
  Lemma mixStress_high gp u b m : (m < s)%nat -> mixStress (mixE gp u b) (s + m) = eps gp u m - Es (S gp b) m.
  Proof. intros. unfold mixStress. destruct (Nat.ltb_spec (s + m) s); [lia|]. rewrite tail_mix. replace (s + m - s)%nat with m by lia. rewrite mixE_low by assumption. reflexivity. Qed.
  Lemma mixTangent_ll e m l : (m < s)%nat -> (l < s)%nat -> mixTangent e m l = 0.
  Proof. intros. unfold mixTangent. destruct (Nat.ltb_spec m s); [|lia]. destruct (Nat.ltb_spec l s); [reflexivity|lia]. Qed.
  Lemma mixTangent_lh e m l : (m < s)%nat -> mixTangent e m (s + l) = identity m l.
  Proof. intros. unfold mixTangent. destruct (Nat.ltb_spec m s); [|lia]. destruct (Nat.ltb_spec (s + l) s); [lia|f_equal; lia]. Qed.
  Lemma mixTangent_hl e m l : (l < s)%nat -> mixTangent e (s + m) l = identity m l.
  Proof. intros. unfold mixTangent. destruct (Nat.ltb_spec (s + m) s); [lia|]. destruct (Nat.ltb_spec l s); [|lia]. f_equal; lia. Qed.
  Lemma mixTangent_hh e m l : mixTangent e (s + m) (s + l) = - Dc (tail e) m l.
  Proof.
    unfold mixTangent. destruct (Nat.ltb_spec (s + m) s); [lia|]. destruct (Nat.ltb_spec (s + l) s); [lia|].
    replace (s + m - s)%nat with m by lia. replace (s + l - s)%nat with l by lia. reflexivity.
  Qed.

  (** The state whose strains and inverted material belong to the stress parameters b *)
  Definition stateAt (b : nat -> R) : asState :=
    {| beta := b; strainStates := fun gp => Es (S gp b); invertedMaterialStates := fun gp => Dc (S gp b) |}.

  Lemma mix_rtilde u b : easRtilde (s + s) points mixStress mixE mixE_a u b = asRtilde s points eps P u (stateAt b).
  Proof.
    apply functional_extensionality. intros q. rewrite rtilde_sum, as_rtilde_sum. apply sumP_ext. intros gp _. f_equal.
    rewrite sum_halves, (sum_zero s (fun m => _ * mixStress _ m)), Rplus_0_l.
    2:{ intros m Hm. rewrite mixE_a_low by assumption. ring. }
    apply sum_ext. intros m Hm. rewrite mixE_a_high, mixStress_high by assumption. reflexivity.
  Qed.
  Lemma mix_h u b : easD (s + s) points mixStress mixTangent mixE mixE_a zero_aa u b = (fun q r => - asH s points P (stateAt b) q r).
  Proof.
    apply functional_extensionality. intros q. apply functional_extensionality. intros r. rewrite d_sum, as_h_sum.
    transitivity (sumP points (fun gp => sum s (fun k => sum s (fun l => P gp k q * Dc (S gp b) k l * P gp l r)) * vol gp) * -1); [|cbn [stateAt invertedMaterialStates]; ring].
    rewrite <- sumP_mul_r. apply sumP_ext. intros gp _. unfold zero_aa. rewrite Rplus_0_r, sum_halves, (sum_zero s (fun m => sum (s + s) _)), Rplus_0_l.
    2:{ intros m Hm. apply sum_zero. intros. rewrite mixE_a_low by assumption. ring. }
    transitivity (sum s (fun k => sum s (fun l => P gp k q * Dc (S gp b) k l * P gp l r)) * -1 * vol gp); [|ring]. f_equal.
    rewrite <- sum_mul_r. apply sum_ext. intros m Hm. rewrite sum_halves, (sum_zero s (fun o => _ * _ * mixE_a gp u b o r)), Rplus_0_l.
    2:{ intros o Ho. rewrite (mixE_a_low _ _ _ o) by assumption. ring. }
    rewrite <- sum_mul_r. apply sum_ext. intros o Ho. rewrite !mixE_a_high, mixTangent_hh, tail_mix. ring.
  Qed.
  Lemma mix_energy u b : enhancedEnergy points mixPsi mixE u b =
    sumP points (fun gp => (dot s (S gp b) (eps gp u) - chi (S gp b)) * vol gp).
  Proof.
    unfold enhancedEnergy. rewrite energy_sum. apply sumP_ext. intros gp _. unfold mixPsi. rewrite tail_mix. f_equal. f_equal.
    apply sum_ext. intros m Hm. rewrite mixE_low by assumption. reflexivity.
  Qed.
  Definition negatedInverse (M : nat -> nat -> R) (q r : nat) : R := - inverse (fun q r => - M q r) q r.
  Lemma inverse_h u b : negatedInverse (easD (s + s) points mixStress mixTangent mixE mixE_a zero_aa u b) =
    (fun q r => - inverse (asH s points P (stateAt b)) q r).
  Proof.
    rewrite mix_h. unfold negatedInverse. apply functional_extensionality. intros q. apply functional_extensionality. intros r. f_equal.
    assert (E : (fun q r => - - asH s points P (stateAt b) q r) = asH s points P (stateAt b)).
    { apply functional_extensionality. intros. apply functional_extensionality. intros. ring. }
    rewrite E. reflexivity.
  Qed.
  Lemma mix_material e : hyperelastic s chi Es Dc (tail e) -> hyperelastic (s + s) mixPsi mixStress mixTangent e.
  Proof.
    intros (Hc & HE).
    assert (T : forall c v, passes (s + s) c e v -> passes s (fun t => tail (c t)) (tail e) (tail v)).
    { intros c v Pc m Hm. exact (Pc (s + m)%nat ltac:(lia)). }
    split.
    - intros c v Pc. unfold mixPsi. eapply derive_eq.
      + apply (is_derive_minus (fun t => dot s (tail (c t)) (c t)) (fun t => chi (tail (c t)))); [|exact (Hc _ _ (T c v Pc))].
        apply (derive_sum s (fun m t => tail (c t) m * c t m) (fun m => tail v m * e m + tail e m * v m)). intros m Hm.
        destruct (Pc m ltac:(lia)) as (E0 & D0). destruct (T c v Pc m Hm) as (E1 & D1). cbv beta in E1.
        eapply derive_eq; [apply (is_derive_mult (fun t => tail (c t) m) (fun t => c t m) 0 _ _ D1 D0); exact Rmult_comm|].
        rewrite E0, E1. reflexivity.
      + unfold dot. rewrite sum_halves. change (minus ?a ?b) with (a + - b). rewrite sum_add.
        rewrite (sum_ext s (fun m => mixStress e m * v m) (fun m => tail e m * v m)).
        2:{ intros m Hm. unfold mixStress. destruct (Nat.ltb_spec m s); [reflexivity|lia]. }
        rewrite (sum_ext s (fun m => mixStress e (s + m) * v (s + m)%nat) (fun m => tail v m * e m + Es (tail e) m * tail v m * -1)).
        2:{ intros m Hm. unfold mixStress. destruct (Nat.ltb_spec (s + m) s); [lia|]. replace (s + m - s)%nat with m by lia. unfold tail. ring. }
        rewrite sum_add, sum_mul_r. ring.
    - intros m Hm c v Pc. destruct (Nat.lt_ge_cases m s) as [L|L].
      + eapply derive_eq.
        * apply (is_derive_ext (fun t => tail (c t) m)); [intros; unfold mixStress; destruct (Nat.ltb_spec m s); [reflexivity|lia]|].
          exact (proj2 (T c v Pc m L)).
        * unfold dot. rewrite sum_halves, (sum_zero s (fun l => mixTangent e m l * v l)), Rplus_0_l; [|intros; rewrite mixTangent_ll by assumption; ring].
          rewrite (sum_ext s _ (fun l => identity m l * tail v l)); [symmetry; apply sum_id_l, L|]. intros l Hl. rewrite mixTangent_lh by assumption. reflexivity.
      + replace m with (s + (m - s))%nat by lia. set (j := (m - s)%nat). assert (Hj : (j < s)%nat) by (unfold j; lia).
        eapply derive_eq.
        * apply (is_derive_ext (fun t => c t j - Es (tail (c t)) j)).
          { intros t. unfold mixStress. destruct (Nat.ltb_spec (s + j) s); [lia|]. replace (s + j - s)%nat with j by lia. reflexivity. }
          apply (is_derive_minus (fun t => c t j) (fun t => Es (tail (c t)) j)); [exact (proj2 (Pc j ltac:(lia)))|]. exact (HE j Hj _ _ (T c v Pc)).
        * unfold dot. rewrite sum_halves.
          rewrite (sum_ext s (fun l => mixTangent e (s + j) l * v l) (fun l => identity j l * v l)) by (intros; rewrite mixTangent_hl by assumption; reflexivity).
          rewrite (sum_ext s (fun l => mixTangent e (s + j) (s + l) * v (s + l)%nat) (fun l => Dc (tail e) j l * tail v l * -1)).
          2:{ intros l Hl. rewrite mixTangent_hh. unfold tail. ring. }
          rewrite sum_id_l, sum_mul_r by assumption. change (minus ?a ?b) with (a + - b). ring.
  Qed.
  Lemma mix_tangent_symmetric e : symmetric s (Dc (tail e)) -> symmetric (s + s) (mixTangent e).
  Proof.
    intros H m l Hm Hl. unfold mixTangent. destruct (Nat.ltb_spec m s), (Nat.ltb_spec l s); try reflexivity.
    - unfold identity. rewrite Nat.eqb_sym. reflexivity.
    - unfold identity. rewrite Nat.eqb_sym. reflexivity.
    - rewrite H by lia. reflexivity.
  Qed.
End Mixed.

Section AssumedStress.
  Variables (d n s p : nat) (points : list point).
  Hypothesis dpos : (0 < d)%nat.
  Variable eps : point -> (nat -> R) -> nat -> R.
  Variable bop : point -> (nat -> R) -> nat -> nat -> nat -> R.
  Variable kg : point -> (nat -> R) -> (nat -> R) -> nat -> nat -> nat -> nat -> R.
  Variable P : point -> nat -> nat -> R.
  Variable inverse : (nat -> nat -> R) -> nat -> nat -> R.
  Let N := (d * n)%nat.
  Let S := stressValue s p P.

  Variables (chi : (nat -> R) -> R) (Es : (nat -> R) -> nat -> R) (Dc : (nat -> R) -> nat -> nat -> R).
  Local Notation mixE := (AssumedStress_Proofs.mixE s p eps P).
  Local Notation mixE_d := (AssumedStress_Proofs.mixE_d s bop).
  Local Notation mixE_a := (AssumedStress_Proofs.mixE_a s P).
  Local Notation mixE_dd := (AssumedStress_Proofs.mixE_dd s kg).
  Local Notation mixStress := (AssumedStress_Proofs.mixStress s Es).
  Local Notation mixTangent := (AssumedStress_Proofs.mixTangent s Dc).
  Local Notation stateAt := (AssumedStress_Proofs.stateAt s p P Es Dc).

  (** ** Closed forms *)
  Lemma as_g_sum u q k : (k < N)%nat -> asG d n s points bop P u q k =
    sumP points (fun gp => sum s (fun m => P gp m q * bop gp u (k / d)%nat m (k mod d)) * vol gp).
  Proof.
    intros Hk. unfold asG.
    rewrite (fold_matrix points _ _ (fun gp q k => sum s (fun m => P gp m q * bop gp u (k / d)%nat m (k mod d)) * vol gp)); [ring|].
    intros gp L _. cbv zeta. rewrite loop_columns by assumption. apply div_small in Hk; [|assumption].
    destruct (Nat.ltb_spec (k / d) n); [reflexivity|lia].
  Qed.
  Lemma as_forces_sum u st f k : (k < N)%nat -> asForces d n s p points bop P u st f k =
    f k + sumP points (fun gp => sum s (fun m => bop gp u (k / d)%nat m (k mod d) * S gp (beta st) m) * vol gp).
  Proof.
    intros Hk.
    exact (forces_sum d n s points dpos (fun x => x) (fun gp _ b => S gp b) (fun gp u _ => bop gp u) u (beta st) f k Hk).
  Qed.
  Lemma as_geometric_sum u st K k l : (k < N)%nat -> (l < N)%nat -> asGeometric d n s p points kg P u st K k l =
    K k l + sumP points (fun gp => kg gp u (S gp (beta st)) (k / d)%nat (l / d)%nat (k mod d) (l mod d) * vol gp).
  Proof.
    intros Hk Hl. unfold asGeometric.
    rewrite (fold_matrix points _ _ (fun gp k l => kg gp u (S gp (beta st)) (k / d)%nat (l / d)%nat (k mod d) (l mod d) * vol gp)); [reflexivity|].
    intros gp L _. cbv zeta. unfold geometricStiffness. rewrite loop_blocks by assumption.
    apply div_small in Hk; [|assumption]. apply div_small in Hl; [|assumption].
    destruct (Nat.ltb_spec (k / d) n); [|lia]. destruct (Nat.ltb_spec (l / d) n); [|lia]. reflexivity.
  Qed.

  Lemma mix_forces u b f k : (k < N)%nat ->
    easForces d n (s + s) points mixStress mixE mixE_d u b f k = asForces d n s p points bop P u (stateAt b) f k.
  Proof.
    intros Hk. rewrite forces_sum, as_forces_sum by assumption. f_equal. apply sumP_ext. intros gp _. f_equal.
    rewrite sum_halves, (sum_zero s (fun m => _ * mixStress _ (s + m))), Rplus_0_r.
    2:{ intros m Hm. rewrite mixE_d_high. ring. }
    apply sum_ext. intros m Hm. rewrite mixE_d_low, mixStress_low by assumption. reflexivity.
  Qed.
  Lemma mix_g u b q k : (k < N)%nat ->
    easL d n (s + s) points mixStress mixTangent mixE mixE_d mixE_a zero_ad u b q k = asG d n s points bop P u q k.
  Proof.
    intros Hk. rewrite l_sum, as_g_sum by assumption. apply sumP_ext. intros gp _. f_equal. unfold zero_ad.
    rewrite Rplus_0_r, sum_halves, (sum_zero s (fun m => sum (s + s) _)), Rplus_0_l.
    2:{ intros m Hm. apply sum_zero. intros. rewrite mixE_a_low by assumption. ring. }
    apply sum_ext. intros m Hm. rewrite sum_halves, (sum_zero s (fun o => _ * _ * mixE_d _ _ _ _ (s + o) _)), Rplus_0_r.
    2:{ intros o Ho. rewrite mixE_d_high. ring. }
    rewrite (sum_pick s m); [|assumption|].
    - rewrite mixE_a_high, mixTangent_hl, mixE_d_low by assumption. unfold identity. rewrite Nat.eqb_refl. ring.
    - intros o Ho Hne. rewrite mixTangent_hl by assumption. unfold identity. destruct (Nat.eqb_spec m o); [congruence|ring].
  Qed.
  Lemma mix_k u b K k l : (k < N)%nat -> (l < N)%nat ->
    easStiffness d n (s + s) points mixStress mixTangent mixE mixE_d mixE_dd u b K k l = asGeometric d n s p points kg P u (stateAt b) K k l.
  Proof.
    intros Hk Hl. rewrite stiffness_sum, as_geometric_sum by assumption. f_equal. apply sumP_ext. intros gp _. f_equal.
    rewrite sum_zero, Rplus_0_l.
    - unfold mixE_dd. f_equal. apply functional_extensionality. intros m. destruct (Nat.ltb_spec m s).
      + rewrite mixStress_low by assumption. reflexivity.
      + unfold S, stressValue. destruct (Nat.ltb_spec m s); [lia|reflexivity].
    - intros m Hm. rewrite sum_halves, !sum_zero; [ring|..]; intros o Ho.
      + rewrite mixE_d_high. ring.
      + destruct (Nat.lt_ge_cases m s).
        * rewrite mixTangent_ll by assumption. ring.
        * replace m with (s + (m - s))%nat by lia. rewrite mixE_d_high. ring.
  Qed.

  Local Notation inverse' := (negatedInverse inverse).
  Lemma mix_vector u b f k : (k < N)%nat ->
    easVectorImpl d n (s + s) p points mixStress mixTangent mixE mixE_d mixE_a zero_aa zero_ad inverse' u b f k =
    asVectorImpl d n s p points eps bop P inverse u (stateAt b) f k.
  Proof.
    intros Hk. unfold easVectorImpl, asVectorImpl. rewrite mix_forces by assumption.
    rewrite inverse_h, (mix_rtilde s p points eps P Es Dc). unfold Rminus. f_equal.
    transitivity (sum p (fun q => sum p (fun r => easL d n (s + s) points mixStress mixTangent mixE mixE_d mixE_a zero_ad u b q k *
      - inverse (asH s points P (stateAt b)) q r * asRtilde s points eps P u (stateAt b) r)) * -1); [ring|].
    rewrite <- sum_mul_r. apply sum_ext. intros q _. rewrite <- sum_mul_r. apply sum_ext. intros r _. rewrite mix_g by assumption. ring.
  Qed.
  Lemma mix_matrix u b K k l : (k < N)%nat -> (l < N)%nat ->
    easMatrixImpl d n (s + s) p points mixStress mixTangent mixE mixE_d mixE_a mixE_dd zero_aa zero_ad inverse' u b K k l =
    asMatrixImpl d n s p points bop kg P inverse u (stateAt b) K k l.
  Proof.
    assert (G : forall k l, (k < N)%nat -> (l < N)%nat ->
      easStiffness d n (s + s) points mixStress mixTangent mixE mixE_d mixE_dd u b K k l -
        condense p inverse' (easL d n (s + s) points mixStress mixTangent mixE mixE_d mixE_a zero_ad u b)
          (easL d n (s + s) points mixStress mixTangent mixE mixE_d mixE_a zero_ad u b)
          (easD (s + s) points mixStress mixTangent mixE mixE_a zero_aa u b) k l =
      asGeometric d n s p points kg P u (stateAt b) K k l +
        sum p (fun q => sum p (fun r => asG d n s points bop P u q k * inverse (asH s points P (stateAt b)) q r * asG d n s points bop P u r l))).
    { clear k l. intros k l Hk Hl. rewrite mix_k by assumption. unfold Rminus. f_equal. unfold condense. rewrite inverse_h.
      match goal with |- - ?x = _ => transitivity (x * -1); [ring|] end.
      rewrite <- sum_mul_r. apply sum_ext. intros q _. rewrite <- sum_mul_r. apply sum_ext. intros r _. rewrite !mix_g by assumption. ring. }
    intros Hk Hl. unfold easMatrixImpl, asMatrixImpl. cbv zeta.
    destruct (Nat.ltb_spec l k).
    - destruct (Nat.leb_spec l k); [|lia]. apply G; assumption.
    - destruct (Nat.leb_spec k l); [|lia]. apply G; assumption.
  Qed.

  (** ** What is needed of the strain and of the material *)
  Lemma mix_expression gp u b : strainExpression d n s eps bop kg gp u ->
    (forall T T', (forall m, (m < s)%nat -> T m = T' m) -> forall i j a c, kg gp u T i j a c = kg gp u T' i j a c) ->
    enhancedExpression d n (s + s) p mixE mixE_d mixE_a mixE_dd zero_aa zero_ad gp u b.
  Proof.
    intros (H1 & H2) Hk. fold N in H1, H2. unfold enhancedExpression. cbv zeta. fold N. split; [|split].
    - intros m Hm c v w' w Pc Pb. destruct (Nat.lt_ge_cases m s) as [L|L].
      + eapply derive_eq.
        * apply (is_derive_ext (fun t => eps gp (c t) m)); [intros; symmetry; apply mixE_low, L|]. exact (H1 m L c v Pc).
        * unfold dot. rewrite (sum_zero p), Rplus_0_r; [|intros; rewrite mixE_a_low by assumption; ring].
          apply sum_ext. intros k _. rewrite mixE_d_low by assumption. reflexivity.
      + replace m with (s + (m - s))%nat by lia. set (j := (m - s)%nat). assert (Hj : (j < s)%nat) by (unfold j; lia).
        eapply derive_eq.
        * apply (is_derive_ext (fun t => sum p (fun q => P gp j q * w' t q))).
          { intros t. unfold mixE. destruct (Nat.ltb_spec (s + j) s); [lia|]. replace (s + j - s)%nat with j by lia. unfold S, stressValue, apply.
            destruct (Nat.ltb_spec j s); [reflexivity|lia]. }
          apply (derive_sum p (fun q t => P gp j q * w' t q) (fun q => P gp j q * w q)). intros q Hq. destruct (Pb q Hq) as (_ & D).
          apply (is_derive_ext (fun t => w' t q * P gp j q)); [intros; apply Rmult_comm|]. rewrite (Rmult_comm _ (w q)). apply derive_scale, D.
        * unfold dot. rewrite (sum_zero N), Rplus_0_l; [|intros; rewrite mixE_d_high; ring].
          apply sum_ext. intros q _. rewrite mixE_a_high. reflexivity.
    - intros T k Hk'. intros c v w' w Pc Pb. eapply derive_eq.
      + apply (is_derive_ext (fun t => sum s (fun m => T m * bop gp (c t) (k / d)%nat m (k mod d)))).
        * intros t. rewrite sum_halves, (sum_zero s (fun m => T (s + m)%nat * _)), Rplus_0_r; [|intros; rewrite mixE_d_high; ring].
          apply sum_ext. intros m Hm. rewrite mixE_d_low by assumption. reflexivity.
        * exact (H2 T k Hk' c v Pc).
      + unfold zero_ad, dot. rewrite (sum_zero p), Rplus_0_r by (intros; ring). apply sum_ext. intros l _. f_equal. unfold mixE_dd. apply Hk.
        intros m Hm. destruct (Nat.ltb_spec m s); [reflexivity|lia].
    - intros T q Hq. intros c v w' w Pc Pb. eapply derive_eq.
      + apply (is_derive_ext (fun _ => sum (s + s) (fun m => T m * mixE_a gp u b m q))); [intros; reflexivity|]. apply @is_derive_const.
      + unfold zero_ad, zero_aa, dot. rewrite !sum_zero by (intros; ring). change (0 = 0 + 0). ring.
  Qed.


End AssumedStress.
