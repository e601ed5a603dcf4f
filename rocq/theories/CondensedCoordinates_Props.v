(** C185: what elements with enhanced strains and with assumed stresses compute does not depend on the coordinate system (models: Eas_Model.v,
    AssumedStress_Model.v). *)

From Coq Require Import Reals Arith Bool List Lia Lra.
From Coquelicot Require Import Coquelicot.
From Verif Require Import Volumetric_Model Deviatoric_Model Hyperelastic_Model Hyperelastic_Spec Hyperelastic_Props.
From Verif Require Import Tensor_Spec Tensor_Model Tensor_Props Conversions_Spec Conversions_Model Conversions_Props Element_Spec Element_Model Element_Proofs Element_Props.
From Verif Require Import Eas_Spec Eas_Model Eas_Proofs Eas_Props EasStrains_Props AssumedStress_Spec AssumedStress_Model AssumedStress_Proofs AssumedStress_Props.
From Verif Require Import Objectivity_Spec Objectivity_Props StructureReactions_Props.
From Verif Require Import Coordinates_Props CornerNumbering_Proofs CornerNumbering_Props.
Import ListNotations.
Local Open Scope R_scope.

(** What holds at all displacements and internal variables close to u and a *)
Definition around2 (N p : nat) (P : (nat -> R) -> (nat -> R) -> Prop) (u a : nat -> R) : Prop :=
  forall c v b w, passes N c u v -> passes p b a w -> locally 0 (fun t => P (c t) (b t)).

Lemma passes_constant N u : passes N (fun _ => u) u (fun _ => 0).
Proof. intros k _. split; [reflexivity|apply @is_derive_const]. Qed.
Lemma dot_zero N g : dot N g (fun _ => 0) = 0.
Proof. apply sum_zero. intros. ring. Qed.
Lemma gradient2_first N p f g h u a : isGradient2 N p f g h u a -> isGradient N (fun y => f y a) g u.
Proof. intros G c v P. eapply derive_eq; [exact (G c v _ _ P (passes_constant p a))|]. rewrite dot_zero. ring. Qed.
Lemma gradient2_second N p f g h u a : isGradient2 N p f g h u a -> isGradient p (f u) h a.
Proof. intros G c v P. eapply derive_eq; [exact (G _ _ c v (passes_constant N u) P)|]. rewrite dot_zero. ring. Qed.
Lemma gradient_same p f f' h h' a : isGradient p f h a -> isGradient p f' h' a -> around p (fun b => f' b = f b) a ->
  forall q, (q < p)%nat -> h' q = h q.
Proof.
  intros G G' I q Hq. set (v := fun j => if (j =? q)%nat then 1 else 0).
  assert (P : passes p (along a v) a v) by (intros j _; unfold along; split; [ring|auto_derive; auto; ring]).
  assert (E : dot p h' v = dot p h v).
  { apply (derive_uniq (fun t => f (along a v t))); [|apply G, P]. apply (is_derive_ext_loc (fun t => f' (along a v t))); [exact (I _ _ P)|apply G', P]. }
  assert (Pick : forall g, dot p g v = g q).
  { intros g. unfold dot, v. rewrite (sum_pick p q); [rewrite Nat.eqb_refl; ring|assumption|]. intros j _ Nj. destruct (Nat.eqb_spec j q); [congruence|ring]. }
  rewrite !Pick in E. exact E.
Qed.
Lemma inverse_same p A A' Z Z' : isInverse p A Z -> isInverse p A' Z' -> eqm p A' A -> eqm p Z' Z.
Proof.
  intros (R1 & L1) (R2 & L2) E.
  assert (X : eqm p (mul p Z' (mul p A Z)) Z').
  { eapply eqm_trans; [apply mul_ext; [apply eqm_refl|exact R1]|apply mul_id_r]. }
  intros i j Hi Hj. rewrite <- (X i j Hi Hj). rewrite <- mul_assoc.
  assert (Y : eqm p (mul p (mul p Z' A) Z) Z).
  { eapply eqm_trans; [apply mul_ext; [|apply eqm_refl]|apply mul_id_l]. eapply eqm_trans; [apply mul_ext; [apply eqm_refl|apply eqm_sym, E]|exact L2]. }
  exact (Y i j Hi Hj).
Qed.

Lemma sum_sub n f g : sum n (fun k => f k - g k) = sum n f - sum n g.
Proof. induction n as [|n IH]; cbn [sum]; [|rewrite IH]; ring. Qed.

(** ** Two elements with internal variables and the same energy *)
Section Generic.
  Variables (d n s p : nat) (Q : nat -> nat -> R).
  Hypothesis dpos : (0 < d)%nat.
  Hypothesis HQ : orthogonal d Q.
  Variables (points points' : list point) (psi psi' : (nat -> R) -> R) (stress stress' : (nat -> R) -> nat -> R) (tangent tangent' : (nat -> R) -> nat -> nat -> R).
  Variables (e e' : enhancedStrain) (inverse : (nat -> nat -> R) -> nat -> nat -> R).
  Let N := (d * n)%nat.
  Let energy := enhancedEnergy points psi (e_value e).
  Let energy' := enhancedEnergy points' psi' (e_value e').
  Let good := suitable d n s p points psi stress tangent (e_value e) (e_d e) (e_a e) (e_dd e) (e_aa e) (e_ad e).
  Let good' := suitable d n s p points' psi' stress' tangent' (e_value e') (e_d e') (e_a e') (e_dd e') (e_aa e') (e_ad e').
  Let force u a := easForces d n s points stress (e_value e) (e_d e) u a zeroVector.
  Let force' u a := easForces d n s points' stress' (e_value e') (e_d e') u a zeroVector.
  Let rest u a := easRtilde s points stress (e_value e) (e_a e) u a.
  Let rest' u a := easRtilde s points' stress' (e_value e') (e_a e') u a.
  Let K u a := easStiffness d n s points stress tangent (e_value e) (e_d e) (e_dd e) u a zeroMatrix.
  Let K' u a := easStiffness d n s points' stress' tangent' (e_value e') (e_d e') (e_dd e') u a zeroMatrix.
  Let L u a := easL d n s points stress tangent (e_value e) (e_d e) (e_a e) (e_ad e) u a.
  Let L' u a := easL d n s points' stress' tangent' (e_value e') (e_d e') (e_a e') (e_ad e') u a.
  Let D u a := easD s points stress tangent (e_value e) (e_a e) (e_aa e) u a.
  Let D' u a := easD s points' stress' tangent' (e_value e') (e_a e') (e_aa e') u a.
  Let vectorOf := easVectorImpl d n s p points stress tangent (e_value e) (e_d e) (e_a e) (e_aa e) (e_ad e) inverse.
  Let vectorOf' := easVectorImpl d n s p points' stress' tangent' (e_value e') (e_d e') (e_a e') (e_aa e') (e_ad e') inverse.
  Let matrixOf := easMatrixImpl d n s p points stress tangent (e_value e) (e_d e) (e_a e) (e_dd e) (e_aa e) (e_ad e) inverse.
  Let matrixOf' := easMatrixImpl d n s p points' stress' tangent' (e_value e') (e_d e') (e_a e') (e_dd e') (e_aa e') (e_ad e') inverse.
  Let updateOf := easUpdateImpl d n s p points stress tangent (e_value e) (e_d e) (e_a e) (e_aa e) (e_ad e) inverse.
  Let updateOf' := easUpdateImpl d n s p points' stress' tangent' (e_value e') (e_d e') (e_a e') (e_aa e') (e_ad e') inverse.

  Hypothesis same : forall y b, energy' (turned d Q y) b = energy y b.
  Variables u a : nat -> R.
  Hypothesis near : around2 N p (fun y b => good y b /\ good' (turned d Q y) b) u a.

  Lemma here : good u a /\ good' (turned d Q u) a.
  Proof. exact (locally_singleton _ _ (near _ _ _ _ (passes_constant N u) (passes_constant p a))). Qed.
  Lemma generic_first y b : good y b -> good' (turned d Q y) b ->
    (forall k, (k < N)%nat -> force' (turned d Q y) b k = turned d Q (force y b) k) /\ (forall q, (q < p)%nat -> rest' (turned d Q y) b q = rest y b q).
  Proof.
    intros G G'.
    assert (A := C107_forces d n s p points dpos psi stress tangent (e_value e) (e_d e) (e_a e) (e_dd e) (e_aa e) (e_ad e) y b G).
    assert (A' := C107_forces d n s p points' dpos psi' stress' tangent' (e_value e') (e_d e') (e_a e') (e_dd e') (e_aa e') (e_ad e') (turned d Q y) b G').
    split.
    - intros k Hk. apply (gradients_turned d n Q dpos HQ (fun y => energy y b) (fun y => energy' y b) (force y b) (force' (turned d Q y) b) y); try assumption.
      + exact (gradient2_first _ _ _ _ _ _ _ A).
      + exact (gradient2_first _ _ _ _ _ _ _ A').
      + intros c v _. apply filter_forall. intros t. apply same.
    - intros q Hq. apply (gradient_same p (energy y) (energy' (turned d Q y)) (rest y b) (rest' (turned d Q y) b) b); try assumption.
      + exact (gradient2_second _ _ _ _ _ _ _ A).
      + exact (gradient2_second _ _ _ _ _ _ _ A').
      + intros c v _. apply filter_forall. intros t. apply same.
  Qed.
  Lemma generic_second :
    (forall k l, (k < N)%nat -> (l < N)%nat -> K' (turned d Q u) a k l = turnedMatrix d Q (K u a) k l) /\
    (forall q k, (q < p)%nat -> (k < N)%nat -> L' (turned d Q u) a q k = turned d Q (L u a q) k) /\
    eqm p (D' (turned d Q u) a) (D u a).
  Proof.
    destruct here as (G & G').
    destruct (C107_tangent d n s p points dpos psi stress tangent (e_value e) (e_d e) (e_a e) (e_dd e) (e_aa e) (e_ad e) u a G) as (A & B).
    destruct (C107_tangent d n s p points' dpos psi' stress' tangent' (e_value e') (e_d e') (e_a e') (e_dd e') (e_aa e') (e_ad e') (turned d Q u) a G') as (A' & B').
    split; [|split].
    - intros k l Hk Hl. apply (jacobians_turned d n Q dpos HQ (fun y => force y a) (fun y => force' y a) (K u a) (K' (turned d Q u) a) u); try assumption.
      + intros j Hj. exact (gradient2_first _ _ _ _ _ _ _ (A j Hj)).
      + intros j Hj. exact (gradient2_first _ _ _ _ _ _ _ (A' j Hj)).
      + intros c v P. generalize (near c v _ _ P (passes_constant p a)). apply filter_imp. intros t (X & Y). apply (generic_first _ _ X Y).
    - intros q k Hq Hk. apply (gradients_turned d n Q dpos HQ (fun y => rest y a q) (fun y => rest' y a q) (L u a q) (L' (turned d Q u) a q) u); try assumption.
      + exact (gradient2_first _ _ _ _ _ _ _ (B q Hq)).
      + exact (gradient2_first _ _ _ _ _ _ _ (B' q Hq)).
      + intros c v P. generalize (near c v _ _ P (passes_constant p a)). apply filter_imp. intros t (X & Y). now apply (generic_first _ _ X Y).
    - intros q r Hq Hr. apply (gradient_same p (fun b => rest u b q) (fun b => rest' (turned d Q u) b q) (D u a q) (D' (turned d Q u) a q) a); try assumption.
      + exact (gradient2_second _ _ _ _ _ _ _ (B q Hq)).
      + exact (gradient2_second _ _ _ _ _ _ _ (B' q Hq)).
      + intros c v P. generalize (near _ _ c v (passes_constant N u) P). apply filter_imp. intros t (X & Y). now apply (generic_first _ _ X Y).
  Qed.

  Hypothesis HZ : isInverse p (D u a) (inverse (D u a)).
  Hypothesis HZ' : isInverse p (D' (turned d Q u) a) (inverse (D' (turned d Q u) a)).
  Lemma generic_inverse : eqm p (inverse (D' (turned d Q u) a)) (inverse (D u a)).
  Proof. exact (inverse_same p _ _ _ _ HZ HZ' (proj2 (proj2 generic_second))). Qed.

  Lemma turned_sub f g k : turned d Q (fun k => f k - g k) k = turned d Q f k - turned d Q g k.
  Proof. unfold turned, turnVector. rewrite <- sum_sub. apply sum_ext. intros. ring. Qed.
  Lemma turned_combination m (c : nat -> R) (f : nat -> nat -> R) k : sum m (fun q => c q * turned d Q (f q) k) = turned d Q (fun k => sum m (fun q => c q * f q k)) k.
  Proof.
    unfold turned, turnVector. rewrite (sum_ext m _ (fun q => sum d (fun b => Q (k mod d) b * (c q * f q (d * (k / d) + b)%nat)))) by (intros; rewrite <- sum_mul_l; apply sum_ext; intros; ring).
    rewrite sum_swap. apply sum_ext. intros. now rewrite sum_mul_l.
  Qed.
  Lemma node_bound k b : (k < N)%nat -> (b < d)%nat -> (d * (k / d) + b < N)%nat.
  Proof. intros Hk Hb. assert (k / d < n)%nat by (apply Nat.div_lt_upper_bound; [lia|exact Hk]). unfold N. nia. Qed.

  Lemma generic_vector f k : (k < N)%nat -> vectorOf' (turned d Q u) a (turned d Q f) k = turned d Q (vectorOf u a f) k.
  Proof.
    intros Hk. destruct here as (G & G'). destruct (generic_first u a G G') as (F & Rr). destruct generic_second as (_ & EL & _).
    unfold vectorOf', vectorOf, easVectorImpl. rewrite turned_sub. f_equal.
    - assert (X : forall pts st ev ed y b g j, (j < N)%nat -> easForces d n s pts st ev ed y b g j = g j + easForces d n s pts st ev ed y b zeroVector j).
      { intros. rewrite !forces_sum by assumption. unfold zeroVector. ring. }
      rewrite X by assumption. change (easForces d n s points' stress' (e_value e') (e_d e') (turned d Q u) a zeroVector k) with (force' (turned d Q u) a k). rewrite F by assumption.
      unfold turned, turnVector. rewrite <- sum_add. apply sum_ext. intros b Hb. rewrite X by (now apply node_bound). unfold force. ring.
    - rewrite (sum_ext p _ (fun q => sum p (fun r => inverse (D u a) q r * rest u a r) * turned d Q (L u a q) k)).
      + rewrite turned_combination. unfold turned, turnVector. apply sum_ext. intros b Hb. f_equal. apply sum_ext. intros q _. rewrite <- sum_mul_r. apply sum_ext. intros. unfold D, L, rest. ring.
      + intros q Hq. rewrite <- sum_mul_r. apply sum_ext. intros r Hr.
        change (L' (turned d Q u) a q k * inverse (D' (turned d Q u) a) q r * rest' (turned d Q u) a r = inverse (D u a) q r * rest u a r * turned d Q (L u a q) k).
        rewrite EL, Rr, generic_inverse by assumption. ring.
  Qed.
  Lemma generic_update du q : (q < p)%nat -> updateOf' (turned d Q u) (turned d Q du) a q = updateOf u du a q.
  Proof.
    intros Hq. destruct here as (G & G'). destruct (generic_first u a G G') as (F & Rr). destruct generic_second as (_ & EL & _).
    unfold updateOf', updateOf, easUpdateImpl. f_equal. apply sum_ext. intros r Hr. fold N.
    change (inverse (D' (turned d Q u) a) q r * (rest' (turned d Q u) a r + dot N (L' (turned d Q u) a r) (turned d Q du)) = inverse (D u a) q r * (rest u a r + dot N (L u a r) du)).
    rewrite generic_inverse, Rr by assumption. f_equal. f_equal. unfold N. rewrite (dot_turned d n Q). apply sum_ext. intros k Hk. f_equal.
    rewrite <- (turned_back d n Q dpos HQ (L u a r) k Hk). apply (turned_ext d n (transpose Q) dpos); [exact Hk|]. intros j Hj. now apply EL.
  Qed.

  Hypothesis sym : symmetricAt d n s points stress tangent (e_value e) (e_d e) (e_a e) (e_dd e) (e_aa e) u a.
  Hypothesis sym' : symmetricAt d n s points' stress' tangent' (e_value e') (e_d e') (e_a e') (e_dd e') (e_aa e') (turned d Q u) a.
  Lemma generic_matrix k l : (k < N)%nat -> (l < N)%nat -> matrixOf' (turned d Q u) a zeroMatrix k l = turnedMatrix d Q (matrixOf u a zeroMatrix) k l.
  Proof.
    intros Hk Hl. destruct generic_second as (EK & EL & _).
    assert (X := C108_schur d n s p points dpos stress tangent (e_value e) (e_d e) (e_a e) (e_dd e) (e_aa e) (e_ad e) inverse u a).
    assert (X' := C108_schur d n s p points' dpos stress' tangent' (e_value e') (e_d e') (e_a e') (e_dd e') (e_aa e') (e_ad e') inverse (turned d Q u) a k l sym' HZ' Hk Hl).
    fold matrixOf' in X'. rewrite X'. unfold turnedMatrix.
    rewrite (sum_ext d _ (fun i => sum d (fun j => Q (k mod d) i * Q (l mod d) j * schur p (K u a) (L u a) (inverse (D u a)) (L u a) (d * (k / d) + i)%nat (d * (l / d) + j)%nat))).
    2:{ intros i Hi. apply sum_ext. intros j Hj. f_equal. apply (X _ _ sym HZ); now apply node_bound. }
    unfold schur.
    change (K' (turned d Q u) a k l - sum p (fun q => sum p (fun r => L' (turned d Q u) a q k * inverse (D' (turned d Q u) a) q r * L' (turned d Q u) a r l)) =
      sum d (fun i => sum d (fun j => Q (k mod d) i * Q (l mod d) j * (K u a (d * (k / d) + i)%nat (d * (l / d) + j)%nat - sum p (fun q => sum p (fun r => L u a q (d * (k / d) + i)%nat * inverse (D u a) q r * L u a r (d * (l / d) + j)%nat)))))).
    rewrite (sum_ext d (fun i => sum d _) (fun i => sum d (fun j => Q (k mod d) i * Q (l mod d) j * K u a (d * (k / d) + i)%nat (d * (l / d) + j)%nat) -
      sum d (fun j => sum p (fun q => sum p (fun r => Q (k mod d) i * L u a q (d * (k / d) + i)%nat * inverse (D u a) q r * (Q (l mod d) j * L u a r (d * (l / d) + j)%nat)))))).
    2:{ intros i _. rewrite <- sum_sub. apply sum_ext. intros j _. rewrite Rmult_minus_distr_l. f_equal. rewrite <- sum_mul_l. apply sum_ext. intros q _. rewrite <- sum_mul_l. apply sum_ext. intros. ring. }
    rewrite sum_sub. f_equal; [now apply EK|]. symmetry.
    rewrite (sum_ext d _ (fun i => sum p (fun q => Q (k mod d) i * L u a q (d * (k / d) + i)%nat * sum p (fun r => inverse (D u a) q r * turned d Q (L u a r) l)))).
    - rewrite sum_swap. apply sum_ext. intros q Hq. rewrite sum_mul_r. rewrite <- sum_mul_l. apply sum_ext. intros r Hr.
      rewrite !EL, generic_inverse by assumption. unfold turned at 2 3, turnVector. unfold turned, turnVector. ring.
    - intros i _. rewrite sum_swap. apply sum_ext. intros q _. rewrite sum_swap, <- sum_mul_l. apply sum_ext. intros r _.
      unfold turned, turnVector. rewrite <- !sum_mul_l. apply sum_ext. intros. ring.
  Qed.
End Generic.

(** ** Materials *)
(** energies of the components of a strain or a stress in a body of the dimension d *)
Definition localEnergy (d : nat) (psi : (nat -> R) -> R) : Prop := forall e e', (forall m, (m < voigtLength d)%nat -> e' m = e m) -> psi e' = psi e.
Definition isotropicComplement (d : nat) (chi : (nat -> R) -> R) : Prop :=
  forall Q T, orthogonal d Q -> symmetric d T -> chi (stressVector d (turnTensor d Q T)) = chi (stressVector d T).
(** The symmetric tensor with given Voigt components *)
Definition entryOf (d a b : nat) : nat := if (a =? b)%nat then a else if (d =? 2)%nat then 2%nat else (6 - (a + b))%nat.
Definition strainTensor (d : nat) (e : nat -> R) (a b : nat) : R := if (a =? b)%nat then e a else e (entryOf d a b) / 2.
Definition stressTensor (d : nat) (T : nat -> R) (a b : nat) : R := T (entryOf d a b).

Section Vectors.
  Variables (d : nat) (Q : nat -> nat -> R).
  Hypothesis dim : (d = 2 \/ d = 3)%nat.
  Hypothesis HQ : orthogonal d Q.
  Let s := voigtLength d.

  Lemma strain_tensor e : symmetric d (strainTensor d e) /\ forall m, (m < s)%nat -> strainVector d (strainTensor d e) m = e m.
  Proof.
    split.
    - intros a b _ _. unfold strainTensor, entryOf. rewrite (Nat.eqb_sym b a), (Nat.add_comm b a). destruct (Nat.eqb_spec a b); [now subst|reflexivity].
    - unfold s. destruct dim as [->| ->]; intros m Hm; do 6 (destruct m as [|m]; [unfold strainVector, strainTensor, entryOf; cbn in *; try lia; try field; try reflexivity|]); cbn in Hm; lia.
  Qed.
  Lemma stress_tensor T : symmetric d (stressTensor d T) /\ forall m, (m < s)%nat -> stressVector d (stressTensor d T) m = T m.
  Proof.
    split.
    - intros a b _ _. unfold stressTensor, entryOf. rewrite (Nat.eqb_sym b a), (Nat.add_comm b a). destruct (Nat.eqb_spec a b); [now subst|reflexivity].
    - unfold s. destruct dim as [->| ->]; intros m Hm; do 6 (destruct m as [|m]; [unfold stressVector, stressTensor, entryOf; cbn in *; try lia; try field; try reflexivity|]); cbn in Hm; lia.
  Qed.
  (** the components of a turned strain and of a turned stress *)
  Definition turnStrain (e : nat -> R) (m : nat) : R := sum s (fun k => transformationMatrix d Q m k * e k).
  Definition turnStress (T : nat -> R) (m : nat) : R := sum s (fun k => transformationMatrix d (transpose Q) k m * T k).

  Lemma turn_strain E m : symmetric d E -> (m < s)%nat -> turnStrain (strainVector d E) m = strainVector d (turnTensor d Q E) m.
  Proof.
    unfold turnStrain, s. destruct dim as [E0|E0]; rewrite E0; unfold transformationMatrix; cbn [Nat.eqb]; intros S Hm.
    - etransitivity; [exact (C38_transform2 Q E S m Hm)|]. change (voigtLength 2) with 3%nat in *. cases m; unfold strainVector, turnTensor, mul, transpose; cbn; ring.
    - etransitivity; [exact (C38_transform3 Q E S m Hm)|]. change (voigtLength 3) with 6%nat in *. cases m; unfold strainVector, turnTensor, mul, transpose; cbn; ring.
  Qed.
  Lemma turn_stress T m : symmetric d T -> (m < s)%nat -> turnStress (stressVector d T) m = stressVector d (turnTensor d Q T) m.
  Proof.
    unfold turnStress, s. destruct dim as [E0|E0]; rewrite E0; unfold transformationMatrix; cbn [Nat.eqb]; intros S Hm.
    - assert (S1 := S 1%nat 0%nat). change (voigtLength 2) with 3%nat in *. cases m; unfold stressVector, turnTensor, transpose, transformationMatrix2; cbn; rewrite S1 by lia; ring.
    - assert (S1 := S 1%nat 0%nat). assert (S2 := S 2%nat 0%nat). assert (S3 := S 2%nat 1%nat). change (voigtLength 3) with 6%nat in *.
      cases m; unfold stressVector, turnTensor, transpose, transformationMatrix3; cbn; rewrite S1, S2, S3 by lia; ring.
  Qed.
  Lemma turn_energy psi e e' : isotropicEnergy d psi -> localEnergy d psi -> (forall m, (m < s)%nat -> e' m = turnStrain e m) -> psi e' = psi e.
  Proof.
    intros (_ & I) Lo H. destruct (strain_tensor e) as (S & V). rewrite (Lo (strainVector d (turnTensor d Q (strainTensor d e))) e').
    - rewrite (I Q _ HQ S). apply Lo. intros m Hm. now apply V.
    - intros m Hm. rewrite H, <- turn_strain by assumption. unfold turnStrain. apply sum_ext. intros k Hk. now rewrite V.
  Qed.
  Lemma turn_complement chi T T' : isotropicComplement d chi -> localEnergy d chi -> (forall m, (m < s)%nat -> T' m = turnStress T m) -> chi T' = chi T.
  Proof.
    intros I Lo H. destruct (stress_tensor T) as (S & V). rewrite (Lo (stressVector d (turnTensor d Q (stressTensor d T))) T').
    - rewrite (I Q _ HQ S). apply Lo. intros m Hm. now apply V.
    - intros m Hm. rewrite H, <- turn_stress by assumption. unfold turnStress. apply sum_ext. intros k Hk. now rewrite V.
  Qed.
  Lemma transformations_inverse i j : (i < s)%nat -> (j < s)%nat ->
    mul s (transformationMatrix d (transpose Q)) (transformationMatrix d Q) i j = identity i j.
  Proof.
    intros Hi Hj. unfold s in *. rewrite <- transformation_mul by assumption. rewrite (transformation_ext d _ identity) by (assumption || apply HQ).
    now apply transformation_id.
  Qed.
  Lemma turn_work T e : dot s (turnStress T) (turnStrain e) = dot s T e.
  Proof.
    unfold dot, turnStress, turnStrain.
    rewrite (sum_ext s _ (fun m => sum s (fun k => T k * (transformationMatrix d (transpose Q) k m * sum s (fun l => transformationMatrix d Q m l * e l))))).
    - rewrite sum_swap. apply sum_ext. intros k Hk. rewrite sum_mul_l. f_equal. rewrite <- mul_apply.
      rewrite (sum_ext s _ (fun l => identity k l * e l)) by (intros; rewrite transformations_inverse by assumption; reflexivity). now apply sum_id_l.
    - intros m _. rewrite <- sum_mul_r. apply sum_ext. intros. ring.
  Qed.
End Vectors.

Lemma linear_local d C : localEnergy d (linearEnergy (voigtLength d) (fun _ => C)).
Proof. intros e e' H. unfold linearEnergy, dot, apply. f_equal. apply sum_ext. intros m Hm. rewrite H by assumption. f_equal. apply sum_ext. intros k Hk. now rewrite H. Qed.
Lemma hyperelastic_local eig m : solvesSymmetric eig -> localEnergy 3 (hyperelasticEnergy eig m).
Proof.
  intros He e e' H. change (voigtLength 3) with 6%nat in H.
  assert (Sy : forall e, symmetric 3 (cauchyGreenOf e)).
  { intros x a b Ha Hb. unfold cauchyGreenOf. destruct a as [|[|[|]]]; try lia; destruct b as [|[|[|]]]; try lia; reflexivity. }
  assert (Id : orthogonalMatrix identity).
  { destruct (identity_rotation 3 ltac:(lia)) as (A & B & _). split; assumption. }
  unfold hyperelasticEnergy.
  rewrite <- (proj1 (C85_isotropy eig eig m (cauchyGreenOf e') identity He He (Sy _) Id)), <- (proj1 (C85_isotropy eig eig m (cauchyGreenOf e) identity He He (Sy _) Id)).
  replace (rotated identity (cauchyGreenOf e')) with (rotated identity (cauchyGreenOf e)); [reflexivity|].
  apply FunctionalExtensionality.functional_extensionality. intros i. apply FunctionalExtensionality.functional_extensionality. intros j. unfold rotated.
  apply sum_ext. intros k Hk. apply sum_ext. intros l Hl. f_equal. f_equal. unfold cauchyGreenOf. destruct k as [|[|[|]]]; try lia; destruct l as [|[|[|]]]; try lia; cbn; rewrite H by lia; reflexivity.
Qed.

Section Elements.
  Variables (d n : nat) (Q : nat -> nat -> R) (points points' : list point).
  Hypothesis dim : (d = 2 \/ d = 3)%nat.
  Hypothesis HQ : orthogonal d Q.
  Variables dN dN' : point -> nat -> nat -> R.
  Variable inverse : (nat -> nat -> R) -> nat -> nat -> R.
  Let s := voigtLength d.
  Let N := (d * n)%nat.
  Let Qt := turned d Q.

  (** gp' is the point gp in the new coordinates *)
  Definition turnedPoint (gp gp' : point) : Prop :=
    (forall a, position gp' a = position gp a) /\ integrationElement gp' = integrationElement gp /\ weight gp' = weight gp /\
    (forall i a, (i < n)%nat -> (a < d)%nat -> dN' gp' i a = turnVector d Q (dN gp i) a).
  Hypothesis pairs : List.Forall2 turnedPoint points points'.

  Lemma turned_same gp gp' : turnedPoint gp gp' -> Coordinates_Props.samePoint d n Q dN dN' gp gp'.
  Proof. intros (_ & I & Wt & X). split; [unfold vol; now rewrite I, Wt|exact X]. Qed.
  Let d3 : (0 < d <= 3)%nat := ltac:(lia).

  (** What the element in the new coordinates computes *)
  Definition turnedAnswers (p : nat) stress tangent (e e' : enhancedStrain) (u a : nat -> R) : Prop :=
    let D l x := easD s l stress tangent (e_value x) (e_a x) (e_aa x) in
    (forall gp gp' m, turnedPoint gp gp' -> (m < s)%nat -> e_value e' gp' (Qt u) a m = turnStrain d Q (e_value e gp u a) m) /\
    (isInverse p (D points e u a) (inverse (D points e u a)) -> isInverse p (D points' e' (Qt u) a) (inverse (D points' e' (Qt u) a)) ->
     (forall f k, (k < N)%nat -> vectorOf d n stress tangent inverse p points' e' (Qt u) a (Qt f) k = Qt (vectorOf d n stress tangent inverse p points e u a f) k) /\
     (forall k l, (k < N)%nat -> (l < N)%nat ->
        matrixOf d n stress tangent inverse p points' e' (Qt u) a zeroMatrix k l = turnedMatrix d Q (matrixOf d n stress tangent inverse p points e u a zeroMatrix) k l) /\
     (forall du q, (q < p)%nat -> updateOf d n stress tangent inverse p points' e' (Qt u) (Qt du) a q = updateOf d n stress tangent inverse p points e u du a q)).

  (** The material has the given stresses and tangent at all states close to the given one, in both coordinate systems *)
  Definition materialAt (l : list point) psi stress tangent (e : enhancedStrain) (u a : nat -> R) : Prop :=
    forall gp, In gp l -> hyperelastic s psi stress tangent (e_value e gp u a) /\ symmetric s (tangent (e_value e gp u a)).
  Definition regular p psi stress tangent (e e' : enhancedStrain) (u a : nat -> R) : Prop :=
    around2 N p (fun y b => materialAt points psi stress tangent e y b /\ materialAt points' psi stress tangent e' (Qt y) b) u a.

  Lemma turned_answers p psi stress tangent e e' u a : isotropicEnergy d psi -> localEnergy d psi ->
    (forall y b gp gp' m, turnedPoint gp gp' -> (m < s)%nat -> e_value e' gp' (Qt y) b m = turnStrain d Q (e_value e gp y b) m) ->
    (forall gp y b, enhancedExpression d n s p (e_value e) (e_d e) (e_a e) (e_dd e) (e_aa e) (e_ad e) gp y b) ->
    (forall gp y b, enhancedExpression d n s p (e_value e') (e_d e') (e_a e') (e_dd e') (e_aa e') (e_ad e') gp y b) ->
    (forall gp y b S, (forall i j k l, e_dd e gp y b S i j k l = e_dd e gp y b S j i l k) /\ (forall q r, e_aa e gp y b S q r = e_aa e gp y b S r q)) ->
    (forall gp y b S, (forall i j k l, e_dd e' gp y b S i j k l = e_dd e' gp y b S j i l k) /\ (forall q r, e_aa e' gp y b S q r = e_aa e' gp y b S r q)) ->
    regular p psi stress tangent e e' u a -> turnedAnswers p stress tangent e e' u a.
  Proof.
    intros Is Lo V X X' Y Y' Rg. split; [intros; now apply V|]. intros HZ HZ'.
    assert (En : forall y b, enhancedEnergy points' psi (e_value e') (Qt y) b = enhancedEnergy points psi (e_value e) y b).
    { intros y b. unfold enhancedEnergy. rewrite !energy_sum. apply (sumP_pairs turnedPoint); [exact pairs|]. intros gp gp' Hp.
      rewrite (proj1 (turned_same gp gp' Hp)). f_equal. apply (turn_energy d Q dim HQ); try assumption. intros m Hm. now apply V. }
    assert (Nr : around2 N p (fun y b => suitable d n s p points psi stress tangent (e_value e) (e_d e) (e_a e) (e_dd e) (e_aa e) (e_ad e) y b /\
      suitable d n s p points' psi stress tangent (e_value e') (e_d e') (e_a e') (e_dd e') (e_aa e') (e_ad e') (Qt y) b) u a).
    { intros c v b w P1 P2. generalize (Rg c v b w P1 P2). apply filter_imp. intros t (A & B). split; intros gp Hgp.
      - split; [apply X|]. apply A, Hgp.
      - split; [apply X'|]. apply B, Hgp. }
    destruct (here d n s p Q points points' psi psi stress stress tangent tangent e e' u a Nr) as (G & G').
    split; [|split].
    - intros f k Hk. now apply (generic_vector d n s p Q (proj1 d3) HQ points points' psi psi stress stress tangent tangent e e' inverse En u a Nr HZ HZ').
    - intros k l Hk Hl. apply (generic_matrix d n s p Q (proj1 d3) HQ points points' psi psi stress stress tangent tangent e e' inverse En u a Nr HZ HZ'); try assumption.
      + apply (C107_symmetric d n s points (proj1 d3)). intros gp Hgp. split; [apply (G gp Hgp)|]. split; intros; apply Y.
      + apply (C107_symmetric d n s points' (proj1 d3)). intros gp Hgp. split; [apply (G' gp Hgp)|]. split; intros; apply Y'.
    - intros du q Hq. now apply (generic_update d n s p Q (proj1 d3) HQ points points' psi psi stress stress tangent tangent e e' inverse En u a Nr HZ HZ').
  Qed.

  Lemma small_or_large (small : bool) dM gp u :
    strainExpression d n s (if small then smallStrain d n dM else glStrain d n dM) (if small then smallBop d dM else glBop d n dM) (if small then noKg else glKg d dM) gp u /\
    (forall S i j a b, (if small then noKg else glKg d dM) gp u S i j a b = (if small then noKg else glKg d dM) gp u S j i b a).
  Proof.
    destruct small.
    - split; [|reflexivity]. apply (linear_expression d n s). apply small_linearStrain, d3.
    - apply (C96_green_lagrange d n (proj1 d3) dM gp u). lia.
  Qed.
  Lemma turned_strains (small : bool) gp gp' u m : turnedPoint gp gp' -> (m < s)%nat ->
    (if small then smallStrain d n dN' else glStrain d n dN') gp' (Qt u) m = turnStrain d Q ((if small then smallStrain d n dN else glStrain d n dN) gp u) m.
  Proof.
    intros Hp Hm. assert (S := turned_same gp gp' Hp). destruct small.
    - unfold Qt. rewrite (turned_small d n Q d3 dN dN' gp gp' u m S). symmetry. apply (turn_strain d Q dim); [|exact Hm]. intros a b _ _. ring.
    - unfold Qt. rewrite (turned_strain d n Q d3 HQ dN dN' gp gp' u m S). symmetry. apply (turn_strain d Q dim); [|exact Hm]. apply greenLagrange_symmetric.
  Qed.

  (** *** Linear and Green-Lagrange strains *)
  Section Strains.
    Variables (v : variantE) (small : bool) (J0 J0' : nat -> nat -> R) (detJ0 : R).
    (** the rows of the Jacobian are vectors *)
    Hypothesis HJ : forall a b, (a < d)%nat -> (b < d)%nat -> J0' a b = turnVector d Q (J0 a) b.
    Let A i j := transformationMatrix d J0 i j * detJ0.
    Let A' i j := transformationMatrix d J0' i j * detJ0.
    Hypothesis HZ : isInverse s A (inverse A).
    Hypothesis HZ' : isInverse s A' (inverse A').
    Let p := sizeE v.
    Let M := easFunctionE inverse d J0 detJ0 v.
    Let M' := easFunctionE inverse d J0' detJ0 v.

    Lemma inverse_moved : eqm s (inverse A') (mul s (transformationMatrix d Q) (inverse A)).
    Proof.
      assert (E : eqm s A' (mul s A (transformationMatrix d (transpose Q)))).
      { intros i j Hi Hj. unfold A'. rewrite (transformation_ext d J0' (mul d J0 (transpose Q))); try assumption.
        - rewrite transformation_mul by assumption. fold s. unfold mul, A. rewrite <- sum_mul_r. apply sum_ext. intros. ring.
        - intros a b Ha Hb. rewrite HJ by assumption. unfold turnVector, mul, transpose. apply sum_ext. intros. ring. }
      assert (B : eqm s (mul s A' (mul s (transformationMatrix d Q) (inverse A))) identity).
      { eapply eqm_trans; [apply mul_ext; [exact E|apply eqm_refl]|]. rewrite mul_assoc. eapply eqm_trans; [apply mul_ext; [apply eqm_refl|]|exact (proj1 HZ)].
        rewrite <- mul_assoc. eapply eqm_trans; [apply mul_ext; [|apply eqm_refl]|apply mul_id_l]. intros i j Hi Hj. now apply (transformations_inverse d Q dim HQ). }
      eapply eqm_trans; [apply eqm_sym, mul_id_r|]. eapply eqm_trans; [apply mul_ext; [apply eqm_refl|apply eqm_sym, B]|].
      rewrite <- mul_assoc. eapply eqm_trans; [apply mul_ext; [|apply eqm_refl]|apply mul_id_l]. exact (proj2 HZ').
    Qed.
    Lemma modes_moved gp gp' m q : turnedPoint gp gp' -> (m < s)%nat -> M' gp' m q = turnStrain d Q (fun k => M gp k q) m.
    Proof.
      intros (Po & Ie & _) Hm. unfold M', M, easFunctionE, T0InverseTransformed, turnStrain. fold s A A'. rewrite Ie.
      assert (Em : forall k, modesE v gp' k q = modesE v gp k q) by (intros; unfold modesE; now rewrite !Po).
      rewrite (sum_ext s _ (fun k => mul s (transformationMatrix d Q) (inverse A) m k * (/ integrationElement gp * modesE v gp k q))).
      - rewrite mul_apply. apply sum_ext. intros k _. f_equal. apply sum_ext. intros. unfold Rdiv. ring.
      - intros k Hk. rewrite Em, inverse_moved by assumption. unfold Rdiv. ring.
    Qed.

    Theorem C185_enhanced_strains psi stress tangent u a : isotropicEnergy d psi -> localEnergy d psi ->
      regular p psi stress tangent (additive d n p small dN M) (additive d n p small dN' M') u a ->
      turnedAnswers p stress tangent (additive d n p small dN M) (additive d n p small dN' M') u a.
    Proof.
      intros Is Lo Rg. apply (turned_answers p psi); try assumption; unfold additive; cbn [e_value e_d e_a e_dd e_aa e_ad].
      - intros y b gp gp' m Hp Hm. unfold additiveValue. rewrite (turned_strains small gp gp' y m Hp Hm). unfold turnStrain. fold s.
        rewrite (sum_ext s (fun k => transformationMatrix d Q m k * (_ + _)) (fun k => transformationMatrix d Q m k * (if small then smallStrain d n dN else glStrain d n dN) gp y k + transformationMatrix d Q m k * apply p (M gp) b k)) by (intros; ring).
        rewrite sum_add. f_equal. unfold apply. rewrite (sum_ext p _ (fun q => sum s (fun k => transformationMatrix d Q m k * (M gp k q * b q)))).
        + rewrite sum_swap. apply sum_ext. intros. now rewrite sum_mul_l.
        + intros q _. rewrite (modes_moved gp gp' m q Hp Hm). unfold turnStrain. fold s. rewrite <- sum_mul_r. apply sum_ext. intros. ring.
      - intros gp y b. apply C109_additive, small_or_large.
      - intros gp y b. apply C109_additive, small_or_large.
      - intros gp y b S. split; [|reflexivity]. intros. unfold additive_dd. apply (small_or_large small dN gp y).
      - intros gp y b S. split; [|reflexivity]. intros. unfold additive_dd. apply (small_or_large small dN' gp y).
    Qed.
  End Strains.

  (** *** Displacement gradients *)
  Section DisplacementGradients.
    Variables (transposed : bool) (detJ0 : R) (JInv JInv' dN0 dN0' : nat -> nat -> R).
    (** JInv k c is the derivative of the local coordinate c with respect to the global coordinate k, at the center *)
    Hypothesis HJ : forall k c, (k < d)%nat -> (c < d)%nat -> JInv' k c = turnVector d Q (fun e => JInv e c) k.
    Hypothesis HdN0 : forall i b, (i < n)%nat -> (b < d)%nat -> dN0' i b = turnVector d Q (dN0 i) b.
    Let p := (d * d)%nat.
    Let H := easFunctionH d detJ0 JInv.
    Let H' := easFunctionH d detJ0 JInv'.

    Lemma gradient_modes_moved gp gp' q k l : turnedPoint gp gp' -> (k < d)%nat -> (l < d)%nat -> H' gp' q k l = turnTensor d Q (H gp q) k l.
    Proof.
      intros (Po & Ie & _) Hk Hl. unfold H', H, easFunctionH, turnTensor. rewrite Ie.
      assert (Em : forall c b, modesH d gp' q c b = modesH d gp q c b) by (intros; unfold modesH; now rewrite !Po).
      rewrite (sum_ext d _ (fun b => sum d (fun i => sum d (fun j => Q k i * Q l j * (sum d (fun c => detJ0 / integrationElement gp * JInv i c * modesH d gp q c b) * JInv j b))))).
      - rewrite sum_swap. apply sum_ext. intros i _. rewrite sum_swap. apply sum_ext. intros j _. now rewrite sum_mul_l.
      - intros b Hb. rewrite (HJ l b Hl Hb).
        rewrite (sum_ext d (fun c => _ * JInv' k c * _) (fun c => sum d (fun i => Q k i * (detJ0 / integrationElement gp * JInv i c * modesH d gp q c b)))).
        2:{ intros c Hc. rewrite (HJ k c Hk Hc), Em. unfold turnVector. rewrite <- sum_mul_l, <- sum_mul_r. apply sum_ext. intros. ring. }
        rewrite sum_swap. unfold turnVector. rewrite <- sum_mul_r. apply sum_ext. intros i _. rewrite sum_mul_l. rewrite <- sum_mul_l. apply sum_ext. intros. ring.
    Qed.
    Lemma tensor_combination m (X : nat -> nat -> nat -> R) (c : nat -> R) k l : sum m (fun q => turnTensor d Q (X q) k l * c q) = turnTensor d Q (fun i j => sum m (fun q => X q i j * c q)) k l.
    Proof.
      unfold turnTensor. rewrite (sum_ext m _ (fun q => sum d (fun i => sum d (fun j => Q k i * Q l j * (X q i j * c q))))).
      - rewrite sum_swap. apply sum_ext. intros i _. rewrite sum_swap. apply sum_ext. intros j _. apply sum_mul_l.
      - intros q _. rewrite <- sum_mul_r. apply sum_ext. intros i _. rewrite <- sum_mul_r. apply sum_ext. intros. ring.
    Qed.
    Lemma tensor_add X Y k l : turnTensor d Q X k l + turnTensor d Q Y k l = turnTensor d Q (fun i j => X i j + Y i j) k l.
    Proof. unfold turnTensor. rewrite <- sum_add. apply sum_ext. intros. rewrite <- sum_add. apply sum_ext. intros. ring. Qed.
    Lemma tensor_identity k l : (k < d)%nat -> (l < d)%nat -> turnTensor d Q identity k l = identity k l.
    Proof.
      intros Hk Hl. unfold turnTensor. rewrite <- (orth_rows d Q HQ k l Hk Hl). apply sum_ext. intros i Hi.
      rewrite (sum_ext d _ (fun j => identity i j * (Q k i * Q l j))) by (intros; ring). now rewrite sum_id_l.
    Qed.
    (** the product of turned tensors, X Y^T *)
    Lemma tensor_product X Y k l : sum d (fun b => turnTensor d Q X k b * turnTensor d Q Y l b) = turnTensor d Q (fun i j => sum d (fun b => X i b * Y j b)) k l.
    Proof.
      assert (F : forall Z k b, turnTensor d Q Z k b = sum d (fun t => Q b t * sum d (fun i => Q k i * Z i t))).
      { intros Z x b. unfold turnTensor. rewrite sum_swap. apply sum_ext. intros t _. rewrite <- sum_mul_l. apply sum_ext. intros. ring. }
      rewrite (sum_ext d _ (fun b => sum d (fun t => sum d (fun r => Q b t * Q b r * (sum d (fun i => Q k i * X i t) * sum d (fun j => Q l j * Y j r)))))).
      2:{ intros b _. rewrite !F. rewrite <- sum_mul_r. apply sum_ext. intros t _. rewrite <- sum_mul_l. apply sum_ext. intros. ring. }
      rewrite sum_swap. rewrite (sum_ext d _ (fun t => sum d (fun i => Q k i * X i t) * sum d (fun j => Q l j * Y j t))).
      2:{ intros t Ht. rewrite sum_swap. rewrite (sum_ext d _ (fun r => identity t r * (sum d (fun i => Q k i * X i t) * sum d (fun j => Q l j * Y j r)))).
          - now rewrite sum_id_l.
          - intros r Hr. rewrite sum_mul_r, (orth_cols d Q HQ) by assumption. reflexivity. }
      unfold turnTensor.
      rewrite (sum_ext d _ (fun t => sum d (fun i => sum d (fun j => Q k i * Q l j * (X i t * Y j t))))).
      - rewrite sum_swap. apply sum_ext. intros i _. rewrite sum_swap. apply sum_ext. intros j _. apply sum_mul_l.
      - intros t _. rewrite <- sum_mul_r. apply sum_ext. intros i _. rewrite <- sum_mul_l. apply sum_ext. intros. ring.
    Qed.
    Lemma gradients_moved (G G' : nat -> nat -> R) m : (forall k l, (k < d)%nat -> (l < d)%nat -> G' k l = turnTensor d Q G k l) -> (m < s)%nat ->
      strainVector d (greenLagrangeOf d G') m = turnStrain d Q (strainVector d (greenLagrangeOf d G)) m.
    Proof.
      intros E Hm. rewrite (turn_strain d Q dim) by (exact Hm || apply greenLagrange_symmetric). apply (strainVector_ext d n d3). intros a b Ha Hb.
      now apply (turned_greenLagrange d Q HQ).
    Qed.
    Lemma H_moved gp gp' b k l : turnedPoint gp gp' -> (k < d)%nat -> (l < d)%nat -> Htilde p H' gp' b k l = turnTensor d Q (Htilde p H gp b) k l.
    Proof.
      intros Hp Hk Hl. unfold Htilde. rewrite <- tensor_combination. apply sum_ext. intros q _. now rewrite (gradient_modes_moved gp gp').
    Qed.

    Theorem C185_displacement_gradients psi stress tangent u a : isotropicEnergy d psi -> localEnergy d psi ->
      regular p psi stress tangent (gradient d n p transposed dN dN0 H) (gradient d n p transposed dN' dN0' H') u a ->
      turnedAnswers p stress tangent (gradient d n p transposed dN dN0 H) (gradient d n p transposed dN' dN0' H') u a.
    Proof.
      intros Is Lo Rg. apply (turned_answers p psi); try assumption.
      - intros y b gp gp' m Hp Hm. unfold gradient. assert (S := turned_same gp gp' Hp).
        assert (Wf : forall x, turnStrain d Q x m = turnStrain d Q (fun k => x k) m) by reflexivity.
        destruct transposed; cbn [e_value].
        + destruct (C109_values d n p dN' H' dN0' gp' (Qt y) b m dim Hm) as (_ & V' & _).
          rewrite V', (gradients_moved (fun k l => displacementGradientOf d n (dN gp) y k l + sum d (fun c => (identity k c + displacementGradientOf d n dN0 y k c) * sum p (fun q => H gp q l c * b q)))).
          * unfold turnStrain. apply sum_ext. intros k Hk. f_equal. symmetry. apply (C109_values d n p dN H dN0 gp y b k dim Hk).
          * intros k l Hk Hl. rewrite <- tensor_add. unfold Qt. rewrite (turned_H d n Q dN dN' gp gp' y k l S Hk Hl). f_equal.
            rewrite <- tensor_product. apply sum_ext. intros c Hc. f_equal; [|exact (H_moved gp gp' b l c Hp Hl Hc)].
            rewrite <- tensor_add. rewrite tensor_identity by assumption. f_equal.
            set (g0 := {| position := fun _ => 0; integrationElement := 1; weight := 1 |}).
            exact (turned_H d n Q (fun _ => dN0) (fun _ => dN0') g0 g0 y k c (conj eq_refl (fun i a Hi Ha => HdN0 i a Hi Ha)) Hk Hc).
          * exact Hm.
        + destruct (C109_values d n p dN' H' dN0' gp' (Qt y) b m dim Hm) as (V' & _).
          rewrite V', (gradients_moved (fun k l => displacementGradientOf d n (dN gp) y k l + sum p (fun q => H gp q k l * b q))).
          * unfold turnStrain. apply sum_ext. intros k Hk. f_equal. symmetry. apply (C109_values d n p dN H dN0 gp y b k dim Hk).
          * intros k l Hk Hl. rewrite <- tensor_add. unfold Qt. rewrite (turned_H d n Q dN dN' gp gp' y k l S Hk Hl). f_equal. exact (H_moved gp gp' b k l Hp Hk Hl).
          * exact Hm.
      - intros gp y b. unfold gradient. destruct transposed; cbn [e_value e_d e_a e_dd e_aa e_ad]; [now apply C109_transposed|].
        apply (C109_displacement_gradient d n p dim dN H (glKg d dN) (glBop d n dN) gp). intros x. apply (C96_green_lagrange d n (proj1 d3) dN gp x). lia.
      - intros gp y b. unfold gradient. destruct transposed; cbn [e_value e_d e_a e_dd e_aa e_ad]; [now apply C109_transposed|].
        apply (C109_displacement_gradient d n p dim dN' H' (glKg d dN') (glBop d n dN') gp). intros x. apply (C96_green_lagrange d n (proj1 d3) dN' gp x). lia.
      - intros gp y b S. destruct (C109_symmetric d n p dN H dN0 gp y b S dim) as (S1 & S2 & S3).
        assert (S4 := proj2 (C96_green_lagrange d n (proj1 d3) dN gp y ltac:(lia)) S). unfold gradient. destruct transposed; cbn [e_dd e_aa]; split; assumption.
      - intros gp y b S. destruct (C109_symmetric d n p dN' H' dN0' gp y b S dim) as (S1 & S2 & S3).
        assert (S4 := proj2 (C96_green_lagrange d n (proj1 d3) dN' gp y ltac:(lia)) S). unfold gradient. destruct transposed; cbn [e_dd e_aa]; split; assumption.
    Qed.
  End DisplacementGradients.
  (** *** Assumed stresses *)
  Section AssumedStresses.
    Variables (v : variantS) (small : bool) (J0 J0' : nat -> nat -> R).
    Hypothesis HJ : forall a b, (a < d)%nat -> (b < d)%nat -> J0' a b = turnVector d Q (J0 a) b.
    Let p := sizeS v.
    Let P := asFunction d J0 v.
    Let P' := asFunction d J0' v.
    Let strain dM := if small then smallStrain d n dM else glStrain d n dM.
    Let bop dM := if small then smallBop d dM else glBop d n dM.
    Let kg dM := if small then noKg else glKg d dM.
    Let S := stressValue s p P.
    Let S' := stressValue s p P'.

    Lemma stress_modes_moved gp gp' m q : turnedPoint gp gp' -> (m < s)%nat -> P' gp' m q = turnStress d Q (fun k => P gp k q) m.
    Proof.
      intros (Po & _) Hm. unfold P', P, asFunction, T0transposed, turnStress. fold s.
      assert (Em : forall k, modesS v gp' k q = modesS v gp k q) by (intros; unfold modesS; now rewrite !Po).
      rewrite (sum_ext s _ (fun k => sum s (fun l => transformationMatrix d (transpose Q) l m * (transformationMatrix d J0 k l * modesS v gp k q)))).
      - rewrite sum_swap. apply sum_ext. intros. now rewrite sum_mul_l.
      - intros k Hk. rewrite Em. rewrite (transformation_ext d J0' (mul d J0 (transpose Q))); try assumption.
        + rewrite transformation_mul by assumption. fold s. unfold mul. rewrite <- sum_mul_r. apply sum_ext. intros. ring.
        + intros a b Ha Hb. rewrite HJ by assumption. unfold turnVector, mul, transpose. apply sum_ext. intros. ring.
    Qed.
    Lemma stresses_moved gp gp' b m : turnedPoint gp gp' -> (m < s)%nat -> S' gp' b m = turnStress d Q (S gp b) m.
    Proof.
      intros Hp Hm. unfold S', S, stressValue. destruct (Nat.ltb_spec m s); [|lia].
      unfold apply. rewrite (sum_ext p _ (fun q => sum s (fun k => transformationMatrix d (transpose Q) k m * (P gp k q * b q)))).
      - rewrite sum_swap. unfold turnStress. fold s. apply sum_ext. intros k Hk. destruct (Nat.ltb_spec k s); [|lia]. now rewrite sum_mul_l.
      - intros q _. rewrite (stress_modes_moved gp gp' m q Hp Hm). unfold turnStress. fold s. rewrite <- sum_mul_r. apply sum_ext. intros. ring.
    Qed.

    (** The complementary energy has the given strains and moduli at all stresses close to the given ones, in both coordinate systems *)
    Definition complementAt (l : list point) (X : point -> nat -> nat -> R) chi Es Dc (b : nat -> R) : Prop :=
      forall gp, In gp l -> hyperelastic s chi Es Dc (stressValue s p X gp b) /\ symmetric s (Dc (stressValue s p X gp b)).

    Section Complement.
      Variables (chi : (nat -> R) -> R) (Es : (nat -> R) -> nat -> R) (Dc : (nat -> R) -> nat -> nat -> R) (u b : nat -> R).
      Hypothesis Is : isotropicComplement d chi.
      Hypothesis Lo : localEnergy d chi.
      Hypothesis Rg : around p (fun b => complementAt points P chi Es Dc b /\ complementAt points' P' chi Es Dc b) b.
      Let st := stateAt s p P Es Dc b.
      Let st' := stateAt s p P' Es Dc b.
      Let e := {| e_value := mixE s p (strain dN) P; e_d := mixE_d s (bop dN); e_a := mixE_a s P; e_dd := mixE_dd s (kg dN); e_aa := zero_aa; e_ad := zero_ad |}.
      Let e' := {| e_value := mixE s p (strain dN') P'; e_d := mixE_d s (bop dN'); e_a := mixE_a s P'; e_dd := mixE_dd s (kg dN'); e_aa := zero_aa; e_ad := zero_ad |}.

      Lemma as_here : complementAt points P chi Es Dc b /\ complementAt points' P' chi Es Dc b.
      Proof. exact (locally_singleton _ _ (Rg _ _ (passes_constant p b))). Qed.
      Lemma complement_suited l dM X y w : complementAt l X chi Es Dc w -> suited d n s p l (strain dM) (bop dM) (kg dM) X chi Es Dc y w.
      Proof.
        intros C gp Hgp. split; [apply small_or_large|]. split; [|exact (C gp Hgp)].
        intros T T' HT i j x c. unfold kg. destruct small; [reflexivity|]. unfold glKg. apply sum_ext. intros m Hm. now rewrite HT.
      Qed.
      Lemma complement_symmetric l dM X y w : complementAt l X chi Es Dc w ->
        symmetricState d n s p l (kg dM) X Es Dc y w.
      Proof.
        intros C. apply (C114_symmetric d n s p l (proj1 d3)). intros gp Hgp. split; [exact (proj2 (C gp Hgp))|].
        intros. unfold kg. apply (small_or_large small dM gp y).
      Qed.
      Lemma as_energy y w : enhancedEnergy points' (mixPsi s chi) (e_value e') (Qt y) w = enhancedEnergy points (mixPsi s chi) (e_value e) y w.
      Proof.
        unfold e, e'. cbn [e_value]. rewrite !mix_energy. apply (sumP_pairs turnedPoint); [exact pairs|]. intros gp gp' Hp.
        rewrite (proj1 (turned_same gp gp' Hp)). f_equal. f_equal.
        - transitivity (dot s (turnStress d Q (S gp w)) (turnStrain d Q (strain dN gp y))); [|apply (turn_work d Q dim HQ)].
          apply sum_ext. intros m Hm. f_equal; [now apply stresses_moved|]. now apply turned_strains.
        - apply (turn_complement d Q dim HQ); try assumption. intros m Hm. now apply stresses_moved.
      Qed.
      Lemma stored_work gp gp' : turnedPoint gp gp' -> In gp points -> In gp' points' -> dot s (S' gp' b) (Es (S' gp' b)) = dot s (S gp b) (Es (S gp b)).
      Proof.
        intros Hp Hi Hi'. destruct as_here as (A & A'). destruct (A gp Hi) as ((G & _) & _). destruct (A' gp' Hi') as ((G' & _) & _).
        assert (X : forall T, passes s (along T T) T T) by (intros T j _; unfold along; split; [ring|auto_derive; auto; ring]).
        assert (C : forall x y, dot s x y = dot s y x) by (intros; apply sum_ext; intros; ring).
        rewrite (C (S' gp' b)), (C (S gp b)). apply (derive_uniq (fun t => chi (along (S gp b) (S gp b) t))); [|exact (G _ _ (X _))].
        apply (is_derive_ext (fun t => chi (along (S' gp' b) (S' gp' b) t))); [|exact (G' _ _ (X _))].
        intros t. apply (turn_complement d Q dim HQ); try assumption. intros m Hm. unfold along. rewrite (stresses_moved gp gp' b m Hp Hm).
        unfold turnStress. fold s. rewrite <- sum_mul_l, <- sum_add. apply sum_ext. intros. ring.
      Qed.
    End Complement.

    Theorem C185_assumed_stresses chi Es Dc materialInversion u b : isotropicComplement d chi -> localEnergy d chi ->
      around p (fun b => complementAt points P chi Es Dc b /\ complementAt points' P' chi Es Dc b) b ->
      let st := stateAt s p P Es Dc b in let st' := stateAt s p P' Es Dc b in
      (forall gp gp' m, turnedPoint gp gp' -> (m < s)%nat -> stressValue s p P' gp' b m = turnStress d Q (stressValue s p P gp b) m) /\
      asScalarImpl s p points' (strain dN') P' (Qt u) st' = asScalarImpl s p points (strain dN) P u st /\
      (isInverse p (asH s points P st) (inverse (asH s points P st)) -> isInverse p (asH s points' P' st') (inverse (asH s points' P' st')) ->
       (forall f k, (k < N)%nat -> asVectorImpl d n s p points' (strain dN') (bop dN') P' inverse (Qt u) st' (Qt f) k =
          Qt (asVectorImpl d n s p points (strain dN) (bop dN) P inverse u st f) k) /\
       (forall k l, (k < N)%nat -> (l < N)%nat -> asMatrixImpl d n s p points' (bop dN') (kg dN') P' inverse (Qt u) st' zeroMatrix k l =
          turnedMatrix d Q (asMatrixImpl d n s p points (bop dN) (kg dN) P inverse u st zeroMatrix) k l) /\
       (forall dx q, (q < p)%nat -> beta (updateState d n s p points' (strain dN') (bop dN') P' materialInversion inverse (Qt u) (Qt dx) st') q =
          beta (updateState d n s p points (strain dN) (bop dN) P materialInversion inverse u dx st) q)).
    Proof.
      intros Is Lo Rg st st'. destruct (as_here chi Es Dc b Rg) as (A & A'). split; [|split].
      - intros. now apply stresses_moved.
      - rewrite !as_scalar_sum. unfold st, st', stateAt. cbn [beta strainStates]. fold S S'.
        assert (X : forall l l', List.Forall2 turnedPoint l l' -> (forall gp, In gp l -> In gp points) -> (forall gp, In gp l' -> In gp points') ->
          sumP l' (fun gp => (dot s (S' gp b) (strain dN' gp (Qt u)) - 1 / 2 * dot s (S' gp b) (Es (S' gp b))) * vol gp) =
          sumP l (fun gp => (dot s (S gp b) (strain dN gp u) - 1 / 2 * dot s (S gp b) (Es (S gp b))) * vol gp)).
        { induction 1 as [|gp gp' l l' Hp _ IH]; intros I I'; [reflexivity|]. cbn [sumP].
          rewrite (proj1 (turned_same gp gp' Hp)), (stored_work chi Es Dc b Is Lo Rg gp gp' Hp (I _ (or_introl eq_refl)) (I' _ (or_introl eq_refl))).
          f_equal; [|apply IH; intros; [apply I|apply I']; now right]. f_equal. f_equal.
          transitivity (dot s (turnStress d Q (S gp b)) (turnStrain d Q (strain dN gp u))); [|apply (turn_work d Q dim HQ)].
          apply sum_ext. intros m Hm. f_equal; [now apply stresses_moved|]. now apply turned_strains. }
        apply X; auto.
      - intros HZ HZ'.
        set (e := {| e_value := mixE s p (strain dN) P; e_d := mixE_d s (bop dN); e_a := mixE_a s P; e_dd := mixE_dd s (kg dN); e_aa := zero_aa; e_ad := zero_ad |}).
        set (e' := {| e_value := mixE s p (strain dN') P'; e_d := mixE_d s (bop dN'); e_a := mixE_a s P'; e_dd := mixE_dd s (kg dN'); e_aa := zero_aa; e_ad := zero_ad |}).
        assert (En := as_energy chi Is Lo). fold e e' in En.
        assert (Nr : around2 N p (fun y w => suitable d n (s + s) p points (mixPsi s chi) (mixStress s Es) (mixTangent s Dc) (e_value e) (e_d e) (e_a e) (e_dd e) (e_aa e) (e_ad e) y w /\
          suitable d n (s + s) p points' (mixPsi s chi) (mixStress s Es) (mixTangent s Dc) (e_value e') (e_d e') (e_a e') (e_dd e') (e_aa e') (e_ad e') (Qt y) w) u b).
        { intros c x w z P1 P2. generalize (Rg w z P2). apply filter_imp. intros t (B & B'). split.
          - exact (suited_suitable d n s p points (proj1 d3) (strain dN) (bop dN) (kg dN) P chi Es Dc _ _ (complement_suited chi Es Dc points dN P _ _ B)).
          - exact (suited_suitable d n s p points' (proj1 d3) (strain dN') (bop dN') (kg dN') P' chi Es Dc _ _ (complement_suited chi Es Dc points' dN' P' _ _ B')). }
        assert (HY := mix_inverse s p points (strain dN) P Es Dc inverse u b HZ).
        assert (HY' := mix_inverse s p points' (strain dN') P' Es Dc inverse (Qt u) b HZ').
        split; [|split].
        + intros f k Hk.
          assert (V := generic_vector d n (s + s) p Q (proj1 d3) HQ points points' (mixPsi s chi) (mixPsi s chi) (mixStress s Es) (mixStress s Es) (mixTangent s Dc) (mixTangent s Dc) e e'
            (negatedInverse inverse) En u b Nr HY HY' f k Hk).
          unfold e, e' in V. cbn [e_value e_d e_a e_dd e_aa e_ad] in V. fold (Qt u) (Qt f) in V. rewrite mix_vector in V by (exact (proj1 d3) || assumption). unfold st'. rewrite V.
          unfold Qt. apply (turned_ext d n Q (proj1 d3)); [exact Hk|]. intros j Hj. apply mix_vector; [exact (proj1 d3)|exact Hj].
        + intros k l Hk Hl.
          assert (V := generic_matrix d n (s + s) p Q (proj1 d3) HQ points points' (mixPsi s chi) (mixPsi s chi) (mixStress s Es) (mixStress s Es) (mixTangent s Dc) (mixTangent s Dc) e e'
            (negatedInverse inverse) En u b Nr HY HY'
            (mix_symmetric d n s p points (proj1 d3) (strain dN) (bop dN) (kg dN) P Es Dc u b (complement_symmetric chi Es Dc points dN P u b A))
            (mix_symmetric d n s p points' (proj1 d3) (strain dN') (bop dN') (kg dN') P' Es Dc (Qt u) b (complement_symmetric chi Es Dc points' dN' P' (Qt u) b A')) k l Hk Hl).
          unfold e, e' in V. cbn [e_value e_d e_a e_dd e_aa e_ad] in V. fold (Qt u) in V. rewrite mix_matrix in V by (exact (proj1 d3) || assumption). unfold st'. rewrite V.
          unfold turnedMatrix. apply sum_ext. intros i Hi. apply sum_ext. intros j Hj. f_equal. apply mix_matrix; [exact (proj1 d3)|..]; now apply (node_bound d n (proj1 d3)).
        + intros dx q Hq.
          assert (V := generic_update d n (s + s) p Q (proj1 d3) HQ points points' (mixPsi s chi) (mixPsi s chi) (mixStress s Es) (mixStress s Es) (mixTangent s Dc) (mixTangent s Dc) e e'
            (negatedInverse inverse) En u b Nr HY HY' dx q Hq).
          unfold e, e' in V. cbn [e_value e_d e_a e_dd e_aa e_ad] in V.
          assert (U : forall l dM X y w z, easUpdateImpl d n (s + s) p l (mixStress s Es) (mixTangent s Dc) (mixE s p (strain dM) X) (mixE_d s (bop dM)) (mixE_a s X) zero_aa zero_ad (negatedInverse inverse) y z w q =
            beta (updateState d n s p l (strain dM) (bop dM) X materialInversion inverse y z (stateAt s p X Es Dc w)) q).
          { intros l dM X y w z. unfold easUpdateImpl, updateState. cbn [invertMaterial beta stateAt]. rewrite inverse_h, (mix_rtilde s p l (strain dM) X Es Dc).
            unfold Rminus. f_equal. match goal with |- - ?x = _ => transitivity (x * -1); [ring|] end. rewrite <- sum_mul_r. apply sum_ext. intros r _.
            rewrite (sum_ext (d * n) (fun k => easL _ _ _ _ _ _ _ _ _ _ _ _ r k * z k) (fun k => asG d n s l (bop dM) X y r k * z k)) by (intros; now rewrite mix_g by (exact (proj1 d3) || assumption)).
            change (beta (stateAt s p X Es Dc w)) with w. ring. }
          rewrite !U in V. exact V.
    Qed.
  End AssumedStresses.
End Elements.

(** ** The hypotheses hold *)
(** The inverse of Hooke's law, its complementary energy is isotropic *)
Definition compliance (d : nat) (lambda mu : R) (m k : nat) : R :=
  let normal m := let (i, j) := component d m in (i =? j)%nat in
  (if normal m && normal k then - (lambda / (2 * mu * (2 * mu + INR d * lambda))) else 0) + (if (m =? k)%nat then (if normal m then / (2 * mu) else 2 * / (2 * mu)) else 0).
Lemma compliance_inverse d lambda mu i j : (d = 2 \/ d = 3)%nat -> mu <> 0 -> 2 * mu + INR d * lambda <> 0 -> (i < voigtLength d)%nat -> (j < voigtLength d)%nat ->
  mul (voigtLength d) (hooke d lambda mu) (compliance d lambda mu) i j = identity i j.
Proof.
  intros [->| ->] Hm H Hi Hj; [change (voigtLength 2) with 3%nat in *|change (voigtLength 3) with 6%nat in *]; cbn [INR] in *.
  - do 3 (destruct i as [|i]; [do 3 (destruct j as [|j]; [unfold mul, hooke, compliance, identity; cbn -[Rplus Rmult]; field; repeat split; try exact Hm; (let X := fresh in intro X; apply H; lra)|]); lia|]). lia.
  - do 6 (destruct i as [|i]; [do 6 (destruct j as [|j]; [unfold mul, hooke, compliance, identity; cbn -[Rplus Rmult]; field; repeat split; try exact Hm; (let X := fresh in intro X; apply H; lra)|]); lia|]). lia.
Qed.
Theorem C185_compliance_isotropic d lambda mu : (d = 2 \/ d = 3)%nat ->
  isotropicComplement d (linearEnergy (voigtLength d) (fun _ => compliance d lambda mu)) /\ localEnergy d (linearEnergy (voigtLength d) (fun _ => compliance d lambda mu)) /\
  symmetric (voigtLength d) (compliance d lambda mu).
Proof.
  intros dim. split; [|split; [apply linear_local|]].
  - intros Q E HQ S. assert (S' : symmetric d (turnTensor d Q E)).
    { intros a b _ _. unfold turnTensor. rewrite sum_swap. apply sum_ext. intros p Hp. apply sum_ext. intros q Hq. rewrite (S p q) by assumption. ring. }
    unfold compliance. set (al := - (lambda / _)). set (be := / (2 * mu)).
    assert (En : forall E, symmetric d E -> linearEnergy (voigtLength d) (fun _ m k => (if (let (i, j) := component d m in (i =? j)%nat) && (let (i, j) := component d k in (i =? j)%nat) then al else 0) +
        (if (m =? k)%nat then (if (let (i, j) := component d m in (i =? j)%nat) then be else 2 * be) else 0)) (stressVector d E) =
      al / 2 * (sum d (fun a => E a a) * sum d (fun a => E a a)) + be / 2 * sum d (fun a => sum d (fun b => E a b * E a b))).
    { clearbody al be. clear -dim. intros E S. destruct dim as [->| ->]; unfold linearEnergy, dot, apply, stressVector; cbn; rewrite ?(S 1%nat 0%nat), ?(S 2%nat 0%nat), ?(S 2%nat 1%nat) by lia; field. }
    rewrite !En by assumption. rewrite trace_turned, norm_turned by assumption. reflexivity.
  - intros m k _ _. unfold compliance. rewrite andb_comm, (Nat.eqb_sym k m). destruct (Nat.eqb_spec m k); [now subst|reflexivity].
Qed.

(** An element of four nodes in the plane in two coordinate systems, with Hooke's law between the Green-Lagrange strains and the second
    Piola-Kirchhoff stresses: all displacements and all parameters are regular *)
Section Plane.
  Variables (lambda mu detJ0 : R) (points : list point) (dN : point -> nat -> nat -> R) (J0 : nat -> nat -> R) (inverse : (nat -> nat -> R) -> nat -> nat -> R).
  Let dN' (gp : point) (i : nat) := turnVector 2 tilt (dN gp i).
  Let J0' (a : nat) := turnVector 2 tilt (J0 a).
  Let C := hooke 2 lambda mu.

  Lemma hooke_symmetric : symmetric 3 C.
  Proof. intros m k _ _. unfold C, hooke. rewrite andb_comm, (Nat.eqb_sym k m). destruct (Nat.eqb_spec m k); [now subst|reflexivity]. Qed.
  Example C185_enhanced_applies u a :
    let p := sizeE V4 in let e dM J := additive 2 4 p false dM (easFunctionE inverse 2 J detJ0 V4) in
    List.Forall2 (turnedPoint 2 4 tilt dN dN') points points /\ orthogonal 2 tilt /\
    isotropicEnergy 2 (linearEnergy 3 (fun _ => C)) /\ localEnergy 2 (linearEnergy 3 (fun _ => C)) /\
    regular 2 4 tilt points points p (linearEnergy 3 (fun _ => C)) (linearStress_ 3 (fun _ => C)) (fun _ => C) (e dN J0) (e dN' J0') u a.
  Proof.
    split; [|split; [apply tilt_orthogonal|split; [apply (C173_hooke_isotropic 2); lia|split; [apply (linear_local 2)|]]]].
    - induction points as [|gp l IH]; constructor; [|exact IH]. split; [reflexivity|]. split; [reflexivity|]. split; [reflexivity|]. intros. reflexivity.
    - intros c v b w _ _. apply filter_forall. intros t. split; intros gp _; (split; [apply quadratic_hyperelastic|]; exact hooke_symmetric).
  Qed.
  Example C185_assumed_applies b :
    let s := 3%nat in let chi := linearEnergy 3 (fun _ => compliance 2 lambda mu) in let Es := linearStress_ 3 (fun _ => compliance 2 lambda mu) in let Dc (_ : nat -> R) := compliance 2 lambda mu in
    isotropicComplement 2 chi /\ localEnergy 2 chi /\
    around (sizeS W5) (fun b => complementAt 2 W5 points (asFunction 2 J0 W5) chi Es Dc b /\ complementAt 2 W5 points (asFunction 2 J0' W5) chi Es Dc b) b.
  Proof.
    destruct (C185_compliance_isotropic 2 lambda mu ltac:(lia)) as (A & B & Sy). split; [exact A|]. split; [exact B|].
    intros c v _. apply filter_forall. intros t. split; intros gp _; (split; [apply quadratic_hyperelastic; exact Sy|exact Sy]).
  Qed.
End Plane.
(** the transformations of the unit square and of the turned unit square are regular *)
Example C185_square_transformation :
  let J0' a := turnVector 2 tilt (identity a) in
  isInverse 3 (fun i j => transformationMatrix 2 identity i j * 1) identity /\ isInverse 3 (fun i j => transformationMatrix 2 J0' i j * 1) (transformationMatrix 2 tilt).
Proof.
  split; split; intros i j Hi Hj; (do 3 (destruct i as [|i]; [do 3 (destruct j as [|j]; [cbv -[Rplus Rmult Rinv Ropp Rminus IZR]; field|]); lia|])); lia.
Qed.

Print Assumptions C185_enhanced_strains.
Print Assumptions C185_displacement_gradients.
Print Assumptions C185_assumed_stresses.
Print Assumptions C185_compliance_isotropic.
