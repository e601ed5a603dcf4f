(** Properties C107 and C108: forces, coupling matrices and condensed stiffness of enhanced assumed strain elements. *)

From Coq Require Import Reals Arith Bool List Lia Lra.
From Coquelicot Require Import Coquelicot.
From Verif Require Import Tensor_Spec Conversions_Spec Conversions_Props Tensor_Model Element_Spec Element_Model Element_Proofs Element_Props.
From Verif Require Import Eas_Spec Eas_Model Eas_Proofs.
Import ListNotations.
Local Open Scope R_scope.

Section Eas.
  Variables (d n s p : nat) (points : list point).
  Hypothesis dpos : (0 < d)%nat.
  Variables (psi : (nat -> R) -> R) (stress : (nat -> R) -> nat -> R) (tangent : (nat -> R) -> nat -> nat -> R).
  Variable E : point -> (nat -> R) -> (nat -> R) -> nat -> R.
  Variable E_d : point -> (nat -> R) -> (nat -> R) -> nat -> nat -> nat -> R.
  Variable E_a : point -> (nat -> R) -> (nat -> R) -> nat -> nat -> R.
  Variable E_dd : point -> (nat -> R) -> (nat -> R) -> (nat -> R) -> nat -> nat -> nat -> nat -> R.
  Variable E_aa : point -> (nat -> R) -> (nat -> R) -> (nat -> R) -> nat -> nat -> R.
  Variable E_ad : point -> (nat -> R) -> (nat -> R) -> (nat -> R) -> nat -> nat -> nat -> R.
  Let N := (d * n)%nat.

  (** The energy of the element at the displacements u and the internal variables a *)
  Definition enhancedEnergy (u a : nat -> R) : R := energyFunction points (fun gp u => E gp u a) psi u.

  Definition suitable (u a : nat -> R) : Prop := forall gp, In gp points ->
    enhancedExpression d n s p E E_d E_a E_dd E_aa E_ad gp u a /\ hyperelastic s psi stress tangent (E gp u a) /\
    symmetric s (tangent (E gp u a)).

  Let force u a := easForces d n s points stress E E_d u a zeroVector.
  Let rest u a := easRtilde s points stress E E_a u a.
  Let K u a := easStiffness d n s points stress tangent E E_d E_dd u a zeroMatrix.
  Let L u a := easL d n s points stress tangent E E_d E_a E_ad u a.
  Let D u a := easD s points stress tangent E E_a E_aa u a.

  (** C107: the internal forces and the residual of the internal variables are the gradients of the energy *)
  Theorem C107_forces u a : suitable u a -> isGradient2 N p enhancedEnergy (force u a) (rest u a) u a.
  Proof.
    intros H.
    eapply (gradient2_ext N p).
    - apply (gradient2_sumP N p points (fun gp u a => psi (E gp u a) * vol gp)). intros gp Hgp. destruct (H gp Hgp) as (He & Hm & _).
      exact (point_energy2 d n s p stress tangent E E_d E_a E_dd E_aa E_ad psi u a gp He Hm).
    - intros u' a'. symmetry. exact (energy_sum points (fun gp u => E gp u a') psi u').
    - intros k Hk. unfold force. rewrite forces_sum by assumption. unfold zeroVector. cbv beta. ring.
    - intros q Hq. unfold rest. rewrite rtilde_sum. reflexivity.
  Qed.

  (** C107: the stiffness, L and D are the second derivatives of the energy: the forces change with K and L^T, the residual of the
      internal variables with L and D; K and D are symmetric if the second derivatives of the strain are *)
  Theorem C107_tangent u a : suitable u a ->
    (forall k, (k < N)%nat -> isGradient2 N p (fun u a => force u a k) (K u a k) (fun q => L u a q k) u a) /\
    (forall q, (q < p)%nat -> isGradient2 N p (fun u a => rest u a q) (L u a q) (D u a q) u a).
  Proof.
    intros H. split.
    - intros k Hk. eapply (gradient2_ext N p).
      + apply (gradient2_sumP N p points (fun gp u a => sum s (fun m => E_d gp u a (k / d)%nat m (k mod d) * stress (E gp u a) m) * vol gp)).
        intros gp Hgp. destruct (H gp Hgp) as (He & Hm & _).
        apply (point_product2 d n s p stress tangent E E_d E_a E_dd E_aa E_ad psi u a gp He Hm (fun u a m => E_d gp u a (k / d)%nat m (k mod d))
          (fun S l => E_dd gp u a S (k / d)%nat (l / d)%nat (k mod d) (l mod d)) (fun S r => E_ad gp u a S (k / d)%nat r (k mod d))).
        intros S. destruct He as (_ & He & _). apply He, Hk.
      + intros u' a'. unfold force. rewrite forces_sum by assumption. unfold zeroVector. cbv beta. ring.
      + intros l Hl. unfold K. rewrite stiffness_sum by assumption. unfold zeroMatrix. cbv beta. ring.
      + intros q Hq. unfold L. rewrite l_sum by assumption. apply sumP_ext. intros gp Hgp. destruct (H gp Hgp) as (_ & _ & Hs).
        f_equal. f_equal. rewrite sum_swap. apply sum_ext. intros m Hm. apply sum_ext. intros o Ho. rewrite (Hs m o) by assumption. ring.
    - intros q Hq. eapply (gradient2_ext N p).
      + apply (gradient2_sumP N p points (fun gp u a => sum s (fun m => E_a gp u a m q * stress (E gp u a) m) * vol gp)).
        intros gp Hgp. destruct (H gp Hgp) as (He & Hm & _).
        apply (point_product2 d n s p stress tangent E E_d E_a E_dd E_aa E_ad psi u a gp He Hm (fun u a m => E_a gp u a m q)
          (fun S l => E_ad gp u a S (l / d)%nat q (l mod d)) (fun S r => E_aa gp u a S q r)).
        intros S. destruct He as (_ & _ & He). apply He, Hq.
      + intros u' a'. unfold rest. rewrite rtilde_sum. reflexivity.
      + intros l Hl. unfold L. rewrite l_sum by assumption. reflexivity.
      + intros r Hr. unfold D. rewrite d_sum. reflexivity.
  Qed.

  Theorem C107_symmetric u a :
    (forall gp, In gp points -> symmetric s (tangent (E gp u a)) /\
       (forall S i j k l, E_dd gp u a S i j k l = E_dd gp u a S j i l k) /\ (forall S q r, E_aa gp u a S q r = E_aa gp u a S r q)) ->
    symmetric N (K u a) /\ (forall q r, D u a q r = D u a r q).
  Proof.
    intros H. split.
    - intros k l Hk Hl. unfold K. rewrite !stiffness_sum by assumption. f_equal. apply sumP_ext. intros gp Hgp.
      destruct (H gp Hgp) as (Hc & Hg & _). rewrite (Hg _ (k / d)%nat). f_equal. f_equal.
      rewrite sum_swap. apply sum_ext. intros m Hm. apply sum_ext. intros o Ho. rewrite (Hc o m) by assumption. ring.
    - intros q r. unfold D. rewrite !d_sum. apply sumP_ext. intros gp Hgp. destruct (H gp Hgp) as (Hc & _ & Hg). rewrite (Hg _ q). f_equal. f_equal.
      rewrite sum_swap. apply sum_ext. intros m Hm. apply sum_ext. intros o Ho. rewrite (Hc o m) by assumption. ring.
  Qed.

  Variable inverse : (nat -> nat -> R) -> nat -> nat -> R.
  Let vectorOf := easVectorImpl d n s p points stress tangent E E_d E_a E_aa E_ad inverse.
  Let matrixOf := easMatrixImpl d n s p points stress tangent E E_d E_a E_dd E_aa E_ad inverse.
  Let Z u a := inverse (D u a).

  Definition symmetricAt (u a : nat -> R) : Prop := symmetric N (K u a) /\ (forall q r, D u a q r = D u a r q).

  Lemma inverse_symmetric u a : isInverse p (D u a) (Z u a) -> (forall q r, D u a q r = D u a r q) -> symmetric p (Z u a).
  Proof.
    intros (HR & HL) S i j Hi Hj.
    (* Z_ij = sum_k Z_ik 1_kj = sum_kl Z_ik D_lk Z_lj ... with the transposed matrix *)
    transitivity (sum p (fun l => mul p (Z u a) (D u a) i l * Z u a j l)).
    - transitivity (sum p (fun k => Z u a i k * identity j k)).
      + rewrite (sum_pick p j); [unfold identity; rewrite Nat.eqb_refl; ring|assumption|].
        intros k _ Hk. unfold identity. destruct (Nat.eqb_spec j k); [congruence|ring].
      + transitivity (sum p (fun k => sum p (fun l => Z u a i k * (Z u a j l * D u a l k)))).
        * apply sum_ext. intros k Hk. rewrite <- (HL j k Hj Hk). unfold mul. rewrite <- sum_mul_l. reflexivity.
        * rewrite sum_swap. apply sum_ext. intros l _. unfold mul. rewrite <- sum_mul_r. apply sum_ext. intros k _. rewrite (S l k). ring.
    - rewrite (sum_ext p _ (fun l => identity i l * Z u a j l)); [apply sum_id_l, Hi|]. intros l Hl. rewrite (HL i l Hi Hl). reflexivity.
  Qed.

  (** The matrix of the element is the Schur complement *)
  Theorem C108_schur u a k l : symmetricAt u a -> isInverse p (D u a) (Z u a) -> (k < N)%nat -> (l < N)%nat ->
    matrixOf u a zeroMatrix k l = schur p (K u a) (L u a) (Z u a) (L u a) k l.
  Proof.
    intros (SK & SD) HZ Hk Hl. assert (SZ := inverse_symmetric u a HZ SD). unfold matrixOf, easMatrixImpl, condense, schur. cbv zeta. fold N.
    change (easStiffness d n s points stress tangent E E_d E_dd u a zeroMatrix) with (K u a).
    change (easD s points stress tangent E E_a E_aa u a) with (D u a). change (inverse (D u a)) with (Z u a).
    change (easL d n s points stress tangent E E_d E_a E_ad u a) with (L u a).
    destruct (Nat.ltb_spec l k) as [G|G].
    - destruct (Nat.leb_spec l k); [|lia]. rewrite (SK l k) by assumption. f_equal. rewrite sum_swap. apply sum_ext. intros q Hq.
      apply sum_ext. intros r Hr. rewrite (SZ r q) by assumption. ring.
    - destruct (Nat.leb_spec k l); [reflexivity|lia].
  Qed.

  (** C108: with the matrices L and D held fixed, the matrix is the Jacobian of the vector *)
  Theorem C108_frozen u a : suitable u a -> symmetricAt u a -> isInverse p (D u a) (Z u a) ->
    isJacobian N N (fun y k => force y a k - sum p (fun q => sum p (fun r => L u a q k * Z u a q r * rest y a r))) (matrixOf u a zeroMatrix) u.
  Proof.
    intros H S HZ k Hk. destruct (C107_tangent u a H) as (HF & HR).
    assert (P0 : passes p (fun _ => a) a (fun _ => 0)) by (intros q _; split; [reflexivity|apply @is_derive_const]).
    assert (Z0 : forall m (g : nat -> R), dot m g (fun _ => 0) = 0) by (intros; apply sum_zero; intros; ring).
    intros c v Pc.
    eapply derive_eq.
    - apply (is_derive_minus (fun t => force (c t) a k) (fun t => sum p (fun q => sum p (fun r => L u a q k * Z u a q r * rest (c t) a r)))).
      + exact (HF k Hk c v (fun _ => a) _ Pc P0).
      + apply (derive_sum p (fun q t => sum p (fun r => L u a q k * Z u a q r * rest (c t) a r))
          (fun q => sum p (fun r => L u a q k * Z u a q r * dot N (L u a r) v))).
        intros q Hq. apply (derive_sum p (fun r t => L u a q k * Z u a q r * rest (c t) a r) (fun r => L u a q k * Z u a q r * dot N (L u a r) v)).
        intros r Hr. apply (is_derive_ext (fun t => rest (c t) a r * (L u a q k * Z u a q r))); [intros; apply Rmult_comm|].
        rewrite (Rmult_comm _ (dot N (L u a r) v)). apply derive_scale.
        eapply derive_eq; [exact (HR r Hr c v (fun _ => a) _ Pc P0)|]. rewrite Z0. ring.
    - rewrite Z0, Rplus_0_r.
      transitivity (dot N (schur p (K u a) (L u a) (Z u a) (L u a) k) v).
      + unfold schur. unfold dot at 3.
        rewrite (sum_ext N _ (fun l => K u a k l * v l + - (sum p (fun q => sum p (fun r => L u a q k * Z u a q r * L u a r l)) * v l))) by (intros; ring).
        rewrite sum_add. change (minus ?x ?y) with (x + - y). f_equal.
        transitivity (sum N (fun l => sum p (fun q => sum p (fun r => L u a q k * Z u a q r * L u a r l)) * v l) * (-1)).
        2:{ rewrite <- sum_mul_r. apply sum_ext. intros. ring. }
        change (- sum p (fun q => sum p (fun r => L u a q k * Z u a q r * dot N (L u a r) v)) =
          dot N (fun l => sum p (fun q => sum p (fun r => L u a q k * Z u a q r * L u a r l))) v * -1).
        rewrite (dot_sum_l N p (fun q l => sum p (fun r => L u a q k * Z u a q r * L u a r l))).
        rewrite (sum_ext p (fun j => dot N _ v) (fun q => sum p (fun r => L u a q k * Z u a q r * dot N (L u a r) v))); [ring|].
        intros q _. rewrite (dot_sum_l N p (fun r l => L u a q k * Z u a q r * L u a r l)). apply sum_ext. intros r _.
        unfold dot. rewrite <- sum_mul_l. apply sum_ext. intros. ring.
      + unfold dot. apply sum_ext. intros l Hl. rewrite C108_schur by assumption. reflexivity.
  Qed.

  (** C108: along every pair of curves on which the residual of the internal variables vanishes, the forces change with the matrix of
      the element, the energy with the forces, and the vector of the element are the forces *)
  Theorem C108_equilibrium u a c v b w : suitable u a -> symmetricAt u a -> isInverse p (D u a) (Z u a) ->
    passes N c u v -> passes p b a w -> (forall t q, (q < p)%nat -> rest (c t) (b t) q = 0) ->
    (forall k, (k < N)%nat -> is_derive (fun t => force (c t) (b t) k) 0 (dot N (matrixOf u a zeroMatrix k) v)) /\
    is_derive (fun t => enhancedEnergy (c t) (b t)) 0 (dot N (force u a) v) /\
    (forall t k, (k < N)%nat -> vectorOf (c t) (b t) zeroVector k = force (c t) (b t) k).
  Proof.
    intros H S HZ Pc Pb Hr. destruct (C107_tangent u a H) as (HF & HR).
    assert (W : forall q, (q < p)%nat -> dot N (L u a q) v + dot p (D u a q) w = 0).
    { intros q Hq. apply (derive_uniq (fun t => rest (c t) (b t) q)); [exact (HR q Hq c v b w Pc Pb)|].
      apply (is_derive_ext (fun _ => 0)); [intros t; symmetry; apply Hr, Hq|apply @is_derive_const]. }
    assert (w_is : forall q, (q < p)%nat -> w q = - sum p (fun r => Z u a q r * dot N (L u a r) v)).
    { intros q Hq. transitivity (sum p (fun l => mul p (Z u a) (D u a) q l * w l)).
      - rewrite (sum_ext p _ (fun l => identity q l * w l)); [symmetry; apply sum_id_l, Hq|]. intros l Hl. destruct HZ as (_ & HL). rewrite HL by assumption. reflexivity.
      - transitivity (sum p (fun r => Z u a q r * dot p (D u a r) w)).
        + unfold mul, dot. rewrite (sum_ext p _ (fun l => sum p (fun r => Z u a q r * D u a r l * w l))) by (intros; symmetry; apply sum_mul_r).
          rewrite sum_swap. apply sum_ext. intros r _. rewrite <- sum_mul_l. apply sum_ext. intros. ring.
        + transitivity (sum p (fun r => Z u a q r * dot N (L u a r) v) * -1); [|ring]. rewrite <- sum_mul_r. apply sum_ext. intros r Hq'.
          specialize (W r Hq'). replace (dot p (D u a r) w) with (- dot N (L u a r) v) by lra. ring. }
    split; [|split].
    - intros k Hk. eapply derive_eq; [exact (HF k Hk c v b w Pc Pb)|].
      transitivity (dot N (schur p (K u a) (L u a) (Z u a) (L u a) k) v).
      + unfold schur. unfold dot at 3.
        rewrite (sum_ext N _ (fun l => K u a k l * v l + sum p (fun q => sum p (fun r => L u a q k * Z u a q r * L u a r l)) * v l * -1)) by (intros; ring).
        rewrite sum_add, sum_mul_r. f_equal.
        change (dot p (fun q => L u a q k) w = dot N (fun l => sum p (fun q => sum p (fun r => L u a q k * Z u a q r * L u a r l))) v * -1).
        rewrite (dot_sum_l N p (fun q l => sum p (fun r => L u a q k * Z u a q r * L u a r l))).
        unfold dot at 1. rewrite <- sum_mul_r. apply sum_ext. intros q Hq. rewrite w_is by assumption.
        rewrite (dot_sum_l N p (fun r l => L u a q k * Z u a q r * L u a r l)).
        transitivity (L u a q k * sum p (fun r => Z u a q r * dot N (L u a r) v) * -1); [ring|]. f_equal.
        rewrite <- sum_mul_l. apply sum_ext. intros r _. unfold dot. rewrite <- !sum_mul_l. apply sum_ext. intros. ring.
      + unfold dot. apply sum_ext. intros l Hl. rewrite C108_schur by assumption. reflexivity.
    - eapply derive_eq; [exact (C107_forces u a H c v b w Pc Pb)|].
      assert (R0 : forall q, (q < p)%nat -> rest u a q = 0).
      { intros q Hq. rewrite <- (value2 d n p u a c b v w Pc Pb (fun u a => rest u a q) _ _ (HR q Hq)). apply Hr, Hq. }
      replace (dot p (rest u a) w) with 0; [ring|]. symmetry. apply sum_zero. intros q Hq. rewrite R0 by assumption. ring.
    - intros t k Hk. unfold vectorOf, easVectorImpl. change (easForces d n s points stress E E_d (c t) (b t) zeroVector) with (force (c t) (b t)).
      rewrite (sum_zero p); [ring|]. intros q _. apply sum_zero. intros r Hq.
      change (easRtilde s points stress E E_a (c t) (b t) r) with (rest (c t) (b t) r). rewrite Hr by assumption. ring.
  Qed.

  (** C108: the vector is added to the vector that is given; the matrix is added to a given symmetric matrix *)
  Theorem C108_adds_partial u a f M k l : (k < N)%nat -> (l < N)%nat ->
    vectorOf u a f k = f k + vectorOf u a zeroVector k /\
    (symmetric N M -> matrixOf u a M k l = M k l + matrixOf u a zeroMatrix k l).
  Proof.
    intros Hk Hl. unfold vectorOf, matrixOf, easVectorImpl, easMatrixImpl. split.
    - rewrite !forces_sum by assumption. unfold zeroVector. ring.
    - intros S. cbv zeta. destruct (Nat.ltb_spec l k).
      + destruct (Nat.leb_spec l k); [|lia]. rewrite !stiffness_sum by assumption. rewrite (S l k) by assumption. unfold zeroMatrix. ring.
      + destruct (Nat.leb_spec k l); [|lia]. rewrite !stiffness_sum by assumption. unfold zeroMatrix. ring.
  Qed.

  (** C108: the matrix of the element is symmetric, whatever the given one is *)
  Theorem C108_symmetric u a M : symmetric N (matrixOf u a M).
  Proof.
    intros k l Hk Hl. unfold matrixOf, easMatrixImpl. cbv zeta.
    destruct (Nat.ltb_spec l k), (Nat.ltb_spec k l); try lia; try reflexivity. replace l with k by lia. reflexivity.
  Qed.
End Eas.

(** C108: a given matrix that is not symmetric, from another skill of the element, is not kept *)
Theorem C108_adds_refuted d n s p points stress tangent E E_d E_a E_dd E_aa E_ad inverse u a : (0 < d)%nat -> (1 < d * n)%nat ->
  exists M, let matrixOf := easMatrixImpl d n s p points stress tangent E E_d E_a E_dd E_aa E_ad inverse in
  matrixOf u a M 1%nat 0%nat <> M 1%nat 0%nat + matrixOf u a zeroMatrix 1%nat 0%nat.
Proof.
  intros dpos HN. exists (fun k l => if (k =? 1)%nat then 1 else 0). cbv zeta. unfold easMatrixImpl. cbv zeta. cbn [Nat.ltb Nat.leb Nat.eqb].
  rewrite !stiffness_sum by lia. unfold zeroMatrix. cbn [Nat.eqb]. lra.
Qed.
Print Assumptions C107_forces.
Print Assumptions C107_tangent.
Print Assumptions C107_symmetric.
Print Assumptions C108_schur.
Print Assumptions C108_frozen.
Print Assumptions C108_equilibrium.
Print Assumptions C108_adds_partial.
Print Assumptions C108_symmetric.
Print Assumptions C108_adds_refuted.
