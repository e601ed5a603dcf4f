(** Property C100: rigid motions. *)

From Coq Require Import Reals Arith Bool List Lia Lra.
From Coquelicot Require Import Coquelicot.
From Verif Require Import Tensor_Spec Tensor_Model Tensor_Props Conversions_Spec Conversions_Props Element_Spec Element_Model Element_Proofs Element_Props
  Shell_Model Shell_Proofs Shell_Props Objectivity_Spec.
Import ListNotations.
Local Open Scope R_scope.

Lemma identity_rotation d : (0 < d <= 3)%nat -> rotation d identity.
Proof.
  intros Hd. assert (E : forall i j, (i < d)%nat -> (j < d)%nat -> sum d (fun k => identity i k * identity k j) = identity i j)
    by (intros i j Hi _; exact (sum_id_l d i (fun k => identity k j) Hi)).
  split; [|split].
  - intros i j Hi Hj. unfold mul, transpose. rewrite <- (E i j) by assumption. apply sum_ext. intros. unfold identity at 1 3. rewrite (Nat.eqb_sym k i). reflexivity.
  - intros i j Hi Hj. unfold mul, transpose. rewrite <- (E i j) by assumption. apply sum_ext. intros. unfold identity at 2 4. rewrite (Nat.eqb_sym k j). reflexivity.
  - destruct d as [|[|[|[|d]]]]; [lia|..|lia]; cbn; unfold identity; cbn; ring.
Qed.

(** the turn by the angle t in the plane of the directions a and b *)
Definition turn (a b : nat) (t : R) (p q : nat) : R :=
  if (p =? a)%nat then (if (q =? a)%nat then cos t else if (q =? b)%nat then - sin t else 0)
  else if (p =? b)%nat then (if (q =? b)%nat then cos t else if (q =? a)%nat then sin t else 0)
  else identity p q.

Lemma turn_rotation d a b t : (d <= 3)%nat -> (a < d)%nat -> (b < d)%nat -> a <> b -> rotation d (turn a b t).
Proof.
  intros H3 Ha Hb Hab. assert (P := sin2_cos2 t). unfold Rsqr in P.
  assert (P' : cos t * cos t = 1 - sin t * sin t) by lra.
  destruct d as [|[|[|[|d]]]]; try lia;
    (destruct a as [|[|[|a]]]; try lia; destruct b as [|[|[|b]]]; try lia);
    (split; [|split; [|cbn; unfold turn, identity; cbn; ring_simplify; lra]];
     intros i j Hi Hj; destruct i as [|[|[|i]]]; try lia; destruct j as [|[|[|j]]]; try lia;
     unfold mul, transpose, turn, identity; cbn; lra).
Qed.

Section Balance.
  Variables (d n : nat) (X : nat -> nat -> R).
  Hypothesis d3 : (0 < d <= 3)%nat.
  Let N := (d * n)%nat.

  (** C100: forces that are the gradient of an energy which rigid motions do not change have no resultant and no moment *)
  Theorem C100_equilibrium E g u : isGradient N E g u ->
    (forall Q c, rotation d Q -> E (moved d X Q c u) = E u) -> selfEquilibrated d n X u g.
  Proof.
    intros G I.
    assert (Hm : forall k, (k mod d < d)%nat) by (intros; apply Nat.mod_upper_bound; lia).
    assert (Hk : forall k, u (d * (k / d) + k mod d)%nat = u k) by (intros k; rewrite <- (Nat.div_mod_eq k d); reflexivity).
    split.
    - intros a Ha.
      set (v := fun k => if (k mod d =? a)%nat then 1 else 0).
      set (c := fun t => moved d X identity (fun b => if (b =? a)%nat then t else 0) u).
      assert (P : passes N c u v).
      { intros k _. unfold c, moved, v. rewrite sum_id_l by apply Hm. unfold placeOf. rewrite Hk. split.
        - destruct (k mod d =? a)%nat; ring.
        - destruct (k mod d =? a)%nat; auto_derive; auto; ring. }
      assert (Z : dot N g v = 0).
      { apply (derive_uniq (fun t => E (c t))); [apply G, P|].
        apply (is_derive_ext (fun _ => E u)); [intros t; symmetry; apply I, identity_rotation, d3|]. apply @is_derive_const. }
      rewrite <- Z. unfold dot, N. rewrite sum_blocks. apply sum_ext. intros i _.
      rewrite (sum_pick d a); [|assumption|].
      + destruct (block_index d i a Ha) as (_ & M). unfold v. rewrite M, Nat.eqb_refl. ring.
      + intros b Hb Hba. destruct (block_index d i b Hb) as (_ & M). unfold v. rewrite M. destruct (Nat.eqb_spec b a); [lia|ring].
    - intros a b Ha Hb. destruct (Nat.eq_dec a b) as [->|Hab]; [apply sum_zero; intros; ring|].
      set (x := placeOf d X u).
      set (v := fun k => if (k mod d =? a)%nat then - x (k / d)%nat b else if (k mod d =? b)%nat then x (k / d)%nat a else 0).
      set (c := fun t => moved d X (turn a b t) (fun _ => 0) u).
      assert (T : forall t p i, (p < d)%nat -> sum d (fun q => turn a b t p q * x i q) =
        if (p =? a)%nat then cos t * x i a - sin t * x i b else if (p =? b)%nat then cos t * x i b + sin t * x i a else x i p).
      { intros t p i Hp. rewrite (sum_ext d _ (fun q =>
          if (p =? a)%nat then identity a q * (cos t * x i q) - identity b q * (sin t * x i q)
          else if (p =? b)%nat then identity b q * (cos t * x i q) + identity a q * (sin t * x i q) else identity p q * x i q)).
        - destruct (Nat.eqb_spec p a), (Nat.eqb_spec p b).
          + lia.
          + rewrite (sum_ext d _ (fun q => identity a q * (cos t * x i q) + identity b q * (- sin t * x i q))) by (intros; ring).
            rewrite sum_add, !sum_id_l by assumption. ring.
          + rewrite sum_add, !sum_id_l by assumption. ring.
          + rewrite !sum_id_l by assumption. reflexivity.
        - intros q Hq. unfold turn, identity. rewrite !(Nat.eqb_sym q).
          destruct (Nat.eqb_spec p a), (Nat.eqb_spec p b), (Nat.eqb_spec a q), (Nat.eqb_spec b q); try lia; ring. }
      assert (P : passes N c u v).
      { intros k _. unfold c, moved. fold x. split.
        - rewrite T, cos_0, sin_0 by apply Hm. unfold x, placeOf.
          destruct (Nat.eqb_spec (k mod d) a) as [E1|]; [rewrite <- E1, Hk; ring|].
          destruct (Nat.eqb_spec (k mod d) b) as [E1|]; [rewrite <- E1|]; rewrite Hk; ring.
        - eapply is_derive_ext; [intros t; symmetry; rewrite T by apply Hm; reflexivity|]. unfold v.
          destruct (Nat.eqb_spec (k mod d) a); [auto_derive; auto; rewrite cos_0, sin_0; ring|].
          destruct (Nat.eqb_spec (k mod d) b); auto_derive; auto; rewrite ?cos_0, ?sin_0; ring. }
      assert (Z : dot N g v = 0).
      { apply (derive_uniq (fun t => E (c t))); [apply G, P|].
        apply (is_derive_ext (fun _ => E u)); [intros t; symmetry; apply I, turn_rotation; try assumption; lia|]. apply @is_derive_const. }
      rewrite <- Z. unfold dot, N. rewrite sum_blocks. apply sum_ext. intros i _. fold x.
      rewrite (sum_ext d _ (fun q => identity b q * (g (d * i + q)%nat * x i a) + identity a q * (- (g (d * i + q)%nat * x i b)))).
      + rewrite sum_add, !sum_id_l by assumption. ring.
      + intros q Hq. destruct (block_index d i q Hq) as (D & M). unfold v. rewrite M, D. unfold identity. rewrite !(Nat.eqb_sym q).
        destruct (Nat.eqb_spec a q), (Nat.eqb_spec b q); try lia; ring.
  Qed.
End Balance.
Print Assumptions C100_equilibrium.

(** the sum over the nodes of the moved places: the gradient of the map turns *)
Lemma moved_sum d n X Q c u (q : nat -> R) a : (a < d)%nat -> sum n q = 0 ->
  sum n (fun i => (X i a + moved d X Q c u (d * i + a)%nat) * q i) =
  sum d (fun b => Q a b * sum n (fun i => (X i b + u (d * i + b)%nat) * q i)).
Proof.
  intros Ha Z.
  rewrite (sum_ext n _ (fun i => sum d (fun b => Q a b * ((X i b + u (d * i + b)%nat) * q i)) + q i * c a)).
  - rewrite sum_add, sum_mul_r, Z, Rmult_0_l, Rplus_0_r, sum_swap. apply sum_ext. intros b _. rewrite <- sum_mul_l. reflexivity.
  - intros i _. unfold moved. destruct (block_index d i a Ha) as (-> & ->). unfold placeOf.
    rewrite (sum_ext d (fun b => Q a b * ((X i b + u (d * i + b)%nat) * q i)) (fun b => Q a b * (X i b + u (d * i + b)%nat) * q i)) by (intros; ring).
    rewrite sum_mul_r. ring.
Qed.

Section Solid.
  Variables (d n : nat) (X : nat -> nat -> R) (dN : point -> nat -> nat -> R) (points : list point).
  Hypothesis d3 : (0 < d <= 3)%nat.
  Let N := (d * n)%nat.

  (** The derivatives of the shape functions with respect to the initial places *)
  Definition shapeDerivatives (gp : point) : Prop :=
    forall a, (a < d)%nat -> sum n (fun i => dN gp i a) = 0 /\ forall k, (k < d)%nat -> sum n (fun i => X i k * dN gp i a) = identity k a.

  Lemma deformation_gradient gp u k a : shapeDerivatives gp -> (k < d)%nat -> (a < d)%nat ->
    identity k a + displacementGradientOf d n (dN gp) u k a = sum n (fun i => (X i k + u (d * i + k)%nat) * dN gp i a).
  Proof.
    intros S Hk Ha. rewrite <- (proj2 (S a Ha) k Hk). unfold displacementGradientOf. rewrite <- sum_add. apply sum_ext. intros. ring.
  Qed.

  Lemma greenLagrange_gradient H a b : (a < d)%nat -> (b < d)%nat ->
    greenLagrangeOf d H a b = / 2 * (sum d (fun k => (identity k a + H k a) * (identity k b + H k b)) - identity a b).
  Proof.
    intros Ha Hb. unfold greenLagrangeOf. f_equal.
    rewrite (sum_ext d (fun k => (identity k a + H k a) * _) (fun k => identity a k * (identity k b + H k b) + (identity b k * H k a + H k a * H k b))).
    - rewrite !sum_add, !sum_id_l by assumption. ring.
    - intros k _. unfold identity. rewrite (Nat.eqb_sym a k), (Nat.eqb_sym b k). destruct (k =? a)%nat, (k =? b)%nat; ring.
  Qed.

  (** C100: rigid motions do not change the strains of a solid element *)
  Theorem C100_solid_strains gp Q c u m : rotation d Q -> shapeDerivatives gp ->
    glStrain d n dN gp (moved d X Q c u) m = glStrain d n dN gp u m.
  Proof.
    intros (R & _) S. unfold glStrain, strainVector. destruct (component_bound d n (proj1 d3) m (proj2 d3)) as (Ha & Hb).
    destruct (component d m) as (a, b). cbn [fst snd] in *.
    assert (E : greenLagrangeOf d (displacementGradientOf d n (dN gp) (moved d X Q c u)) a b = greenLagrangeOf d (displacementGradientOf d n (dN gp) u) a b).
    { rewrite !greenLagrange_gradient by assumption. f_equal. f_equal.
      set (F k a := identity k a + displacementGradientOf d n (dN gp) u k a).
      assert (T : forall k a, (k < d)%nat -> (a < d)%nat ->
        identity k a + displacementGradientOf d n (dN gp) (moved d X Q c u) k a = sum d (fun q => Q k q * F q a)).
      { intros k a' Hk Ha'. rewrite deformation_gradient by assumption. rewrite moved_sum by (try assumption; apply S, Ha').
        apply sum_ext. intros q Hq. f_equal. symmetry. apply deformation_gradient; assumption. }
      rewrite (sum_ext d _ (fun k => sum d (fun p => sum d (fun q => (Q k p * Q k q) * (F p a * F q b))))).
      - rewrite sum_swap. apply sum_ext. intros p Hp. rewrite sum_swap.
        rewrite (sum_ext d _ (fun q => identity p q * (F p a * F q b))); [apply (sum_id_l d p (fun q => F p a * F q b)), Hp|].
        intros q Hq. rewrite sum_mul_r. f_equal. apply (R p q Hp Hq).
      - intros k Hk. rewrite !T by assumption. rewrite <- sum_mul_r. apply sum_ext. intros p _. rewrite <- sum_mul_l. apply sum_ext. intros. ring. }
    rewrite E. reflexivity.
  Qed.

  Variables (bop : point -> (nat -> R) -> nat -> nat -> nat -> R) (kg : point -> (nat -> R) -> (nat -> R) -> nat -> nat -> nat -> nat -> R).

  (** C100: nor its energy, whatever the material *)
  Theorem C100_solid_energy psi Q c u : rotation d Q -> (forall gp, In gp points -> shapeDerivatives gp) ->
    (forall e e', (forall m, e m = e' m) -> psi e = psi e') ->
    nonlinearScalar points (glStrain d n dN) psi false (moved d X Q c u) = nonlinearScalar points (glStrain d n dN) psi false u.
  Proof.
    intros R S P. cbn [nonlinearScalar]. rewrite !energy_sum. apply sumP_ext. intros gp Hgp. f_equal. apply P. intros m. apply C100_solid_strains; auto.
  Qed.

  (** C100: its internal forces are self-equilibrated in every state *)
  Theorem C100_solid_equilibrium psi stress tangent u : (forall gp, In gp points -> shapeDerivatives gp) ->
    (forall e e', (forall m, e m = e' m) -> psi e = psi e') ->
    (forall gp, In gp points -> hyperelastic (voigtLength d) psi stress tangent (glStrain d n dN gp u)) ->
    selfEquilibrated d n X u (nonlinearVector d n (voigtLength d) points (glStrain d n dN) (glBop d n dN) stress false u zeroVector).
  Proof.
    intros S P H. apply (C100_equilibrium d n X d3 (nonlinearScalar points (glStrain d n dN) psi false)).
    - apply (C96_nonlinear_forces d n (voigtLength d) points (proj1 d3) (glStrain d n dN) (glBop d n dN) (glKg d dN) psi stress tangent u).
      intros gp Hgp. split; [apply C96_green_lagrange; lia|apply H, Hgp].
    - intros Q c R. apply C100_solid_energy; assumption.
  Qed.
End Solid.
Print Assumptions C100_solid_strains.
Print Assumptions C100_solid_energy.
Print Assumptions C100_solid_equilibrium.

Lemma cross_turned Q x y r : rotation 3 Q -> (r < 3)%nat ->
  cross (apply 3 Q x) (apply 3 Q y) r = apply 3 Q (cross x y) r.
Proof.
  intros (_ & O & D) Hr.
  (* the cofactor matrix of Q is Q *)
  set (M := fun a b => match a, b with
    | 0, 0 => Q 1%nat 1%nat * Q 2%nat 2%nat - Q 1%nat 2%nat * Q 2%nat 1%nat | 0, 1 => Q 1%nat 2%nat * Q 2%nat 0%nat - Q 1%nat 0%nat * Q 2%nat 2%nat | 0, _ => Q 1%nat 0%nat * Q 2%nat 1%nat - Q 1%nat 1%nat * Q 2%nat 0%nat
    | 1, 0 => Q 2%nat 1%nat * Q 0%nat 2%nat - Q 2%nat 2%nat * Q 0%nat 1%nat | 1, 1 => Q 2%nat 2%nat * Q 0%nat 0%nat - Q 2%nat 0%nat * Q 0%nat 2%nat | 1, _ => Q 2%nat 0%nat * Q 0%nat 1%nat - Q 2%nat 1%nat * Q 0%nat 0%nat
    | _, 0 => Q 0%nat 1%nat * Q 1%nat 2%nat - Q 0%nat 2%nat * Q 1%nat 1%nat | _, 1 => Q 0%nat 2%nat * Q 1%nat 0%nat - Q 0%nat 0%nat * Q 1%nat 2%nat | _, _ => Q 0%nat 0%nat * Q 1%nat 1%nat - Q 0%nat 1%nat * Q 1%nat 0%nat end).
  assert (C : forall a b, (a < 3)%nat -> (b < 3)%nat -> sum 3 (fun k => Q k a * M k b) = identity a b).
  { cbn [determinantOf] in D. intros a b Ha Hb. rewrite <- (Rmult_1_r (identity a b)), <- D.
    cases3 a; cases3 b; cbn; unfold identity; cbn; ring. }
  assert (E : forall a b, (a < 3)%nat -> (b < 3)%nat -> M a b = Q a b).
  { intros a b Ha Hb. rewrite <- (sum_id_l 3 a (fun k => M k b) Ha).
    rewrite (sum_ext 3 _ (fun k => sum 3 (fun l => Q a l * Q k l * M k b))).
    - rewrite sum_swap. rewrite (sum_ext 3 _ (fun l => identity b l * Q a l)); [apply sum_id_l, Hb|]. intros l Hl.
      replace (identity b l) with (identity l b) by (unfold identity; rewrite Nat.eqb_sym; reflexivity).
      rewrite <- (C l b Hl Hb), <- sum_mul_r. apply sum_ext. intros. ring.
    - intros k Hk. rewrite <- (O a k Ha Hk). unfold mul, transpose. rewrite <- sum_mul_r. reflexivity. }
  transitivity (apply 3 M (cross x y) r).
  - unfold apply. cases3 r; cbn; ring.
  - unfold apply. apply sum_ext. intros k Hk. rewrite E by assumption. reflexivity.
Qed.

Lemma dot_turned Q x y : rotation 3 Q -> dot 3 (apply 3 Q x) (apply 3 Q y) = dot 3 x y.
Proof.
  intros (O & _). unfold dot, apply.
  rewrite (sum_ext 3 _ (fun k => sum 3 (fun p => sum 3 (fun q => (Q k p * Q k q) * (x p * y q))))).
  - rewrite sum_swap. apply sum_ext. intros p Hp. rewrite sum_swap.
    rewrite (sum_ext 3 _ (fun q => identity p q * (x p * y q))); [apply (sum_id_l 3 p (fun q => x p * y q)), Hp|].
    intros q Hq. rewrite sum_mul_r. f_equal. apply (O p q Hp Hq).
  - intros k Hk. rewrite <- sum_mul_r. apply sum_ext. intros p _. rewrite <- sum_mul_l. apply sum_ext. intros. ring.
Qed.

Lemma dot_ext (n : nat) x x' y y' : (forall k, (k < n)%nat -> x k = x' k) -> (forall k, (k < n)%nat -> y k = y' k) -> dot n x y = dot n x' y'.
Proof. intros H H'. unfold dot. apply sum_ext. intros k Hk. rewrite H, H' by assumption. reflexivity. Qed.

Section Shell.
  Variables (n : nat) (points : list point) (emodul nu thickness : R).
  Variables J H B dN ddN : point -> nat -> nat -> R.
  Variable inverse : (nat -> nat -> R) -> nat -> nat -> R.
  Variable X : nat -> nat -> R.
  Let N := (3 * n)%nat.

  (** The geometry is interpolated with the shape functions, which can represent constants *)
  Definition isoparametric (gp : point) : Prop :=
    (forall a, (a < 2)%nat -> sum n (fun i => dN gp i a) = 0 /\ forall k, (k < 3)%nat -> J gp a k = sum n (fun i => X i k * dN gp i a)) /\
    (forall m, (m < 3)%nat -> sum n (fun i => ddN gp i m) = 0 /\ forall k, (k < 3)%nat -> H gp m k = sum n (fun i => X i k * ddN gp i m)).
  (** B is the second fundamental form of the initial surface *)
  Definition initialForm (gp : point) : Prop :=
    let A3 := normalized (cross (J gp 0%nat) (J gp 1%nat)) in
    B gp 0%nat 0%nat = dot 3 (H gp 0%nat) A3 /\ B gp 1%nat 1%nat = dot 3 (H gp 1%nat) A3 /\ B gp 0%nat 1%nat = dot 3 (H gp 2%nat) A3.

  Lemma jcur_places gp u a k : isoparametric gp -> (a < 2)%nat -> (k < 3)%nat ->
    jcur n J dN gp u a k = sum n (fun i => (X i k + u (3 * i + k)%nat) * dN gp i a).
  Proof.
    intros (S & _) Ha Hk. unfold jcur, gradu. rewrite (proj2 (S a Ha) k Hk), <- sum_add. apply sum_ext. intros. ring.
  Qed.
  Lemma hcur_places gp u m k : isoparametric gp -> (m < 3)%nat -> (k < 3)%nat ->
    hcur n H ddN gp u m k = sum n (fun i => (X i k + u (3 * i + k)%nat) * ddN gp i m).
  Proof.
    intros (_ & S) Ha Hk. unfold hcur, hessianu. rewrite (proj2 (S m Ha) k Hk), <- sum_add. apply sum_ext. intros. ring.
  Qed.

  Lemma jcur_moved gp Q c u a k : isoparametric gp -> (a < 2)%nat -> (k < 3)%nat ->
    jcur n J dN gp (moved 3 X Q c u) a k = apply 3 Q (jcur n J dN gp u a) k.
  Proof.
    intros S Ha Hk. rewrite jcur_places by assumption. rewrite moved_sum by (try assumption; apply S, Ha).
    unfold apply. apply sum_ext. intros b Hb. rewrite jcur_places by assumption. reflexivity.
  Qed.
  Lemma hcur_moved gp Q c u m k : isoparametric gp -> (m < 3)%nat -> (k < 3)%nat ->
    hcur n H ddN gp (moved 3 X Q c u) m k = apply 3 Q (hcur n H ddN gp u m) k.
  Proof.
    intros S Ha Hk. rewrite hcur_places by assumption. rewrite moved_sum by (try assumption; apply S, Ha).
    unfold apply. apply sum_ext. intros b Hb. rewrite hcur_places by assumption. reflexivity.
  Qed.

  Lemma normal_moved gp Q c u k : rotation 3 Q -> isoparametric gp -> (k < 3)%nat ->
    a3N n J dN gp (moved 3 X Q c u) k = apply 3 Q (a3N n J dN gp u) k.
  Proof.
    intros R S Hk. unfold a3N. rewrite <- cross_turned by assumption.
    assert (E0 := fun r (Hr : (r < 3)%nat) => jcur_moved gp Q c u 0 r S ltac:(lia) Hr).
    assert (E1 := fun r (Hr : (r < 3)%nat) => jcur_moved gp Q c u 1 r S ltac:(lia) Hr).
    cases3 k; cbn [cross]; rewrite !E0, !E1 by lia; reflexivity.
  Qed.

  Lemma director_moved gp Q c u k : rotation 3 Q -> isoparametric gp -> (k < 3)%nat ->
    a3 n J dN gp (moved 3 X Q c u) k = apply 3 Q (a3 n J dN gp u) k.
  Proof.
    intros R S Hk.
    assert (E : squaredNorm (a3N n J dN gp (moved 3 X Q c u)) = squaredNorm (a3N n J dN gp u)).
    { unfold squaredNorm. etransitivity; [|exact (dot_turned Q _ _ R)]. apply dot_ext; intros; apply normal_moved; assumption. }
    unfold a3, normalized, norm3. rewrite E. destruct (Rlt_dec 0 (squaredNorm (a3N n J dN gp u))).
    - rewrite normal_moved by assumption. unfold apply, Rdiv. rewrite <- sum_mul_r. apply sum_ext. intros. ring.
    - apply normal_moved; assumption.
  Qed.

  (** C100: rigid motions change neither the membrane strains nor the bending strains of the shell *)
  Theorem C100_shell_strains gp Q c u m : rotation 3 Q -> isoparametric gp -> (m < 3)%nat ->
    epsV n J dN gp (moved 3 X Q c u) m = epsV n J dN gp u m /\
    kappaV n J H B dN ddN gp (moved 3 X Q c u) m = kappaV n J H B dN ddN gp u m.
  Proof.
    intros R S Hm.
    assert (T : forall a b, (a < 2)%nat -> (b < 2)%nat ->
      dot 3 (jcur n J dN gp (moved 3 X Q c u) a) (jcur n J dN gp (moved 3 X Q c u) b) = dot 3 (jcur n J dN gp u a) (jcur n J dN gp u b)).
    { intros a b Ha Hb. etransitivity; [|exact (dot_turned Q _ _ R)]. apply dot_ext; intros; apply jcur_moved; assumption. }
    assert (Q2 : forall v a, dot 3 (J gp a) (fun k => gradu n dN gp v k a) + 1 / 2 * dot 3 (fun k => gradu n dN gp v k a) (fun k => gradu n dN gp v k a) =
      1 / 2 * (dot 3 (jcur n J dN gp v a) (jcur n J dN gp v a) - dot 3 (J gp a) (J gp a))).
    { intros v a. unfold dot, jcur. cbn [sum]. field. }
    split.
    - unfold epsV. destruct m as [|[|m]].
      + rewrite !Q2, T by lia. reflexivity.
      + rewrite !Q2, T by lia. reflexivity.
      + rewrite T by lia. reflexivity.
    - unfold kappaV, bV. cbv zeta.
      assert (E : sum 3 (fun k => hcur n H ddN gp (moved 3 X Q c u) m k * a3 n J dN gp (moved 3 X Q c u) k) = sum 3 (fun k => hcur n H ddN gp u m k * a3 n J dN gp u k)).
      { change (dot 3 (hcur n H ddN gp (moved 3 X Q c u) m) (a3 n J dN gp (moved 3 X Q c u)) = dot 3 (hcur n H ddN gp u m) (a3 n J dN gp u)).
        etransitivity; [|exact (dot_turned Q _ _ R)]. apply dot_ext; intros; [apply hcur_moved|apply director_moved]; assumption. }
      rewrite E. reflexivity.
  Qed.

  Lemma point_energies_ext (f g : point -> R) : (forall gp, In gp points -> f gp = g gp) ->
    forall e, fold_left (fun e gp => e + f gp * integrationElement gp * weight gp) points e = fold_left (fun e gp => e + g gp * integrationElement gp * weight gp) points e.
  Proof.
    intros E. induction points as [|gp l IH]; intros e; [reflexivity|]. cbn. rewrite (E gp) by (left; reflexivity). apply IH. intros. apply E. right. assumption.
  Qed.

  Let scalar := shellScalar n points emodul nu thickness J H B dN ddN inverse.
  Let vector := shellVector n points emodul nu thickness J H B dN ddN inverse.

  (** C100: nor its energy *)
  Theorem C100_shell_energy Q c u : rotation 3 Q -> (forall gp, In gp points -> isoparametric gp) ->
    scalar (moved 3 X Q c u) = scalar u.
  Proof.
    intros R S. unfold scalar, shellScalar. cbv zeta.
    apply (point_energies_ext
      (fun gp => 1 / 2 * thickness * dot 3 (epsV n J dN gp (moved 3 X Q c u)) (apply 3 (pointTangent emodul nu J inverse gp) (epsV n J dN gp (moved 3 X Q c u))) +
         1 / 2 * (thickness ^ 3) / 12 * dot 3 (kappaV n J H B dN ddN gp (moved 3 X Q c u)) (apply 3 (pointTangent emodul nu J inverse gp) (kappaV n J H B dN ddN gp (moved 3 X Q c u))))
      (fun gp => 1 / 2 * thickness * dot 3 (epsV n J dN gp u) (apply 3 (pointTangent emodul nu J inverse gp) (epsV n J dN gp u)) +
         1 / 2 * (thickness ^ 3) / 12 * dot 3 (kappaV n J H B dN ddN gp u) (apply 3 (pointTangent emodul nu J inverse gp) (kappaV n J H B dN ddN gp u)))).
    intros gp Hgp.
    assert (E := fun m (Hm : (m < 3)%nat) => C100_shell_strains gp Q c u m R (S gp Hgp) Hm).
    f_equal; f_equal; apply dot_ext; intros k Hk; try apply E; try assumption; apply sum_ext; intros l Hl; f_equal; apply E; assumption.
  Qed.

  (** C100: its internal forces are self-equilibrated *)
  Theorem C100_shell_equilibrium u : inverted points J inverse -> immersed n points J dN u -> (forall gp, In gp points -> isoparametric gp) ->
    selfEquilibrated 3 n X u (vector u zeroVector).
  Proof.
    intros I R S. apply (C100_equilibrium 3 n X ltac:(lia) scalar).
    - apply C99_forces; assumption.
    - intros Q c Ro. apply C100_shell_energy; assumption.
  Qed.

  (** C100: a rigid motion of the initial shell causes no energy and no forces *)
  Theorem C100_shell_rigid Q c k : rotation 3 Q -> (forall gp, In gp points -> isoparametric gp /\ initialForm gp) -> (k < N)%nat ->
    scalar (moved 3 X Q c zeroVector) = 0 /\ vector (moved 3 X Q c zeroVector) zeroVector k = 0.
  Proof.
    intros R S Hk.
    assert (Z : forall gp m, In gp points -> (m < 3)%nat -> epsV n J dN gp (moved 3 X Q c zeroVector) m = 0 /\ kappaV n J H B dN ddN gp (moved 3 X Q c zeroVector) m = 0).
    { intros gp m Hgp Hm. destruct (S gp Hgp) as (Si & Sb). destruct (C100_shell_strains gp Q c zeroVector m R Si Hm) as (-> & ->).
      assert (G : forall k a, gradu n dN gp zeroVector k a = 0) by (intros; apply sum_zero; intros; unfold zeroVector; ring).
      assert (Gh : forall m k, hessianu n ddN gp zeroVector m k = 0) by (intros; apply sum_zero; intros; unfold zeroVector; ring).
      assert (Gj : forall a k, jcur n J dN gp zeroVector a k = J gp a k) by (intros; unfold jcur; rewrite G; ring).
      split.
      - unfold epsV. destruct m as [|[|m]]; unfold dot; cbn [sum]; rewrite ?G, ?Gj; ring.
      - assert (Gn : forall k, a3N n J dN gp zeroVector k = cross (J gp 0%nat) (J gp 1%nat) k).
        { intros r. unfold a3N. destruct r as [|[|r]]; cbn [cross]; rewrite !Gj; reflexivity. }
        assert (Gs : squaredNorm (a3N n J dN gp zeroVector) = squaredNorm (cross (J gp 0%nat) (J gp 1%nat))) by (apply dot_ext; intros; apply Gn).
        assert (Ga : forall k, a3 n J dN gp zeroVector k = normalized (cross (J gp 0%nat) (J gp 1%nat)) k).
        { intros r. unfold a3, normalized, norm3. rewrite Gs. destruct Rlt_dec; rewrite Gn; reflexivity. }
        destruct Sb as (B0 & B1 & B2). unfold kappaV, bV, BV. cbv zeta.
        assert (Eh : forall m, sum 3 (fun k => hcur n H ddN gp zeroVector m k * a3 n J dN gp zeroVector k) = dot 3 (H gp m) (normalized (cross (J gp 0%nat) (J gp 1%nat)))).
        { intros m'. unfold dot. apply sum_ext. intros. rewrite Ga. unfold hcur. rewrite Gh, Rplus_0_r. reflexivity. }
        rewrite Eh. cases3 m; cbn [Nat.eqb]; rewrite ?B0, ?B1, ?B2; ring. }
    split.
    - unfold scalar, shellScalar. cbv zeta.
      rewrite (point_energies_ext _ (fun _ => 0)).
      + clear. generalize points. intros l. induction l as [|gp l IH]; [reflexivity|]. cbn. replace (0 + 0 * integrationElement gp * weight gp) with 0 by ring. exact IH.
      + intros gp Hgp. unfold dot. rewrite !(sum_zero 3) by (intros m Hm; destruct (Z gp m Hgp Hm) as (E1 & E2); rewrite ?E1, ?E2; ring). field.
    - unfold vector. rewrite shell_vector_sum by assumption. unfold zeroVector at 2. rewrite Rplus_0_l.
      rewrite (sumP_ext points _ (fun _ => 0)); [clear; generalize points; intros l; induction l as [|gp l IH]; [reflexivity|]; cbn; rewrite IH; ring|].
      intros gp Hgp. unfold pointVector. rewrite sum_zero; [ring|]. intros m Hm.
      match goal with |- ?a * linearStress_ 6 ?C ?e m = 0 => assert (E0 : forall l, (l < 6)%nat -> e l = 0) end.
      { intros l Hl. unfold eps6. destruct (Nat.ltb_spec l 3); apply Z; try assumption. lia. }
      unfold linearStress_, apply. rewrite (sum_zero 6); [ring|]. intros l Hl. rewrite E0 by assumption. ring.
  Qed.
End Shell.
Print Assumptions C100_shell_strains.
Print Assumptions C100_shell_energy.
Print Assumptions C100_shell_equilibrium.
Print Assumptions C100_shell_rigid.

(** A triangle turned by a right angle and shifted: its second node moves from (1, 0) to (0, 1) + (5, 0), and it is not strained *)
Example C100_applies :
  let X i a := match i, a with 1%nat, 0%nat => 1 | 2%nat, 1%nat => 1 | _, _ => 0 end in
  let dN (gp : point) i a := match i, a with 0%nat, _ => -1 | 1%nat, 0%nat => 1 | 2%nat, 1%nat => 1 | _, _ => 0 end in
  let Q := turn 0 1 (PI / 2) in
  let c a := match a with 0%nat => 5 | _ => 0 end in
  rotation 2 Q /\ (forall gp, shapeDerivatives 2 3 X dN gp) /\
  moved 2 X Q c zeroVector 2%nat = 4 /\ moved 2 X Q c zeroVector 3%nat = 1 /\
  forall gp m, (m < 3)%nat -> glStrain 2 3 dN gp (moved 2 X Q c zeroVector) m = 0.
Proof.
  intros X dN Q c. assert (R : rotation 2 Q) by (apply turn_rotation; lia).
  assert (S : forall gp, shapeDerivatives 2 3 X dN gp).
  { intros gp a Ha. unfold X, dN. destruct a as [|[|a]]; [..|lia]; cbn; (split; [ring|]);
      intros k Hk; destruct k as [|[|k]]; try lia; cbn; unfold identity; cbn; ring. }
  split; [exact R|]. split; [exact S|]. split; [|split].
  - unfold moved, placeOf, Q, turn, X, c, zeroVector. cbn. rewrite cos_PI2, sin_PI2. ring.
  - unfold moved, placeOf, Q, turn, X, c, zeroVector. cbn. rewrite cos_PI2, sin_PI2. ring.
  - intros gp m Hm. rewrite C100_solid_strains by (try assumption; try apply S; lia).
    unfold glStrain, strainVector, greenLagrangeOf, displacementGradientOf, zeroVector, dN. cases3 m; cbn; ring.
Qed.
