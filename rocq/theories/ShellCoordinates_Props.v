(** C183: what a shell computes depends neither on the coordinate system nor on the parametrisation of its surface (model: Shell_Model.v). *)

From Coq Require Import Reals Arith Bool List Lia Lra.
From Coquelicot Require Import Coquelicot.
From Verif Require Import Tensor_Spec Tensor_Model Tensor_Props Conversions_Spec Conversions_Props Element_Spec Element_Model Element_Proofs Element_Props
  Shell_Model Shell_Proofs Shell_Props Objectivity_Spec Objectivity_Props Coordinates_Props FlatShell_Props.
Import ListNotations.
Local Open Scope R_scope.

(** ** Specification *)
Definition det2 (T : nat -> nat -> R) : R := T 0%nat 0%nat * T 1%nat 1%nat - T 0%nat 1%nat * T 1%nat 0%nat.
Definition det3 (Q : nat -> nat -> R) : R := dot 3 (Q 0%nat) (cross (Q 1%nat) (Q 2%nat)).

(** Second derivatives (11, 22, 12) with respect to the new parameters, without the term of the first derivatives; T holds the derivatives of the
    old parameters with respect to the new ones *)
Definition changed (T : nat -> nat -> R) (m : nat) (x : nat -> R) : R :=
  let at_ a b := T a 0%nat * T b 0%nat * x 0%nat + T a 1%nat * T b 1%nat * x 1%nat + (T a 0%nat * T b 1%nat + T a 1%nat * T b 0%nat) * x 2%nat in
  match m with 0%nat => at_ 0%nat 0%nat | 1%nat => at_ 1%nat 1%nat | _ => at_ 0%nat 1%nat end.

Section Turned.
  Variables (n : nat) (emodul nu thickness : R) (Q : nat -> nat -> R).
  Variables J H B dN ddN : point -> nat -> nat -> R.
  Variables J' H' B' dN' ddN' : point -> nat -> nat -> R.
  Variables inverse inverse' : (nat -> nat -> R) -> nat -> nat -> R.
  Variables points points' : list point.
  Hypothesis HQ : orthogonal 3 Q.

  (** gp' is the point gp of the turned surface in other parameters: T and S are the first and second derivatives of the old parameters; the normal
      of the surface is that of the turned surface (sigma 1) or the opposite one (sigma -1) *)
  Definition sameSurface (gp gp' : point) : Prop := exists T S sigma,
    integrationElement gp' * weight gp' = integrationElement gp * weight gp /\ sigma * sigma = 1 /\ 0 < sigma * (det2 T * det3 Q) /\
    (forall a k, (a < 2)%nat -> (k < 3)%nat -> J' gp' a k = sum 2 (fun b => T a b * turnVector 3 Q (J gp b) k)) /\
    (forall i a, (i < n)%nat -> (a < 2)%nat -> dN' gp' i a = sum 2 (fun b => T a b * dN gp i b)) /\
    (forall m k, (m < 3)%nat -> (k < 3)%nat -> H' gp' m k = changed T m (fun p => turnVector 3 Q (H gp p) k) + sum 2 (fun c => S m c * turnVector 3 Q (J gp c) k)) /\
    (forall i m, (i < n)%nat -> (m < 3)%nat -> ddN' gp' i m = changed T m (ddN gp i) + sum 2 (fun c => S m c * dN gp i c)) /\
    (forall m, (m < 3)%nat -> let form (G : nat -> nat -> R) p := match p with 0%nat => G 0%nat 0%nat | 1%nat => G 1%nat 1%nat | _ => G 0%nat 1%nat end in
       form (B' gp') m = sigma * changed T m (form (B gp))).

  Let u' (u : nat -> R) := turned 3 Q u.

  (** *** Turning vectors *)
  Lemma turn_dot x y : sum 3 (fun k => turnVector 3 Q x k * turnVector 3 Q y k) = sum 3 (fun k => x k * y k).
  Proof.
    unfold turnVector.
    rewrite (sum_ext 3 _ (fun k => sum 3 (fun p => sum 3 (fun q => Q k p * Q k q * (x p * y q))))) by (intros; rewrite <- sum_mul_r; apply sum_ext; intros; rewrite <- sum_mul_l; apply sum_ext; intros; ring).
    rewrite sum_swap. apply sum_ext. intros p Hp. rewrite sum_swap.
    rewrite (sum_ext 3 _ (fun q => identity p q * (x p * y q))) by (intros; rewrite sum_mul_r, (orth_cols 3 Q HQ) by assumption; reflexivity).
    now rewrite sum_id_l.
  Qed.

  Lemma cofactor k l : (k < 3)%nat -> (l < 3)%nat -> cross (Q ((k + 1) mod 3)) (Q ((k + 2) mod 3)) l = det3 Q * Q k l.
  Proof.
    intros Hk Hl. set (c := cross (Q ((k + 1) mod 3)) (Q ((k + 2) mod 3))).
    transitivity (sum 3 (fun m => c m * sum 3 (fun p => Q p m * Q p l))).
    - rewrite (sum_ext 3 _ (fun m => identity l m * c m)) by (intros; rewrite (orth_cols 3 Q HQ) by assumption; unfold identity; rewrite Nat.eqb_sym; ring).
      now rewrite sum_id_l.
    - unfold c, det3, dot. cases3 k; cases3 l; cbn; ring.
  Qed.

  Lemma cross_orthogonal x y k : (k < 3)%nat -> cross (turnVector 3 Q x) (turnVector 3 Q y) k = det3 Q * turnVector 3 Q (cross x y) k.
  Proof.
    intros Hk. unfold turnVector. rewrite <- sum_mul_l.
    rewrite (sum_ext 3 (fun b => det3 Q * (Q k b * cross x y b)) (fun b => cross (Q ((k + 1) mod 3)) (Q ((k + 2) mod 3)) b * cross x y b)) by (intros; rewrite cofactor by assumption; ring).
    cases3 k; cbn; ring.
  Qed.

  Lemma det3_square : det3 Q * det3 Q = 1.
  Proof.
    assert (C : forall l, (l < 3)%nat -> cross (Q 1%nat) (Q 2%nat) l = det3 Q * Q 0%nat l) by (intros l Hl; exact (cofactor 0 l ltac:(lia) Hl)).
    assert (L : sum 3 (fun l => cross (Q 1%nat) (Q 2%nat) l * cross (Q 1%nat) (Q 2%nat) l) =
      sum 3 (fun l => Q 1%nat l * Q 1%nat l) * sum 3 (fun l => Q 2%nat l * Q 2%nat l) - sum 3 (fun l => Q 1%nat l * Q 2%nat l) * sum 3 (fun l => Q 1%nat l * Q 2%nat l)) by (cbn; ring).
    rewrite !(orth_rows 3 Q HQ) in L by lia. rewrite (sum_ext 3 _ (fun l => det3 Q * det3 Q * (Q 0%nat l * Q 0%nat l))) in L by (intros; rewrite !C by assumption; ring).
    rewrite sum_mul_l, (orth_rows 3 Q HQ) in L by lia. unfold identity in L. cbn [Nat.eqb] in L. lra.
  Qed.

  Section Point.
    Variables (gp gp' : point) (T S : nat -> nat -> R) (sigma : R) (u : nat -> R).
    Hypothesis sig : sigma * sigma = 1.
    Hypothesis orient : 0 < sigma * (det2 T * det3 Q).
    Hypothesis HJ : forall a k, (a < 2)%nat -> (k < 3)%nat -> J' gp' a k = sum 2 (fun b => T a b * turnVector 3 Q (J gp b) k).
    Hypothesis HdN : forall i a, (i < n)%nat -> (a < 2)%nat -> dN' gp' i a = sum 2 (fun b => T a b * dN gp i b).
    Hypothesis HH : forall m k, (m < 3)%nat -> (k < 3)%nat -> H' gp' m k = changed T m (fun p => turnVector 3 Q (H gp p) k) + sum 2 (fun c => S m c * turnVector 3 Q (J gp c) k).
    Hypothesis HddN : forall i m, (i < n)%nat -> (m < 3)%nat -> ddN' gp' i m = changed T m (ddN gp i) + sum 2 (fun c => S m c * dN gp i c).
    Hypothesis HB : forall m, (m < 3)%nat -> let form (G : nat -> nat -> R) p := match p with 0%nat => G 0%nat 0%nat | 1%nat => G 1%nat 1%nat | _ => G 0%nat 1%nat end in
       form (B' gp') m = sigma * changed T m (form (B gp)).

    Lemma gradu_turned k a : (k < 3)%nat -> (a < 2)%nat ->
      gradu n dN' gp' (u' u) k a = sum 2 (fun b => T a b * turnVector 3 Q (fun l => gradu n dN gp u l b) k).
    Proof.
      intros Hk Ha. unfold gradu, u'.
      rewrite (sum_ext n _ (fun i => sum 2 (fun b => sum 3 (fun l => T a b * Q k l * (u (3 * i + l)%nat * dN gp i b))))).
      - rewrite sum_swap. apply sum_ext. intros b _. unfold turnVector. rewrite sum_swap, <- sum_mul_l. apply sum_ext. intros l _. rewrite <- !sum_mul_l. apply sum_ext. intros. ring.
      - intros i Hi. rewrite turned_node, HdN by assumption. rewrite <- sum_mul_l. apply sum_ext. intros b _. rewrite <- sum_mul_r. apply sum_ext. intros. ring.
    Qed.
    Lemma jcur_turned a k : (a < 2)%nat -> (k < 3)%nat ->
      jcur n J' dN' gp' (u' u) a k = sum 2 (fun b => T a b * turnVector 3 Q (jcur n J dN gp u b) k).
    Proof.
      intros Ha Hk. unfold jcur at 1. rewrite gradu_turned, HJ by assumption. rewrite <- sum_add. apply sum_ext. intros b _. unfold jcur, turnVector.
      rewrite <- Rmult_plus_distr_l, <- sum_add. f_equal. apply sum_ext. intros. ring.
    Qed.
    Lemma hessian_turned m k : (m < 3)%nat -> (k < 3)%nat ->
      hessianu n ddN' gp' (u' u) m k = changed T m (fun p => turnVector 3 Q (hessianu n ddN gp u p) k) + sum 2 (fun c => S m c * turnVector 3 Q (fun l => gradu n dN gp u l c) k).
    Proof.
      intros Hm Hk. unfold hessianu at 1, u'.
      rewrite (sum_ext n _ (fun i => changed T m (ddN gp i) * turnVector 3 Q (fun l => u (3 * i + l)%nat) k + sum 2 (fun c => S m c * dN gp i c) * turnVector 3 Q (fun l => u (3 * i + l)%nat) k))
        by (intros i Hi; rewrite turned_node, HddN by assumption; unfold turnVector; ring).
      assert (P : forall x : nat -> R, sum n (fun i => x i * turnVector 3 Q (fun l => u (3 * i + l)%nat) k) = turnVector 3 Q (fun l => sum n (fun i => x i * u (3 * i + l)%nat)) k).
      { intros x. unfold turnVector. rewrite (sum_ext n _ (fun i => sum 3 (fun b => Q k b * (x i * u (3 * i + b)%nat)))) by (intros; rewrite <- sum_mul_l; apply sum_ext; intros; ring).
        rewrite sum_swap. apply sum_ext. intros. now rewrite sum_mul_l. }
      rewrite sum_add. f_equal.
      - assert (A : forall a b, sum n (fun i => (T a 0%nat * T b 0%nat * ddN gp i 0%nat + T a 1%nat * T b 1%nat * ddN gp i 1%nat + (T a 0%nat * T b 1%nat + T a 1%nat * T b 0%nat) * ddN gp i 2%nat) * turnVector 3 Q (fun l => u (3 * i + l)%nat) k) =
          T a 0%nat * T b 0%nat * turnVector 3 Q (hessianu n ddN gp u 0) k + T a 1%nat * T b 1%nat * turnVector 3 Q (hessianu n ddN gp u 1) k + (T a 0%nat * T b 1%nat + T a 1%nat * T b 0%nat) * turnVector 3 Q (hessianu n ddN gp u 2) k).
        { intros a b. unfold hessianu. rewrite <- !P, <- !sum_mul_l, <- !sum_add. apply sum_ext. intros. ring. }
        unfold changed. cases3 m; apply A.
      - cbn [sum]. rewrite !Rplus_0_l. unfold gradu. rewrite (sum_ext n _ (fun i => S m 0%nat * (dN gp i 0%nat * turnVector 3 Q (fun l => u (3 * i + l)%nat) k) + S m 1%nat * (dN gp i 1%nat * turnVector 3 Q (fun l => u (3 * i + l)%nat) k))) by (intros; ring).
        rewrite sum_add, !sum_mul_l, !P. unfold turnVector. f_equal; f_equal; apply sum_ext; intros; f_equal; apply sum_ext; intros; ring.
    Qed.
    Lemma hcur_turned m k : (m < 3)%nat -> (k < 3)%nat ->
      hcur n H' ddN' gp' (u' u) m k = changed T m (fun p => turnVector 3 Q (hcur n H ddN gp u p) k) + sum 2 (fun c => S m c * turnVector 3 Q (jcur n J dN gp u c) k).
    Proof.
      intros Hm Hk. unfold hcur at 1. rewrite HH, hessian_turned by assumption.
      assert (P : forall x y, turnVector 3 Q (fun l => x l + y l) k = turnVector 3 Q x k + turnVector 3 Q y k) by (intros; unfold turnVector; rewrite <- sum_add; apply sum_ext; intros; ring).
      unfold hcur, jcur, changed. cbn [sum]. cases3 m; cbv zeta; rewrite !P; ring.
    Qed.

    Lemma normal_turned k : (k < 3)%nat -> a3N n J' dN' gp' (u' u) k = det2 T * det3 Q * turnVector 3 Q (a3N n J dN gp u) k.
    Proof.
      intros Hk. unfold a3N.
      transitivity (det2 T * cross (turnVector 3 Q (jcur n J dN gp u 0)) (turnVector 3 Q (jcur n J dN gp u 1)) k).
      - cases3 k; unfold cross, det2; rewrite !jcur_turned by lia; cbn [sum]; ring.
      - rewrite cross_orthogonal by assumption. ring.
    Qed.
    Lemma norm_turned : norm3 (a3N n J' dN' gp' (u' u)) = Rabs (det2 T) * norm3 (a3N n J dN gp u).
    Proof.
      unfold norm3, squaredNorm, dot.
      rewrite (sum_ext 3 _ (fun k => Rsqr (det2 T) * (turnVector 3 Q (a3N n J dN gp u) k * turnVector 3 Q (a3N n J dN gp u) k))).
      - rewrite sum_mul_l, turn_dot, sqrt_mult_alt by apply Rle_0_sqr. now rewrite sqrt_Rsqr_abs.
      - intros k Hk. rewrite !normal_turned by assumption. unfold Rsqr.
        replace (det2 T * det3 Q * turnVector 3 Q (a3N n J dN gp u) k * (det2 T * det3 Q * turnVector 3 Q (a3N n J dN gp u) k)) with
          (det3 Q * det3 Q * (det2 T * det2 T * (turnVector 3 Q (a3N n J dN gp u) k * turnVector 3 Q (a3N n J dN gp u) k))) by ring.
        rewrite det3_square. ring.
    Qed.
    Lemma detT_abs : Rabs (det2 T) = sigma * (det2 T * det3 Q) /\ det2 T <> 0.
    Proof.
      assert (D := det3_square). split; [|intros E; rewrite E in orient; lra].
      assert (S1 : sigma = 1 \/ sigma = -1) by (assert ((sigma - 1) * (sigma + 1) = 0) as E by (ring_simplify; lra); apply Rmult_integral in E; lra).
      assert (S2 : det3 Q = 1 \/ det3 Q = -1) by (assert ((det3 Q - 1) * (det3 Q + 1) = 0) as E by (ring_simplify; lra); apply Rmult_integral in E; lra).
      destruct S1 as [E1|E1], S2 as [E2|E2]; rewrite E1, E2 in orient |- *; [rewrite Rabs_pos_eq by lra|rewrite Rabs_left by lra|rewrite Rabs_left by lra|rewrite Rabs_pos_eq by lra]; ring.
    Qed.
    Lemma a3_turned k : (k < 3)%nat -> a3 n J' dN' gp' (u' u) k = sigma * turnVector 3 Q (a3 n J dN gp u) k.
    Proof.
      intros Hk. destruct detT_abs as (Ab & Nz). unfold a3. rewrite normalized_product by assumption. rewrite normal_turned, norm_turned by assumption.
      assert (X : turnVector 3 Q (normalized (a3N n J dN gp u)) k = turnVector 3 Q (a3N n J dN gp u) k * / norm3 (a3N n J dN gp u)).
      { unfold turnVector. rewrite <- sum_mul_r. apply sum_ext. intros b Hb. rewrite normalized_product by assumption. ring. }
      rewrite X, Rinv_mult, Ab. assert (Z : det2 T * det3 Q * / (sigma * (det2 T * det3 Q)) = sigma).
      { assert (sigma <> 0) by (intros E; rewrite E in sig; lra). assert (det3 Q <> 0) by (intros E; assert (D := det3_square); rewrite E in D; lra).
        transitivity (/ sigma); [field; auto|]. apply Rmult_eq_reg_l with sigma; [rewrite Rinv_r by assumption; now rewrite sig|assumption]. }
      transitivity (det2 T * det3 Q * / (sigma * (det2 T * det3 Q)) * (turnVector 3 Q (a3N n J dN gp u) k * / norm3 (a3N n J dN gp u))); [ring|]. rewrite Z. reflexivity.
    Qed.

    Lemma tangent_normal c : (c < 2)%nat -> sum 3 (fun k => jcur n J dN gp u c k * a3 n J dN gp u k) = 0.
    Proof.
      intros Hc. unfold a3. rewrite (sum_ext 3 _ (fun k => jcur n J dN gp u c k * a3N n J dN gp u k * / norm3 (a3N n J dN gp u))) by (intros; rewrite normalized_product by assumption; ring).
      rewrite sum_mul_r. unfold a3N. destruct c as [|[|c]]; [..|lia]; cbn [sum cross]; ring.
    Qed.

    Lemma kappa_turned m : (m < 3)%nat -> kappaV n J' H' B' dN' ddN' gp' (u' u) m = sigma * pulledBack T (kappaV n J H B dN ddN gp u) m.
    Proof.
      intros Hm.
      assert (Bv : forall m, (m < 3)%nat -> sum 3 (fun k => hcur n H' ddN' gp' (u' u) m k * a3 n J' dN' gp' (u' u) k) =
        sigma * changed T m (fun p => sum 3 (fun k => hcur n H ddN gp u p k * a3 n J dN gp u k))).
      { clear m Hm. intros m Hm. set (q := fun k => turnVector 3 Q (a3 n J dN gp u) k).
        rewrite (sum_ext 3 _ (fun k => sigma * ((changed T m (fun p => turnVector 3 Q (hcur n H ddN gp u p) k)) * q k) + sigma * (S m 0%nat * (turnVector 3 Q (jcur n J dN gp u 0) k * q k) + S m 1%nat * (turnVector 3 Q (jcur n J dN gp u 1) k * q k))))
          by (intros k Hk; rewrite hcur_turned, a3_turned by assumption; fold (q k); cbn [sum]; ring).
        rewrite sum_add, !sum_mul_l, sum_add, !sum_mul_l. unfold q. rewrite !turn_dot, !tangent_normal by lia.
        assert (P : forall p, sum 3 (fun k => hcur n H ddN gp u p k * a3 n J dN gp u k) = sum 3 (fun k => turnVector 3 Q (hcur n H ddN gp u p) k * turnVector 3 Q (a3 n J dN gp u) k)) by (intros; now rewrite turn_dot).
        unfold changed. cases3 m; cbv zeta; rewrite !P; cbn [sum]; ring. }
      unfold kappaV, bV. rewrite Bv by assumption. unfold BV.
      assert (B0 := HB 0 ltac:(lia)). assert (B1 := HB 1 ltac:(lia)). assert (B2 := HB 2 ltac:(lia)). cbv zeta in B0, B1, B2. unfold changed in *.
      cases3 m; unfold pulledBack; cbv zeta beta iota; cbn [Nat.eqb]; rewrite ?B0, ?B1, ?B2; field.
    Qed.

    Lemma eps_turned m : (m < 3)%nat -> epsV n J' dN' gp' (u' u) m = pulledBack T (epsV n J dN gp u) m.
    Proof.
      intros Hm.
      set (g := fun b k => turnVector 3 Q (fun l => gradu n dN gp u l b) k). set (j := fun b k => turnVector 3 Q (J gp b) k). set (c := fun b k => turnVector 3 Q (jcur n J dN gp u b) k).
      assert (Eg : forall a b, sum 3 (fun k => gradu n dN gp u k a * gradu n dN gp u k b) = sum 3 (fun k => g a k * g b k)) by (intros; unfold g; now rewrite turn_dot).
      assert (Ej : forall a b, sum 3 (fun k => J gp a k * gradu n dN gp u k b) = sum 3 (fun k => j a k * g b k)) by (intros; unfold j, g; now rewrite turn_dot).
      assert (Ejj : forall a b, sum 3 (fun k => J gp a k * J gp b k) = sum 3 (fun k => j a k * j b k)) by (intros; unfold j; now rewrite turn_dot).
      assert (Ec : forall a b, sum 3 (fun k => jcur n J dN gp u a k * jcur n J dN gp u b k) = sum 3 (fun k => c a k * c b k)) by (intros; unfold c; now rewrite turn_dot).
      assert (Cs : forall b k, c b k = j b k + g b k) by (intros; unfold c, j, g, jcur, turnVector; rewrite <- sum_add; apply sum_ext; intros; ring).
      unfold epsV, pulledBack, dot. cases3 m; cbv zeta; rewrite ?Eg, ?Ej, ?Ejj, ?Ec; cbn [sum]; rewrite ?gradu_turned, ?jcur_turned, ?HJ by lia; cbn [sum];
        repeat change (turnVector 3 Q (fun l => gradu n dN gp u l ?b) ?k) with (g b k); repeat change (turnVector 3 Q (J gp ?b) ?k) with (j b k);
        repeat change (turnVector 3 Q (jcur n J dN gp u ?b) ?k) with (c b k); rewrite ?Cs; field.
    Qed.
  End Point.

  (** *** The moduli *)
  Lemma form_turned gp gp' (T : nat -> nat -> R) e : det2 T <> 0 ->
    (forall a k, (a < 2)%nat -> (k < 3)%nat -> J' gp' a k = sum 2 (fun b => T a b * turnVector 3 Q (J gp b) k)) ->
    isInverse 3 (fullMetric J gp) (inverse (fullMetric J gp)) -> isInverse 3 (fullMetric J' gp') (inverse' (fullMetric J' gp')) ->
    dot 3 (pulledBack T e) (apply 3 (pointTangent emodul nu J' inverse' gp') (pulledBack T e)) = dot 3 e (apply 3 (pointTangent emodul nu J inverse gp) e).
  Proof.
    intros Nz HJ I I'. set (a := inverse (fullMetric J gp)).
    set (V := fun p q => match p, q with 0%nat, 0%nat => T 1%nat 1%nat / det2 T | 0%nat, _ => - T 0%nat 1%nat / det2 T | _, 0%nat => - T 1%nat 0%nat / det2 T | _, _ => T 0%nat 0%nat / det2 T end).
    set (a' := fun p q => sum 2 (fun x => sum 2 (fun y => V x p * a x y * V y q))).
    assert (G : forall p q, (p < 2)%nat -> (q < 2)%nat -> a p 0%nat * sum 3 (fun k => J gp 0%nat k * J gp q k) + a p 1%nat * sum 3 (fun k => J gp 1%nat k * J gp q k) = identity p q).
    { intros p q Hp Hq. destruct (I p q ltac:(lia) ltac:(lia)) as (_ & <-). fold a. unfold mul, fullMetric, metric.
      destruct p as [|[|p]], q as [|[|q]]; try lia; cbn; ring. }
    assert (Sa : a 0%nat 1%nat = a 1%nat 0%nat) by (apply (inverse_symmetric 3 (fullMetric J gp) a (fullMetric_sym n J gp) I); lia).
    assert (M : forall p q, (p < 2)%nat -> (q < 2)%nat -> sum 3 (fun k => J' gp' p k * J' gp' q k) = sum 2 (fun x => sum 2 (fun y => T p x * T q y * sum 3 (fun k => J gp x k * J gp y k)))).
    { intros p q Hp Hq. rewrite (sum_ext 3 _ (fun k => sum 2 (fun x => sum 2 (fun y => T p x * T q y * (turnVector 3 Q (J gp x) k * turnVector 3 Q (J gp y) k))))) by
        (intros k Hk; rewrite !HJ by assumption; rewrite <- sum_mul_r; apply sum_ext; intros; rewrite <- sum_mul_l; apply sum_ext; intros; ring).
      rewrite sum_swap. apply sum_ext. intros x _. rewrite sum_swap. apply sum_ext. intros y _. now rewrite sum_mul_l, turn_dot. }
    assert (G' : forall p q, (p < 2)%nat -> (q < 2)%nat -> a' p 0%nat * sum 3 (fun k => J' gp' 0%nat k * J' gp' q k) + a' p 1%nat * sum 3 (fun k => J' gp' 1%nat k * J' gp' q k) = identity p q).
    { intros p q Hp Hq. rewrite !M by lia.
      transitivity (sum 2 (fun x => sum 2 (fun y => V x p * T q y * (a x 0%nat * sum 3 (fun k => J gp 0%nat k * J gp y k) + a x 1%nat * sum 3 (fun k => J gp 1%nat k * J gp y k))))).
      - unfold a'. cbn [sum]. unfold V, det2 in *. destruct p as [|[|p]], q as [|[|q]]; try lia; field; exact Nz.
      - rewrite (sum_ext 2 _ (fun x => sum 2 (fun y => V x p * T q y * identity x y))) by (intros; apply sum_ext; intros; rewrite G by assumption; reflexivity).
        unfold V, det2 in *. destruct p as [|[|p]], q as [|[|q]]; try lia; cbn; unfold identity; cbn; field; exact Nz. }
    assert (Va : forall k l, (k < 3)%nat -> (l < 3)%nat -> _) by (intros k l Hk Hl; exact (C99_tangent n emodul nu J inverse gp a k l Hk Hl I
      ltac:(intros p q Hp Hq; rewrite <- (G p q Hp Hq); cbn [sum]; ring))).
    assert (Va' : forall k l, (k < 3)%nat -> (l < 3)%nat -> _) by (intros k l Hk Hl; exact (C99_tangent n emodul nu J' inverse' gp' a' k l Hk Hl I'
      ltac:(intros p q Hp Hq; rewrite <- (G' p q Hp Hq); cbn [sum]; ring))).
    cbv zeta in Va, Va'. set (lb := 2 * _ * _ / _) in *. set (mu := emodul / _) in *. clearbody lb mu.
    unfold dot, apply. cbn [sum]. rewrite !Va, !Va' by lia. cbn [nth]. unfold a', pulledBack. cbn [sum]. cbv zeta. rewrite !Sa. unfold V, det2 in *.
    generalize (a 0%nat 0%nat), (a 1%nat 0%nat), (a 1%nat 1%nat). intros. field. exact Nz.
  Qed.

  Let skill_ := shellSkill n points emodul nu thickness J H B dN ddN inverse.
  Let skill_' := shellSkill n points' emodul nu thickness J' H' B' dN' ddN' inverse'.
  Hypothesis same : Forall2 sameSurface points points'.
  Hypothesis Inv : inverted points J inverse.
  Hypothesis Inv' : inverted points' J' inverse'.

  Lemma same_points (f f' : point -> R) : (forall gp gp', In gp points -> In gp' points' -> sameSurface gp gp' -> f' gp' = f gp) -> sumP points' f' = sumP points f.
  Proof.
    clear -same. intros Hf. revert Hf. induction same as [|gp gp' l l' Hp Hl IH]; intros Hf; [reflexivity|]. cbn [sumP].
    rewrite (Hf gp gp' (or_introl eq_refl) (or_introl eq_refl) Hp), IH; [reflexivity|exact Hl|]. intros. apply Hf; [right; assumption..|assumption].
  Qed.

  (** The energy *)
  Theorem C183_energy u : shellScalar n points' emodul nu thickness J' H' B' dN' ddN' inverse' (turned 3 Q u) = shellScalar n points emodul nu thickness J H B dN ddN inverse u.
  Proof.
    assert (F : forall pts J H B dN ddN inverse u, shellScalar n pts emodul nu thickness J H B dN ddN inverse u =
      sumP pts (fun gp => (1 / 2 * thickness * dot 3 (epsV n J dN gp u) (apply 3 (pointTangent emodul nu J inverse gp) (epsV n J dN gp u)) +
        1 / 2 * thickness ^ 3 / 12 * dot 3 (kappaV n J H B dN ddN gp u) (apply 3 (pointTangent emodul nu J inverse gp) (kappaV n J H B dN ddN gp u))) * vol gp)).
    { clear. intros. unfold shellScalar. rewrite <- (Rplus_0_l (sumP _ _)). generalize 0 as z. induction pts as [|gp pts IH]; intros z; cbn [fold_left sumP]; [ring|].
      rewrite IH. unfold vol. ring. }
    rewrite !F. apply same_points. intros gp gp' Hi Hi' (T & S & sigma & Ev & Es & Eo & HJ & HdN & HH & HddN & HB).
    destruct (detT_abs T sigma Es Eo) as (_ & Nz).
    assert (X : forall P x y, (forall m, (m < 3)%nat -> x m = y m) -> dot 3 x (apply 3 P x) = dot 3 y (apply 3 P y)).
    { intros P x y E. unfold dot, apply. apply sum_ext. intros k Hk. rewrite E by assumption. f_equal. apply sum_ext. intros. rewrite E by assumption. reflexivity. }
    unfold vol. rewrite Ev. f_equal. f_equal; f_equal.
    - rewrite (X _ _ _ (eps_turned gp gp' T u HJ HdN)). apply form_turned; auto.
    - rewrite (X _ _ _ (kappa_turned gp gp' T S sigma u Es Eo HJ HdN HH HddN HB)).
      transitivity (sigma * sigma * dot 3 (pulledBack T (kappaV n J H B dN ddN gp u)) (apply 3 (pointTangent emodul nu J' inverse' gp') (pulledBack T (kappaV n J H B dN ddN gp u)))).
      + unfold dot, apply. cbn [sum]. ring.
      + rewrite Es, Rmult_1_l. apply form_turned; auto.
  Qed.

  Lemma immersed_turned u : immersed n points J dN u -> immersed n points' J' dN' (turned 3 Q u).
  Proof.
    intros Im gp' Hi'.
    assert (E : exists gp, In gp points /\ sameSurface gp gp').
    { clear -same Hi'. induction same as [|gp g' l l' Hp Hl IH]; [destruct Hi'|]; destruct Hi' as [<-|Hi']; [exists gp; split; [now left|assumption]|].
      destruct (IH Hl Hi') as (x & ? & ?). exists x. split; [now right|assumption]. }
    destruct E as (gp & Hi & (T & S & sigma & Ev & Es & Eo & HJ & HdN & _)). destruct (detT_abs T sigma Es Eo) as (_ & Nz). specialize (Im gp Hi).
    change (0 < squaredNorm (a3N n J' dN' gp' (turned 3 Q u))). change (0 < squaredNorm (a3N n J dN gp u)) in Im.
    assert (P : squaredNorm (a3N n J' dN' gp' (turned 3 Q u)) = (det2 T * det2 T) * squaredNorm (a3N n J dN gp u)).
    { unfold squaredNorm, dot. rewrite (sum_ext 3 _ (fun k => det2 T * det2 T * (turnVector 3 Q (a3N n J dN gp u) k * turnVector 3 Q (a3N n J dN gp u) k))).
      - now rewrite sum_mul_l, turn_dot.
      - intros k Hk. rewrite !(normal_turned gp gp' T u HJ HdN) by assumption.
        transitivity (det3 Q * det3 Q * (det2 T * det2 T * (turnVector 3 Q (a3N n J dN gp u) k * turnVector 3 Q (a3N n J dN gp u) k))); [ring|]. rewrite det3_square. ring. }
    rewrite P. apply Rmult_lt_0_compat; [nra|exact Im].
  Qed.

  Lemma immersed_around u : immersed n points J dN u -> around (3 * n) (immersed n points J dN) u.
  Proof.
    intros Im c v Pa. unfold immersed in *.
    assert (One : forall gp, In gp points -> locally 0 (fun t => 0 < squaredNorm (a3N n J dN gp (c t)))).
    { intros gp Hi. specialize (Im gp Hi). change (0 < squaredNorm (a3N n J dN gp u)) in Im.
      assert (D : forall r, (r < 3)%nat -> ex_derive (fun t => a3N n J dN gp (c t) r) 0) by (intros r Hr; eexists; exact (gradient_normal n J dN gp u r Hr c v Pa)).
      assert (Cn : continuous (fun t => squaredNorm (a3N n J dN gp (c t))) 0).
      { apply (ex_derive_continuous (V := R_NormedModule)). unfold squaredNorm, dot. cbn [sum].
        assert (Sq : forall r, (r < 3)%nat -> ex_derive (fun t => a3N n J dN gp (c t) r * a3N n J dN gp (c t) r) 0) by (intros r Hr; apply ex_derive_mult; apply D, Hr).
        apply (ex_derive_plus (fun t => 0 + a3N n J dN gp (c t) 0%nat * a3N n J dN gp (c t) 0%nat + a3N n J dN gp (c t) 1%nat * a3N n J dN gp (c t) 1%nat)
          (fun t => a3N n J dN gp (c t) 2%nat * a3N n J dN gp (c t) 2%nat)); [|apply Sq; lia].
        apply (ex_derive_plus (fun t => 0 + a3N n J dN gp (c t) 0%nat * a3N n J dN gp (c t) 0%nat) (fun t => a3N n J dN gp (c t) 1%nat * a3N n J dN gp (c t) 1%nat)); [|apply Sq; lia].
        apply (ex_derive_plus (fun _ => 0) (fun t => a3N n J dN gp (c t) 0%nat * a3N n J dN gp (c t) 0%nat)); [apply @ex_derive_const|apply Sq; lia]. }
      assert (E0 : squaredNorm (a3N n J dN gp (c 0)) = squaredNorm (a3N n J dN gp u)).
      { assert (Gr : forall r, (r < 3)%nat -> a3N n J dN gp (c 0) r = a3N n J dN gp u r).
        { intros r Hr. apply (gradient_only 3 n _ _ u (c 0) (gradient_normal n J dN gp u r Hr)). intros k Hk. apply Pa, Hk. }
        unfold squaredNorm, dot. apply sum_ext. intros. now rewrite Gr. }
      apply (Cn (fun y => 0 < y)). rewrite E0. apply (open_gt 0). exact Im. }
    clear -One. induction points as [|gp l IH]; [apply filter_forall; intros t gp []|].
    assert (A := One gp (or_introl eq_refl)). assert (A' := IH (fun g Hg => One g (or_intror Hg))). generalize (filter_and _ _ A A'). apply filter_imp.
    intros t (Ht & Hl) g [<-|Hg]; [exact Ht|exact (Hl g Hg)].
  Qed.

  (** Energy, forces and stiffness *)
  Theorem C183_results u w : immersed n points J dN u -> sameState 3 n Q u w -> sameResults 3 n Q skill_ skill_' u w.
  Proof.
    intros Im St. apply (C173_skill 3 n Q ltac:(lia) HQ (immersed n points J dN) (immersed n points' J' dN')).
    - apply C101_shell, Inv.
    - apply C101_shell, Inv'.
    - intros v x E Im' gp Hg. specialize (Im' gp Hg). change (0 < squaredNorm (a3N n J' dN' gp v)) in Im'. change (0 < squaredNorm (a3N n J' dN' gp x)).
      assert (Gr : forall r, (r < 3)%nat -> a3N n J' dN' gp x r = a3N n J' dN' gp v r).
      { intros r Hr. apply (gradient_only 3 n _ _ v x (gradient_normal n J' dN' gp v r Hr)). intros. symmetry. apply E. assumption. }
      unfold squaredNorm, dot in *. rewrite (sum_ext 3 _ (fun k => a3N n J' dN' gp v k * a3N n J' dN' gp v k)) by (intros; rewrite Gr by assumption; reflexivity). exact Im'.
    - intros y. apply C183_energy.
    - intros c v Pa. generalize (immersed_around u Im c v Pa). apply filter_imp. intros t It. split; [exact It|apply immersed_turned, It].
    - exact St.
  Qed.
End Turned.
Print Assumptions C183_energy.
Print Assumptions C183_results.

(** ** Volume loads: the function of the load, in the other coordinates, gives the turned load at the same points *)
Theorem C173_load d n Q shape shape' load load' points points' lambda u w : (0 < d)%nat -> orthogonal d Q ->
  Forall2 (fun gp gp' => integrationElement gp' * weight gp' = integrationElement gp * weight gp /\ (forall i, (i < n)%nat -> shape' gp' i = shape gp i) /\
    forall a, (a < d)%nat -> load' (position gp') lambda a = turnVector d Q (load (position gp) lambda) a) points points' ->
  sameState d n Q u w ->
  sameResults d n Q (volumeSkill d n shape (Some load) points lambda) (volumeSkill d n shape' (Some load') points' lambda) u w.
Proof.
  intros dpos HQ F St. apply (C173_skill d n Q dpos HQ (fun _ => True) (fun _ => True)); [apply C101_load, dpos|apply C101_load, dpos|trivial| | |exact St].
  - intros y. cbn [volumeSkill skillScalar]. unfold volumeScalar. generalize 0 as z. induction F as [|gp gp' l l' (Ev & Es & El) Fl IH]; intros z; [reflexivity|]. cbn [fold_left].
    assert (E : pointEnergy d n shape' load' lambda (turned d Q y) z gp' = pointEnergy d n shape load lambda y z gp); [|rewrite E; apply IH].
    unfold pointEnergy, vol in *.
    assert (Di : forall a, (a < d)%nat -> displacement d n shape' gp' (turned d Q y) a = turnVector d Q (displacement d n shape gp y) a).
    { intros a Ha. unfold displacement, turnVector.
      rewrite (sum_ext n _ (fun i => sum d (fun b => Q a b * (shape gp i * y (d * i + b)%nat)))) by
        (intros i Hi; rewrite turned_node, Es by assumption; rewrite <- sum_mul_l; apply sum_ext; intros; ring).
      rewrite sum_swap. apply sum_ext. intros. now rewrite sum_mul_l. }
    assert (Do : dot d (displacement d n shape' gp' (turned d Q y)) (load' (position gp') lambda) = dot d (displacement d n shape gp y) (load (position gp) lambda)).
    { unfold dot. rewrite (sum_ext d _ (fun k => sum d (fun p => sum d (fun q => Q k p * Q k q * (displacement d n shape gp y p * load (position gp) lambda q))))) by
        (intros; rewrite Di, El by assumption; unfold turnVector; rewrite <- sum_mul_r; apply sum_ext; intros; rewrite <- sum_mul_l; apply sum_ext; intros; ring).
      rewrite sum_swap. apply sum_ext. intros p Hp. rewrite sum_swap.
      rewrite (sum_ext d _ (fun q => identity p q * (displacement d n shape gp y p * load (position gp) lambda q))) by (intros; rewrite sum_mul_r, (orth_cols d Q HQ) by assumption; reflexivity).
      now rewrite sum_id_l. }
    rewrite Do, !Rmult_assoc, Ev. reflexivity.
  - intros c v _. apply filter_forall. intros. split; exact I.
Qed.
Print Assumptions C173_load.

(** A shell with the curvature 1 in its first direction, and its mirror image with the parameters (2 x, x + y + x^2) *)
Definition bentH (_ : point) (m k : nat) : R := match m, k with 0%nat, 2%nat => 1 | _, _ => 0 end.
Definition bentB (_ : point) (a b : nat) : R := match a, b with 0%nat, 0%nat => 1 | _, _ => 0 end.
Definition bentddN (_ : point) (_ m : nat) : R := match m with 0%nat => 3 | _ => 0 end.
Definition exT (a b : nat) : R := match a, b with 0%nat, 0%nat => 2 | 0%nat, _ => 1 | _, 0%nat => 0 | _, _ => 1 end.
Definition exS (m c : nat) : R := match m, c with 0%nat, 1%nat => 2 | _, _ => 0 end.
Definition mirrorQ (a b : nat) : R := match a, b with 0%nat, 0%nat => 1 | 1%nat, 1%nat => 1 | 2%nat, 2%nat => -1 | _, _ => 0 end.
Definition mirrorPoint : point := {| position := fun _ => 5; integrationElement := 2; weight := / 2 |}.
Definition mirrorJ (gp : point) (a k : nat) : R := sum 2 (fun b => exT a b * turnVector 3 mirrorQ (exJ gp b) k).
Definition mirrordN (gp : point) (i a : nat) : R := sum 2 (fun b => exT a b * exdN gp i b).
Definition mirrorH (gp : point) (m k : nat) : R := changed exT m (fun p => turnVector 3 mirrorQ (bentH gp p) k) + sum 2 (fun c => exS m c * turnVector 3 mirrorQ (exJ gp c) k).
Definition mirrorddN (gp : point) (i m : nat) : R := changed exT m (bentddN gp i) + sum 2 (fun c => exS m c * exdN gp i c).
Definition mirrorB (gp : point) (a b : nat) : R := match a, b with 0%nat, 0%nat => -4 | _, _ => 0 end.
Definition blockInverse (M : nat -> nat -> R) (a b : nat) : R :=
  let d := M 0%nat 0%nat * M 1%nat 1%nat - M 0%nat 1%nat * M 1%nat 0%nat in
  match a, b with 0%nat, 0%nat => M 1%nat 1%nat / d | 0%nat, 1%nat => - M 0%nat 1%nat / d | 1%nat, 0%nat => - M 1%nat 0%nat / d | 1%nat, 1%nat => M 0%nat 0%nat / d
           | 2%nat, 2%nat => 1 | _, _ => 0 end.
Definition bentU (k : nat) : R := match k with 2%nat => 1 | _ => 0 end.

Example C183_applies :
  orthogonal 3 mirrorQ /\ det3 mirrorQ = -1 /\
  Forall2 (sameSurface 1 mirrorQ exJ bentH bentB exdN bentddN mirrorJ mirrorH mirrorB mirrordN mirrorddN) [exPoint] [mirrorPoint] /\
  inverted [exPoint] exJ blockInverse /\ inverted [mirrorPoint] mirrorJ blockInverse /\ immersed 1 [exPoint] exJ exdN bentU /\
  mirrorJ mirrorPoint 0%nat 1%nat = 1 /\ mirrorH mirrorPoint 0%nat 1%nat = 2 /\ mirrorH mirrorPoint 0%nat 2%nat = -4 /\
  epsV 1 exJ exdN exPoint bentU 0%nat = 1 / 2 /\
  epsV 1 mirrorJ mirrordN mirrorPoint (turned 3 mirrorQ bentU) 0%nat = 2 /\
  shellScalar 1 [mirrorPoint] 1 0 1 mirrorJ mirrorH mirrorB mirrordN mirrorddN blockInverse (turned 3 mirrorQ bentU) =
  shellScalar 1 [exPoint] 1 0 1 exJ bentH bentB exdN bentddN blockInverse bentU.
Proof.
  assert (O : orthogonal 3 mirrorQ) by (split; intros a b Ha Hb; unfold mul, transpose, mirrorQ, identity; cases3 a; cases3 b; cbn; ring).
  assert (Sa : Forall2 (sameSurface 1 mirrorQ exJ bentH bentB exdN bentddN mirrorJ mirrorH mirrorB mirrordN mirrorddN) [exPoint] [mirrorPoint]).
  { constructor; [|constructor]. exists exT, exS, (-1). split; [cbn; field|]. split; [ring|].
    split; [unfold det2, det3, dot, cross, exT, mirrorQ; cbn; lra|]. repeat split; try reflexivity.
    intros m Hm. unfold mirrorB, bentB, changed, exT. cases3 m; cbn; ring. }
  assert (I : inverted [exPoint] exJ blockInverse).
  { intros gp _ i j Hi Hj. unfold mul, fullMetric, metric, blockInverse, exJ. cases3 i; cases3 j; cbn; unfold identity; cbn; split; field; lra. }
  assert (I' : inverted [mirrorPoint] mirrorJ blockInverse).
  { intros gp _ i j Hi Hj. unfold mul, fullMetric, metric, blockInverse, mirrorJ, turnVector, exT, mirrorQ, exJ. cases3 i; cases3 j; cbn; unfold identity; cbn; split; field; lra. }
  split; [exact O|]. split; [unfold det3, dot, cross, mirrorQ; cbn; ring|]. split; [exact Sa|]. split; [exact I|]. split; [exact I'|].
  split; [intros gp _; unfold squaredNorm, dot, cross, jcur, gradu, exJ, exdN, bentU; cbn; unfold identity; cbn; lra|].
  split; [unfold mirrorJ, turnVector, exT, mirrorQ, exJ; cbn; unfold identity; cbn; ring|].
  split; [unfold mirrorH, turnVector, changed, exT, exS, mirrorQ, exJ, bentH; cbn; unfold identity; cbn; ring|].
  split; [unfold mirrorH, turnVector, changed, exT, exS, mirrorQ, exJ, bentH; cbn; unfold identity; cbn; ring|].
  split; [unfold epsV, dot, gradu, exJ, exdN, bentU; cbn; unfold identity; cbn; field|].
  split; [unfold epsV, dot, gradu, mirrorJ, mirrordN, turned, turnVector, exT, mirrorQ, exJ, exdN, bentU; cbn; unfold identity; cbn; field|].
  apply C183_energy; assumption.
Qed.

(** Gravity on a node, and the same in coordinates turned by a quarter of a turn *)
Example C173_load_applies :
  let Q a b := match a, b with 0%nat, 1%nat => -1 | 1%nat, 0%nat => 1 | _, _ => 0 end in
  let gravity (_ : nat -> R) lambda a := match a with 1%nat => - lambda | _ => 0 end in
  let pull (_ : nat -> R) lambda a := match a with 0%nat => lambda | _ => 0 end in
  let shape (_ : point) (_ : nat) := 1 in
  orthogonal 2 Q /\ skillVector (volumeSkill 2 1 shape (Some gravity) [exPoint] 3) zeroVector zeroVector 1%nat = 3 /\
  sameResults 2 1 Q (volumeSkill 2 1 shape (Some gravity) [exPoint] 3) (volumeSkill 2 1 shape (Some pull) [mirrorPoint] 3) zeroVector zeroVector.
Proof.
  intros Q gravity pull shape.
  assert (O : orthogonal 2 Q).
  { split; intros a b Ha Hb; unfold mul, transpose, Q, identity; destruct a as [|[|a]], b as [|[|b]]; try lia; cbn; ring. }
  split; [exact O|]. split.
  - cbn [volumeSkill skillVector volumeVector fold_left]. unfold pointForce. cbn [loop]. rewrite addSegment_at by lia.
    unfold apply, displacementDerivative, gravity, shape, identity, zeroVector. cbn. field.
  - apply C173_load; [lia|exact O| |].
    + constructor; [|constructor]. split; [cbn; field|]. split; [reflexivity|]. intros a Ha. unfold turnVector, pull, gravity, Q. destruct a as [|[|a]]; try lia; cbn; ring.
    + intros k Hk. unfold turned, turnVector, zeroVector. symmetry. apply sum_zero. intros. ring.
Qed.
