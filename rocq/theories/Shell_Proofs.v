(** Lemmas about Shell_Model: the strains of the shell and their derivatives. *)

From Coq Require Import Reals Arith Bool List Lia Lra.
From Coquelicot Require Import Coquelicot.
From Verif Require Import Tensor_Spec Conversions_Spec Conversions_Props Tensor_Model Element_Spec Element_Model Element_Proofs Shell_Model.
Import ListNotations.
Local Open Scope R_scope.

Lemma gradient_minus n f f' g g' x : isGradient n f g x -> isGradient n f' g' x -> isGradient n (fun y => f y - f' y) (fun k => g k - g' k) x.
Proof.
  intros H H' c v P. apply (derive_eq _ (dot n g v - dot n g' v)); [apply @is_derive_minus; [apply H|apply H']; assumption|].
  unfold dot. replace (sum n (fun k => (g k - g' k) * v k)) with (sum n (fun k => g k * v k + g' k * v k * -1)) by (apply sum_ext; intros; ring).
  rewrite sum_add, sum_mul_r. ring.
Qed.

Lemma gradient_opp n f g x : isGradient n f g x -> isGradient n (fun y => - f y) (fun k => - g k) x.
Proof.
  intros H. eapply gradient_ext; [exact (gradient_scale _ _ _ _ (-1) H)|intros; cbv beta; ring|intros; cbv beta; ring].
Qed.

Lemma gradient_chain n f g x phi l : isGradient n f g x -> is_derive phi (f x) l -> isGradient n (fun y => phi (f y)) (fun k => l * g k) x.
Proof.
  intros H D c v P. apply (derive_eq _ (dot n g v * l)).
  - apply @is_derive_comp with (f := phi) (g := fun t => f (c t)).
    + rewrite (gradient_value n f g x (c 0) H) by (intros; apply P; assumption). exact D.
    + apply H, P.
  - unfold dot. rewrite <- sum_mul_r. apply sum_ext. intros. ring.
Qed.

Lemma gradient_eq n f g g' x : isGradient n f g x -> (forall k, (k < n)%nat -> g k = g' k) -> isGradient n f g' x.
Proof. intros H E. eapply gradient_ext; [exact H|reflexivity|exact E]. Qed.

Ltac cases3 i := destruct i as [|[|[|i]]]; [..|exfalso; lia].

(** normalized: a product in any case *)
Lemma squaredNorm_zero x : ~ 0 < squaredNorm x -> x 0%nat = 0 /\ x 1%nat = 0 /\ x 2%nat = 0.
Proof. unfold squaredNorm, dot. cbn. intros H. assert (P0 := Rle_0_sqr (x 0%nat)). assert (P1 := Rle_0_sqr (x 1%nat)). assert (P2 := Rle_0_sqr (x 2%nat)).
  unfold Rsqr in *. repeat split; apply Rsqr_0_uniq; unfold Rsqr; lra. Qed.

Lemma normalized_product x k : (k < 3)%nat -> normalized x k = x k * / norm3 x.
Proof.
  intros Hk. unfold normalized. destruct (Rlt_dec 0 (squaredNorm x)) as [P|P]; [reflexivity|].
  destruct (squaredNorm_zero x P) as (E0 & E1 & E2). cases3 k; rewrite ?E0, ?E1, ?E2; ring.
Qed.

Section Shell.
  Variables (n : nat) (J H B dN ddN : point -> nat -> nat -> R).
  Let N := (3 * n)%nat.

  Section Point.
    Variables (gp : point) (u : nat -> R).

    Definition dj (a k l : nat) : R := identity (l mod 3) k * dN gp (l / 3)%nat a.
    Definition dh (m k l : nat) : R := identity (l mod 3) k * ddN gp (l / 3)%nat m.

    Lemma gradient_gradu a k : (k < 3)%nat -> isGradient N (fun y => gradu n dN gp y k a) (dj a k) u.
    Proof. intros Hk. apply (gradient_interpolation 3 n (fun i => dN gp i a)), Hk. Qed.

    Lemma gradient_j a k : (k < 3)%nat -> isGradient N (fun y => jcur n J dN gp y a k) (dj a k) u.
    Proof.
      intros Hk. eapply gradient_eq; [exact (gradient_plus _ _ _ _ _ _ (gradient_const N (J gp a k) u) (gradient_gradu a k Hk))|].
      intros l _. cbv beta. ring.
    Qed.

    Lemma gradient_h m k : (k < 3)%nat -> isGradient N (fun y => hcur n H ddN gp y m k) (dh m k) u.
    Proof.
      intros Hk. eapply gradient_ext; [exact (gradient_plus _ _ _ _ _ _ (gradient_const N (H gp m k) u) (gradient_interpolation 3 n (fun i => ddN gp i m) k u Hk))|..].
      - intros y. cbv beta. unfold hcur, hessianu. f_equal. apply sum_ext. intros. ring.
      - intros l _. cbv beta. unfold dh. ring.
    Qed.

    (** The normal *)
    Lemma gradient_normal r : (r < 3)%nat ->
      isGradient N (fun y => a3N n J dN gp y r) (fun l => a3Nd n J dN gp u (l / 3)%nat r (l mod 3)) u.
    Proof.
      intros Hr. unfold a3N, a3Nd.
      assert (M : forall a b a' b', (a < 3)%nat -> (b < 3)%nat -> (a' < 3)%nat -> (b' < 3)%nat ->
        isGradient N (fun y => jcur n J dN gp y 0 a * jcur n J dN gp y 1 b - jcur n J dN gp y 0 a' * jcur n J dN gp y 1 b')
          (fun l => (dj 0 a l * jcur n J dN gp u 1 b + jcur n J dN gp u 0 a * dj 1 b l) - (dj 0 a' l * jcur n J dN gp u 1 b' + jcur n J dN gp u 0 a' * dj 1 b' l)) u).
      { intros a b a' b' Ha Hb Ha' Hb'.
        exact (gradient_minus _ _ _ _ _ _ (gradient_mult _ _ _ _ _ _ (gradient_j 0 a Ha) (gradient_j 1 b Hb))
           (gradient_mult _ _ _ _ _ _ (gradient_j 0 a' Ha') (gradient_j 1 b' Hb'))). }
      cases3 r; cbn [cross].
      - eapply gradient_eq; [apply (M 1%nat 2%nat 2%nat 1%nat); lia|]. intros l _. cbv beta. unfold dj, identity. rewrite !(Nat.eqb_sym _ (l mod 3)). ring.
      - eapply gradient_eq; [apply (M 2%nat 0%nat 0%nat 2%nat); lia|]. intros l _. cbv beta. unfold dj, identity. rewrite !(Nat.eqb_sym _ (l mod 3)). ring.
      - eapply gradient_eq; [apply (M 0%nat 1%nat 1%nat 0%nat); lia|]. intros l _. cbv beta. unfold dj, identity. rewrite !(Nat.eqb_sym _ (l mod 3)). ring.
    Qed.

    (** Its derivative is bilinear: the second derivatives *)
    Definition a3Nd2 (i j r a b : nat) : R :=
      (dN gp i 0%nat * dN gp j 1%nat - dN gp i 1%nat * dN gp j 0%nat) * cross (fun k => identity k a) (fun k => identity k b) r.

    Lemma gradient_a3Nd i r a : (r < 3)%nat ->
      isGradient N (fun y => a3Nd n J dN gp y i r a) (fun l => a3Nd2 i (l / 3) r a (l mod 3))%nat u.
    Proof.
      intros Hr. unfold a3Nd, a3Nd2.
      assert (M : forall c d e f k k', (k < 3)%nat -> (k' < 3)%nat ->
        isGradient N (fun y => (c * jcur n J dN gp y 1 k - d * jcur n J dN gp y 1 k') - (e * jcur n J dN gp y 0 k - f * jcur n J dN gp y 0 k'))
          (fun l => (c * dj 1 k l - d * dj 1 k' l) - (e * dj 0 k l - f * dj 0 k' l)) u).
      { intros c d e f k k' Hk Hk'.
        assert (S : forall x a k, (k < 3)%nat -> isGradient N (fun y => x * jcur n J dN gp y a k) (fun l => x * dj a k l) u).
        { intros x a0 k0 Hk0. eapply gradient_ext; [exact (gradient_scale _ _ _ _ x (gradient_j a0 k0 Hk0))|intros; cbv beta; ring|intros; cbv beta; ring]. }
        exact (gradient_minus _ _ _ _ _ _ (gradient_minus _ _ _ _ _ _ (S c 1%nat k Hk) (S d 1%nat k' Hk'))
          (gradient_minus _ _ _ _ _ _ (S e 0%nat k Hk) (S f 0%nat k' Hk'))). }
      cases3 r; cbn [cross].
      - eapply gradient_eq; [apply (M _ _ _ _ 2%nat 1%nat); lia|]. intros l _. cbv beta. unfold dj, identity. rewrite !(Nat.eqb_sym _ (l mod 3)). ring.
      - eapply gradient_eq; [apply (M _ _ _ _ 0%nat 2%nat); lia|]. intros l _. cbv beta. unfold dj, identity. rewrite !(Nat.eqb_sym _ (l mod 3)). ring.
      - eapply gradient_eq; [apply (M _ _ _ _ 1%nat 0%nat); lia|]. intros l _. cbv beta. unfold dj, identity. rewrite !(Nat.eqb_sym _ (l mod 3)). ring.
    Qed.

    Hypothesis regular : 0 < squaredNorm (a3N n J dN gp u).
    Let rho := / norm3 (a3N n J dN gp u).
    Let A r := a3 n J dN gp u r.
    Let W i r c := a3Nd n J dN gp u i r c.

    Lemma rho_square : 1 / squaredNorm (a3N n J dN gp u) = rho * rho.
    Proof.
      unfold rho, norm3. rewrite <- Rinv_mult, sqrt_sqrt by lra. unfold Rdiv. ring.
    Qed.

    Lemma gradient_rho : isGradient N (fun y => / norm3 (a3N n J dN gp y))
      (fun l => - (rho * rho * sum 3 (fun r => A r * W (l / 3)%nat r (l mod 3)))) u.
    Proof.
      assert (Q : isGradient N (fun y => squaredNorm (a3N n J dN gp y))
        (fun l => sum 3 (fun r => W (l / 3)%nat r (l mod 3) * a3N n J dN gp u r + a3N n J dN gp u r * W (l / 3)%nat r (l mod 3))) u).
      { apply (gradient_sum N 3 (fun r y => a3N n J dN gp y r * a3N n J dN gp y r)
          (fun r l => W (l / 3)%nat r (l mod 3) * a3N n J dN gp u r + a3N n J dN gp u r * W (l / 3)%nat r (l mod 3))).
        intros r Hr. exact (gradient_mult _ _ _ _ _ _ (gradient_normal r Hr) (gradient_normal r Hr)). }
      assert (sp : 0 < sqrt (squaredNorm (a3N n J dN gp u))) by (apply sqrt_lt_R0; assumption).
      assert (D : is_derive (fun q => / sqrt q) (squaredNorm (a3N n J dN gp u)) (- (/ 2 * (rho * rho * rho)))).
      { auto_derive; [repeat split; lra|]. unfold rho, norm3. field_simplify; [|lra..]. 
        replace (sqrt (squaredNorm (a3N n J dN gp u)) ^ 2) with (squaredNorm (a3N n J dN gp u)) by (symmetry; apply pow2_sqrt; lra). reflexivity. }
      eapply gradient_eq; [exact (gradient_chain _ _ _ _ (fun q => / sqrt q) _ Q D)|].
      intros l _. cbv beta. unfold A, a3. rewrite (sum_ext 3 (fun r => normalized _ r * _) (fun r => a3N n J dN gp u r * rho * W (l / 3)%nat r (l mod 3))).
      - cbn [sum]. field.
      - intros r Hr. rewrite normalized_product by assumption. reflexivity.
    Qed.

    (** a3 and its derivative *)
    Lemma gradient_a3 r : (r < 3)%nat ->
      isGradient N (fun y => a3 n J dN gp y r) (fun l => a3d n J dN gp u (l / 3) r (l mod 3))%nat u.
    Proof.
      intros Hr. eapply gradient_ext; [exact (gradient_mult _ _ _ _ _ _ (gradient_normal r Hr) gradient_rho)|..].
      - intros y. cbv beta. unfold a3. symmetry. apply normalized_product, Hr.
      - intros l _. cbv beta. fold (W (l / 3)%nat r (l mod 3)). unfold a3d, projector. fold (A r).
        change (/ norm3 (a3N n J dN gp u)) with rho.
        replace (a3N n J dN gp u r) with (A r * norm3 (a3N n J dN gp u)).
        2:{ unfold A, a3. rewrite normalized_product by assumption. unfold norm3. field. apply Rgt_not_eq, sqrt_lt_R0, regular. }
        rewrite (sum_ext 3 (fun k => 1 / norm3 _ * _ * _) (fun k => rho * (identity r k * W (l / 3)%nat k (l mod 3)) - rho * (A r * (A k * W (l / 3)%nat k (l mod 3))))).
        2:{ intros k _. unfold rho, Rdiv. fold (A k) (W (l / 3)%nat k (l mod 3)). ring. }
        assert (E : norm3 (a3N n J dN gp u) * rho = 1). { unfold rho. field. apply Rgt_not_eq, sqrt_lt_R0, regular. }
        replace (A r * norm3 (a3N n J dN gp u) * - (rho * rho * sum 3 (fun r => A r * W (l / 3)%nat r (l mod 3)))) with
          (- (norm3 (a3N n J dN gp u) * rho) * (rho * A r * sum 3 (fun r => A r * W (l / 3)%nat r (l mod 3)))) by ring.
        rewrite E. cbn [sum]. cases3 r; unfold identity; cbn [Nat.eqb]; ring.
    Qed.

    (** bending strains *)
    Lemma gradient_kappa m : isGradient N (fun y => kappaV n J H B dN ddN gp y m) (fun l => bopBending n J H dN ddN gp u (l / 3) m (l mod 3))%nat u.
    Proof.
      assert (Q : isGradient N (fun y => sum 3 (fun k => hcur n H ddN gp y m k * a3 n J dN gp y k))
        (fun l => sum 3 (fun k => hcur n H ddN gp u m k * a3d n J dN gp u (l / 3)%nat k (l mod 3)) + A (l mod 3) * ddN gp (l / 3)%nat m) u).
      { eapply gradient_eq; [apply (gradient_sum N 3 (fun k y => hcur n H ddN gp y m k * a3 n J dN gp y k)
          (fun k l => dh m k l * a3 n J dN gp u k + hcur n H ddN gp u m k * a3d n J dN gp u (l / 3)%nat k (l mod 3)))|].
        - intros k Hk. exact (gradient_mult _ _ _ _ _ _ (gradient_h m k Hk) (gradient_a3 k Hk)).
        - intros l _. cbv beta. rewrite sum_add, Rplus_comm. f_equal. unfold dh.
          rewrite (sum_ext 3 _ (fun k => identity (l mod 3) k * (A k * ddN gp (l / 3)%nat m))) by (intros; unfold A; ring).
          rewrite sum_id_l by (apply Nat.mod_upper_bound; lia). reflexivity. }
      unfold kappaV, bopBending, bV. cbv zeta. destruct (m =? 2)%nat.
      - eapply gradient_eq; [exact (gradient_minus _ _ _ _ _ _ (gradient_const N (BV B gp m) u) (gradient_scale _ _ _ _ 2 Q))|].
        intros l _. cbv beta. fold (A (l mod 3)). ring.
      - eapply gradient_eq; [exact (gradient_minus _ _ _ _ _ _ (gradient_const N (BV B gp m) u) Q)|].
        intros l _. cbv beta. fold (A (l mod 3)). ring.
    Qed.

    Lemma a3d_eq y i r c : (r < 3)%nat ->
      a3d n J dN gp y i r c = / norm3 (a3N n J dN gp y) *
        (a3Nd n J dN gp y i r c - a3 n J dN gp y r * sum 3 (fun k => a3 n J dN gp y k * a3Nd n J dN gp y i k c)).
    Proof.
      intros Hr. unfold a3d, projector. cbn [sum]. unfold Rdiv. cases3 r; unfold identity; cbn [Nat.eqb]; ring.
    Qed.

    (** The derivative of h . (a3 with respect to direction a of node i) *)
    Lemma gradient_bend i m a :
      isGradient N (fun y => sum 3 (fun l => hcur n H ddN gp y m l * a3d n J dN gp y i l a))
        (fun l => sum 3 (fun r => sum 3 (fun c => W i r a * a3Ndd n J dN gp u (hcur n H ddN gp u m) r c * W (l / 3)%nat c (l mod 3))) +
                  sum 3 (fun r => sum 3 (fun c => hcur n H ddN gp u m r * projector n J dN gp u r c * a3Nd2 i (l / 3)%nat c a (l mod 3))) +
                  ddN gp (l / 3)%nat m * a3d n J dN gp u i (l mod 3) a) u.
    Proof.
      set (h y := hcur n H ddN gp y m). set (w y r := a3Nd n J dN gp y i r a).
      assert (Ghw := gradient_sum N 3 (fun r y => h y r * w y r) _ u (fun r Hr => gradient_mult _ _ _ _ _ _ (gradient_h m r Hr) (gradient_a3Nd i r a Hr))).
      assert (Gah := gradient_sum N 3 (fun r y => a3 n J dN gp y r * h y r) _ u (fun r Hr => gradient_mult _ _ _ _ _ _ (gradient_a3 r Hr) (gradient_h m r Hr))).
      assert (Gaw := gradient_sum N 3 (fun r y => a3 n J dN gp y r * w y r) _ u (fun r Hr => gradient_mult _ _ _ _ _ _ (gradient_a3 r Hr) (gradient_a3Nd i r a Hr))).
      eapply gradient_ext; [exact (gradient_mult _ _ _ _ _ _ gradient_rho (gradient_minus _ _ _ _ _ _ Ghw (gradient_mult _ _ _ _ _ _ Gah Gaw)))|..].
      - intros y. cbv beta. cbn [sum]. rewrite !a3d_eq by lia. fold (h y). cbn [sum]. unfold w. ring.
      - intros l Hl. cbv beta. assert (Hb : (l mod 3 < 3)%nat) by (apply Nat.mod_upper_bound; lia).
        set (j := (l / 3)%nat). set (b := (l mod 3)%nat). fold b in Hb. fold (h u).
        change (/ norm3 (a3N n J dN gp u)) with rho.
        assert (Ea : forall i r c, (r < 3)%nat -> a3d n J dN gp u i r c = rho * (W i r c - A r * sum 3 (fun k => A k * W i k c))) by (intros; apply a3d_eq; assumption).
        rewrite (sum_ext 3 (fun r => sum 3 (fun c => h u r * projector n J dN gp u r c * _)) (fun r => sum 3 (fun c => h u r * (rho * (identity r c - A r * A c)) * a3Nd2 i j c a b))).
        2:{ intros r _. apply sum_ext. intros c _. unfold projector, rho, A. unfold Rdiv. ring. }
        rewrite (sum_ext 3 (fun r => sum 3 (fun c => W i r a * _ * _)) (fun r => sum 3 (fun c => W i r a *
          (rho * rho * ((3 * A r * A c - identity r c) * (A 0%nat * h u 0%nat + A 1%nat * h u 1%nat + A 2%nat * h u 2%nat) - h u r * A c - A r * h u c)) * W j c b))).
        2:{ intros r _. apply sum_ext. intros c _. unfold a3Ndd. rewrite rho_square. unfold dot. cbn [sum]. fold (A r) (A c) (A 0%nat) (A 1%nat) (A 2%nat). ring. }
        replace (ddN gp j m * a3d n J dN gp u i b a) with (sum 3 (fun k => dh m k l * a3d n J dN gp u i k a)).
        2:{ unfold dh. fold j b. rewrite (sum_ext 3 _ (fun k => identity b k * (ddN gp j m * a3d n J dN gp u i k a))) by (intros; ring). apply sum_id_l, Hb. }
        cbn [sum]. rewrite !Ea by lia. cbn [sum].
        change (w u 0%nat) with (W i 0%nat a). change (w u 1%nat) with (W i 1%nat a). change (w u 2%nat) with (W i 2%nat a).
        change (a3 n J dN gp u 0%nat) with (A 0%nat). change (a3 n J dN gp u 1%nat) with (A 1%nat). change (a3 n J dN gp u 2%nat) with (A 2%nat).
        fold j b. fold (W i 0%nat a) (W i 1%nat a) (W i 2%nat a).
        unfold identity. cbn [Nat.eqb].
        generalize (A 0%nat) (A 1%nat) (A 2%nat) (W i 0%nat a) (W i 1%nat a) (W i 2%nat a) (W j 0%nat b) (W j 1%nat b) (W j 2%nat b) rho
          (h u 0%nat) (h u 1%nat) (h u 2%nat) (dh m 0 l) (dh m 1 l) (dh m 2 l)
          (a3Nd2 i j 0 a b) (a3Nd2 i j 1 a b) (a3Nd2 i j 2 a b).
        intros. ring.
    Qed.

    Lemma skew_cross i j a b (v : nat -> R) : (a < 3)%nat -> (b < 3)%nat ->
      skew3 (fun r => (dN gp i 1%nat * dN gp j 0%nat - dN gp i 0%nat * dN gp j 1%nat) * v r) a b =
      sum 3 (fun c => v c * a3Nd2 i j c a b).
    Proof.
      intros Ha Hb. unfold a3Nd2. cbn [sum cross]. cases3 a; cases3 b; unfold identity; cbn [Nat.eqb skew3]; ring.
    Qed.

    Definition kgTerm (m i j a b : nat) : R :=
      - (sum 3 (fun r => sum 3 (fun c => W i r a * a3Ndd n J dN gp u (hcur n H ddN gp u m) r c * W j c b)) +
         sum 3 (fun r => sum 3 (fun c => hcur n H ddN gp u m r * projector n J dN gp u r c * a3Nd2 i j c a b)) +
         (ddN gp i m * a3d n J dN gp u j a b + ddN gp j m * a3d n J dN gp u i b a)) * (if (m =? 2)%nat then 2 else 1).

    Lemma projector_sym r c : projector n J dN gp u r c = projector n J dN gp u c r.
    Proof. unfold projector, identity. rewrite (Nat.eqb_sym r c). ring. Qed.

    Lemma kgBending_sum S i j a b : (a < 3)%nat -> (b < 3)%nat ->
      kgBending n J H dN ddN gp u S i j a b = sum 3 (fun m => S m * kgTerm m i j a b).
    Proof.
      intros Ha Hb. unfold kgBending.
      assert (E : forall m, let al := hcur n H ddN gp u m in
        skew3 (fun r => (dN gp i 1%nat * dN gp j 0%nat - dN gp i 0%nat * dN gp j 1%nat) * sum 3 (fun c => projector n J dN gp u r c * al c)) a b =
        sum 3 (fun r => sum 3 (fun c => al r * projector n J dN gp u r c * a3Nd2 i j c a b))).
      { intros m al. clearbody al. rewrite (skew_cross i j a b (fun r => sum 3 (fun c => projector n J dN gp u r c * al c)) Ha Hb).
        rewrite sum_swap. apply sum_ext. intros c _. rewrite <- sum_mul_r. apply sum_ext. intros r _. rewrite (projector_sym c r). rewrite (Rmult_comm (al r)). reflexivity. }
      cbn [loop]. cbv zeta. rewrite !E. unfold kgTerm, W. cbn [Nat.eqb sum]. ring.
    Qed.

    Lemma gradient_bopBending m i a : (a < 3)%nat ->
      isGradient N (fun y => bopBending n J H dN ddN gp y i m a) (fun l => kgTerm m i (l / 3) a (l mod 3))%nat u.
    Proof.
      intros Ha. unfold bopBending. cbv zeta.
      assert (Q := gradient_opp _ _ _ _ (gradient_plus _ _ _ _ _ _ (gradient_bend i m a) (gradient_scale _ _ _ _ (ddN gp i m) (gradient_a3 a Ha)))).
      unfold kgTerm. destruct (m =? 2)%nat.
      - eapply gradient_eq; [exact (gradient_scale _ _ _ _ 2 Q)|]. intros l _. cbv beta. ring.
      - eapply gradient_eq; [exact Q|]. intros l _. cbv beta. ring.
    Qed.
  End Point.

  (** membrane strains *)
  Lemma gradient_eps gp u m : isGradient N (fun y => epsV n J dN gp y m) (fun l => bopMembrane n J dN gp u (l / 3) m (l mod 3))%nat u.
  Proof.
    assert (Q : forall a, isGradient N (fun y => dot 3 (J gp a) (fun k => gradu n dN gp y k a) + 1 / 2 * dot 3 (fun k => gradu n dN gp y k a) (fun k => gradu n dN gp y k a))
      (fun l => jcur n J dN gp u a (l mod 3) * dN gp (l / 3)%nat a) u).
    { intros a.
      assert (Q : isGradient N (fun y => sum 3 (fun k => gradu n dN gp y k a * J gp a k + gradu n dN gp y k a * gradu n dN gp y k a * (1 / 2)))
        (fun l => sum 3 (fun k => dj gp a k l * J gp a k + (dj gp a k l * gradu n dN gp u k a + gradu n dN gp u k a * dj gp a k l) * (1 / 2))) u).
      { apply (gradient_sum N 3 (fun k y => gradu n dN gp y k a * J gp a k + gradu n dN gp y k a * gradu n dN gp y k a * (1 / 2))
          (fun k l => dj gp a k l * J gp a k + (dj gp a k l * gradu n dN gp u k a + gradu n dN gp u k a * dj gp a k l) * (1 / 2))).
        intros k Hk. assert (G := gradient_gradu gp u a k Hk).
        exact (gradient_plus _ _ _ _ _ _ (gradient_scale _ _ _ _ _ G) (gradient_scale _ _ _ _ _ (gradient_mult _ _ _ _ _ _ G G))). }
      eapply gradient_ext; [exact Q|..].
      - intros y. unfold dot. rewrite <- sum_mul_l, <- sum_add. apply sum_ext. intros. ring.
      - intros l _. cbv beta. rewrite (sum_ext 3 _ (fun k => identity (l mod 3) k * (jcur n J dN gp u a k * dN gp (l / 3)%nat a))).
        + apply sum_id_l, Nat.mod_upper_bound. lia.
        + intros k _. unfold dj, jcur. field. }
    unfold epsV, bopMembrane. destruct m as [|[|m]]; [apply Q..|].
    assert (G := gradient_sum N 3 (fun k y => jcur n J dN gp y 0 k * jcur n J dN gp y 1 k) _ u
      (fun k Hk => gradient_mult _ _ _ _ _ _ (gradient_j gp u 0 k Hk) (gradient_j gp u 1 k Hk))).
    eapply gradient_eq; [exact (gradient_minus _ _ _ _ _ _ G (gradient_const N (dot 3 (J gp 0%nat) (J gp 1%nat)) u))|].
    intros l _. cbv beta.
    rewrite (sum_ext 3 _ (fun k => identity (l mod 3) k * (jcur n J dN gp u 0 k * dN gp (l / 3)%nat 1%nat + jcur n J dN gp u 1 k * dN gp (l / 3)%nat 0%nat))).
    - rewrite sum_id_l by (apply Nat.mod_upper_bound; lia). ring.
    - intros k _. unfold dj. ring.
  Qed.

  Definition kgMembraneTerm (gp : point) (m i j a b : nat) : R :=
    identity a b * match m with
    | 0 => dN gp i 0%nat * dN gp j 0%nat | 1 => dN gp i 1%nat * dN gp j 1%nat
    | _ => dN gp i 0%nat * dN gp j 1%nat + dN gp i 1%nat * dN gp j 0%nat end.

  Lemma kgMembrane_sum gp S i j a b : kgMembrane dN gp S i j a b = sum 3 (fun m => S m * kgMembraneTerm gp m i j a b).
  Proof. unfold kgMembrane, kgMembraneTerm. cbn [sum]. ring. Qed.

  Lemma gradient_bopMembrane gp u m i a : (a < 3)%nat ->
    isGradient N (fun y => bopMembrane n J dN gp y i m a) (fun l => kgMembraneTerm gp m i (l / 3) a (l mod 3))%nat u.
  Proof.
    intros Ha. unfold bopMembrane, kgMembraneTerm.
    assert (E : forall l, identity a (l mod 3) = identity (l mod 3) a) by (intros; unfold identity; rewrite Nat.eqb_sym; reflexivity).
    destruct m as [|[|m]].
    - eapply gradient_eq; [exact (gradient_scale _ _ _ _ _ (gradient_j gp u 0 a Ha))|]. intros l _. cbv beta. unfold dj. rewrite E. ring.
    - eapply gradient_eq; [exact (gradient_scale _ _ _ _ _ (gradient_j gp u 1 a Ha))|]. intros l _. cbv beta. unfold dj. rewrite E. ring.
    - eapply gradient_eq; [exact (gradient_plus _ _ _ _ _ _ (gradient_scale _ _ _ _ _ (gradient_j gp u 0 a Ha)) (gradient_scale _ _ _ _ _ (gradient_j gp u 1 a Ha)))|].
      intros l _. cbv beta. unfold dj. rewrite E. ring.
  Qed.

  (** The six strains together *)
  Definition eps6 (gp : point) (u : nat -> R) (m : nat) : R :=
    if (m <? 3)%nat then epsV n J dN gp u m else kappaV n J H B dN ddN gp u (m - 3).
  Definition bop6 (gp : point) (u : nat -> R) (i m k : nat) : R :=
    if (m <? 3)%nat then bopMembrane n J dN gp u i m k else bopBending n J H dN ddN gp u i (m - 3) k.
  Definition kg6 (gp : point) (u S : nat -> R) (i j a b : nat) : R :=
    kgMembrane dN gp S i j a b + kgBending n J H dN ddN gp u (fun m => S (3 + m)%nat) i j a b.

  Lemma sum_6 f : sum 6 f = sum 3 f + sum 3 (fun m => f (3 + m)%nat).
  Proof. apply (sum_from 3 3). Qed.

  Lemma shell_expression gp u : 0 < squaredNorm (a3N n J dN gp u) -> strainExpression 3 n 6 eps6 bop6 kg6 gp u.
  Proof.
    intros R. split.
    - intros m _. unfold eps6, bop6. destruct (m <? 3)%nat; [apply gradient_eps|apply gradient_kappa, R].
    - intros S k Hk. set (i := (k / 3)%nat). set (a := (k mod 3)%nat). assert (Ha : (a < 3)%nat) by (apply Nat.mod_upper_bound; lia).
      assert (Q := gradient_sum N 6 (fun m y => bop6 gp y i m a * S m)
        (fun m l => (if (m <? 3)%nat then kgMembraneTerm gp m i (l / 3)%nat a (l mod 3) else kgTerm gp u (m - 3) i (l / 3)%nat a (l mod 3)) * S m) u).
      eapply gradient_ext; [apply Q|..].
      + intros m _. apply gradient_scale. unfold bop6. destruct (m <? 3)%nat; [apply gradient_bopMembrane, Ha|apply gradient_bopBending; assumption].
      + intros y. apply sum_ext. intros. cbv beta. ring.
      + intros l _. cbv beta. rewrite sum_6. unfold kg6. rewrite kgMembrane_sum, kgBending_sum by (try apply Nat.mod_upper_bound; lia).
        f_equal; apply sum_ext; intros m Hm.
        * destruct (Nat.ltb_spec m 3); [ring|lia].
        * destruct (Nat.ltb_spec (3 + m) 3); [lia|]. replace (3 + m - 3)%nat with m by lia. ring.
  Qed.

  (** The second derivatives are symmetric *)
  Lemma kgTerm_sym gp u m i j a b : (a < 3)%nat -> (b < 3)%nat -> kgTerm gp u m i j a b = kgTerm gp u m j i b a.
  Proof.
    intros Ha Hb. unfold kgTerm. f_equal. f_equal.
    rewrite (Rplus_comm (ddN gp j m * _)). f_equal. f_equal.
    - rewrite sum_swap. apply sum_ext. intros r _. apply sum_ext. intros c _.
      replace (a3Ndd n J dN gp u (hcur n H ddN gp u m) c r) with (a3Ndd n J dN gp u (hcur n H ddN gp u m) r c); [ring|].
      unfold a3Ndd, identity. rewrite (Nat.eqb_sym r c). ring.
    - apply sum_ext. intros r _. apply sum_ext. intros c Hc. f_equal. unfold a3Nd2.
      cases3 a; cases3 b; cases3 c; cbn [cross]; unfold identity; cbn [Nat.eqb]; ring.
  Qed.

  Lemma kg6_sym gp u S i j a b : (a < 3)%nat -> (b < 3)%nat -> kg6 gp u S i j a b = kg6 gp u S j i b a.
  Proof.
    intros Ha Hb. unfold kg6. rewrite !kgMembrane_sum, !kgBending_sum by assumption. f_equal; apply sum_ext; intros m _.
    - unfold kgMembraneTerm, identity. rewrite (Nat.eqb_sym a b). destruct m as [|[|m]]; ring.
    - rewrite kgTerm_sym by assumption. reflexivity.
  Qed.
End Shell.
