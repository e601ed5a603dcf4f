(** Lemmas about the integration loops of enhanced assumed strain elements. *)

From Coq Require Import Reals Arith Bool List Lia Lra.
From Coquelicot Require Import Coquelicot.
From Verif Require Import Tensor_Spec Conversions_Spec Conversions_Props Tensor_Model Element_Spec Element_Model Element_Proofs Element_Props.
From Verif Require Import Eas_Spec Eas_Model.
Import ListNotations.
Local Open Scope R_scope.

Lemma sumP_add {A} (l : list A) f g : sumP l (fun x => f x + g x) = sumP l f + sumP l g.
Proof. induction l as [|x l IH]; cbn; [|rewrite IH]; ring. Qed.

Lemma gradient2_ext N p f f' g g' h h' u a : isGradient2 N p f g h u a -> (forall u a, f u a = f' u a) ->
  (forall k, (k < N)%nat -> g k = g' k) -> (forall q, (q < p)%nat -> h q = h' q) -> isGradient2 N p f' g' h' u a.
Proof.
  intros H Hf Hg Hh c v b w Pc Pb. eapply is_derive_ext; [intros t; apply Hf|]. eapply derive_eq; [apply H; eassumption|].
  unfold dot. f_equal; apply sum_ext; intros; [rewrite Hg|rewrite Hh]; auto.
Qed.
Lemma gradient2_sumP {A} N p (l : list A) f g h u a : (forall x, In x l -> isGradient2 N p (f x) (g x) (h x) u a) ->
  isGradient2 N p (fun u a => sumP l (fun x => f x u a)) (fun k => sumP l (fun x => g x k)) (fun q => sumP l (fun x => h x q)) u a.
Proof.
  intros H c v b w Pc Pb. eapply derive_eq.
  - apply (derive_sumP l (fun x t => f x (c t) (b t))). intros x Hx. apply H; eassumption.
  - rewrite sumP_add. unfold dot. rewrite !sumP_swap. f_equal; apply sum_ext; intros k _; apply sumP_mul_r.
Qed.
Lemma dot_scale_l N g c v : dot N (fun k => g k * c) v = dot N g v * c.
Proof. unfold dot. rewrite <- sum_mul_r. apply sum_ext. intros. ring. Qed.
Lemma dot_add_l N g h v : dot N (fun k => g k + h k) v = dot N g v + dot N h v.
Proof. unfold dot. rewrite <- sum_add. apply sum_ext. intros. ring. Qed.
Lemma dot_sum_l N m (g : nat -> nat -> R) v : dot N (fun k => sum m (fun j => g j k)) v = sum m (fun j => dot N (g j) v).
Proof. unfold dot. rewrite <- sum_swap. apply sum_ext. intros. symmetry. apply sum_mul_r. Qed.

Lemma value2' N p u a c b v w f g h : passes N c u v -> passes p b a w -> isGradient2 N p f g h u a -> f (c 0) (b 0) = f u a.
Proof.
  intros cu ba H.
  transitivity (f (c 0) a).
  - set (b' t := if Req_EM_T t 0 then b 0 else a).
    assert (P' : passes p b' a (fun _ => 0)).
    { intros q Hq. split; [unfold b'; destruct (Req_EM_T 0 0); [apply ba, Hq|lra]|].
      apply (is_derive_ext (fun _ => a q)); [|apply @is_derive_const]. intros t. unfold b'. destruct (Req_EM_T t 0); [|reflexivity].
      symmetry. apply ba, Hq. }
    assert (Pc : passes N (fun _ => c 0) u (fun _ => 0)).
    { intros k Hk. split; [apply cu, Hk|apply @is_derive_const]. }
    specialize (H _ _ _ _ Pc P'). eapply jump_derive.
    eapply is_derive_ext; [|exact H]. intros t. unfold b'. cbv beta. destruct (Req_EM_T t 0); reflexivity.
  - set (c' t := if Req_EM_T t 0 then c 0 else u).
    assert (P' : passes N c' u (fun _ => 0)).
    { intros q Hq. split; [unfold c'; destruct (Req_EM_T 0 0); [apply cu, Hq|lra]|].
      apply (is_derive_ext (fun _ => u q)); [|apply @is_derive_const]. intros t. unfold c'. destruct (Req_EM_T t 0); [|reflexivity].
      symmetry. apply cu, Hq. }
    assert (Pc : passes p (fun _ => a) a (fun _ => 0)).
    { intros k Hk. split; [reflexivity|apply @is_derive_const]. }
    specialize (H _ _ _ _ P' Pc). eapply jump_derive.
    eapply is_derive_ext; [|exact H]. intros t. unfold c'. cbv beta. destruct (Req_EM_T t 0); reflexivity.
Qed.

Section Eas.
  Variables (d n s p : nat) (points : list point).
  Hypothesis dpos : (0 < d)%nat.
  Variables (stress : (nat -> R) -> nat -> R) (tangent : (nat -> R) -> nat -> nat -> R).
  Variable E : point -> (nat -> R) -> (nat -> R) -> nat -> R.
  Variable E_d : point -> (nat -> R) -> (nat -> R) -> nat -> nat -> nat -> R.
  Variable E_a : point -> (nat -> R) -> (nat -> R) -> nat -> nat -> R.
  Variable E_dd : point -> (nat -> R) -> (nat -> R) -> (nat -> R) -> nat -> nat -> nat -> nat -> R.
  Variable E_aa : point -> (nat -> R) -> (nat -> R) -> (nat -> R) -> nat -> nat -> R.
  Variable E_ad : point -> (nat -> R) -> (nat -> R) -> (nat -> R) -> nat -> nat -> nat -> R.
  Let N := (d * n)%nat.

  Lemma forces_sum u a f k : (k < N)%nat -> easForces d n s points stress E E_d u a f k =
    f k + sumP points (fun gp => sum s (fun m => E_d gp u a (k / d)%nat m (k mod d) * stress (E gp u a) m) * vol gp).
  Proof. intros Hk. exact (vector_sum d n s points dpos (fun gp y => E gp y a) (fun gp y => E_d gp y a) stress u f k Hk). Qed.

  Lemma stiffness_sum u a K k l : (k < N)%nat -> (l < N)%nat -> easStiffness d n s points stress tangent E E_d E_dd u a K k l =
    K k l + sumP points (fun gp =>
      (sum s (fun m => sum s (fun o => E_d gp u a (k / d)%nat m (k mod d) * tangent (E gp u a) m o * E_d gp u a (l / d)%nat o (l mod d))) +
       E_dd gp u a (stress (E gp u a)) (k / d)%nat (l / d)%nat (k mod d) (l mod d)) * vol gp).
  Proof.
    intros Hk Hl. exact (matrix_sum d n s points dpos (fun gp y => E gp y a) (fun gp y => E_d gp y a) (fun gp y => E_dd gp y a) stress tangent u K k l Hk Hl).
  Qed.

  Lemma rtilde_sum u a q : easRtilde s points stress E E_a u a q = sumP points (fun gp => sum s (fun m => E_a gp u a m q * stress (E gp u a) m) * vol gp).
  Proof.
    unfold easRtilde.
    rewrite (fold_vector points _ _ (fun gp q => sum s (fun m => E_a gp u a m q * stress (E gp u a) m) * vol gp)); [ring|].
    reflexivity.
  Qed.

  Lemma d_sum u a q r : easD s points stress tangent E E_a E_aa u a q r =
    sumP points (fun gp => (sum s (fun m => sum s (fun o => E_a gp u a m q * tangent (E gp u a) m o * E_a gp u a o r)) +
      E_aa gp u a (stress (E gp u a)) q r) * vol gp).
  Proof.
    unfold easD.
    rewrite (fold_matrix points _ _ (fun gp q r => (sum s (fun m => sum s (fun o => E_a gp u a m q * tangent (E gp u a) m o * E_a gp u a o r)) +
      E_aa gp u a (stress (E gp u a)) q r) * vol gp)); [ring|]. reflexivity.
  Qed.

  Lemma loop_columns m B L q k : loop m (fun i L => addColumns d i (B i) L) L q k =
    if (k / d <? m)%nat then L q k + B (k / d)%nat q (k mod d) else L q k.
  Proof.
    rewrite <- (loop_segments d m (fun i => B i q) (L q) k dpos).
    revert L. induction m as [|m IH]; intros L; [reflexivity|]. rewrite !loop_S. unfold addColumns at 1, addSegment at 1. rewrite IH. reflexivity.
  Qed.

  Lemma l_sum u a q k : (k < N)%nat -> easL d n s points stress tangent E E_d E_a E_ad u a q k =
    sumP points (fun gp =>
      (sum s (fun m => sum s (fun o => E_a gp u a m q * tangent (E gp u a) m o * E_d gp u a (k / d)%nat o (k mod d))) +
       E_ad gp u a (stress (E gp u a)) (k / d)%nat q (k mod d)) * vol gp).
  Proof.
    intros Hk. unfold easL.
    rewrite (fold_matrix points _ _ (fun gp q k =>
      (sum s (fun m => sum s (fun o => E_a gp u a m q * tangent (E gp u a) m o * E_d gp u a (k / d)%nat o (k mod d))) +
       E_ad gp u a (stress (E gp u a)) (k / d)%nat q (k mod d)) * vol gp)); [ring|].
    intros gp L _. cbv zeta. rewrite loop_columns. apply div_small in Hk; [|assumption].
    destruct (Nat.ltb_spec (k / d) n); [reflexivity|lia].
  Qed.


  (** Along a pair of curves *)
  Section Curves.
    Variable psi : (nat -> R) -> R.
    Variables (u a : nat -> R) (c b : R -> nat -> R) (v w : nat -> R).
    Hypothesis cu : passes N c u v.
    Hypothesis ba : passes p b a w.
    Variable gp : point.
    Hypothesis strain : enhancedExpression d n s p E E_d E_a E_dd E_aa E_ad gp u a.
    Hypothesis material : hyperelastic s psi stress tangent (E gp u a).

    Let rate m := dot N (fun k => E_d gp u a (k / d)%nat m (k mod d)) v + dot p (E_a gp u a m) w.

    Lemma value2 f g h : isGradient2 N p f g h u a -> f (c 0) (b 0) = f u a.
    Proof.
      intros H. exact (value2' N p u a c b v w f g h cu ba H).
    Qed.

    Lemma strain_curve : passes s (fun t => E gp (c t) (b t)) (E gp u a) rate.
    Proof.
      intros m Hm. destruct strain as (H & _ & _). split; [apply (value2 _ _ _ (H m Hm))|]. apply H; assumption.
    Qed.

    (** a sum of products with the stresses *)
    Lemma stress_curve (B : R -> nat -> R) (g : (nat -> R) -> R) :
      (forall S, is_derive (fun t => sum s (fun m => S m * B t m)) 0 (g S)) ->
      is_derive (fun t => sum s (fun m => B t m * stress (E gp (c t) (b t)) m)) 0
        (g (stress (E gp u a)) + sum s (fun m => sum s (fun o => B 0 m * tangent (E gp u a) m o * rate o))).
    Proof.
      intros HB. set (S0 := stress (E gp u a)). set (e m := fun j : nat => if (j =? m)%nat then 1 else 0).
      assert (Q : forall m t, (m < s)%nat -> sum s (fun j => e m j * B t j) = B t m).
      { intros m t Hm. rewrite (sum_pick s m); [unfold e; rewrite Nat.eqb_refl; apply Rmult_1_l|assumption|].
        intros j _ Hj. unfold e. destruct (Nat.eqb_spec j m); [contradiction|ring]. }
      assert (Hb : forall m, (m < s)%nat -> is_derive (fun t => B t m) 0 (g (e m))).
      { intros m Hm. eapply is_derive_ext; [|apply (HB (e m))]. intros t. apply Q, Hm. }
      assert (Hlin : g S0 = sum s (fun m => g (e m) * S0 m)).
      { apply (derive_uniq (fun t => sum s (fun m => S0 m * B t m))); [apply HB|].
        apply (derive_sum s (fun m t => S0 m * B t m)). intros m Hm.
        apply (is_derive_ext (fun t => B t m * S0 m)); [intros; apply Rmult_comm|]. apply derive_scale, Hb, Hm. }
      destruct material as (_ & Ht).
      assert (Hs : forall m, (m < s)%nat -> is_derive (fun t => stress (E gp (c t) (b t)) m) 0 (dot s (tangent (E gp u a) m) rate)).
      { intros m Hm. apply (Ht m Hm (fun t => E gp (c t) (b t))). apply strain_curve. }
      assert (Hv : forall m, (m < s)%nat -> stress (E gp (c 0) (b 0)) m = S0 m).
      { intros m Hm. apply (gradient_value s (fun y => stress y m) _ (E gp u a) _ (Ht m Hm)). intros k Hk. apply (strain_curve k Hk). }
      eapply derive_eq.
      { apply (derive_sum s (fun m t => B t m * stress (E gp (c t) (b t)) m) (fun m => g (e m) * S0 m + B 0 m * dot s (tangent (E gp u a) m) rate)).
        intros m Hm. eapply derive_eq; [apply (derive_mult (fun t => B t m)); [apply Hb|apply Hs]; assumption|]. cbv beta. rewrite Hv by assumption. reflexivity. }
      rewrite sum_add, Hlin. f_equal. apply sum_ext. intros m _. unfold dot. rewrite <- sum_mul_l. apply sum_ext. intros. ring.
    Qed.

    Lemma energy_curve : is_derive (fun t => psi (E gp (c t) (b t))) 0 (dot s (stress (E gp u a)) rate).
    Proof. destruct material as (Hp & _). apply (Hp (fun t => E gp (c t) (b t))), strain_curve. Qed.
  End Curves.

  Section Point.
    Variables (psi : (nat -> R) -> R) (u a : nat -> R) (gp : point).
    Hypothesis strain : enhancedExpression d n s p E E_d E_a E_dd E_aa E_ad gp u a.
    Hypothesis material : hyperelastic s psi stress tangent (E gp u a).

    Lemma point_energy2 : isGradient2 N p (fun u a => psi (E gp u a) * vol gp)
      (fun k => sum s (fun m => E_d gp u a (k / d)%nat m (k mod d) * stress (E gp u a) m) * vol gp)
      (fun q => sum s (fun m => E_a gp u a m q * stress (E gp u a) m) * vol gp) u a.
    Proof.
      intros c v b w Pc Pb. eapply derive_eq; [apply derive_scale, (energy_curve psi u a c b v w Pc Pb gp strain material)|].
      rewrite !dot_scale_l, <- Rmult_plus_distr_r. f_equal. rewrite !dot_sum_l, <- sum_add. unfold dot at 1. apply sum_ext. intros m _.
      rewrite !dot_scale_l. ring.
    Qed.

    Lemma point_product2 (B : (nat -> R) -> (nat -> R) -> nat -> R) (g h : (nat -> R) -> nat -> R) :
      (forall S, isGradient2 N p (fun u a => sum s (fun m => S m * B u a m)) (g S) (h S) u a) ->
      isGradient2 N p (fun u a => sum s (fun m => B u a m * stress (E gp u a) m) * vol gp)
        (fun k => (sum s (fun m => sum s (fun o => B u a m * tangent (E gp u a) m o * E_d gp u a (k / d)%nat o (k mod d))) + g (stress (E gp u a)) k) * vol gp)
        (fun q => (sum s (fun m => sum s (fun o => B u a m * tangent (E gp u a) m o * E_a gp u a o q)) + h (stress (E gp u a)) q) * vol gp) u a.
    Proof.
      intros HB c v b w Pc Pb.
      eapply derive_eq.
      { apply derive_scale. apply (stress_curve psi u a c b v w Pc Pb gp strain material (fun t => B (c t) (b t))
          (fun S => dot N (g S) v + dot p (h S) w)). intros S. apply (HB S); assumption. }
      cbv beta.
      assert (V : forall m, (m < s)%nat -> B (c 0) (b 0) m = B u a m).
      { intros m Hm. set (e := fun j : nat => if (j =? m)%nat then 1 else 0).
        assert (Q : forall u a, sum s (fun j => e j * B u a j) = B u a m).
        { intros u' a'. rewrite (sum_pick s m); [unfold e; rewrite Nat.eqb_refl; apply Rmult_1_l|assumption|].
          intros j _ Hj. unfold e. destruct (Nat.eqb_spec j m); [contradiction|ring]. }
        rewrite <- !Q. apply (value2 u a c b v w Pc Pb (fun u a => sum s (fun j => e j * B u a j)) _ _ (HB e)). }
      rewrite !dot_scale_l, !dot_add_l, <- Rmult_plus_distr_r. f_equal.
      rewrite !dot_sum_l.
      rewrite (sum_ext s (fun m => sum s (fun o => B (c 0) (b 0) m * _ * _))
        (fun m => dot N (fun k => sum s (fun o => B u a m * tangent (E gp u a) m o * E_d gp u a (k / d)%nat o (k mod d))) v +
                  dot p (fun q => sum s (fun o => B u a m * tangent (E gp u a) m o * E_a gp u a o q)) w)).
      - rewrite sum_add. ring.
      - intros m Hm. rewrite V by assumption. rewrite !dot_sum_l, <- sum_add. apply sum_ext. intros o _.
        unfold dot. rewrite Rmult_plus_distr_l, <- !sum_mul_l. f_equal; apply sum_ext; intros; ring.
    Qed.
  End Point.
End Eas.
