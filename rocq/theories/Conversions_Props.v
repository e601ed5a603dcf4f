(** C47, C48, C73: conversions of strain, stress and moduli. *)

From Coq Require Import List Arith ZArith Reals Lra Lia Bool FunctionalExtensionality.
From Coquelicot Require Import Coquelicot.
From Verif Require Import Tensor_Model Tensor_Spec Tensor_Props LinearAlgebra_Model LinearAlgebra_Proofs SVK_Model SVK_Spec SVK_Props VanishingStress_Props.
From Verif Require Import Conversions_Model Conversions_Spec.
Import ListNotations.
Local Open Scope R_scope.

Lemma sum_ext n f g : (forall k, (k < n)%nat -> f k = g k) -> sum n f = sum n g.
Proof. intros H. induction n; simpl; auto. rewrite IHn, H by auto. reflexivity. Qed.
Lemma sum_mul_l n c f : sum n (fun k => c * f k) = c * sum n f.
Proof. induction n; simpl; [ring|]. rewrite IHn. ring. Qed.
Lemma sum_mul_r n c f : sum n (fun k => f k * c) = sum n f * c.
Proof. induction n; simpl; [ring|]. rewrite IHn. ring. Qed.
Lemma sum_add n f g : sum n (fun k => f k + g k) = sum n f + sum n g.
Proof. induction n; simpl; [ring|]. rewrite IHn. ring. Qed.
Lemma sum_swap n m f : sum n (fun i => sum m (fun j => f i j)) = sum m (fun j => sum n (fun i => f i j)).
Proof. induction n; simpl; [induction m; simpl; auto; rewrite <- IHm; ring|]. rewrite IHn, <- sum_add. reflexivity. Qed.
Lemma sum_zero n f : (forall k, (k < n)%nat -> f k = 0) -> sum n f = 0.
Proof. intros H. induction n; simpl; auto. rewrite IHn, H by auto. ring. Qed.
Lemma sum_pick n a f : (a < n)%nat -> (forall k, (k < n)%nat -> k <> a -> f k = 0) -> sum n f = f a.
Proof.
  induction n; intros Ha H; [lia|]. simpl. destruct (Nat.eq_dec a n) as [->|N].
  - rewrite sum_zero; [ring|]. intros. apply H; lia.
  - rewrite IHn, (H n) by (intros; try apply H; lia). ring.
Qed.
Lemma sum_id_l n i f : (i < n)%nat -> sum n (fun k => identity i k * f k) = f i.
Proof.
  intros H. rewrite (sum_pick n i); auto.
  - unfold identity. rewrite Nat.eqb_refl. ring.
  - intros k _ N. unfold identity. destruct (Nat.eqb_spec i k); [congruence|ring].
Qed.

Lemma mprod_mul d A B : mprod d A B = mul d A B.
Proof. apply functional_extensionality. intros i. apply functional_extensionality. intros j. unfold mprod, mul. now rewrite sum_seq. Qed.
Lemma mul_assoc d A B C : mul d (mul d A B) C = mul d A (mul d B C).
Proof.
  apply functional_extensionality. intros i. apply functional_extensionality. intros j. unfold mul.
  transitivity (sum d (fun k => sum d (fun l => A i l * B l k * C k j))).
  - apply sum_ext. intros. now rewrite <- sum_mul_r.
  - rewrite sum_swap. apply sum_ext. intros. rewrite <- sum_mul_l. apply sum_ext. intros. ring.
Qed.
Lemma mul_ext d A A' B B' : eqm d A A' -> eqm d B B' -> eqm d (mul d A B) (mul d A' B').
Proof. intros H1 H2 i j Hi Hj. unfold mul. apply sum_ext. intros. rewrite H1, H2 by auto. reflexivity. Qed.
Lemma eqm_refl d A : eqm d A A. Proof. intros i j _ _. reflexivity. Qed.
Lemma eqm_trans d A B C : eqm d A B -> eqm d B C -> eqm d A C.
Proof. intros H1 H2 i j Hi Hj. now rewrite H1, H2. Qed.
Lemma eqm_sym d A B : eqm d A B -> eqm d B A.
Proof. intros H i j Hi Hj. now rewrite H. Qed.
Lemma mul_id_l d A : eqm d (mul d identity A) A.
Proof. intros i j Hi Hj. unfold mul. now apply (sum_id_l d i (fun k => A k j)). Qed.
Lemma mul_id_r d A : eqm d (mul d A identity) A.
Proof.
  intros i j Hi Hj. unfold mul. rewrite (sum_pick d j); auto.
  - unfold identity. rewrite Nat.eqb_refl. ring.
  - intros k _ N. unfold identity. destruct (Nat.eqb_spec k j); [congruence|ring].
Qed.
Lemma mul_scale_l d c A B : mul d (mscale c A) B = mscale c (mul d A B).
Proof. apply functional_extensionality. intros i. apply functional_extensionality. intros j. unfold mul, mscale. rewrite <- sum_mul_l. apply sum_ext. intros. ring. Qed.
Lemma mul_scale_r d c A B : mul d A (mscale c B) = mscale c (mul d A B).
Proof. apply functional_extensionality. intros i. apply functional_extensionality. intros j. unfold mul, mscale. rewrite <- sum_mul_l. apply sum_ext. intros. ring. Qed.
Lemma mt_mul d A B : mt (mul d A B) = mul d (mt B) (mt A).
Proof. apply functional_extensionality. intros i. apply functional_extensionality. intros j. unfold mul, mt. apply sum_ext. intros. ring. Qed.

(** ** C48 *)
Section Stress.
Variable d : nat.
Variables (inv : rmat -> rmat) (det : rmat -> R).
Variable F : rmat.
Hypothesis Hinv : isInverse d F (inv F).
Hypothesis Hdet : det F <> 0.
Notation P := (inv F).
Notation J := (det F).

Lemma PF : eqm d (mul d P F) identity. Proof. intros i j Hi Hj. now apply Hinv. Qed.
Lemma FP : eqm d (mul d F P) identity. Proof. intros i j Hi Hj. now apply Hinv. Qed.
Lemma FtPt : eqm d (mul d (mt F) (mt P)) identity.
Proof. intros i j Hi Hj. rewrite <- mt_mul. unfold mt. rewrite PF by auto. unfold identity. now rewrite Nat.eqb_sym. Qed.
Lemma PtFt : eqm d (mul d (mt P) (mt F)) identity.
Proof. intros i j Hi Hj. rewrite <- mt_mul. unfold mt. rewrite FP by auto. unfold identity. now rewrite Nat.eqb_sym. Qed.
Lemma cancel_l A B X : eqm d (mul d A B) identity -> eqm d (mul d A (mul d B X)) X.
Proof. intros H. rewrite <- mul_assoc. eapply eqm_trans; [apply mul_ext; [exact H|apply eqm_refl]|apply mul_id_l]. Qed.
Lemma cancel_r A B X : eqm d (mul d A B) identity -> eqm d (mul d (mul d X A) B) X.
Proof. intros H. rewrite mul_assoc. eapply eqm_trans; [apply mul_ext; [apply eqm_refl|exact H]|apply mul_id_r]. Qed.

(** the specification in matrix form *)
Lemma stressOf_pk1 sigma : stressOf d J P PK1 sigma = mscale J (mul d sigma (mt P)).
Proof. reflexivity. Qed.
Lemma stressOf_pk2 sigma : stressOf d J P PK2 sigma = mscale J (mul d (mul d P sigma) (mt P)).
Proof.
  apply functional_extensionality. intros i. apply functional_extensionality. intros j. unfold stressOf, mscale, mul, mt. f_equal.
  rewrite sum_swap. apply sum_ext. intros. now rewrite <- sum_mul_r.
Qed.

Lemma scale_ext c A B : eqm d A B -> eqm d (mscale c A) (mscale c B).
Proof. intros H i j Hi Hj. unfold mscale. now rewrite H. Qed.
Lemma scale_inv A : eqm d (mscale (1 / J) (mscale J A)) A.
Proof. intros i j Hi Hj. unfold mscale. field. auto. Qed.

Ltac congr H := first [exact H | apply mul_ext; congr H | apply scale_ext; congr H | apply eqm_refl].

(** Every conversion of a stress measure of sigma gives the other measure of sigma *)
Theorem C48_measures : forall from to sigma s, nonlinear from -> nonlinear to ->
  eqm d s (stressOf d J P from sigma) ->
  exists t, transformStress d inv det from to s F = Some t /\ eqm d t (stressOf d J P to sigma).
Proof.
  intros from to sigma s N1 N2 H.
  assert (R : forall t, transformStress d inv det from to s F = Some t -> forall u, eqm d t u -> eqm d u (stressOf d J P to sigma) ->
    exists t, transformStress d inv det from to s F = Some t /\ eqm d t (stressOf d J P to sigma)).
  { intros t E u H1 H2. exists t. split; auto. eapply eqm_trans; eauto. }
  destruct from, to; try (exfalso; (now apply N1) || (now apply N2)); try (exists s; split; [reflexivity|exact H]).
  all: (eapply R; [reflexivity| |]; clear R); rewrite ?mprod_mul; rewrite ?stressOf_pk1, ?stressOf_pk2 in *;
    change (stressOf d J P Kirchhoff sigma) with (mscale J sigma) in *; change (stressOf d J P Cauchy sigma) with sigma in *;
    [congr H|].
  all: rewrite ?mul_scale_l, ?mul_scale_r, ?mul_scale_l.
  all: try (eapply eqm_trans; [apply scale_inv|]).
  all: try apply scale_ext; rewrite <- ?mul_assoc; try apply eqm_refl.
  - apply cancel_r, PtFt.
  - apply cancel_r, PtFt.
  - eapply eqm_trans; [apply mul_ext; [apply mul_ext; [apply FP|apply eqm_refl]|apply eqm_refl]|].
    apply mul_ext; [apply mul_id_l|apply eqm_refl].
  - eapply eqm_trans; [apply cancel_r, PtFt|]. eapply eqm_trans; [apply mul_ext; [apply FP|apply eqm_refl]|apply mul_id_l].
  - eapply eqm_trans; [apply cancel_r, PtFt|]. eapply eqm_trans; [apply mul_ext; [apply FP|apply eqm_refl]|apply mul_id_l].
Qed.

(** Every matrix is the measure of some Cauchy stress *)
Lemma some_cauchy from s : nonlinear from -> exists sigma, eqm d s (stressOf d J P from sigma).
Proof.
  intros N. destruct from; [exfalso; now apply N| | | |].
  - exists (mscale (1 / J) (mul d s (mt F))). rewrite stressOf_pk1, mul_scale_l. apply eqm_sym.
    eapply eqm_trans; [|apply cancel_r, FtPt]. intros i j Hi Hj. unfold mscale. field. auto.
  - exists (mscale (1 / J) (mul d (mul d F s) (mt F))). rewrite stressOf_pk2, mul_scale_r, mul_scale_l. apply eqm_sym.
    eapply eqm_trans; [|apply (cancel_l P F), PF]. rewrite <- mul_assoc.
    eapply eqm_trans; [|apply cancel_r, FtPt]. rewrite !mul_assoc. intros i j Hi Hj. unfold mscale. field. auto.
  - exists (mscale (1 / J) s). intros i j Hi Hj. unfold stressOf, mscale. field. auto.
  - exists s. apply eqm_refl.
Qed.

(** A chain of two conversions is the direct conversion; there and back is the identity *)
Theorem C48_composition : forall a b c s, nonlinear a -> nonlinear b -> nonlinear c ->
  exists t u v, transformStress d inv det a b s F = Some t /\ transformStress d inv det b c t F = Some u /\
    transformStress d inv det a c s F = Some v /\ eqm d u v.
Proof.
  intros a b c s Na Nb Nc. destruct (some_cauchy a s Na) as [sigma H].
  destruct (C48_measures a b sigma s Na Nb H) as (t & E1 & H1). destruct (C48_measures b c sigma t Nb Nc H1) as (u & E2 & H2).
  destruct (C48_measures a c sigma s Na Nc H) as (v & E3 & H3). exists t, u, v. repeat split; auto.
  eapply eqm_trans; [exact H2|]. now apply eqm_sym.
Qed.

Theorem C48_roundtrip : forall a b s, nonlinear a -> nonlinear b ->
  exists t u, transformStress d inv det a b s F = Some t /\ transformStress d inv det b a t F = Some u /\ eqm d u s.
Proof.
  intros a b s Na Nb. destruct (C48_composition a b a s Na Nb Na) as (t & u & v & E1 & E2 & E3 & H). exists t, u. split; auto. split; auto.
  assert (v = s); [|now subst]. destruct a; cbn in E3; congruence.
Qed.

(** PK2, Kirchhoff and Cauchy stress are symmetric together *)
Lemma mul_symmetric A s : symmetric d s -> symmetric d (mul d (mul d A s) (mt A)).
Proof.
  intros H i j Hi Hj. change (mul d (mul d A s) (mt A) j i) with (mt (mul d (mul d A s) (mt A)) i j). rewrite !mt_mul.
  change (mt (mt A)) with A. rewrite mul_assoc. apply mul_ext; auto; [apply eqm_refl|]. apply mul_ext; [|apply eqm_refl].
  intros k l Hk Hl. unfold mt. auto.
Qed.
Theorem C48_symmetry : forall a b s t, nonlinear a -> nonlinear b -> a <> PK1 -> b <> PK1 ->
  transformStress d inv det a b s F = Some t -> symmetric d s -> symmetric d t.
Proof.
  intros a b s t Na Nb N1 N2 H Sy. assert (Sc : forall c, symmetric d (mscale c s)) by (intros c i j Hi Hj; unfold mscale; now rewrite Sy).
  destruct a, b; try (exfalso; congruence || (now apply Na) || (now apply Nb)); cbn in H; injection H as <-; auto; rewrite ?mprod_mul, ?mul_scale_l.
  - now apply mul_symmetric.
  - intros i j Hi Hj. unfold mscale. f_equal. now apply mul_symmetric.
  - now apply mul_symmetric.
  - intros i j Hi Hj. unfold mscale. f_equal. now apply mul_symmetric.
Qed.

(** PK1 : dF = PK2 : dE, the power of the stress *)
Theorem C48_work : forall s p H, symmetric d s -> transformStress d inv det PK2 PK1 s F = Some p ->
  contract d p H = contract d s (fun i j => sum d (fun k => (H k i * F k j + F k i * H k j) / 2)).
Proof.
  intros s p H Sy E. cbn in E. injection E as <-. rewrite mprod_mul. unfold contract, mul.
  transitivity (sum d (fun i => sum d (fun j => s i j * sum d (fun k => F k i * H k j)))).
  - transitivity (sum d (fun k => sum d (fun j => sum d (fun i => F k i * s i j * H k j)))).
    + apply sum_ext. intros. apply sum_ext. intros. now rewrite <- sum_mul_r.
    + rewrite sum_swap. rewrite (sum_swap d d (fun i j => s i j * _)). apply sum_ext. intros j Hj.
      rewrite sum_swap. apply sum_ext. intros i Hi. rewrite <- sum_mul_l. apply sum_ext. intros. ring.
  - assert (T : sum d (fun i => sum d (fun j => s i j * sum d (fun k => F k i * H k j)))
             = sum d (fun i => sum d (fun j => s i j * sum d (fun k => H k i * F k j)))).
    { rewrite sum_swap. apply sum_ext. intros i Hi. apply sum_ext. intros j Hj. rewrite (Sy j i) by auto. f_equal. apply sum_ext. intros. ring. }
    set (X := sum d (fun i => sum d (fun j => s i j * sum d (fun k => F k i * H k j)))) in *.
    set (Y := sum d (fun i => sum d (fun j => s i j * sum d (fun k => H k i * F k j)))) in *.
    replace X with (1 / 2 * Y + 1 / 2 * X) at 1 by lra. unfold X, Y. rewrite <- !sum_mul_l, <- sum_add.
    apply sum_ext. intros i Hi. rewrite <- !sum_mul_l, <- sum_add. apply sum_ext. intros j Hj.
    replace (1 / 2 * (s i j * sum d (fun k => H k i * F k j)) + 1 / 2 * (s i j * sum d (fun k => F k i * H k j)))
      with (s i j * (1 / 2 * sum d (fun k => H k i * F k j) + 1 / 2 * sum d (fun k => F k i * H k j))) by ring.
    rewrite <- !sum_mul_l, <- sum_add, <- !sum_mul_l. apply sum_ext. intros. field.
Qed.
End Stress.
Print Assumptions C48_measures.
Print Assumptions C48_composition.
Print Assumptions C48_roundtrip.
Print Assumptions C48_symmetry.
Print Assumptions C48_work.

(** ** C47 *)
Lemma gram_symmetric d F : symmetric d (rightCauchyGreenOf d F).
Proof. intros i j _ _. unfold rightCauchyGreenOf. apply sum_ext. intros. ring. Qed.

Lemma strainOf_symmetric d tag F : tag = greenLagrangian \/ tag = rightCauchyGreenTensor -> symmetric d (strainOf d tag F).
Proof.
  intros [->| ->] i j Hi Hj; unfold strainOf; rewrite (gram_symmetric d F i j) by auto; auto. unfold identity. now rewrite Nat.eqb_sym.
Qed.

(** Conversions to the deformation gradient are only available from E and C through the square root, see below; all others give the
    measure of the same F. *)
Definition needsRoot (from to : strainTag) : Prop := to = deformationGradient /\ (from = greenLagrangian \/ from = rightCauchyGreenTensor).

Lemma kron_identity i j : kron i j = identity i j. Proof. reflexivity. Qed.
Lemma gram_prod d e F : eqm d e F -> eqm d (mprod d (mt e) e) (rightCauchyGreenOf d F).
Proof. intros H i j Hi Hj. rewrite mprod_mul. unfold mul, mt, rightCauchyGreenOf. apply sum_ext. intros. rewrite !H by auto. reflexivity. Qed.
Lemma gram_displacement d H F : eqm d H (fun i j => F i j - identity i j) ->
  eqm d (fun i j => H i j + H j i + mprod d (mt H) H i j) (fun i j => rightCauchyGreenOf d F i j - identity i j).
Proof.
  intros E i j Hi Hj. rewrite mprod_mul. unfold mul, mt, rightCauchyGreenOf.
  rewrite (sum_ext d (fun k => H k i * H k j) (fun k => F k i * F k j + - 1 * (identity i k * F k j) + - 1 * (identity j k * F k i) + identity i k * identity k j)).
  - rewrite !sum_add, !sum_mul_l, !sum_id_l by auto. rewrite !E by auto. rewrite (Nat.eqb_sym j i : (j =? i)%nat = (i =? j)%nat) || idtac.
    assert (X : identity j i = identity i j) by (unfold identity; now rewrite Nat.eqb_sym). rewrite X. ring.
  - intros k Hk. rewrite !E by auto. assert (X : forall a b, identity a b = identity b a) by (intros; unfold identity; now rewrite Nat.eqb_sym).
    rewrite (X k i), (X k j). ring.
Qed.

Theorem C47_direct : forall d msqrt from to F e,
  from <> linear -> to <> linear -> (to = displacementGradient -> from = displacementGradient) -> ~ needsRoot from to ->
  eqm d e (strainOf d from F) ->
  exists e', transformStrain d msqrt from to e = Some e' /\ eqm d e' (strainOf d to F).
Proof.
  intros d msqrt from to F e N1 N2 N3 NR H.
  destruct from, to; try congruence; try (exfalso; apply NR; split; auto; fail); try (discriminate (N3 eq_refl));
    unfold transformStrain; cbn [strainTag_eqb createGreenLagrangianStrains createDeformationGradient createRightCauchyGreen];
    (eexists; split; [reflexivity|]); auto.
  - intros i j Hi Hj. unfold mscale, msub. rewrite (gram_prod d e F H) by auto. rewrite kron_identity. unfold strainOf. field.
  - intros i j Hi Hj. rewrite (gram_prod d e F H) by auto. reflexivity.
  - intros i j Hi Hj. unfold madd. rewrite H, kron_identity by auto. unfold strainOf. ring.
  - intros i j Hi Hj. unfold mscale, madd, mt at 1. rewrite (gram_displacement d e F H i j Hi Hj). unfold strainOf. field.
  - intros i j Hi Hj. unfold strainOf. apply gram_prod; auto. intros a b Ha Hb. unfold madd. rewrite H, kron_identity by auto. unfold strainOf. ring.
  - intros i j Hi Hj. unfold madd, mscale. rewrite H, kron_identity by auto. unfold strainOf. field.
  - intros i j Hi Hj. unfold msub, mscale. rewrite H, kron_identity by auto. unfold strainOf. field.
Qed.
Print Assumptions C47_direct.

(** positive definite roots are unique *)
Lemma sum_nonneg n f : (forall k, (k < n)%nat -> 0 <= f k) -> 0 <= sum n f.
Proof. intros H. induction n; simpl; [lra|]. assert (0 <= f n) by auto. assert (0 <= sum n f) by auto. lra. Qed.
Lemma sum_pos n f k : (forall k, (k < n)%nat -> 0 <= f k) -> (k < n)%nat -> 0 < f k -> 0 < sum n f.
Proof.
  intros H Hk P. induction n; [lia|]. simpl. destruct (Nat.eq_dec k n) as [->|N].
  - assert (0 <= sum n f) by (apply sum_nonneg; auto). lra.
  - assert (0 < sum n f) by (apply IHn; auto; lia). assert (0 <= f n) by auto. lra.
Qed.

Definition quad d (U : rmat) (x : nat -> R) : R := sum d (fun i => sum d (fun j => x i * U i j * x j)).
Lemma quad_nonneg d U x : positive d U -> 0 <= quad d U x.
Proof.
  intros P. assert (D : (exists i, (i < d)%nat /\ x i <> 0) \/ (forall i, (i < d)%nat -> x i = 0)).
  { clear. induction d; [right; intros; lia|]. destruct IHd as [(i & Hi & N)|Z]; [left; exists i; split; auto; lia|].
    destruct (Req_dec (x d) 0) as [E|E]; [right|left; exists d; split; auto].
    intros i Hi. destruct (Nat.eq_dec i d) as [->|N]; auto. apply Z. lia. }
  destruct D as [D|Z]; [left; now apply P|]. right. symmetry. unfold quad. apply sum_zero. intros i Hi. apply sum_zero. intros j Hj.
  rewrite (Z i Hi). ring.
Qed.

Lemma root_unique d U V : symmetric d U -> symmetric d V -> positive d U -> positive d V ->
  eqm d (mul d U U) (mul d V V) -> eqm d U V.
Proof.
  intros SU SV PU PV E. set (D := fun i j => U i j - V i j).
  assert (SD : symmetric d D) by (intros i j Hi Hj; unfold D; now rewrite (SU i j), (SV i j)).
  (* D U + V D = 0 *)
  assert (Z : forall i j, (i < d)%nat -> (j < d)%nat -> sum d (fun k => D i k * U k j) + sum d (fun k => V i k * D k j) = 0).
  { intros i j Hi Hj. assert (Q := E i j Hi Hj). unfold mul in Q. unfold D.
    rewrite <- sum_add. transitivity (sum d (fun k => U i k * U k j + -1 * (V i k * V k j))).
    - apply sum_ext. intros. ring.
    - rewrite sum_add, sum_mul_l, Q. ring. }
  assert (T : sum d (fun m => quad d U (fun k => D m k)) + sum d (fun m => quad d V (fun k => D k m)) = 0).
  { transitivity (sum d (fun i => sum d (fun j => D i j * (sum d (fun k => D i k * U k j) + sum d (fun k => V i k * D k j))))).
    2:{ apply sum_zero. intros i Hi. apply sum_zero. intros j Hj. rewrite Z by auto. ring. }
    transitivity (sum d (fun i => sum d (fun j => D i j * sum d (fun k => D i k * U k j))) + sum d (fun i => sum d (fun j => D i j * sum d (fun k => V i k * D k j)))).
    2:{ rewrite <- sum_add. apply sum_ext. intros. rewrite <- sum_add. apply sum_ext. intros. ring. }
    f_equal.
    - apply sum_ext. intros m Hm. unfold quad. rewrite sum_swap. apply sum_ext. intros j Hj. rewrite <- sum_mul_l. apply sum_ext. intros. ring.
    - unfold quad. transitivity (sum d (fun m => sum d (fun i => sum d (fun j => D i m * V i j * D j m)))); [reflexivity|].
      rewrite sum_swap. apply sum_ext. intros i Hi. apply sum_ext. intros m Hm. rewrite <- sum_mul_l. apply sum_ext. intros. ring. }
  intros i j Hi Hj. destruct (Req_dec (D i j) 0) as [Q|Q]; [unfold D in Q; lra|]. exfalso.
  assert (P1 : 0 < sum d (fun m => quad d U (fun k => D m k))).
  { apply (sum_pos _ _ i); auto; [intros; now apply quad_nonneg|]. apply PU. exists j. auto. }
  assert (0 <= sum d (fun m => quad d V (fun k => D k m))) by (apply sum_nonneg; intros; now apply quad_nonneg). lra.
Qed.

Lemma gram_positive d F : (exists P, isInverse d F P) -> positive d (rightCauchyGreenOf d F).
Proof.
  intros [P HP] x (i & Hi & N). 
  assert (E : sum d (fun i => sum d (fun j => x i * rightCauchyGreenOf d F i j * x j)) = sum d (fun k => (sum d (fun i => F k i * x i)) ^ 2)).
  { transitivity (sum d (fun i => sum d (fun j => sum d (fun k => F k i * x i * (F k j * x j))))).
    - apply sum_ext. intros. apply sum_ext. intros. unfold rightCauchyGreenOf. rewrite <- sum_mul_l, <- sum_mul_r. apply sum_ext. intros. ring.
    - transitivity (sum d (fun i => sum d (fun k => F k i * x i * sum d (fun j => F k j * x j)))).
      + apply sum_ext. intros. rewrite sum_swap. apply sum_ext. intros. now rewrite sum_mul_l.
      + rewrite sum_swap. apply sum_ext. intros. rewrite sum_mul_r. ring. }
  rewrite E. 
  (* some component of F x is not zero *)
  assert (K : exists k, (k < d)%nat /\ sum d (fun i => F k i * x i) <> 0).
  { assert (D : (exists k, (k < d)%nat /\ sum d (fun i => F k i * x i) <> 0) \/ (forall k, (k < d)%nat -> sum d (fun i => F k i * x i) = 0)).
    { generalize d at 1 3. intros m. induction m; [right; intros; lia|]. destruct IHm as [(k & Hk & Q)|Z]; [left; exists k; split; auto; lia|].
      destruct (Req_dec (sum d (fun i => F m i * x i)) 0) as [Q|Q]; [right|left; exists m; auto].
      intros k Hk. destruct (Nat.eq_dec k m) as [->|]; auto. apply Z. lia. }
    destruct D as [D|Z]; auto. exfalso. apply N.
    transitivity (sum d (fun k => P i k * sum d (fun j => F k j * x j))).
    - transitivity (sum d (fun j => mul d P F i j * x j)).
      + rewrite (sum_ext d _ (fun j => identity i j * x j)) by (intros; now rewrite (proj2 (HP i k Hi H))). symmetry. now apply sum_id_l.
      + unfold mul. transitivity (sum d (fun j => sum d (fun k => P i k * (F k j * x j)))).
        * apply sum_ext. intros. rewrite <- sum_mul_r. apply sum_ext. intros. ring.
        * rewrite sum_swap. apply sum_ext. intros. now rewrite sum_mul_l.
    - apply sum_zero. intros k Hk. rewrite (Z k Hk). ring. }
  destruct K as (k & Hk & Q). apply (sum_pos _ _ k); auto.
  - intros. apply pow2_ge_0.
  - assert (0 < (sum d (fun i0 => F k i0 * x i0))²) by now apply Rsqr_pos_lt. unfold Rsqr in *. simpl. lra.
Qed.

Lemma positive_ext d A B : eqm d A B -> positive d A -> positive d B.
Proof.
  intros H P x Hx. specialize (P x Hx). rewrite (sum_ext d _ (fun i => sum d (fun j => x i * A i j * x j))); auto.
  intros. apply sum_ext. intros. now rewrite H.
Qed.

(** From E or C the square root gives a symmetric deformation gradient with the same strains, and F itself if F is symmetric and
    positive definite. *)
Theorem C47_root : forall d msqrt from F e,
  squareRoot d msqrt -> from = greenLagrangian \/ from = rightCauchyGreenTensor -> (exists P, isInverse d F P) ->
  eqm d e (strainOf d from F) ->
  exists U, transformStrain d msqrt from deformationGradient e = Some U /\ symmetric d U /\ positive d U /\
    (forall tag, tag = greenLagrangian \/ tag = rightCauchyGreenTensor -> eqm d (strainOf d tag U) (strainOf d tag F)) /\
    (symmetric d F -> positive d F -> eqm d U F).
Proof.
  intros d msqrt from F e HR Hf HI H.
  assert (M : exists M, transformStrain d msqrt from deformationGradient e = Some (msqrt M) /\ eqm d M (rightCauchyGreenOf d F)).
  { destruct Hf as [->| ->]; (eexists; split; [reflexivity|]); auto.
    intros i j Hi Hj. unfold madd, mscale. rewrite H, kron_identity by auto. unfold strainOf. field. }
  destruct M as (M & E & HM). exists (msqrt M). split; auto.
  destruct (HR M) as (S1 & S2 & S3).
  { intros i j Hi Hj. rewrite !HM by auto. now apply gram_symmetric. }
  { eapply positive_ext; [apply eqm_sym; exact HM|now apply gram_positive]. }
  split; auto. split; auto.
  assert (G : eqm d (rightCauchyGreenOf d (msqrt M)) (rightCauchyGreenOf d F)).
  { intros i j Hi Hj. rewrite <- HM, <- S3 by auto. unfold rightCauchyGreenOf, mul. apply sum_ext. intros. rewrite (S1 k i) by auto. ring. }
  split.
  - intros tag [->| ->] i j Hi Hj; unfold strainOf; now rewrite G.
  - intros SF PF. apply root_unique; auto. intros i j Hi Hj. rewrite S3, HM by auto.
    unfold rightCauchyGreenOf, mul. apply sum_ext. intros. rewrite (SF k i) by auto. ring.
Qed.
Print Assumptions C47_root.

(** Voigt input, three dimensions: the same result as with the matrix *)
Theorem C47_voigt : forall msqrt from to x e, symmetric 3 e -> represents true x e ->
  (from = greenLagrangian \/ from = rightCauchyGreenTensor) -> to = greenLagrangian \/ to = rightCauchyGreenTensor ->
  exists a b, transformStrain3 msqrt from to x = Some a /\ transformStrain 3 msqrt from to e = Some b /\ eqm 3 a b.
Proof.
  intros msqrt from to x e Sy H Hf Ht. destruct (maybeFrom true x e Sy H) as (A & EA & HA). unfold transformStrain3. rewrite EA.
  destruct Hf as [->| ->]; destruct Ht as [->| ->]; cbn; (do 2 eexists; split; [reflexivity|]; split; [reflexivity|]); auto;
  intros i j Hi Hj; unfold mscale, msub, madd; now rewrite HA.
Qed.
Print Assumptions C47_voigt.

(** Stresses in Voigt notation, three dimensions: the same result as with the matrix *)
Theorem C48_voigt : forall inv det F from to x s, isInverse 3 F (inv F) -> det F <> 0 -> nonlinear from -> nonlinear to ->
  symmetric 3 s -> represents false x s ->
  exists a b, transformStress3 inv det from to x F = Some a /\ transformStress 3 inv det from to s F = Some b /\ eqm 3 a b.
Proof.
  intros inv det F from to x s HI HD Nf Nt Sy H. destruct (maybeFrom false x s Sy H) as (A & EA & HA). unfold transformStress3. rewrite EA.
  destruct (some_cauchy 3 inv det F HI HD from s Nf) as [sigma Hs].
  destruct (C48_measures 3 inv det F HI HD from to sigma s Nf Nt Hs) as (b & Eb & Hb).
  destruct (C48_measures 3 inv det F HI HD from to sigma A Nf Nt) as (a & Ea & Ha); [eapply eqm_trans; [exact HA|exact Hs]|].
  exists a, b. split; [exact Ea|]. split; [exact Eb|]. eapply eqm_trans; [exact Ha|]. now apply eqm_sym.
Qed.
Print Assumptions C48_voigt.

(** C47: a measure converted to itself stays as it is, also the linear one, which has no other conversion; displacement gradients are no target *)
Theorem C47_available : forall d msqrt from to e,
  (from = to -> transformStrain d msqrt from to e = Some e) /\
  (from <> to -> transformStrain d msqrt from to e = None <-> from = linear \/ to = linear \/ to = displacementGradient).
Proof.
  intros d msqrt from to e. split; [intros <-; destruct from; reflexivity|]. intros N.
  destruct from, to; try contradiction; cbn; split; auto; try (intros H; discriminate H); intros [H|[H|H]]; discriminate H.
Qed.
Print Assumptions C47_available.

(** C48: the same for stresses *)
Theorem C48_available : forall d inv det from to s F,
  (from = to -> transformStress d inv det from to s F = Some s) /\
  (from <> to -> transformStress d inv det from to s F = None <-> from = linearStress \/ to = linearStress).
Proof.
  intros d inv det from to s F. split; [intros <-; destruct from; reflexivity|]. intros N.
  destruct from, to; try contradiction; cbn; split; auto; try (intros H; discriminate H); intros [H|H]; discriminate H.
Qed.
Print Assumptions C48_available.

(** ** Concrete cases *)
Definition root2 (M : rmat) : rmat :=
  let s := sqrt (M 0%nat 0%nat * M 1%nat 1%nat - M 0%nat 1%nat * M 0%nat 1%nat) in
  fun i j => (M i j + s * identity i j) / sqrt (M 0%nat 0%nat + M 1%nat 1%nat + 2 * s).
Example squareRoot_exists : squareRoot 2 root2.
Proof.
  intros M Sy P. assert (S1 := Sy 1%nat 0%nat ltac:(lia) ltac:(lia)).
  assert (P0 : 0 < M 0%nat 0%nat).
  { assert (K := P (fun i => if (i =? 0)%nat then 1 else 0)). cbn in K. lapply K; [intros X; lra|exists 0%nat; split; [lia|simpl; lra]]. }
  assert (P1 : 0 < M 0%nat 0%nat * M 1%nat 1%nat - M 0%nat 1%nat * M 0%nat 1%nat).
  { assert (K := P (fun i => match i with 0%nat => - M 0%nat 1%nat | _ => M 0%nat 0%nat end)). cbn in K. rewrite S1 in K.
    lapply K; [clear K; intros X|exists 1%nat; split; [lia|simpl; lra]]. apply (Rmult_lt_reg_l (M 0%nat 0%nat)); auto. lra. }
  assert (P2 : 0 < M 1%nat 1%nat).
  { assert (K := P (fun i => if (i =? 1)%nat then 1 else 0)). cbn in K. lapply K; [intros X; lra|exists 1%nat; split; [lia|simpl; lra]]. }
  set (s := sqrt (M 0%nat 0%nat * M 1%nat 1%nat - M 0%nat 1%nat * M 0%nat 1%nat)).
  assert (Ps : 0 < s) by now apply sqrt_lt_R0. assert (Es : s * s = M 0%nat 0%nat * M 1%nat 1%nat - M 0%nat 1%nat * M 0%nat 1%nat) by (apply sqrt_sqrt; lra).
  set (t := sqrt (M 0%nat 0%nat + M 1%nat 1%nat + 2 * s)). assert (Pt : 0 < t) by (apply sqrt_lt_R0; lra).
  assert (Et : t * t = M 0%nat 0%nat + M 1%nat 1%nat + 2 * s) by (apply sqrt_sqrt; lra).
  assert (R2 : root2 M = fun i j => (M i j + s * identity i j) / t) by reflexivity. rewrite R2. clear R2. clearbody s t. split; [|split].
  - intros i j Hi Hj. rewrite (Sy i j) by auto. unfold identity. now rewrite Nat.eqb_sym.
  - intros x Hx. assert (K := P x Hx). cbn in *. rewrite S1 in *.
    apply (Rmult_lt_reg_r t); auto. rewrite Rmult_0_l.
    assert (0 <= s * (x 0%nat * x 0%nat)) by (apply Rmult_le_pos; [lra|apply Rle_0_sqr]).
    assert (0 <= s * (x 1%nat * x 1%nat)) by (apply Rmult_le_pos; [lra|apply Rle_0_sqr]).
    eapply Rlt_le_trans; [exact K|]. field_simplify; lra.
  - intros i j Hi Hj. unfold mul. cbn [sum]. unfold identity.
    apply (Rmult_eq_reg_r (t * t)); [|apply Rgt_not_eq; nra].
    cases i; cases j; cbn; rewrite ?S1; field_simplify; try lra; replace (t ^ 2) with (t * t) by ring; rewrite ?Et;
    replace (s ^ 2) with (s * s) by ring; rewrite ?Es; ring.
Qed.

Example C48_applies : exists F P : rmat, isInverse 2 F P /\ F 0%nat 1%nat = 1 /\ F 1%nat 0%nat = 0.
Proof.
  exists (entries [[1; 1]; [0; 2]]), (entries [[1; - (1 / 2)]; [0; 1 / 2]]). split; [|split; reflexivity].
  intros i j Hi Hj. unfold mul, identity, entries. cases i; cases j; cbn; split; field.
Qed.

(** ** C73: the two-point moduli are the derivative of the PK1 stress with respect to F *)
Theorem C73_two_point : forall (S : (nat -> nat -> R) -> nat -> nat -> R) (L : rtensor4) F H,
  minorSymmetric 3 L -> symmetric 3 (S (strainOf 3 greenLagrangian F)) ->
  (forall i j, (i < 3)%nat -> (j < 3)%nat ->
     is_derive (fun t => S (strainOf 3 greenLagrangian (shift F H t)) i j) 0
       (apply4 3 L (fun i j => sum 3 (fun k => (H k i * F k j + F k i * H k j) / 2)) i j)) ->
  exists A, createTwoPointMaterialTensor Material L (S (strainOf 3 greenLagrangian F)) F = Some A /\
  forall i j, (i < 3)%nat -> (j < 3)%nat ->
    is_derive (fun t => mul 3 (shift F H t) (S (strainOf 3 greenLagrangian (shift F H t))) i j) 0 (apply4 3 A H i j).
Proof.
  intros S L F H M Sy D. eexists. split; [reflexivity|]. intros i j Hi Hj.
  assert (E0 : strainOf 3 greenLagrangian (shift F H 0) = strainOf 3 greenLagrangian F).
  { apply functional_extensionality. intros a. apply functional_extensionality. intros b. unfold strainOf, rightCauchyGreenOf, shift. cbn [sum]. f_equal. ring. }
  set (g := fun k t => S (strainOf 3 greenLagrangian (shift F H t)) k j).
  set (dg := fun k => apply4 3 L (fun i j => sum 3 (fun k => (H k i * F k j + F k i * H k j) / 2)) k j).
  assert (Dg : forall k, (k < 3)%nat -> is_derive (g k) 0 (dg k)) by (intros; now apply D).
  assert (G0 : forall k, g k 0 = S (strainOf 3 greenLagrangian F) k j) by (intros; unfold g; now rewrite E0).
  apply (is_derive_ext (fun t => 0 + (F i 0%nat + t * H i 0%nat) * g 0%nat t + (F i 1%nat + t * H i 1%nat) * g 1%nat t + (F i 2%nat + t * H i 2%nat) * g 2%nat t)).
  { intros t. reflexivity. }
  assert (D0 := Dg 0%nat ltac:(lia)). assert (D1 := Dg 1%nat ltac:(lia)). assert (D2 := Dg 2%nat ltac:(lia)). clear Dg D.
  assert (X0 : ex_derive (g 0%nat) 0) by (eexists; exact D0). assert (X1 : ex_derive (g 1%nat) 0) by (eexists; exact D1).
  assert (X2 : ex_derive (g 2%nat) 0) by (eexists; exact D2).
  auto_derive; [tauto|]. change (Derive (fun x => g 0%nat x) 0) with (Derive (g 0%nat) 0). change (Derive (fun x => g 1%nat x) 0) with (Derive (g 1%nat) 0).
  change (Derive (fun x => g 2%nat x) 0) with (Derive (g 2%nat) 0).
  rewrite (is_derive_unique _ _ _ D0), (is_derive_unique _ _ _ D1), (is_derive_unique _ _ _ D2), !G0.
  unfold dg, apply4. cbn -[kron]. 
  assert (Ms : forall a b c e, (a < 3)%nat -> (b < 3)%nat -> (c < 3)%nat -> (e < 3)%nat -> L a b c e = L a b e c) by (intros; now apply M).
  assert (Q := fun a => Ms a j 1%nat 0%nat). assert (Q1 := fun a => Ms a j 2%nat 0%nat). assert (Q2 := fun a => Ms a j 2%nat 1%nat).
  rewrite ?(Q 0%nat), ?(Q 1%nat), ?(Q 2%nat), ?(Q1 0%nat), ?(Q1 1%nat), ?(Q1 2%nat), ?(Q2 0%nat), ?(Q2 1%nat), ?(Q2 2%nat) by lia.
  clear - Hi Hj Sy. revert Sy. generalize (S (strainOf 3 greenLagrangian F)). intros s Sy.
  rewrite (Sy 0%nat j), (Sy 1%nat j), (Sy 2%nat j) by lia. unfold kron. cases i; cbn; field.
Qed.
Print Assumptions C73_two_point.

Example C73_applies : exists L : rtensor4, minorSymmetric 3 L /\
  forall F H i j, (i < 3)%nat -> (j < 3)%nat ->
     is_derive (fun t => isotropicStress 1 1 (strainOf 3 greenLagrangian (shift F H t)) i j) 0
       (apply4 3 L (fun i j => sum 3 (fun k => (H k i * F k j + F k i * H k j) / 2)) i j).
Proof.
  exists (fun i j k l => identity i j * identity k l + identity i k * identity j l + identity i l * identity j k). split.
  - intros i j k l _ _ _ _. assert (X : forall a b, identity a b = identity b a) by (intros; unfold identity; now rewrite Nat.eqb_sym).
    rewrite (X j i), (X l k). split; ring.
  - intros F H i j Hi Hj. unfold isotropicStress, tr, strainOf, rightCauchyGreenOf, shift. cbn [sum].
    cases i; cases j; unfold apply4, identity; cbn; (auto_derive; [auto|field]).
Qed.
