(** C192: forces and stiffness turn with the element, and the stiffness knows rigid motions (models: Element_Model.v, Shell_Model.v). *)

From Coq Require Import Reals Arith Bool List Lia Lra FunctionalExtensionality.
From Coquelicot Require Import Coquelicot.
From Verif Require Import Tensor_Spec Tensor_Model Tensor_Props Conversions_Spec Conversions_Model Conversions_Props Element_Spec Element_Model Element_Proofs Element_Props.
From Verif Require Import Shell_Model Shell_Proofs Shell_Props Objectivity_Spec Objectivity_Props StructureReactions_Props Coordinates_Props EnhancedBody_Props.
Import ListNotations.
Local Open Scope R_scope.

Lemma rotation_orthogonal d Q : rotation d Q -> orthogonal d Q.
Proof. intros (A & B & _). split; assumption. Qed.

(** The rate of f, at the node of entry k, when it turns in the plane of the directions a and b *)
Definition spin (d a b : nat) (f : nat -> R) (k : nat) : R :=
  if (k mod d =? a)%nat then - f (d * (k / d) + b)%nat else if (k mod d =? b)%nat then f (d * (k / d) + a)%nat else 0.

Section Motions.
  Variables (d n : nat) (X : nat -> nat -> R).
  Hypothesis d3 : (0 < d <= 3)%nat.
  Let N := (d * n)%nat.

  Let Hm : forall k, (k mod d < d)%nat.
  Proof. intros. apply Nat.mod_upper_bound. lia. Qed.
  Let Hk : forall (u : nat -> R) k, u (d * (k / d) + k mod d)%nat = u k.
  Proof. intros u k. rewrite <- (Nat.div_mod_eq k d). reflexivity. Qed.

  Lemma moved_shift Q c u : moved d X Q c u = (fun k => turned d Q u k + moved d X Q c zeroVector k).
  Proof.
    apply functional_extensionality. intros k. unfold moved, turned, turnVector, placeOf, zeroVector.
    rewrite (sum_ext d _ (fun b => Q (k mod d) b * (X (k / d)%nat b + 0) + Q (k mod d) b * u (d * (k / d) + b)%nat)) by (intros; ring). rewrite sum_add. ring.
  Qed.
  Lemma shifted_gradient f g x w : isGradient N f g (fun k => x k + w k) -> isGradient N (fun y => f (fun k => y k + w k)) g x.
  Proof.
    intros G c v P. apply (G (fun t k => c t k + w k)). intros k Hk'. destruct (P k Hk') as (A & B). split; [now rewrite A|].
    eapply derive_eq; [apply (is_derive_plus (fun t => c t k) (fun _ => w k) 0 (v k) 0); [exact B|apply @is_derive_const]|]. unfold plus; cbn. ring.
  Qed.
  Lemma turn_apply a b t p (y : nat -> R) : (a < d)%nat -> (b < d)%nat -> a <> b -> (p < d)%nat -> sum d (fun q => turn a b t p q * y q) =
    if (p =? a)%nat then cos t * y a - sin t * y b else if (p =? b)%nat then cos t * y b + sin t * y a else y p.
  Proof.
    intros Ha Hb Hab Hp. rewrite (sum_ext d _ (fun q =>
      if (p =? a)%nat then identity a q * (cos t * y q) - identity b q * (sin t * y q)
      else if (p =? b)%nat then identity b q * (cos t * y q) + identity a q * (sin t * y q) else identity p q * y q)).
    - destruct (Nat.eqb_spec p a), (Nat.eqb_spec p b).
      + lia.
      + rewrite (sum_ext d _ (fun q => identity a q * (cos t * y q) + identity b q * (- sin t * y q))) by (intros; ring).
        rewrite sum_add, !(sum_id_l d _ (fun q => _ * y q)) by assumption. ring.
      + rewrite sum_add, !(sum_id_l d _ (fun q => _ * y q)) by assumption. ring.
      + rewrite !sum_id_l by assumption. reflexivity.
    - intros q Hq. unfold turn, identity. rewrite !(Nat.eqb_sym q).
      destruct (Nat.eqb_spec p a), (Nat.eqb_spec p b), (Nat.eqb_spec a q), (Nat.eqb_spec b q); try lia; ring.
  Qed.
  Lemma translation_passes a u : passes N (fun t => moved d X identity (fun b => if (b =? a)%nat then t else 0) u) u (fun k => if (k mod d =? a)%nat then 1 else 0).
  Proof.
    intros k _. unfold moved. rewrite sum_id_l by apply Hm. unfold placeOf. rewrite Hk. split.
    - destruct (k mod d =? a)%nat; ring.
    - destruct (k mod d =? a)%nat; auto_derive; auto; ring.
  Qed.
  Lemma translation_dot a g : (a < d)%nat -> dot N g (fun k => if (k mod d =? a)%nat then 1 else 0) = sum n (fun i => g (d * i + a)%nat).
  Proof.
    intros Ha. unfold dot, N. rewrite sum_blocks. apply sum_ext. intros i _. rewrite (sum_pick d a); [|assumption|].
    - destruct (Element_Proofs.block_index d i a Ha) as (_ & M). rewrite M, Nat.eqb_refl. ring.
    - intros b Hb Hba. destruct (Element_Proofs.block_index d i b Hb) as (_ & M). rewrite M. destruct (Nat.eqb_spec b a); [lia|ring].
  Qed.
  Section Turn.
    Variables (a b : nat) (u : nat -> R).
    Hypotheses (Ha : (a < d)%nat) (Hb : (b < d)%nat) (Hab : a <> b).
    Let x := placeOf d X u.
    Let v k := if (k mod d =? a)%nat then - x (k / d)%nat b else if (k mod d =? b)%nat then x (k / d)%nat a else 0.
    Lemma turn_passes : passes N (fun t => moved d X (turn a b t) (fun _ => 0) u) u v.
    Proof.
      intros k _. unfold moved. fold x. split.
      - rewrite turn_apply, cos_0, sin_0 by (assumption || apply Hm). unfold x, placeOf.
        destruct (Nat.eqb_spec (k mod d) a) as [E1|]; [rewrite <- E1, Hk; ring|].
        destruct (Nat.eqb_spec (k mod d) b) as [E1|]; [rewrite <- E1|]; rewrite Hk; ring.
      - eapply is_derive_ext; [intros t; symmetry; rewrite turn_apply by (assumption || apply Hm); reflexivity|]. unfold v.
        destruct (Nat.eqb_spec (k mod d) a); [auto_derive; auto; rewrite cos_0, sin_0; ring|].
        destruct (Nat.eqb_spec (k mod d) b); auto_derive; auto; rewrite ?cos_0, ?sin_0; ring.
    Qed.
    Lemma turn_dot g : dot N g v = sum n (fun i => x i a * g (d * i + b)%nat - x i b * g (d * i + a)%nat).
    Proof.
      unfold dot, N. rewrite sum_blocks. apply sum_ext. intros i _.
      rewrite (sum_ext d _ (fun q => identity b q * (g (d * i + q)%nat * x i a) + identity a q * (- (g (d * i + q)%nat * x i b)))).
      - rewrite sum_add, !sum_id_l by assumption. ring.
      - intros q Hq. destruct (Element_Proofs.block_index d i q Hq) as (D & M). unfold v. rewrite M, D. unfold identity. rewrite !(Nat.eqb_sym q).
        destruct (Nat.eqb_spec a q), (Nat.eqb_spec b q); try lia; ring.
    Qed.
    Lemma turned_rate f k : is_derive (fun t => turned d (turn a b t) f k) 0 (spin d a b f k).
    Proof.
      unfold turned, turnVector, spin.
      eapply is_derive_ext; [intros t; symmetry; rewrite (turn_apply a b t (k mod d) (fun q => f (d * (k / d) + q)%nat)) by (assumption || apply Hm); reflexivity|].
      destruct (Nat.eqb_spec (k mod d) a); [auto_derive; auto; rewrite cos_0, sin_0; ring|].
      destruct (Nat.eqb_spec (k mod d) b); auto_derive; auto; rewrite ?cos_0, ?sin_0; ring.
    Qed.
  End Turn.

  (** Forces F and stiffness K of an energy E that rigid motions do not change *)
  Section Energy.
    Variables (E : (nat -> R) -> R) (F : (nat -> R) -> nat -> R) (K : (nat -> R) -> nat -> nat -> R) (good : (nat -> R) -> Prop).
    Hypothesis HF : forall y, good y -> isGradient N E (F y) y.
    Hypothesis HK : forall y, good y -> isJacobian N N F (K y) y.
    Hypothesis HE : forall Q c y, rotation d Q -> E (moved d X Q c y) = E y.
    Hypothesis Hg : forall Q c y, rotation d Q -> good y -> good (moved d X Q c y).

    Theorem C192_forces Q c u k : rotation d Q -> good u -> (k < N)%nat -> F (moved d X Q c u) k = turned d Q (F u) k.
    Proof.
      intros R G Hk'. set (w := moved d X Q c zeroVector).
      apply (gradients_turned d n Q (proj1 d3) (rotation_orthogonal d Q R) E (fun y => E (fun k => y k + w k)) (F u) _ u); [now apply HF|..|exact Hk'].
      - apply (shifted_gradient E). unfold w. rewrite <- moved_shift. now apply HF, Hg.
      - intros c' v _. apply filter_forall. intros t. unfold w. rewrite <- moved_shift. now apply HE.
    Qed.
    Theorem C192_stiffness Q c u k l : rotation d Q -> around N good u -> (k < N)%nat -> (l < N)%nat ->
      K (moved d X Q c u) k l = turnedMatrix d Q (K u) k l.
    Proof.
      intros R Gn Hk' Hl. assert (G : good u) by exact (locally_singleton _ _ (Gn _ _ (fun k _ => conj eq_refl (is_derive_const (u k) 0)))).
      set (w := moved d X Q c zeroVector).
      apply (jacobians_turned d n Q (proj1 d3) (rotation_orthogonal d Q R) F (fun y => F (fun k => y k + w k)) (K u) _ u); [now apply HK|..|exact Hk'|exact Hl].
      - intros j Hj. apply (shifted_gradient (fun y => F y j)). unfold w. rewrite <- moved_shift. now apply HK; [apply Hg|].
      - intros c' v P. generalize (Gn c' v P). apply filter_imp. intros t Gt j Hj. unfold w. rewrite <- moved_shift. now apply C192_forces.
    Qed.
    (** translations cause no forces *)
    Theorem C192_translation a u k : (a < d)%nat -> around N good u -> (k < N)%nat -> sum n (fun i => K u k (d * i + a)%nat) = 0.
    Proof.
      intros Ha Gn Hk'. assert (G : good u) by exact (locally_singleton _ _ (Gn _ _ (fun k _ => conj eq_refl (is_derive_const (u k) 0)))).
      rewrite <- (translation_dot a (K u k) Ha). apply (derive_uniq (fun t => F (moved d X identity (fun b => if (b =? a)%nat then t else 0) u) k)).
      - exact (HK u G k Hk' _ _ (translation_passes a u)).
      - apply (is_derive_ext (fun _ => F u k)); [|apply @is_derive_const]. intros t. symmetry. rewrite C192_forces by (try assumption; now apply identity_rotation).
        unfold turned, turnVector. rewrite (sum_id_l d _ (fun b => F u (d * (k / d) + b)%nat)) by apply Hm. apply Hk.
    Qed.
    (** rotations turn the forces *)
    Theorem C192_rotation a b u k : (a < d)%nat -> (b < d)%nat -> a <> b -> around N good u -> (k < N)%nat ->
      sum n (fun i => placeOf d X u i a * K u k (d * i + b)%nat - placeOf d X u i b * K u k (d * i + a)%nat) = spin d a b (F u) k.
    Proof.
      intros Ha Hb Hab Gn Hk'. assert (G : good u) by exact (locally_singleton _ _ (Gn _ _ (fun k _ => conj eq_refl (is_derive_const (u k) 0)))).
      rewrite <- (turn_dot a b u Ha Hb Hab (K u k)). apply (derive_uniq (fun t => F (moved d X (turn a b t) (fun _ => 0) u) k)).
      - exact (HK u G k Hk' _ _ (turn_passes a b u Ha Hb Hab)).
      - apply (is_derive_ext (fun t => turned d (turn a b t) (F u) k)); [|now apply turned_rate]. intros t. symmetry. apply C192_forces; try assumption.
        apply turn_rotation; try assumption. lia.
    Qed.
  End Energy.
End Motions.

(** What is said of forces F and stiffness K in the state u *)
Definition corotates (d n : nat) (X : nat -> nat -> R) (F : (nat -> R) -> nat -> R) (K : (nat -> R) -> nat -> nat -> R) (u : nat -> R) : Prop :=
  (forall Q c k, rotation d Q -> (k < d * n)%nat -> F (moved d X Q c u) k = turned d Q (F u) k) /\
  (forall Q c k l, rotation d Q -> (k < d * n)%nat -> (l < d * n)%nat -> K (moved d X Q c u) k l = turnedMatrix d Q (K u) k l) /\
  (forall a k, (a < d)%nat -> (k < d * n)%nat -> sum n (fun i => K u k (d * i + a)%nat) = 0) /\
  (forall a b k, (a < d)%nat -> (b < d)%nat -> a <> b -> (k < d * n)%nat ->
     sum n (fun i => placeOf d X u i a * K u k (d * i + b)%nat - placeOf d X u i b * K u k (d * i + a)%nat) = spin d a b (F u) k).

Lemma energy_corotates d n X E F K (good : (nat -> R) -> Prop) u : (0 < d <= 3)%nat ->
  (forall y, good y -> isGradient (d * n) E (F y) y) -> (forall y, good y -> isJacobian (d * n) (d * n) F (K y) y) ->
  (forall Q c y, rotation d Q -> E (moved d X Q c y) = E y) -> (forall Q c y, rotation d Q -> good y -> good (moved d X Q c y)) ->
  around (d * n) good u -> corotates d n X F K u.
Proof.
  intros d3 HF HK HE Hg G.
  assert (G0 : good u) by exact (locally_singleton _ _ (G _ _ (fun k _ => conj eq_refl (is_derive_const (u k) 0)))).
  split; [|split; [|split]]; intros.
  - now apply (C192_forces d n X d3 E F good).
  - now apply (C192_stiffness d n X d3 E F K good).
  - now apply (C192_translation d n X d3 E F K good).
  - now apply (C192_rotation d n X d3 E F K good).
Qed.

(** C192: solids with any hyperelastic material *)
Theorem C192_solid d n X points dN psi stress tangent u : (0 < d <= 3)%nat -> (forall gp, In gp points -> shapeDerivatives d n X dN gp) ->
  around (d * n) (fun y => forall gp, In gp points -> hyperelastic (voigtLength d) psi stress tangent (glStrain d n dN gp y)) u ->
  corotates d n X (fun y => nonlinearVector d n (voigtLength d) points (glStrain d n dN) (glBop d n dN) stress false y zeroVector)
    (fun y => nonlinearMatrix d n (voigtLength d) points (glStrain d n dN) (glBop d n dN) (glKg d dN) stress tangent false y zeroMatrix) u.
Proof.
  intros d3 S G.
  assert (Es : forall gp Q c y, In gp points -> rotation d Q -> glStrain d n dN gp (moved d X Q c y) = glStrain d n dN gp y).
  { intros. apply functional_extensionality. intros m. apply (C100_solid_strains d n X dN d3); auto. }
  apply (energy_corotates d n X (nonlinearScalar points (glStrain d n dN) psi false)
    _ _ (fun y => forall gp, In gp points -> hyperelastic (voigtLength d) psi stress tangent (glStrain d n dN gp y))); try assumption.
  - intros y H. apply (C96_nonlinear_forces d n (voigtLength d) points (proj1 d3) (glStrain d n dN) (glBop d n dN) (glKg d dN) psi stress tangent y).
    intros gp Hgp. split; [apply C96_green_lagrange; lia|apply H, Hgp].
  - intros y H. apply (C96_nonlinear_stiffness d n (voigtLength d) points (proj1 d3) (glStrain d n dN) (glBop d n dN) (glKg d dN) psi stress tangent y).
    intros gp Hgp. split; [apply C96_green_lagrange; lia|apply H, Hgp].
  - intros Q c y R. cbn [nonlinearScalar]. rewrite !energy_sum. apply sumP_ext. intros gp Hgp. now rewrite Es.
  - intros Q c y R H gp Hgp. rewrite Es by assumption. now apply H.
Qed.

Lemma cross_derivable (f g : nat -> R -> R) : (forall k, (k < 3)%nat -> ex_derive (f k) 0) -> (forall k, (k < 3)%nat -> ex_derive (g k) 0) ->
  ex_derive (fun t => squaredNorm (cross (fun k => f k t) (fun k => g k t))) 0.
Proof.
  intros F G. assert (F0 := F 0%nat ltac:(lia)). assert (F1 := F 1%nat ltac:(lia)). assert (F2 := F 2%nat ltac:(lia)).
  assert (G0 := G 0%nat ltac:(lia)). assert (G1 := G 1%nat ltac:(lia)). assert (G2 := G 2%nat ltac:(lia)). clear F G.
  unfold squaredNorm, dot. cbn [sum cross]. revert F0 F1 F2 G0 G1 G2.
  generalize (f 0%nat) (f 1%nat) (f 2%nat) (g 0%nat) (g 1%nat) (g 2%nat). intros f0 f1 f2 g0 g1 g2 F0 F1 F2 G0 G1 G2.
  auto_derive. repeat split; assumption.
Qed.
(** surfaces close to an immersed one are immersed *)
Lemma immersed_around n points J dN u : immersed n points J dN u -> around (3 * n) (immersed n points J dN) u.
Proof.
  intros Hi c v P.
  assert (D : forall gp a k, (k < 3)%nat -> ex_derive (fun t => jcur n J dN gp (c t) a k) 0).
  { intros gp a k Hk. unfold jcur, gradu. apply @ex_derive_plus; [apply @ex_derive_const|].
    assert (G : forall m, (m <= n)%nat -> ex_derive (fun t => sum m (fun i => c t (3 * i + k)%nat * dN gp i a)) 0).
    { induction m as [|m IH]; intros Hm; cbn [sum]; [apply @ex_derive_const|]. apply @ex_derive_plus; [apply IH; lia|].
      apply ex_derive_mult; [exists (v (3 * m + k)%nat); apply P; lia|apply @ex_derive_const]. }
    apply G. lia. }
  assert (Start : forall gp a k, (k < 3)%nat -> jcur n J dN gp (c 0) a k = jcur n J dN gp u a k).
  { intros gp a k Hk. unfold jcur, gradu. f_equal. apply sum_ext. intros i Hin. f_equal. apply P. lia. }
  unfold immersed in *. induction points as [|gp l IH].
  - apply filter_forall. intros t gp [].
  - assert (A : locally 0 (fun t => 0 < squaredNorm (cross (jcur n J dN gp (c t) 0) (jcur n J dN gp (c t) 1)))).
    { apply (ex_derive_continuous (fun t => squaredNorm (cross (jcur n J dN gp (c t) 0) (jcur n J dN gp (c t) 1))) 0).
      - apply (cross_derivable (fun k t => jcur n J dN gp (c t) 0 k) (fun k t => jcur n J dN gp (c t) 1 k)); intros; apply D; assumption.
      - apply (open_gt 0). specialize (Hi gp (or_introl eq_refl)). unfold squaredNorm, dot in *. cbn [sum cross] in *. rewrite !Start by lia. exact Hi. }
    generalize (filter_and _ _ A (IH (fun gp' H => Hi gp' (or_intror H)))). apply filter_imp. intros t (A1 & A2) gp' [<-|H]; [exact A1|now apply A2].
Qed.

(** C192: Kirchhoff-Love shells *)
Theorem C192_shell n X points emodul nu thickness J H B dN ddN inverse u : inverted points J inverse ->
  (forall gp, In gp points -> isoparametric n J H dN ddN X gp) -> immersed n points J dN u ->
  corotates 3 n X (fun y => shellVector n points emodul nu thickness J H B dN ddN inverse y zeroVector)
    (fun y => shellMatrix n points emodul nu thickness J H B dN ddN inverse y zeroMatrix) u.
Proof.
  intros I S G0. assert (G := immersed_around n points J dN u G0). apply (energy_corotates 3 n X (shellScalar n points emodul nu thickness J H B dN ddN inverse) _ _ (immersed n points J dN)); try assumption; [lia|..].
  - intros y Hy. now apply C99_forces.
  - intros y Hy. now apply C99_stiffness.
  - intros Q c y R. now apply C100_shell_energy.
  - intros Q c y R Hy gp Hgp.
    assert (E : squaredNorm (a3N n J dN gp (moved 3 X Q c y)) = squaredNorm (a3N n J dN gp y)).
    { unfold squaredNorm. etransitivity; [|exact (Objectivity_Props.dot_turned Q _ _ R)]. apply dot_ext; intros; apply (normal_moved n J H dN ddN X); auto. }
    unfold a3N in E. rewrite E. now apply Hy.
Qed.

(** C192: without forces the stiffness does not resist small rigid rotations either *)
Theorem C192_unstressed d n X F K u a b k : (0 < d)%nat -> corotates d n X F K u -> (forall j, (j < d * n)%nat -> F u j = 0) ->
  (a < d)%nat -> (b < d)%nat -> a <> b -> (k < d * n)%nat ->
  sum n (fun i => placeOf d X u i a * K u k (d * i + b)%nat - placeOf d X u i b * K u k (d * i + a)%nat) = 0.
Proof.
  intros dpos (_ & _ & _ & C) Z Ha Hb Hab Hk. rewrite C by assumption. unfold spin.
  assert (k / d < n)%nat by (apply Nat.div_lt_upper_bound; [lia|exact Hk]).
  destruct (k mod d =? a)%nat; [rewrite Z by nia; ring|]. destruct (k mod d =? b)%nat; [apply Z; nia|reflexivity].
Qed.

(** The unit square of Hooke's law is suitable in all states; a flat shell over it is isoparametric and immersed *)
Definition squarePlace (i k : nat) : R := if (k <? 2)%nat then cornerPlace i k else 0.
Example C192_applies lambda mu points u :
  let dN gp := bilinear (position gp 0%nat) (position gp 1%nat) in
  let C (_ : nat -> R) := hooke 2 lambda mu in
  let ddN (gp : point) i m := if (m =? 2)%nat then nth i [1; - (1); - (1); 1] 0 else 0 in
  let J (gp : point) := identity in
  (forall gp, In gp points -> shapeDerivatives 2 4 cornerPlace dN gp) /\
  around (2 * 4) (fun y => forall gp, In gp points -> hyperelastic 3 (linearEnergy 3 (fun _ => hooke 2 lambda mu)) (linearStress_ 3 (fun _ => hooke 2 lambda mu)) C (glStrain 2 4 dN gp y)) u /\
  rotation 2 quarter /\
  (forall gp, isoparametric 4 J (fun _ _ _ => 0) dN ddN squarePlace gp) /\ immersed 4 points J dN zeroVector.
Proof.
  intros dN C ddN J. split; [intros gp _; apply (bilinear_shapes (position gp 0%nat) (position gp 1%nat) gp)|].
  split; [intros c v _; apply filter_forall; intros t gp _; apply quadratic_hyperelastic; apply CondensedCoordinates_Props.hooke_symmetric|].
  split; [split; [|split; [|cbn; ring]]; intros i j Hi Hj; destruct i as [|[|i]]; try lia; destruct j as [|[|j]]; try lia; unfold mul, transpose, identity; cbn; ring|].
  split.
  - intros gp. split.
    + intros a Ha. split; [destruct a as [|[|a]]; try lia; cbn; ring|]. intros k Hk.
      destruct a as [|[|a]]; try lia; destruct k as [|[|[|k]]]; try lia; unfold J, squarePlace, identity; cbn; ring.
    + intros m Hm. split; [destruct m as [|[|[|m]]]; try lia; cbn; ring|]. intros k Hk.
      destruct m as [|[|[|m]]]; try lia; destruct k as [|[|[|k]]]; try lia; unfold squarePlace; cbn; ring.
  - intros gp _. unfold squaredNorm, dot. cbn [sum cross]. unfold jcur, gradu.
    rewrite !(sum_zero 4) by (intros; unfold zeroVector; ring). unfold J, identity. cbn. lra.
Qed.

Print Assumptions C192_forces.
Print Assumptions C192_stiffness.
Print Assumptions C192_translation.
Print Assumptions C192_rotation.
Print Assumptions C192_solid.
Print Assumptions C192_shell.
Print Assumptions C192_unstressed.
