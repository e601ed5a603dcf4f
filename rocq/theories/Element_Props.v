(** Properties C96, C97, C98 and C101: solid elements, loads and their composition. *)

From Coq Require Import Reals Arith Bool List Lia Lra.
From Coquelicot Require Import Coquelicot.
From Verif Require Import Tensor_Spec Conversions_Spec Conversions_Props Tensor_Model Element_Spec Element_Model Element_Proofs.
Import ListNotations.
Local Open Scope R_scope.

Definition zeroVector (k : nat) : R := 0.
Definition zeroMatrix (k l : nat) : R := 0.

Section Nonlinear.
  Variables (d n s : nat) (points : list point).
  Hypothesis dpos : (0 < d)%nat.
  Variable eps : point -> (nat -> R) -> nat -> R.
  Variable bop : point -> (nat -> R) -> nat -> nat -> nat -> R.
  Variable kg : point -> (nat -> R) -> (nat -> R) -> nat -> nat -> nat -> nat -> R.
  Variables (psi : (nat -> R) -> R) (stress : (nat -> R) -> nat -> R) (tangent : (nat -> R) -> nat -> nat -> R).
  Let N := (d * n)%nat.

  (** C96: the internal forces are the gradient of the energy *)
  Theorem C96_nonlinear_forces u :
    (forall gp, In gp points -> strainExpression d n s eps bop kg gp u /\ hyperelastic s psi stress tangent (eps gp u)) ->
    isGradient N (nonlinearScalar points eps psi false) (nonlinearVector d n s points eps bop stress false u zeroVector) u.
  Proof.
    intros H.
    apply (gradient_ext N (fun y => sumP points (fun gp => psi (eps gp y) * vol gp)) _
             (fun k => sumP points (fun gp => pointVector d s bop (stress (eps gp u)) gp u k))).
    - apply (gradient_sumP N points (fun gp y => psi (eps gp y) * vol gp) (fun gp k => pointVector d s bop (stress (eps gp u)) gp u k)).
      intros gp Hgp. destruct (H gp Hgp) as ((Hd & Hs) & Hp & _).
      apply (point_energy d n s eps bop psi stress gp u Hd Hp).
    - intros y. symmetry. apply energy_sum.
    - intros k Hk. unfold nonlinearVector. rewrite (vector_sum d n s points dpos) by assumption. unfold zeroVector. ring.
  Qed.

  (** C96: the stiffness matrix is the Jacobian of the internal forces *)
  Theorem C96_nonlinear_stiffness u :
    (forall gp, In gp points -> strainExpression d n s eps bop kg gp u /\ hyperelastic s psi stress tangent (eps gp u)) ->
    isJacobian N N (fun y => nonlinearVector d n s points eps bop stress false y zeroVector)
      (nonlinearMatrix d n s points eps bop kg stress tangent false u zeroMatrix) u.
  Proof.
    intros H k Hk.
    apply (gradient_ext N (fun y => sumP points (fun gp => pointVector d s bop (stress (eps gp y)) gp y k)) _
             (fun l => sumP points (fun gp => pointMatrix d s bop kg (stress (eps gp u)) (tangent (eps gp u)) gp u k l))).
    - apply (gradient_sumP N points (fun gp y => pointVector d s bop (stress (eps gp y)) gp y k)
               (fun gp l => pointMatrix d s bop kg (stress (eps gp u)) (tangent (eps gp u)) gp u k l)).
      intros gp Hgp. destruct (H gp Hgp) as ((Hd & Hs) & Hp & Ht).
      apply (point_forces d n s eps bop kg stress tangent gp u Hd Hs Ht k Hk).
    - intros y. unfold nonlinearVector. rewrite (vector_sum d n s points dpos) by assumption. unfold zeroVector. ring.
    - intros l Hl. rewrite (matrix_sum d n s points dpos) by assumption. unfold zeroMatrix. ring.
  Qed.

  (** C96: the element adds to the vector and the matrix that it is given *)
  Theorem C96_nonlinear_adds u force K k l : (k < N)%nat -> (l < N)%nat ->
    nonlinearVector d n s points eps bop stress false u force k =
      force k + nonlinearVector d n s points eps bop stress false u zeroVector k /\
    nonlinearMatrix d n s points eps bop kg stress tangent false u K k l =
      K k l + nonlinearMatrix d n s points eps bop kg stress tangent false u zeroMatrix k l.
  Proof.
    intros Hk Hl. unfold nonlinearVector. rewrite !(vector_sum d n s points dpos), !(matrix_sum d n s points dpos) by assumption.
    unfold zeroVector, zeroMatrix. split; ring.
  Qed.

  (** C96: the stiffness matrix is symmetric if the moduli and the second derivatives of the strain are *)
  Theorem C96_nonlinear_symmetric u :
    (forall gp, In gp points -> symmetric s (tangent (eps gp u)) /\
       (forall S i j a b, kg gp u S i j a b = kg gp u S j i b a)) ->
    symmetric N (nonlinearMatrix d n s points eps bop kg stress tangent false u zeroMatrix).
  Proof.
    intros H k l Hk Hl. rewrite !(matrix_sum d n s points dpos) by assumption. f_equal. apply sumP_ext. intros gp Hgp.
    destruct (H gp Hgp) as (Hc & Hg). unfold pointMatrix. rewrite (Hg _ (k / d)%nat). f_equal. f_equal.
    rewrite sum_swap. apply sum_ext. intros p Hp. apply sum_ext. intros q Hq. rewrite (Hc q p) by assumption. ring.
  Qed.
End Nonlinear.
Print Assumptions C96_nonlinear_forces.
Print Assumptions C96_nonlinear_stiffness.
Print Assumptions C96_nonlinear_adds.
Print Assumptions C96_nonlinear_symmetric.

Section Linear.
  Variables (d n s : nat) (points : list point).
  Hypothesis dpos : (0 < d)%nat.
  Variable eps : point -> (nat -> R) -> nat -> R.
  Variable bop : point -> (nat -> R) -> nat -> nat -> nat -> R.
  Variable C : nat -> nat -> R.
  Hypothesis Csym : symmetric s C.
  Let N := (d * n)%nat.

  Lemma quadratic_gradient e : isGradient s (linearEnergy s (fun _ => C)) (linearStress_ s (fun _ => C) e) e.
  Proof.
    intros c v P. unfold linearEnergy, linearStress_.
    apply (is_derive_ext (fun t => sum s (fun k => sum s (fun l => c t k * (C k l * c t l) * (1 / 2))))).
    { intros t. unfold dot, apply. rewrite <- sum_mul_l. apply sum_ext. intros k _. rewrite sum_mul_r, sum_mul_l.
      match goal with |- ?a = ?b => change (@eq R a b) end. ring. }
    apply (derive_eq _ (sum s (fun k => sum s (fun l => (v k * (C k l * e l) + e k * (C k l * v l)) * (1 / 2))))).
    - apply (derive_sum s (fun k t => sum s (fun l => c t k * (C k l * c t l) * (1 / 2)))). intros k Hk.
      apply (derive_sum s (fun l t => c t k * (C k l * c t l) * (1 / 2))). intros l Hl. apply derive_scale.
      destruct (P k Hk) as (E1 & D1). destruct (P l Hl) as (E2 & D2).
      eapply derive_eq; [apply (derive_mult (fun t => c t k) (fun t => C k l * c t l)); [exact D1|]|].
      + apply (is_derive_ext (fun t => c t l * C k l)); [intros; apply Rmult_comm|]. apply derive_scale. exact D2.
      + cbv beta. rewrite E1, E2. match goal with |- ?a = ?b => change (@eq R a b) end. ring.
    - unfold dot, apply.
      transitivity (1 / 2 * sum s (fun k => sum s (fun l => v k * (C k l * e l))) + 1 / 2 * sum s (fun k => sum s (fun l => e k * (C k l * v l)))).
      + rewrite <- !sum_mul_l, <- sum_add. apply sum_ext. intros k _. rewrite <- !sum_mul_l, <- sum_add. apply sum_ext. intros. ring.
      + rewrite (sum_swap s s (fun k l => e k * (C k l * v l))).
        rewrite <- !sum_mul_l, <- sum_add. apply sum_ext. intros k Hk.
        rewrite <- !sum_mul_l, <- sum_add, <- sum_mul_r. apply sum_ext. intros l Hl. rewrite (Csym l k) by assumption. field.
  Qed.

  Lemma quadratic_jacobian e : isJacobian s s (linearStress_ s (fun _ => C)) C e.
  Proof.
    intros k Hk c v P. unfold linearStress_, apply.
    apply (derive_sum s (fun l t => C k l * c t l)). intros l Hl.
    apply (is_derive_ext (fun t => c t l * C k l)); [intros; apply Rmult_comm|]. rewrite Rmult_comm. apply derive_scale. apply P, Hl.
  Qed.

  Lemma quadratic_hyperelastic e : hyperelastic s (linearEnergy s (fun _ => C)) (linearStress_ s (fun _ => C)) (fun _ => C) e.
  Proof. split; [apply quadratic_gradient|apply quadratic_jacobian]. Qed.

  (** A linear strain: its derivative does not depend on the displacements *)
  Definition linearStrain (gp : point) : Prop :=
    (forall u m, (m < s)%nat -> isGradient N (fun y => eps gp y m) (fun k => bop gp u (k / d) m (k mod d)) u)%nat /\
    (forall u u' k m, (m < s)%nat -> (k < N)%nat -> bop gp u (k / d) m (k mod d) = bop gp u' (k / d) m (k mod d))%nat.

  Definition noKg (gp : point) (u S : nat -> R) (i j a b : nat) : R := 0.

  Lemma linear_expression gp u : linearStrain gp -> strainExpression d n s eps bop noKg gp u.
  Proof.
    intros (H1 & H2). split; [apply H1|]. intros S k Hk c v P. apply (derive_eq _ 0).
    - apply (is_derive_ext (fun _ => sum s (fun m => S m * bop gp u (k / d)%nat m (k mod d)))); [|apply @is_derive_const].
      intros t. apply sum_ext. intros m Hm. rewrite (H2 u (c t)) by assumption. reflexivity.
    - symmetry. apply sum_zero. intros. unfold noKg. ring.
  Qed.

  (** C96: the same for the linear element *)
  Theorem C96_linear_forces u : (forall gp, In gp points -> linearStrain gp) ->
    isGradient N (linearScalar s points eps (fun _ => C) false) (linearVector d n s points eps bop (fun _ => C) false u zeroVector) u.
  Proof.
    intros H.
    apply (C96_nonlinear_forces d n s points dpos eps bop noKg (linearEnergy s (fun _ => C)) (linearStress_ s (fun _ => C)) (fun _ => C) u).
    intros gp Hgp. split; [apply linear_expression, H, Hgp|apply quadratic_hyperelastic].
  Qed.

  Theorem C96_linear_stiffness u : (forall gp, In gp points -> linearStrain gp) ->
    isJacobian N N (fun y => linearVector d n s points eps bop (fun _ => C) false y zeroVector)
      (linearMatrix d n s points eps bop (fun _ => C) false u zeroMatrix) u.
  Proof.
    intros H k Hk.
    assert (Q := C96_nonlinear_stiffness d n s points dpos eps bop noKg (linearEnergy s (fun _ => C)) (linearStress_ s (fun _ => C)) (fun _ => C) u).
    eapply gradient_ext.
    - apply Q; [|exact Hk]. intros gp Hgp. split; [apply linear_expression, H, Hgp|apply quadratic_hyperelastic].
    - reflexivity.
    - intros l Hl. rewrite (matrix_sum d n s points dpos), (linear_matrix_sum d n s points dpos) by assumption.
      f_equal. apply sumP_ext. intros gp _. unfold pointMatrix, noKg. ring.
  Qed.

  Theorem C96_linear_symmetric u : symmetric N (linearMatrix d n s points eps bop (fun _ => C) false u zeroMatrix).
  Proof.
    intros k l Hk Hl. rewrite !(linear_matrix_sum d n s points dpos) by assumption. f_equal. apply sumP_ext. intros gp _. f_equal.
    rewrite sum_swap. apply sum_ext. intros p Hp. apply sum_ext. intros q Hq. rewrite (Csym q p) by assumption. ring.
  Qed.

  Theorem C96_linear_adds u force K k l : (k < N)%nat -> (l < N)%nat ->
    linearVector d n s points eps bop (fun _ => C) false u force k =
      force k + linearVector d n s points eps bop (fun _ => C) false u zeroVector k /\
    linearMatrix d n s points eps bop (fun _ => C) false u K k l =
      K k l + linearMatrix d n s points eps bop (fun _ => C) false u zeroMatrix k l.
  Proof.
    intros Hk Hl. unfold linearVector. rewrite !(vector_sum d n s points dpos), !(linear_matrix_sum d n s points dpos) by assumption.
    unfold zeroVector, zeroMatrix. split; ring.
  Qed.
End Linear.
Print Assumptions C96_linear_forces.
Print Assumptions C96_linear_stiffness.
Print Assumptions C96_linear_symmetric.
Print Assumptions C96_linear_adds.

(** The Green-Lagrange strains of a displacement field, an expression of dune-localfefunctions *)
Section GreenLagrange.
  Variables (d n : nat).
  Hypothesis dpos : (0 < d)%nat.
  Variable dN : point -> nat -> nat -> R.
  Let N := (d * n)%nat.
  Let s := voigtLength d.

  Definition glStrain (gp : point) (u : nat -> R) : nat -> R :=
    strainVector d (greenLagrangeOf d (displacementGradientOf d n (dN gp) u)).
  (** the derivative of entry (a, b) of the strain with respect to direction k of node i *)
  Definition glFirst (gp : point) (u : nat -> R) (i k a b : nat) : R :=
    let F k a := identity k a + displacementGradientOf d n (dN gp) u k a in
    / 2 * (F k a * dN gp i b + F k b * dN gp i a).
  Definition glBop (gp : point) (u : nat -> R) (i m k : nat) : R := strainVector d (glFirst gp u i k) m.
  Definition glSecond (gp : point) (i j k l a b : nat) : R :=
    / 2 * identity k l * (dN gp j a * dN gp i b + dN gp j b * dN gp i a).
  Definition glKg (gp : point) (u S : nat -> R) (i j k l : nat) : R :=
    sum s (fun m => S m * strainVector d (glSecond gp i j k l) m).

  Lemma gradient_H gp u k a : (k < d)%nat ->
    isGradient N (fun y => displacementGradientOf d n (dN gp) y k a) (fun l => identity (l mod d) k * dN gp (l / d)%nat a) u.
  Proof. intros Hk. apply (gradient_interpolation d n (fun i => dN gp i a)), Hk. Qed.

  Lemma gradient_E gp u a b : (a < d)%nat -> (b < d)%nat ->
    isGradient N (fun y => greenLagrangeOf d (displacementGradientOf d n (dN gp) y) a b) (fun l => glFirst gp u (l / d) (l mod d) a b)%nat u.
  Proof.
    intros Ha Hb. unfold greenLagrangeOf. set (H y := displacementGradientOf d n (dN gp) y).
    assert (G1 := gradient_plus _ _ _ _ _ u (gradient_H gp u a b Ha) (gradient_H gp u b a Hb)).
    assert (G2 := gradient_sum N d (fun k y => H y k a * H y k b) _ u
      (fun k Hk => gradient_mult _ _ _ _ _ u (gradient_H gp u k a Hk) (gradient_H gp u k b Hk))).
    assert (G3 := gradient_scale _ _ _ u (/ 2) (gradient_plus _ _ _ _ _ u G1 G2)).
    eapply gradient_ext; [exact G3|intros; cbv beta; apply Rmult_comm|].
    intros l Hl. cbv beta. unfold glFirst. fold (H u).
    assert (Hm : (l mod d < d)%nat) by (apply Nat.mod_upper_bound; lia).
    rewrite (sum_pick d (l mod d)); [|assumption|].
    - unfold identity at 3 4. rewrite Nat.eqb_refl. unfold H. ring.
    - intros k _ Nk. unfold identity. destruct (Nat.eqb_spec (l mod d) k); [congruence|]. ring.
  Qed.

  Lemma component_bound m : (d <= 3)%nat -> (fst (component d m) < d /\ snd (component d m) < d)%nat.
  Proof.
    intros H. unfold component. destruct d as [|[|[|[|d']]]]; [lia|..|lia]; destruct m as [|[|[|[|[|[|m]]]]]]; cbn; lia.
  Qed.

  (** C96: the expression meets the contract; the second derivatives are symmetric *)
  Theorem C96_green_lagrange gp u : (d <= 3)%nat ->
    strainExpression d n s glStrain glBop glKg gp u /\ (forall S i j a b, glKg gp u S i j a b = glKg gp u S j i b a).
  Proof.
    intros H3. split; [split|].
    - intros m Hm. unfold glStrain, glBop, strainVector. destruct (component_bound m H3) as (Ha & Hb).
      destruct (component d m) as (a, b). cbn [fst snd] in *. destruct (Nat.eqb_spec a b) as [E|E].
      + apply gradient_E; assumption.
      + eapply gradient_ext; [exact (gradient_scale _ _ _ _ 2 (gradient_E gp u a b Ha Hb))|intros; cbv beta; apply Rmult_comm|].
        intros; cbv beta; apply Rmult_comm.
    - intros S k Hk. unfold glKg.
      apply (gradient_sum N s (fun m y => S m * glBop gp y (k / d)%nat m (k mod d))
        (fun m l => S m * strainVector d (glSecond gp (k / d)%nat (l / d)%nat (k mod d) (l mod d)) m)).
      intros m Hm.
      assert (Q : isGradient N (fun y => glBop gp y (k / d)%nat m (k mod d))
                    (fun l => strainVector d (glSecond gp (k / d) (l / d) (k mod d) (l mod d)) m)%nat u).
      { unfold glBop, strainVector. destruct (component_bound m H3) as (Ha & Hb). destruct (component d m) as (a, b). cbn [fst snd] in *.
        assert (Hkd : (k mod d < d)%nat) by (apply Nat.mod_upper_bound; lia).
        assert (Q : isGradient N (fun y => glFirst gp y (k / d)%nat (k mod d) a b)
                    (fun l => glSecond gp (k / d) (l / d) (k mod d) (l mod d) a b)%nat u).
        { unfold glFirst. cbv zeta.
          assert (F : forall b', (b' < d)%nat -> isGradient N (fun y => identity (k mod d) b' + displacementGradientOf d n (dN gp) y (k mod d) b')
                          (fun l => 0 + identity (l mod d) (k mod d) * dN gp (l / d)%nat b') u).
          { intros b' Hb'. apply gradient_plus; [apply gradient_const|apply gradient_H, Hkd]. }
          assert (G := gradient_scale _ _ _ u (/ 2) (gradient_plus _ _ _ _ _ u
            (gradient_scale _ _ _ u (dN gp (k / d)%nat b) (F a Ha)) (gradient_scale _ _ _ u (dN gp (k / d)%nat a) (F b Hb)))).
          eapply gradient_ext; [exact G|intros; cbv beta; apply Rmult_comm|].
          intros l _. cbv beta. unfold glSecond. replace (identity (l mod d) (k mod d)) with (identity (k mod d) (l mod d))
            by (unfold identity; rewrite Nat.eqb_sym; reflexivity). ring. }
        destruct (Nat.eqb_spec a b) as [E|E]; [exact Q|].
        eapply gradient_ext; [exact (gradient_scale _ _ _ _ 2 Q)|intros; cbv beta; apply Rmult_comm|intros; cbv beta; apply Rmult_comm]. }
      eapply gradient_ext; [exact (gradient_scale _ _ _ _ (S m) Q)|intros; cbv beta; apply Rmult_comm|intros; cbv beta; apply Rmult_comm].
    - intros S i j a b. unfold glKg. apply sum_ext. intros m _. f_equal. unfold strainVector. destruct (component d m) as (p, q).
      replace (glSecond gp j i b a p q) with (glSecond gp i j a b p q); [reflexivity|].
      unfold glSecond, identity. rewrite (Nat.eqb_sym b a). ring.
  Qed.
End GreenLagrange.
Print Assumptions C96_green_lagrange.

(** C96: so for a St.Venant-Kirchhoff material, of any symmetric moduli, all of it holds, for every state *)
Theorem C96_svk d n points dN C u : (0 < d <= 3)%nat -> symmetric (voigtLength d) C ->
  let s := voigtLength d in
  let psi := linearEnergy s (fun _ => C) in
  let stress := linearStress_ s (fun _ => C) in
  isGradient (d * n) (nonlinearScalar points (glStrain d n dN) psi false)
    (nonlinearVector d n s points (glStrain d n dN) (glBop d n dN) stress false u zeroVector) u /\
  isJacobian (d * n) (d * n) (fun y => nonlinearVector d n s points (glStrain d n dN) (glBop d n dN) stress false y zeroVector)
    (nonlinearMatrix d n s points (glStrain d n dN) (glBop d n dN) (glKg d dN) stress (fun _ => C) false u zeroMatrix) u /\
  symmetric (d * n) (nonlinearMatrix d n s points (glStrain d n dN) (glBop d n dN) (glKg d dN) stress (fun _ => C) false u zeroMatrix).
Proof.
  intros (P & H3) Csym s psi stress.
  assert (H : forall gp, In gp points -> strainExpression d n s (glStrain d n dN) (glBop d n dN) (glKg d dN) gp u /\
    hyperelastic s psi stress (fun _ => C) (glStrain d n dN gp u)).
  { intros gp _. split; [apply C96_green_lagrange; assumption|apply quadratic_hyperelastic; assumption]. }
  split; [|split].
  - eapply C96_nonlinear_forces; eassumption.
  - eapply C96_nonlinear_stiffness; eassumption.
  - apply C96_nonlinear_symmetric; [assumption|]. intros gp _. split; [assumption|]. apply (C96_green_lagrange d n P dN gp u H3).
Qed.
Print Assumptions C96_svk.

(** A bar of one node at its quadrature point: stretching it costs energy, and the force is not linear in the displacement *)
Example C96_applies :
  let p := {| position := fun _ => 0; integrationElement := 1; weight := 2 |} in
  let v u := nonlinearVector 1 1 1 [p] (glStrain 1 1 (fun _ _ _ => 1)) (glBop 1 1 (fun _ _ _ => 1))
    (linearStress_ 1 (fun _ _ _ => 3)) false (fun _ => u) zeroVector 0%nat in
  v 1 = 18 /\ v 2 = 72.
Proof.
  cbn. unfold addSegment, glBop, glStrain, linearStress_, strainVector, glFirst, greenLagrangeOf, displacementGradientOf, identity, apply, zeroVector. cbn.
  split; field.
Qed.

Section Loads.
  Variables (w n : nat).
  Hypothesis wpos : (0 < w)%nat.
  Variable shape : point -> nat -> R.
  Let N := (w * n)%nat.

  Lemma pointEnergy_shift f lambda u points e :
    fold_left (pointEnergy w n shape f lambda u) points e =
    e + sumP points (fun gp => - (dot w (displacement w n shape gp u) (f (position gp) lambda) * vol gp)).
  Proof.
    rewrite <- fold_scalar. revert e. induction points as [|x l IH]; intros e; [reflexivity|]. cbn [fold_left].
    rewrite IH. f_equal. unfold pointEnergy, vol. ring.
  Qed.

  Lemma pointForce_at f lambda force gp k : (k < N)%nat ->
    pointForce w n shape f lambda force gp k = force k + - (shape gp (k / w)%nat * f (position gp) lambda (k mod w) * vol gp).
  Proof.
    intros Hk. unfold pointForce. cbv zeta.
    rewrite (loop_segments w n (fun i a => - (apply w (displacementDerivative shape gp i) (f (position gp) lambda) a * (integrationElement gp * weight gp)))) by assumption.
    destruct (Nat.ltb_spec (k / w) n) as [L|L]; [|apply div_small in Hk; [lia|assumption]].
    f_equal. f_equal. unfold vol. f_equal. unfold apply, displacementDerivative.
    rewrite (sum_ext w _ (fun b => identity (k mod w) b * (shape gp (k / w)%nat * f (position gp) lambda b))) by (intros; ring).
    apply sum_id_l, Nat.mod_upper_bound. lia.
  Qed.

  Lemma pointForce_fold f lambda force points k : (k < N)%nat ->
    fold_left (pointForce w n shape f lambda) points force k =
    force k + sumP points (fun gp => - (shape gp (k / w)%nat * f (position gp) lambda (k mod w) * vol gp)).
  Proof.
    intros Hk. apply (fold_vector points (pointForce w n shape f lambda) force (fun gp k => - (shape gp (k / w)%nat * f (position gp) lambda (k mod w) * vol gp))).
    intros. apply pointForce_at, Hk.
  Qed.

  Lemma gradient_work (f : (nat -> R) -> R -> nat -> R) lambda u points :
    isGradient N (fun y => sumP points (fun gp => - (dot w (displacement w n shape gp y) (f (position gp) lambda) * vol gp)))
      (fun k => sumP points (fun gp => - (shape gp (k / w)%nat * f (position gp) lambda (k mod w) * vol gp))) u.
  Proof.
    apply (gradient_sumP N points (fun gp y => - (dot w (displacement w n shape gp y) (f (position gp) lambda) * vol gp))
             (fun gp k => - (shape gp (k / w)%nat * f (position gp) lambda (k mod w) * vol gp))).
    intros gp _. set (F := f (position gp) lambda).
    assert (G := gradient_sum N w (fun a y => displacement w n shape gp y a * F a) (fun a l => identity (l mod w) a * shape gp (l / w)%nat * F a) u).
    assert (G' := G ltac:(intros a Ha; apply gradient_scale; eapply gradient_ext; [exact (gradient_interpolation w n (shape gp) a u Ha)
      |intros y; apply sum_ext; intros; apply Rmult_comm|reflexivity])).
    eapply gradient_ext; [exact (gradient_scale _ _ _ _ (- vol gp) G')|..].
    - intros y. cbv beta. unfold dot. ring.
    - intros k Hk. cbv beta.
      rewrite (sum_ext w _ (fun a => identity (k mod w) a * (shape gp (k / w)%nat * F a))) by (intros; ring).
      rewrite sum_id_l by (apply Nat.mod_upper_bound; lia). ring.
  Qed.

  (** C97: the forces of a volume load are the gradient of its potential, do not depend on the displacements, and are added *)
  Theorem C97_volume_gradient load points lambda u :
    isGradient N (volumeScalar w n shape load points lambda) (volumeVector w n shape load points lambda u zeroVector) u.
  Proof.
    destruct load as [f|]; [|apply gradient_const].
    eapply gradient_ext; [apply (gradient_work f lambda u points)|..].
    - intros y. cbn. rewrite pointEnergy_shift. ring.
    - intros k Hk. cbn. rewrite pointForce_fold by assumption. unfold zeroVector. ring.
  Qed.

  Lemma sum_is0 m (g : nat -> R) : (forall k, (k < m)%nat -> g k = 0) -> sum m g = 0.
  Proof.
    induction m as [|m IH]; intros H; [reflexivity|]. cbn. rewrite IH by (intros; apply H; lia). rewrite H by lia. ring.
  Qed.

  (** C97: without a load nothing is stored, and a load has no potential at the undeformed state *)
  Theorem C97_volume_reference load points lambda u : load = None \/ (forall k, u k = 0) -> volumeScalar w n shape load points lambda u = 0.
  Proof.
    intros [->|Z]; [reflexivity|]. destruct load as [f|]; [|reflexivity]. cbn. rewrite pointEnergy_shift.
    rewrite (sumP_ext points _ (fun _ => 0)); [clear; induction points as [|p l IH]; cbn; lra|].
    intros gp _. unfold dot, displacement. rewrite (sum_is0 w); [ring|].
    intros a Ha. rewrite (sum_is0 n); [ring|]. intros i Hi. rewrite Z. ring.
  Qed.

  Theorem C97_volume_dead load points lambda u u' force k : (k < N)%nat ->
    volumeVector w n shape load points lambda u force k = force k + volumeVector w n shape load points lambda u' zeroVector k.
  Proof.
    intros Hk. destruct load as [f|]; cbn; [|unfold zeroVector; ring]. rewrite !pointForce_fold by assumption. unfold zeroVector. ring.
  Qed.

  (** C97: the nodal forces sum up to the applied load *)
  Theorem C97_volume_resultant f points lambda u a : (a < w)%nat ->
    (forall gp, In gp points -> sum n (shape gp) = 1) ->
    sum n (fun i => volumeVector w n shape (Some f) points lambda u zeroVector (w * i + a)%nat) =
    - sumP points (fun gp => f (position gp) lambda a * (integrationElement gp * weight gp)).
  Proof.
    intros Ha H1.
    rewrite (sum_ext n _ (fun i => sumP points (fun gp => - (shape gp i * f (position gp) lambda a * vol gp)))).
    - rewrite <- sumP_swap, <- sumP_opp. apply sumP_ext. intros gp Hgp.
      rewrite (sum_ext n _ (fun i => shape gp i * - (f (position gp) lambda a * vol gp))) by (intros; ring).
      rewrite sum_mul_r, H1 by assumption. unfold vol. ring.
    - intros i Hi. cbn.
      assert (w * S i <= w * n)%nat by (apply Nat.mul_le_mono_l; lia).
      rewrite pointForce_fold by (unfold N; lia). destruct (block_index w i a Ha) as (-> & ->). unfold zeroVector. ring.
  Qed.

  (** The integration points of the intersections on the boundary *)
  Definition boundaryPoints (intersections : list (bool * list point)) : list point := flat_map (fun x : bool * list point => if fst x then snd x else []) intersections.

  Lemma over_done {A} f (step : ((nat -> R) -> R -> nat -> R) -> A -> point -> A) ints a :
    overIntersections (Some f) step ints a = Done (fold_left (step f) (boundaryPoints ints) a).
  Proof.
    revert a. induction ints as [|(b, l) ints IH]; intros a; [reflexivity|]. destruct b; cbn.
    - destruct l as [|p l]; [apply IH|]. rewrite IH. f_equal. rewrite <- fold_left_app. reflexivity.
    - apply IH.
  Qed.

  (** C97: the same for the load on the boundary; only intersections that belong to the boundary count *)
  Theorem C97_traction_gradient f ints lambda u :
    exists E F,
      (forall y, tractionScalar w n shape (Some f) (Some ints) lambda y = Done (E y)) /\
      (forall y force, tractionVector w n shape (Some f) (Some ints) lambda y force = Done (F y force)) /\
      isGradient N E (F u zeroVector) u /\ ((forall k, u k = 0) -> E u = 0) /\
      (forall y force k, (k < N)%nat -> F y force k = force k + F u zeroVector k) /\
      (forall a, (a < w)%nat -> (forall gp, In gp (boundaryPoints ints) -> sum n (shape gp) = 1) ->
        sum n (fun i => F u zeroVector (w * i + a)%nat) =
        - sumP (boundaryPoints ints) (fun gp => f (position gp) lambda a * (integrationElement gp * weight gp))).
  Proof.
    exists (volumeScalar w n shape (Some f) (boundaryPoints ints) lambda), (volumeVector w n shape (Some f) (boundaryPoints ints) lambda).
    split; [|split; [|split; [|split; [|split]]]].
    - intros y. apply (over_done f (fun f => pointEnergy w n shape f lambda y)).
    - intros y force. apply (over_done f (fun f => pointForce w n shape f lambda)).
    - apply C97_volume_gradient.
    - intros Z. apply C97_volume_reference. now right.
    - intros. apply C97_volume_dead. assumption.
    - intros a Ha H1. apply C97_volume_resultant; assumption.
  Qed.

  (** C98: an element to which no boundary load was given has none; nor does one off the boundary *)
  Theorem C98_no_load_partial boundary load lambda u force :
    (boundary = None /\ load = None \/ exists ints, boundary = Some ints /\ boundaryPoints ints = []) ->
    tractionScalar w n shape load boundary lambda u = Done 0 /\ tractionVector w n shape load boundary lambda u force = Done force.
  Proof.
    intros [(-> & ->)|(ints & -> & H)]; [split; reflexivity|].
    assert (Q : forall A (step : ((nat -> R) -> R -> nat -> R) -> A -> point -> A) a, overIntersections load step ints a = Done a).
    { intros A step a. induction ints as [|(b, l) ints IH]; [reflexivity|]. destruct b; cbn in *; [|apply IH, H].
      apply app_eq_nil in H as (-> & H). apply IH, H. }
    unfold tractionScalar, tractionVector. cbn [isSome negb andb]. rewrite !Q. split; reflexivity.
  Qed.

  (** C98: with only one of the boundary and the load the element does not return *)
  Theorem C98_half_load_refuted :
    (forall f lambda u force, tractionScalar w n shape (Some f) None lambda u = NullPointer /\
                              tractionVector w n shape (Some f) None lambda u force = NullPointer) /\
    (forall ints lambda u force, boundaryPoints ints <> [] ->
       tractionScalar w n shape None (Some ints) lambda u = BadFunctionCall /\
       tractionVector w n shape None (Some ints) lambda u force = BadFunctionCall).
  Proof.
    split; [intros; split; reflexivity|]. intros ints lambda u force H.
    assert (Q : forall A (step : ((nat -> R) -> R -> nat -> R) -> A -> point -> A) a, overIntersections None step ints a = BadFunctionCall).
    { intros A step a. induction ints as [|(b, l) ints IH]; [contradiction H; reflexivity|]. destruct b; cbn in *; [|apply IH, H].
      destruct l; [apply IH, H|reflexivity]. }
    unfold tractionScalar, tractionVector. cbn [isSome negb andb]. rewrite !Q. split; reflexivity.
  Qed.
End Loads.
Print Assumptions C97_volume_gradient.
Print Assumptions C97_volume_dead.
Print Assumptions C97_volume_resultant.
Print Assumptions C97_volume_reference.
Print Assumptions C97_traction_gradient.
Print Assumptions C98_no_load_partial.
Print Assumptions C98_half_load_refuted.

(** A bar of two nodes and one point: half of the load goes to each node *)
Example C97_applies :
  let p := {| position := fun _ => 7; integrationElement := 2; weight := 3 |} in
  let shape (gp : point) (i : nat) := / 2 in
  sum 2 (shape p) = 1 /\
  volumeVector 1 2 shape (Some (fun x lambda _ => lambda * x 0%nat)) [p] 5 zeroVector zeroVector 1%nat = -105 /\
  boundaryPoints [(false, [p]); (true, [p])] = [p].
Proof.
  cbn. unfold pointForce, addSegment, apply, displacementDerivative, identity, zeroVector. cbn. repeat split; field.
Qed.

(** C101: skills whose forces and matrices are those of their energies; the matrix is added to a symmetric one *)
Definition consistentSkill (N : nat) (D : (nat -> R) -> Prop) (sk : skill) : Prop :=
  (forall u, D u -> isGradient N (skillScalar sk) (skillVector sk u zeroVector) u) /\
  (forall u, D u -> isJacobian N N (fun y => skillVector sk y zeroVector) (skillMatrix sk u zeroMatrix) u) /\
  (forall u force k, (k < N)%nat -> skillVector sk u force k = force k + skillVector sk u zeroVector k) /\
  (forall u K k l, D u -> symmetric N K -> (k < N)%nat -> (l < N)%nat -> skillMatrix sk u K k l = K k l + skillMatrix sk u zeroMatrix k l) /\
  (forall u, D u -> symmetric N (skillMatrix sk u zeroMatrix)).

Definition mixin (skills : list skill) : skill :=
  {| skillScalar := mixinScalar skills; skillVector := mixinVector skills; skillMatrix := mixinMatrix skills |}.

Lemma mixinVector_sum N D skills u force k : List.Forall (consistentSkill N D) skills -> (k < N)%nat ->
  mixinVector skills u force k = force k + sumP skills (fun sk => skillVector sk u zeroVector k).
Proof.
  intros H Hk. apply (fold_vector skills (fun f sk => skillVector sk u f) force (fun sk k => skillVector sk u zeroVector k)).
  intros sk f Hin. rewrite Forall_forall in H. apply (H sk Hin), Hk.
Qed.

Lemma symmetric_zero N : symmetric N zeroMatrix.
Proof. intros k l _ _. reflexivity. Qed.

Lemma mixinMatrix_sum N D skills u : List.Forall (consistentSkill N D) skills -> D u -> forall K, symmetric N K ->
  forall k l, (k < N)%nat -> (l < N)%nat ->
  mixinMatrix skills u K k l = K k l + sumP skills (fun sk => skillMatrix sk u zeroMatrix k l).
Proof.
  intros H Du. induction H as [|sk skills Hsk H IH]; intros K Ksym k l Hk Hl; [cbn; ring|].
  destruct Hsk as (_ & _ & _ & Hadd & Hsym).
  change (mixinMatrix (sk :: skills) u K) with (mixinMatrix skills u (skillMatrix sk u K)).
  rewrite IH; [|intros i j Hi Hj; rewrite (Hadd u K i j), (Hadd u K j i), (Ksym i j), (Hsym u Du i j) by assumption; reflexivity|assumption..].
  rewrite (Hadd u K) by assumption. cbn. ring.
Qed.

(** C101: an element composed of any number of such skills is one of them *)
Theorem C101_composition N D skills : List.Forall (consistentSkill N D) skills -> consistentSkill N D (mixin skills).
Proof.
  intros H. assert (H' := H). rewrite Forall_forall in H'. split; [|split; [|split; [|split]]].
  - intros u Du. cbn [mixin skillScalar skillVector].
    eapply gradient_ext; [apply (gradient_sumP N skills skillScalar (fun sk => skillVector sk u zeroVector) u)|..].
    + intros sk Hin. apply (H' sk Hin), Du.
    + intros y. unfold mixinScalar. induction skills as [|sk l IH]; [reflexivity|]. cbn. rewrite IH; [reflexivity|inversion H; assumption|].
      intros. apply H'. right. assumption.
    + intros k Hk. rewrite (mixinVector_sum N D) by assumption. unfold zeroVector at 2. ring.
  - intros u Du k Hk. cbn [mixin skillMatrix skillVector].
    eapply gradient_ext; [apply (gradient_sumP N skills (fun sk y => skillVector sk y zeroVector k) (fun sk l => skillMatrix sk u zeroMatrix k l) u)|..].
    + intros sk Hin. apply (H' sk Hin), Hk. exact Du.
    + intros y. cbv beta. rewrite (mixinVector_sum N D) by assumption. unfold zeroVector at 2. ring.
    + intros l Hl. cbv beta. rewrite (mixinMatrix_sum N D) by (try assumption; apply symmetric_zero). unfold zeroMatrix at 2. ring.
  - intros u force k Hk. cbn [mixin skillVector]. rewrite !(mixinVector_sum N D skills) by assumption. unfold zeroVector at 2. ring.
  - intros u K k l Du Ksym Hk Hl. cbn [mixin skillMatrix]. rewrite !(mixinMatrix_sum N D skills) by (try assumption; apply symmetric_zero).
    unfold zeroMatrix at 2. ring.
  - intros u Du k l Hk Hl. cbn [mixin skillMatrix]. rewrite !(mixinMatrix_sum N D skills) by (try assumption; apply symmetric_zero).
    f_equal. apply sumP_ext. intros sk Hin. apply (H' sk Hin); assumption.
Qed.
Print Assumptions C101_composition.

Definition nonlinearSkill d n s points eps bop kg psi stress tangent : skill :=
  {| skillScalar := nonlinearScalar points eps psi false;
     skillVector := nonlinearVector d n s points eps bop stress false;
     skillMatrix := nonlinearMatrix d n s points eps bop kg stress tangent false |}.
Definition linearSkill d n s points eps bop C : skill :=
  {| skillScalar := linearScalar s points eps (fun _ => C) false;
     skillVector := linearVector d n s points eps bop (fun _ => C) false;
     skillMatrix := linearMatrix d n s points eps bop (fun _ => C) false |}.
Definition volumeSkill w n shape load points lambda : skill :=
  {| skillScalar := volumeScalar w n shape load points lambda;
     skillVector := volumeVector w n shape load points lambda;
     skillMatrix := fun _ K => K |}.

(** C101: solids and loads are such skills *)
Theorem C101_solid d n s points eps bop kg psi stress tangent (D : (nat -> R) -> Prop) : (0 < d)%nat ->
  (forall u gp, D u -> In gp points -> strainExpression d n s eps bop kg gp u /\ hyperelastic s psi stress tangent (eps gp u)) ->
  (forall u gp, D u -> In gp points -> symmetric s (tangent (eps gp u)) /\ (forall S i j a b, kg gp u S i j a b = kg gp u S j i b a)) ->
  consistentSkill (d * n) D (nonlinearSkill d n s points eps bop kg psi stress tangent).
Proof.
  intros P H1 H2. split; [|split; [|split; [|split]]]; cbn [nonlinearSkill skillScalar skillVector skillMatrix].
  - intros u Du. eapply C96_nonlinear_forces; [assumption|]. intros gp Hgp. apply H1; assumption.
  - intros u Du. eapply C96_nonlinear_stiffness; [assumption|]. intros gp Hgp. apply H1; assumption.
  - intros u f k Hk. apply (C96_nonlinear_adds d n s points P eps bop kg stress tangent u f zeroMatrix k k Hk Hk).
  - intros u K k l Du _ Hk Hl. apply (C96_nonlinear_adds d n s points P eps bop kg stress tangent u zeroVector K k l Hk Hl).
  - intros u Du. apply C96_nonlinear_symmetric; [assumption|]. intros gp Hgp. apply H2; assumption.
Qed.

Theorem C101_linear_solid d n s points eps bop C : (0 < d)%nat -> symmetric s C ->
  (forall gp, In gp points -> linearStrain d n s eps bop gp) ->
  consistentSkill (d * n) (fun _ => True) (linearSkill d n s points eps bop C).
Proof.
  intros P Csym H. split; [|split; [|split; [|split]]]; cbn [linearSkill skillScalar skillVector skillMatrix].
  - intros u _. apply C96_linear_forces; assumption.
  - intros u _. apply C96_linear_stiffness; assumption.
  - intros u f k Hk. apply (C96_linear_adds d n s points P eps bop C u f zeroMatrix k k Hk Hk).
  - intros u K k l _ _ Hk Hl. apply (C96_linear_adds d n s points P eps bop C u zeroVector K k l Hk Hl).
  - intros u _. apply C96_linear_symmetric; assumption.
Qed.

Theorem C101_load w n shape load points lambda D : (0 < w)%nat -> consistentSkill (w * n) D (volumeSkill w n shape load points lambda).
Proof.
  intros P. split; [|split; [|split; [|split]]]; cbn [volumeSkill skillScalar skillVector skillMatrix].
  - intros u _. apply C97_volume_gradient, P.
  - intros u _ k Hk. eapply gradient_ext; [apply (gradient_const _ (volumeVector w n shape load points lambda u zeroVector k))|..].
    + intros y. cbv beta. rewrite (C97_volume_dead w n P shape load points lambda u y zeroVector k Hk). unfold zeroVector at 1. ring.
    + reflexivity.
  - intros u f k Hk. apply C97_volume_dead; assumption.
  - intros. unfold zeroMatrix. ring.
  - intros. apply symmetric_zero.
Qed.
Print Assumptions C101_solid.
Print Assumptions C101_linear_solid.
Print Assumptions C101_load.

(** A St.Venant-Kirchhoff solid under two volume loads *)
Example C101_applies d n points dN C shape f g lambda : (0 < d <= 3)%nat -> symmetric (voigtLength d) C ->
  consistentSkill (d * n) (fun _ => True) (mixin [
    nonlinearSkill d n (voigtLength d) points (glStrain d n dN) (glBop d n dN) (glKg d dN) (linearEnergy (voigtLength d) (fun _ => C))
      (linearStress_ (voigtLength d) (fun _ => C)) (fun _ => C);
    volumeSkill d n shape (Some f) points lambda;
    volumeSkill d n shape (Some g) points lambda]).
Proof.
  intros (P & H3) Csym. apply C101_composition.
  constructor; [|constructor; [apply C101_load; assumption|constructor; [apply C101_load; assumption|constructor]]].
  apply C101_solid; [assumption|..].
  - intros u gp _ _. split; [apply C96_green_lagrange; assumption|apply quadratic_hyperelastic; assumption].
  - intros u gp _ _. split; [assumption|]. apply (C96_green_lagrange d n P dN gp u H3).
Qed.

(** C101: together with a skill that replaces the elastic terms (enhanced strains, assumed stresses) the elastic skill adds nothing *)
Theorem C101_mixed : forall d n s points eps bop kg psi stress tangent C u force K,
  linearScalar s points eps (fun _ => C) true u = 0 /\ linearVector d n s points eps bop (fun _ => C) true u force = force /\
  linearMatrix d n s points eps bop (fun _ => C) true u K = K /\
  nonlinearScalar points eps psi true u = 0 /\ nonlinearVector d n s points eps bop stress true u force = force /\
  nonlinearMatrix d n s points eps bop kg stress tangent true u K = K.
Proof. intros. repeat split. Qed.
Print Assumptions C101_mixed.
