(** Property C173: results do not depend on the coordinate system. *)

From Coq Require Import List Arith ZArith Bool Reals Lia Lra.
From Coquelicot Require Import Coquelicot.
From Verif Require Import FEHelper_Model Assembler_Model Assembler_Spec Assembler_Proofs Assembler_Props.
From Verif Require Import SVK_Model Volumetric_Model Deviatoric_Model Hyperelastic_Model Hyperelastic_Spec Hyperelastic_Props.
From Verif Require Import Tensor_Spec Tensor_Model Tensor_Props Conversions_Spec Conversions_Props Element_Spec Element_Model Element_Proofs Element_Props Truss_Model Truss_Props TrussSkill_Props
  Objectivity_Spec Objectivity_Props AssemblyMesh_Model AssemblyMesh_Props StructureNewton_Model StructureNewton_Props StructureReactions_Props LinearStructure_Props.
Import ListNotations.
Local Open Scope R_scope.

(** ** Specification *)

(** Rotations and reflections *)
Definition orthogonal (d : nat) (Q : nat -> nat -> R) : Prop := eqm d (mul d (transpose Q) Q) identity /\ eqm d (mul d Q (transpose Q)) identity.

(** The components in the new coordinates of a vector, of the vectors of all nodes, and of a tensor *)
Definition turnVector (d : nat) (Q : nat -> nat -> R) (x : nat -> R) (a : nat) : R := sum d (fun b => Q a b * x b).
Definition turned (d : nat) (Q : nat -> nat -> R) (u : nat -> R) (k : nat) : R := turnVector d Q (fun b => u (d * (k / d) + b)%nat) (k mod d).
Definition turnTensor (d : nat) (Q E : nat -> nat -> R) (a b : nat) : R := sum d (fun p => sum d (fun q => Q a p * Q b q * E p q)).
Definition turnedMatrix (d : nat) (Q K : nat -> nat -> R) (k l : nat) : R :=
  sum d (fun p => sum d (fun q => Q (k mod d) p * Q (l mod d) q * K (d * (k / d) + p)%nat (d * (l / d) + q)%nat)).

(** A material energy, a function of the Voigt components of the strain, that does not know the coordinate system *)
Definition isotropicEnergy (d : nat) (psi : (nat -> R) -> R) : Prop :=
  (forall e e', (forall m, e m = e' m) -> psi e = psi e') /\
  forall Q E, orthogonal d Q -> symmetric d E -> psi (strainVector d (turnTensor d Q E)) = psi (strainVector d E).

(** What holds along all curves through x, close to it *)
Definition around (n : nat) (P : (nat -> R) -> Prop) (x : nat -> R) : Prop := forall c v, passes n c x v -> locally 0 (fun t => P (c t)).

Section Gradients.
  Variables (d n : nat) (Q : nat -> nat -> R).
  Hypothesis dpos : (0 < d)%nat.
  Hypothesis HQ : orthogonal d Q.
  Let N := (d * n)%nat.

  Lemma orth_cols a b : (a < d)%nat -> (b < d)%nat -> sum d (fun k => Q k a * Q k b) = identity a b.
  Proof. intros. apply HQ; assumption. Qed.
  Lemma orth_rows a b : (a < d)%nat -> (b < d)%nat -> sum d (fun k => Q a k * Q b k) = identity a b.
  Proof. intros. apply HQ; assumption. Qed.

  Lemma turned_node u i a : (a < d)%nat -> turned d Q u (d * i + a)%nat = sum d (fun b => Q a b * u (d * i + b)%nat).
  Proof. intros Ha. unfold turned, turnVector. destruct (block_index d i a Ha) as (-> & ->). reflexivity. Qed.

  Lemma turned_passes c u v : passes N c u v -> passes N (fun t => turned d Q (c t)) (turned d Q u) (turned d Q v).
  Proof.
    intros P k Hk. assert (Hm : (k mod d < d)%nat) by (apply Nat.mod_upper_bound; lia).
    assert (B : forall b, (b < d)%nat -> (d * (k / d) + b < N)%nat).
    { intros b Hb. assert (k / d < n)%nat by (apply Nat.div_lt_upper_bound; [lia|exact Hk]). unfold N. nia. }
    unfold turned, turnVector. split.
    - apply sum_ext. intros b Hb. rewrite (proj1 (P _ (B b Hb))). reflexivity.
    - assert (G : forall m, (m <= d)%nat -> is_derive (fun t => sum m (fun b => Q (k mod d) b * c t (d * (k / d) + b)%nat)) 0 (sum m (fun b => Q (k mod d) b * v (d * (k / d) + b)%nat))).
      { induction m as [|m IH]; intros Hm'; cbn [sum]; [apply @is_derive_const|].
        apply @is_derive_plus; [apply IH; lia|]. apply is_derive_scal. apply P, B. lia. }
      apply G. lia.
  Qed.

  Lemma dot_turned g v : dot N g (turned d Q v) = dot N (turned d (transpose Q) g) v.
  Proof.
    unfold dot, N. rewrite !sum_blocks. apply sum_ext. intros i _.
    rewrite (sum_ext d _ (fun a => sum d (fun b => g (d * i + a)%nat * (Q a b * v (d * i + b)%nat)))) by (intros; rewrite turned_node by assumption; now rewrite sum_mul_l).
    rewrite sum_swap. apply sum_ext. intros b Hb. unfold turned, turnVector. destruct (block_index d i b Hb) as (-> & ->). rewrite <- sum_mul_r. apply sum_ext. intros. unfold transpose. ring.
  Qed.

  Lemma transpose_orthogonal : orthogonal d (transpose Q).
  Proof. destruct HQ as (A & B). split; [exact B|exact A]. Qed.

  Lemma turned_back u k : (k < N)%nat -> turned d (transpose Q) (turned d Q u) k = u k.
  Proof.
    intros Hk. assert (Hm : (k mod d < d)%nat) by (apply Nat.mod_upper_bound; lia).
    unfold turned at 1, turnVector. rewrite (sum_ext d _ (fun a => sum d (fun b => Q a (k mod d) * Q a b * u (d * (k / d) + b)%nat))).
    - rewrite sum_swap. rewrite (sum_ext d _ (fun b => identity (k mod d) b * u (d * (k / d) + b)%nat)) by (intros; rewrite sum_mul_r, orth_cols by assumption; reflexivity).
      rewrite sum_id_l by assumption. now rewrite <- (Nat.div_mod_eq k d).
    - intros a Ha. rewrite turned_node by assumption. rewrite <- sum_mul_l. apply sum_ext. intros. unfold transpose. ring.
  Qed.

  (** Functions that are the same in both coordinate systems have gradients that are turned *)
  Lemma gradient_turned f f' g g' u : isGradient N f g u -> isGradient N f' g' (turned d Q u) ->
    around N (fun y => f' (turned d Q y) = f y) u -> forall k, (k < N)%nat -> turned d (transpose Q) g' k = g k.
  Proof.
    intros G G' I k Hk. set (v := fun j => if (j =? k)%nat then 1 else 0).
    assert (P : passes N (along u v) u v) by (intros j _; unfold along; split; [ring|auto_derive; auto; ring]).
    assert (E : dot N g' (turned d Q v) = dot N g v).
    { apply (derive_uniq (fun t => f (along u v t))); [|apply G, P].
      apply (is_derive_ext_loc (fun t => f' (turned d Q (along u v t)))); [exact (I _ _ P)|]. apply G', turned_passes, P. }
    rewrite dot_turned in E. unfold dot, v in E.
    assert (Pick : forall h, sum N (fun j => h j * (if (j =? k)%nat then 1 else 0)) = h k).
    { intros h. rewrite (sum_pick N k); [rewrite Nat.eqb_refl; ring|assumption|]. intros j _ Nj. destruct (Nat.eqb_spec j k); [congruence|ring]. }
    rewrite !Pick in E. exact E.
  Qed.
End Gradients.

Section MoreGradients.
  Variables (d n : nat) (Q : nat -> nat -> R).
  Hypothesis dpos : (0 < d)%nat.
  Hypothesis HQ : orthogonal d Q.
  Let N := (d * n)%nat.

  Lemma turn_forth u k : (k < N)%nat -> turned d Q (turned d (transpose Q) u) k = u k.
  Proof. intros Hk. exact (turned_back d n (transpose Q) dpos (transpose_orthogonal d Q HQ) u k Hk). Qed.

  Lemma turned_ext u u' k : (k < N)%nat -> (forall j, (j < N)%nat -> u j = u' j) -> turned d Q u k = turned d Q u' k.
  Proof.
    intros Hk E. unfold turned, turnVector. apply sum_ext. intros b Hb. rewrite E; [reflexivity|].
    assert (k / d < n)%nat by (apply Nat.div_lt_upper_bound; [lia|exact Hk]). unfold N. nia.
  Qed.

  Lemma gradients_turned f f' g g' u : isGradient N f g u -> isGradient N f' g' (turned d Q u) ->
    around N (fun y => f' (turned d Q y) = f y) u -> forall k, (k < N)%nat -> g' k = turned d Q g k.
  Proof.
    intros G G' I k Hk. rewrite <- (turn_forth g' k Hk). apply turned_ext; [assumption|]. intros j Hj.
    exact (gradient_turned d n Q dpos f f' g g' u G G' I j Hj).
  Qed.

  Lemma gradient_sum m (h : nat -> (nat -> R) -> R) (g : nat -> nat -> R) u : (forall b, (b < m)%nat -> isGradient N (h b) (g b) u) ->
    isGradient N (fun y => sum m (fun b => h b y)) (fun k => sum m (fun b => g b k)) u.
  Proof.
    induction m as [|m IH]; intros H c v P; cbn [sum].
    - unfold dot. rewrite (sum_zero N) by (intros; ring). apply @is_derive_const.
    - unfold dot. rewrite (sum_ext N _ (fun k => sum m (fun b => g b k) * v k + g m k * v k)) by (intros; ring). rewrite sum_add.
      apply @is_derive_plus; [apply IH; [intros; apply H; lia|exact P]|apply H; [lia|exact P]].
  Qed.

  (** and so do their second derivatives *)
  Lemma jacobians_turned F F' K K' u : isJacobian N N F K u -> isJacobian N N F' K' (turned d Q u) ->
    around N (fun y => forall k, (k < N)%nat -> F' (turned d Q y) k = turned d Q (F y) k) u ->
    forall k l, (k < N)%nat -> (l < N)%nat -> K' k l = turnedMatrix d Q K k l.
  Proof.
    intros J J' I k l Hk Hl. assert (Hm : (k mod d < d)%nat) by (apply Nat.mod_upper_bound; lia).
    assert (B : forall b, (b < d)%nat -> (d * (k / d) + b < N)%nat).
    { intros b Hb. assert (k / d < n)%nat by (apply Nat.div_lt_upper_bound; [lia|exact Hk]). unfold N. nia. }
    rewrite (gradients_turned (fun y => turned d Q (F y) k) (fun y => F' y k) (fun j => sum d (fun p => Q (k mod d) p * K (d * (k / d) + p)%nat j)) (K' k) u).
    - unfold turned, turnVector, turnedMatrix. rewrite (sum_swap d d). apply sum_ext. intros q Hq. rewrite <- sum_mul_l. apply sum_ext. intros. ring.
    - unfold turned, turnVector. apply (gradient_sum d (fun b y => Q (k mod d) b * F y (d * (k / d) + b)%nat) (fun p j => Q (k mod d) p * K (d * (k / d) + p)%nat j)).
      intros b Hb. eapply gradient_ext; [apply (gradient_scale _ _ _ u (Q (k mod d) b) (J _ (B b Hb)))|..]; intros; cbv beta; ring.
    - apply J', Hk.
    - intros c v P. generalize (I c v P). apply filter_imp. intros t Ht. apply Ht, Hk.
    - assumption.
  Qed.
End MoreGradients.

(** ** Solids *)
Section Solid.
  Variables (d n : nat) (Q : nat -> nat -> R).
  Hypothesis d3 : (0 < d <= 3)%nat.
  Hypothesis HQ : orthogonal d Q.
  (** The element, and the same element in the new coordinates *)
  Variables (dN dN' : point -> nat -> nat -> R).
  Definition samePoint (gp gp' : point) : Prop :=
    vol gp' = vol gp /\ forall i a, (i < n)%nat -> (a < d)%nat -> dN' gp' i a = turnVector d Q (dN gp i) a.

  Lemma turned_H gp gp' u k a : samePoint gp gp' -> (k < d)%nat -> (a < d)%nat ->
    displacementGradientOf d n (dN' gp') (turned d Q u) k a = turnTensor d Q (displacementGradientOf d n (dN gp) u) k a.
  Proof.
    intros (_ & S) Hk Ha. unfold displacementGradientOf, turnTensor.
    rewrite (sum_ext n _ (fun i => sum d (fun p => sum d (fun q => Q k p * Q a q * (u (d * i + p)%nat * dN gp i q))))).
    - rewrite sum_swap. apply sum_ext. intros p _. rewrite sum_swap. apply sum_ext. intros q _. apply sum_mul_l.
    - intros i Hi. rewrite turned_node, S by assumption. unfold turnVector. rewrite <- sum_mul_r. apply sum_ext. intros p _. rewrite <- sum_mul_l. apply sum_ext. intros. ring.
  Qed.

  Lemma turned_greenLagrange H H' a b : (forall k a, (k < d)%nat -> (a < d)%nat -> H' k a = turnTensor d Q H k a) -> (a < d)%nat -> (b < d)%nat ->
    greenLagrangeOf d H' a b = turnTensor d Q (greenLagrangeOf d H) a b.
  Proof.
    intros E Ha Hb. unfold greenLagrangeOf. rewrite !E by assumption.
    rewrite (sum_ext d _ (fun k => turnTensor d Q H k a * turnTensor d Q H k b)) by (intros; rewrite !E by assumption; reflexivity).
    assert (C : sum d (fun k => turnTensor d Q H k a * turnTensor d Q H k b) = turnTensor d Q (fun p q => sum d (fun k => H k p * H k q)) a b).
    { unfold turnTensor.
      rewrite (sum_ext d _ (fun k => sum d (fun r => sum d (fun r' => Q k r * Q k r' * (sum d (fun p => Q a p * H r p) * sum d (fun q => Q b q * H r' q)))))).
      - rewrite sum_swap. rewrite (sum_ext d _ (fun r => sum d (fun r' => identity r r' * (sum d (fun p => Q a p * H r p) * sum d (fun q => Q b q * H r' q))))).
        + rewrite (sum_ext d _ (fun r => sum d (fun p => sum d (fun q => Q a p * Q b q * (H r p * H r q))))).
          * rewrite sum_swap. apply sum_ext. intros p _. rewrite sum_swap. apply sum_ext. intros q _. apply sum_mul_l.
          * intros r Hr. rewrite sum_id_l by assumption. rewrite <- sum_mul_r. apply sum_ext. intros p _. rewrite <- sum_mul_l. apply sum_ext. intros. ring.
        + intros r Hr. rewrite sum_swap. apply sum_ext. intros r' Hr'. rewrite sum_mul_r, (orth_cols d Q HQ) by assumption. reflexivity.
      - intros k _.
        rewrite (sum_ext d (fun p => sum d (fun q => Q k p * Q a q * H p q)) (fun r => Q k r * sum d (fun p => Q a p * H r p))) by (intros; rewrite <- sum_mul_l; apply sum_ext; intros; ring).
        rewrite (sum_ext d (fun p => sum d (fun q => Q k p * Q b q * H p q)) (fun r => Q k r * sum d (fun p => Q b p * H r p))) by (intros; rewrite <- sum_mul_l; apply sum_ext; intros; ring).
        rewrite <- sum_mul_r. apply sum_ext. intros r _. rewrite <- sum_mul_l. apply sum_ext. intros. ring. }
    rewrite C. unfold turnTensor. rewrite (sum_swap d d (fun p q => Q b p * Q a q * H p q)).
    rewrite <- !sum_add, <- sum_mul_l. apply sum_ext. intros p _. rewrite <- !sum_add, <- sum_mul_l. apply sum_ext. intros. ring.
  Qed.

  Lemma strainVector_ext E E' m : (forall a b, (a < d)%nat -> (b < d)%nat -> E a b = E' a b) -> strainVector d E m = strainVector d E' m.
  Proof.
    intros H. unfold strainVector. destruct (component_bound d n (proj1 d3) m (proj2 d3)) as (Ha & Hb). destruct (component d m) as (a, b). cbn [fst snd] in *.
    rewrite H by assumption. reflexivity.
  Qed.

  Lemma turned_strain gp gp' u m : samePoint gp gp' ->
    glStrain d n dN' gp' (turned d Q u) m = strainVector d (turnTensor d Q (greenLagrangeOf d (displacementGradientOf d n (dN gp) u))) m.
  Proof. intros S. unfold glStrain. apply strainVector_ext. intros a b Ha Hb. apply turned_greenLagrange; [|assumption..]. intros. apply turned_H; assumption. Qed.

  Lemma turned_small gp gp' u m : samePoint gp gp' ->
    smallStrain d n dN' gp' (turned d Q u) m =
    strainVector d (turnTensor d Q (fun a b => / 2 * (displacementGradientOf d n (dN gp) u a b + displacementGradientOf d n (dN gp) u b a))) m.
  Proof.
    intros S. unfold smallStrain. apply strainVector_ext. intros a b Ha Hb. rewrite !(turned_H gp gp') by assumption. unfold turnTensor.
    rewrite (sum_swap d d (fun p q => Q b p * Q a q * _)). rewrite <- sum_add, <- sum_mul_l. apply sum_ext. intros p _. rewrite <- sum_add, <- sum_mul_l. apply sum_ext. intros. ring.
  Qed.

  Variables (points points' : list point).
  Hypothesis same : Forall2 samePoint points points'.

  Lemma same_sum f f' : (forall gp gp', samePoint gp gp' -> f' gp' = f gp) -> sumP points' f' = sumP points f.
  Proof. clear -same. intros H. induction same as [|gp gp' l l' Hp Hl IH]; [reflexivity|]. cbn [sumP]. rewrite (H gp gp' Hp). f_equal. exact (IH Hl). Qed.
  Lemma same_in gp' : In gp' points' -> exists gp, In gp points /\ samePoint gp gp'.
  Proof.
    clear -same. induction same as [|gp g' l l' Hp Hl IH]; intros H; [destruct H|]; destruct H as [<-|H]; [exists gp; split; [now left|assumption]|].
    destruct (IH Hl H) as (x & ? & ?). exists x. split; [now right|assumption].
  Qed.

  Lemma greenLagrange_symmetric H : symmetric d (greenLagrangeOf d H).
  Proof. intros a b _ _. unfold greenLagrangeOf. rewrite (sum_ext d (fun k => H k b * H k a) (fun k => H k a * H k b)) by (intros; ring). ring. Qed.

  (** C173: the energy of a solid is the same in both coordinate systems, *)
  Theorem C173_solid_energy psi u : isotropicEnergy d psi ->
    nonlinearScalar points' (glStrain d n dN') psi false (turned d Q u) = nonlinearScalar points (glStrain d n dN) psi false u.
  Proof.
    intros (Ex & Is). cbn [nonlinearScalar]. rewrite !energy_sum. apply same_sum. intros gp gp' S. rewrite (proj1 S). f_equal.
    rewrite (Ex _ _ (fun m => turned_strain gp gp' u m S)). apply Is; [assumption|apply greenLagrange_symmetric].
  Qed.

  (** the forces are turned, *)
  Theorem C173_solid_forces psi stress tangent u k : isotropicEnergy d psi -> (k < d * n)%nat ->
    (forall gp, In gp points -> hyperelastic (voigtLength d) psi stress tangent (glStrain d n dN gp u)) ->
    (forall gp, In gp points' -> hyperelastic (voigtLength d) psi stress tangent (glStrain d n dN' gp (turned d Q u))) ->
    nonlinearVector d n (voigtLength d) points' (glStrain d n dN') (glBop d n dN') stress false (turned d Q u) zeroVector k =
    turned d Q (nonlinearVector d n (voigtLength d) points (glStrain d n dN) (glBop d n dN) stress false u zeroVector) k.
  Proof.
    intros Is Hk Hy Hy'.
    apply (gradients_turned d n Q (proj1 d3) HQ (nonlinearScalar points (glStrain d n dN) psi false) (nonlinearScalar points' (glStrain d n dN') psi false) _ _ u).
    - apply (C96_nonlinear_forces d n (voigtLength d) points (proj1 d3) (glStrain d n dN) (glBop d n dN) (glKg d dN) psi stress tangent u).
      intros gp Hgp. split; [apply C96_green_lagrange; lia|auto].
    - apply (C96_nonlinear_forces d n (voigtLength d) points' (proj1 d3) (glStrain d n dN') (glBop d n dN') (glKg d dN') psi stress tangent (turned d Q u)).
      intros gp Hgp. split; [apply C96_green_lagrange; lia|auto].
    - intros c v _. apply filter_forall. intros t. apply C173_solid_energy, Is.
    - assumption.
  Qed.

  (** and so is the stiffness matrix *)
  Theorem C173_solid_stiffness psi stress tangent u k l : isotropicEnergy d psi -> (k < d * n)%nat -> (l < d * n)%nat ->
    (forall gp, In gp points -> hyperelastic (voigtLength d) psi stress tangent (glStrain d n dN gp u)) ->
    (forall gp, In gp points' -> hyperelastic (voigtLength d) psi stress tangent (glStrain d n dN' gp (turned d Q u))) ->
    around (d * n) (fun y => (forall gp, In gp points -> hyperelastic (voigtLength d) psi stress tangent (glStrain d n dN gp y)) /\
                             (forall gp, In gp points' -> hyperelastic (voigtLength d) psi stress tangent (glStrain d n dN' gp (turned d Q y)))) u ->
    nonlinearMatrix d n (voigtLength d) points' (glStrain d n dN') (glBop d n dN') (glKg d dN') stress tangent false (turned d Q u) zeroMatrix k l =
    turnedMatrix d Q (nonlinearMatrix d n (voigtLength d) points (glStrain d n dN) (glBop d n dN) (glKg d dN) stress tangent false u zeroMatrix) k l.
  Proof.
    intros Is Hk Hl Hy Hy' Ar.
    apply (jacobians_turned d n Q (proj1 d3) HQ (fun y => nonlinearVector d n (voigtLength d) points (glStrain d n dN) (glBop d n dN) stress false y zeroVector)
      (fun y => nonlinearVector d n (voigtLength d) points' (glStrain d n dN') (glBop d n dN') stress false y zeroVector) _ _ u).
    - apply (C96_nonlinear_stiffness d n (voigtLength d) points (proj1 d3) (glStrain d n dN) (glBop d n dN) (glKg d dN) psi stress tangent u).
      intros gp Hgp. split; [apply C96_green_lagrange; lia|auto].
    - apply (C96_nonlinear_stiffness d n (voigtLength d) points' (proj1 d3) (glStrain d n dN') (glBop d n dN') (glKg d dN') psi stress tangent (turned d Q u)).
      intros gp Hgp. split; [apply C96_green_lagrange; lia|auto].
    - intros c v P. generalize (Ar c v P). apply filter_imp. intros t (H1 & H2) j Hj. apply (C173_solid_forces psi stress tangent); assumption.
    - assumption.
    - assumption.
  Qed.
End Solid.

(** ** Linear solids *)
Section LinearSolid.
  Variables (d n : nat) (Q : nat -> nat -> R).
  Hypothesis d3 : (0 < d <= 3)%nat.
  Hypothesis HQ : orthogonal d Q.
  Variables (dN dN' : point -> nat -> nat -> R) (points points' : list point).
  Hypothesis same : Forall2 (samePoint d n Q dN dN') points points'.

  Theorem C173_linear_energy C u : isotropicEnergy d (linearEnergy (voigtLength d) (fun _ => C)) ->
    linearScalar (voigtLength d) points' (smallStrain d n dN') (fun _ => C) false (turned d Q u) =
    linearScalar (voigtLength d) points (smallStrain d n dN) (fun _ => C) false u.
  Proof.
    intros (Ex & Is). cbn [linearScalar]. rewrite !energy_sum. apply (same_sum d n Q dN dN' points points' same). intros gp gp' S. rewrite (proj1 S). f_equal.
    rewrite (Ex _ _ (fun m => turned_small d n Q d3 dN dN' gp gp' u m S)). apply Is; [assumption|]. intros a b _ _. ring.
  Qed.

  Theorem C173_linear_forces C u k : isotropicEnergy d (linearEnergy (voigtLength d) (fun _ => C)) -> symmetric (voigtLength d) C -> (k < d * n)%nat ->
    linearVector d n (voigtLength d) points' (smallStrain d n dN') (smallBop d dN') (fun _ => C) false (turned d Q u) zeroVector k =
    turned d Q (linearVector d n (voigtLength d) points (smallStrain d n dN) (smallBop d dN) (fun _ => C) false u zeroVector) k.
  Proof.
    intros Is Sy Hk.
    apply (gradients_turned d n Q (proj1 d3) HQ (linearScalar (voigtLength d) points (smallStrain d n dN) (fun _ => C) false) (linearScalar (voigtLength d) points' (smallStrain d n dN') (fun _ => C) false) _ _ u).
    - apply (C96_linear_forces d n (voigtLength d) points (proj1 d3) (smallStrain d n dN) (smallBop d dN) C Sy). intros. apply small_linearStrain, d3.
    - apply (C96_linear_forces d n (voigtLength d) points' (proj1 d3) (smallStrain d n dN') (smallBop d dN') C Sy). intros. apply small_linearStrain, d3.
    - intros c v _. apply filter_forall. intros t. apply C173_linear_energy, Is.
    - assumption.
  Qed.

  Theorem C173_linear_stiffness C u k l : isotropicEnergy d (linearEnergy (voigtLength d) (fun _ => C)) -> symmetric (voigtLength d) C -> (k < d * n)%nat -> (l < d * n)%nat ->
    linearMatrix d n (voigtLength d) points' (smallStrain d n dN') (smallBop d dN') (fun _ => C) false (turned d Q u) zeroMatrix k l =
    turnedMatrix d Q (linearMatrix d n (voigtLength d) points (smallStrain d n dN) (smallBop d dN) (fun _ => C) false u zeroMatrix) k l.
  Proof.
    intros Is Sy Hk Hl.
    apply (jacobians_turned d n Q (proj1 d3) HQ (fun y => linearVector d n (voigtLength d) points (smallStrain d n dN) (smallBop d dN) (fun _ => C) false y zeroVector)
      (fun y => linearVector d n (voigtLength d) points' (smallStrain d n dN') (smallBop d dN') (fun _ => C) false y zeroVector) _ _ u).
    - apply (C96_linear_stiffness d n (voigtLength d) points (proj1 d3) (smallStrain d n dN) (smallBop d dN) C Sy). intros. apply small_linearStrain, d3.
    - apply (C96_linear_stiffness d n (voigtLength d) points' (proj1 d3) (smallStrain d n dN') (smallBop d dN') C Sy). intros. apply small_linearStrain, d3.
    - intros c v _. apply filter_forall. intros t j Hj. apply C173_linear_forces; assumption.
    - assumption.
    - assumption.
  Qed.
End LinearSolid.

(** ** Any skill of an element whose forces and matrices derive from its energy *)
Section Skill.
  Variables (d n : nat) (Q : nat -> nat -> R).
  Hypothesis dpos : (0 < d)%nat.
  Hypothesis HQ : orthogonal d Q.
  Let N := (d * n)%nat.

  (** The states u and u' are the same, in the two coordinate systems *)
  Definition sameState (u u' : nat -> R) : Prop := forall k, (k < N)%nat -> u' k = turned d Q u k.

  (** What the two skills compute is the same *)
  Definition sameResults (sk sk' : skill) (u u' : nat -> R) : Prop :=
    skillScalar sk' u' = skillScalar sk u /\
    (forall k, (k < N)%nat -> skillVector sk' u' zeroVector k = turned d Q (skillVector sk u zeroVector) k) /\
    (forall k l, (k < N)%nat -> (l < N)%nat -> skillMatrix sk' u' zeroMatrix k l = turnedMatrix d Q (skillMatrix sk u zeroMatrix) k l).

  (** The entries beyond the dofs of the element do not matter *)
  Lemma gradient_only f g u v : isGradient N f g u -> (forall k, (k < N)%nat -> v k = u k) -> f v = f u.
  Proof.
    intros G E. set (c := fun t k => if Req_EM_T t 0 then u k else v k).
    assert (P : passes N c u (fun _ => 0)).
    { intros k Hk. unfold c. split; [destruct (Req_EM_T 0 0); [reflexivity|congruence]|].
      apply (is_derive_ext (fun _ => u k)); [intros t; destruct (Req_EM_T t 0); [reflexivity|symmetry; apply E, Hk]|apply @is_derive_const]. }
    assert (D := G c _ P). assert (Z : dot N g (fun _ => 0) = 0) by (apply sum_zero; intros; ring). rewrite Z in D. clear Z.
    assert (C : continuous (fun t => f (c t)) 0) by (apply (ex_derive_continuous (V := R_NormedModule)); eexists; exact D).
    destruct (Req_dec (f v) (f u)) as [|Ne]; [assumption|]. exfalso.
    assert (F0 : f (c 0) = f u) by (f_equal; unfold c; destruct (Req_EM_T 0 0); [reflexivity|congruence]).
    assert (F1 : forall t, t <> 0 -> f (c t) = f v) by (intros t Ht; unfold c; destruct (Req_EM_T t 0); [congruence|reflexivity]).
    assert (L := C (ball (f (c 0)) (Rabs (f v - f u))) (locally_ball _ (mkposreal _ (Rabs_pos_lt _ (Rminus_eq_contra _ _ Ne))))).
    destruct L as (eps & L). specialize (L (eps / 2)). assert (Pe := cond_pos eps).
    assert (B : ball 0 eps (eps / 2)) by (change (Rabs (eps / 2 - 0) < eps); rewrite Rminus_0_r, Rabs_pos_eq; lra).
    specialize (L B). cbv beta in L. rewrite F0, F1 in L by (apply Rgt_not_eq; lra). change (Rabs (f v - f u) < Rabs (f v - f u)) in L. lra.
  Qed.

  Lemma isGradient_state f g u v : (forall k, (k < N)%nat -> v k = u k) -> isGradient N f g v -> isGradient N f g u.
  Proof. intros E G c w P. apply G. intros k Hk. rewrite E by assumption. apply P, Hk. Qed.

  Theorem C173_skill D D' sk sk' u u' : consistentSkill N D sk -> consistentSkill N D' sk' ->
    (forall v w, (forall k, (k < N)%nat -> v k = w k) -> D' v -> D' w) ->
    (forall y, skillScalar sk' (turned d Q y) = skillScalar sk y) ->
    around N (fun y => D y /\ D' (turned d Q y)) u -> sameState u u' -> sameResults sk sk' u u'.
  Proof.
    intros Co Co' Ext En Ar St.
    assert (At : D u /\ D' (turned d Q u)).
    { assert (P : passes N (fun _ => u) u (fun _ => 0)) by (intros k _; split; [reflexivity|apply @is_derive_const]).
      destruct (Ar _ _ P) as (eps & H). exact (H 0 (ball_center 0 eps)). }
    destruct At as (Du & Du'). assert (Dv : D' u') by (apply (Ext (turned d Q u)); [intros; symmetry; apply St; assumption|exact Du']).
    destruct Co as (G & J & _). destruct Co' as (G' & J' & _).
    split; [|split].
    - rewrite <- En. apply (gradient_only _ (skillVector sk' (turned d Q u) zeroVector) (turned d Q u)); [apply G', Du'|exact St].
    - apply (gradients_turned d n Q dpos HQ (skillScalar sk) (skillScalar sk') _ _ u); [apply G, Du|apply (isGradient_state _ _ _ u' St), G', Dv|].
      intros c v _. apply filter_forall. intros t. apply En.
    - apply (jacobians_turned d n Q dpos HQ (fun y => skillVector sk y zeroVector) (fun y => skillVector sk' y zeroVector) _ _ u); [apply J, Du| |].
      + intros i Hi. apply (isGradient_state _ _ _ u' St), J'; [exact Dv|exact Hi].
      + intros c v P. generalize (Ar c v P). apply filter_imp. intros t (Dt & Dt').
        apply (gradients_turned d n Q dpos HQ (skillScalar sk) (skillScalar sk') _ _ (c t)); [apply G, Dt|apply G', Dt'|].
        intros c' v' _. apply filter_forall. intros t'. apply En.
  Qed.
End Skill.

(** A truss between the turned places *)
Theorem C173_truss d Q E A X1 X2 u : (0 < d)%nat -> orthogonal d Q ->
  trussEnergy d E A (turnVector d Q X1) (turnVector d Q X2) (turned d Q u) = trussEnergy d E A X1 X2 u /\
  forall r, trussResult d E A (turnVector d Q X1) (turnVector d Q X2) (turned d Q u) r = trussResult d E A X1 X2 u r.
Proof.
  intros dpos HQ.
  assert (Iso : forall x, sum d (fun k => turnVector d Q x k * turnVector d Q x k) = sum d (fun k => x k * x k)).
  { intros x. unfold turnVector.
    rewrite (sum_ext d _ (fun k => sum d (fun p => sum d (fun q => Q k p * Q k q * (x p * x q))))) by (intros; rewrite <- sum_mul_r; apply sum_ext; intros; rewrite <- sum_mul_l; apply sum_ext; intros; ring).
    rewrite sum_swap. apply sum_ext. intros p Hp. rewrite sum_swap.
    rewrite (sum_ext d _ (fun q => identity p q * (x p * x q))) by (intros; rewrite sum_mul_r, (orth_cols d Q HQ) by assumption; reflexivity).
    now rewrite sum_id_l. }
  assert (Mi : forall x y a, turnVector d Q x a - turnVector d Q y a = turnVector d Q (fun b => x b - y b) a).
  { intros. unfold turnVector. rewrite <- sum_minus. apply sum_ext. intros. ring. }
  assert (Pl : forall x y a, turnVector d Q x a + turnVector d Q y a = turnVector d Q (fun b => x b + y b) a).
  { intros. unfold turnVector. rewrite <- sum_add. apply sum_ext. intros. ring. }
  assert (U0 : forall a, (a < d)%nat -> turned d Q u a = turnVector d Q u a).
  { intros a Ha. unfold turned. rewrite Nat.div_small, Nat.mod_small by assumption. rewrite Nat.mul_0_r. reflexivity. }
  assert (U1 : forall a, (a < d)%nat -> turned d Q u (d + a)%nat = turnVector d Q (fun b => u (d + b)%nat) a).
  { intros a Ha. unfold turned. destruct (block_index d 1 a Ha) as (D1 & M1). rewrite Nat.mul_1_r in D1, M1. rewrite D1, M1, Nat.mul_1_r. reflexivity. }
  assert (L : sum d (fun k => (turnVector d Q X2 k - turnVector d Q X1 k) * (turnVector d Q X2 k - turnVector d Q X1 k)) = sum d (fun k => (X2 k - X1 k) * (X2 k - X1 k))).
  { rewrite (sum_ext d _ (fun k => turnVector d Q (fun b => X2 b - X1 b) k * turnVector d Q (fun b => X2 b - X1 b) k)) by (intros; rewrite Mi; reflexivity). apply Iso. }
  assert (l : sum d (fun k => (turnVector d Q X2 k + turned d Q u (d + k)%nat - (turnVector d Q X1 k + turned d Q u k)) * (turnVector d Q X2 k + turned d Q u (d + k)%nat - (turnVector d Q X1 k + turned d Q u k))) =
    sum d (fun k => (X2 k + u (d + k)%nat - (X1 k + u k)) * (X2 k + u (d + k)%nat - (X1 k + u k)))).
  { rewrite (sum_ext d _ (fun k => turnVector d Q (fun b => X2 b + u (d + b)%nat - (X1 b + u b)) k * turnVector d Q (fun b => X2 b + u (d + b)%nat - (X1 b + u b)) k))
      by (intros; rewrite U1, U0, !Pl, Mi by assumption; reflexivity). apply Iso. }
  unfold trussEnergy, trussResult. cbn [computeStrain refLength Egl length_ Elin]. rewrite L, l. split; [reflexivity|]. intros []; reflexivity.
Qed.

(** ** Isotropic materials *)
Section Isotropic.
  Variables (d : nat) (Q : nat -> nat -> R).
  Hypothesis HQ : orthogonal d Q.

  Lemma trace_turned E : sum d (fun a => turnTensor d Q E a a) = sum d (fun a => E a a).
  Proof.
    unfold turnTensor. rewrite sum_swap. apply sum_ext. intros p Hp. rewrite sum_swap.
    rewrite (sum_ext d _ (fun q => identity p q * E p q)) by (intros; rewrite sum_mul_r, (orth_cols d Q HQ) by assumption; reflexivity).
    now rewrite sum_id_l.
  Qed.

  Lemma half_turn E : forall a, (a < d)%nat -> sum d (fun b => turnTensor d Q E a b * turnTensor d Q E a b) =
    sum d (fun q => sum d (fun p => Q a p * E p q) * sum d (fun p => Q a p * E p q)).
  Proof.
    intros a _.
    rewrite (sum_ext d _ (fun b => sum d (fun q => sum d (fun q' => Q b q * Q b q' * (sum d (fun p => Q a p * E p q) * sum d (fun p => Q a p * E p q')))))).
    - rewrite sum_swap. apply sum_ext. intros q Hq. rewrite sum_swap.
      rewrite (sum_ext d _ (fun q' => identity q q' * (sum d (fun p => Q a p * E p q) * sum d (fun p => Q a p * E p q')))) by (intros; rewrite sum_mul_r, (orth_cols d Q HQ) by assumption; reflexivity).
      now rewrite sum_id_l.
    - intros b _. assert (T : turnTensor d Q E a b = sum d (fun q => Q b q * sum d (fun p => Q a p * E p q))).
      { unfold turnTensor. rewrite sum_swap. apply sum_ext. intros q _. rewrite <- sum_mul_l. apply sum_ext. intros. ring. }
      rewrite T, <- sum_mul_r. apply sum_ext. intros q _. rewrite <- sum_mul_l. apply sum_ext. intros. ring.
  Qed.
  Lemma norm_turned E : sum d (fun a => sum d (fun b => turnTensor d Q E a b * turnTensor d Q E a b)) = sum d (fun a => sum d (fun b => E a b * E a b)).
  Proof.
    rewrite (sum_ext d _ _ (half_turn E)).
    rewrite (sum_ext d _ (fun a => sum d (fun q => sum d (fun p => sum d (fun p' => Q a p * Q a p' * (E p q * E p' q)))))) by
      (intros a _; apply sum_ext; intros q _; rewrite <- sum_mul_r; apply sum_ext; intros p _; rewrite <- sum_mul_l; apply sum_ext; intros; ring).
    rewrite sum_swap. rewrite (sum_swap d d (fun a b => E a b * E a b)). apply sum_ext. intros q _. rewrite sum_swap. apply sum_ext. intros p Hp. rewrite sum_swap.
    rewrite (sum_ext d _ (fun p' => identity p p' * (E p q * E p' q))) by (intros; rewrite sum_mul_r, (orth_cols d Q HQ) by assumption; reflexivity).
    now rewrite sum_id_l.
  Qed.
End Isotropic.

(** Hooke's law with the constants lambda and mu: in three dimensions the material matrix of the linear elastic and the St.Venant-Kirchhoff
    material (SVK_Model.v), in two dimensions that of plane strain or, with another lambda, of plane stress *)
Definition hooke (d : nat) (lambda mu : R) (m k : nat) : R :=
  let normal m := let (i, j) := component d m in (i =? j)%nat in
  (if normal m && normal k then lambda else 0) + (if (m =? k)%nat then (if normal m then 2 * mu else mu) else 0).

Lemma hooke_svk lambda mu m k : (m < 6)%nat -> (k < 6)%nat -> hooke 3 lambda mu m k = SVK_Model.tangentModuliImplVoigt lambda mu m k.
Proof. intros Hm Hk. do 6 (destruct m as [|m]; [do 6 (destruct k as [|k]; [cbv -[Rplus Rmult Rminus IZR]; ring|]); lia|]). lia. Qed.

Theorem C173_hooke_isotropic d lambda mu : (0 < d <= 3)%nat -> isotropicEnergy d (linearEnergy (voigtLength d) (fun _ => hooke d lambda mu)).
Proof.
  intros d3.
  assert (En : forall E, symmetric d E -> linearEnergy (voigtLength d) (fun _ => hooke d lambda mu) (strainVector d E) =
    lambda / 2 * (sum d (fun a => E a a) * sum d (fun a => E a a)) + mu * sum d (fun a => sum d (fun b => E a b * E a b))).
  { intros E S. assert (D : d = 1%nat \/ d = 2%nat \/ d = 3%nat) by lia. destruct D as [->|[->| ->]]; unfold linearEnergy, dot, apply, hooke, strainVector; cbn;
      rewrite ?(S 1%nat 0%nat), ?(S 2%nat 0%nat), ?(S 2%nat 1%nat) by lia; field. }
  split.
  - intros e e' H. unfold linearEnergy, dot, apply. f_equal. apply sum_ext. intros. rewrite H. f_equal. apply sum_ext. intros. now rewrite H.
  - intros Q E HQ S. assert (S' : symmetric d (turnTensor d Q E)).
    { intros a b _ _. unfold turnTensor. rewrite sum_swap. apply sum_ext. intros p Hp. apply sum_ext. intros q Hq. rewrite (S p q) by assumption. ring. }
    rewrite !En by assumption. rewrite trace_turned, norm_turned by assumption. reflexivity.
Qed.

(** The right Cauchy-Green tensor of the Voigt components of a Green-Lagrange strain *)
Definition cauchyGreenOf (e : nat -> R) (i j : nat) : R :=
  2 * (if (i =? j)%nat then e i else if ((i =? 0) || (j =? 0))%nat then (if ((i =? 1) || (j =? 1))%nat then e 5%nat / 2 else e 4%nat / 2) else e 3%nat / 2) + identity i j.
Definition hyperelasticEnergy eig (m : Hyperelastic_Model.hyperelastic) (e : nat -> R) : R :=
  match Hyperelastic_Model.storedEnergy eig m (cauchyGreenOf e) with Returns w => w | _ => 0 end.

(** Every hyperelastic material, by C85 *)
Theorem C173_hyperelastic_isotropic eig m : solvesSymmetric eig -> isotropicEnergy 3 (hyperelasticEnergy eig m).
Proof.
  intros He.
  assert (Sy : forall e, symmetric 3 (cauchyGreenOf e)).
  { intros e a b Ha Hb. unfold cauchyGreenOf. destruct a as [|[|[|]]]; try lia; destruct b as [|[|[|]]]; try lia; reflexivity. }
  assert (Id : orthogonalMatrix identity).
  { destruct (identity_rotation 3 ltac:(lia)) as (A & B & _). split; assumption. }
  assert (Ex : forall C C', symmetric 3 C -> symmetric 3 C' -> eqm 3 C C' -> Hyperelastic_Model.storedEnergy eig m C = Hyperelastic_Model.storedEnergy eig m C').
  { intros C C' S S' E. rewrite <- (proj1 (C85_isotropy eig eig m C identity He He S Id)), <- (proj1 (C85_isotropy eig eig m C' identity He He S' Id)). f_equal.
    apply FunctionalExtensionality.functional_extensionality. intros i. apply FunctionalExtensionality.functional_extensionality. intros j. unfold rotated.
    apply sum_ext. intros k Hk. apply sum_ext. intros l Hl. now rewrite (E k l). }
  split.
  - intros e e' H. unfold hyperelasticEnergy. rewrite (Ex (cauchyGreenOf e) (cauchyGreenOf e')); [reflexivity|apply Sy|apply Sy|].
    intros i j _ _. unfold cauchyGreenOf. rewrite !H. reflexivity.
  - intros Q E HQ S. unfold hyperelasticEnergy.
    rewrite <- (proj1 (C85_isotropy eig eig m (cauchyGreenOf (strainVector 3 E)) Q He He (Sy _) HQ)).
    rewrite (Ex (cauchyGreenOf (strainVector 3 (turnTensor 3 Q E))) (rotated Q (cauchyGreenOf (strainVector 3 E)))); [reflexivity|apply Sy| |].
    + intros i j Hi Hj. unfold rotated. rewrite sum_swap. apply sum_ext. intros k Hk. apply sum_ext. intros l Hl. rewrite (Sy _ k l) by assumption. ring.
    + intros i j Hi Hj.
      assert (F : forall E, symmetric 3 E -> forall i j, (i < 3)%nat -> (j < 3)%nat -> cauchyGreenOf (strainVector 3 E) i j = 2 * E i j + identity i j).
      { clear. intros E S i j Hi Hj. unfold cauchyGreenOf, strainVector.
        destruct i as [|[|[|]]]; try lia; destruct j as [|[|[|]]]; try lia; cbn; try field; rewrite ?(S 1%nat 0%nat), ?(S 2%nat 0%nat), ?(S 2%nat 1%nat) by lia; field. }
      assert (S' : symmetric 3 (turnTensor 3 Q E)).
      { intros a b _ _. unfold turnTensor. rewrite sum_swap. apply sum_ext. intros p Hp. apply sum_ext. intros q Hq. rewrite (S p q) by assumption. ring. }
      rewrite F by assumption. unfold rotated, turnTensor.
      rewrite (sum_ext 3 (fun k => sum 3 (fun l => Q i k * cauchyGreenOf (strainVector 3 E) k l * Q j l)) (fun k => 2 * sum 3 (fun l => Q i k * Q j l * E k l) + Q i k * Q j k)).
      * rewrite sum_add, sum_mul_l, (orth_rows 3 Q HQ) by assumption. reflexivity.
      * intros k Hk. rewrite <- sum_mul_l.
        rewrite (sum_ext 3 _ (fun l => 2 * (Q i k * Q j l * E k l) + identity k l * (Q i k * Q j l))) by (intros; rewrite F by assumption; ring).
        rewrite sum_add, sum_id_l by assumption. reflexivity.
Qed.

(** ** Structures *)
Section Structure.
  Variables (d nodes : nat) (flags : list bool) (dofAt : nat -> nat -> nat) (Q : nat -> nat -> R).
  Hypothesis dpos : (0 < d)%nat.
  Hypothesis HQ : orthogonal d Q.
  Let n := length flags.
  Hypothesis Nu : numbered d nodes n dofAt.

  (** Elements, the same elements in the other coordinates, and the nodes they connect *)
  Variable pairs : list (meshElement * meshElement * list nat).
  Let first (p : meshElement * meshElement * list nat) := fst (fst p).
  Let second (p : meshElement * meshElement * list nat) := snd (fst p).
  Let mesh := map first pairs.
  Let mesh' := map second pairs.

  Definition proper (e : meshElement) : Prop :=
    (exists m ls, me_children e = map Leaf ls /\ ls <> [] /\ forall l, In l ls -> length l = m) /\ forall i, In i (me_dofs e) -> (i < n)%nat.

  (** The two elements connect the same nodes, their forces and matrices derive from their energies around the state U, and their energies
      are the same in all states *)
  Definition sameElements (U : nat -> R) (p : meshElement * meshElement * list nat) : Prop :=
    let e := first p in let e' := second p in let N := (d * length (snd p))%nat in
    proper e /\ proper e' /\ connects d nodes dofAt e (snd p) /\ connects d nodes dofAt e' (snd p) /\
    exists D D', consistentSkill N D (me_skill e) /\ consistentSkill N D' (me_skill e') /\
      (forall v w, (forall k, (k < N)%nat -> v k = w k) -> D' v -> D' w) /\
      (forall y, skillScalar (me_skill e') (turned d Q y) = skillScalar (me_skill e) y) /\
      around N (fun y => D y /\ D' (turned d Q y)) (localOf n e U).

  Definition sameField (U U' : nat -> R) : Prop := forall m a, (m < nodes)%nat -> (a < d)%nat -> U' (dofAt m a) = sum d (fun b => Q a b * U (dofAt m b)).

  Lemma local_value e ns U i a : proper e -> connects d nodes dofAt e ns -> (i < length ns)%nat -> (a < d)%nat -> localOf n e U (d * i + a)%nat = U (dofAt (nth i ns 0%nat) a).
  Proof. intros (Pb & Rg) (_ & L & E) Hi Ha. rewrite localOf_dofs by (try assumption; rewrite L; nia). now rewrite E. Qed.

  Lemma same_local U U' p : sameField U U' -> sameElements U p -> sameState d (length (snd p)) Q (localOf n (first p) U) (localOf n (second p) U').
  Proof.
    intros F (P & P' & C & C' & _) k Hk. assert (Hm : (k mod d < d)%nat) by (apply Nat.mod_upper_bound; lia).
    assert (Hi : (k / d < length (snd p))%nat) by (apply Nat.div_lt_upper_bound; [lia|exact Hk]).
    rewrite (Nat.div_mod_eq k d). rewrite turned_node by assumption. rewrite (local_value _ _ _ _ _ P' C' Hi Hm).
    rewrite F; [|apply C, nth_In, Hi|assumption]. apply sum_ext. intros b Hb. now rewrite (local_value _ _ U _ _ P C Hi Hb).
  Qed.

  Lemma same_results U U' p : sameField U U' -> sameElements U p ->
    sameResults d (length (snd p)) Q (me_skill (first p)) (me_skill (second p)) (localOf n (first p) U) (localOf n (second p) U').
  Proof.
    intros F Sa. assert (Lo := same_local U U' p F Sa). destruct Sa as (_ & _ & _ & _ & D & D' & Co & Co' & Ex & En & Ar).
    exact (C173_skill d (length (snd p)) Q dpos HQ D D' _ _ _ _ Co Co' Ex En Ar Lo).
  Qed.

  (** The force at a node is the sum of those of the elements there *)
  Lemma nodal_forces (side : meshElement * meshElement * list nat -> meshElement) U m a : (forall p, In p pairs -> proper (side p) /\ connects d nodes dofAt (side p) (snd p)) ->
    (m < nodes)%nat -> (a < d)%nat ->
    forcesAt flags (map side pairs) U (dofAt m a) =
    sumP pairs (fun p => sum (length (snd p)) (fun i => if (nth i (snd p) 0 =? m)%nat then skillVector (me_skill (side p)) (localOf n (side p) U) zeroVector (d * i + a)%nat else 0)).
  Proof.
    intros H Hm Ha. unfold forcesAt, answer.
    assert (W : wfElements n (toElements n (map side pairs))).
    { apply wf_any. intros e He. apply in_map_iff in He. destruct He as (p & <- & Hp). apply (H p Hp). }
    fold n. rewrite (ask_raw_vector flags (map side pairs) U W) by (apply (Nu m a); assumption). fold n. rewrite vecEntry_sum, sumP_map.
    apply sumP_ext. intros p Hp. destruct (H p Hp) as (_ & In' & L & E). rewrite L, sum_blocks. apply sum_ext. intros i Hi.
    assert (Hn : (nth i (snd p) 0 < nodes)%nat) by (apply In', nth_In, Hi).
    rewrite (sum_pick d a); [|assumption|].
    - unfold dofOf. rewrite E by assumption. destruct (Nat.eqb_spec (nth i (snd p) 0%nat) m) as [Eq|Ne].
      + rewrite Eq, Nat.eqb_refl. reflexivity.
      + destruct (Nat.eqb_spec (dofAt (nth i (snd p) 0%nat) a) (dofAt m a)) as [Eq|]; [|reflexivity].
        destruct (Nu _ a Hn Ha) as (_ & J). destruct (J m a Hm Ha Eq). contradiction.
    - intros b Hb Nb. unfold dofOf. rewrite E by assumption. destruct (Nat.eqb_spec (dofAt (nth i (snd p) 0%nat) b) (dofAt m a)) as [Eq|]; [|reflexivity].
      destruct (Nu _ b Hn Hb) as (_ & J). destruct (J m a Hm Ha Eq). contradiction.
  Qed.

  Lemma nodal_matrix (side : meshElement * meshElement * list nat -> meshElement) U m a m' a' : (forall p, In p pairs -> proper (side p) /\ connects d nodes dofAt (side p) (snd p)) ->
    (m < nodes)%nat -> (a < d)%nat -> (m' < nodes)%nat -> (a' < d)%nat ->
    matrixAt flags (map side pairs) U (dofAt m a) (dofAt m' a') =
    sumP pairs (fun p => sum (length (snd p)) (fun i => sum (length (snd p)) (fun j => if ((nth i (snd p) 0 =? m) && (nth j (snd p) 0 =? m'))%nat then
      skillMatrix (me_skill (side p)) (localOf n (side p) U) zeroMatrix (d * i + a)%nat (d * j + a')%nat else 0))).
  Proof.
    intros H Hm Ha Hm' Ha'. unfold matrixAt, answer.
    assert (W : wfElements n (toElements n (map side pairs))).
    { apply wf_any. intros e He. apply in_map_iff in He. destruct He as (p & <- & Hp). apply (H p Hp). }
    destruct (C03_matrix_dense _ _ 0 1 Rplus flags (toElements n (map side pairs)) U W) as (M & E' & _ & _ & V').
    fold n. rewrite E'. cbn [matrixEntries]. rewrite V' by (apply Nu; assumption). rewrite matEntry_sum, sumP_map.
    assert (Ck : forall p i b q c, In p pairs -> (i < length (snd p))%nat -> (b < d)%nat -> (q < nodes)%nat -> (c < d)%nat ->
      (dofOf (side p) (d * i + b) =? dofAt q c)%nat = ((nth i (snd p) 0 =? q) && (b =? c))%nat).
    { intros p i b q c Hp Hi Hb Hq Hc. destruct (H p Hp) as (_ & In' & L & E). unfold dofOf. rewrite E by assumption.
      assert (Hn : (nth i (snd p) 0 < nodes)%nat) by (apply In', nth_In, Hi).
      destruct (Nat.eqb_spec (nth i (snd p) 0%nat) q) as [Eq|Ne], (Nat.eqb_spec b c) as [Eb|Nb]; subst; cbn [andb].
      - apply Nat.eqb_refl.
      - apply Nat.eqb_neq. intros Eq. destruct (Nu _ b Hn Hb) as (_ & J). destruct (J _ c Hn Hc Eq). contradiction.
      - apply Nat.eqb_neq. intros Eq. destruct (Nu _ c Hn Hb) as (_ & J). destruct (J _ c Hq Hc Eq). contradiction.
      - apply Nat.eqb_neq. intros Eq. destruct (Nu _ b Hn Hb) as (_ & J). destruct (J _ c Hq Hc Eq). contradiction. }
    apply sumP_ext. intros p Hp. destruct (H p Hp) as (_ & In' & L & E). rewrite L, sum_blocks. apply sum_ext. intros i Hi.
    rewrite (sum_pick d a); [|assumption|].
    - rewrite sum_blocks. apply sum_ext. intros j Hj. rewrite (sum_pick d a'); [|assumption|].
      + rewrite !Ck by assumption. rewrite !Nat.eqb_refl, !andb_true_r. reflexivity.
      + intros b Hb Nb. rewrite !Ck by assumption. rewrite (proj2 (Nat.eqb_neq b a')) by assumption. rewrite !andb_false_r. reflexivity.
    - intros b Hb Nb. apply sum_zero. intros k Hk. rewrite Ck by assumption. rewrite (proj2 (Nat.eqb_neq b a)) by assumption. rewrite !andb_false_r. reflexivity.
  Qed.

  (** C173: energy, forces and matrices of a structure are the same in both coordinate systems *)
  Theorem C173_structure U U' : (forall p, In p pairs -> sameElements U p) -> sameField U U' ->
    energyAt flags mesh' U' = energyAt flags mesh U /\
    (forall m a, (m < nodes)%nat -> (a < d)%nat -> forcesAt flags mesh' U' (dofAt m a) = sum d (fun b => Q a b * forcesAt flags mesh U (dofAt m b))) /\
    (forall m a m' a', (m < nodes)%nat -> (a < d)%nat -> (m' < nodes)%nat -> (a' < d)%nat ->
      matrixAt flags mesh' U' (dofAt m a) (dofAt m' a') = sum d (fun b => sum d (fun b' => Q a b * Q a' b' * matrixAt flags mesh U (dofAt m b) (dofAt m' b')))).
  Proof.
    intros Sa F.
    assert (H1 : forall p, In p pairs -> proper (first p) /\ connects d nodes dofAt (first p) (snd p)) by (intros p Hp; destruct (Sa p Hp) as (A & B & C & D & _); split; assumption).
    assert (H2 : forall p, In p pairs -> proper (second p) /\ connects d nodes dofAt (second p) (snd p)) by (intros p Hp; destruct (Sa p Hp) as (A & B & C & D & _); split; assumption).
    split; [|split].
    - unfold energyAt, answer. cbn. unfold getScalar, toElements. unfold mesh', mesh. rewrite !map_map.
      assert (G : forall z, fold_left (fun s e => s + escal e U') (map (fun p => toElement n (second p)) pairs) z = fold_left (fun s e => s + escal e U) (map (fun p => toElement n (first p)) pairs) z).
      { clear H1 H2. induction pairs as [|p l IH]; intros z; [reflexivity|]. cbn [map fold_left]. cbn [toElement escal].
        rewrite (proj1 (same_results U U' p F (Sa p (or_introl eq_refl)))). apply IH. intros q Hq. apply Sa. now right. }
      apply G.
    - intros m a Hm Ha. unfold mesh', mesh. rewrite (nodal_forces second U' m a H2 Hm Ha).
      rewrite (sum_ext d _ (fun b => sumP pairs (fun p => Q a b * sum (length (snd p)) (fun i => if (nth i (snd p) 0 =? m)%nat then skillVector (me_skill (first p)) (localOf n (first p) U) zeroVector (d * i + b)%nat else 0))))
        by (intros b Hb; rewrite (nodal_forces first U m b H1 Hm Hb); symmetry; apply sumP_mul_l).
      rewrite <- sumP_swap. apply sumP_ext. intros p Hp. destruct (same_results U U' p F (Sa p Hp)) as (_ & V & _).
      rewrite (sum_ext d _ (fun b => sum (length (snd p)) (fun i => if (nth i (snd p) 0 =? m)%nat then Q a b * skillVector (me_skill (first p)) (localOf n (first p) U) zeroVector (d * i + b)%nat else 0)))
        by (intros; rewrite <- sum_mul_l; apply sum_ext; intros; destruct (_ =? _)%nat; ring).
      rewrite (sum_swap d). apply sum_ext. intros i Hi. destruct (_ =? m)%nat; [|symmetry; apply sum_zero; reflexivity].
      rewrite V by nia. now rewrite turned_node.
    - intros m a m' a' Hm Ha Hm' Ha'. unfold mesh', mesh. rewrite (nodal_matrix second U' m a m' a' H2) by assumption.
      rewrite (sum_ext d _ (fun b => sum d (fun b' => sumP pairs (fun p => Q a b * Q a' b' * sum (length (snd p)) (fun i => sum (length (snd p)) (fun j => if ((nth i (snd p) 0 =? m) && (nth j (snd p) 0 =? m'))%nat then
          skillMatrix (me_skill (first p)) (localOf n (first p) U) zeroMatrix (d * i + b)%nat (d * j + b')%nat else 0))))))
        by (intros b Hb; apply sum_ext; intros b' Hb'; rewrite (nodal_matrix first U m b m' b' H1) by assumption; symmetry; apply sumP_mul_l).
      rewrite (sum_ext d _ (fun b => sumP pairs (fun p => sum d (fun b' => Q a b * Q a' b' * sum (length (snd p)) (fun i => sum (length (snd p)) (fun j => if ((nth i (snd p) 0 =? m) && (nth j (snd p) 0 =? m'))%nat then
          skillMatrix (me_skill (first p)) (localOf n (first p) U) zeroMatrix (d * i + b)%nat (d * j + b')%nat else 0)))))) by (intros; symmetry; apply sumP_swap).
      rewrite <- sumP_swap. apply sumP_ext. intros p Hp. destruct (same_results U U' p F (Sa p Hp)) as (_ & _ & V).
      rewrite (sum_ext d _ (fun b => sum (length (snd p)) (fun i => sum d (fun b' => sum (length (snd p)) (fun j => if ((nth i (snd p) 0 =? m) && (nth j (snd p) 0 =? m'))%nat then
          Q a b * Q a' b' * skillMatrix (me_skill (first p)) (localOf n (first p) U) zeroMatrix (d * i + b)%nat (d * j + b')%nat else 0)))))
        by (intros; rewrite sum_swap; apply sum_ext; intros; rewrite <- sum_mul_l; apply sum_ext; intros; rewrite <- sum_mul_l; apply sum_ext; intros; destruct (_ && _)%bool; ring).
      rewrite (sum_swap d). apply sum_ext. intros i Hi.
      rewrite (sum_ext d _ (fun b => sum (length (snd p)) (fun j => sum d (fun b' => if ((nth i (snd p) 0 =? m) && (nth j (snd p) 0 =? m'))%nat then
          Q a b * Q a' b' * skillMatrix (me_skill (first p)) (localOf n (first p) U) zeroMatrix (d * i + b)%nat (d * j + b')%nat else 0)))) by (intros; apply sum_swap).
      rewrite (sum_swap d). apply sum_ext. intros j Hj. destruct (_ && _)%bool.
      + rewrite V by nia. unfold turnedMatrix. destruct (block_index d i a Ha) as (-> & ->). destruct (block_index d j a' Ha') as (-> & ->). reflexivity.
      + symmetry. apply sum_zero. intros. apply sum_zero. reflexivity.
  Qed.

  (** A node is in equilibrium with the loads P in one coordinate system exactly if it is in the other *)
  Theorem C173_equilibrium U U' P P' m : (forall p, In p pairs -> sameElements U p) -> sameField U U' -> sameField P P' -> (m < nodes)%nat ->
    (forall a, (a < d)%nat -> forcesAt flags mesh' U' (dofAt m a) = P' (dofAt m a)) <-> (forall a, (a < d)%nat -> forcesAt flags mesh U (dofAt m a) = P (dofAt m a)).
  Proof.
    intros Sa F FP Hm. destruct (C173_structure U U' Sa F) as (_ & V & _). split; intros H a Ha.
    - assert (B : forall x, x a = sum d (fun k => Q k a * sum d (fun b => Q k b * x b))).
      { intros x. rewrite (sum_ext d _ (fun k => sum d (fun b => Q k a * Q k b * x b))) by (intros; rewrite <- sum_mul_l; apply sum_ext; intros; ring).
        rewrite sum_swap. rewrite (sum_ext d _ (fun b => identity a b * x b)) by (intros; rewrite sum_mul_r, (orth_cols d Q HQ) by assumption; reflexivity). now rewrite sum_id_l. }
      rewrite (B (fun a => forcesAt flags mesh U (dofAt m a))), (B (fun a => P (dofAt m a))). cbv beta. apply sum_ext. intros k Hk.
      rewrite <- V, <- FP by assumption. now rewrite H.
    - rewrite V, FP by assumption. apply sum_ext. intros b Hb. now rewrite H.
  Qed.
End Structure.

(** A truss, and the truss between the turned places *)
Theorem C173_truss_elements d nodes flags dofAt Q children index E A X1 X2 ns U : (0 < d)%nat -> orthogonal d Q ->
  (exists k, (k < d)%nat /\ X1 k <> X2 k) ->
  let e := mkMeshElement children index (trussSkill d E A X1 X2) in
  let e' := mkMeshElement children index (trussSkill d E A (turnVector d Q X1) (turnVector d Q X2)) in
  length ns = 2%nat -> proper flags e -> connects d nodes dofAt e ns -> sameElements d nodes flags dofAt Q U (e, e', ns).
Proof.
  intros dpos HQ Ne e e' Ln Pr Co. split; [exact Pr|]. split; [exact Pr|]. split; [exact Co|]. split; [exact Co|].
  exists (fun _ => True), (fun _ => True). cbn [fst snd]. rewrite Ln. replace (d * 2)%nat with (d + d)%nat by lia.
  split; [apply C54_skill; exact Ne|]. split.
  - apply C54_skill. destruct Ne as (k & Hk & Nk). apply Classical_Prop.NNPP. intros C. apply Nk.
    assert (Eq : forall a, (a < d)%nat -> turnVector d Q X1 a = turnVector d Q X2 a).
    { intros a Ha. apply Classical_Prop.NNPP. intros N. apply C. exists a. split; assumption. }
    assert (B : forall x, x k = sum d (fun j => Q j k * sum d (fun b => Q j b * x b))).
    { intros x. rewrite (sum_ext d _ (fun j => sum d (fun b => Q j k * Q j b * x b))) by (intros; rewrite <- sum_mul_l; apply sum_ext; intros; ring).
      rewrite sum_swap. rewrite (sum_ext d _ (fun b => identity k b * x b)) by (intros; rewrite sum_mul_r, (orth_cols d Q HQ) by assumption; reflexivity). now rewrite sum_id_l. }
    rewrite (B X1), (B X2). apply sum_ext. intros j Hj. unfold turnVector in Eq. now rewrite Eq.
  - split; [auto|]. split; [|intros c v _; apply filter_forall; auto]. intros y. apply C173_truss; assumption.
Qed.

(** A solid element of an isotropic material, and the same element with the gradients of its shape functions turned *)
Definition regularSolid d n points dN psi stress tangent (u : nat -> R) : Prop :=
  forall gp : point, In gp points -> hyperelastic (voigtLength d) psi stress tangent (glStrain d n dN gp u) /\ symmetric (voigtLength d) (tangent (glStrain d n dN gp u)).
Definition solidSkill d n points dN psi stress tangent : skill :=
  nonlinearSkill d n (voigtLength d) points (glStrain d n dN) (glBop d n dN) (glKg d dN) psi stress tangent.

Theorem C173_solid_elements d nodes flags dofAt Q children index dN dN' points points' psi stress tangent ns U : (0 < d <= 3)%nat -> orthogonal d Q ->
  Forall2 (samePoint d (length ns) Q dN dN') points points' -> isotropicEnergy d psi ->
  let e := mkMeshElement children index (solidSkill d (length ns) points dN psi stress tangent) in
  let e' := mkMeshElement children index (solidSkill d (length ns) points' dN' psi stress tangent) in
  around (d * length ns) (fun y => regularSolid d (length ns) points dN psi stress tangent y /\ regularSolid d (length ns) points' dN' psi stress tangent (turned d Q y)) (localOf (length flags) e U) ->
  proper flags e -> connects d nodes dofAt e ns -> sameElements d nodes flags dofAt Q U (e, e', ns).
Proof.
  intros d3 HQ Sp Is e e' Ar Pr Co. split; [exact Pr|]. split; [exact Pr|]. split; [exact Co|]. split; [exact Co|].
  exists (regularSolid d (length ns) points dN psi stress tangent), (regularSolid d (length ns) points' dN' psi stress tangent). cbn [fst snd].
  assert (Cs : forall pts g, consistentSkill (d * length ns) (regularSolid d (length ns) pts g psi stress tangent) (solidSkill d (length ns) pts g psi stress tangent)).
  { intros pts g. apply C101_solid; [lia|..]; intros u gp Du Hgp; destruct (Du gp Hgp) as (H1 & H2).
    - split; [apply C96_green_lagrange; lia|exact H1].
    - split; [exact H2|]. apply (C96_green_lagrange d (length ns) (proj1 d3) g gp u (proj2 d3)). }
  split; [apply Cs|]. split; [apply Cs|]. split; [|split].
  - intros v w E Dv gp Hgp.
    replace (glStrain d (length ns) dN' gp w) with (glStrain d (length ns) dN' gp v); [apply Dv, Hgp|].
    apply FunctionalExtensionality.functional_extensionality. intros m. unfold glStrain. apply (strainVector_ext d (length ns) d3).
    assert (H : forall k a, (k < d)%nat -> displacementGradientOf d (length ns) (dN' gp) v k a = displacementGradientOf d (length ns) (dN' gp) w k a).
    { intros k a Hk. unfold displacementGradientOf. apply sum_ext. intros i Hi. rewrite E by nia. reflexivity. }
    intros a b Ha Hb. unfold greenLagrangeOf. rewrite !H by assumption. do 2 f_equal. apply sum_ext. intros. rewrite !H by assumption. reflexivity.
  - intros y. cbn [solidSkill nonlinearSkill skillScalar me_skill]. apply (C173_solid_energy d (length ns) Q d3 HQ dN dN' points points' Sp psi y Is).
  - exact Ar.
Qed.

(** Solids of the St.Venant-Kirchhoff material are regular everywhere *)
Lemma hooke_symmetric d lambda mu : symmetric (voigtLength d) (hooke d lambda mu).
Proof. intros i j _ _. unfold hooke. rewrite (andb_comm (let (_, _) := component d j in _)), (Nat.eqb_sym j i). destruct (Nat.eqb_spec i j) as [->|]; reflexivity. Qed.

Lemma svk_regular d n points dN lambda mu u :
  regularSolid d n points dN (linearEnergy (voigtLength d) (fun _ => hooke d lambda mu)) (linearStress_ (voigtLength d) (fun _ => hooke d lambda mu)) (fun _ => hooke d lambda mu) u.
Proof. intros gp _. split; [apply quadratic_hyperelastic, hooke_symmetric|apply hooke_symmetric]. Qed.

Print Assumptions C173_solid_energy.
Print Assumptions C173_solid_forces.
Print Assumptions C173_solid_stiffness.
Print Assumptions C173_linear_energy.
Print Assumptions C173_linear_forces.
Print Assumptions C173_linear_stiffness.
Print Assumptions C173_skill.
Print Assumptions C173_truss.
Print Assumptions C173_hooke_isotropic.
Print Assumptions C173_hyperelastic_isotropic.
Print Assumptions C173_structure.
Print Assumptions C173_equilibrium.
Print Assumptions C173_truss_elements.
Print Assumptions C173_solid_elements.

(** A turn that does not map the axes to each other, the two bars of C147, and a triangle of the St.Venant-Kirchhoff material *)
Definition tilt (a b : nat) : R := match a, b with O, O => 3 / 5 | O, _ => - (4 / 5) | S _, O => 4 / 5 | S _, _ => 3 / 5 end.
Definition turnedBars : list meshElement :=
  [mkMeshElement barChildren (fun k => nth k [0; 4; 1; 5] 0)%nat (trussSkill 2 210 1 (turnVector 2 tilt (fun _ => 0)) (turnVector 2 tilt (fun k => match k with O => 3 | _ => 4 end)));
   mkMeshElement barChildren (fun k => nth k [2; 4; 3; 5] 0)%nat
     (trussSkill 2 70 2 (turnVector 2 tilt (fun k => match k with O => 6 | _ => 0 end)) (turnVector 2 tilt (fun k => match k with O => 3 | _ => 4 end)))].
Definition barPairs : list (meshElement * meshElement * list nat) := combine (combine bars turnedBars) [[0; 2]; [1; 2]]%nat.

Lemma tilt_orthogonal : orthogonal 2 tilt.
Proof. split; intros [|[|i]] [|[|j]]; intros; try lia; cbv -[Rplus Rmult Rminus Rdiv Ropp IZR]; lra. Qed.

Example C173_applies U : numbered 2 3 6 (fun m a => 2 * m + a)%nat /\ (forall p, In p barPairs -> sameElements 2 3 (repeat true 6) (fun m a => 2 * m + a)%nat tilt U p) /\
  turnVector 2 tilt (fun k => match k with O => 3 | _ => 4 end) 0%nat = - 7 / 5.
Proof.
  split; [intros m a Hm Ha; split; [lia|intros; lia]|]. split; [|unfold turnVector, tilt; cbn [sum]; lra].
  assert (Co : forall l ns e, me_dofs e = l -> length ns = 2%nat -> (forall m, In m ns -> (m < 3)%nat) -> l = [2 * nth 0 ns 0; 2 * nth 0 ns 0 + 1; 2 * nth 1 ns 0; 2 * nth 1 ns 0 + 1]%nat ->
    connects 2 3 (fun m a => 2 * m + a)%nat e ns).
  { intros l ns e E L In' Ev. split; [exact In'|]. rewrite E, Ev, L. split; [reflexivity|]. intros [|[|i]] [|[|a]] Hi Ha; try lia; cbn; lia. }
  intros p [<-|[<-|[]]]; apply (C173_truss_elements 2 3 (repeat true 6) (fun m a => (2 * m + a)%nat) tilt); try lia; try apply tilt_orthogonal; try reflexivity.
  - exists 0%nat. split; [lia|lra].
  - split; [|cbn; intros i Hi; intuition lia]. exists 2%nat, [[0; 1]; [2; 3]]%nat. split; [reflexivity|split; [discriminate|intros l [<-|[<-|[]]]; reflexivity]].
  - apply (Co _ _ _ eq_refl); [reflexivity|cbn; intros; lia|reflexivity].
  - exists 0%nat. split; [lia|lra].
  - split; [|cbn; intros i Hi; intuition lia]. exists 2%nat, [[0; 1]; [2; 3]]%nat. split; [reflexivity|split; [discriminate|intros l [<-|[<-|[]]]; reflexivity]].
  - apply (Co _ _ _ eq_refl); [reflexivity|cbn; intros; lia|reflexivity].
Qed.

(** The gradients of the shape functions of the triangle (0, 0), (1, 0), (0, 1), the same in the new coordinates *)
Definition triangleN (gp : point) (i a : nat) : R := match i, a with O, _ => -1 | 1%nat, O => 1 | 2%nat, 1%nat => 1 | _, _ => 0 end.
Definition turnedTriangleN (gp : point) (i a : nat) : R := turnVector 2 tilt (triangleN gp i) a.
Example C173_solid_applies lambda mu (gp : point) U :
  let psi := linearEnergy 3 (fun _ => hooke 2 lambda mu) in let stress := linearStress_ 3 (fun _ => hooke 2 lambda mu) in
  let element g := mkMeshElement [Leaf [0; 1; 2]; Leaf [3; 4; 5]]%nat (fun k => nth k [0; 2; 4; 1; 3; 5] 0)%nat (solidSkill 2 3 [gp] g psi stress (fun _ => hooke 2 lambda mu)) in
  sameElements 2 3 (repeat false 6) (fun m a => 2 * m + a)%nat tilt U (element triangleN, element turnedTriangleN, [0; 1; 2]%nat).
Proof.
  apply (C173_solid_elements 2 3 (repeat false 6) (fun m a => 2 * m + a)%nat tilt); [lia|apply tilt_orthogonal| |apply C173_hooke_isotropic; lia| | |].
  - constructor; [|constructor]. split; [reflexivity|]. intros. reflexivity.
  - intros c v _. apply filter_forall. intros t. split; apply (svk_regular 2).
  - split; [|cbn; intros i Hi; intuition lia]. exists 3%nat, [[0; 1; 2]; [3; 4; 5]]%nat. split; [reflexivity|split; [discriminate|intros l [<-|[<-|[]]]; reflexivity]].
  - split; [cbn; intros; lia|]. split; [reflexivity|]. intros [|[|[|i]]] [|[|a]] Hi Ha; cbn in Hi; try lia; reflexivity.
Qed.
