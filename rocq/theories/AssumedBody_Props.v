(** C191: rigid motions of elements with assumed second Piola-Kirchhoff stresses (model: AssumedStress_Model.v). *)

From Coq Require Import Reals Arith Bool List Lia Lra.
From Coquelicot Require Import Coquelicot.
From Verif Require Import Tensor_Spec Tensor_Model Tensor_Props Conversions_Spec Conversions_Model Conversions_Props Element_Spec Element_Model Element_Proofs Element_Props.
From Verif Require Import Eas_Spec Eas_Model Eas_Proofs Eas_Props AssumedStress_Spec AssumedStress_Model AssumedStress_Proofs AssumedStress_Props.
From Verif Require Import Objectivity_Spec Objectivity_Props StructureReactions_Props CondensedCoordinates_Props EnhancedBody_Props.
Import ListNotations.
Local Open Scope R_scope.

Section Element.
  Variables (d n p : nat) (X : nat -> nat -> R) (points : list point) (dN : point -> nat -> nat -> R) (P : point -> nat -> nat -> R).
  Variable inverse : (nat -> nat -> R) -> nat -> nat -> R.
  Hypothesis d3 : (0 < d <= 3)%nat.
  Let s := voigtLength d.
  Let N := (d * n)%nat.
  Let eps := glStrain d n dN.
  Let bop := glBop d n dN.
  Hypothesis shapes : forall gp, In gp points -> shapeDerivatives d n X dN gp.

  (** C191: neither the energy nor the residuals of the stress parameters change, whatever the element stores *)
  Theorem C191_energy Q c u st : rotation d Q -> asScalarImpl s p points eps P (moved d X Q c u) st = asScalarImpl s p points eps P u st.
  Proof.
    intros R. rewrite !as_scalar_sum. apply sumP_ext. intros gp Hgp. f_equal. f_equal. apply sum_ext. intros m _. f_equal.
    unfold eps. apply (C100_solid_strains d n X dN d3); auto.
  Qed.
  Theorem C191_residual Q c u st q : rotation d Q -> asRtilde s points eps P (moved d X Q c u) st q = asRtilde s points eps P u st q.
  Proof.
    intros R. rewrite !as_rtilde_sum. apply sumP_ext. intros gp Hgp. f_equal. apply sum_ext. intros m _. f_equal. f_equal.
    unfold eps. apply (C100_solid_strains d n X dN d3); auto.
  Qed.

  (** without a material the functional is the work of the assumed stresses on the strains *)
  Let none (_ : nat -> R) (_ : nat) : R := 0.
  Let work := mixedEnergy s p points eps P (fun _ => 0).
  Let state := stateAt s p P none (fun _ _ _ => 0).
  Lemma no_material u b : suited d n s p points eps bop (glKg d dN) P (fun _ => 0) none (fun _ _ _ => 0) u b.
  Proof.
    intros gp _. split; [|split; [|split]].
    - apply (C96_green_lagrange d n (proj1 d3) dN gp u). lia.
    - intros T T' HT i j x c. unfold glKg. apply sum_ext. intros m Hm. now rewrite HT.
    - assert (Z : forall g : nat -> R, (forall k, g k = 0) -> isGradient s (fun _ => 0) g (stressValue s p P gp b)).
      { intros g Hg c v _. unfold dot. rewrite sum_zero by (intros; rewrite Hg; ring). apply @is_derive_const. }
      split; [now apply Z|]. intros k Hk. now apply Z.
    - intros i j _ _. reflexivity.
  Qed.
  Lemma work_kept Q c u b : rotation d Q -> work (moved d X Q c u) b = work u b.
  Proof.
    intros R. unfold work. rewrite <- !(mixed_energy d n s p points eps bop (glKg d dN) P (fun _ => 0) none (fun _ _ _ => 0)), !mix_energy. apply sumP_ext. intros gp Hgp. f_equal. f_equal.
    apply sum_ext. intros m _. f_equal. unfold eps. apply (C100_solid_strains d n X dN d3); auto.
  Qed.

  (** C191: the forces have neither a resultant nor a moment, whatever the element stores *)
  Theorem C191_equilibrium u st : selfEquilibrated d n X u (asVectorImpl d n s p points eps bop P inverse u st zeroVector).
  Proof.
    set (c q := - sum p (fun r => inverse (asH s points P st) q r * asRtilde s points eps P u st r)).
    assert (F : forall b, selfEquilibrated d n X u (asForces d n s p points bop P u (state b) zeroVector)).
    { intros b. apply (C100_equilibrium d n X d3 (fun y => work y b)); [|intros; now apply work_kept].
      exact (gradient2_first _ _ _ _ _ _ _ (C114_forces d n s p points (proj1 d3) eps bop (glKg d dN) P (fun _ => 0) none (fun _ _ _ => 0) u b (no_material u b))). }
    apply (balanced_ext d n X u d3) with (g := fun k => asForces d n s p points bop P u (state (beta st)) zeroVector k - sum p (fun q => c q * asG d n s points bop P u q k)).
    - intros k Hk. unfold asVectorImpl, Rminus. f_equal.
      rewrite (sum_ext p (fun q => c q * _) (fun q => - sum p (fun r => asG d n s points bop P u q k * inverse (asH s points P st) q r * asRtilde s points eps P u st r))).
      + match goal with |- ?x = - ?y => enough (E : y = -1 * x) by (rewrite E; ring) end. rewrite <- sum_mul_l. apply sum_ext. intros. ring.
      + intros q _. unfold c. rewrite Ropp_mult_distr_l_reverse. f_equal. rewrite <- sum_mul_r. apply sum_ext. intros. ring.
    - apply (balanced_combination d n X u d3); [apply F|].
      apply (balanced_derivative d n X u d3 p (fun b => asForces d n s p points bop P u (state b) zeroVector) (asG d n s points bop P u) (beta st)).
      + intros k Hk. destruct (C114_tangent d n s p points (proj1 d3) eps bop (glKg d dN) P (fun _ => 0) none (fun _ _ _ => 0) u (beta st) (no_material u (beta st))) as (A & _).
        exact (gradient2_second _ _ _ _ _ _ _ (A k Hk)).
      + intros c' v _. apply filter_forall. intros t. apply F.
  Qed.
End Element.

(** A square with bilinear shape functions, a quarter turn and a shift, and a state with stresses that do not fit to the strains: the
    residual is not zero, the forces are balanced *)
Definition middle : point := {| position := fun _ => / 2; integrationElement := 1; weight := 1 |}.
Example C191_applies :
  let dN gp := bilinear (position gp 0%nat) (position gp 1%nat) in
  let P (_ : point) := identity in
  let st := {| beta := fun q => if (q =? 0)%nat then 3 else 0; strainStates := fun _ q => if (q =? 0)%nat then 1 else 0; invertedMaterialStates := fun _ => identity |} in
  (forall gp, In gp [middle] -> shapeDerivatives 2 4 cornerPlace dN gp) /\ rotation 2 quarter /\
  asRtilde 3 [middle] (glStrain 2 4 dN) P zeroVector st 0%nat = -1 /\
  asVectorImpl 2 4 3 3 [middle] (glStrain 2 4 dN) (glBop 2 4 dN) P (fun A => A) zeroVector st zeroVector 0%nat = -1.
Proof.
  intros dN P st. split; [intros gp _; apply (bilinear_shapes (position gp 0%nat) (position gp 1%nat) gp)|].
  split; [split; [|split; [|cbn; ring]]; intros i j Hi Hj; destruct i as [|[|i]]; try lia; destruct j as [|[|j]]; try lia; unfold mul, transpose, identity; cbn; ring|].
  split; cbv -[Rplus Rmult Rinv Ropp Rminus IZR]; field.
Qed.

Print Assumptions C191_energy.
Print Assumptions C191_residual.
Print Assumptions C191_equilibrium.
