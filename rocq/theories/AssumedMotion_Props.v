(** C194: forces, stiffness and internal variables of elements with assumed second Piola-Kirchhoff stresses after rigid motions
    (model: AssumedStress_Model.v). *)

From Coq Require Import Reals Arith Bool List Lia Lra FunctionalExtensionality.
From Coquelicot Require Import Coquelicot.
From Verif Require Import Tensor_Spec Tensor_Model Tensor_Props Conversions_Spec Conversions_Model Conversions_Props Element_Spec Element_Model Element_Proofs Element_Props.
From Verif Require Import Eas_Spec Eas_Model Eas_Proofs Eas_Props AssumedStress_Spec AssumedStress_Model AssumedStress_Proofs AssumedStress_Props.
From Verif Require Import Objectivity_Spec Objectivity_Props StructureReactions_Props Coordinates_Props VariantKinship_Props CondensedCoordinates_Props EnhancedBody_Props AssumedBody_Props Corotation_Props.
Import ListNotations.
Local Open Scope R_scope.

Section Element.
  Variables (d n p : nat) (X : nat -> nat -> R) (points : list point) (dN : point -> nat -> nat -> R) (P : point -> nat -> nat -> R).
  Variables (inverse : (nat -> nat -> R) -> nat -> nat -> R) (materialInversion : (nat -> R) -> (nat -> R) -> (nat -> nat -> R) * (nat -> R)).
  Hypothesis d3 : (0 < d <= 3)%nat.
  Let s := voigtLength d.
  Let N := (d * n)%nat.
  Let eps := glStrain d n dN.
  Let bop := glBop d n dN.
  Let kg := glKg d dN.
  Hypothesis shapes : forall gp, In gp points -> shapeDerivatives d n X dN gp.
  Let forces u st := asForces d n s p points bop P u st zeroVector.
  Let geometric u st := asGeometric d n s p points kg P u st zeroMatrix.
  Let G := asG d n s points bop P.

  Lemma work_corotates u st : corotates d n X (fun y => forces y st) (fun y => geometric y st) u.
  Proof.
    set (none (_ : nat -> R) (_ : nat) := 0). set (state := stateAt s p P none (fun _ _ _ => 0)).
    assert (A := fun y => no_material d n p points dN P d3 y (beta st)).
    apply (energy_corotates d n X (fun y => mixedEnergy s p points eps P (fun _ => 0) y (beta st)) _ _ (fun _ => True)); try assumption; auto.
    - intros y _. exact (gradient2_first _ _ _ _ _ _ _ (C114_forces d n s p points (proj1 d3) eps bop kg P (fun _ => 0) none (fun _ _ _ => 0) y (beta st) (A y))).
    - intros y _ k Hk.
      exact (gradient2_first _ _ _ _ _ _ _ (proj1 (C114_tangent d n s p points (proj1 d3) eps bop kg P (fun _ => 0) none (fun _ _ _ => 0) y (beta st) (A y)) k Hk)).
    - intros Q c y R. exact (work_kept d n p X points dN P d3 shapes Q c y (beta st) R).
    - intros c v _. apply filter_forall. auto.
  Qed.

  Lemma coupling_turned Q c u q k : rotation d Q -> (q < p)%nat -> (k < N)%nat -> G (moved d X Q c u) q k = turned d Q (G u q) k.
  Proof.
    intros R Hq Hk. set (st := {| beta := fun r => identity r q; strainStates := fun _ _ => 0; invertedMaterialStates := fun _ _ _ => 0 |}).
    assert (E : forall y j, (j < N)%nat -> forces y st j = G y q j).
    { intros y j Hj. unfold forces, G. rewrite as_forces_sum, as_g_sum by (exact (proj1 d3) || exact Hj). unfold zeroVector. rewrite Rplus_0_l.
      apply sumP_ext. intros gp _. f_equal. apply sum_ext. intros m Hm. rewrite Rmult_comm. f_equal.
      unfold stressValue. destruct (Nat.ltb_spec m s); [|lia]. unfold apply. cbn [beta st]. now apply sum_id_right. }
    rewrite <- E by exact Hk. rewrite (proj1 (work_corotates u st) Q c k R Hk). apply (turned_ext d n Q (proj1 d3)); [exact Hk|]. intros. now apply E.
  Qed.

  Lemma residual_kept Q c u st r : rotation d Q -> asRtilde s points eps P (moved d X Q c u) st r = asRtilde s points eps P u st r.
  Proof. intros R. exact (C191_residual d n X points dN P d3 shapes Q c u st r R). Qed.

  (** C194: whatever the element stores, its forces turn along *)
  Theorem C194_forces Q c u st k : rotation d Q -> (k < N)%nat ->
    asVectorImpl d n s p points eps bop P inverse (moved d X Q c u) st zeroVector k = turned d Q (asVectorImpl d n s p points eps bop P inverse u st zeroVector) k.
  Proof.
    intros R Hk. unfold asVectorImpl. fold (forces u st) (forces (moved d X Q c u) st) (G u) (G (moved d X Q c u)). rewrite (proj1 (work_corotates u st) Q c k R Hk).
    unfold turned, turnVector.
    transitivity (sum d (fun b => Q (k mod d) b * forces u st (d * (k / d) + b)%nat + sum p (fun q => sum p (fun r =>
      Q (k mod d) b * G u q (d * (k / d) + b)%nat * inverse (asH s points P st) q r * asRtilde s points eps P u st r)))).
    - rewrite sum_add. f_equal. rewrite (sum_swap d p). apply sum_ext. intros q Hq. rewrite (sum_swap d p). apply sum_ext. intros r _.
      rewrite coupling_turned by assumption. rewrite residual_kept by exact R.
      unfold turned, turnVector. rewrite !sum_mul_r. reflexivity.
    - apply sum_ext. intros b _. rewrite Rmult_plus_distr_l. f_equal. rewrite <- sum_mul_l. apply sum_ext. intros q _. rewrite <- sum_mul_l. apply sum_ext. intros. ring.
  Qed.

  (** C194: so does the matrix *)
  Lemma as_matrix_full u st k l : symmetric p (inverse (asH s points P st)) -> (k < N)%nat -> (l < N)%nat ->
    asMatrixImpl d n s p points bop kg P inverse u st zeroMatrix k l =
    geometric u st k l + sum p (fun q => sum p (fun r => G u q k * inverse (asH s points P st) q r * G u r l)).
  Proof.
    intros Sy Hk Hl. unfold asMatrixImpl. fold (geometric u st) (G u).
    destruct (Nat.ltb_spec l k); [destruct (Nat.leb_spec l k); [|lia]|destruct (Nat.leb_spec k l); [reflexivity|lia]]. f_equal.
    - unfold geometric. rewrite !as_geometric_sum by (exact (proj1 d3) || assumption). f_equal. apply sumP_ext. intros gp _. f_equal.
      apply (C96_green_lagrange d n (proj1 d3) dN gp u). lia.
    - rewrite sum_swap. apply sum_ext. intros q Hq. apply sum_ext. intros r Hr. rewrite (Sy r q) by assumption. ring.
  Qed.
  Theorem C194_stiffness Q c u st k l : rotation d Q -> symmetric p (inverse (asH s points P st)) -> (k < N)%nat -> (l < N)%nat ->
    asMatrixImpl d n s p points bop kg P inverse (moved d X Q c u) st zeroMatrix k l =
    turnedMatrix d Q (asMatrixImpl d n s p points bop kg P inverse u st zeroMatrix) k l.
  Proof.
    intros R Sy Hk Hl. rewrite as_matrix_full by assumption. rewrite (proj1 (proj2 (work_corotates u st)) Q c k l R Hk Hl). unfold turnedMatrix.
    rewrite (sum_ext d (fun a => sum d (fun b => _ * asMatrixImpl _ _ _ _ _ _ _ _ _ _ _ _ _ _)) (fun a => sum d (fun b => Q (k mod d) a * Q (l mod d) b * geometric u st (d * (k / d) + a)%nat (d * (l / d) + b)%nat) +
      sum p (fun q => sum p (fun r => Q (k mod d) a * G u q (d * (k / d) + a)%nat * inverse (asH s points P st) q r * turned d Q (G u r) l)))).
    - rewrite sum_add. f_equal. rewrite (sum_swap d p). apply sum_ext. intros q Hq. rewrite (sum_swap d p). apply sum_ext. intros r Hr.
      rewrite !coupling_turned by assumption. unfold turned at 1, turnVector. rewrite !sum_mul_r. reflexivity.
    - intros a Ha.
      rewrite (sum_ext d _ (fun b => Q (k mod d) a * Q (l mod d) b * geometric u st (d * (k / d) + a)%nat (d * (l / d) + b)%nat +
        sum p (fun q => sum p (fun r => Q (k mod d) a * G u q (d * (k / d) + a)%nat * inverse (asH s points P st) q r * (Q (l mod d) b * G u r (d * (l / d) + b)%nat))))).
      + rewrite sum_add. f_equal. rewrite (sum_swap d p). apply sum_ext. intros q _. rewrite (sum_swap d p). apply sum_ext. intros r _. rewrite sum_mul_l. reflexivity.
      + intros b Hb. rewrite as_matrix_full by (try exact Sy; now apply (node_bound d n (proj1 d3))). rewrite Rmult_plus_distr_l. f_equal.
        rewrite <- sum_mul_l. apply sum_ext. intros q _. rewrite <- sum_mul_l. apply sum_ext. intros. ring.
  Qed.

  (** C194: a correction that is turned along leaves the same state behind *)
  Theorem C194_update Q c u dx st : rotation d Q ->
    updateState d n s p points eps bop P materialInversion inverse (moved d X Q c u) (turned d Q dx) st =
    updateState d n s p points eps bop P materialInversion inverse u dx st.
  Proof.
    intros R. unfold updateState. f_equal. f_equal. apply functional_extensionality. intros q. f_equal. apply sum_ext. intros r Hr. f_equal.
    rewrite residual_kept by exact R. f_equal.
    fold (G u) (G (moved d X Q c u)). change (dot N (G (moved d X Q c u) r) (turned d Q dx) = dot N (G u r) dx). unfold N.
    rewrite (dot_turned d n Q). apply sum_ext. intros k Hk. f_equal.
    rewrite <- (turned_back d n Q (proj1 d3) (rotation_orthogonal d Q R) (G u r) k Hk). apply (turned_ext d n (transpose Q) (proj1 d3)); [exact Hk|].
    intros j Hj. now apply coupling_turned.
  Qed.
End Element.

(** The square of C191_applies with three stress parameters; the matrix of its state and what is taken for its inverse is the identity *)
Example C194_applies :
  let dN gp := bilinear (position gp 0%nat) (position gp 1%nat) in
  let P (_ : point) := identity in
  let st := {| beta := fun q => if (q =? 0)%nat then 3 else 0; strainStates := fun _ q => if (q =? 0)%nat then 1 else 0; invertedMaterialStates := fun _ => identity |} in
  (forall gp, In gp [middle] -> shapeDerivatives 2 4 cornerPlace dN gp) /\ rotation 2 quarter /\ symmetric 3 (asH 3 [middle] P st) /\
  asVectorImpl 2 4 3 3 [middle] (glStrain 2 4 dN) (glBop 2 4 dN) P (fun A => A) zeroVector st zeroVector 0%nat = -1 /\
  turned 2 quarter (asVectorImpl 2 4 3 3 [middle] (glStrain 2 4 dN) (glBop 2 4 dN) P (fun A => A) zeroVector st zeroVector) 1%nat = -1.
Proof.
  intros dN P st. split; [intros gp _; apply (bilinear_shapes (position gp 0%nat) (position gp 1%nat) gp)|].
  split; [split; [|split; [|cbn; ring]]; intros i j Hi Hj; destruct i as [|[|i]]; try lia; destruct j as [|[|j]]; try lia; unfold mul, transpose, identity; cbn; ring|].
  split; [intros i j Hi Hj; destruct i as [|[|[|i]]]; try lia; destruct j as [|[|[|j]]]; try lia; unfold asH, identity; cbn; ring|].
  assert (A : asVectorImpl 2 4 3 3 [middle] (glStrain 2 4 dN) (glBop 2 4 dN) P (fun A => A) zeroVector st zeroVector 0%nat = -1) by (cbv -[Rplus Rmult Rinv Ropp Rminus IZR]; field).
  split; [exact A|]. unfold turned, turnVector. cbn [sum]. change (1 mod 2)%nat with 1%nat. change (2 * (1 / 2) + 0)%nat with 0%nat. rewrite A. cbn. ring.
Qed.

Print Assumptions C194_forces.
Print Assumptions C194_stiffness.
Print Assumptions C194_update.
