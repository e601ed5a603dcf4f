(** C195: forces and stiffness of displacement-pressure elements after rigid motions (model: Pressure_Model.v). *)

From Coq Require Import Reals Arith Bool List Lia Lra FunctionalExtensionality.
From Coquelicot Require Import Coquelicot.
From Verif Require Import Tensor_Spec Tensor_Model Tensor_Props Conversions_Spec Conversions_Model Conversions_Props Element_Spec Element_Model Element_Proofs Element_Props.
From Verif Require Import Pressure_Model Pressure_Props Truss_Props Objectivity_Spec Objectivity_Props Eas_Proofs FlatShell_Props StructureReactions_Props Coordinates_Props PressureCoordinates_Props.
From Verif Require Import PressureBody_Props EnhancedBody_Props Corotation_Props.
Import ListNotations.
Local Open Scope R_scope.

(** The gradient at a shifted point *)
Lemma gradient_shifted M f g x y w : (forall k, (k < M)%nat -> y k = x k + w k) -> isGradient M f g y -> isGradient M (fun z => f (fun k => z k + w k)) g x.
Proof.
  intros E G c v P. apply (G (fun t k => c t k + w k)). intros k Hk. destruct (P k Hk) as (A & B). split; [rewrite A, E by exact Hk; reflexivity|].
  eapply derive_eq; [apply (is_derive_plus (fun t => c t k) (fun _ => w k) 0 (v k) 0); [exact B|apply @is_derive_const]|]. unfold plus; cbn. ring.
Qed.

Section Element.
  Variables (d n m : nat) (X : nat -> nat -> R) (points : list point).
  Hypothesis d3 : (0 < d <= 3)%nat.
  Let s := voigtLength d.
  Let N := (d * n)%nat.
  Let T := (N + m)%nat.
  Variables (dN : point -> nat -> nat -> R) (Np : point -> nat -> R).
  Variables (devE : (nat -> R) -> R) (devS : (nat -> R) -> nat -> R) (devC : (nat -> R) -> nat -> nat -> R).
  Variables (volE : (nat -> R) -> R) (volS : (nat -> R) -> nat -> R) (volC : (nat -> R) -> nat -> nat -> R).
  Variable kappa : R.
  Hypothesis kappa_nonzero : kappa <> 0.
  Hypothesis derivatives : forall gp, In gp points -> shapeDerivatives d n X dN gp.
  Hypothesis devE_only : componentsOnly s devE.
  Hypothesis devS_only : componentsOnly s devS.
  Hypothesis devC_only : componentsOnly s devC.
  Hypothesis volE_only : componentsOnly s volE.
  Hypothesis volS_only : componentsOnly s volS.
  Hypothesis volC_only : componentsOnly s volC.
  Let eps := glStrain d n dN.
  Let p := pressure d n m Np.
  Let Energy := dpScalar d n m points eps Np devE volE kappa.
  Let Vector := dpVector d n s m points eps (glBop d n dN) Np devS volE volS kappa.
  Let Matrix := dpMatrix d n s m points eps (glBop d n dN) (glKg d dN) Np devS devC volS volC kappa.
  Let materials := materialsAt d n devE devS devC volE volS volC points dN.

  (** The displacements are moved, the pressures are kept *)
  Definition movedMixed (Q : nat -> nat -> R) (c x : nat -> R) : nat -> R := withPressures N x (moved d X Q c x).

  Section Motion.
    Variables (Q : nat -> nat -> R) (c : nat -> R).
    Hypothesis Rot : rotation d Q.
    Let B := blockTurn d n Q.
    Let w k := if (k <? N)%nat then moved d X Q c zeroVector k else 0.
    (** y is x after the motion *)
    Let after (x y : nat -> R) := forall k, (k < T)%nat -> y k = turned T B x k + w k.

    Lemma after_moved x : after x (movedMixed Q c x).
    Proof.
      intros k Hk. unfold B, T, N. rewrite (block_turned d n m Q (proj1 d3)) by exact Hk. unfold movedMixed, withPressures, turnedMixed, w. unfold N.
      destruct (Nat.ltb_spec k (d * n)); [|ring]. now rewrite moved_shift.
    Qed.
    Lemma after_strain x y gp : after x y -> In gp points -> eps gp y = eps gp x.
    Proof.
      intros A Hgp. apply functional_extensionality. intros q. unfold eps. transitivity (glStrain d n dN gp (moved d X Q c x) q); [|apply (C100_solid_strains d n X dN d3); auto].
      apply (strain_local d n m d3). intros k Hk. rewrite A by (unfold T, N; lia). rewrite <- (after_moved x k) by (unfold T, N; lia).
      unfold movedMixed, withPressures. destruct (Nat.ltb_spec k N); [reflexivity|unfold N in *; lia].
    Qed.
    Lemma after_pressure x y gp : after x y -> p gp y = p gp x.
    Proof.
      intros A. unfold p, pressure, pressureIndex. apply sum_ext. intros j Hj. rewrite A by (unfold T, N; lia). rewrite <- (after_moved x) by (unfold T, N; lia).
      unfold movedMixed, withPressures. destruct (Nat.ltb_spec (d * n + j) N); [unfold N in *; lia|reflexivity].
    Qed.
    Lemma after_energy x y : after x y -> Energy y = Energy x.
    Proof.
      intros A. unfold Energy, eps. rewrite !energy_value by assumption. apply sumP_ext. intros gp Hgp. fold eps p. rewrite (after_strain x y gp A Hgp), (after_pressure x y gp A). reflexivity.
    Qed.
    Lemma after_materials x y : after x y -> materials x -> materials y.
    Proof. intros A H gp Hgp. assert (E := after_strain x y gp A Hgp). unfold eps in E. rewrite E. now apply H. Qed.

    Lemma after_forces x y k : after x y -> materials x -> (k < T)%nat -> Vector y zeroVector k = turned T B (Vector x zeroVector) k.
    Proof.
      intros A H Hk. assert (G := gradients_turned T 1 B ltac:(lia) (block_orthogonal d n m Q (proj1 d3) (rotation_orthogonal d Q Rot))). rewrite Nat.mul_1_r in G.
      apply (G Energy (fun z => Energy (fun k => z k + w k)) _ _ x); [..|exact Hk].
      - apply (mixed_gradient d n m d3 devE devS devC volE volS volC kappa); assumption.
      - apply (gradient_shifted T Energy _ _ y); [exact A|]. apply (mixed_gradient d n m d3 devE devS devC volE volS volC kappa); try assumption. now apply (after_materials x).
      - intros c' v _. apply filter_forall. intros t. apply after_energy. intros j _. reflexivity.
    Qed.
    Lemma after_stiffness x y k l : after x y -> around T materials x -> (k < T)%nat -> (l < T)%nat -> Matrix y zeroMatrix k l = turnedMatrix T B (Matrix x zeroMatrix) k l.
    Proof.
      intros A Hn Hk Hl. assert (H : materials x) by exact (locally_singleton _ _ (Hn _ _ (fun k _ => conj eq_refl (is_derive_const (x k) 0)))).
      assert (G := jacobians_turned T 1 B ltac:(lia) (block_orthogonal d n m Q (proj1 d3) (rotation_orthogonal d Q Rot))). rewrite Nat.mul_1_r in G.
      apply (G (fun z => Vector z zeroVector) (fun z => Vector (fun k => z k + w k) zeroVector) _ _ x); [..|exact Hk|exact Hl].
      - apply (mixed_jacobian d n m d3 devE devS devC volE volS volC kappa); assumption.
      - intros j Hj. apply (gradient_shifted T (fun z => Vector z zeroVector j) _ _ y); [exact A|].
        apply (mixed_jacobian d n m d3 devE devS devC volE volS volC kappa); try assumption. now apply (after_materials x).
      - intros c' v P. generalize (Hn c' v P). apply filter_imp. intros t Ht j Hj. apply after_forces; [intros i _; reflexivity|exact Ht|exact Hj].
    Qed.

    (** C195: the forces of the displacements turn along, the residuals of the pressures stay *)
    Theorem C195_forces x k : materials x -> (k < T)%nat -> Vector (movedMixed Q c x) zeroVector k = turnedMixed d n Q (Vector x zeroVector) k.
    Proof. intros H Hk. rewrite (after_forces x) by (assumption || apply after_moved). now apply block_turned. Qed.
    (** C195: the matrix turns along in the rows and columns of the displacements *)
    Theorem C195_stiffness x k l : around T materials x -> (k < T)%nat -> (l < T)%nat ->
      Matrix (movedMixed Q c x) zeroMatrix k l = turnedMixedMatrix d n Q (Matrix x zeroMatrix) k l.
    Proof. intros H Hk Hl. rewrite (after_stiffness x) by (assumption || apply after_moved). apply (block_matrix d n m Q); assumption || exact (proj1 d3). Qed.
  End Motion.
End Element.

(** The triangle of C188_applies, in all states and with a quarter turn; the pressure pulls at the first node *)
Example C195_applies kappa x : kappa <> 0 ->
  let C := hooke 2 1 1 in
  let S := linearStress_ 3 (fun _ => C) in
  let F := dpVector 2 3 3 1 trianglePoints (glStrain 2 3 triangleDerivatives) (glBop 2 3 triangleDerivatives) (fun _ _ => 1) S trace2 trace2Stress kappa in
  let pressed k := if (k =? 6)%nat then 2 else 0 in
  (forall gp, In gp trianglePoints -> shapeDerivatives 2 3 trianglePlace triangleDerivatives gp) /\
  (componentsOnly 3 (linearEnergy 3 (fun _ => C)) /\ componentsOnly 3 S /\ componentsOnly 3 (fun _ : nat -> R => C) /\
   componentsOnly 3 trace2 /\ componentsOnly 3 trace2Stress /\ componentsOnly 3 (fun (_ : nat -> R) (_ _ : nat) => 0)) /\
  around 7 (materialsAt 2 3 (linearEnergy 3 (fun _ => C)) S (fun _ => C) trace2 trace2Stress (fun _ _ _ => 0) trianglePoints triangleDerivatives) x /\
  rotation 2 quarter /\
  F pressed zeroVector 2%nat = 1 /\ F (movedMixed 2 3 trianglePlace quarter zeroVector pressed) zeroVector 3%nat = 1.
Proof.
  intros Hk C S F pressed. split; [exact (proj1 (C188_applies kappa x Hk))|].
  assert (O : componentsOnly 3 (linearEnergy 3 (fun _ => C)) /\ componentsOnly 3 S /\ componentsOnly 3 (fun _ : nat -> R => C) /\
   componentsOnly 3 trace2 /\ componentsOnly 3 trace2Stress /\ componentsOnly 3 (fun (_ : nat -> R) (_ _ : nat) => 0)).
  { split; [|split; [|split; [|split; [|split]]]]; intros e e' H; try reflexivity.
    - unfold linearEnergy. f_equal. unfold dot. apply sum_ext. intros i Hi. rewrite (H i Hi). f_equal. unfold apply. apply sum_ext. intros j Hj. now rewrite (H j Hj).
    - unfold S, linearStress_. apply functional_extensionality. intros i. unfold apply. apply sum_ext. intros j Hj. now rewrite (H j Hj).
    - unfold trace2. rewrite !H by (cbn; lia). reflexivity. }
  assert (Rot : rotation 2 quarter) by (split; [|split; [|cbn; ring]]; intros i j Hi Hj; destruct i as [|[|i]]; try lia; destruct j as [|[|j]]; try lia; unfold mul, transpose, identity; cbn; ring).
  assert (V : F pressed zeroVector 2%nat = 1) by (cbv -[Rplus Rmult Rinv Ropp Rminus IZR]; field; exact Hk).
  split; [exact O|]. split; [intros c v _; apply filter_forall; intros t; exact (proj1 (proj2 (proj2 (C188_applies kappa (c t) Hk))))|].
  split; [exact Rot|]. split; [exact V|].
  destruct O as (O1 & O2 & O3 & O4 & O5 & O6). unfold F.
  rewrite (C195_forces 2 3 1 trianglePlace trianglePoints ltac:(lia) triangleDerivatives (fun _ _ => 1) (linearEnergy 3 (fun _ => C)) S (fun _ => C) trace2 trace2Stress (fun _ _ _ => 0) kappa Hk);
    try assumption; [|exact (proj1 (C188_applies kappa x Hk))|exact (proj1 (proj2 (proj2 (C188_applies kappa pressed Hk))))|cbn; lia].
  fold F. unfold turnedMixed, turned, turnVector. change (3 <? 2 * 3)%nat with true. change (3 mod 2)%nat with 1%nat. cbn [sum]. change (2 * (3 / 2) + 0)%nat with 2%nat.
  change (voigtLength 2) with 3%nat. fold F. unfold quarter; cbn [nth]. rewrite V. ring.
Qed.

Print Assumptions C195_forces.
Print Assumptions C195_stiffness.
