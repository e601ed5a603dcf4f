(** C187: what displacement-pressure elements compute does not depend on the coordinate system (model: Pressure_Model.v). *)

From Coq Require Import Reals Arith Bool List Lia Lra.
From Coquelicot Require Import Coquelicot.
From Verif Require Import Volumetric_Model Deviatoric_Model Hyperelastic_Model Hyperelastic_Spec Hyperelastic_Props.
From Verif Require Import Tensor_Spec Tensor_Model Tensor_Props Conversions_Spec Conversions_Model Conversions_Props Element_Spec Element_Model Element_Proofs Element_Props.
From Verif Require Import PressureMaterial_Model Pressure_Model Pressure_Props Truss_Props StructureReactions_Props Coordinates_Props.
Import ListNotations.
Local Open Scope R_scope.

(** ** The unknowns in the new coordinates *)
(** Displacements are vectors, pressures are numbers *)
Definition turnedMixed (d n : nat) (Q : nat -> nat -> R) (x : nat -> R) (k : nat) : R := if (k <? d * n)%nat then turned d Q x k else x k.
Definition turnedMixedMatrix (d n : nat) (Q K : nat -> nat -> R) (k l : nat) : R := turnedMixed d n Q (fun i => turnedMixed d n Q (K i) l) k.

(** The same change of coordinates as one matrix *)
Definition blockTurn (d n : nat) (Q : nat -> nat -> R) (k l : nat) : R :=
  if (k <? d * n)%nat then (if (l <? d * n)%nat && (k / d =? l / d)%nat then Q (k mod d) (l mod d) else 0) else identity k l.

Section Block.
  Variables (d n m : nat) (Q : nat -> nat -> R).
  Hypothesis dpos : (0 < d)%nat.
  Let N := (d * n)%nat.
  Let T := (N + m)%nat.

  Lemma block_apply x k : (k < T)%nat -> sum T (fun b => blockTurn d n Q k b * x b) = turnedMixed d n Q x k.
  Proof.
    intros Hk. unfold turnedMixed, blockTurn. destruct (Nat.ltb_spec k (d * n)) as [L|L].
    - assert (Hd : (k / d < n)%nat) by (apply Nat.div_lt_upper_bound; lia).
      unfold T. rewrite sum_app, (sum_zero m), Rplus_0_r.
      2:{ intros b _. unfold N. destruct (Nat.ltb_spec (d * n + b) (d * n)); [lia|]. cbn [andb]. ring. }
      unfold N. rewrite sum_blocks, (sum_pick n (k / d)) by (exact Hd || (intros i Hi Ni; apply sum_zero; intros a Ha; destruct (block_index d i a Ha) as (-> & ->);
        destruct (Nat.eqb_spec (k / d) i); [congruence|]; rewrite andb_false_r; ring)).
      unfold turned, turnVector. apply sum_ext. intros a Ha. destruct (block_index d (k / d) a Ha) as (-> & ->). rewrite Nat.eqb_refl.
      destruct (Nat.ltb_spec (d * (k / d) + a) (d * n)); [reflexivity|nia].
    - rewrite sum_id_l by exact Hk. reflexivity.
  Qed.
  Lemma block_turned x k : (k < T)%nat -> turned T (blockTurn d n Q) x k = turnedMixed d n Q x k.
  Proof.
    intros Hk. unfold turned, turnVector. rewrite Nat.div_small, Nat.mod_small by exact Hk. rewrite Nat.mul_0_r. apply block_apply, Hk.
  Qed.
  Lemma turnedMixed_ext x y k : (k < T)%nat -> (forall j, (j < T)%nat -> x j = y j) -> turnedMixed d n Q x k = turnedMixed d n Q y k.
  Proof.
    intros Hk H. unfold turnedMixed. destruct (Nat.ltb_spec k (d * n)); [|now apply H]. apply (turned_ext d n); [exact dpos|assumption|]. intros j Hj. apply H. unfold T, N. lia.
  Qed.
  Lemma block_matrix K k l : (k < T)%nat -> (l < T)%nat -> turnedMatrix T (blockTurn d n Q) K k l = turnedMixedMatrix d n Q K k l.
  Proof.
    intros Hk Hl. unfold turnedMatrix, turnedMixedMatrix. rewrite !(Nat.div_small _ T), !(Nat.mod_small _ T) by assumption. rewrite Nat.mul_0_r. cbn [Nat.add].
    rewrite <- block_apply by exact Hk. apply sum_ext. intros p Hp. rewrite <- (block_apply (K p) l Hl), <- sum_mul_l. apply sum_ext. intros. ring.
  Qed.
End Block.

Lemma block_transpose d n Q k l : blockTurn d n (transpose Q) k l = transpose (blockTurn d n Q) k l.
Proof.
  unfold blockTurn, transpose, identity. rewrite (Nat.eqb_sym l k), (Nat.eqb_sym (l / d)).
  destruct (Nat.ltb_spec k (d * n)), (Nat.ltb_spec l (d * n)); cbn [andb]; try reflexivity; destruct (Nat.eqb_spec k l); try reflexivity; lia.
Qed.
Lemma block_inverse d n m Q P : (0 < d)%nat -> eqm d (mul d Q P) identity -> eqm (d * n + m) (mul (d * n + m) (blockTurn d n Q) (blockTurn d n P)) identity.
Proof.
  intros dpos H i j Hi Hj. unfold mul. rewrite (block_apply d n m Q dpos (fun b => blockTurn d n P b j) i Hi). unfold turnedMixed.
  destruct (Nat.ltb_spec i (d * n)) as [L|L].
  - assert (Hd : (i / d < n)%nat) by (apply Nat.div_lt_upper_bound; lia).
    assert (Ei := Nat.div_mod i d ltac:(lia)). assert (Ej := Nat.div_mod j d ltac:(lia)).
    assert (Mi : (i mod d < d)%nat) by (apply Nat.mod_upper_bound; lia). assert (Mj : (j mod d < d)%nat) by (apply Nat.mod_upper_bound; lia).
    unfold turned, turnVector, blockTurn.
    rewrite (sum_ext d _ (fun b => if (j <? d * n)%nat && (i / d =? j / d)%nat then Q (i mod d) b * P b (j mod d) else 0)).
    2:{ intros b Hb. destruct (block_index d (i / d) b Hb) as (-> & ->). destruct (Nat.ltb_spec (d * (i / d) + b) (d * n)); [|nia].
        destruct ((j <? d * n)%nat && (i / d =? j / d)%nat); ring. }
    destruct (Nat.ltb_spec j (d * n)); cbn [andb].
    + destruct (Nat.eqb_spec (i / d) (j / d)) as [E|E].
      * change (mul d Q P (i mod d) (j mod d) = identity i j). rewrite H by assumption. unfold identity.
        destruct (Nat.eqb_spec (i mod d) (j mod d)), (Nat.eqb_spec i j); try reflexivity; subst; congruence.
      * rewrite sum_zero by reflexivity. unfold identity. destruct (Nat.eqb_spec i j); [congruence|reflexivity].
    + rewrite sum_zero by reflexivity. unfold identity. destruct (Nat.eqb_spec i j); [lia|reflexivity].
  - unfold blockTurn. destruct (Nat.ltb_spec i (d * n)); [lia|reflexivity].
Qed.
Lemma block_orthogonal d n m Q : (0 < d)%nat -> orthogonal d Q -> orthogonal (d * n + m) (blockTurn d n Q).
Proof.
  intros dpos (H1 & H2). split; intros i j Hi Hj.
  - rewrite <- (block_inverse d n m (transpose Q) Q dpos H1 i j Hi Hj). unfold mul. apply sum_ext. intros b _. now rewrite block_transpose.
  - rewrite <- (block_inverse d n m Q (transpose Q) dpos H2 i j Hi Hj). unfold mul. apply sum_ext. intros b _. now rewrite block_transpose.
Qed.

(** ** Elements *)
Section Mixed.
  Variables (d n m : nat) (Q : nat -> nat -> R).
  Hypothesis d3 : (0 < d <= 3)%nat.
  Hypothesis HQ : orthogonal d Q.
  Let s := voigtLength d.
  Let N := (d * n)%nat.
  Let T := (N + m)%nat.
  (** The derivatives of the shape functions and the shape functions of the pressure at the points of both elements *)
  Variables (dN dN' : point -> nat -> nat -> R) (Np Np' : point -> nat -> R) (points points' : list point).
  Definition sameMixedPoint (gp gp' : point) : Prop := samePoint d n Q dN dN' gp gp' /\ forall j, (j < m)%nat -> Np' gp' j = Np gp j.
  Hypothesis same : List.Forall2 sameMixedPoint points points'.
  Variables (devE : (nat -> R) -> R) (devS : (nat -> R) -> nat -> R) (devC : (nat -> R) -> nat -> nat -> R).
  Variables (volE : (nat -> R) -> R) (volS : (nat -> R) -> nat -> R) (volC : (nat -> R) -> nat -> nat -> R).
  Variable kappa : R.
  Hypothesis kappa_nonzero : kappa <> 0.
  Hypothesis devE_only : componentsOnly s devE.
  Hypothesis devS_only : componentsOnly s devS.
  Hypothesis devC_only : componentsOnly s devC.
  Hypothesis volE_only : componentsOnly s volE.
  Hypothesis volS_only : componentsOnly s volS.
  Hypothesis volC_only : componentsOnly s volC.
  Hypothesis devE_isotropic : isotropicEnergy d devE.
  Hypothesis volE_isotropic : isotropicEnergy d volE.

  Let Energy l dM Np := dpScalar d n m l (glStrain d n dM) Np devE volE kappa.
  Let Vector l dM Np := dpVector d n s m l (glStrain d n dM) (glBop d n dM) Np devS volE volS kappa.
  Let Matrix l dM Np := dpMatrix d n s m l (glStrain d n dM) (glBop d n dM) (glKg d dM) Np devS devC volS volC kappa.
  (** The displacements turned and the pressures as they are *)
  Definition mixedTurn (x : nat -> R) : nat -> R := turned T (blockTurn d n Q) x.
  Theorem C187_unknowns x : (forall i a, (i < n)%nat -> (a < d)%nat -> mixedTurn x (d * i + a)%nat = sum d (fun b => Q a b * x (d * i + b)%nat)) /\
    (forall j, (j < m)%nat -> mixedTurn x (d * n + j)%nat = x (d * n + j)%nat).
  Proof.
    split.
    - intros i a Hi Ha. unfold mixedTurn. assert (d * i + a < N)%nat by (unfold N; nia). rewrite (block_turned d n m Q (proj1 d3)) by (unfold T; lia). unfold turnedMixed.
      destruct (Nat.ltb_spec (d * i + a) (d * n)); [|unfold N in *; lia]. now apply turned_node.
    - intros j Hj. unfold mixedTurn. rewrite (block_turned d n m Q (proj1 d3)) by (unfold N; lia). unfold turnedMixed.
      destruct (Nat.ltb_spec (d * n + j) (d * n)); [lia|reflexivity].
  Qed.

  Lemma strain_local dM gp x y : (forall k, (k < N)%nat -> x k = y k) -> forall c, glStrain d n dM gp x c = glStrain d n dM gp y c.
  Proof.
    intros H c. assert (X : forall k a, (k < d)%nat -> displacementGradientOf d n (dM gp) x k a = displacementGradientOf d n (dM gp) y k a).
    { intros k a Hk. unfold displacementGradientOf. apply sum_ext. intros i Hi. rewrite H; [reflexivity|]. unfold N. nia. }
    unfold glStrain. apply (strainVector_ext d n d3). intros a b Ha Hb. unfold greenLagrangeOf. rewrite !X by assumption. f_equal. f_equal. apply sum_ext. intros k Hk. now rewrite !X.
  Qed.
  Lemma mixed_strain gp gp' x c : samePoint d n Q dN dN' gp gp' ->
    glStrain d n dN' gp' (mixedTurn x) c = strainVector d (turnTensor d Q (greenLagrangeOf d (displacementGradientOf d n (dN gp) x))) c.
  Proof.
    intros S. rewrite <- (turned_strain d n Q d3 HQ dN dN' gp gp' x c S). apply strain_local. intros k Hk.
    unfold mixedTurn. rewrite (block_turned d n m Q (proj1 d3)) by (unfold T; lia). unfold turnedMixed. destruct (Nat.ltb_spec k (d * n)); [reflexivity|unfold N in *; lia].
  Qed.
  Lemma mixed_pressure gp gp' x : sameMixedPoint gp gp' -> pressure d n m Np' gp' (mixedTurn x) = pressure d n m Np gp x.
  Proof. intros (_ & S). unfold pressure, pressureIndex. apply sum_ext. intros j Hj. now rewrite S, (proj2 (C187_unknowns x)). Qed.

  (** C187: the energy is the same in both coordinate systems, *)
  Theorem C187_energy x : Energy points' dN' Np' (mixedTurn x) = Energy points dN Np x.
  Proof.
    unfold Energy, dpScalar. generalize 0. generalize same. generalize points points'. intros k k' Hs.
    induction Hs as [|gp gp' l l' Hp Hl IH]; intros e0; [reflexivity|]. cbn [fold_left].
    assert (V : integrationElement gp' * weight gp' = integrationElement gp * weight gp) by exact (proj1 (proj1 Hp)).
    assert (X : forall psi, isotropicEnergy d psi -> psi (glStrain d n dN' gp' (mixedTurn x)) = psi (glStrain d n dN gp x)).
    { intros psi (Ex & Is). rewrite (Ex _ _ (fun c => mixed_strain gp gp' x c (proj1 Hp))). apply Is; [exact HQ|]. apply greenLagrange_symmetric. }
    rewrite IH. f_equal. unfold driverEnergy, Uhat. rewrite !Rmult_assoc, V, (mixed_pressure gp gp' x Hp), !X by assumption. reflexivity.
  Qed.

  (** The materials have the given stresses and moduli at the strains of the element *)
  Definition materialsAt (l : list point) (dM : point -> nat -> nat -> R) (x : nat -> R) : Prop := forall gp, In gp l ->
    hyperelastic s devE devS devC (glStrain d n dM gp x) /\ hyperelastic s volE volS volC (glStrain d n dM gp x).
  Lemma kg_only dM gp x : componentsOnly s (glKg d dM gp x).
  Proof.
    intros e e' H. apply FunctionalExtensionality.functional_extensionality. intros i. apply FunctionalExtensionality.functional_extensionality. intros j.
    apply FunctionalExtensionality.functional_extensionality. intros a. apply FunctionalExtensionality.functional_extensionality. intros b.
    unfold glKg. apply sum_ext. intros c Hc. rewrite (H c Hc). reflexivity.
  Qed.
  Lemma state l dM x : materialsAt l dM x -> mixedState d n s l (glStrain d n dM) (glBop d n dM) (glKg d dM) devE devS devC volE volS volC x.
  Proof. intros H gp Hgp. split; [apply (C96_green_lagrange d n (proj1 d3) dM gp x); lia|]. now apply H. Qed.
  Lemma mixed_gradient l dM Nq x : materialsAt l dM x -> isGradient T (Energy l dM Nq) (Vector l dM Nq x zeroVector) x.
  Proof. intros H. eapply (C112_forces d n s m l (proj1 d3) _ _ (glKg d dM) Nq devE devS devC volE volS volC kappa); try assumption. now apply state. Qed.
  Lemma mixed_jacobian l dM Nq x : materialsAt l dM x -> isJacobian T T (fun y => Vector l dM Nq y zeroVector) (Matrix l dM Nq x zeroMatrix) x.
  Proof. intros H. eapply (C112_stiffness d n s m l (proj1 d3) _ _ (glKg d dM) Nq devE devS devC volE volS volC kappa); try assumption; try (apply kg_only). now apply state. Qed.

  Lemma forces_turned x k : (k < T)%nat -> materialsAt points dN x -> materialsAt points' dN' (mixedTurn x) ->
    Vector points' dN' Np' (mixedTurn x) zeroVector k = turned T (blockTurn d n Q) (Vector points dN Np x zeroVector) k.
  Proof.
    intros Hk H H'. assert (G := gradients_turned T 1 (blockTurn d n Q) ltac:(lia) (block_orthogonal d n m Q (proj1 d3) HQ)). rewrite Nat.mul_1_r in G.
    apply (G (Energy points dN Np) (Energy points' dN' Np') _ _ x).
    - now apply mixed_gradient.
    - now apply mixed_gradient.
    - intros c v _. apply filter_forall. intros t. apply C187_energy.
    - exact Hk.
  Qed.

  (** the forces are turned and the residuals of the pressures are the same, *)
  Theorem C187_forces x f k : (k < T)%nat -> materialsAt points dN x -> materialsAt points' dN' (mixedTurn x) ->
    Vector points' dN' Np' (mixedTurn x) (turnedMixed d n Q f) k = turnedMixed d n Q (Vector points dN Np x f) k.
  Proof.
    intros Hk H H'.
    assert (Ad : forall l dM Nq y g j, (j < T)%nat -> Vector l dM Nq y g j = g j + Vector l dM Nq y zeroVector j).
    { intros l dM Nq y g j Hj. exact (proj1 (C112_adds d n s m l (proj1 d3) (glStrain d n dM) (glBop d n dM) (glKg d dM) Nq devS devC volE volS volC kappa
        devS_only devC_only volE_only volS_only volC_only (kg_only dM) y g zeroMatrix j j Hj Hj)). }
    rewrite Ad, (forces_turned x k Hk H H'), (block_turned d n m Q (proj1 d3)) by exact Hk.
    rewrite (turnedMixed_ext d n m Q (proj1 d3) (Vector points dN Np x f) (fun j => f j + Vector points dN Np x zeroVector j) k Hk) by (intros j Hj; now apply Ad).
    unfold turnedMixed. destruct (k <? d * n)%nat; [|reflexivity]. unfold turned, turnVector. rewrite <- sum_add. apply sum_ext. intros. ring.
  Qed.

  (** and all blocks of the matrix are turned accordingly *)
  Theorem C187_stiffness x k l : (k < T)%nat -> (l < T)%nat -> materialsAt points dN x -> materialsAt points' dN' (mixedTurn x) ->
    around T (fun y => materialsAt points dN y /\ materialsAt points' dN' (mixedTurn y)) x ->
    Matrix points' dN' Np' (mixedTurn x) zeroMatrix k l = turnedMixedMatrix d n Q (Matrix points dN Np x zeroMatrix) k l.
  Proof.
    intros Hk Hl H H' Ar. rewrite <- (block_matrix d n m Q (proj1 d3)) by assumption.
    assert (G := jacobians_turned T 1 (blockTurn d n Q) ltac:(lia) (block_orthogonal d n m Q (proj1 d3) HQ)). rewrite Nat.mul_1_r in G.
    apply (G (fun y => Vector points dN Np y zeroVector) (fun y => Vector points' dN' Np' y zeroVector) _ _ x).
    - now apply mixed_jacobian.
    - now apply mixed_jacobian.
    - intros c v P. generalize (Ar c v P). apply filter_imp. intros t (H1 & H2) j Hj. now apply forces_turned.
    - exact Hk.
    - exact Hl.
  Qed.
End Mixed.
(** Both parts of the decomposition of a hyperelastic material are isotropic *)
Theorem C187_decomposed eig mat : solvesSymmetric eig ->
  isotropicEnergy 3 (hyperelasticEnergy eig (deviatoricMaterial mat)) /\ isotropicEnergy 3 (hyperelasticEnergy eig (volumetricMaterial mat)).
Proof. intros H. split; now apply C173_hyperelastic_isotropic. Qed.
Print Assumptions C187_decomposed.
Print Assumptions C187_unknowns.
Print Assumptions C187_energy.
Print Assumptions C187_forces.
Print Assumptions C187_stiffness.

(** ** A case *)
(** Any element with quadratic isotropic energies, seen in any other coordinate system *)
Example C187_applies d n m Q points dN Np lambda mu lambda' mu' kappa x : (0 < d <= 3)%nat -> orthogonal d Q -> kappa <> 0 ->
  let s := voigtLength d in
  let C := hooke d lambda mu in let U := hooke d lambda' mu' in
  let energy A := linearEnergy s (fun _ => A) in
  let stress A := linearStress_ s (fun _ => A) in
  let dN' gp i := turnVector d Q (dN gp i) in
  let Vector dM := dpVector d n s m points (glStrain d n dM) (glBop d n dM) Np (stress C) (energy U) (stress U) kappa in
  let Matrix dM := dpMatrix d n s m points (glStrain d n dM) (glBop d n dM) (glKg d dM) Np (stress C) (fun _ => C) (stress U) (fun _ => U) kappa in
  forall k l, (k < d * n + m)%nat -> (l < d * n + m)%nat ->
    Vector dN' (mixedTurn d n m Q x) zeroVector k = turnedMixed d n Q (Vector dN x zeroVector) k /\
    Matrix dN' (mixedTurn d n m Q x) zeroMatrix k l = turnedMixedMatrix d n Q (Matrix dN x zeroMatrix) k l.
Proof.
  intros d3 HQ Hk s C U energy stress dN' Vector Matrix k l Kk Kl.
  assert (OE : forall A, componentsOnly s (energy A)).
  { intros A e e' H. unfold energy, linearEnergy. f_equal. unfold dot. apply sum_ext. intros i Hi. rewrite (H i Hi). f_equal.
    unfold apply. apply sum_ext. intros j Hj. rewrite (H j Hj). reflexivity. }
  assert (OS : forall A, componentsOnly s (stress A)).
  { intros A e e' H. unfold stress, linearStress_. apply FunctionalExtensionality.functional_extensionality. intros i. unfold apply. apply sum_ext. intros j Hj. rewrite (H j Hj). reflexivity. }
  assert (OC : forall A, componentsOnly s (fun _ : nat -> R => A : nat -> nat -> R)) by (intros A e e' _; reflexivity).
  assert (Sa : List.Forall2 (sameMixedPoint d n m Q dN dN' Np Np) points points) by (induction points; constructor; [repeat split|]; auto).
  assert (Ma : forall dM y, materialsAt d n (energy C) (stress C) (fun _ => C) (energy U) (stress U) (fun _ => U) points dM y).
  { intros dM y gp _. split; apply quadratic_hyperelastic; apply hooke_symmetric. }
  assert (Is : forall a b, isotropicEnergy d (energy (hooke d a b))) by (intros; now apply C173_hooke_isotropic).
  split.
  - assert (F := C187_forces d n m Q d3 HQ dN dN' Np Np points points Sa (energy C) (stress C) (fun _ => C) (energy U) (stress U) (fun _ => U) kappa Hk
      (OE _) (OS _) (OC _) (OE _) (OS _) (OC _) (Is _ _) (Is _ _) x zeroVector k Kk (Ma _ _) (Ma _ _)).
    transitivity (dpVector d n s m points (glStrain d n dN') (glBop d n dN') Np (stress C) (energy U) (stress U) kappa (mixedTurn d n m Q x) (turnedMixed d n Q zeroVector) k); [|exact F].
    apply f_equal2; [|reflexivity]. apply FunctionalExtensionality.functional_extensionality. intros j. unfold turnedMixed, turned, turnVector, zeroVector.
    destruct (j <? d * n)%nat; [|reflexivity]. rewrite sum_zero; [reflexivity|]. intros. ring.
  - apply (C187_stiffness d n m Q d3 HQ dN dN' Np Np points points Sa (energy C) (stress C) (fun _ => C) (energy U) (stress U) (fun _ => U) kappa Hk
      (OE _) (OS _) (OC _) (OE _) (OS _) (OC _) (Is _ _) (Is _ _) x k l Kk Kl (Ma _ _) (Ma _ _)).
    intros c v _. apply filter_forall. intros t. split; apply Ma.
Qed.
