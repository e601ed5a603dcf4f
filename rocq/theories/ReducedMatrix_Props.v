(** Property C158, and C71 for all strain measures of the wrapped material. *)

From Coq Require Import List Arith Reals Bool Lia Lra Sorted FunctionalExtensionality.
From Coquelicot Require Import Coquelicot.
From Verif Require Import Tensor_Model Tensor_Spec Tensor_Props LinearAlgebra_Model LinearAlgebra_Spec LinearAlgebra_Props
  SVK_Model SVK_Spec SVK_Props Conversions_Model Conversions_Spec VanishingStress_Model VanishingStress_Spec VanishingStress_Props PythonMaterial_Model
  ReducedMatrix_Model.
Import ListNotations.
Local Open Scope R_scope.

(** The strain measure of a material as a function of the Green-Lagrange strain *)
Definition measure (own : strainTag) (E : rmat) : rmat :=
  match own with rightCauchyGreenTensor => fun i j => 2 * E i j + identity i j | _ => E end.
Definition measures (own : strainTag) : Prop := own = linear \/ own = greenLagrangian \/ own = rightCauchyGreenTensor.

Lemma zero_ext fixed : forall A B, eq3 A B -> eq3 (setStrainsToZero fixed A) (setStrainsToZero fixed B).
Proof.
  unfold setStrainsToZero. induction fixed as [|[r c] l IH]; intros A B H; cbn [fold_left]; auto. apply IH. intros i j Hi Hj.
  unfold setE. cbn [fst snd]. destruct ((i =? c)%nat && (j =? r)%nat); auto. destruct ((i =? r)%nat && (j =? c)%nat); auto.
Qed.

Lemma reduce_measure msqrt own fixed E : measures own ->
  exists e, reduceStrain msqrt fixed own (measure own E) = Some e /\ eq3 e (measure own (setStrainsToZero fixed E)).
Proof.
  intros [->|[->| ->]]; cbn [reduceStrain measure]; [eexists; split; [reflexivity|intros i j _ _; reflexivity]..|].
  cbn. eexists. split; [reflexivity|]. intros i j Hi Hj. unfold madd, mscale, identity, kron. rewrite (zero_ext fixed _ E); auto.
  intros a b _ _. unfold mscale, msub, kron. destruct (a =? b)%nat; field.
Qed.

(** C71 for all strain measures: the energy, stress and tangent returned are those of C71_vanishing_strain in terms of the Green-Lagrange
    (or linear) strain *)
Theorem C71_strain_measures : forall msqrt own fixed fx energy stress moduli E, measures own ->
  (forall A B, eq3 A B -> energy A = energy B) -> (forall A B k, eq3 A B -> stress A k = stress B k) -> (forall A B k l, eq3 A B -> moduli A k l = moduli B k l) ->
  strainEnergy msqrt own fixed energy (measure own E) = Some (vsnEnergy fixed (fun E => energy (measure own E)) E) /\
  strainStressesVoigt msqrt own fixed fx stress (measure own E) = vsnStressesVoigt fixed (fun E => stress (measure own E)) fx E /\
  strainModuliVoigt msqrt own fixed fx moduli (measure own E) = vsnModuliVoigt fixed (fun E => moduli (measure own E)) fx E.
Proof.
  intros msqrt own fixed fx energy stress moduli E M XE XS XM. destruct (reduce_measure msqrt own fixed E M) as (e & Re & He).
  unfold strainEnergy, strainStressesVoigt, strainModuliVoigt, vsnEnergy, vsnStressesVoigt, vsnModuliVoigt. rewrite Re.
  rewrite (XE _ _ He). replace (stress e) with (stress (measure own (setStrainsToZero fixed E))) by (extensionality k; symmetry; now apply XS).
  replace (moduli e) with (moduli (measure own (setStrainsToZero fixed E))) by (extensionality k; extensionality l; symmetry; now apply XM). auto.
Qed.
Print Assumptions C71_strain_measures.

(** ** C158 *)
(** The parts that agree.  Vanishing strains: the free components of the stress matrix are those of the Voigt form, the others are zero.
    Vanishing stresses: the matrix is that of the wrapped material; its free components are those of the Voigt form. *)
Lemma matrix_components (v : nat -> R) : exists m, fromVoigt 6 v false = Some (3%nat, m) /\
  forall k, (k < 6)%nat -> let (i, j) := component 3 k in m i j = Some (v k) /\ m j i = Some (v k).
Proof.
  unfold fromVoigt. rewrite size6. eexists. split; [reflexivity|]. intros k Hk. unfold factorFrom.
  cases k; cbn; split; f_equal; ring.
Qed.

Theorem C158_stresses_partial : forall msqrt own fixed fx stress e rem s, remainingIndices 6 fx = Some rem ->
  (forall i, In i rem -> (i < 6)%nat /\ ~ In i fx) -> (forall k, In k fx -> (k < 6)%nat) ->
  strainStressesVoigt msqrt own fixed fx stress e = Some (length rem, s) ->
  exists m, strainStressesMatrix msqrt own fixed fx stress e = Some (3%nat, m) /\
    (forall i, (i < length rem)%nat -> let (a, b) := component 3 (nth i rem 0%nat) in m a b = Some (s i) /\ m b a = Some (s i)) /\
    (forall k, In k fx -> let (a, b) := component 3 k in m a b = Some 0 /\ m b a = Some 0).
Proof.
  intros msqrt own fixed fx stress e rem s ER IR F6 E. unfold strainStressesVoigt, strainStressesMatrix in *.
  destruct (reduceStrain msqrt fixed own e) as [e'|]; [|discriminate]. unfold removeCol in E. rewrite ER in E. injection E as <-.
  destruct (matrix_components (fun k => if in_dec Nat.eq_dec k fx then 0 else stress e' k)) as (m & -> & H). exists m. split; [reflexivity|].
  split.
  - intros i Hi. destruct (IR (nth i rem 0%nat) (nth_In _ _ Hi)) as [B N]. specialize (H _ B).
    destruct (component 3 (nth i rem 0%nat)). destruct (in_dec Nat.eq_dec (nth i rem 0%nat) fx); [contradiction|exact H].
  - intros k Hk. specialize (H k (F6 k Hk)). destruct (component 3 k). destruct (in_dec Nat.eq_dec k fx); [exact H|contradiction].
Qed.
Print Assumptions C158_stresses_partial.

Theorem C158_vanishing_stress_partial : forall stress moduli factor unitStart inverse fixed fx tol E rem s, remainingIndices 6 fx = Some rem ->
  (forall i, In i rem -> (i < 6)%nat) -> (forall k, In k fx -> (k < 3)%nat -> In (k, k) fixed) ->
  vsStressesVoigt stress moduli factor unitStart inverse fixed fx tol E = Some (length rem, s) ->
  exists m, vsStressesMatrix stress moduli factor unitStart inverse fixed fx tol E = Some (3%nat, m) /\
    (forall i, (i < length rem)%nat -> let (a, b) := component 3 (nth i rem 0%nat) in m a b = Some (s i) /\ m b a = Some (s i)) /\
    (forall k, In k fx -> (k < 3)%nat -> exists x, m k k = Some x /\ Rabs x <= tol).
Proof.
  intros stress moduli factor unitStart inverse fixed fx tol E rem s ER IR HF Ev. unfold vsStressesVoigt, vsStressesMatrix in *.
  destruct (reduceStress stress moduli factor unitStart inverse fixed fx tol E) as [E'|] eqn:Re; [|discriminate].
  unfold removeCol in Ev. rewrite ER in Ev. injection Ev as <-.
  destruct (matrix_components (stress E')) as (m & -> & H). exists m. split; [reflexivity|]. split.
  - intros i Hi. apply (H _ (IR _ (nth_In _ _ Hi))).
  - intros k Hk K3. exists (stress E' k). split; [|apply (C70_reduction_partial _ _ _ _ _ _ _ _ _ _ HF Re); assumption].
    assert (Q := H k ltac:(lia)). cases k; exact (proj1 Q).
Qed.
Print Assumptions C158_vanishing_stress_partial.

(** False: the matrix form of the tangent is that of the wrapped material.  Plane strain of St. Venant-Kirchhoff: the stress normal to the plane
    of the wrapped material is lambda E11, the matrix says zero, and the tangent says that it changes by lambda; parts of the tangent are not initialised. *)
Theorem C158_plane_strain_refuted : forall lambda mu msqrt x, lambda <> 0 -> x <> 0 ->
  exists E m t, eq3 E (setStrainsToZero planeStrainPairs E) /\ svkStress lambda mu E 2%nat = lambda * x /\ svkStress lambda mu E 2%nat <> 0 /\
    strainStressesMatrix msqrt greenLagrangian planeStrainPairs [2; 3; 4]%nat (svkStress lambda mu) E = Some (3%nat, m) /\ m 2%nat 2%nat = Some 0 /\
    strainModuliTensor msqrt greenLagrangian planeStrainPairs (svkModuli lambda mu) E = Some (3%nat, t) /\
    t 2%nat 2%nat 0%nat 0%nat = Some lambda /\ t 1%nat 0%nat 0%nat 1%nat = None.
Proof.
  intros lambda mu msqrt x L X. exists (fun i j => if ((i =? 0) && (j =? 0))%nat then x else 0). do 2 eexists.
  split; [intros i j Hi Hj; cases i; cases j; reflexivity|]. 
  assert (V : svkStress lambda mu (fun i j => if ((i =? 0) && (j =? 0))%nat then x else 0) 2%nat = lambda * x)
    by (rewrite svk_diag by lia; unfold trace; cbn; ring).
  split; [exact V|]. split; [rewrite V; now apply Rmult_integral_contrapositive|].
  unfold strainStressesMatrix, strainModuliTensor. cbn [reduceStrain]. unfold fromVoigt, fromVoigtMatrix. rewrite size6.
  split; [reflexivity|]. split; [reflexivity|]. split; [reflexivity|]. split; [|reflexivity]. cbn. f_equal.
Qed.
Print Assumptions C158_plane_strain_refuted.

(** Plane stress: the two forms of the tangent differ in the plane itself *)
Theorem C158_plane_stress_refuted : forall lambda mu tol inverse E, 0 < lambda -> 0 < mu -> 0 <= tol -> inverts inverse -> symmetric 3 E ->
  exists K t, vsModuliVoigt (svkStress lambda mu) (svkModuli lambda mu) 1 false inverse planeStressPairs planeStressIndices tol E = Some (3%nat, K) /\
    vsModuliTensor (svkStress lambda mu) (svkModuli lambda mu) 1 false inverse planeStressPairs planeStressIndices tol E = Some (3%nat, t) /\
    exists x, t 0%nat 0%nat 0%nat 0%nat = Some x /\ K 0%nat 0%nat < x.
Proof.
  intros lambda mu tol inverse E L M T HI Sy.
  destruct (C44_plane_stress lambda mu tol inverse M ltac:(lra) T HI E Sy) as (s & K & _ & EK & HK & _).
  assert (Q : vsModuliVoigt (svkStress lambda mu) (svkModuli lambda mu) 1 false inverse planeStressPairs planeStressIndices tol E <> None) by (rewrite EK; discriminate).
  exists K. unfold vsModuliTensor. unfold vsModuliVoigt in Q.
  destruct (reduceStress _ _ _ _ _ _ _ _ _) as [E'|]; [|now contradict Q]. unfold fromVoigtMatrix. rewrite size6.
  eexists. split; [exact EK|]. split; [reflexivity|]. eexists. split; [cbn; reflexivity|].
  rewrite HK by lia. unfold planeStressMatrix.
  replace (youngsModulus lambda mu / (1 - poissonsRatio lambda mu ^ 2) * 1) with (lambda + 2 * mu - lambda * (lambda / (lambda + 2 * mu))).
  - assert (0 < lambda * (lambda / (lambda + 2 * mu))) by (apply Rmult_lt_0_compat; [assumption|apply Rdiv_lt_0_compat; lra]). lra.
  - unfold youngsModulus, poissonsRatio. field. repeat split; try lra.
    replace ((2 * (lambda + mu)) ^ 2 - lambda ^ 2) with ((lambda + 2 * mu) * (3 * lambda + 2 * mu)) by ring.
    apply Rmult_integral_contrapositive. split; lra.
Qed.
Print Assumptions C158_plane_stress_refuted.

(** The hypotheses: plane strain of a material of the right Cauchy-Green tensor *)
Example C158_applies : measures rightCauchyGreenTensor /\ remainingIndices 6 [2; 3; 4]%nat = Some [0; 1; 5]%nat /\
  (forall i, In i [0; 1; 5]%nat -> (i < 6)%nat /\ ~ In i [2; 3; 4]%nat) /\
  exists e s, strainStressesVoigt (fun A => A) rightCauchyGreenTensor planeStrainPairs [2; 3; 4]%nat (svkStress 1 1) (measure rightCauchyGreenTensor e) = Some (3%nat, s) /\
    s 0%nat = 21.
Proof.
  split; [right; right; reflexivity|]. split; [reflexivity|]. split; [cbn; intuition lia|].
  exists (fun i j => if ((i =? 0) && (j =? 0))%nat then 1 else 5). eexists.
  unfold strainStressesVoigt. cbn [reduceStrain transformStrain strainTag_eqb]. split; [reflexivity|].
  match goal with |- (fun _ => svkStress _ _ ?e _) _ = _ => change (svkStress 1 1 e 0%nat = 21) end.
  rewrite svk_diag by lia. unfold trace. cbn. unfold madd, mscale, msub, kron, setE. cbn. lra.
Qed.
