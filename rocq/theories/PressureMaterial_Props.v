(** Property C113: the material of a displacement-pressure element. *)

From Coq Require Import Reals List Bool Lia Lra FunctionalExtensionality.
From Coquelicot Require Import Coquelicot.
From Verif Require Import Tensor_Model Tensor_Spec Tensor_Props Conversions_Spec Conversions_Props NeoHooke_Model Volumetric_Model Deviatoric_Model
  Hyperelastic_Model Hyperelastic_Spec Spectral_Proofs Stretches_Proofs Hyperelastic_Proofs HyperelasticIsotropy_Proofs Hyperelastic_Props
  PressureMaterial_Model SpectralExistence_Proofs.
Import ListNotations.
Local Open Scope R_scope.

Lemma no_deviatoric_stress N : transformDeviatoricStresses (fun i => 0) N = fun _ _ => 0.
Proof. apply functional_extensionality. intros i. apply functional_extensionality. intros j. unfold transformDeviatoricStresses. ring. Qed.
Lemma no_stress l : devStresses NoDev l = Value (fun _ => 0).
Proof. unfold devStresses. cbn. f_equal. apply functional_extensionality. intros i. unfold Rdiv. ring. Qed.
Lemma no_tangent l : devTangent NoDev l = Value (fun _ _ _ _ => 0).
Proof.
  unfold devTangent. rewrite no_stress. cbn. f_equal.
  do 4 (apply functional_extensionality; intros ?). repeat match goal with |- context [if ?b then _ else _] => destruct b end; unfold Rdiv; ring.
Qed.
Lemma no_deviatoric_moduli N : transformDeviatoricTangentModuli (fun _ _ _ _ => 0) N = fun _ _ _ _ => 0.
Proof. do 4 (apply functional_extensionality; intros ?). unfold transformDeviatoricTangentModuli, loop3. cbn [Nat.eqb]. ring. Qed.

(** The parts of a material *)
Lemma volumetric_energy eig m C : storedEnergy eig (volumetricMaterial m) C =
  bind (principalStretches eig C) (fun '(l, _) => bind (detF l) (fun J => Returns (vfEnergy (vol m) J))).
Proof.
  unfold storedEnergy. destruct (principalStretches eig C) as [[l N]| | |]; cbn [bind]; try reflexivity. destruct (detF l); cbn [bind]; try reflexivity.
  cbn. f_equal. unfold volEnergy. ring.
Qed.
Lemma deviatoric_energy eig m C : storedEnergy eig (deviatoricMaterial m) C =
  bind (principalStretches eig C) (fun '(l, _) => bind (detF l) (fun J => ofOutcome (devEnergy (dev m) l))).
Proof.
  unfold storedEnergy. destruct (principalStretches eig C) as [[l N]| | |]; cbn [bind]; try reflexivity. destruct (detF l); cbn [bind]; try reflexivity.
  cbn [dev deviatoricMaterial]. destruct (devEnergy (dev m) l); cbn; try reflexivity. f_equal. unfold volEnergy. ring.
Qed.
Lemma volumetric_stresses eig m C : stresses eig (volumetricMaterial m) C =
  bind (principalStretches eig C) (fun '(l, _) => bind (detF l) (fun J => Returns (transformVolumetricStresses (vfFirst (vol m) J) C J))).
Proof.
  unfold stresses. destruct (principalStretches eig C) as [[l N]| | |]; cbn [bind]; try reflexivity. destruct (detF l); cbn [bind]; try reflexivity.
  cbn [dev vol bulk volumetricMaterial]. rewrite no_stress. cbn [ofOutcome bind]. rewrite no_deviatoric_stress. f_equal.
  do 2 (apply functional_extensionality; intros ?). unfold transformVolumetricStresses, volFirst. ring.
Qed.
Lemma deviatoric_stresses eig m C : stresses eig (deviatoricMaterial m) C =
  bind (principalStretches eig C) (fun '(l, N) => bind (detF l) (fun J => bind (ofOutcome (devStresses (dev m) l)) (fun S =>
    Returns (transformDeviatoricStresses S N)))).
Proof.
  unfold stresses. destruct (principalStretches eig C) as [[l N]| | |]; cbn [bind]; try reflexivity. destruct (detF l); cbn [bind]; try reflexivity.
  cbn [dev vol bulk deviatoricMaterial]. destruct (devStresses (dev m) l); cbn [ofOutcome bind]; try reflexivity. f_equal.
  do 2 (apply functional_extensionality; intros ?). unfold transformVolumetricStresses, volFirst. cbn [vfFirst]. ring.
Qed.
Lemma volumetric_moduli eig m C : tangentModuli eig (volumetricMaterial m) C =
  bind (principalStretches eig C) (fun '(l, _) => bind (detF l) (fun J =>
    Returns (transformVolumetricTangentModuli (vfFirst (vol m) J) (vfSecond (vol m) J) C J))).
Proof.
  unfold tangentModuli. destruct (principalStretches eig C) as [[l N]| | |]; cbn [bind]; try reflexivity. destruct (detF l); cbn [bind]; try reflexivity.
  cbn [dev vol bulk volumetricMaterial]. rewrite no_tangent. cbn [ofOutcome bind]. rewrite no_deviatoric_moduli. f_equal.
  do 4 (apply functional_extensionality; intros ?). unfold transformVolumetricTangentModuli, volFirst, volSecond. ring.
Qed.
Lemma deviatoric_moduli eig m C : tangentModuli eig (deviatoricMaterial m) C =
  bind (principalStretches eig C) (fun '(l, N) => bind (detF l) (fun J => bind (ofOutcome (devTangent (dev m) l)) (fun L =>
    Returns (transformDeviatoricTangentModuli L N)))).
Proof.
  unfold tangentModuli. destruct (principalStretches eig C) as [[l N]| | |]; cbn [bind]; try reflexivity. destruct (detF l); cbn [bind]; try reflexivity.
  cbn [dev vol bulk deviatoricMaterial]. destruct (devTangent (dev m) l); cbn [ofOutcome bind]; try reflexivity. f_equal.
  do 4 (apply functional_extensionality; intros ?). unfold transformVolumetricTangentModuli, volFirst, volSecond. cbn [vfFirst vfSecond]. ring.
Qed.

(** Two results computed together, when both computations succeed; otherwise the first failure *)
Definition together {A B D} (r : result A) (s : result B) (f : A -> B -> D) : result D := bind r (fun a => bind s (fun b => Returns (f a b))).

(** C113: the parts add up to the material: energy, stresses and moduli are those of the deviatoric part plus the material parameter times
    those of the volumetric part, and the evaluation fails exactly when the one of the deviatoric part fails *)
Theorem C113_decomposition eig m C :
  storedEnergy eig m C = together (storedEnergy eig (deviatoricMaterial m) C) (storedEnergy eig (volumetricMaterial m) C) (fun a b => a + volumetricParameter m * b) /\
  stresses eig m C = together (stresses eig (deviatoricMaterial m) C) (stresses eig (volumetricMaterial m) C) (fun a b i j => a i j + volumetricParameter m * b i j) /\
  tangentModuli eig m C = together (tangentModuli eig (deviatoricMaterial m) C) (tangentModuli eig (volumetricMaterial m) C)
    (fun a b i j k l => a i j k l + volumetricParameter m * b i j k l).
Proof.
  rewrite volumetric_energy, deviatoric_energy, volumetric_stresses, deviatoric_stresses, volumetric_moduli, deviatoric_moduli.
  unfold together, storedEnergy, stresses, tangentModuli, volumetricParameter.
  destruct (principalStretches eig C) as [[l N]| | |]; cbn [bind]; try (split; [|split]; reflexivity).
  destruct (detF l) as [J| | |]; cbn [bind]; try (split; [|split]; reflexivity).
  split; [|split].
  - destruct (devEnergy (dev m) l); cbn [ofOutcome bind]; reflexivity.
  - destruct (devStresses (dev m) l); cbn [ofOutcome bind]; try reflexivity. f_equal. do 2 (apply functional_extensionality; intros ?).
    unfold transformVolumetricStresses, volFirst. ring.
  - destruct (devTangent (dev m) l); cbn [ofOutcome bind]; try reflexivity. f_equal. do 4 (apply functional_extensionality; intros ?).
    unfold transformVolumetricTangentModuli, volFirst, volSecond. ring.
Qed.

(** The stresses and moduli of the element are those of the material with the pressure in place of its parameter *)
Theorem C113_driver eig m C p (m' := {| dev := dev m; bulk := p; vol := vol m |}) :
  pressureStresses eig m C p = stresses eig m' C /\ pressureModuli eig m C p = tangentModuli eig m' C.
Proof. split; symmetry; apply (C113_decomposition eig m' C). Qed.

(** The pressure is stationary at [p] and the energy there is [w] *)
Definition eliminated (energy : R -> result R) (p w : R) : Prop :=
  exists e, (forall q, energy q = Returns (e q)) /\ is_derive e p 0 /\ e p = w.

Lemma stationary (a u k p : R) : k <> 0 -> is_derive (fun q => a + q * u - 1 / (2 * k) * q ^ 2) p 0 <-> p = k * u.
Proof.
  intros Hk. assert (D : is_derive (fun q => a + q * u - 1 / (2 * k) * q ^ 2) p (u - p / k)) by (auto_derive; [exact I|field; assumption]).
  split.
  - intros D0. assert (E : u - p / k = 0) by (rewrite <- (is_derive_unique _ _ _ D); exact (is_derive_unique _ _ _ D0)).
    transitivity (k * (p / k)); [field; assumption|]. apply Rmult_eq_compat_l. lra.
  - intros ->. replace 0 with (u - k * u / k) by (field; assumption). exact D.
Qed.

(** The energy that is left when the pressure is eliminated *)
Lemma eliminated_energy eig m C p w : bulk m <> 0 -> eliminated (pressureEnergy eig m C) p w ->
  exists a u, storedEnergy eig (deviatoricMaterial m) C = Returns a /\ storedEnergy eig (volumetricMaterial m) C = Returns u /\
    p = bulk m * u /\ w = a + bulk m * (1 / 2 * u ^ 2).
Proof.
  intros Hk (e & E & D & W). unfold pressureEnergy in E.
  destruct (storedEnergy eig (deviatoricMaterial m) C) as [a| | |]; try (specialize (E 0); discriminate).
  destruct (storedEnergy eig (volumetricMaterial m) C) as [u| | |]; try (specialize (E 0); discriminate).
  cbn [bind] in E. unfold volumetricParameter in E. exists a, u. split; [reflexivity|split; [reflexivity|]].
  assert (P : p = bulk m * u).
  { apply (stationary a u (bulk m) p Hk). apply (is_derive_ext e); [|exact D]. intros q. specialize (E q). injection E as <-. reflexivity. }
  split; [exact P|]. rewrite <- W. specialize (E p). injection E as <-. rewrite P. field. assumption.
Qed.
Lemma elimination_exists eig m C w : bulk m <> 0 -> storedEnergy eig m C = Returns w -> exists p v, eliminated (pressureEnergy eig m C) p v.
Proof.
  intros Hk E. rewrite (proj1 (C113_decomposition eig m C)) in E. unfold together in E. unfold pressureEnergy, eliminated, volumetricParameter.
  destruct (storedEnergy eig (deviatoricMaterial m) C) as [a| | |]; try discriminate.
  destruct (storedEnergy eig (volumetricMaterial m) C) as [u| | |]; try discriminate. cbn [bind].
  eexists (bulk m * u), _. eexists. split; [intros q; reflexivity|]. split; [|reflexivity]. now apply stationary.
Qed.

(** C113 (part): with the volumetric function J - 1, the pressure exists, is unique, and the element has the energy and the stresses of the
    material with the same deviatoric part and the volumetric energy kappa / 2 (J - 1)^2 *)
Theorem C113_pressure_partial eig d k C w (m := {| dev := d; bulk := k; vol := VF12 |}) (m' := {| dev := d; bulk := k; vol := VF1 |}) :
  k <> 0 -> storedEnergy eig m C = Returns w ->
  (exists p, eliminated (pressureEnergy eig m C) p (match storedEnergy eig m' C with Returns w' => w' | _ => 0 end)) /\
  forall p v, eliminated (pressureEnergy eig m C) p v ->
    storedEnergy eig m' C = Returns v /\ pressureStresses eig m C p = stresses eig m' C /\
    forall q v', eliminated (pressureEnergy eig m C) q v' -> q = p /\ v' = v.
Proof.
  intros Hk E.
  assert (M : forall p v, eliminated (pressureEnergy eig m C) p v -> storedEnergy eig m' C = Returns v /\ pressureStresses eig m C p = stresses eig m' C).
  { intros p v H. destruct (eliminated_energy eig m C p v Hk H) as (a & u & Ea & Eu & Ep & Ev).
    rewrite deviatoric_energy in Ea. rewrite volumetric_energy in Eu. unfold pressureStresses. rewrite deviatoric_stresses, volumetric_stresses.
    unfold storedEnergy, stresses. destruct (principalStretches eig C) as [[l N]| | |]; try discriminate. cbn [bind] in *.
    destruct (detF l) as [J| | |]; try discriminate. cbn [bind] in *. cbn [dev vol bulk m m'] in *.
    destruct (devEnergy d l); try discriminate. cbn [ofOutcome bind] in *. injection Ea as ->. injection Eu as <-. split.
    - f_equal. rewrite Ev. unfold volEnergy. cbn. ring.
    - destruct (devStresses d l); cbn [ofOutcome bind]; try reflexivity. f_equal. do 2 (apply functional_extensionality; intros ?).
      unfold transformVolumetricStresses, volFirst. rewrite Ep. cbn. ring. }
  split.
  - destruct (elimination_exists eig m C w Hk E) as (p & v & H). exists p. rewrite (proj1 (M p v H)). exact H.
  - intros p v H. destruct (M p v H) as [M1 M2]. split; [exact M1|split; [exact M2|]]. intros q v' H'.
    destruct (eliminated_energy eig m C p v Hk H) as (a & u & Ea & Eu & Ep & Ev). destruct (eliminated_energy eig m C q v' Hk H') as (a' & u' & Ea' & Eu' & Ep' & Ev').
    rewrite Ea in Ea'. injection Ea' as <-. rewrite Eu in Eu'. injection Eu' as <-. split; congruence.
Qed.

(** In general the element has the given material's energy only where the volumetric function has the value 0 or 2 *)
Theorem C113_energy_agrees eig m C p v : bulk m <> 0 -> eliminated (pressureEnergy eig m C) p v ->
  storedEnergy eig m C = Returns v <-> exists l N J, principalStretches eig C = Returns (l, N) /\ detF l = Returns J /\ (vfEnergy (vol m) J = 0 \/ vfEnergy (vol m) J = 2).
Proof.
  intros Hk H. destruct (eliminated_energy eig m C p v Hk H) as (a & u & Ea & Eu & Ep & Ev).
  rewrite (proj1 (C113_decomposition eig m C)), Ea, Eu. unfold together, volumetricParameter. cbn [bind]. rewrite volumetric_energy in Eu.
  destruct (principalStretches eig C) as [[l N]| | |]; try discriminate. cbn [bind] in Eu. destruct (detF l) as [J| | |] eqn:EJ; try discriminate. cbn [bind] in Eu.
  injection Eu as Eu. rewrite Ev. split.
  - intros Q. injection Q as Q. exists l, N, J. split; [reflexivity|split; [assumption|]]. rewrite Eu.
    assert (Z : bulk m * (u * (u - 2)) = 0) by lra. destruct (Rmult_integral _ _ Z) as [|Z']; [contradiction|]. destruct (Rmult_integral _ _ Z') as [|]; [left|right]; lra.
  - intros (l' & N' & J' & Q & Q' & O). injection Q as <- <-. rewrite EJ in Q'. injection Q' as <-. rewrite Eu in O. f_equal. destruct O as [O|O]; rewrite O; field.
Qed.

(** A tensor with the stretches 2, 2, 2 *)
Definition stretched (i j : nat) : R := if Nat.eqb i j then 4 else 0.
Lemma stretched_symmetric : symmetric 3 stretched.
Proof. intros i j _ _. unfold stretched. now rewrite Nat.eqb_sym. Qed.
Lemma stretched_decomposition : decomposition stretched (fun _ => 4) identity.
Proof.
  split; [lra|]. split.
  - split; intros i j Hi Hj; unfold mul, transpose, identity; cases i; cases j; cbn; ring.
  - intros i j Hi Hj. unfold stretched, identity. cases i; cases j; cbn; ring.
Qed.
Lemma stretched_stretches eig : solvesSymmetric eig -> exists l N, principalStretches eig stretched = Returns (l, N) /\ detF l = Returns 8 /\ forall i, (i < 3)%nat -> l i = 2.
Proof.
  intros He. destruct (He stretched stretched_symmetric) as (e & N & E & D).
  assert (Ev : forall i, (i < 3)%nat -> e i = 4) by (intros i Hi; symmetry; exact (same_values _ _ _ _ _ stretched_decomposition D i Hi)).
  assert (L : forall i, (i < 3)%nat -> sqrt (vector3 e i) = 2).
  { intros i Hi. unfold vector3. destruct (Nat.ltb_spec i 3); [|lia]. rewrite Ev by assumption. replace 4 with (2 ^ 2) by ring. apply sqrt_pow2. lra. }
  unfold principalStretches. rewrite E. eexists _, N. split; [reflexivity|]. split; [|exact L].
  unfold detF. assert (P : prod3 (fun i => sqrt (vector3 e i)) = 8) by (unfold prod3; rewrite !L by lia; ring). rewrite P. destruct Rle_dec; [lra|reflexivity].
Qed.

(** C113 (part): it is not true that eliminating the pressure gives the material of the element: for the materials with the volumetric
    functions (J - 1)^2 / 2 and J - 1 themselves it does not *)
Theorem C113_pressure_refuted eig d k f : solvesSymmetric eig -> k <> 0 -> f = VF1 \/ f = VF12 -> (exists W, forall l, devEnergy d l = Value (W l)) ->
  exists C p w v (m := {| dev := d; bulk := k; vol := f |}), symmetric 3 C /\ storedEnergy eig m C = Returns w /\ eliminated (pressureEnergy eig m C) p v /\ v <> w.
Proof.
  intros He Hk Hf (W & HW). destruct (stretched_stretches eig He) as (l & N & E & EJ & _).
  set (m := {| dev := d; bulk := k; vol := f |}).
  assert (Ew : exists w, storedEnergy eig m stretched = Returns w).
  { unfold storedEnergy. rewrite E. cbn [bind]. rewrite EJ. cbn [bind dev m]. rewrite HW. cbn [ofOutcome bind]. eexists. reflexivity. }
  destruct Ew as [w Ew]. destruct (elimination_exists eig m stretched w Hk Ew) as (p & v & H).
  exists stretched, p, w, v. split; [apply stretched_symmetric|]. split; [exact Ew|]. split; [exact H|].
  intros ->. destruct (proj1 (C113_energy_agrees eig m stretched p w Hk H) Ew) as (l' & N' & J & Q & Q' & O).
  rewrite E in Q. injection Q as <- <-. rewrite EJ in Q'. injection Q' as <-. cbn [vol m] in O. destruct Hf as [-> | ->]; cbn in O; destruct O; lra.
Qed.

Example C113_example : solvesSymmetric exactSolver /\
  (exists w, storedEnergy exactSolver {| dev := OgdenDeviatoric [(3, 2)]; bulk := 5; vol := VF12 |} stretched = Returns w) /\
  (exists W, forall l, devEnergy (OgdenDeviatoric [(3, 2)]) l = Value (W l)).
Proof.
  split; [exact exactSolver_solves|]. split.
  - destruct (stretched_stretches exactSolver exactSolver_solves) as (l & N & E & EJ & _). unfold storedEnergy. rewrite E. cbn [bind]. rewrite EJ. cbn. eexists. reflexivity.
  - eexists. intros l. reflexivity.
Qed.

Print Assumptions C113_decomposition.
Print Assumptions C113_driver.
Print Assumptions C113_pressure_partial.
Print Assumptions C113_energy_agrees.
Print Assumptions C113_pressure_refuted.
