(** C180: displacement-pressure elements with plane materials. *)

From Coq Require Import List Arith ZArith Reals Lra Lia Bool Sorted.
From Verif Require Import Tensor_Model Tensor_Spec Tensor_Props LinearAlgebra_Model SVK_Model SVK_Spec SVK_Props.
From Verif Require Import VanishingStress_Model VanishingStress_Spec VanishingStress_Props StressResult_Model StressResult_Spec StressResult_Props PlanePressure_Model.
Import ListNotations.
Local Open Scope R_scope.

Section Pressure.
Variables (factor tol : R) (inverse : nat -> rmat -> rmat).
Variables dev vol : part.
Hypothesis Hdev : entriesOnly (stressesOf dev).
Hypothesis Hvol : entriesOnly (stressesOf vol).
Hypothesis Edev : forall A B, eq3 A B -> energyOf dev A = energyOf dev B.
Hypothesis Evol : forall A B, eq3 A B -> energyOf vol A = energyOf vol B.

(** The energy and the stress of the body at the strain [E] and the pressure [p] *)
Definition bodyEnergy (kappa : R) (E : nat -> nat -> R) (p : R) : R := energyOf dev E + p * energyOf vol E - p ^ 2 / (2 * kappa).
Definition bodyStress (E : nat -> nat -> R) (p : R) (k : nat) : R := stressesOf dev E k + p * stressesOf vol E k.

(** Plane strain: energy, stresses and full stresses are those of the body without thickness strain *)
Theorem C180_plane_strain : forall kappa e p, kappa <> 0 ->
  driverEnergy planeStrain factor inverse tol dev vol kappa e p = Some (bodyEnergy kappa (planeTensor e 0) p) /\
  (exists s, driverStresses planeStrain factor inverse tol dev vol e p = Some (3%nat, s) /\
     forall k, (k < 3)%nat -> s k = bodyStress (planeTensor e 0) p (inPlane k)) /\
  (exists f, driverFull planeStrain factor inverse tol dev vol e p = Some (6%nat, f) /\
     forall k, (k < 6)%nat -> f k = bodyStress (planeTensor e 0) p k).
Proof.
  intros kappa e p Hk. split; [|split].
  - unfold driverEnergy, partEnergy, enlargeIfReduced. destruct (enlarged e) as (A & HA & QA). rewrite HA. unfold vsnEnergy.
    assert (Z := zeroed_plane A e QA). rewrite (Edev _ _ Z), (Evol _ _ Z). unfold bodyEnergy. f_equal. field. auto.
  - destruct (C177_plane_strain (stressesOf dev) (moduliOf dev) factor inverse tol Hdev e) as (a & a' & A1 & A2 & A3 & A4).
    destruct (C177_plane_strain (stressesOf vol) (moduliOf vol) factor inverse tol Hvol e) as (b & b' & B1 & B2 & B3 & B4).
    unfold driverStresses, partStresses. rewrite A1, B1. eexists. split; [reflexivity|]. intros k Hk'. unfold bodyStress. cbv beta.
    rewrite A4, B4, A3, B3 by (auto; cases k; cbn; lia). reflexivity.
  - destruct (C177_plane_strain (stressesOf dev) (moduliOf dev) factor inverse tol Hdev e) as (a & a' & A1 & A2 & A3 & A4).
    destruct (C177_plane_strain (stressesOf vol) (moduliOf vol) factor inverse tol Hvol e) as (b & b' & B1 & B2 & B3 & B4).
    unfold driverFull. rewrite A2, B2. eexists. split; [reflexivity|]. intros k Hk'. unfold bodyStress. cbv beta.
    now rewrite A3, B3 by auto.
Qed.

(** Plane stress: the two parts are taken at two thickness strains, each with vanishing thickness stress of its own part *)
Theorem C180_plane_stress_partial : forall e p n s, driverStresses planeStress factor inverse tol dev vol e p = Some (n, s) ->
  n = 3%nat /\ exists t t',
  Rabs (stressesOf dev (planeTensor e t) 2%nat) <= tol /\ Rabs (stressesOf vol (planeTensor e t') 2%nat) <= tol /\
  (forall k, (k < 3)%nat -> s k = stressesOf dev (planeTensor e t) (inPlane k) + p * stressesOf vol (planeTensor e t') (inPlane k)) /\
  (t = t' -> Rabs (bodyStress (planeTensor e t) p 2%nat) <= (1 + Rabs p) * tol /\ forall k, (k < 3)%nat -> s k = bodyStress (planeTensor e t) p (inPlane k)).
Proof.
  intros e p n s H. unfold driverStresses, partStresses in H.
  destruct (calculateStress _ (stressesOf dev) _ _ _ _ _ _) as [[n1 a]|] eqn:A; [|discriminate].
  destruct (calculateStress _ (stressesOf vol) _ _ _ _ _ _) as [[n2 b]|] eqn:B; [|discriminate]. injection H as <- <-.
  destruct (plane_stresses _ _ _ _ _ Hdev planeStress e ltac:(discriminate) n1 a A) as (-> & t & (_ & T) & S1).
  destruct (plane_stresses _ _ _ _ _ Hvol planeStress e ltac:(discriminate) n2 b B) as (-> & t' & (_ & T') & S2).
  specialize (T eq_refl). specialize (T' eq_refl). split; auto. exists t, t'. repeat split; auto.
  - intros k Hk. cbv beta. now rewrite S1, S2.
  - subst t'. unfold bodyStress. eapply Rle_trans; [apply Rabs_triang|]. rewrite Rabs_mult.
    assert (0 <= Rabs p) by apply Rabs_pos. nra.
  - intros k Hk. cbv beta. subst t'. unfold bodyStress. now rewrite S1, S2.
Qed.
End Pressure.
Print Assumptions C180_plane_strain.
Print Assumptions C180_plane_stress_partial.

(** ** The volumetric part: stress U'(J) J C^-1 *)
(** C = 2 E + I of a plane strain state, its determinant in the plane and its inverse *)
Definition planeDet (e : nat -> R) : R := (1 + 2 * e 0%nat) * (1 + 2 * e 1%nat) - e 2%nat * e 2%nat.
Definition inverseC (E : nat -> nat -> R) (k : nat) : R :=
  let C := fun i j => 2 * E i j + identity i j in
  let d := C 0%nat 0%nat * C 1%nat 1%nat - C 0%nat 1%nat * C 1%nat 0%nat in
  match k with 0%nat => C 1%nat 1%nat / d | 1%nat => C 0%nat 0%nat / d | 2%nat => / C 2%nat 2%nat | 5%nat => - C 0%nat 1%nat / d | _ => 0 end.
Definition isVolumetric (m : part) : Prop := exists g, forall e t k, (k < 6)%nat ->
  stressesOf m (planeTensor e t) k = g (planeDet e * (1 + 2 * t)) * inverseC (planeTensor e t) k.

(** inverseC is the inverse of a plane C *)
Lemma inverseC_spec e t : planeDet e <> 0 -> 1 + 2 * t <> 0 ->
  forall i j, (i < 3)%nat -> (j < 3)%nat ->
  mul 3 (fun i j => 2 * planeTensor e t i j + identity i j) (stressTensor (inverseC (planeTensor e t))) i j = identity i j.
Proof.
  intros D T i j Hi Hj. unfold planeDet in D.
  assert (D' : (2 * e 0%nat + 1) * (2 * e 1%nat + 1) - (2 * (e 2%nat / 2) + 0) * (2 * (e 2%nat / 2) + 0) <> 0).
  { replace (_ - _) with ((1 + 2 * e 0%nat) * (1 + 2 * e 1%nat) - e 2%nat * e 2%nat); auto. field. }
  assert (T' : 2 * t + 1 <> 0) by lra.
  unfold mul, stressTensor, inverseC, planeTensor, mat3, identity. cases i; cases j; cbn; field; repeat split; try lra; try exact D'; try nra;
    intros Z; apply D; rewrite <- Z; ring.
Qed.

(** With plane stress the pressure has no effect beyond the tolerance: the thickness stress of the volumetric part alone is made to vanish, and with
    it its stresses in the plane *)
Theorem C180_pressure_lost_refuted : forall factor tol inverse dev vol, entriesOnly (stressesOf dev) -> entriesOnly (stressesOf vol) -> isVolumetric vol ->
  forall e p q n s n' s', planeDet e <> 0 ->
  driverStresses planeStress factor inverse tol dev vol e p = Some (n, s) -> driverStresses planeStress factor inverse tol dev vol e q = Some (n', s') ->
  exists t, 1 + 2 * t = 0 \/ forall k, (k < 3)%nat ->
  Rabs (s k - s' k) <= Rabs (p - q) * tol * Rabs ((1 + 2 * t) * inverseC (planeTensor e t) (inPlane k)).
Proof.
  intros factor tol inverse dev vol Hdev Hvol (g & G) e p q n s n' s' D H H'. unfold driverStresses, partStresses in H, H'.
  destruct (calculateStress _ (stressesOf dev) _ _ _ _ _ _) as [[n1 a]|] eqn:A; [|discriminate].
  destruct (calculateStress _ (stressesOf vol) _ _ _ _ _ _) as [[n2 b]|] eqn:B; [|discriminate]. injection H as <- <-. injection H' as <- <-.
  destruct (plane_stresses _ _ _ _ _ Hvol planeStress e ltac:(discriminate) n2 b B) as (-> & t & (_ & T) & S). specialize (T eq_refl).
  exists t. destruct (Req_dec (1 + 2 * t) 0) as [Z|Z]; [now left|right]. intros k Hk. cbv beta.
  replace (a k + p * b k - (a k + q * b k)) with ((p - q) * b k) by ring. rewrite Rabs_mult, Rmult_assoc. apply Rmult_le_compat_l; [apply Rabs_pos|].
  rewrite S by auto. rewrite G in * by (try lia; cases k; cbn; lia).
  set (c := g _) in *.
  assert (I33 : inverseC (planeTensor e t) 2%nat = / (1 + 2 * t)).
  { unfold inverseC, planeTensor, mat3, identity. cbn. f_equal. ring. }
  rewrite I33 in T. replace (c * inverseC (planeTensor e t) (inPlane k)) with (c * / (1 + 2 * t) * ((1 + 2 * t) * inverseC (planeTensor e t) (inPlane k))) by (field; auto).
  rewrite Rabs_mult. apply Rmult_le_compat_r; [apply Rabs_pos|]. auto.
Qed.
Print Assumptions C180_pressure_lost_refuted.

(** ** A body for which the element computes wrong stresses *)
(** The volumetric function (J-1)^2 / 2, extended by zero where C is not invertible *)
Definition quadraticVolumetric : part := mkPart (fun E => 0)
  (fun E k => let C := fun i j => 2 * E i j + identity i j in
    let d := C 0%nat 0%nat * C 1%nat 1%nat - C 0%nat 1%nat * C 1%nat 0%nat in
    let J := sqrt (d * C 2%nat 2%nat) in (J - 1) * J * inverseC E k)
  (fun E i j => 0).
Definition svkPart (lambda mu : R) : part := mkPart (fun E => storedEnergyImpl lambda mu (Matrix33 E)) (svkStress lambda mu) (svkModuli lambda mu).

Lemma quadratic_entries : entriesOnly (stressesOf quadraticVolumetric).
Proof. intros A B Q k Hk. cbn. unfold inverseC. rewrite !Q by lia. cases k; reflexivity. Qed.
Lemma quadratic_volumetric : isVolumetric quadraticVolumetric.
Proof.
  exists (fun x => (sqrt x - 1) * sqrt x). intros e t k Hk. cbn [stressesOf quadraticVolumetric].
  replace ((2 * planeTensor e t 0 0 + identity 0 0) * (2 * planeTensor e t 1 1 + identity 1 1) - (2 * planeTensor e t 0 1 + identity 0 1) * (2 * planeTensor e t 1 0 + identity 1 0))
    with (planeDet e); [|unfold planeTensor, mat3, planeDet, identity; cbn; field].
  replace (2 * planeTensor e t 2 2 + identity 2 2) with (1 + 2 * t); [reflexivity|unfold planeTensor, mat3, identity; cbn; ring].
Qed.

(** Where a part has no stresses without thickness strain, the reduction ends at once *)
Lemma reduced_at_once m factor inverse tol e : entriesOnly (stressesOf m) -> 0 <= tol ->
  (forall k, (k < 6)%nat -> stressesOf m (planeTensor e 0) k = 0) ->
  exists b, partStresses planeStress factor inverse tol m e = Some (3%nat, b) /\ forall k, (k < 3)%nat -> b k = 0.
Proof.
  intros HE T V0. unfold partStresses, calculateStress, materialStresses, enlargeIfReduced. destruct (enlarged e) as (E & HE' & QE). rewrite HE'.
  assert (QI := initial_plane E e QE). unfold vsStressesVoigt, reduceStress, Newton_Model.nrSolve, Newton_Model.nrStart. cbv zeta.
  change (Z.to_nat (Z.max (Newton_Model.nr_maxIter (Newton_Model.mkNRSettings tol 100 0)) (Newton_Model.nr_minIter (Newton_Model.mkNRSettings tol 100 0)))) with (Datatypes.S 99).
  cbn [Newton_Model.nrLoop]. unfold Newton_Model.nrCond. cbn [Newton_Model.nr_tol Newton_Model.nr_maxIter Newton_Model.nr_minIter Newton_Model.emit Newton_Model.s_d Newton_Model.s_w].
  destruct (rgt _ tol) eqn:Gt.
  - exfalso. apply rgt_spec in Gt. revert Gt. apply Rle_not_lt. unfold normOf. change (length (fixedDiagonal planeStressIndices)) with 1%nat. cbn [seq sumL].
    assert (R0 : residualOf (stressesOf m) planeStressIndices (initUnknownStrains false planeStressPairs E) 0 = 0).
    { unfold residualOf. change (nth 0 (fixedDiagonal planeStressIndices) 0%nat) with 2%nat. rewrite (HE _ _ QI) by lia. apply V0; lia. }
    rewrite R0. replace (0 * 0 + 0) with 0 by ring. rewrite sqrt_0. lra.
  - assert (X : forall c, (c < 6)%nat -> stressesOf m (initUnknownStrains false planeStressPairs E) c = 0).
    { intros c Hc. rewrite (HE _ _ QI) by auto. now apply V0. }
    revert X. generalize (initUnknownStrains false planeStressPairs E). intros E0 X. cbn.
    eexists. split; [reflexivity|]. intros k Hk. cases k; cbn; apply X; lia.
Qed.

(** The deformation diag(2, 1/2) in the plane: for every pressure the element returns the stress 15/4, 0; there is no thickness strain for which
    the body with positive pressure has this stress and no thickness stress. *)
Definition stretchedStrain : nat -> R := fun k => nth k [3 / 2; - (3 / 8); 0] 0.
Theorem C180_plane_stress_refuted : forall tol inverse p, 0 <= tol < 1 -> inverts inverse -> 0 < p ->
  (exists s, driverStresses planeStress 1 inverse tol (svkPart 1 1) quadraticVolumetric stretchedStrain p = Some (3%nat, s) /\
     s 0%nat = 15 / 4 /\ s 1%nat = 0 /\ s 2%nat = 0) /\
  (forall t, 0 < 1 + 2 * t ->
     bodyStress (svkPart 1 1) quadraticVolumetric (planeTensor stretchedStrain t) p 2%nat = 0 ->
     bodyStress (svkPart 1 1) quadraticVolumetric (planeTensor stretchedStrain t) p 1%nat <> 0).
Proof.
  intros tol inverse p T HI Hp. split.
  - destruct (svk_plane_stress 1 1 tol inverse stretchedStrain) as (a & A & SA); try lra; auto.
    { unfold stretchedStrain. cbn. rewrite Rabs_right; lra. }
    assert (V0 : forall t k, (k < 6)%nat -> t = 0 -> stressesOf quadraticVolumetric (planeTensor stretchedStrain t) k = 0).
    { intros t k Hk ->. destruct quadratic_volumetric as (g & _). cbn [stressesOf quadraticVolumetric].
      replace (sqrt _) with 1; [ring|]. symmetry. rewrite <- sqrt_1. f_equal. unfold planeTensor, mat3, stretchedStrain, identity. cbn. field. }
    assert (VB : exists b, partStresses planeStress 1 inverse tol quadraticVolumetric stretchedStrain = Some (3%nat, b) /\ forall k, (k < 3)%nat -> b k = 0).
    { apply reduced_at_once; [exact quadratic_entries|lra|]. intros k Hk. now apply V0. }
    destruct VB as (b & B & SB). unfold driverStresses. unfold partStresses at 1. cbn [stressesOf moduliOf svkPart]. rewrite A, B.
    eexists. split; [reflexivity|]. cbv beta. rewrite !SA, !SB by lia. cbn [inPlane].
    unfold svkStress, stressesImplVoigt, trace, planeTensor, mat3, stretchedStrain. cbn. repeat split; field.
  - intros t Ht. unfold bodyStress, svkPart. cbn [stressesOf].
    destruct quadratic_volumetric as (g & _). cbn [stressesOf quadraticVolumetric].
    replace ((2 * planeTensor stretchedStrain t 0 0 + identity 0 0) * (2 * planeTensor stretchedStrain t 1 1 + identity 1 1) -
       (2 * planeTensor stretchedStrain t 0 1 + identity 0 1) * (2 * planeTensor stretchedStrain t 1 0 + identity 1 0))
      with 1; [|unfold planeTensor, mat3, stretchedStrain, identity; cbn; field].
    replace (2 * planeTensor stretchedStrain t 2 2 + identity 2 2) with (1 + 2 * t); [|unfold planeTensor, mat3, identity; cbn; ring].
    rewrite Rmult_1_l. set (J := sqrt (1 + 2 * t)).
    assert (JJ : J * J = 1 + 2 * t) by (apply sqrt_sqrt; lra). assert (JP : 0 < J) by (apply sqrt_lt_R0; lra).
    rewrite !svk_diag by lia.
    replace (inverseC (planeTensor stretchedStrain t) 2%nat) with (/ (J * J)); [|rewrite JJ; unfold inverseC, planeTensor, mat3, identity; cbn; f_equal; ring].
    replace (inverseC (planeTensor stretchedStrain t) 1%nat) with 4; [|unfold inverseC, planeTensor, mat3, stretchedStrain, identity; cbn; field].
    unfold trace, planeTensor, mat3, stretchedStrain. cbn. intros S33 S22.
    assert (Et : t = (J * J - 1) / 2) by lra. rewrite Et in S33, S22.
    assert (S33' : (9 / 8 + 3 * ((J * J - 1) / 2)) * J + p * (J - 1) = 0).
    { transitivity ((1 * (3 / 2 + - (3 / 8) + (J * J - 1) / 2) + 2 * 1 * ((J * J - 1) / 2) + p * ((J - 1) * J * / (J * J))) * J); [field; lra|]. rewrite S33. ring. }
    assert (S22' : 3 / 8 + (J * J - 1) / 2 + 4 * p * ((J - 1) * J) = 0) by lra.
    assert (P : p * ((J - 1) * (1 - 12 * (J * J))) = 0) by nra.
    apply Rmult_integral in P. destruct P as [P|P]; [lra|]. apply Rmult_integral in P. destruct P as [P|P].
    + assert (J = 1) by lra. rewrite H in S22'. lra.
    + assert (J2 : J * J = / 12) by lra. assert (J < 1) by nra.
      assert (p * ((J - 1) * J) = 1 / 48) by lra. assert ((J - 1) * J < 0) by nra. nra.
Qed.
Print Assumptions C180_plane_stress_refuted.

(** Two pressures, one stress *)
Example C180_pressure_example : forall inverse, inverts inverse -> planeDet stretchedStrain <> 0 /\
  exists s s', driverStresses planeStress 1 inverse (1 / 10 ^ 12) (svkPart 1 1) quadraticVolumetric stretchedStrain 1 = Some (3%nat, s) /\
  driverStresses planeStress 1 inverse (1 / 10 ^ 12) (svkPart 1 1) quadraticVolumetric stretchedStrain 1000 = Some (3%nat, s') /\ s 0%nat = s' 0%nat.
Proof.
  intros inverse HI. split; [unfold planeDet, stretchedStrain; cbn; lra|].
  destruct (C180_plane_stress_refuted (1 / 10 ^ 12) inverse 1) as ((s & H & S & _) & _); try lra; auto.
  destruct (C180_plane_stress_refuted (1 / 10 ^ 12) inverse 1000) as ((s' & H' & S' & _) & _); try lra; auto.
  exists s, s'. rewrite S, S'. auto.
Qed.
