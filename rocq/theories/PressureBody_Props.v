(** C188: rigid motions of displacement-pressure elements; C189: what the pressure does (model: Pressure_Model.v). *)

From Coq Require Import Reals Arith Bool List Lia Lra.
From Coquelicot Require Import Coquelicot.
From Verif Require Import Tensor_Spec Tensor_Model Tensor_Props Conversions_Spec Conversions_Model Conversions_Props Element_Spec Element_Model Element_Proofs Element_Props.
From Verif Require Import Pressure_Model Pressure_Props Truss_Props Objectivity_Spec Objectivity_Props Eas_Proofs FlatShell_Props StructureReactions_Props Coordinates_Props PressureCoordinates_Props.
Import ListNotations.
Local Open Scope R_scope.

(** The unknowns with the displacements u and the pressures of x *)
Definition withPressures (N : nat) (x u : nat -> R) (k : nat) : R := if (k <? N)%nat then u k else x k.

Lemma gradient_part N m f g x : isGradient (N + m) f g x -> isGradient N (fun u => f (withPressures N x u)) g x.
Proof.
  intros G c v P.
  assert (P' : passes (N + m) (fun t => withPressures N x (c t)) x (fun k => if (k <? N)%nat then v k else 0)).
  { intros k Hk. unfold withPressures. destruct (Nat.ltb_spec k N); [now apply P|]. split; [reflexivity|apply @is_derive_const]. }
  replace (dot N g v) with (dot (N + m) g (fun k => if (k <? N)%nat then v k else 0)); [exact (G _ _ P')|].
  unfold dot. rewrite sum_app, (sum_zero m), Rplus_0_r.
  - apply sum_ext. intros k Hk. destruct (Nat.ltb_spec k N); [reflexivity|lia].
  - intros k _. destruct (Nat.ltb_spec (N + k) N); [lia|ring].
Qed.

Section Element.
  Variables (d n m : nat) (points : list point).
  Hypothesis d3 : (0 < d <= 3)%nat.
  Let s := voigtLength d.
  Let N := (d * n)%nat.
  Let T := (N + m)%nat.
  Variables (dN : point -> nat -> nat -> R) (Np : point -> nat -> R).
  Variables (devE : (nat -> R) -> R) (devS : (nat -> R) -> nat -> R) (devC : (nat -> R) -> nat -> nat -> R).
  Variables (volE : (nat -> R) -> R) (volS : (nat -> R) -> nat -> R) (volC : (nat -> R) -> nat -> nat -> R).
  Variable kappa : R.
  Hypothesis kappa_nonzero : kappa <> 0.
  Let eps := glStrain d n dN.
  Let p := pressure d n m Np.
  Let Energy := dpScalar d n m points eps Np devE volE kappa.
  Let Vector := dpVector d n s m points eps (glBop d n dN) Np devS volE volS kappa.

  Lemma energy_value x : Energy x = sumP points (fun gp => (devE (eps gp x) + p gp x * volE (eps gp x) - 1 / (2 * kappa) * (p gp x * p gp x)) * vol gp).
  Proof.
    unfold Energy, dpScalar. cbv zeta. fold p.
    assert (G : forall l e, fold_left (fun energy gp => energy + driverEnergy devE volE kappa (eps gp x) (p gp x) * integrationElement gp * weight gp) l e =
      e + sumP l (fun gp => (devE (eps gp x) + p gp x * volE (eps gp x) - 1 / (2 * kappa) * (p gp x * p gp x)) * vol gp)).
    { induction l as [|gp l IH]; intros e; cbn [fold_left sumP]; [ring|]. rewrite IH. unfold driverEnergy, Uhat, vol. ring. }
    rewrite G. ring.
  Qed.
  Lemma vector_value x f k : (k < T)%nat -> Vector x f k = f k + sumP points (fun gp =>
    if (k <? N)%nat then pointVector d s (glBop d n dN) (driverStress devS volS (eps gp x) (p gp x)) gp x k else Np gp (k - N) * (volE (eps gp x) - p gp x / kappa) * vol gp).
  Proof.
    intros Hk. unfold Vector, dpVector.
    apply (fold_vector points _ f (fun gp k => if (k <? N)%nat then pointVector d s (glBop d n dN) (driverStress devS volS (eps gp x) (p gp x)) gp x k else Np gp (k - N) * (volE (eps gp x) - p gp x / kappa) * vol gp)).
    intros gp g _. cbv zeta. fold p.
    set (S := driverStress devS volS (eps gp x) (p gp x)).
    set (v i := Np gp i * (Uhat volE (eps gp x) - p gp x / kappa) * integrationElement gp * weight gp).
    rewrite (loop_observed (fun f => f k) m _ (fun i => if (k =? N + i)%nat then v i else 0)).
    2:{ intros i K _. unfold addEntry, pressureIndex. fold N. destruct (Nat.eqb_spec k (N + i)); [reflexivity|ring]. }
    unfold internalForces. cbv zeta.
    rewrite (loop_segments d n (fun i a => sum s (fun c => glBop d n dN gp x i c a * S c) * (integrationElement gp * weight gp)) g k (proj1 d3)).
    destruct (Nat.ltb_spec (k / d) n) as [L|L], (Nat.ltb_spec k N) as [K|K].
    - rewrite (sum_zero m); [|intros i Hi; destruct (Nat.eqb_spec k (N + i)); [lia|reflexivity]]. unfold pointVector, vol. ring.
    - exfalso. assert (X := Nat.div_mod k d ltac:(lia)). assert (k mod d < d)%nat by (apply Nat.mod_upper_bound; lia). unfold N in K. nia.
    - exfalso. assert (k / d < n)%nat by (apply Nat.div_lt_upper_bound; [lia|exact K]). lia.
    - rewrite (sum_pick m (k - N)); [|unfold T in Hk; lia|intros i Hi Hne; destruct (Nat.eqb_spec k (N + i)); [lia|reflexivity]].
      destruct (Nat.eqb_spec k (N + (k - N))); [|lia]. unfold v, vol, Uhat. ring.
  Qed.

  (** ** Rigid motions *)
  Section Rigid.
    Variable X : nat -> nat -> R.
    Hypothesis derivatives : forall gp, In gp points -> shapeDerivatives d n X dN gp.
    Hypothesis devE_only : componentsOnly s devE.
    Hypothesis devS_only : componentsOnly s devS.
    Hypothesis devC_only : componentsOnly s devC.
    Hypothesis volE_only : componentsOnly s volE.
    Hypothesis volS_only : componentsOnly s volS.
    Hypothesis volC_only : componentsOnly s volC.

    Lemma pressure_kept gp x u : p gp (withPressures N x u) = p gp x.
    Proof. unfold p, pressure, pressureIndex. apply sum_ext. intros j Hj. unfold withPressures. fold N. destruct (Nat.ltb_spec (N + j) N); [lia|reflexivity]. Qed.
    Lemma strain_kept gp x u c : eps gp (withPressures N x u) c = eps gp u c.
    Proof. unfold eps. apply (strain_local d n m d3). intros k Hk. unfold withPressures. destruct (Nat.ltb_spec k N); [reflexivity|unfold N in *; lia]. Qed.

    (** C188: the energy does not change when the displaced element is moved, whatever the pressures *)
    Theorem C188_energy x Q c u : rotation d Q -> Energy (withPressures N x (moved d X Q c u)) = Energy (withPressures N x u).
    Proof.
      intros R. rewrite !energy_value. apply sumP_ext. intros gp Hgp. rewrite !pressure_kept.
      assert (E : forall c', (c' < s)%nat -> eps gp (withPressures N x (moved d X Q c u)) c' = eps gp (withPressures N x u) c').
      { intros c' _. rewrite !strain_kept. unfold eps. apply (C100_solid_strains d n X dN d3); auto. }
      rewrite (devE_only _ _ E), (volE_only _ _ E). reflexivity.
    Qed.
    (** C188: the forces have neither a resultant nor a moment, whatever the pressures *)
    Theorem C188_equilibrium x : materialsAt d n devE devS devC volE volS volC points dN x -> selfEquilibrated d n X x (Vector x zeroVector).
    Proof.
      intros H. apply (C100_equilibrium d n X d3 (fun u => Energy (withPressures N x u))).
      - apply (gradient_part N m). apply (mixed_gradient d n m d3 devE devS devC volE volS volC kappa); assumption.
      - intros Q c R. now apply C188_energy.
    Qed.
    (** C188: without strain there are no forces and no residuals, if the materials have neither stress nor change of volume without strain *)
    Theorem C188_rest x Q c k : rotation d Q -> (k < T)%nat ->
      (forall e, (forall c, (c < s)%nat -> e c = 0) -> volE e = 0 /\ forall c, (c < s)%nat -> devS e c = 0) ->
      (forall j, (j < m)%nat -> x (d * n + j)%nat = 0) ->
      Vector (withPressures N x (moved d X Q c zeroVector)) zeroVector k = 0.
    Proof.
      intros R Hk Mat P0. set (y := withPressures N x (moved d X Q c zeroVector)). rewrite vector_value by exact Hk. unfold zeroVector at 1. rewrite Rplus_0_l.
      apply sumP_none. intros gp Hgp.
      assert (P1 : p gp y = 0).
      { unfold y. rewrite pressure_kept. unfold p, pressure, pressureIndex. apply sum_zero. intros j Hj. rewrite P0 by exact Hj. ring. }
      assert (E0 : forall c', (c' < s)%nat -> eps gp y c' = 0).
      { intros c' _. unfold y. rewrite strain_kept. unfold eps. rewrite (C100_solid_strains d n X dN d3) by auto. unfold glStrain, strainVector.
        assert (Z : forall a b, displacementGradientOf d n (dN gp) zeroVector a b = 0) by (intros; unfold displacementGradientOf; apply sum_zero; intros; unfold zeroVector; ring).
        destruct (component d c') as (a, b). unfold greenLagrangeOf. rewrite !Z, sum_zero by (intros; rewrite Z; ring). destruct (a =? b)%nat; ring. }
      destruct (Mat _ E0) as (V0 & S0). rewrite P1, V0. destruct (k <? N)%nat; [|unfold Rdiv; ring].
      unfold pointVector, driverStress. rewrite sum_zero; [ring|]. intros c' Hc. rewrite S0 by exact Hc. ring.
    Qed.
  End Rigid.

  (** ** The pressure *)
  (** The material whose pressure follows the volume *)
  Definition wholeEnergy (e : nat -> R) : R := devE e + kappa / 2 * (volE e * volE e).
  Definition wholeStress (e : nat -> R) (c : nat) : R := devS e c + kappa * volE e * volS e c.
  Definition wholeModuli (e : nat -> R) (b c : nat) : R := devC e b c + kappa * (volS e c * volS e b + volE e * volC e b c).

  Theorem C189_material e : hyperelastic s devE devS devC e -> hyperelastic s volE volS volC e -> hyperelastic s wholeEnergy wholeStress wholeModuli e.
  Proof.
    intros (G & J) (G' & J'). split.
    - eapply gradient_ext; [exact (gradient_plus _ _ _ _ _ _ G (gradient_scale _ _ _ _ (kappa / 2) (gradient_mult _ _ _ _ _ _ G' G')))|..]; intros; unfold wholeEnergy, wholeStress; cbv beta; [ring|field].
    - intros b Hb. eapply gradient_ext; [exact (gradient_plus _ _ _ _ _ _ (J b Hb) (gradient_scale _ _ _ _ kappa (gradient_mult _ _ _ _ _ _ G' (J' b Hb))))|..];
        intros; unfold wholeStress, wholeModuli; cbv beta; ring.
  Qed.

  (** C189: where the pressure at every point is the modulus times the change of volume, the element is the displacement element of that material *)
  Theorem C189_follows x : (forall gp, In gp points -> p gp x = kappa * volE (eps gp x)) ->
    Energy x = nonlinearScalar points eps wholeEnergy false x /\
    (forall k, (k < N)%nat -> Vector x zeroVector k = nonlinearVector d n s points eps (glBop d n dN) wholeStress false x zeroVector k) /\
    (forall j, (j < m)%nat -> Vector x zeroVector (d * n + j)%nat = 0).
  Proof.
    intros H. split; [|split].
    - rewrite energy_value. cbn [nonlinearScalar]. rewrite energy_sum. apply sumP_ext. intros gp Hgp. rewrite (H gp Hgp). unfold wholeEnergy. field. exact kappa_nonzero.
    - intros k Hk. rewrite vector_value by (unfold T; lia). unfold nonlinearVector. rewrite (vector_sum d n s points (proj1 d3)) by exact Hk.
      f_equal. apply sumP_ext. intros gp Hgp. destruct (Nat.ltb_spec k N); [|lia]. unfold pointVector. f_equal. apply sum_ext. intros c _. unfold driverStress, wholeStress. rewrite (H gp Hgp). ring.
    - intros j Hj. rewrite vector_value by (unfold T, N; lia). unfold zeroVector. rewrite Rplus_0_l. apply sumP_none. intros gp Hgp.
      destruct (Nat.ltb_spec (d * n + j) N); [unfold N in *; lia|]. rewrite (H gp Hgp). field. exact kappa_nonzero.
  Qed.

  (** C189: the residuals vanish exactly if the pressure has the weighted means of the modulus times the change of volume *)
  Theorem C189_means x j : (j < m)%nat ->
    (Vector x zeroVector (d * n + j)%nat = 0 <->
     sumP points (fun gp => Np gp j * p gp x * vol gp) = sumP points (fun gp => Np gp j * (kappa * volE (eps gp x)) * vol gp)).
  Proof.
    intros Hj. rewrite vector_value by (unfold T, N; lia). unfold zeroVector. rewrite Rplus_0_l.
    rewrite (sumP_ext points _ (fun gp => (/ kappa) * (Np gp j * (kappa * volE (eps gp x)) * vol gp + - 1 * (Np gp j * p gp x * vol gp)))).
    2:{ intros gp _. destruct (Nat.ltb_spec (d * n + j) N); [unfold N in *; lia|]. replace (d * n + j - N)%nat with j by (unfold N; lia). field. exact kappa_nonzero. }
    rewrite <- sumP_const_l, sumP_add, <- sumP_const_l.
    set (a := sumP points (fun gp => Np gp j * (kappa * volE (eps gp x)) * vol gp)). set (b := sumP points (fun gp => Np gp j * p gp x * vol gp)).
    assert (I0 : / kappa <> 0) by (now apply Rinv_neq_0_compat). split; intros E.
    - apply Rmult_integral in E. destruct E as [E|E]; [contradiction|lra].
    - rewrite E. ring.
  Qed.

  (** C189: with one constant pressure this is the mean change of volume of the element, on which energy and forces then depend *)
  Theorem C189_constant x (V := sumP points vol) (I := sumP points (fun gp => volE (eps gp x) * vol gp)) :
    m = 1%nat -> (forall gp, In gp points -> Np gp 0%nat = 1) -> V <> 0 ->
    (Vector x zeroVector (d * n)%nat = 0 <-> x (d * n)%nat = kappa * (I / V)) /\
    (Vector x zeroVector (d * n)%nat = 0 ->
       Energy x = sumP points (fun gp => devE (eps gp x) * vol gp) + kappa / 2 * ((I / V) * (I / V)) * V /\
       forall k, (k < N)%nat -> Vector x zeroVector k =
         sumP points (fun gp => pointVector d s (glBop d n dN) (fun c => devS (eps gp x) c + kappa * (I / V) * volS (eps gp x) c) gp x k)).
  Proof.
    intros Hm HN HV.
    assert (P : forall gp, In gp points -> p gp x = x (d * n)%nat).
    { intros gp Hgp. unfold p, pressure, pressureIndex. rewrite Hm. cbn [sum]. rewrite HN by exact Hgp. rewrite Nat.add_0_r. ring. }
    assert (Iff : Vector x zeroVector (d * n)%nat = 0 <-> x (d * n)%nat = kappa * (I / V)).
    { assert (M := C189_means x 0%nat ltac:(lia)). rewrite Nat.add_0_r in M. rewrite M.
      rewrite (sumP_ext points (fun gp => Np gp 0%nat * p gp x * vol gp) (fun gp => x (d * n)%nat * vol gp)) by (intros gp Hgp; rewrite (HN gp Hgp), (P gp Hgp); ring).
      rewrite (sumP_ext points (fun gp => Np gp 0%nat * (kappa * volE (eps gp x)) * vol gp) (fun gp => kappa * (volE (eps gp x) * vol gp))) by (intros gp Hgp; rewrite (HN gp Hgp); ring).
      rewrite <- !sumP_const_l. fold I. change (sumP points vol) with V. split; intros E.
      - apply (Rmult_eq_reg_r V); [|exact HV]. transitivity (kappa * I); [exact E|]. field. exact HV.
      - rewrite E. field. exact HV. }
    split; [exact Iff|]. intros E. apply Iff in E. split.
    - rewrite energy_value.
      rewrite (sumP_ext points _ (fun gp => devE (eps gp x) * vol gp + (x (d * n)%nat * (volE (eps gp x) * vol gp) + - (1 / (2 * kappa) * (x (d * n)%nat * x (d * n)%nat)) * vol gp)))
        by (intros gp Hgp; rewrite (P gp Hgp); ring).
      rewrite !sumP_add, <- !sumP_const_l. fold I. change (sumP points vol) with V. rewrite E. field. split; assumption.
    - intros k Hk. rewrite vector_value by (unfold T; lia). unfold zeroVector. rewrite Rplus_0_l. apply sumP_ext. intros gp Hgp. destruct (Nat.ltb_spec k N); [|lia].
      unfold pointVector. f_equal. apply sum_ext. intros c _. unfold driverStress. rewrite (P gp Hgp), E. reflexivity.
  Qed.
End Element.
Print Assumptions C188_energy.
Print Assumptions C188_equilibrium.
Print Assumptions C188_rest.
Print Assumptions C189_material.
Print Assumptions C189_follows.
Print Assumptions C189_means.
Print Assumptions C189_constant.

(** ** A case *)
(** A triangle with one point and one pressure, stretched along the first axis; the change of volume is the trace of the strain *)
Definition trianglePlace (i k : nat) : R := nth k (nth i [[0; 0]; [1; 0]; [0; 1]] []) 0.
Definition triangleDerivatives (gp : point) (i a : nat) : R := nth a (nth i [[-1; -1]; [1; 0]; [0; 1]] []) 0.
Definition trianglePoints : list point := [{| position := fun _ => 1 / 3; integrationElement := 1; weight := 1 / 2 |}].
Definition trace2 (e : nat -> R) : R := e 0%nat + e 1%nat.
Definition trace2Stress (e : nat -> R) (c : nat) : R := if (c <? 2)%nat then 1 else 0.
Definition stretchedTriangle (kappa : R) (k : nat) : R := match k with 2%nat => 1 | 6%nat => kappa * (3 / 2) | _ => 0 end.

Example C188_applies kappa x : kappa <> 0 ->
  let C := hooke 2 1 1 in
  (forall gp, In gp trianglePoints -> shapeDerivatives 2 3 trianglePlace triangleDerivatives gp) /\
  (forall e, (forall c, (c < 3)%nat -> e c = 0) -> trace2 e = 0 /\ forall c, (c < 3)%nat -> linearStress_ 3 (fun _ => C) e c = 0) /\
  materialsAt 2 3 (linearEnergy 3 (fun _ => C)) (linearStress_ 3 (fun _ => C)) (fun _ => C) trace2 trace2Stress (fun _ _ _ => 0) trianglePoints triangleDerivatives x /\
  selfEquilibrated 2 3 trianglePlace x
    (dpVector 2 3 3 1 trianglePoints (glStrain 2 3 triangleDerivatives) (glBop 2 3 triangleDerivatives) (fun _ _ => 1) (linearStress_ 3 (fun _ => C)) trace2 trace2Stress kappa x zeroVector).
Proof.
  intros Hk C.
  assert (S : forall gp, In gp trianglePoints -> shapeDerivatives 2 3 trianglePlace triangleDerivatives gp).
  { intros gp _ a Ha. split; [|intros k Hk']; do 2 (destruct a as [|a]; [try (do 2 (destruct k as [|k]; [unfold identity; cbn; ring|]); lia); cbn; ring|]); lia. }
  assert (M : materialsAt 2 3 (linearEnergy 3 (fun _ => C)) (linearStress_ 3 (fun _ => C)) (fun _ => C) trace2 trace2Stress (fun _ _ _ => 0) trianglePoints triangleDerivatives x).
  { intros gp _. split; [apply quadratic_hyperelastic, (hooke_symmetric 2)|]. split.
    - eapply gradient_ext; [exact (gradient_plus _ _ _ _ _ _ (gradient_coordinate 3 0 _ ltac:(lia)) (gradient_coordinate 3 1 _ ltac:(lia)))|reflexivity|].
      intros k Hk'. do 3 (destruct k as [|k]; [unfold trace2Stress; cbn; ring|]); cbn in Hk'; lia.
    - intros i Hi. exact (gradient_const _ (if (i <? 2)%nat then 1 else 0) _). }
  split; [exact S|]. split; [|split; [exact M|]].
  - intros e He. split; [unfold trace2; rewrite !He by lia; ring|]. intros c Hc. unfold linearStress_, apply. apply sum_zero. intros k Hk'. rewrite He by exact Hk'. ring.
  - apply (C188_equilibrium 2 3 1 trianglePoints ltac:(lia) triangleDerivatives (fun _ _ => 1) (linearEnergy 3 (fun _ => C)) (linearStress_ 3 (fun _ => C)) (fun _ => C)
      trace2 trace2Stress (fun _ _ _ => 0) kappa Hk trianglePlace S); try exact M; intros e e' H; try reflexivity.
    + unfold linearEnergy. f_equal. unfold dot. apply sum_ext. intros i Hi. rewrite (H i Hi). f_equal. unfold apply. apply sum_ext. intros j Hj. now rewrite (H j Hj).
    + unfold linearStress_. apply FunctionalExtensionality.functional_extensionality. intros i. unfold apply. apply sum_ext. intros j Hj. now rewrite (H j Hj).
    + unfold trace2. rewrite !H by (cbn; lia). reflexivity.
Qed.
Example C189_applies kappa : kappa <> 0 ->
  sumP trianglePoints vol = 1 / 2 /\
  (forall gp, In gp trianglePoints -> pressure 2 3 1 (fun _ _ => 1) gp (stretchedTriangle kappa) = kappa * trace2 (glStrain 2 3 triangleDerivatives gp (stretchedTriangle kappa))) /\
  stretchedTriangle kappa 6%nat = kappa * (sumP trianglePoints (fun gp => trace2 (glStrain 2 3 triangleDerivatives gp (stretchedTriangle kappa)) * vol gp) / sumP trianglePoints vol).
Proof.
  intros Hk. split; [unfold vol; cbn; field|]. split.
  - intros gp [<-|[]]. cbv -[Rplus Rmult Rinv Ropp Rminus IZR]. field.
  - cbv -[Rplus Rmult Rinv Ropp Rminus IZR]. field.
Qed.
