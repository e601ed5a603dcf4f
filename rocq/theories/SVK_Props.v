(** C42, C43: St. Venant-Kirchhoff and linear elastic materials. *)

From Coq Require Import List Arith ZArith Reals Lra Lia Bool.
From Coquelicot Require Import Coquelicot.
From Verif Require Import Tensor_Model Tensor_Spec Tensor_Props SVK_Model SVK_Spec.
Import ListNotations.
Local Open Scope R_scope.

(** A strain in one of its two representations *)
Definition represents (isStrain : bool) (x : tensor2) (E : rmat) : Prop :=
  match x with
  | Matrix33 A => eq3 A E
  | Vector6 v => eqv 6 v (voigtVector 3 isStrain E)
  end.

Lemma fromVoigt6 v s : exists m, fromVoigt 6 v s = Some (3%nat, m) /\
  eq3 (fun i j => match m i j with Some x => x | None => 0 end)
      (entries [[v 0%nat; v 5%nat * factorFrom s; v 4%nat * factorFrom s];
                [v 5%nat * factorFrom s; v 1%nat; v 3%nat * factorFrom s];
                [v 4%nat * factorFrom s; v 3%nat * factorFrom s; v 2%nat]]) /\
  readMat m = Some (fun i j => match m i j with Some x => x | None => 0 end).
Proof.
  unfold fromVoigt. rewrite size6. eexists. split; [reflexivity|]. split.
  - intros i j Hi Hj. cases i; cases j; reflexivity.
  - reflexivity.
Qed.

Lemma maybeFrom s x E : symmetric 3 E -> represents s x E -> exists A, maybeFromVoigt x s = Some A /\ eq3 A E.
Proof.
  intros Sy H. destruct x as [A|v]; cbn [maybeFromVoigt represents] in *.
  - exists A. auto.
  - destruct (fromVoigt6 v s) as (m & -> & Hm & ->). eexists. split; [reflexivity|].
    intros i j Hi Hj. rewrite Hm by auto.
    assert (H0 := H 0%nat). assert (H1 := H 1%nat). assert (H2 := H 2%nat). assert (H3 := H 3%nat). assert (H4 := H 4%nat). assert (H5 := H 5%nat).
    assert (S1 := Sy 1%nat 0%nat). assert (S2 := Sy 2%nat 0%nat). assert (S3 := Sy 2%nat 1%nat).
    cases i; cases j; cbn -[voigtVector]; rewrite ?H0, ?H1, ?H2, ?H3, ?H4, ?H5 by lia; destruct s; cbn; unfold factorFrom;
    rewrite ?S1, ?S2, ?S3 by lia; try field; reflexivity.
Qed.

Lemma readToVoigt E s : exists v, readVec 6 (toVoigt 3 E s) = Some v /\ eqv 6 v (voigtVector 3 s E).
Proof.
  eexists. split; [reflexivity|]. intros k Hk. cbv beta. now rewrite C35_to by (unfold voigtLength; simpl; lia).
Qed.

Lemma eq3_at A B : eq3 A B -> forall i j, (i < 3)%nat -> (j < 3)%nat -> A i j = B i j.
Proof. auto. Qed.

Ltac rew3 H := rewrite ?(H 0%nat 0%nat), ?(H 0%nat 1%nat), ?(H 0%nat 2%nat), ?(H 1%nat 0%nat), ?(H 1%nat 1%nat), ?(H 1%nat 2%nat),
  ?(H 2%nat 0%nat), ?(H 2%nat 1%nat), ?(H 2%nat 2%nat) by lia.

(** C42: every combination of input and output representation gives the stress lambda tr E I + 2 mu E and the energy
    lambda/2 tr(E)^2 + mu E:E. *)
Theorem C42_representations : forall lambda mu x E, symmetric 3 E -> represents true x E ->
  storedEnergy lambda mu x = Some (isotropicEnergy lambda mu E) /\
  (exists S, stressesMatrix lambda mu x = Some S /\ eq3 S (isotropicStress lambda mu E)) /\
  (exists S, stressesVoigt lambda mu x = Some S /\ eqv 6 S (stressVector 3 (isotropicStress lambda mu E))).
Proof.
  intros lambda mu x E Sy H. destruct (maybeFrom true x E Sy H) as (A & EA & HA).
  split; [|split].
  - unfold storedEnergy. rewrite EA. destruct x as [B|v].
    + f_equal. cbn. unfold isotropicEnergy, tr, trace, squaredNorm, contract. cbn. rew3 HA. ring.
    + destruct (readToVoigt A true) as (w & -> & Hw). f_equal. cbn.
      rewrite (Hw 0%nat), (Hw 1%nat), (Hw 2%nat), (Hw 3%nat), (Hw 4%nat), (Hw 5%nat) by lia. cbn.
      rew3 HA. unfold isotropicEnergy, tr, contract. cbn.
      rewrite (Sy 1%nat 0%nat), (Sy 2%nat 0%nat), (Sy 2%nat 1%nat) by lia. field.
  - unfold stressesMatrix. rewrite EA. eexists. split; [reflexivity|]. intros i j Hi Hj. cbn.
    unfold isotropicStress, tr, trace, kron, identity. cbn. rewrite (HA i j) by auto. rew3 HA. ring.
  - unfold stressesVoigt. rewrite EA. eexists. split; [reflexivity|]. intros k Hk.
    unfold stressesImplVoigt, trace, stressVector, isotropicStress, tr, identity. cases k; cbn; rew3 HA; ring.
Qed.
Print Assumptions C42_representations.

(** The implementations called with a Voigt vector agree with those called with the matrix, and the two moduli agree. *)
Theorem C42_implementations : forall lambda mu E, symmetric 3 E ->
  storedEnergyImpl lambda mu (Vector6 (strainVector 3 E)) = storedEnergyImpl lambda mu (Matrix33 E) /\
  eq3 (stressesImplMatrix lambda mu (Vector6 (strainVector 3 E))) (stressesImplMatrix lambda mu (Matrix33 E)) /\
  eqv 6 (stressesImplVoigt lambda mu (Vector6 (strainVector 3 E))) (stressesImplVoigt lambda mu (Matrix33 E)) /\
  eqv 6 (stressesImplVoigt lambda mu (Matrix33 E)) (stressVector 3 (stressesImplMatrix lambda mu (Matrix33 E))) /\
  (forall a b, (a < 6)%nat -> (b < 6)%nat ->
     toVoigtTensor (tangentModuliImplTensor lambda mu) a b = Some (tangentModuliImplVoigt lambda mu a b)) /\
  minorSymmetric 3 (tangentModuliImplTensor lambda mu) /\ majorSymmetric 3 (tangentModuliImplTensor lambda mu).
Proof.
  intros lambda mu E Sy. assert (S1 := Sy 1%nat 0%nat). assert (S2 := Sy 2%nat 0%nat). assert (S3 := Sy 2%nat 1%nat).
  split; [|split; [|split; [|split; [|split; [|split]]]]].
  - cbn. unfold trace, squaredNorm. rewrite S1, S2, S3 by lia. field.
  - intros i j Hi Hj. unfold stressesImplMatrix, trace. cases i; cases j; cbn; rewrite ?S1, ?S2, ?S3 by lia; ring.
  - intros k Hk. cases k; cbn; unfold trace; ring.
  - intros k Hk. cases k; cbn; unfold trace, kron; cbn; ring.
  - intros a b Ha Hb. rewrite C36_matrix; auto.
    + f_equal. cases a; cases b; unfold voigtMatrix, tangentModuliImplTensor, symmetricIdentityFourthOrder; cbn; unfold kron; cbn; field.
    + intros i j k l Hi Hj Hk Hl. unfold tangentModuliImplTensor, symmetricIdentityFourthOrder.
      cases i; cases j; cases k; cases l; cbn; unfold kron; cbn; split; ring.
  - intros i j k l Hi Hj Hk Hl. unfold tangentModuliImplTensor, symmetricIdentityFourthOrder.
    cases i; cases j; cases k; cases l; cbn; unfold kron; cbn; split; ring.
  - intros i j k l Hi Hj Hk Hl. unfold tangentModuliImplTensor, symmetricIdentityFourthOrder.
    cases i; cases j; cases k; cases l; cbn; unfold kron; cbn; ring.
Qed.
Print Assumptions C42_implementations.

(** Stress is the derivative of the energy; the tangent the derivative of the stress.  Both in tensor and in Voigt form. *)
Theorem C42_derivatives : forall lambda mu E H, symmetric 3 H ->
  is_derive (fun t => storedEnergyImpl lambda mu (Matrix33 (shift E H t))) 0
            (contract 3 (stressesImplMatrix lambda mu (Matrix33 E)) H) /\
  (forall i j, (i < 3)%nat -> (j < 3)%nat ->
     is_derive (fun t => stressesImplMatrix lambda mu (Matrix33 (shift E H t)) i j) 0
               (apply4 3 (tangentModuliImplTensor lambda mu) H i j)).
Proof.
  intros lambda mu E H Sy. split.
  - unfold storedEnergyImpl, trace, squaredNorm, shift. auto_derive; auto. unfold contract. cbn. unfold trace, kron. cbn. field.
  - intros i j Hi Hj. unfold stressesImplMatrix, trace, shift. auto_derive; auto.
    unfold apply4, tangentModuliImplTensor, symmetricIdentityFourthOrder. cbn.
    assert (S1 := Sy 1%nat 0%nat). assert (S2 := Sy 2%nat 0%nat). assert (S3 := Sy 2%nat 1%nat).
    cases i; cases j; cbn; unfold kron; cbn; rewrite ?S1, ?S2, ?S3 by lia; field.
Qed.
Print Assumptions C42_derivatives.

Definition shiftV (e h : nat -> R) (t : R) (i : nat) : R := e i + t * h i.
Theorem C42_derivatives_voigt : forall lambda mu e h,
  is_derive (fun t => storedEnergyImpl lambda mu (Vector6 (shiftV e h t))) 0
            (dot 6 (stressesImplVoigt lambda mu (Vector6 e)) h) /\
  (forall i, (i < 6)%nat ->
     is_derive (fun t => stressesImplVoigt lambda mu (Vector6 (shiftV e h t)) i) 0
               (apply 6 (tangentModuliImplVoigt lambda mu) h i)).
Proof.
  intros lambda mu e h. split.
  - unfold storedEnergyImpl, shiftV. auto_derive; auto. unfold dot. cbn. field.
  - intros i Hi. unfold stressesImplVoigt, shiftV. cases i; cbn; auto_derive; auto; unfold apply, tangentModuliImplVoigt; cbn; ring.
Qed.
Print Assumptions C42_derivatives_voigt.

(** The energy is half the product of stress and strain; it is positive for every strain but zero exactly when mu > 0 and
    3 lambda + 2 mu > 0. *)
Theorem C42_energy : forall lambda mu E,
  storedEnergyImpl lambda mu (Matrix33 E) = contract 3 (stressesImplMatrix lambda mu (Matrix33 E)) E / 2.
Proof. intros. unfold contract. cbn. unfold trace, squaredNorm, kron. cbn. field. Qed.
Print Assumptions C42_energy.

Theorem C42_positive : forall lambda mu,
  (forall E, symmetric 3 E -> ~ zero3 E -> 0 < storedEnergyImpl lambda mu (Matrix33 E)) <-> 0 < mu /\ 0 < 3 * lambda + 2 * mu.
Proof.
  intros lambda mu. split.
  - intros H. split.
    + specialize (H (entries [[0; 1; 0]; [1; 0; 0]; [0; 0; 0]])). assert (K : 0 < mu * 2); [|lra].
      replace (mu * 2) with (storedEnergyImpl lambda mu (Matrix33 (entries [[0; 1; 0]; [1; 0; 0]; [0; 0; 0]])))
        by (cbn; unfold trace, squaredNorm; cbn; field).
      apply H.
      * intros i j Hi Hj. cases i; cases j; reflexivity.
      * intros Z. specialize (Z 0%nat 1%nat ltac:(lia) ltac:(lia)). cbn in Z. lra.
    + specialize (H (entries [[1; 0; 0]; [0; 1; 0]; [0; 0; 1]])). assert (K : 0 < (3 * lambda + 2 * mu) * (3 / 2)); [|lra].
      replace ((3 * lambda + 2 * mu) * (3 / 2)) with (storedEnergyImpl lambda mu (Matrix33 (entries [[1; 0; 0]; [0; 1; 0]; [0; 0; 1]])))
        by (cbn; unfold trace, squaredNorm; cbn; field).
      apply H.
      * intros i j Hi Hj. cases i; cases j; reflexivity.
      * intros Z. specialize (Z 0%nat 0%nat ltac:(lia) ltac:(lia)). cbn in Z. lra.
  - intros [Hm Hk] E _ NZ. cbn. unfold trace, squaredNorm.
    set (a := E 0%nat 0%nat). set (b := E 1%nat 1%nat). set (c := E 2%nat 2%nat).
    set (o := E 0%nat 1%nat * E 0%nat 1%nat + E 0%nat 2%nat * E 0%nat 2%nat + E 1%nat 0%nat * E 1%nat 0%nat +
              E 1%nat 2%nat * E 1%nat 2%nat + E 2%nat 0%nat * E 2%nat 0%nat + E 2%nat 1%nat * E 2%nat 1%nat).
    assert (Ho : 0 <= o) by (unfold o; nra).
    match goal with |- 0 < ?e => replace e with ((3 * lambda + 2 * mu) / 6 * (a + b + c) ^ 2
      + mu * (((a - b) ^ 2 + (a - c) ^ 2 + (b - c) ^ 2) / 3 + o)) by (unfold o; field) end.
    assert (Q1 : 0 <= (3 * lambda + 2 * mu) / 6 * (a + b + c) ^ 2) by (apply Rmult_le_pos; [lra|apply pow2_ge_0]).
    assert (Q2 : 0 <= (a - b) ^ 2) by apply pow2_ge_0. assert (Q3 : 0 <= (a - c) ^ 2) by apply pow2_ge_0.
    assert (Q4 : 0 <= (b - c) ^ 2) by apply pow2_ge_0.
    destruct (Rlt_dec 0 (((a - b) ^ 2 + (a - c) ^ 2 + (b - c) ^ 2) / 3 + o)) as [P|P].
    + assert (0 < mu * (((a - b) ^ 2 + (a - c) ^ 2 + (b - c) ^ 2) / 3 + o)) by (apply Rmult_lt_0_compat; auto). lra.
    + assert (Z1 : (a - b) ^ 2 = 0) by lra. assert (Z2 : (a - c) ^ 2 = 0) by lra. assert (Z3 : o = 0) by lra.
      assert (a = b) by nra. assert (a = c) by nra.
      assert (O1 : E 0%nat 1%nat = 0) by (unfold o in Z3; nra). assert (O2 : E 0%nat 2%nat = 0) by (unfold o in Z3; nra).
      assert (O3 : E 1%nat 0%nat = 0) by (unfold o in Z3; nra). assert (O4 : E 1%nat 2%nat = 0) by (unfold o in Z3; nra).
      assert (O5 : E 2%nat 0%nat = 0) by (unfold o in Z3; nra). assert (O6 : E 2%nat 1%nat = 0) by (unfold o in Z3; nra).
      assert (A : a <> 0).
      { intros A. apply NZ. intros i j Hi Hj. cases i; cases j; auto; unfold a, b, c in *; congruence. }
      assert (0 < (3 * lambda + 2 * mu) / 6 * (a + b + c) ^ 2).
      { apply Rmult_lt_0_compat; [lra|]. replace (a + b + c) with (3 * a) by lra. nra. }
      rewrite Z1, Z2, Z3. replace (b - c) with 0 by lra. lra.
Qed.
Print Assumptions C42_positive.

(** C43: the inverse modulus exists exactly for mu <> 0 and 3 lambda + 2 mu <> 0. *)
Theorem C43_invertible : forall lambda mu,
  (exists D, isInverse 6 (tangentModuliImplVoigt lambda mu) D) <-> mu <> 0 /\ 3 * lambda + 2 * mu <> 0.
Proof.
  intros lambda mu. split.
  - intros [D H]. split; intros Z.
    + destruct (H 3%nat 3%nat) as [K _]; [lia|lia|]. unfold mul, identity in K. cbn in K. rewrite Z in K. lra.
    + assert (K0 := proj1 (H 0%nat 0%nat ltac:(lia) ltac:(lia))). assert (K1 := proj1 (H 1%nat 0%nat ltac:(lia) ltac:(lia))).
      assert (K2 := proj1 (H 2%nat 0%nat ltac:(lia) ltac:(lia))). unfold mul, identity in *. cbn in *.
      assert (Q : (3 * lambda + 2 * mu) * (D 0%nat 0%nat + D 1%nat 0%nat + D 2%nat 0%nat) = 1) by lra. rewrite Z in Q. lra.
  - intros [Hm Hk].
    exists (let s := lambda / (2 * mu * (3 * lambda + 2 * mu)) in let d := 1 / (2 * mu) - s in
      entries [[d; - s; - s; 0; 0; 0]; [- s; d; - s; 0; 0; 0]; [- s; - s; d; 0; 0; 0];
               [0; 0; 0; / mu; 0; 0]; [0; 0; 0; 0; / mu; 0]; [0; 0; 0; 0; 0; / mu]]).
    intros i j Hi Hj. cbv zeta. unfold mul, identity, tangentModuliImplVoigt. cases i; cases j; cbn; split; field; auto.
Qed.
Print Assumptions C43_invertible.

(** For every stress in either representation the strain returned has that stress, and inverting the stress of a strain gives the
    strain; with the returned matrix being the inverse of the moduli. *)
Theorem C43_inversion : forall lambda mu inverse x S,
  isInverse 6 (tangentModuliImplVoigt lambda mu) (inverse (tangentModuliImplVoigt lambda mu)) ->
  symmetric 3 S -> represents false x S ->
  exists D e, materialInversion lambda mu inverse x = Some (D, e) /\
    isInverse 6 (tangentModuliImplVoigt lambda mu) D /\
    (exists s, stressesVoigt lambda mu (Vector6 e) = Some s /\ eqv 6 s (stressVector 3 S)) /\
    (forall E, symmetric 3 E -> eq3 S (isotropicStress lambda mu E) -> eqv 6 e (strainVector 3 E)).
Proof.
  intros lambda mu inverse x S I Sy H. set (D := inverse (tangentModuliImplVoigt lambda mu)) in *.
  destruct (maybeFrom false x S Sy H) as (A & EA & HA). unfold materialInversion. rewrite EA.
  unfold materialInversionImpl, maybeToVoigt. fold D. destruct (readToVoigt A false) as (w & -> & Hw).
  set (e := matVec6 D w).
  destruct (C35_to_from 3 e true) as (m & E & Em & HE & SyE & TE); [lia|]. change (voigtLength 3) with 6%nat in *.
  assert (RE : represents true (Vector6 e) E).
  { intros k Hk. specialize (TE k Hk). rewrite C35_to in TE by (unfold voigtLength; simpl; lia). congruence. }
  destruct (maybeFrom true (Vector6 e) E SyE RE) as (B & EB & HB). rewrite EB.
  destruct (readToVoigt B true) as (v & -> & Hv). exists D, v. split; auto. split; auto.
  assert (VE : eqv 6 v e).
  { intros k Hk. rewrite Hv by auto. rewrite (RE k Hk). unfold voigtVector, strainVector. cases k; cbn; rew3 HB; reflexivity. }
  assert (WS : eqv 6 w (stressVector 3 S)).
  { intros k Hk. rewrite Hw by auto. cbn. unfold stressVector. cases k; cbn; rew3 HA; reflexivity. }
  assert (M : forall i, (i < 6)%nat -> apply 6 (tangentModuliImplVoigt lambda mu) e i = w i).
  { intros i Hi. unfold apply, e, matVec6. 
    transitivity (sum 6 (fun k => mul 6 (tangentModuliImplVoigt lambda mu) D i k * w k)).
    - unfold mul. cbn. ring.
    - cbn [sum]. rewrite !(fun j Hj => proj1 (I i j Hi Hj)) by lia. unfold identity. cases i; cbn; ring. }
  split.
  - assert (RV : represents true (Vector6 v) E).
    { intros k Hk. rewrite VE by auto. now apply RE. }
    destruct (C42_representations lambda mu (Vector6 v) E SyE RV) as (_ & _ & s & Es & Hs). exists s. split; auto.
    intros k Hk. rewrite Hs, <- WS, <- M by auto. unfold apply, stressVector, isotropicStress, tr, identity.
    cbn [sum]. rewrite (RE 0%nat), (RE 1%nat), (RE 2%nat), (RE 3%nat), (RE 4%nat), (RE 5%nat) by lia. cases k; cbn; ring.
  - intros F SyF HF k Hk. rewrite VE by auto. unfold e, matVec6.
    transitivity (sum 6 (fun j => mul 6 D (tangentModuliImplVoigt lambda mu) k j * strainVector 3 F j)).
    + rewrite (WS 0%nat), (WS 1%nat), (WS 2%nat), (WS 3%nat), (WS 4%nat), (WS 5%nat) by lia. unfold stressVector, mul. cbn. rew3 HF. unfold isotropicStress, tr, identity. cbn. ring.
    + cbn [sum]. rewrite !(fun j Hj => proj2 (I k j Hk Hj)) by lia. unfold identity. cases k; cbn; ring.
Qed.
Print Assumptions C43_inversion.

(** A tensor in either representation is converted to the same vector *)
Theorem C43_representations : forall isStrain x S, symmetric 3 S -> represents isStrain x S ->
  exists v, maybeToVoigt x isStrain = Some v /\ eqv 6 v (voigtVector 3 isStrain S).
Proof.
  intros b [A|w] S Sy H; unfold maybeToVoigt.
  - destruct (readToVoigt A b) as (v & -> & Hv). exists v. split; [reflexivity|]. intros k Hk. rewrite Hv by exact Hk.
    unfold voigtVector, strainVector, stressVector. destruct b; cases k; cbn; rew3 H; reflexivity.
  - exists w. split; [reflexivity|exact H].
Qed.
Print Assumptions C43_representations.

(** lambda = 1, mu = 2, a strain with all components *)
Example C42_example : symmetric 3 (entries [[1; 2; 3]; [2; 4; 5]; [3; 5; 6]]) /\
  isotropicStress 1 2 (entries [[1; 2; 3]; [2; 4; 5]; [3; 5; 6]]) 1 2 = 20 /\ 0 < 2 /\ 0 < 3 * 1 + 2 * 2.
Proof.
  split; [intros i j Hi Hj; cases i; cases j; reflexivity|]. split; [unfold isotropicStress, identity; cbn; ring|lra].
Qed.
