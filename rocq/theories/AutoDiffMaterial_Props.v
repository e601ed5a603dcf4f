(** C136: what a material with automatic differentiation computes. *)

From Coq Require Import List Arith ZArith Reals Lra Lia Bool.
From Coquelicot Require Import Coquelicot.
From Verif Require Import Tensor_Model Tensor_Spec Tensor_Props SVK_Model SVK_Spec SVK_Props NeoHooke_Model NeoHooke_Props Conversions_Model AutoDiffMaterial_Model.
Import ListNotations.
Local Open Scope R_scope.

(** ** Specification *)

(** Stresses are derivatives of the energy, moduli derivatives of the stresses, up to the factor of the material *)
Definition potential (m : material) (A : rmat) : Prop :=
  forall H, symmetric 3 H -> is_derive (fun t => m_energy m (shift A H t)) 0 (contract 3 (m_stress m A) H / m_factor m).
Definition consistent (m : material) (A : rmat) : Prop :=
  (forall H, symmetric 3 H -> locally 0 (fun t => potential m (shift A H t))) /\
  (forall H i j, symmetric 3 H -> (i < 3)%nat -> (j < 3)%nat ->
     is_derive (fun t => m_stress m (shift A H t) i j) 0 (apply4 3 (m_moduli m A) H i j / m_factor m)) /\
  minorSymmetric 3 (m_moduli m A).
(** Only the entries of the 3x3 matrix matter; stresses are symmetric; the factor is not zero *)
Definition wellFormed (m : material) : Prop :=
  (forall A B, eq3 A B -> m_energy m A = m_energy m B /\ eq3 (m_stress m A) (m_stress m B)) /\
  (forall A, symmetric 3 A -> symmetric 3 (m_stress m A)) /\ m_factor m <> 0.

(** How much the strain of the material changes if the given strain changes by one: dC = 2 dE *)
Definition rate (given own : strainTag) : option R :=
  match given, own with
  | greenLagrangian, greenLagrangian | rightCauchyGreenTensor, rightCauchyGreenTensor => Some 1
  | greenLagrangian, rightCauchyGreenTensor => Some 2
  | rightCauchyGreenTensor, greenLagrangian => Some (1 / 2)
  | _, _ => None
  end.

(** Entry (i, j) of a fourth-order tensor in Voigt notation *)
Definition voigtEntry (L : rtensor4) (i j : nat) : R :=
  let (a, b) := component 3 i in let (c, d) := component 3 j in L a b c d.

(** ** Strains *)
Definition tensorOf (v : nat -> R) : rmat :=
  entries [[v 0%nat; v 5%nat / 2; v 4%nat / 2]; [v 5%nat / 2; v 1%nat; v 3%nat / 2]; [v 4%nat / 2; v 3%nat / 2; v 2%nat]].
Lemma tensorOf_symmetric v : symmetric 3 (tensorOf v).
Proof. intros i j Hi Hj. cases i; cases j; reflexivity. Qed.

Definition affine (c b : R) (e : rmat) : rmat := fun i j => c * e i j + b * kron i j.
Definition offset (given own : strainTag) : R :=
  match given, own with greenLagrangian, rightCauchyGreenTensor => 1 | rightCauchyGreenTensor, greenLagrangian => - (1 / 2) | _, _ => 0 end.

Section Strains.
Variable msqrt : rmat -> rmat.

Lemma transform_affine given own c e : rate given own = Some c ->
  exists A, transformStrain 3 msqrt given own e = Some A /\ eq3 A (affine c (offset given own) e).
Proof.
  intros H. destruct given, own; inversion H; subst c; (eexists; split; [reflexivity|]); intros i j _ _; unfold affine; cbn; unfold mscale, msub, madd;
  try (unfold kron; destruct (i =? j)%nat; field).
Qed.
Lemma affine_ext c b e e' : eq3 e e' -> eq3 (affine c b e) (affine c b e').
Proof. intros H i j Hi Hj. unfold affine. now rewrite H. Qed.
Lemma eq3_trans A B C : eq3 A B -> eq3 B C -> eq3 A C.
Proof. intros H K i j Hi Hj. now rewrite H, K. Qed.
Lemma eq3_sym A B : eq3 A B -> eq3 B A.
Proof. intros H i j Hi Hj. symmetry. auto. Qed.

Lemma transformed_vector m tag c v : rate tag (m_tag m) = Some c ->
  exists A, transformed msqrt m tag (Vector6 v) = Some A /\ eq3 A (affine c (offset tag (m_tag m)) (tensorOf v)).
Proof.
  intros H. unfold transformed, transformStrain3. cbn [maybeFromVoigt].
  destruct (fromVoigt6 v true) as (mm & -> & Hm & ->).
  destruct (transform_affine tag (m_tag m) c (fun i j => match mm i j with Some x => x | None => 0 end) H) as (A & -> & HA).
  exists A. split; [reflexivity|]. eapply eq3_trans; [exact HA|]. apply affine_ext.
  intros i j Hi Hj. rewrite Hm by assumption. unfold tensorOf, factorFrom. cases i; cases j; cbn; try field; reflexivity.
Qed.
Lemma transformed_matrix m tag c E : rate tag (m_tag m) = Some c ->
  exists A, transformed msqrt m tag (Matrix33 E) = Some A /\ eq3 A (affine c (offset tag (m_tag m)) E).
Proof. intros H. exact (transform_affine tag (m_tag m) c E H). Qed.

Lemma start_some E : exists x, start E = Some x /\ eqv 6 x (strainVector 3 E).
Proof. exact (readToVoigt E true). Qed.

Lemma tensorOf_strain x E : symmetric 3 E -> eqv 6 x (strainVector 3 E) -> eq3 (tensorOf x) E.
Proof.
  intros Sy H i j Hi Hj. unfold tensorOf.
  assert (H0 := H 0%nat). assert (H1 := H 1%nat). assert (H2 := H 2%nat). assert (H3 := H 3%nat). assert (H4 := H 4%nat). assert (H5 := H 5%nat).
  cases i; cases j; cbn; rewrite ?H0, ?H1, ?H2, ?H3, ?H4, ?H5 by lia; cbn; try reflexivity;
  rewrite ?(Sy 1%nat 0%nat), ?(Sy 2%nat 0%nat), ?(Sy 2%nat 1%nat) by lia; field.
Qed.

(** The direction of a component *)
Definition direction (i : nat) : rmat := tensorOf (unit i).
Lemma affine_moved c b v i t : eq3 (affine c b (tensorOf (moved v i t))) (shift (affine c b (tensorOf v)) (fun k l => c * direction i k l) t).
Proof.
  intros k l Hk Hl. unfold affine, shift, direction, tensorOf, moved. cases k; cases l; cbn; try field; ring.
Qed.
Lemma direction_symmetric c i : symmetric 3 (fun k l => c * direction i k l).
Proof. intros k l Hk Hl. cbv beta. unfold direction. now rewrite tensorOf_symmetric by assumption. Qed.

Lemma contract_direction c S i : symmetric 3 S -> (i < 6)%nat -> contract 3 S (fun k l => c * direction i k l) = c * stressVector 3 S i.
Proof.
  intros Sy Hi. unfold contract, direction, tensorOf, stressVector. assert (S1 := Sy 1%nat 0%nat). assert (S2 := Sy 2%nat 0%nat). assert (S3 := Sy 2%nat 1%nat).
  cases i; cbn; rewrite ?S1, ?S2, ?S3 by lia; field.
Qed.
Lemma apply4_direction c L i j : minorSymmetric 3 L -> (i < 6)%nat -> (j < 6)%nat ->
  let (a, b) := component 3 i in apply4 3 L (fun k l => c * direction j k l) a b = c * voigtEntry L i j.
Proof.
  intros Sy Hi Hj. destruct (component 3 i) as (a, b) eqn:E.
  assert (Ha : (a < 3 /\ b < 3)%nat) by (cases i; inversion E; subst; lia).
  unfold voigtEntry. rewrite E.
  unfold apply4, direction, tensorOf.
  assert (S1 := proj2 (Sy a b 1%nat 0%nat ltac:(lia) ltac:(lia) ltac:(lia) ltac:(lia))).
  assert (S2 := proj2 (Sy a b 2%nat 0%nat ltac:(lia) ltac:(lia) ltac:(lia) ltac:(lia))).
  assert (S3 := proj2 (Sy a b 2%nat 1%nat ltac:(lia) ltac:(lia) ltac:(lia) ltac:(lia))).
  cases j; cbn; rewrite ?S1, ?S2, ?S3; field.
Qed.
End Strains.

Section Results.
Variable msqrt : rmat -> rmat.
Variable m : material.
Hypothesis WF : wellFormed m.
Variables (tag : strainTag) (c : R).
Hypothesis HR : rate tag (m_tag m) = Some c.
Notation own v := (affine c (offset tag (m_tag m)) (tensorOf v)).

Lemma own_symmetric v : symmetric 3 (own v).
Proof. intros i j Hi Hj. unfold affine. rewrite (tensorOf_symmetric v i j) by assumption. unfold kron. now rewrite (Nat.eqb_sym i j). Qed.

Lemma energy_at v : orZero 0 (storedEnergy msqrt m tag (Vector6 v)) = m_energy m (own v).
Proof.
  unfold storedEnergy. destruct (transformed_vector msqrt m tag c v HR) as (A & -> & HA). cbn. apply WF, HA.
Qed.
Lemma stress_at v i : (i < 6)%nat -> orZero (fun _ => 0) (stresses msqrt m tag (Vector6 v)) i = stressVector 3 (m_stress m (own v)) i.
Proof.
  intros Hi. unfold stresses. destruct (transformed_vector msqrt m tag c v HR) as (A & -> & HA).
  destruct (readToVoigt (m_stress m A) false) as (w & -> & Hw). cbn [orZero]. rewrite Hw by assumption. cbn [voigtVector].
  destruct (proj1 WF _ _ HA) as (_ & HS). unfold stressVector. cases i; cbn; apply HS; lia.
Qed.

Lemma gradient_at v i : (i < 6)%nat -> potential m (own v) ->
  is_derive (fun t => orZero 0 (storedEnergy msqrt m tag (Vector6 (moved v i t)))) 0 (c * stressVector 3 (m_stress m (own v)) i / m_factor m).
Proof.
  intros Hi P. eapply is_derive_ext; [intros t; symmetry; rewrite energy_at; apply (proj1 (proj1 WF _ _ (affine_moved c _ v i t)))|].
  replace (c * stressVector 3 (m_stress m (own v)) i) with (contract 3 (m_stress m (own v)) (fun k l => c * direction i k l)).
  - apply P, direction_symmetric.
  - apply contract_direction; [apply WF, own_symmetric|assumption].
Qed.

Lemma gradient_value v i : (i < 6)%nat -> potential m (own v) ->
  gradient (fun y => orZero 0 (storedEnergy msqrt m tag (Vector6 y))) v i = c * stressVector 3 (m_stress m (own v)) i / m_factor m.
Proof. intros Hi P. unfold gradient. apply is_derive_unique. now apply gradient_at. Qed.

Lemma potential_ext A B : eq3 A B -> potential m A -> potential m B.
Proof.
  intros H P K SK. assert (HS := proj2 (proj1 WF _ _ H)).
  replace (contract 3 (m_stress m B) K) with (contract 3 (m_stress m A) K).
  - eapply is_derive_ext; [|apply (P K SK)]. intros t. cbv beta. apply WF. intros i j Hi Hj. unfold shift. now rewrite H.
  - unfold contract. cbn. rewrite ?HS by lia. reflexivity.
Qed.

(** Given strain [E], own strain [A] of the material *)
Variables (E A : rmat).
Hypothesis SE : symmetric 3 E.
Hypothesis HA : transformed msqrt m tag (Matrix33 E) = Some A.
Hypothesis CA : consistent m A.

Lemma A_affine : eq3 A (affine c (offset tag (m_tag m)) E).
Proof. destruct (transformed_matrix msqrt m tag c E HR) as (A' & H & K). rewrite HA in H. inversion H. exact K. Qed.
Lemma own_start x : eqv 6 x (strainVector 3 E) -> eq3 A (own x).
Proof.
  intros Hx. eapply eq3_trans; [exact A_affine|]. apply affine_ext, eq3_sym, tensorOf_strain; assumption.
Qed.
Lemma A_symmetric : symmetric 3 A.
Proof.
  destruct (start_some E) as (x & _ & Hx). assert (H := own_start x Hx). intros i j Hi Hj. rewrite !H by assumption. now apply own_symmetric.
Qed.

Lemma potential_shift H t : potential m (shift A H t) -> forall B, eq3 B (shift A H t) -> potential m B.
Proof. intros P B HB. eapply potential_ext; [|exact P]. now apply eq3_sym. Qed.

Lemma shift_ext A' B H t : eq3 A' B -> eq3 (shift A' H t) (shift B H t).
Proof. intros K i j Hi Hj. unfold shift. now rewrite K. Qed.

Lemma potential_A : potential m A.
Proof.
  destruct CA as (P & _). assert (Z : symmetric 3 (fun _ _ => 0)) by (intros ? ? _ _; reflexivity).
  assert (Q := locally_singleton _ _ (P _ Z)). cbv beta in Q. eapply potential_ext; [|exact Q]. intros i j _ _. unfold shift. ring.
Qed.

Lemma stress_A i x : eqv 6 x (strainVector 3 E) -> (i < 6)%nat -> stressVector 3 (m_stress m (own x)) i = stressVector 3 (m_stress m A) i.
Proof.
  intros Hx Hi. destruct (proj1 WF _ _ (own_start x Hx)) as (_ & HS). unfold stressVector. cases i; cbn; symmetry; apply HS; lia.
Qed.

(** Stresses from the energy *)
Lemma stress_rate v s : (v || s)%bool = true ->
  exists g, adStresses msqrt v s m tag E = Some g /\ eqv 6 g (fun i => c * stressVector 3 (m_stress m A) i).
Proof.
  intros F. unfold adStresses. rewrite F. cbn [negb]. unfold storedEnergy at 1. rewrite HA. cbn [option_map].
  destruct (start_some E) as (x & -> & Hx). eexists. split; [reflexivity|]. intros i Hi. cbv beta.
  assert (P : potential m (own x)) by (eapply potential_ext; [exact (own_start x Hx)|exact potential_A]).
  rewrite (gradient_value x i Hi P). rewrite (stress_A i x Hx Hi). field. apply WF.
Qed.

Lemma stress_derivative x i j : eqv 6 x (strainVector 3 E) -> (i < 6)%nat -> (j < 6)%nat ->
  is_derive (fun t => stressVector 3 (m_stress m (own (moved x j t))) i) 0 (c * voigtEntry (m_moduli m A) i j / m_factor m).
Proof.
  intros Hx Hi Hj.
  assert (HX : forall t, eq3 (own (moved x j t)) (shift A (fun k l => c * direction j k l) t)).
  { intros t. eapply eq3_trans; [apply affine_moved|]. apply shift_ext, eq3_sym, own_start, Hx. }
  assert (Q := apply4_direction c (m_moduli m A) i j (proj2 (proj2 CA)) Hi Hj).
  unfold stressVector in *. destruct (component 3 i) as (a, b) eqn:Ec.
  assert (Hab : (a < 3 /\ b < 3)%nat) by (cases i; inversion Ec; subst; lia). destruct Hab as (Ha & Hb).
  eapply is_derive_ext; [intros t; symmetry; apply (proj2 (proj1 WF _ _ (HX t)) a b Ha Hb)|].
  rewrite <- Q. apply (proj1 (proj2 CA)); [apply direction_symmetric|assumption|assumption].
Qed.

(** Moduli from the stresses *)
Lemma moduli_rate_vector : exists h, adTangentModuli msqrt true false m tag E = Some h /\
  forall i j, (i < 6)%nat -> (j < 6)%nat -> h i j = Some (c * voigtEntry (m_moduli m A) i j).
Proof.
  unfold adTangentModuli. cbn [negb orb andb]. unfold storedEnergy. rewrite HA. cbn [option_map].
  destruct (start_some E) as (x & -> & Hx). eexists. split; [reflexivity|]. intros i j Hi Hj. cbv beta. f_equal. unfold jacobian.
  rewrite (Derive_ext _ (fun t => stressVector 3 (m_stress m (own (moved x j t))) i)) by (intros; now apply stress_at).
  erewrite is_derive_unique by exact (stress_derivative x i j Hx Hi Hj). field. apply WF.
Qed.

(** Moduli from the energy *)
Lemma moduli_rate_scalar v : exists h, adTangentModuli msqrt v true m tag E = Some h /\
  forall i j, (i < 6)%nat -> (j < 6)%nat -> h i j = Some (c * c * voigtEntry (m_moduli m A) i j).
Proof.
  unfold adTangentModuli. rewrite orb_true_r, andb_false_r. cbn [negb]. unfold storedEnergy at 1. rewrite HA. cbn [option_map].
  destruct (start_some E) as (x & -> & Hx). eexists. split; [reflexivity|]. intros i j Hi Hj. cbv beta. f_equal. unfold hessian.
  assert (NF : m_factor m <> 0) by apply WF.
  assert (D : is_derive (fun t => gradient (fun y => orZero 0 (storedEnergy msqrt m tag (Vector6 y))) (moved x j t) i) 0
                (c * (c * voigtEntry (m_moduli m A) i j / m_factor m) / m_factor m)).
  { eapply (is_derive_ext_loc (fun t => scal (c / m_factor m) (stressVector 3 (m_stress m (own (moved x j t))) i))).
    - assert (L := proj1 CA (fun k l => c * direction j k l) (direction_symmetric c j)).
      eapply filter_imp; [|exact L]. intros t P. cbv beta.
      assert (PX : potential m (own (moved x j t))).
      { eapply potential_shift; [exact P|]. eapply eq3_trans; [apply affine_moved|]. apply shift_ext, eq3_sym, own_start, Hx. }
      rewrite (gradient_value (moved x j t) i Hi PX). unfold scal. cbn. unfold mult. cbn. field. exact NF.
    - replace (c * (c * voigtEntry (m_moduli m A) i j / m_factor m) / m_factor m)
        with (scal (c / m_factor m) (c * voigtEntry (m_moduli m A) i j / m_factor m)) by (unfold scal; cbn; unfold mult; cbn; field; exact NF).
      apply (is_derive_scal (fun t => stressVector 3 (m_stress m (own (moved x j t))) i) 0 (c / m_factor m)).
      apply stress_derivative; assumption. }
  erewrite is_derive_unique by exact D. field. exact NF.
Qed.

Lemma own_stresses : exists s, stresses msqrt m tag (Matrix33 E) = Some s /\ eqv 6 s (stressVector 3 (m_stress m A)).
Proof. unfold stresses. rewrite HA. exact (readToVoigt (m_stress m A) false). Qed.
Lemma own_moduli : exists h, tangentModuli msqrt m tag (Matrix33 E) = Some h /\
  forall i j, (i < 6)%nat -> (j < 6)%nat -> h i j = Some (voigtEntry (m_moduli m A) i j).
Proof.
  unfold tangentModuli. rewrite HA. eexists. split; [reflexivity|]. intros i j Hi Hj.
  rewrite C36_matrix; [|exact (proj2 (proj2 CA))|assumption|assumption]. reflexivity.
Qed.
End Results.

(** ** Claims *)

(** With automatic differentiation: stresses are c times, moduli c or c c times those of the material, where c is the rate of its own strain *)
Theorem C136_scaled : forall msqrt m tag c E A, wellFormed m -> symmetric 3 E -> rate tag (m_tag m) = Some c ->
  transformed msqrt m tag (Matrix33 E) = Some A -> consistent m A ->
  (exists s L, stresses msqrt m tag (Matrix33 E) = Some s /\ eqv 6 s (stressVector 3 (m_stress m A)) /\
     tangentModuli msqrt m tag (Matrix33 E) = Some L /\
     forall i j, (i < 6)%nat -> (j < 6)%nat -> L i j = Some (voigtEntry (m_moduli m A) i j)) /\
  (forall v s, (v || s)%bool = true ->
     exists g L, adStresses msqrt v s m tag E = Some g /\ adTangentModuli msqrt v s m tag E = Some L /\
       eqv 6 g (fun i => c * stressVector 3 (m_stress m A) i) /\
       forall i j, (i < 6)%nat -> (j < 6)%nat -> L i j = Some ((if s then c * c else c) * voigtEntry (m_moduli m A) i j)).
Proof.
  intros msqrt m tag c E A WF SE HR HA CA. split.
  - destruct (own_stresses msqrt m tag E A HA) as (s & Hs & Es). destruct (own_moduli msqrt m tag E A HA CA) as (L & HL & EL).
    exists s, L. auto.
  - intros v s F. destruct (stress_rate msqrt m WF tag c HR E A SE HA CA v s F) as (g & Hg & Eg). exists g. destruct s.
    + destruct (moduli_rate_scalar msqrt m WF tag c HR E A SE HA CA v) as (L & HL & EL). exists L. auto.
    + assert (v = true) as -> by (destruct v; [reflexivity|discriminate]).
      destruct (moduli_rate_vector msqrt m WF tag c HR E A SE HA CA) as (L & HL & EL). exists L. auto.
Qed.
Print Assumptions C136_scaled.

(** If strains are given in the measure of the material, automatic differentiation, forced or not, gives the stresses and moduli of the material *)
Theorem C136_partial : forall msqrt m E v s, wellFormed m -> symmetric 3 E ->
  m_tag m = greenLagrangian \/ m_tag m = rightCauchyGreenTensor -> consistent m E ->
  exists t g L K, stresses msqrt m (m_tag m) (Matrix33 E) = Some t /\ adStresses msqrt v s m (m_tag m) E = Some g /\
    tangentModuli msqrt m (m_tag m) (Matrix33 E) = Some L /\ adTangentModuli msqrt v s m (m_tag m) E = Some K /\
    eqv 6 g t /\ forall i j, (i < 6)%nat -> (j < 6)%nat -> K i j = L i j.
Proof.
  intros msqrt m E v s WF SE HT CE.
  assert (HR : rate (m_tag m) (m_tag m) = Some 1) by (destruct HT as [-> | ->]; reflexivity).
  assert (HA : transformed msqrt m (m_tag m) (Matrix33 E) = Some E) by (unfold transformed; destruct HT as [-> | ->]; reflexivity).
  destruct (C136_scaled msqrt m _ 1 E E WF SE HR HA CE) as ((t & L & Ht & Et & HL & EL) & Q).
  destruct (v || s)%bool eqn:F.
  - destruct (Q v s F) as (g & K & Hg & HK & Eg & EK). exists t, g, L, K. repeat split; auto.
    + intros i Hi. rewrite Eg, Et by assumption. ring.
    + intros i j Hi Hj. rewrite EK, EL by assumption. f_equal. destruct s; ring.
  - exists t, t, L, L. unfold adStresses, adTangentModuli. rewrite F. repeat split; auto.
Qed.
Print Assumptions C136_partial.

(** ** Materials of the library *)
(** svk.hh 53-55, with the functions of SVK_Model for 3x3 strains *)
Definition svk (lambda mu : R) : material := mkMaterial greenLagrangian 1
  (fun E => storedEnergyImpl lambda mu (Matrix33 E)) (fun E => stressesImplMatrix lambda mu (Matrix33 E))
  (fun _ => tangentModuliImplTensor lambda mu).
(** neohooke.hh 54-56, with the functions of NeoHooke_Model *)
Definition neoHooke (lambda mu : R) : material := mkMaterial rightCauchyGreenTensor 2
  (fun C => orZero 0 (nhEnergy lambda mu C)) (fun C => orZero (fun _ _ => 0) (nhStress lambda mu C))
  (fun C => orZero (fun _ _ _ _ => 0) (nhModuli lambda mu C)).

Lemma det3_ext A B : eq3 A B -> det3 A = det3 B.
Proof. intros H. unfold det3. rewrite !H by lia. reflexivity. Qed.
Lemma inv3_ext A B : eq3 A B -> eq3 (inv3 A) (inv3 B).
Proof. intros H i j Hi Hj. unfold inv3. rewrite (det3_ext A B H). cases i; cases j; cbn; rewrite ?H by lia; reflexivity. Qed.
Lemma neoHooke_wellFormed lambda mu : wellFormed (neoHooke lambda mu).
Proof.
  split; [|split; [|cbn; lra]].
  - intros A B H. assert (D := det3_ext A B H). assert (I := inv3_ext A B H). assert (T : trace A = trace B) by (unfold trace; cbn; rewrite !H by lia; reflexivity).
    split; cbn.
    + unfold nhEnergy. now rewrite D, T.
    + intros i j Hi Hj. unfold nhStress. rewrite D. unfold checkPositive. destruct (Rle_dec _ _); cbn; rewrite ?I by assumption; reflexivity.
  - intros A SA i j Hi Hj. cbn. unfold nhStress, checkPositive. assert (SI := inv3_sym A SA i j Hi Hj).
    destruct (Rle_dec _ _); cbn; [reflexivity|]. rewrite SI. unfold kron. now rewrite Nat.eqb_sym.
Qed.
Lemma shift_sym A H t : symmetric 3 A -> symmetric 3 H -> symmetric 3 (shift A H t).
Proof. intros SA SH i j Hi Hj. unfold shift. now rewrite (SA i j), (SH i j) by assumption. Qed.
Lemma neoHooke_potential lambda mu C : symmetric 3 C -> 0 < det3 C -> potential (neoHooke lambda mu) C.
Proof.
  intros SC P H SH. destruct (C45_derivatives lambda mu C H SC SH P) as (s & L & e & st & Hs & HL & Loc & De & Dst).
  cbn. rewrite Hs. cbn. eapply is_derive_ext_loc; [|exact De]. eapply filter_imp; [|exact Loc]. intros t (-> & _). reflexivity.
Qed.
Lemma det3_shift_positive C H : 0 < det3 C -> locally 0 (fun t => 0 < det3 (shift C H t)).
Proof.
  intros P. assert (Cn : continuous (fun t : R => det3 (shift C H t)) 0).
  { apply (ex_derive_continuous (fun t : R => det3 (shift C H t))). unfold det3, shift. auto_derive. exact I. }
  assert (E0 : det3 (shift C H 0) = det3 C) by (unfold det3, shift; ring).
  apply (Cn (fun y => 0 < y)). rewrite E0. apply (open_gt 0). exact P.
Qed.
Lemma neoHooke_consistent lambda mu C : symmetric 3 C -> 0 < det3 C -> consistent (neoHooke lambda mu) C.
Proof.
  intros SC P. split; [|split].
  - intros H SH. eapply filter_imp; [|exact (det3_shift_positive C H P)]. intros t Q. apply neoHooke_potential; [now apply shift_sym|exact Q].
  - intros H i j SH Hi Hj. destruct (C45_derivatives lambda mu C H SC SH P) as (s & L & e & st & Hs & HL & Loc & De & Dst).
    cbn. rewrite HL. cbn. eapply is_derive_ext_loc; [|exact (Dst i j Hi Hj)]. eapply filter_imp; [|exact Loc]. intros t (_ & ->). reflexivity.
  - destruct (C45_symmetry lambda mu C SC P) as (s & L & _ & HL & _ & M & _). cbn. rewrite HL. exact M.
Qed.

Lemma svk_wellFormed lambda mu : wellFormed (svk lambda mu).
Proof.
  split; [|split; [|cbn; lra]].
  - intros A B H. split; cbn.
    + unfold trace, squaredNorm. cbn. rewrite !H by lia. reflexivity.
    + intros i j Hi Hj. unfold trace. cbn. now rewrite !H by lia.
  - intros A SA i j Hi Hj. cbn. rewrite (SA i j) by assumption. unfold kron. now rewrite Nat.eqb_sym.
Qed.
Lemma svk_consistent lambda mu E : symmetric 3 E -> consistent (svk lambda mu) E.
Proof.
  intros SE. split; [|split].
  - intros H SH. apply filter_forall. intros t K SK. destruct (C42_derivatives lambda mu (shift E H t) K SK) as (D & _).
    cbn [m_energy m_stress m_factor svk]. rewrite Rdiv_1. exact D.
  - intros H i j SH Hi Hj. destruct (C42_derivatives lambda mu E H SH) as (_ & D). cbn [m_moduli m_stress m_factor svk]. rewrite Rdiv_1. now apply D.
  - intros i j k l Hi Hj Hk Hl. destruct (C42_implementations lambda mu E SE) as (_ & _ & _ & _ & _ & M & _). exact (M i j k l Hi Hj Hk Hl).
Qed.

(** Green-Lagrange strains given to Neo-Hooke (whose own measure is the right Cauchy-Green tensor): stresses are doubled *)
Definition stretched : rmat := fun i j => match i, j with O, O => 1 / 2 | _, _ => 0 end.
Theorem C136_refuted : exists m E A,
  wellFormed m /\ symmetric 3 E /\ consistent m A /\
  forall msqrt, transformed msqrt m greenLagrangian (Matrix33 E) = Some A /\
  exists s g, stresses msqrt m greenLagrangian (Matrix33 E) = Some s /\ adStresses msqrt false true m greenLagrangian E = Some g /\
    s 0%nat = 1 / 2 /\ g 0%nat = 1.
Proof.
  assert (SE : symmetric 3 stretched) by (intros i j Hi Hj; cases i; cases j; reflexivity).
  set (A := madd (mscale 2 stretched) kron).
  assert (DA : det3 A = 2) by (unfold det3, A, madd, mscale, kron, stretched; cbn; field).
  assert (SA : symmetric 3 A) by (intros i j Hi Hj; unfold A, madd, mscale, kron, stretched; cases i; cases j; reflexivity).
  assert (CA : consistent (neoHooke 0 1) A) by (apply neoHooke_consistent; [exact SA|rewrite DA; lra]).
  exists (neoHooke 0 1), stretched, A. split; [apply neoHooke_wellFormed|]. split; [exact SE|]. split; [exact CA|]. intros msqrt. split; [reflexivity|].
  destruct (C136_scaled msqrt (neoHooke 0 1) greenLagrangian 2 stretched A (neoHooke_wellFormed 0 1) SE eq_refl eq_refl CA) as ((s & L & Hs & Es & _) & Q).
  destruct (Q false true eq_refl) as (g & K & Hg & _ & Eg & _). exists s, g. split; [exact Hs|]. split; [exact Hg|].
  assert (V : stressVector 3 (m_stress (neoHooke 0 1) A) 0%nat = 1 / 2).
  { unfold stressVector. cbn. unfold nhStress. rewrite DA. unfold checkPositive. destruct (Rle_dec 2 0); [lra|]. cbn. unfold inv3. rewrite DA.
    cbn. unfold A, madd, mscale, kron, stretched. cbn. field. }
  rewrite Es, Eg, V by lia. split; [reflexivity|field].
Qed.
Print Assumptions C136_refuted.

(** Moduli of St. Venant-Kirchhoff for right Cauchy-Green strains: half with derivatives of the stresses, a quarter with those of the energy *)
Example moduli_shrink : forall msqrt, exists L K,
  adTangentModuli msqrt true false (svk 0 1) rightCauchyGreenTensor kron = Some L /\ L 0%nat 0%nat = Some 1 /\
  adTangentModuli msqrt false true (svk 0 1) rightCauchyGreenTensor kron = Some K /\ K 0%nat 0%nat = Some (1 / 2) /\
  tangentModuliImplVoigt 0 1 0%nat 0%nat = 2.
Proof.
  intros msqrt.
  assert (SE : symmetric 3 kron) by (intros i j Hi Hj; cases i; cases j; reflexivity).
  assert (SA : symmetric 3 (mscale (1 / 2) (msub kron kron))) by (intros i j Hi Hj; cases i; cases j; reflexivity).
  destruct (C136_scaled msqrt (svk 0 1) rightCauchyGreenTensor (1 / 2) kron _ (svk_wellFormed 0 1) SE eq_refl eq_refl (svk_consistent 0 1 _ SA)) as (_ & Q).
  destruct (Q true false eq_refl) as (_ & L & _ & HL & _ & EL). destruct (Q false true eq_refl) as (_ & K & _ & HK & _ & EK).
  exists L, K. split; [exact HL|]. split; [|split; [exact HK|split]].
  - rewrite EL by lia. f_equal. unfold voigtEntry. cbn. unfold tangentModuliImplTensor, symmetricIdentityFourthOrder. cbn. unfold kron. cbn. field.
  - rewrite EK by lia. f_equal. unfold voigtEntry. cbn. unfold tangentModuliImplTensor, symmetricIdentityFourthOrder. cbn. unfold kron. cbn. field.
  - cbn. field.
Qed.
