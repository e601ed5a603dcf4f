(** Properties C85 to C87: hyperelastic materials as functions of the right Cauchy-Green tensor. *)

From Coq Require Import Reals List ZArith Bool Lia Lra FunctionalExtensionality.
From Coquelicot Require Import Coquelicot.
From Verif Require Import Tensor_Model Tensor_Spec Tensor_Props SVK_Spec Conversions_Spec Conversions_Props NeoHooke_Model NeoHooke_Props
  Volumetric_Model Volumetric_Props Deviatoric_Model Deviatoric_Spec Deviatoric_Proofs Deviatoric_Props
  Hyperelastic_Model Hyperelastic_Spec Spectral_Proofs Stretches_Proofs Hyperelastic_Proofs HyperelasticIsotropy_Proofs SpectralExistence_Proofs.
Import ListNotations.
Local Open Scope R_scope.

(** ** What a returned energy tells *)
Lemma energy_returns eig m C w : solvesSymmetric eig -> symmetric 3 C -> storedEnergy eig m C = Returns w ->
  0 < prod3 (lam eig C C 0) /\ energyImpl (dev m) (lam eig C C 0) <> Throws.
Proof.
  intros He SC E. unfold storedEnergy in E. assert (P := stretches_at eig He C C 0 SC SC). rewrite shift_0 in P. rewrite P in E. cbn [bind] in E.
  unfold detF in E. destruct (Rle_dec (prod3 (lam eig C C 0)) 0) as [|N]; [discriminate|]. cbn [bind] in E. split; [lra|].
  intros T. unfold devEnergy in E. rewrite T in E. discriminate.
Qed.

Lemma lam_at0 eig C H : lam eig C H 0 = lam eig C C 0.
Proof. unfold lam, values. now rewrite !shift_0. Qed.
Lemma vectors_at0 eig C H : vectors eig C H 0 = vectors eig C C 0.
Proof. unfold vectors. now rewrite !shift_0. Qed.

(** C86: the second Piola-Kirchhoff stresses are twice the derivative of the stored energy with respect to C *)
Theorem C86_stress eig m C H w0 :
  solvesSymmetric eig -> symmetric 3 C -> symmetric 3 H -> validExponents (dev m) -> admissible (vol m) ->
  storedEnergy eig m C = Returns w0 ->
  exists w S, stresses eig m C = Returns S /\
    locally 0 (fun t => storedEnergy eig m (shift C H t) = Returns (w t)) /\ w 0 = w0 /\
    is_derive w 0 (1 / 2 * contract 3 S H).
Proof.
  intros He SC SH V Adm E. destruct (energy_returns eig m C w0 He SC E) as [PJ T]. rewrite <- (lam_at0 eig C H) in PJ, T.
  destruct (deviatoric_energy_derive eig He m C H SC SH PJ V T) as (s & Es & Ds).
  assert (Dv := volumetric_energy_derive eig He m C H SC SH PJ Adm).
  assert (S0 := stretches_at eig He C H 0 SC SH). rewrite shift_0 in S0.
  assert (F0 := detF_returns eig C H 0 PJ).
  exists (fun t => valueOf 0 (devEnergy (dev m) (lam eig C H t)) + volEnergy (bulk m) (vol m) (prod3 (lam eig C H t))).
  eexists. split.
  { unfold stresses. rewrite S0. cbn [bind]. rewrite F0. cbn [bind]. rewrite Es. cbn [ofOutcome bind]. reflexivity. }
  assert (L : locally 0 (fun t => storedEnergy eig m (shift C H t) =
    Returns (valueOf 0 (devEnergy (dev m) (lam eig C H t)) + volEnergy (bulk m) (vol m) (prod3 (lam eig C H t))))).
  { assert (Q1 := prod_locally eig He C H SC SH PJ). assert (Q2 := throws_locally eig He m C H SC SH PJ T). assert (Q3 := b_positive eig He C H SC SH PJ).
    generalize (filter_and _ _ Q1 (filter_and _ _ Q2 Q3)). apply filter_imp. intros t (P & Tt & B).
    unfold storedEnergy. rewrite (stretches_at eig He C H t SC SH). cbn [bind]. rewrite (detF_returns eig C H t P). cbn [bind].
    assert (Pl : positiveStretches (lam eig C H t)) by (unfold positiveStretches, lam; repeat split; apply sqrt_lt_R0, B; lia).
    destruct (C51_stresses (dev m) _ Pl V Tt) as (w & s' & Ew & _). rewrite Ew. reflexivity. }
  split; [exact L|]. split.
  { assert (L0 := locally_singleton _ _ L). cbn beta in L0. rewrite shift_0, E in L0. now injection L0. }
  assert (D : is_derive (fun t => valueOf 0 (devEnergy (dev m) (lam eig C H t)) + volEnergy (bulk m) (vol m) (sqrt (det3 (shift C H t)))) 0
    (contract 3 (transformDeviatoricStresses s (vectors eig C H 0)) H / 2 +
     contract 3 (transformVolumetricStresses (volFirst (bulk m) (vol m) (prod3 (lam eig C H 0))) C (prod3 (lam eig C H 0))) H / 2)).
  { apply (is_derive_plus (fun t => valueOf 0 (devEnergy (dev m) (lam eig C H t))) (fun t => volEnergy (bulk m) (vol m) (sqrt (det3 (shift C H t))))); assumption. }
  apply (is_derive_ext_loc (fun t => valueOf 0 (devEnergy (dev m) (lam eig C H t)) + volEnergy (bulk m) (vol m) (sqrt (det3 (shift C H t))))).
  { generalize (J_det eig He C H SC SH PJ). apply filter_imp. intros t ->. reflexivity. }
  eapply derive_at; [|exact D]. unfold contract. rewrite !sum_3. field.
Qed.
Print Assumptions C86_stress.

(** ** The moduli *)
(** Eigenvalues of C are equal or their roots differ by more than the tolerance of the code *)
Definition distinguishable (e : nat -> R) : Prop :=
  forall i k, (i < 3)%nat -> (k < 3)%nat -> e i = e k \/ floatEq (1 / 10 ^ 8) (sqrt (e i)) (sqrt (e k)) = false.

(** C87: the moduli are twice the derivative of the stresses with respect to C *)
Theorem C87_moduli_partial eig m C H w0 e N :
  solvesSymmetric eig -> symmetric 3 C -> symmetric 3 H -> validExponents (dev m) -> fewTerms (dev m) -> admissible (vol m) ->
  storedEnergy eig m C = Returns w0 -> eig C = Some (e, N) -> distinguishable e ->
  exists S L, tangentModuli eig m C = Returns L /\
    locally 0 (fun t => stresses eig m (shift C H t) = Returns (S t)) /\
    forall p q, (p < 3)%nat -> (q < 3)%nat -> is_derive (fun t => S t p q) 0 (1 / 2 * apply4 3 L H p q).
Proof.
  intros He SC SH V F Adm E Ee Sep. destruct (energy_returns eig m C w0 He SC E) as [PJ T]. rewrite <- (lam_at0 eig C H) in PJ, T.
  assert (S0 := stretches_at eig He C H 0 SC SH). rewrite shift_0 in S0.
  assert (F0 := detF_returns eig C H 0 PJ).
  assert (Pl := l_positive eig C H PJ).
  destruct (C51_derivatives (dev m) _ Pl V F T) as (w & s & L & _ & _ & TL & _).
  exists (fun t p q => transformDeviatoricStresses (stretchStress eig m C H t) (vectors eig C H t) p q +
     transformVolumetricStresses (volFirst (bulk m) (vol m) (prod3 (lam eig C H t))) (shift C H t) (prod3 (lam eig C H t)) p q).
  eexists. split.
  { unfold tangentModuli. rewrite S0. cbn [bind]. rewrite F0. cbn [bind]. rewrite TL. cbn [ofOutcome bind]. reflexivity. }
  split.
  { assert (Q1 := prod_locally eig He C H SC SH PJ). assert (Q2 := throws_locally eig He m C H SC SH PJ T). assert (Q3 := b_positive eig He C H SC SH PJ).
    generalize (filter_and _ _ Q1 (filter_and _ _ Q2 Q3)). apply filter_imp. intros t (P & Tt & B).
    unfold stresses. rewrite (stretches_at eig He C H t SC SH). cbn [bind]. rewrite (detF_returns eig C H t P). cbn [bind].
    assert (Pt : positiveStretches (lam eig C H t)) by (unfold positiveStretches, lam; repeat split; apply sqrt_lt_R0, B; lia).
    destruct (C51_stresses (dev m) _ Pt V Tt) as (w' & s' & _ & Es & _). unfold stretchStress. rewrite Es. reflexivity. }
  intros p q Hp Hq.
  assert (Sp : separated eig C H).
  { intros i k Hi Hk. assert (K : forall j, (j < 3)%nat -> values eig C H 0 j = e j).
    { intros j Hj. unfold values. rewrite shift_0, Ee. unfold vector3. apply Nat.ltb_lt in Hj. now rewrite Hj. }
    unfold lam. rewrite (K i Hi), (K k Hk). now apply Sep. }
  assert (Dd := deviatoric_stress_derive eig He m C H SC SH PJ L p q V T F TL Sp Hp Hq).
  assert (Dv := volumetric_stress_derive eig He m C H SC SH PJ p q Adm Hp Hq).
  assert (D := is_derive_plus _ _ _ _ _ Dd Dv). cbn beta in D.
  apply (is_derive_ext_loc (fun t => plus (transformDeviatoricStresses (stretchStress eig m C H t) (vectors eig C H t) p q)
     (transformVolumetricStresses (volFirst (bulk m) (vol m) (sqrt (det3 (shift C H t)))) (shift C H t) (sqrt (det3 (shift C H t))) p q))).
  { generalize (J_det eig He C H SC SH PJ). apply filter_imp. intros t ->. reflexivity. }
  eapply derive_at; [|exact D]. unfold plus; simpl. unfold apply4. rewrite !sum_3. field.
Qed.
Print Assumptions C87_moduli_partial.

(** Without the restriction the moduli are not the derivative of the stresses: two stretches that differ by less than the tolerance *)
Definition nearTensor (i j : nat) : R := if Nat.eqb i j then match i with 0%nat => 1 | 1%nat => (1 + 1 / 10 ^ 9) ^ 2 | _ => 4 end else 0.
Definition nearMaterial : hyperelastic := {| dev := BlatzKo 1; bulk := 0; vol := VF0 |}.
Definition shearDirection (i j : nat) : R := match i, j with 0%nat, 1%nat => 1 | 1%nat, 0%nat => 1 | _, _ => 0 end.

Lemma near_symmetric : symmetric 3 nearTensor.
Proof. intros i j Hi Hj. unfold nearTensor. cases i; cases j; reflexivity. Qed.
Lemma shear_symmetric : symmetric 3 shearDirection.
Proof. intros i j Hi Hj. unfold shearDirection. cases i; cases j; reflexivity. Qed.

Definition nearValues (i : nat) : R := nearTensor i i.
Lemma near_decomposition : decomposition nearTensor nearValues identity.
Proof.
  split; [unfold nearValues, nearTensor; cbn; lra|]. split.
  - split; intros i j Hi Hj; unfold mul, transpose, identity; cases i; cases j; cbn; ring.
  - intros i j Hi Hj. unfold nearValues, nearTensor, identity. cases i; cases j; cbn; ring.
Qed.

Theorem C87_moduli_refuted eig : solvesSymmetric eig ->
  exists m C H w0 L, symmetric 3 C /\ symmetric 3 H /\ validExponents (dev m) /\ fewTerms (dev m) /\ admissible (vol m) /\
    storedEnergy eig m C = Returns w0 /\ tangentModuli eig m C = Returns L /\
    ~ exists S, locally 0 (fun t => stresses eig m (shift C H t) = Returns (S t)) /\
      forall p q, (p < 3)%nat -> (q < 3)%nat -> is_derive (fun t => S t p q) 0 (1 / 2 * apply4 3 L H p q).
Proof.
  intros He. set (C := nearTensor). set (H := shearDirection).
  assert (SC := near_symmetric : symmetric 3 C). assert (SH := shear_symmetric : symmetric 3 H).
  assert (D := at0 eig He C H SC SH). assert (D0 := near_decomposition).
  set (N := vectors eig C H 0) in *. set (l := lam eig C H 0).
  assert (Ev : forall i, (i < 3)%nat -> values eig C H 0 i = nearValues i) by (intros i Hi; symmetry; now apply (same_values C nearValues identity _ N D0 D)).
  assert (S1 : forall x, 0 <= x -> sqrt (x ^ 2) = x) by (intros x Px; now apply sqrt_pow2).
  assert (l0 : l 0%nat = 1) by (unfold l, lam; rewrite Ev by lia; unfold nearValues, nearTensor; cbn; apply sqrt_1).
  assert (l1 : l 1%nat = 1 + 1 / 10 ^ 9) by (unfold l, lam; rewrite Ev by lia; unfold nearValues, nearTensor; cbn [Nat.eqb]; apply S1; lra).
  assert (l2 : l 2%nat = 2) by (unfold l, lam; rewrite Ev by lia; unfold nearValues, nearTensor; cbn [Nat.eqb]; replace 4 with (2 ^ 2) by ring; apply S1; lra).
  assert (PJ : 0 < prod3 (lam eig C H 0)) by (fold l; unfold prod3; rewrite l0, l1, l2; lra).
  assert (S0 := stretches_at eig He C H 0 SC SH). rewrite shift_0 in S0. fold l N in S0.
  assert (F0 := detF_returns eig C H 0 PJ). fold l in F0.
  destruct (devTangent (BlatzKo 1) l) as [L| |] eqn:TL; [|discriminate|discriminate].
  set (moduli := fun p q r s => transformDeviatoricTangentModuli L N p q r s + transformVolumetricTangentModuli (volFirst 0 VF0 (prod3 l)) (volSecond 0 VF0 (prod3 l)) C (prod3 l) p q r s).
  exists nearMaterial, C, H, (blatzKoEnergy 1 l + volEnergy 0 VF0 (prod3 l)), moduli.
  split; [exact SC|]. split; [exact SH|]. split; [exact I|]. split; [exact I|]. split; [exact I|].
  split. { unfold storedEnergy. rewrite S0. cbn [bind]. rewrite F0. reflexivity. }
  split. { unfold tangentModuli. rewrite S0. cbn [bind]. rewrite F0. cbn [bind nearMaterial dev]. rewrite TL. reflexivity. }
  intros (S & LS & Der).
  (* the stresses are symmetric *)
  assert (Sym : locally 0 (fun t => S t 0%nat 1%nat = S t 1%nat 0%nat)).
  { generalize LS. apply filter_imp. intros t E. unfold stresses in E. rewrite (stretches_at eig He C H t SC SH) in E. cbn [bind] in E.
    destruct (detF (lam eig C H t)); try discriminate. cbn [bind] in E. destruct (ofOutcome (devStresses (dev nearMaterial) (lam eig C H t))); try discriminate.
    cbn [bind] in E. injection E as <-. unfold transformDeviatoricStresses, transformVolumetricStresses.
    rewrite (inv3_sym _ (shift_symmetric C H t SC SH) 0%nat 1%nat) by lia. ring. }
  assert (D1 := Der 0%nat 1%nat ltac:(lia) ltac:(lia)). assert (D2 := Der 1%nat 0%nat ltac:(lia) ltac:(lia)).
  assert (E : 1 / 2 * apply4 3 moduli H 0 1 = 1 / 2 * apply4 3 moduli H 1 0).
  { apply (is_derive_ext_loc _ (fun t => S t 1%nat 0%nat)) in D1; [|exact Sym].
    rewrite <- (is_derive_unique _ _ _ D1). exact (is_derive_unique _ _ _ D2). }
  (* the eigenvectors are the unit vectors up to sign *)
  assert (Off : forall i j, (i < 3)%nat -> (j < 3)%nat -> i <> j -> N i j = 0).
  { intros i j Hi Hj Nij. assert (O := other_space C nearValues identity _ N D0 D i j Hi Hj).
    transitivity (overlap identity N i j); [unfold overlap, identity; cases i; cbn; ring|]. apply O.
    unfold nearValues, nearTensor. cases i; cases j; cbn [Nat.eqb]; try lra; try (exfalso; now apply Nij). }
  assert (One : forall i, (i < 3)%nat -> N i i * N i i = 1).
  { intros i Hi. destruct D as (_ & [_ O] & _). assert (Q := O i i Hi Hi). unfold mul, transpose, identity in Q. rewrite Nat.eqb_refl in Q. cbn [sum] in Q.
    cases i; rewrite ?(Off 0%nat 1%nat), ?(Off 0%nat 2%nat), ?(Off 1%nat 0%nat), ?(Off 1%nat 2%nat), ?(Off 2%nat 0%nat), ?(Off 2%nat 1%nat) in Q by lia; lra. }
  assert (M : forall p q, (p < 3)%nat -> (q < 3)%nat -> apply4 3 moduli H p q = apply4 3 (transformDeviatoricTangentModuli L N) H p q).
  { intros p q Hp Hq. unfold apply4. apply sum_ext. intros x Hx. apply sum_ext. intros y Hy. f_equal. unfold moduli, transformVolumetricTangentModuli, volFirst, volSecond. ring. }
  rewrite !M, !(moduli_apply eig C H SH) in E by lia. fold N in E.
  assert (A : forall p q, (p < 3)%nat -> (q < 3)%nat -> p <> q -> sum 3 (fun i => sum 3 (fun k => N p i *
    ((if Nat.eqb i k then sum 3 (fun j => L i i j j * inBases N H N j j) else 0) + (if Nat.eqb i k then 0 else 2 * L i k i k * inBases N H N i k)) * N q k)) =
    2 * L p q p q * H p q).
  { intros p q Hp Hq Npq.
    transitivity (N p p * (2 * L p q p q * inBases N H N p q) * N q q).
    - rewrite (sum_pick 3 p); auto.
      + rewrite (sum_pick 3 q); auto.
        * replace (Nat.eqb p q) with false by (symmetry; now apply Nat.eqb_neq). ring.
        * intros k Hk Nk. rewrite (Off q k) by auto. ring.
      + intros i Hi Ni. rewrite (Off p i) by auto. cbn [sum]. ring.
    - assert (B : inBases N H N p q = N p p * H p q * N q q).
      { unfold inBases. rewrite (sum_pick 3 p); auto.
        - rewrite (sum_pick 3 q); auto. intros k Hk Nk. rewrite (Off k q) by auto. ring.
        - intros k Hk Nk. rewrite (Off k p) by auto. cbn [sum]. ring. }
      rewrite B. transitivity (2 * L p q p q * H p q * (N p p * N p p) * (N q q * N q q)); [ring|]. rewrite !One by auto. ring. }
  rewrite !A in E by lia. unfold H, shearDirection in E.
  assert (K : L 0%nat 1%nat 0%nat 1%nat = L 1%nat 0%nat 1%nat 0%nat) by lra.
  destruct (tangent_parts _ _ _ TL) as (s & Hs & _ & Se & Q & Sh). cbn [secondImpl] in Se. injection Se as <-.
  rewrite (Sh 0%nat 1%nat), (Sh 1%nat 0%nat) in K by lia. rewrite !Q, l0, l1 in K.
  assert (Fe : floatEq (1 / 10 ^ 8) 1 (1 + 1 / 10 ^ 9) = true).
  { unfold floatEq, rleb. destruct Rle_dec as [|Nn]; [reflexivity|exfalso; apply Nn].
    rewrite Rabs_minus_sym, (Rabs_pos_eq (_ - 1)) by lra. rewrite !Rabs_pos_eq, Rmax_right; lra. }
  assert (Fe' : floatEq (1 / 10 ^ 8) (1 + 1 / 10 ^ 9) 1 = true) by (rewrite <- Fe; unfold floatEq; now rewrite Rabs_minus_sym, Rmax_comm).
  rewrite Fe, Fe' in K. unfold blatzKoSecond, prod3 in K. cbn [Nat.eqb] in K. rewrite l0, l1, l2 in K.
  field_simplify in K. lra.
Qed.
Print Assumptions C87_moduli_refuted.

(** ** Isotropy *)
(** Both calls return related values or fail in the same way *)
Definition agree {A} (rel : A -> A -> Prop) (r1 r2 : result A) : Prop :=
  match r1, r2 with
  | Returns x, Returns y => rel x y
  | Raises, Raises => True
  | Aborts, Aborts => True
  | Undefined, Undefined => True
  | _, _ => False
  end.

Definition eq4 (T U : rtensor4) : Prop := forall p q r s, (p < 3)%nat -> (q < 3)%nat -> (r < 3)%nat -> (s < 3)%nat -> T p q r s = U p q r s.

Lemma parts_respect eig m C L : devTangent (dev m) (lam eig C C 0) = Value L ->
  respects (values eig C C 0) (normalPart L (cpart eig C C L)) /\ respects (values eig C C 0) (shearPart L (cpart eig C C L)).
Proof.
  intros TL.
  assert (Nd : forall i k, normalPart L (cpart eig C C L) i k = 2 * dpart eig C C L i k).
  { intros i k. unfold normalPart. destruct (Nat.eqb_spec i k) as [<-|Nik].
    - unfold cpart. field.
    - unfold dpart. apply Nat.eqb_neq in Nik. rewrite Nik. field. }
  split.
  - intros i j k n Hi Hj Hk Hn Eij Ekn. rewrite !Nd. f_equal. now apply (dpart_equal eig m C C L).
  - assert (V : forall i k, i <> k -> (i < 3)%nat -> (k < 3)%nat -> values eig C C 0 i = values eig C C 0 k -> L i k i k = cpart eig C C L i).
    { intros i k Nik Hi Hk E. destruct (tangent_parts _ _ _ TL) as (s & Hs & _ & _ & _ & Sh). rewrite (Sh i k Nik).
      rewrite (values_equal eig C C i k E), floatEq_refl. unfold cpart, dpart. rewrite Nat.eqb_refl.
      destruct (partner eig C C i) as [p|] eqn:Pi.
      - apply partner_some in Pi as (Np & Ep & Hp). rewrite (normal_values eig m C C L i p i k TL) by (auto; congruence). field.
      - exfalso. apply (partner_none eig C C i k Pi Hk); auto. }
    intros i j k n Hi Hj Hk Hn Eij Ekn. unfold shearPart.
    destruct (Nat.eqb_spec i k) as [<-|Nik]; destruct (Nat.eqb_spec j n) as [<-|Njn].
    + now apply (cpart_equal eig m C C L).
    + rewrite (V j n Njn Hj Hn) by congruence. now apply (cpart_equal eig m C C L).
    + rewrite (V i k Nik Hi Hk) by congruence. now apply (cpart_equal eig m C C L).
    + destruct (tangent_parts _ _ _ TL) as (s & Hs & Fs & _ & _ & Sh). rewrite (Sh i k Nik), (Sh j n Njn).
      rewrite (normal_equal eig m C C L i j TL Eij), (normal_values eig m C C L i k j n TL Nik Njn Eij Ekn).
      rewrite (first_equal _ _ i j s (values_equal eig C C i j Eij) Fs), (first_equal _ _ k n s (values_equal eig C C k n Ekn) Fs).
      now rewrite (values_equal eig C C i j Eij), (values_equal eig C C k n Ekn).
Qed.

(** C85: rotating C leaves the energy and rotates the stresses and the moduli, whatever eigenvectors the solver delivers.
    With Q the identity: the results do not depend on the choice of the eigenvectors. *)
Theorem C85_isotropy eig eig' m C Q :
  solvesSymmetric eig -> solvesSymmetric eig' -> symmetric 3 C -> orthogonalMatrix Q ->
  storedEnergy eig' m (rotated Q C) = storedEnergy eig m C /\
  agree (fun S' S => eqm 3 S' (rotated Q S)) (stresses eig' m (rotated Q C)) (stresses eig m C) /\
  agree (fun L' L => eq4 L' (rotated4 Q L)) (tangentModuli eig' m (rotated Q C)) (tangentModuli eig m C).
Proof.
  intros He He' SC OQ. set (C' := rotated Q C). assert (SC' : symmetric 3 C') by now apply rotated_symmetric.
  assert (S0 := stretches_at eig He C C 0 SC SC). rewrite shift_0 in S0.
  assert (S0' := stretches_at eig' He' C' C' 0 SC' SC'). rewrite shift_0 in S0'.
  assert (D := at0 eig He C C SC SC). assert (D' := at0 eig' He' C' C' SC' SC').
  assert (DR := rotated_decomposition Q C _ _ OQ D). fold C' in DR.
  assert (Ev : values eig' C' C' 0 = values eig C C 0).
  { apply functional_extensionality. intros i. destruct (Nat.ltb_spec i 3) as [Hi|Hi].
    - symmetry. exact (same_values C' _ _ _ _ DR D' i Hi).
    - unfold values. rewrite !shift_0. destruct (He C SC) as (e & N & -> & _). destruct (He' C' SC') as (e' & N' & -> & _).
      unfold vector3. apply Nat.ltb_ge in Hi. now rewrite Hi. }
  assert (El : lam eig' C' C' 0 = lam eig C C 0) by (unfold lam; now rewrite Ev).
  rewrite El in S0'. set (l := lam eig C C 0) in *. set (N := vectors eig C C 0) in *. set (N' := vectors eig' C' C' 0) in *. rewrite Ev in D'.
  unfold storedEnergy, stresses, tangentModuli. rewrite S0, S0'. cbn [bind].
  split; [reflexivity|].
  unfold detF. destruct (Rle_dec (prod3 l) 0) as [|PJ]; [split; exact I|]. cbn [bind].
  assert (PJ' : 0 < prod3 (lam eig C C 0)) by (fold l; lra).
  assert (Dn : det3 C <> 0) by (apply Rgt_not_eq, (det_positive eig He C C SC SC PJ')).
  assert (Ri := rotated_inverse Q C OQ Dn). fold C' in Ri.
  split.
  - destruct (devStresses (dev m) l) as [s| |] eqn:Es; cbn [ofOutcome bind agree]; auto.
    intros p q Hp Hq.
    assert (Ss : forall i j, (i < 3)%nat -> (j < 3)%nat -> values eig C C 0 i = values eig C C 0 j -> s i = s j).
    { intros i j _ _ E. destruct (stresses_first _ _ _ Es) as (d & Ed & Ds). rewrite !Ds.
      rewrite (first_equal _ _ i j d (values_equal eig C C i j E) Ed). unfold l. now rewrite (values_equal eig C C i j E). }
    rewrite (stresses_choice C' _ _ _ N' DR D' s p q Ss Hp Hq), stresses_rotated.
    unfold transformVolumetricStresses. rewrite (Ri p q Hp Hq).
    unfold rotated. rewrite !sum_3. ring.
  - destruct (devTangent (dev m) l) as [L| |] eqn:TL; cbn [ofOutcome bind agree]; auto.
    intros p q r s Hp Hq Hr Hs. destruct (parts_respect eig m C L TL) as [R1 R2].
    rewrite (moduli_choice C' _ _ _ N' DR D' L _ p q r s R1 R2 Hp Hq Hr Hs), moduli_rotated.
    unfold C'. rewrite volumetric_rotated by assumption. now rewrite rotated4_add.
Qed.
Print Assumptions C85_isotropy.

(** ** Non-trivial cases *)
(** The contract for the solver can be met *)
Example C85_solver : solvesSymmetric exactSolver.
Proof. exact exactSolver_solves. Qed.

(** A material and a tensor with a repeated eigenvalue for which energy, stresses and moduli are defined *)
Definition sampleMaterial : hyperelastic := {| dev := OgdenDeviatoric [(3, 2); (-1, -2)]; bulk := 5; vol := VF3 |}.
Definition sampleTensor (i j : nat) : R := match i, j with 0%nat, 0%nat => 2 | 1%nat, 1%nat => 2 | 0%nat, 1%nat => 1 | 1%nat, 0%nat => 1 | 2%nat, 2%nat => 3 | _, _ => 0 end.

Lemma sample_symmetric : symmetric 3 sampleTensor.
Proof. intros i j Hi Hj. unfold sampleTensor. cases i; cases j; reflexivity. Qed.

Definition sampleBasis (i j : nat) : R :=
  match i, j with 0%nat, 0%nat => / sqrt 2 | 1%nat, 0%nat => - / sqrt 2 | 0%nat, 1%nat => / sqrt 2 | 1%nat, 1%nat => / sqrt 2 | 2%nat, 2%nat => 1 | _, _ => 0 end.
Definition sampleValues (i : nat) : R := match i with 0%nat => 1 | _ => 3 end.
Lemma sample_decomposition : decomposition sampleTensor sampleValues sampleBasis.
Proof.
  assert (Q : / sqrt 2 * / sqrt 2 = 1 / 2) by (rewrite <- Rinv_mult_distr by (apply Rgt_not_eq, sqrt_lt_R0; lra); rewrite sqrt_sqrt; lra).
  split; [unfold sampleValues; lra|]. split; [split|].
  - intros i j Hi Hj. unfold mul, transpose, identity, sampleBasis. set (h := / sqrt 2) in *. clearbody h. cases i; cases j; cbn; lra.
  - intros i j Hi Hj. unfold mul, transpose, identity, sampleBasis. set (h := / sqrt 2) in *. clearbody h. cases i; cases j; cbn; lra.
  - intros i j Hi Hj. unfold sampleTensor, sampleValues, sampleBasis. set (h := / sqrt 2) in *. clearbody h. cases i; cases j; cbn; lra.
Qed.

Example C86_C87_applies : exists w0 e N, storedEnergy exactSolver sampleMaterial sampleTensor = Returns w0 /\
  exactSolver sampleTensor = Some (e, N) /\ distinguishable e /\ e 1%nat = e 2%nat /\ validExponents (dev sampleMaterial) /\ fewTerms (dev sampleMaterial) /\
  admissible (vol sampleMaterial).
Proof.
  destruct (exactSolver_solves sampleTensor sample_symmetric) as (e & N & E & D).
  assert (Ev : forall i, (i < 3)%nat -> e i = sampleValues i) by (intros i Hi; symmetry; exact (same_values _ _ _ _ _ sample_decomposition D i Hi)).
  eexists. exists e, N. split.
  { unfold storedEnergy, principalStretches. rewrite E. cbn [bind]. unfold detF. destruct Rle_dec as [L|L].
    - exfalso. unfold prod3, vector3 in L. cbn [Nat.ltb Nat.leb] in L. rewrite !Ev in L by lia. cbn [sampleValues] in L.
      assert (0 < sqrt 3) by (apply sqrt_lt_R0; lra). rewrite sqrt_1 in L. assert (0 < 1 * sqrt 3 * sqrt 3) by (repeat apply Rmult_lt_0_compat; lra). lra.
    - cbn. reflexivity. }
  split; [exact E|]. split.
  { assert (X : floatEq (1 / 10 ^ 8) (sqrt 1) (sqrt 3) = false).
    { unfold floatEq, rleb. destruct Rle_dec as [L|]; [exfalso|reflexivity]. rewrite sqrt_1 in L.
      assert (S3 : 1.5 <= sqrt 3). { replace 1.5 with (sqrt (1.5 ^ 2)) by (apply sqrt_pow2; lra). apply sqrt_le_1; lra. }
      assert (S4 : sqrt 3 <= 2). { replace 2 with (sqrt (2 ^ 2)) by (apply sqrt_pow2; lra). apply sqrt_le_1; lra. }
      rewrite Rabs_minus_sym, (Rabs_pos_eq (_ - 1)) in L by lra. rewrite !Rabs_pos_eq, Rmax_right in L; lra. }
    assert (X' : floatEq (1 / 10 ^ 8) (sqrt 3) (sqrt 1) = false) by (rewrite <- X; unfold floatEq; now rewrite Rabs_minus_sym, Rmax_comm).
    intros i k Hi Hk. rewrite (Ev i Hi), (Ev k Hk). cases i; cases k; cbn [sampleValues]; auto. }
  split; [now rewrite !Ev by lia|]. split; [|split; [cbn; lia|exact I]].
  cbn. intros mu alpha [K|[K|[]]]; injection K as <- <-; lra.
Qed.
