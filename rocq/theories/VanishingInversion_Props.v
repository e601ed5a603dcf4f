(** C163: strains and inverse moduli of given plane stresses (model: VanishingInversion_Model.v). *)

From Coq Require Import List Arith ZArith Reals Lra Lia Bool Sorted.
From Verif Require Import Tensor_Model Tensor_Spec Tensor_Props LinearAlgebra_Model LinearAlgebra_Spec LinearAlgebra_Proofs LinearAlgebra_Props SVK_Model SVK_Spec SVK_Props.
From Verif Require Import VanishingStress_Model VanishingStress_Spec VanishingStress_Props NeoHooke_Model NeoHooke_Props NeoHookeInversion_Proofs NeoHookeInversion_Props.
From Verif Require Import VanishingInversion_Model VanishingInversion_Spec Conversions_Spec Conversions_Props.
Import ListNotations.
Local Open Scope R_scope.

Lemma fixed_sorted : StronglySorted lt planeStressIndices.
Proof. repeat constructor. Qed.
Lemma fixed_range k : In k planeStressIndices -> (k < 6)%nat.
Proof. simpl. intuition lia. Qed.

(** What is returned: the in-plane components of what the wrapped material returns for the stress without thickness components *)
Theorem C163_returned : forall inversion S D e, inversion (enlargeStress S) = Some (D, e) ->
  exists Dr er, vsMaterialInversion inversion planeStressIndices S = Some ((3, Dr), (3, er))%nat /\
    (forall i j, (i < 3)%nat -> (j < 3)%nat -> Dr i j = D (inPlane i) (inPlane j)) /\ (forall i, (i < 3)%nat -> er i = e (inPlane i)).
Proof.
  intros inversion S D e H. unfold vsMaterialInversion. rewrite H. cbn. do 2 eexists. split; [reflexivity|].
  split; intros; repeat match goal with |- context [inPlane ?i] => cases i end; reflexivity.
Qed.
Print Assumptions C163_returned.

(** Any material.  If the wrapped material inverts the stress at strain [X] (its stress there is the given one and the inverse modulus inverts
    its modulus) and the plane stress material finds [X] for the given strain [Y], then the stress of the plane stress material is the given
    one and the returned inverse modulus inverts its tangent modulus. *)
Theorem C163_inverts : forall stress moduli factor unitStart inverse tol inversion S D e X Y,
  inverts inverse -> inversion (enlargeStress S) = Some (D, e) ->
  reduceStress stress moduli factor unitStart inverse planeStressPairs planeStressIndices tol Y = Some X ->
  eqv 6 (stress X) (stressVector 3 (enlargeStress S)) -> isInverse 6 (moduli X) D -> symmetric 6 (moduli X) ->
  (exists Z, isInverse 3 (positions planeStressIndices (moduli X)) Z) ->
  exists Dr er s K, vsMaterialInversion inversion planeStressIndices S = Some ((3, Dr), (3, er))%nat /\
    vsStressesVoigt stress moduli factor unitStart inverse planeStressPairs planeStressIndices tol Y = Some (3%nat, s) /\
    vsModuliVoigt stress moduli factor unitStart inverse planeStressPairs planeStressIndices tol Y = Some (3%nat, K) /\
    eqv 3 s (stressVector 2 S) /\
    (forall i j, (i < 3)%nat -> (j < 3)%nat -> mul 3 K Dr i j = identity i j).
Proof.
  intros stress moduli factor unitStart inverse tol inversion S D e X Y HI H HX HS HD Sy HZ.
  assert (B : blockInverse (moduli X) planeStressIndices (inverse (length planeStressIndices) (positions planeStressIndices (moduli X)))).
  { intros a c Ha Hc. assert (Q := HI _ _ HZ a c Ha Hc). destruct Q as [_ Q]. unfold mul, identity, positions in Q.
    rewrite sumTo_seq, <- sum_seq. exact Q. }
  destruct (C69_inverse 6 (moduli X) D planeStressIndices _ fixed_sorted fixed_range Sy B) as (r & K & Dr & E1 & E2 & E3).
  { intros i j Hi Hj. destruct (HD i j Hi Hj) as [Q _]. rewrite sumTo_seq, <- sum_seq. exact Q. }
  assert (R3 : r = 3%nat). { cbn in E2. congruence. } subst r.
  unfold vsMaterialInversion. rewrite H, E2.
  exists Dr. eexists. eexists. exists K. split; [reflexivity|].
  unfold vsStressesVoigt, vsModuliVoigt. rewrite HX. split; [reflexivity|]. split; [exact E1|]. split.
  - intros i Hi. cases i; [exact (HS 0%nat ltac:(lia))|exact (HS 1%nat ltac:(lia))|exact (HS 5%nat ltac:(lia))].
  - intros i j Hi Hj. specialize (E3 i j Hi Hj). rewrite sumTo_seq, <- sum_seq in E3. exact E3.
Qed.
Print Assumptions C163_inverts.

(** St.Venant-Kirchhoff and linear elasticity: strain and inverse modulus are those of plane stress elasticity, the inverse modulus inverts the
    tangent modulus at every strain, and the stress of every strain with the returned in-plane components is the given one within the
    tolerance. *)
Theorem C163_linear : forall lambda mu tol inverse, 0 < mu -> 0 < 3 * lambda + 2 * mu -> 0 <= tol -> inverts inverse ->
  forall S, symmetric 2 S ->
  exists Dr er, vsMaterialInversion (fun S => materialInversion lambda mu (inverse 6%nat) (Matrix33 S)) planeStressIndices S = Some ((3, Dr), (3, er))%nat /\
    (forall i j, (i < 3)%nat -> (j < 3)%nat -> Dr i j = planeStressCompliance (youngsModulus lambda mu) (poissonsRatio lambda mu) i j) /\
    (forall i, (i < 3)%nat -> er i = sum 3 (fun j => planeStressCompliance (youngsModulus lambda mu) (poissonsRatio lambda mu) i j * stressVector 2 S j)) /\
    forall Y, symmetric 3 Y ->
    exists s K,
      vsStressesVoigt (svkStress lambda mu) (svkModuli lambda mu) 1 false inverse planeStressPairs planeStressIndices tol Y = Some (3%nat, s) /\
      vsModuliVoigt (svkStress lambda mu) (svkModuli lambda mu) 1 false inverse planeStressPairs planeStressIndices tol Y = Some (3%nat, K) /\
      isInverse 3 K Dr /\
      (eqv 3 er (strainVector 2 Y) -> forall i, (i < 3)%nat -> Rabs (s i - stressVector 2 S i) <= Rabs (lambda / (lambda + 2 * mu)) * tol).
Proof.
  intros lambda mu tol inverse Hm Hk Ht HI S Sy.
  assert (Nm : mu <> 0) by lra. assert (Nk : 3 * lambda + 2 * mu <> 0) by lra.
  assert (Inv : exists D, isInverse 6 (tangentModuliImplVoigt lambda mu) D) by (apply C43_invertible; auto).
  assert (I6 := HI _ _ Inv).
  assert (SE : symmetric 3 (enlargeStress S)).
  { intros i j Hi Hj. unfold enlargeStress. cases i; cases j; cbn; auto; apply Sy; lia. }
  destruct (C43_inversion lambda mu (inverse 6%nat) (Matrix33 (enlargeStress S)) (enlargeStress S) I6 SE) as (D & e & E & HD & _ & HE).
  { intros i j _ _. reflexivity. }
  destruct (C163_returned (fun S => materialInversion lambda mu (inverse 6%nat) (Matrix33 S)) S D e E) as (Dr & er & ER & HDr & Her).
  exists Dr, er. split; [exact ER|].
  set (E3 := fun i j => (enlargeStress S i j - lambda / (3 * lambda + 2 * mu) * (S 0%nat 0%nat + S 1%nat 1%nat) * identity i j) / (2 * mu)).
  assert (HE3 : eqv 6 e (strainVector 3 E3)).
  { apply HE.
    - intros i j Hi Hj. unfold E3. rewrite (SE i j) by auto. unfold identity. now rewrite Nat.eqb_sym.
    - intros i j Hi Hj. unfold isotropicStress, tr. cbn [sum]. unfold E3, identity. cases i; cases j; cbn; field; auto. }
  assert (HDX : forall i j, (i < 6)%nat -> (j < 6)%nat -> D i j =
    (let s := lambda / (2 * mu * (3 * lambda + 2 * mu)) in let d := 1 / (2 * mu) - s in
      entries [[d; - s; - s; 0; 0; 0]; [- s; d; - s; 0; 0; 0]; [- s; - s; d; 0; 0; 0];
               [0; 0; 0; / mu; 0; 0]; [0; 0; 0; 0; / mu; 0]; [0; 0; 0; 0; 0; / mu]]) i j).
  { cbv zeta. match goal with |- forall i j, _ -> _ -> _ = ?f i j => set (DX := f) end.
    assert (HX : forall i j, (i < 6)%nat -> (j < 6)%nat -> mul 6 (tangentModuliImplVoigt lambda mu) DX i j = identity i j).
    { intros i j Hi Hj. unfold mul, identity, tangentModuliImplVoigt, DX. cases i; cases j; cbn; field; auto. }
    assert (C : eqm 6 (mul 6 D (mul 6 (tangentModuliImplVoigt lambda mu) DX)) DX).
    { rewrite <- mul_assoc. eapply eqm_trans; [apply mul_ext; [intros i j Hi Hj; apply (HD i j Hi Hj)|apply eqm_refl]|apply mul_id_l]. }
    assert (C' : eqm 6 (mul 6 D (mul 6 (tangentModuliImplVoigt lambda mu) DX)) D).
    { eapply eqm_trans; [apply mul_ext; [apply eqm_refl|intros i j Hi Hj; apply (HX i j Hi Hj)]|apply mul_id_r]. }
    intros i j Hi Hj. rewrite <- C', C by auto. reflexivity. }
  assert (DC : forall i j, (i < 3)%nat -> (j < 3)%nat -> Dr i j = planeStressCompliance (youngsModulus lambda mu) (poissonsRatio lambda mu) i j).
  { intros i j Hi Hj. rewrite HDr by auto. unfold planeStressCompliance, youngsModulus, poissonsRatio.
    cases i; cases j; cbn [inPlane]; rewrite HDX by lia; cbn; field; repeat split; lra. }
  split; auto.
  assert (EC : forall i, (i < 3)%nat -> er i = sum 3 (fun j => planeStressCompliance (youngsModulus lambda mu) (poissonsRatio lambda mu) i j * stressVector 2 S j)).
  { intros i Hi. rewrite Her by auto. unfold planeStressCompliance, youngsModulus, poissonsRatio.
    cases i; cbn [inPlane]; rewrite HE3 by lia; unfold strainVector, E3, enlargeStress, identity; cbn; field; repeat split; lra. }
  split; auto. intros Y SY.
  destruct (C44_plane_stress lambda mu tol inverse Hm Hk Ht HI Y SY) as (s & K & E1 & E2 & HK & Hs). exists s, K.
  split; auto. split; auto.
  assert (NP : 1 - poissonsRatio lambda mu ^ 2 <> 0).
  { unfold poissonsRatio. replace (1 - (lambda / (2 * (lambda + mu))) ^ 2) with ((3 * lambda + 2 * mu) * (lambda + 2 * mu) / (2 * (lambda + mu)) ^ 2) by (field; lra).
    apply Rgt_not_eq. apply Rdiv_lt_0_compat; [apply Rmult_lt_0_compat; lra|]. apply pow_lt. lra. }
  assert (NE : youngsModulus lambda mu <> 0).
  { unfold youngsModulus. apply Rgt_not_eq. apply Rdiv_lt_0_compat; [apply Rmult_lt_0_compat; lra|lra]. }
  assert (NP' : 1 - poissonsRatio lambda mu * poissonsRatio lambda mu <> 0) by (replace (poissonsRatio lambda mu * poissonsRatio lambda mu) with (poissonsRatio lambda mu ^ 2) by ring; exact NP).
  assert (IK : isInverse 3 K Dr).
  { intros i j Hi Hj. unfold mul. cbn [sum]. rewrite !HK, !DC by lia. unfold planeStressCompliance, planeStressMatrix, identity.
    cases i; cases j; cbn; split; try field; auto. }
  split; auto. intros HY i Hi. destruct (Hs i Hi) as [Q _]. cbv zeta in Q.
  match type of Q with Rabs (_ - ?c) <= _ => replace (stressVector 2 S i) with c; auto end.
  transitivity (sum 3 (fun j => K i j * er j)).
  { cbn [sum]. rewrite !HK by lia. rewrite !HY by lia. reflexivity. }
  transitivity (sum 3 (fun j => mul 3 K Dr i j * stressVector 2 S j)).
  { unfold mul. cbn [sum]. rewrite !EC by lia. rewrite !DC by lia. cbn [sum]. ring. }
  cbn [sum]. destruct (IK i 0%nat) as [-> _]; [lia|lia|]. destruct (IK i 1%nat) as [-> _]; [lia|lia|]. destruct (IK i 2%nat) as [-> _]; [lia|lia|].
  unfold identity. cases i; cbn; ring.
Qed.
Print Assumptions C163_linear.

(** ** Neo-Hooke *)

(** In the plane stress state of a Neo-Hooke material the thickness stretch is determined by the strains in the plane *)
Lemma thickness_unique lambda mu d x y : 0 < mu -> 0 <= lambda -> 0 < d -> 0 < x -> 0 < y ->
  mu * (x - 1) + lambda * ln (sqrt (d * x)) = 0 -> mu * (y - 1) + lambda * ln (sqrt (d * y)) = 0 -> x = y.
Proof.
  intros Hm Hl Hd Hx Hy Ex Ey.
  assert (L : forall a b, 0 < a -> a < b -> ln (sqrt (d * a)) < ln (sqrt (d * b))).
  { intros a b Ha Hab. assert (0 < d * a) by now apply Rmult_lt_0_compat.
    assert (d * a < d * b) by now apply Rmult_lt_compat_l.
    apply ln_increasing; [now apply sqrt_lt_R0|apply sqrt_lt_1; lra]. }
  destruct (Rtotal_order x y) as [T|[T|T]]; auto; exfalso.
  - assert (A := L x y Hx T). assert (B : 0 <= lambda * (ln (sqrt (d * y)) - ln (sqrt (d * x)))) by (apply Rmult_le_pos; lra).
    assert (C : 0 < mu * (y - x)) by (apply Rmult_lt_0_compat; lra). lra.
  - assert (A := L y x Hy T). assert (B : 0 <= lambda * (ln (sqrt (d * x)) - ln (sqrt (d * y)))) by (apply Rmult_le_pos; lra).
    assert (C : 0 < mu * (x - y)) by (apply Rmult_lt_0_compat; lra). lra.
Qed.

(** A matrix without thickness shear *)
Lemma det_plane X : X 0%nat 2%nat = 0 -> X 1%nat 2%nat = 0 -> X 2%nat 0%nat = 0 -> X 2%nat 1%nat = 0 ->
  det3 X = (X 0%nat 0%nat * X 1%nat 1%nat - X 0%nat 1%nat * X 1%nat 0%nat) * X 2%nat 2%nat.
Proof. intros H1 H2 H3 H4. unfold det3. rewrite H1, H2, H3, H4. ring. Qed.
Lemma inv_plane X : 0 < det3 X -> X 0%nat 2%nat = 0 -> X 1%nat 2%nat = 0 -> X 2%nat 0%nat = 0 -> X 2%nat 1%nat = 0 -> inv3 X 2%nat 2%nat = / X 2%nat 2%nat.
Proof.
  intros P H1 H2 H3 H4. rewrite (det_plane X) in P by auto.
  set (d := X 0%nat 0%nat * X 1%nat 1%nat - X 0%nat 1%nat * X 1%nat 0%nat) in *.
  assert (Nd : d <> 0) by (intros Z; rewrite Z, Rmult_0_l in P; lra).
  assert (Nx : X 2%nat 2%nat <> 0) by (intros Z; rewrite Z, Rmult_0_r in P; lra).
  unfold inv3. rewrite (det_plane X) by auto. unfold entries. cbn. fold d.
  match goal with |- ?a = _ => replace a with (d / (d * X 2%nat 2%nat)) end.
  - field. auto.
  - unfold d. rewrite ?H1, ?H2, ?H3, ?H4. unfold Rdiv. ring.
Qed.

Lemma inv_shear A : A 0%nat 2%nat = 0 -> A 1%nat 2%nat = 0 -> A 2%nat 0%nat = 0 -> A 2%nat 1%nat = 0 ->
  inv3 A 0%nat 2%nat = 0 /\ inv3 A 1%nat 2%nat = 0 /\ inv3 A 2%nat 0%nat = 0 /\ inv3 A 2%nat 1%nat = 0.
Proof. intros H1 H2 H3 H4. unfold inv3, entries. cbn. rewrite H1, H2, H3, H4. unfold Rdiv. repeat split; ring. Qed.

Lemma nhStress_ext lambda mu X C k : eq3 X C -> (k < 6)%nat -> nhStressV lambda mu X k = nhStressV lambda mu C k.
Proof.
  intros E Hk. unfold nhStressV, nhStress, checkPositive. rewrite (det3_ext _ _ E). destruct (Rle_dec _ _); auto.
  assert (EI := inv3_ext _ _ E). cases k; cbn -[inv3]; rewrite !EI by lia; reflexivity.
Qed.
Lemma nhModuli_ext lambda mu X C a b : eq3 X C -> (a < 6)%nat -> (b < 6)%nat -> nhModuliV lambda mu X a b = nhModuliV lambda mu C a b.
Proof.
  intros E Ha Hb. unfold nhModuliV, nhModuli, checkPositive. rewrite (det3_ext _ _ E). destruct (Rle_dec _ _); auto.
  assert (EI := inv3_ext _ _ E). cases a; cases b; unfold voigtMatrix, component, dyadic, symTwoSlots, shuffled, swapSlots, fourthOrderIKJL; cbn -[inv3]; rewrite !EI by lia; reflexivity.
Qed.

(** If the plane stress material finds for a strain with the returned in-plane components a state without thickness stress, then its stress is
    the given one, and the returned inverse modulus inverts its tangent modulus. *)
Theorem C163_neohooke : forall lambda mu W tol inverse S D v X Y,
  lambert W -> inverts inverse -> 0 < mu -> 0 <= lambda -> symmetric 2 S -> symmetric 3 Y ->
  (lambda = 0 -> det3 (fun i j => mu * identity i j - enlargeStress S i j) <> 0) ->
  vsMaterialInversion (nhMaterialInversion lambda mu W inverse) planeStressIndices S = Some ((3, D), (3, v))%nat ->
  eqv 3 v (strainVector 2 Y) -> 0 < Y 0%nat 0%nat * Y 1%nat 1%nat - Y 0%nat 1%nat * Y 1%nat 0%nat ->
  reduceStress (nhStressV lambda mu) (nhModuliV lambda mu) 2 true inverse planeStressPairs planeStressIndices tol Y = Some X ->
  0 < det3 X -> nhStressV lambda mu X 2%nat = 0 -> 
  exists s K,
    vsStressesVoigt (nhStressV lambda mu) (nhModuliV lambda mu) 2 true inverse planeStressPairs planeStressIndices tol Y = Some (3%nat, s) /\
    vsModuliVoigt (nhStressV lambda mu) (nhModuliV lambda mu) 2 true inverse planeStressPairs planeStressIndices tol Y = Some (3%nat, K) /\
    eqv 3 s (stressVector 2 S) /\
    (forall i j, (i < 3)%nat -> (j < 3)%nat -> mul 3 K D i j = identity i j).
Proof.
  intros lambda mu W tol inverse S D v X Y HW HI Hm Hl SS SY HN H Hv HY HX PX ZX.
  destruct (nhMaterialInversion lambda mu W inverse (enlargeStress S)) as [[D6 e]|] eqn:EN; [|unfold vsMaterialInversion in H; rewrite EN in H; discriminate].
  assert (SE : symmetric 3 (enlargeStress S)).
  { intros i j Hi Hj. unfold enlargeStress. cases i; cases j; cbn; auto; apply SS; lia. }
  destruct (C46_inversion lambda mu W inverse (enlargeStress S) D6 e HW HI ltac:(lra) SE HN EN) as (C & s & L & SC & PC & Ee & Hs & Es & HL & HD).
  destruct (C163_returned (nhMaterialInversion lambda mu W inverse) S D6 e EN) as (Dr & er & ER & HDr & Her).
  rewrite ER in H. injection H as <- <-.
  destruct (C70_reduction_partial (nhStressV lambda mu) (nhModuliV lambda mu) 2 true inverse planeStressPairs planeStressIndices tol Y X) as (_ & O & F); auto.
  { intros k Hk K3. unfold planeStressIndices, planeStressPairs in *. cases k; simpl in *; try tauto; exfalso; intuition discriminate. }
  destruct (O 2%nat 1%nat) as [X1 X2]; [simpl; auto|lia|]. destruct (O 2%nat 0%nat) as [X3 X4]; [simpl; auto|lia|].
  assert (F' : forall a b, (a < 2)%nat -> (b < 2)%nat -> X a b = Y a b).
  { intros a b Ha Hb. apply F; intros Hin; unfold planeStressPairs in Hin; simpl in Hin; intuition congruence || (intuition; match goal with K : (_, _) = _ |- _ => injection K; lia end). }
  (* the strain of the wrapped material has no thickness shear *)
  set (m := mu - lambda * ln (sqrt (det3 C))).
  assert (HS : forall i j, (i < 3)%nat -> (j < 3)%nat -> m * inv3 C i j = mu * kron i j - enlargeStress S i j).
  { intros i j Hi Hj. rewrite <- Es by auto. unfold nhStress in Hs. rewrite checkPositive_some in Hs by auto. injection Hs as <-. unfold m. ring. }
  assert (NM : m <> 0).
  { intros Z. assert (Q := HS 2%nat 2%nat ltac:(lia) ltac:(lia)). rewrite Z in Q. unfold kron, enlargeStress in Q. cbn -[inv3] in Q. lra. }
  assert (Z0 : forall x, m * x = 0 -> x = 0) by (intros x Q; apply Rmult_integral in Q as [|]; tauto).
  assert (A1 : inv3 C 0%nat 2%nat = 0) by (apply Z0; rewrite HS by lia; cbv; ring).
  assert (A2 : inv3 C 1%nat 2%nat = 0) by (apply Z0; rewrite HS by lia; cbv; ring).
  assert (A3 : inv3 C 2%nat 0%nat = 0) by (apply Z0; rewrite HS by lia; cbv; ring).
  assert (A4 : inv3 C 2%nat 1%nat = 0) by (apply Z0; rewrite HS by lia; cbv; ring).
  destruct (inv_shear (inv3 C) A1 A2 A3 A4) as (C1 & C2 & C3 & C4).
  rewrite inv3_inv in C1, C2, C3, C4 by (lra || lia).
  (* the components in the plane are those given *)
  assert (P0 : C 0%nat 0%nat = Y 0%nat 0%nat).
  { assert (Q := Hv 0%nat ltac:(lia)). rewrite Her in Q by lia. cbn [inPlane] in Q. rewrite Ee in Q by lia. exact Q. }
  assert (P1 : C 1%nat 1%nat = Y 1%nat 1%nat).
  { assert (Q := Hv 1%nat ltac:(lia)). rewrite Her in Q by lia. cbn [inPlane] in Q. rewrite Ee in Q by lia. exact Q. }
  assert (P2 : C 0%nat 1%nat = Y 0%nat 1%nat).
  { assert (Q := Hv 2%nat ltac:(lia)). rewrite Her in Q by lia. cbn [inPlane] in Q. rewrite Ee in Q by lia. cbn in Q. lra. }
  assert (P3 : C 1%nat 0%nat = Y 1%nat 0%nat) by (rewrite (SC 1%nat 0%nat), (SY 1%nat 0%nat) by lia; exact P2).
  set (d := Y 0%nat 0%nat * Y 1%nat 1%nat - Y 0%nat 1%nat * Y 1%nat 0%nat) in *.
  assert (DC : det3 C = d * C 2%nat 2%nat) by (rewrite det_plane, P0, P1, P2, P3 by auto; reflexivity).
  assert (DX : det3 X = d * X 2%nat 2%nat) by (rewrite det_plane, !F' by (auto; lia); reflexivity).
  assert (PC2 : 0 < C 2%nat 2%nat) by (apply (Rmult_lt_reg_l d); [auto|rewrite Rmult_0_r; lra]).
  assert (PX2 : 0 < X 2%nat 2%nat) by (apply (Rmult_lt_reg_l d); [auto|rewrite Rmult_0_r; lra]).
  assert (EM : m = mu * C 2%nat 2%nat).
  { assert (Q := HS 2%nat 2%nat ltac:(lia) ltac:(lia)). rewrite inv_plane in Q by auto. unfold kron, enlargeStress in Q. cbn in Q.
    apply (Rmult_eq_reg_r (/ C 2%nat 2%nat)); [|apply Rinv_neq_0_compat; lra]. rewrite Q. field. lra. }
  assert (T : X 2%nat 2%nat = C 2%nat 2%nat).
  { apply (thickness_unique lambda mu d); auto.
    - unfold nhStressV, nhStress in ZX. rewrite checkPositive_some in ZX by auto. cbn -[inv3 det3] in ZX. rewrite inv_plane, DX in ZX by auto.
      unfold kron in ZX. cbn in ZX. apply (Rmult_eq_reg_r (/ X 2%nat 2%nat)); [|apply Rinv_neq_0_compat; lra].
      rewrite Rmult_0_l, <- ZX. field. lra.
    - rewrite <- DC. unfold m in EM. lra. }
  assert (XC : eq3 X C).
  { intros i j Hi Hj. cases i; cases j; rewrite ?X1, ?X2, ?X3, ?X4, ?C1, ?C2, ?C3, ?C4; auto; rewrite F' by lia; auto. }
  (* the state of the wrapped material *)
  assert (MC : nhModuliV lambda mu C = voigtMatrix L) by (unfold nhModuliV; now rewrite HL).
  assert (EL : L = fun i j k l => lambda * dyadic (inv3 C) (inv3 C) i j k l + 2 * m * symTwoSlots (fourthOrderIKJL (inv3 C) (inv3 C)) 2 3 i j k l).
  { unfold nhModuli in HL. rewrite checkPositive_some in HL by auto. injection HL as <-. reflexivity. }
  assert (PM : 0 < m) by (rewrite EM; now apply Rmult_lt_0_compat).
  destruct (C163_inverts (nhStressV lambda mu) (nhModuliV lambda mu) 2 true inverse tol (nhMaterialInversion lambda mu W inverse) S D6 e X Y HI EN HX)
    as (Dr' & er' & s' & K & E1 & E2 & E3 & E4 & E5).
  - intros k Hk. rewrite (nhStress_ext _ _ _ _ _ XC Hk). unfold nhStressV. rewrite Hs. cases k; cbn; apply Es; lia.
  - intros i j Hi Hj. destruct (HD i j Hi Hj) as [Q1 Q2]. unfold mul in *. cbn [sum] in *. rewrite !(nhModuli_ext _ _ _ _ _ _ XC) by lia. rewrite MC. auto.
  - intros i j Hi Hj. rewrite !(nhModuli_ext _ _ _ _ _ _ XC) by lia. rewrite MC.
    destruct (moduli_symmetric lambda (ln (sqrt (det3 C))) mu (inv3 C) (inv3_sym C SC)) as [_ MS]. fold m in MS. rewrite <- EL in MS.
    unfold voigtMatrix. cases i; cases j; cbn; apply MS; lia.
  - assert (IC := inv3_spec C ltac:(lra)).
    assert (NP : inv3 C 2%nat 2%nat <> 0) by (rewrite inv_plane by auto; apply Rinv_neq_0_compat; lra).
    assert (NL : lambda + 2 * m <> 0) by lra.
    assert (I00 := IC 0%nat 0%nat ltac:(lia) ltac:(lia)). assert (I01 := IC 0%nat 1%nat ltac:(lia) ltac:(lia)).
    assert (I10 := IC 1%nat 0%nat ltac:(lia) ltac:(lia)). assert (I11 := IC 1%nat 1%nat ltac:(lia) ltac:(lia)).
    unfold mul, identity in I00, I01, I10, I11. cbn -[inv3] in I00, I01, I10, I11.
    rewrite A1, A3, C1, C3 in I00. rewrite A1, A4, C1, C4 in I01. rewrite A2, A3, C2, C3 in I10. rewrite A2, A4, C2, C4 in I11.
    destruct I00, I01, I10, I11.
    assert (EB : forall a b, (a < 3)%nat -> (b < 3)%nat -> positions planeStressIndices (nhModuliV lambda mu X) a b =
      entries [[(lambda + 2 * m) * (inv3 C 2%nat 2%nat * inv3 C 2%nat 2%nat); 0; 0];
               [0; m * inv3 C 2%nat 2%nat * inv3 C 1%nat 1%nat; m * inv3 C 2%nat 2%nat * inv3 C 1%nat 0%nat];
               [0; m * inv3 C 2%nat 2%nat * inv3 C 0%nat 1%nat; m * inv3 C 2%nat 2%nat * inv3 C 0%nat 0%nat]] a b).
    { intros a b Ha Hb. unfold positions, planeStressIndices. rewrite (nhModuli_ext _ _ _ _ _ _ XC) by (cases a; cases b; cbn; lia). rewrite MC, EL.
      cases a; cases b; unfold voigtMatrix, component, dyadic, symTwoSlots, shuffled, swapSlots, fourthOrderIKJL; cbn -[inv3];
        rewrite ?A1, ?A2, ?A3, ?A4; field. }
    exists (entries [[/ (lambda + 2 * m) / (inv3 C 2%nat 2%nat * inv3 C 2%nat 2%nat); 0; 0];
                     [0; C 1%nat 1%nat / (m * inv3 C 2%nat 2%nat); C 1%nat 0%nat / (m * inv3 C 2%nat 2%nat)];
                     [0; C 0%nat 1%nat / (m * inv3 C 2%nat 2%nat); C 0%nat 0%nat / (m * inv3 C 2%nat 2%nat)]]).
    intros i j Hi Hj. unfold mul. cbn [sum]. rewrite !EB by lia.
    set (p := inv3 C 2%nat 2%nat) in *. set (p00 := inv3 C 0%nat 0%nat) in *. set (p01 := inv3 C 0%nat 1%nat) in *.
    set (p10 := inv3 C 1%nat 0%nat) in *. set (p11 := inv3 C 1%nat 1%nat) in *.
    assert (G : forall a b c d' v, a * c + b * d' = v -> m * p * a * (c / (m * p)) + m * p * b * (d' / (m * p)) = v) by (intros; subst; field; auto).
    assert (G' : forall a b c d' v, a * c + b * d' = v -> a / (m * p) * (m * p * c) + b / (m * p) * (m * p * d') = v) by (intros; subst; field; auto).
    unfold entries, identity. cases i; cases j; cbn; rewrite ?Rplus_0_l, ?Rmult_0_l, ?Rmult_0_r, ?Rplus_0_r, ?Rplus_0_l; split; auto; try (field; auto);
      (apply G || apply G'); lra.
  - rewrite ER in E1. injection E1 as <- <-. exists s', K. auto.
Qed.
Print Assumptions C163_neohooke.

Lemma inversion_ext lambda mu W inverse s s' D v : eq3 s s' -> nhMaterialInversion lambda mu W inverse s = Some (D, v) ->
  exists D' v', nhMaterialInversion lambda mu W inverse s' = Some (D', v') /\ eqv 6 v v'.
Proof.
  intros E H. unfold nhMaterialInversion in *.
  assert (Q : forall C, nhInverseStrain lambda mu W s = Some C -> exists C', nhInverseStrain lambda mu W s' = Some C' /\ eq3 C C').
  { intros C. unfold nhInverseStrain. destruct (Req_EM_T lambda 0).
    - intros K. injection K as <-. eexists. split; [reflexivity|]. apply inv3_ext. intros i j Hi Hj. now rewrite E.
    - cbv zeta. set (A := fun i j => 1 / lambda * (mu * kron i j - s i j)). set (A' := fun i j => 1 / lambda * (mu * kron i j - s' i j)).
      assert (EA : eq3 A A') by (intros i j Hi Hj; unfold A, A'; now rewrite E). rewrite (det3_ext _ _ EA).
      destruct (checkInvertability lambda mu (det3 A')); [|discriminate]. intros K. injection K as <-. eexists. split; [reflexivity|].
      intros i j Hi Hj. cbv beta. now rewrite (inv3_ext _ _ EA) by auto. }
  destruct (nhInverseStrain lambda mu W s) as [C|]; [|discriminate]. destruct (Q C eq_refl) as (C' & -> & EC).
  unfold nhModuli, checkPositive in *. rewrite <- (det3_ext _ _ EC). destruct (Rle_dec (det3 C) 0); [discriminate|].
  cbn -[toVoigtTensor] in *. injection H as _ <-. do 2 eexists. split; [reflexivity|].
  intros i Hi. cases i; cbn; rewrite ?EC by lia; reflexivity.
Qed.

(** A strip stretched until half of its thickness is left: lambda = mu = 1, C = diag (2 e, 1, 1/2) *)
Example C163_neohooke_applies : forall W inverse tol, lambert W -> inverts inverse -> 0 <= tol ->
  exists S D v Y, symmetric 2 S /\ symmetric 3 Y /\ S 1%nat 1%nat = 1 / 2 /\
  vsMaterialInversion (nhMaterialInversion 1 1 W inverse) planeStressIndices S = Some ((3, D), (3, v))%nat /\
  eqv 3 v (strainVector 2 Y) /\ 0 < Y 0%nat 0%nat * Y 1%nat 1%nat - Y 0%nat 1%nat * Y 1%nat 0%nat /\
  exists X, reduceStress (nhStressV 1 1) (nhModuliV 1 1) 2 true inverse planeStressPairs planeStressIndices tol Y = Some X /\
    0 < det3 X /\ nhStressV 1 1 X 2%nat = 0.
Proof.
  intros W inverse tol HW HI Ht. set (C := entries [[2 * exp 1; 0; 0]; [0; 1; 0]; [0; 0; 1 / 2]] : rmat).
  assert (E1 := exp_pos 1).
  assert (DC : det3 C = exp 1) by (unfold det3, C, entries; cbn; field).
  assert (LJ : ln (sqrt (exp 1)) = 1 / 2).
  { replace (exp 1) with (exp (1 / 2) * exp (1 / 2)) by (rewrite <- exp_plus; f_equal; field). rewrite sqrt_square by (left; apply exp_pos). apply ln_exp. }
  assert (SC : symmetric 3 C) by (intros i j Hi Hj; cases i; cases j; reflexivity).
  destruct (nhStress 1 1 C) as [s|] eqn:Hs; [|unfold nhStress in Hs; rewrite checkPositive_some in Hs by lra; discriminate].
  destruct (C46_roundtrip 1 1 W inverse C s HW ltac:(lra) SC Hs) as (D & v & HD & Hv); [rewrite DC, LJ; lra|].
  unfold nhStress in Hs. rewrite checkPositive_some in Hs by lra. injection Hs as Hs. rewrite DC, LJ in Hs.
  assert (EI : eq3 (inv3 C) (entries [[/ (2 * exp 1); 0; 0]; [0; 1; 0]; [0; 0; 2]])).
  { intros i j Hi Hj. unfold inv3. rewrite DC. unfold C, entries. cases i; cases j; cbn; field; lra. }
  set (S := entries [[1 - / (4 * exp 1); 0]; [0; 1 / 2]] : rmat).
  assert (ES : eq3 s (enlargeStress S)).
  { intros i j Hi Hj. rewrite <- Hs. rewrite EI by auto. unfold enlargeStress, S, entries, kron. cases i; cases j; cbn; field; lra. }
  destruct (inversion_ext 1 1 W inverse s (enlargeStress S) D v ES HD) as (D' & v' & HD' & Hv').
  destruct (C163_returned _ S D' v' HD') as (Dr & er & ER & _ & Her).
  exists S, Dr, er, C. split; [intros i j Hi Hj; cases i; cases j; try lia; reflexivity|]. split; auto. split; [reflexivity|]. split; [exact ER|].
  split; [intros i Hi; rewrite Her by auto; cases i; cbn [inPlane]; rewrite <- Hv', Hv by lia; reflexivity|].
  split; [unfold C, entries; cbn; lra|].
  assert (EX : eq3 (initUnknownStrains true planeStressPairs C) C).
  { intros i j Hi Hj. unfold initUnknownStrains, initialValue, setE, planeStressPairs. cbn.
    unfold C, entries. cbn. destruct (Req_EM_T (1 / 2) 0) as [Z|_]; [exfalso; lra|].
    cases i; cases j; reflexivity. }
  assert (Z : nhStressV 1 1 (initUnknownStrains true planeStressPairs C) 2%nat = 0).
  { rewrite (nhStress_ext _ _ _ _ _ EX) by lia. unfold nhStressV, nhStress. rewrite checkPositive_some by lra. cbn -[inv3 det3].
    rewrite EI by lia. rewrite DC, LJ. unfold kron, entries. cbn. field. }
  exists (initUnknownStrains true planeStressPairs C). split; [|split; [rewrite (det3_ext _ _ EX); lra|exact Z]].
  apply reduce_at_once. unfold normOf, residualOf. cbn -[nhStressV initUnknownStrains]. rewrite Z.
  replace (0 * 0 + 0) with 0 by ring. now rewrite sqrt_0.
Qed.
