(** Hyperelastic materials: rotations of C and the choice of eigenvectors. *)

From Coq Require Import Reals List ZArith Bool Lia Lra FunctionalExtensionality.
From Coquelicot Require Import Coquelicot.
From Verif Require Import Tensor_Model Tensor_Spec Tensor_Props SVK_Spec Conversions_Spec Conversions_Props NeoHooke_Model NeoHooke_Props
  Volumetric_Model Volumetric_Props Deviatoric_Model Deviatoric_Spec Deviatoric_Proofs Deviatoric_Props
  Hyperelastic_Model Hyperelastic_Spec Spectral_Proofs Stretches_Proofs Hyperelastic_Proofs.
Import ListNotations.
Local Open Scope R_scope.

(** ** Two decompositions of the same matrix *)
Section Two.
Variables (C : rmat) (a : nat -> R) (N : rmat) (b : nat -> R) (M : rmat).
Hypothesis DA : decomposition C a N.
Hypothesis DB : decomposition C b M.
Let ON : orthogonalMatrix N := proj1 (proj2 DA).
Let OM : orthogonalMatrix M := proj1 (proj2 DB).

Lemma DB_shift : decomposition (shift C C 0) b M.
Proof. now rewrite shift_0. Qed.

Lemma same_values i : (i < 3)%nat -> a i = b i.
Proof.
  intros Hi. assert (E := eigenvalues_move C C 0 a N b M i DA DB_shift Hi). rewrite Rabs_R0, Rmult_0_r in E.
  assert (P := Rabs_pos (b i - a i)). assert (Z : Rabs (b i - a i) = 0) by lra. apply Rabs_eq_0 in Z. lra.
Qed.

Lemma other_space i j : (i < 3)%nat -> (j < 3)%nat -> a i <> a j -> overlap N M i j = 0.
Proof.
  intros Hi Hj D. assert (E := overlap_difference C C 0 a N b M i j DA DB_shift Hi Hj). rewrite Rmult_0_l, <- (same_values j Hj) in E.
  apply Rmult_integral in E. destruct E; [lra|assumption].
Qed.

Lemma back S p q : (p < 3)%nat -> (q < 3)%nat -> S p q = sum 3 (fun i => sum 3 (fun k => N p i * inBases N S N i k * N q k)).
Proof.
  intros Hp Hq. destruct ON as [N1 N2].
  transitivity (sum 3 (fun u => mul 3 N (transpose N) p u * sum 3 (fun v => mul 3 N (transpose N) q v * S u v))).
  - rewrite (sum_ext 3 _ (fun u => identity p u * S u q)); [now rewrite (sum_id_l 3 p (fun u => S u q))|].
    intros u Hu. rewrite (N2 p u Hp Hu). f_equal. rewrite (sum_ext 3 _ (fun v => identity q v * S u v)); [now rewrite (sum_id_l 3 q (fun v => S u v))|].
    intros v Hv. now rewrite (N2 q v Hq Hv).
  - unfold inBases, mul, transpose. cbn [sum]. ring.
Qed.

(** Sums over eigenvectors do not depend on the eigenvectors if equal eigenvalues have equal coefficients *)
Lemma class_sum s p q : (forall i j, (i < 3)%nat -> (j < 3)%nat -> a i = a j -> s i = s j) -> (p < 3)%nat -> (q < 3)%nat ->
  sum 3 (fun j => M p j * s j * M q j) = sum 3 (fun j => N p j * s j * N q j).
Proof.
  intros Es Hp Hq. rewrite (back (fun p q => sum 3 (fun j => M p j * s j * M q j)) p q Hp Hq).
  transitivity (sum 3 (fun i => sum 3 (fun k => identity i k * (N p i * s i * N q k)))).
  - apply sum_ext. intros i Hi. apply sum_ext. intros k Hk. rewrite inBases_both.
    rewrite (sum_ext 3 _ (fun j => s i * (overlap N M i j * overlap N M k j))).
    + rewrite sum_mul_l, (overlap_rows N M i k ON OM Hi Hk). ring.
    + intros j Hj. destruct (Req_EM_T (a i) (a j)) as [E|E]; [rewrite (Es i j Hi Hj E); ring|rewrite (other_space i j Hi Hj E); ring].
  - apply sum_ext. intros i Hi. now rewrite (sum_id_l 3 i (fun k => N p i * s i * N q k)).
Qed.

Definition respects (D : nat -> nat -> R) : Prop :=
  forall i j k n, (i < 3)%nat -> (j < 3)%nat -> (k < 3)%nat -> (n < 3)%nat -> a i = a j -> a k = a n -> D i k = D j n.

Lemma class_sum2 D p q r s : respects D -> (p < 3)%nat -> (q < 3)%nat -> (r < 3)%nat -> (s < 3)%nat ->
  sum 3 (fun i => sum 3 (fun k => D i k * (M p i * M q i) * (M r k * M s k))) = sum 3 (fun i => sum 3 (fun k => D i k * (N p i * N q i) * (N r k * N s k))).
Proof.
  intros RD Hp Hq Hr Hs.
  transitivity (sum 3 (fun k => sum 3 (fun i => M p i * D i k * M q i) * (M r k * M s k))); [cbn [sum]; ring|].
  transitivity (sum 3 (fun k => sum 3 (fun i => N p i * D i k * N q i) * (M r k * M s k))).
  { apply sum_ext. intros k Hk. f_equal. apply (class_sum (fun i => D i k)); auto. }
  transitivity (sum 3 (fun i => sum 3 (fun k => M r k * D i k * M s k) * (N p i * N q i))); [cbn [sum]; ring|].
  transitivity (sum 3 (fun i => sum 3 (fun k => N r k * D i k * N s k) * (N p i * N q i))).
  { apply sum_ext. intros i Hi. f_equal. apply (class_sum (fun k => D i k)); auto. }
  cbn [sum]. ring.
Qed.

(** The moduli in a form with coefficients for all pairs of directions *)
Definition normalPart (L : rtensor4) (g : nat -> R) (i k : nat) : R := if Nat.eqb i k then L i i i i - 2 * g i else L i i k k.
Definition shearPart (L : rtensor4) (g : nat -> R) (i k : nat) : R := if Nat.eqb i k then g i else L i k i k.

Lemma moduli_parts L g K p q r s : transformDeviatoricTangentModuli L K p q r s =
  sum 3 (fun i => sum 3 (fun k => normalPart L g i k * (K p i * K q i) * (K r k * K s k))) +
  sum 3 (fun i => sum 3 (fun k => shearPart L g i k * (K p i * K r i) * (K q k * K s k))) +
  sum 3 (fun i => sum 3 (fun k => shearPart L g i k * (K p i * K s i) * (K q k * K r k))).
Proof. unfold transformDeviatoricTangentModuli, loop3, normalPart, shearPart. cbn [sum Nat.eqb]. ring. Qed.

Lemma moduli_choice L g p q r s : respects (normalPart L g) -> respects (shearPart L g) ->
  (p < 3)%nat -> (q < 3)%nat -> (r < 3)%nat -> (s < 3)%nat ->
  transformDeviatoricTangentModuli L M p q r s = transformDeviatoricTangentModuli L N p q r s.
Proof. intros R1 R2 Hp Hq Hr Hs. rewrite !(moduli_parts L g). now rewrite !class_sum2. Qed.

Lemma stresses_choice s p q : (forall i j, (i < 3)%nat -> (j < 3)%nat -> a i = a j -> s i = s j) -> (p < 3)%nat -> (q < 3)%nat ->
  transformDeviatoricStresses s M p q = transformDeviatoricStresses s N p q.
Proof.
  intros Es Hp Hq. assert (E := class_sum s p q Es Hp Hq). rewrite !sum_3 in E. exact E.
Qed.
End Two.

(** ** Rotations *)
Lemma rotated_mul Q C : rotated Q C = mul 3 (mul 3 Q C) (transpose Q).
Proof.
  apply functional_extensionality. intros i. apply functional_extensionality. intros j. unfold rotated, mul, transpose. cbn [sum]. ring.
Qed.
Lemma transpose_mul A B : transpose (mul 3 A B) = mul 3 (transpose B) (transpose A).
Proof. apply functional_extensionality. intros i. apply functional_extensionality. intros j. unfold mul, transpose. apply sum_ext. intros; ring. Qed.
Lemma mul_id_right A : eqm 3 (mul 3 A identity) A.
Proof. intros i j Hi Hj. unfold mul, identity. cases j; cbn; ring. Qed.

Lemma orthogonal_mul Q N : orthogonalMatrix Q -> orthogonalMatrix N -> orthogonalMatrix (mul 3 Q N).
Proof.
  intros [Q1 Q2] [N1 N2]. split; rewrite transpose_mul.
  - rewrite mul_assoc, <- (mul_assoc 3 (transpose Q)). apply eqm_trans with (mul 3 (transpose N) N); [|exact N1].
    apply mul_ext; [apply eqm_refl|]. apply eqm_trans with (mul 3 identity N); [apply mul_ext; [exact Q1|apply eqm_refl]|apply mul_id_l].
  - rewrite mul_assoc, <- (mul_assoc 3 N). apply eqm_trans with (mul 3 Q (transpose Q)); [|exact Q2].
    apply mul_ext; [apply eqm_refl|]. apply eqm_trans with (mul 3 identity (transpose Q)); [apply mul_ext; [exact N2|apply eqm_refl]|apply mul_id_l].
Qed.

Lemma rotated_ext Q C D : eqm 3 C D -> forall i j, rotated Q C i j = rotated Q D i j.
Proof. intros E i j. unfold rotated. apply sum_ext. intros k Hk. apply sum_ext. intros l Hl. now rewrite E. Qed.

Lemma rotated_symmetric Q C : symmetric 3 C -> symmetric 3 (rotated Q C).
Proof.
  intros S i j _ _. unfold rotated. rewrite sum_swap. apply sum_ext. intros k Hk. apply sum_ext. intros l Hl. rewrite (S k l Hk Hl). ring.
Qed.

Lemma rotated_decomposition Q C a N : orthogonalMatrix Q -> decomposition C a N -> decomposition (rotated Q C) a (mul 3 Q N).
Proof.
  intros OQ (A & O & E). split; [exact A|split; [now apply orthogonal_mul|]]. intros i j _ _. rewrite (rotated_ext Q _ _ E).
  unfold rotated, mul. cbn [sum]. ring.
Qed.

Lemma rotated_inverse Q C : orthogonalMatrix Q -> det3 C <> 0 -> eqm 3 (inv3 (rotated Q C)) (rotated Q (inv3 C)).
Proof.
  intros OQ D. assert (OQ' := OQ). destruct OQ as [Q1 Q2].
  assert (Dr : det3 (rotated Q C) = det3 C).
  { transitivity (det3 Q ^ 2 * det3 C); [unfold det3, rotated; cbn [sum]; ring|]. rewrite (det_orthogonal Q OQ'). ring. }
  assert (I1 := inv3_spec C D). assert (I2 := inv3_spec (rotated Q C) ltac:(now rewrite Dr)).
  assert (P : eqm 3 (mul 3 (rotated Q C) (rotated Q (inv3 C))) identity).
  { rewrite !rotated_mul. rewrite !mul_assoc.
    apply eqm_trans with (mul 3 Q (transpose Q)); [|exact Q2]. apply mul_ext; [apply eqm_refl|].
    rewrite <- (mul_assoc 3 (transpose Q) Q).
    apply eqm_trans with (mul 3 C (mul 3 (inv3 C) (transpose Q))).
    { apply mul_ext; [apply eqm_refl|]. apply eqm_trans with (mul 3 identity (mul 3 (inv3 C) (transpose Q))); [apply mul_ext; [exact Q1|apply eqm_refl]|apply mul_id_l]. }
    rewrite <- mul_assoc. apply eqm_trans with (mul 3 identity (transpose Q)); [apply mul_ext; [|apply eqm_refl]|apply mul_id_l].
    intros i j Hi Hj. exact (proj1 (I1 i j Hi Hj)). }
  apply eqm_trans with (mul 3 (inv3 (rotated Q C)) identity); [apply eqm_sym, mul_id_right|].
  apply eqm_trans with (mul 3 (inv3 (rotated Q C)) (mul 3 (rotated Q C) (rotated Q (inv3 C)))); [apply mul_ext; [apply eqm_refl|now apply eqm_sym]|].
  rewrite <- mul_assoc. apply eqm_trans with (mul 3 identity (rotated Q (inv3 C))); [|apply mul_id_l].
  apply mul_ext; [|apply eqm_refl]. intros i j Hi Hj. exact (proj2 (I2 i j Hi Hj)).
Qed.

Lemma stresses_rotated Q s N p q : transformDeviatoricStresses s (mul 3 Q N) p q = rotated Q (transformDeviatoricStresses s N) p q.
Proof. unfold transformDeviatoricStresses, rotated, mul. cbn [sum]. ring. Qed.

Lemma rotated4_rank Q u v x y p q r s :
  sum 3 (fun a => Q p a * u a) * sum 3 (fun a => Q q a * v a) * (sum 3 (fun a => Q r a * x a) * sum 3 (fun a => Q s a * y a)) =
  rotated4 Q (fun a b c d => u a * v b * (x c * y d)) p q r s.
Proof. unfold rotated4. cbn [sum]. ring. Qed.
Lemma rotated4_ext Q T U p q r s : (forall a b c d, (a < 3)%nat -> (b < 3)%nat -> (c < 3)%nat -> (d < 3)%nat -> T a b c d = U a b c d) ->
  rotated4 Q T p q r s = rotated4 Q U p q r s.
Proof. intros E. unfold rotated4. repeat (apply sum_ext; intros). now rewrite E. Qed.
Lemma rotated4_add Q T U p q r s : rotated4 Q (fun a b c d => T a b c d + U a b c d) p q r s = rotated4 Q T p q r s + rotated4 Q U p q r s.
Proof. unfold rotated4. rewrite <- sum_add. apply sum_ext; intros. rewrite <- sum_add. apply sum_ext; intros. rewrite <- sum_add. apply sum_ext; intros.
  rewrite <- sum_add. apply sum_ext; intros. ring. Qed.
Lemma rotated4_scale Q k T p q r s : rotated4 Q (fun a b c d => k * T a b c d) p q r s = k * rotated4 Q T p q r s.
Proof. unfold rotated4. rewrite <- sum_mul_l. apply sum_ext; intros. rewrite <- sum_mul_l. apply sum_ext; intros. rewrite <- sum_mul_l. apply sum_ext; intros.
  rewrite <- sum_mul_l. apply sum_ext; intros. ring. Qed.
Lemma rotated4_sum Q n (T : nat -> rtensor4) p q r s : rotated4 Q (fun a b c d => sum n (fun k => T k a b c d)) p q r s = sum n (fun k => rotated4 Q (T k) p q r s).
Proof.
  induction n as [|n IH]; cbn [sum].
  - unfold rotated4. cbn [sum]. ring.
  - now rewrite rotated4_add, IH.
Qed.

Lemma moduli_rotated Q L N p q r s : transformDeviatoricTangentModuli L (mul 3 Q N) p q r s = rotated4 Q (transformDeviatoricTangentModuli L N) p q r s.
Proof.
  rewrite (moduli_parts L (fun _ => 0)).
  rewrite (rotated4_ext Q _ (fun p q r s => _ + _ + _) p q r s (fun a b c d _ _ _ _ => moduli_parts L (fun _ => 0) N a b c d)).
  rewrite !rotated4_add. f_equal; [f_equal|]; rewrite rotated4_sum; apply sum_ext; intros i Hi; rewrite rotated4_sum; apply sum_ext; intros k Hk.
  - rewrite (rotated4_ext Q _ (fun a b c d => normalPart L (fun _ => 0) i k * (N a i * N b i * (N c k * N d k)))) by (intros; ring).
    rewrite rotated4_scale, <- (rotated4_rank Q (fun a => N a i) (fun a => N a i) (fun a => N a k) (fun a => N a k)). unfold mul. ring.
  - rewrite (rotated4_ext Q _ (fun a b c d => shearPart L (fun _ => 0) i k * (N a i * N b k * (N c i * N d k)))) by (intros; ring).
    rewrite rotated4_scale, <- (rotated4_rank Q (fun a => N a i) (fun a => N a k) (fun a => N a i) (fun a => N a k)). unfold mul. ring.
  - rewrite (rotated4_ext Q _ (fun a b c d => shearPart L (fun _ => 0) i k * (N a i * N b k * (N c k * N d i)))) by (intros; ring).
    rewrite rotated4_scale, <- (rotated4_rank Q (fun a => N a i) (fun a => N a k) (fun a => N a k) (fun a => N a i)). unfold mul. ring.
Qed.

Lemma volumetric_rotated Q u v C J p q r s : orthogonalMatrix Q -> det3 C <> 0 -> (p < 3)%nat -> (q < 3)%nat -> (r < 3)%nat -> (s < 3)%nat ->
  transformVolumetricTangentModuli u v (rotated Q C) J p q r s = rotated4 Q (transformVolumetricTangentModuli u v C J) p q r s.
Proof.
  intros OQ D Hp Hq Hr Hs. assert (E := rotated_inverse Q C OQ D).
  unfold transformVolumetricTangentModuli, dyadic, symTwoSlots, shuffled, swapSlots, fourthOrderIKJL. cbn [Nat.eqb nth].
  rewrite !E by assumption. generalize (inv3 C). intros I.
  assert (K2 : forall (f : nat -> nat -> R) g, sum 3 (fun a => sum 3 (fun b => f a b)) * g = sum 3 (fun a => sum 3 (fun b => f a b * g))) by (intros; cbn [sum]; ring).
  transitivity (J * (u + J * v) * (rotated Q I p q * rotated Q I r s) - J * u * (rotated Q I p r * rotated Q I q s) - J * u * (rotated Q I p s * rotated Q I q r)); [field|].
  transitivity (J * (u + J * v) * rotated4 Q (fun a b c d => I a b * I c d) p q r s - J * u * rotated4 Q (fun a b c d => I a c * I b d) p q r s - J * u * rotated4 Q (fun a b c d => I a d * I b c) p q r s).
  { f_equal; [f_equal|]; f_equal; unfold rotated, rotated4; cbn [sum]; ring. }
  transitivity (rotated4 Q (fun a b c d => J * (u + J * v) * (I a b * I c d) + (- (J * u) * (I a c * I b d) + - (J * u) * (I a d * I b c))) p q r s).
  { rewrite !rotated4_add, !rotated4_scale. ring. }
  apply rotated4_ext. intros a b c d _ _ _ _. cbn. field.
Qed.
