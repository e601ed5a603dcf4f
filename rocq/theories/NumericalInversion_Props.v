(** Properties C52 and C80: the numerical inversion of materials. *)

From Coq Require Import Reals Arith ZArith Bool Lia Lra FunctionalExtensionality.
From Coquelicot Require Import Coquelicot.
From Verif Require Import Tensor_Spec Conversions_Spec Conversions_Props SVK_Spec Deviatoric_Model NumericalInversion_Model.
Local Open Scope R_scope.

Lemma rltb_spec a b : rltb a b = true <-> a < b.
Proof. unfold rltb. destruct (Rlt_dec a b); split; auto; discriminate. Qed.
Lemma rltb_false a b : rltb a b = false <-> b <= a.
Proof. unfold rltb. destruct (Rlt_dec a b); split; try discriminate; auto; lra. Qed.

(** The tangent of a material: the directional derivatives of its stresses; the inverse moduli invert it *)
Definition tangentAt (n : nat) (stresses : (nat -> R) -> nat -> R) (e : nat -> R) (C : nat -> nat -> R) : Prop :=
  forall v i, (i < n)%nat -> is_derive (fun t => stresses (fun k => e k + t * v k) i) 0 (apply n C v i).
Definition inverseOfTangent (n : nat) (stresses : (nat -> R) -> nat -> R) (inverseModuli : (nat -> R) -> nat -> nat -> R) (e : nat -> R) : Prop :=
  exists C, tangentAt n stresses e C /\ isInverse n C (inverseModuli e).

Definition residual (n : nat) (stresses : (nat -> R) -> nat -> R) (S e : nat -> R) : R := norm n (fun k => S k - stresses e k).

(** A material that hardens with the third power of the strain *)
Definition cubic (e : nat -> R) (k : nat) : R := e k ^ 3.
Definition cubicInverse (e : nat -> R) (i j : nat) : R := if (i =? j)%nat then / (3 * e i ^ 2) else 0.

Lemma cubic_material n e : (forall k, (k < n)%nat -> e k <> 0) -> inverseOfTangent n cubic cubicInverse e.
Proof.
  intros N. exists (fun i j => if (i =? j)%nat then 3 * e i ^ 2 else 0). split.
  - intros v i Hi. unfold apply. rewrite (sum_pick n i); [|assumption|].
    + rewrite Nat.eqb_refl. unfold cubic. auto_derive; [exact I|]. ring.
    + intros k Hk Ne. destruct (Nat.eqb_spec i k); [lia|]. ring.
  - assert (Q : forall i j : nat, (i < n)%nat -> (j < n)%nat -> mul n (fun i j => if (i =? j)%nat then 3 * e i ^ 2 else 0) (cubicInverse e) i j = identity i j /\
       mul n (cubicInverse e) (fun i j => if (i =? j)%nat then 3 * e i ^ 2 else 0) i j = identity i j).
    { intros i j Hi Hj. assert (e i <> 0) by auto. unfold mul, cubicInverse, identity. split.
      - rewrite (sum_pick n i); [|assumption|].
        + rewrite Nat.eqb_refl. destruct (Nat.eqb_spec i j); [field; assumption|ring].
        + intros k Hk Ne. destruct (Nat.eqb_spec i k); [lia|]. ring.
      - rewrite (sum_pick n i); [|assumption|].
        + rewrite Nat.eqb_refl. destruct (Nat.eqb_spec i j); [field; assumption|ring].
        + intros k Hk Ne. destruct (Nat.eqb_spec i k); [lia|]. ring. }
    unfold isInverse. firstorder.
Qed.

(** C52: no call raises the error *)
Theorem C52_never_raises n stresses inverseModuli S tol maxIter e :
  numericalMaterialInversion n stresses inverseModuli S tol maxIter e <> MathError.
Proof.
  unfold numericalMaterialInversion.
  assert (H : forall todo i e D, (i + todo = maxIter)%nat -> inversionLoop n stresses inverseModuli S tol maxIter todo i e D <> MathError).
  { induction todo as [|todo IH]; intros i x D E; cbn [inversionLoop]; [discriminate|].
    destruct (_ && _); [discriminate|]. destruct (Nat.eqb_spec i maxIter); [lia|]. apply IH. lia. }
  apply H. lia.
Qed.
Print Assumptions C52_never_raises.

(** C52: without iterations the start strain is returned, together with a matrix of zeros *)
Theorem C52_no_iterations n stresses inverseModuli S tol e :
  numericalMaterialInversion n stresses inverseModuli S tol 0 e = Inverted (fun _ _ => 0) e.
Proof. reflexivity. Qed.
Print Assumptions C52_no_iterations.

Lemma pow_decreasing q m k : 0 <= q <= 1 -> (m <= k)%nat -> q ^ k <= q ^ m.
Proof.
  intros Q H. replace k with (m + (k - m))%nat by lia. rewrite pow_add. rewrite <- (Rmult_1_r (q ^ m)) at 2.
  apply Rmult_le_compat_l; [apply pow_le; lra|]. rewrite <- (pow1 (k - m)). apply pow_incr. lra.
Qed.

Lemma cubic_loop tol todo : forall i e D, (i + todo = 20)%nat -> tol <= (2 / 3) ^ 60 ->
  (forall k, (k < 3)%nat -> e k = (2 / 3) ^ i) ->
  exists D' e', inversionLoop 3 cubic cubicInverse (fun _ => 0) tol 20 todo i e D = Inverted D' e' /\ forall k, (k < 3)%nat -> e' k = (2 / 3) ^ 20.
Proof.
  induction todo as [|todo IH]; intros i e D Hi T E; cbn [inversionLoop].
  - exists D, e. split; [reflexivity|]. intros k Hk. rewrite E by assumption. f_equal. lia.
  - replace (rltb _ tol) with false; cbn [andb].
    + destruct (Nat.eqb_spec i 20); [lia|].
      apply (IH (S i) (fun k => e k + apply 3 (cubicInverse e) (fun k0 => 0 - cubic e k0) k)); [lia|assumption|].
      intros k Hk. assert (0 < (2 / 3) ^ i) by (apply pow_lt; lra).
      unfold apply. rewrite (sum_pick 3 k); [|assumption|].
      * unfold cubicInverse, cubic. rewrite Nat.eqb_refl, !E by assumption. cbn [pow]. field. lra.
      * intros a Ha Ne. unfold cubicInverse. destruct (Nat.eqb_spec k a); [lia|]. ring.
    + symmetry. apply rltb_false. apply (Rle_trans _ _ _ T). unfold norm.
      assert (A : (2 / 3) ^ 60 <= (2 / 3) ^ i * (2 / 3) ^ i * (2 / 3) ^ i).
      { rewrite <- !pow_add. apply pow_decreasing; [lra|lia]. }
      assert (0 < (2 / 3) ^ 60) by (apply pow_lt; lra).
      rewrite <- (sqrt_square ((2 / 3) ^ 60)) by lra. apply sqrt_le_1_alt. cbn [sum]. unfold cubic. rewrite !E by lia. cbn [pow].
      assert (B : (2 / 3) ^ 60 * (2 / 3) ^ 60 <= ((2 / 3) ^ i * (2 / 3) ^ i * (2 / 3) ^ i) * ((2 / 3) ^ i * (2 / 3) ^ i * (2 / 3) ^ i))
        by (apply Rmult_le_compat; lra).
      set (q := (2 / 3) ^ i) in *. assert (0 <= (q * q * q) * (q * q * q)) by apply Rle_0_sqr. lra.
Qed.

Lemma quotient_bound p q t : (0 < q)%Z -> (0 < t)%Z -> (q <= p * t)%Z -> / IZR t <= IZR p / IZR q.
Proof.
  intros Q T H. apply IZR_lt in Q, T. apply IZR_le in H. rewrite mult_IZR in H.
  apply (Rmult_le_reg_r (IZR q * IZR t)); [now apply Rmult_lt_0_compat|].
  replace (/ IZR t * (IZR q * IZR t)) with (IZR q) by (field; lra).
  replace (IZR p / IZR q * (IZR q * IZR t)) with (IZR p * IZR t) by (field; lra). exact H.
Qed.

Lemma power_bound (a b c : Z) (m k : nat) : (0 < b)%Z -> (0 < c)%Z -> (b ^ Z.of_nat m <=? a ^ Z.of_nat m * c ^ Z.of_nat k)%Z = true ->
  / IZR c ^ k <= (IZR a / IZR b) ^ m.
Proof.
  intros B C H. unfold Rdiv. rewrite Rpow_mult_distr, pow_inv, !pow_IZR. apply quotient_bound; [apply Z.pow_pos_nonneg; lia|apply Z.pow_pos_nonneg; lia|].
  now apply Z.leb_le.
Qed.

Lemma above_tolerance : / 10 ^ 12 <= (2 / 3) ^ 60.
Proof. apply power_bound; [reflexivity|reflexivity|vm_compute; reflexivity]. Qed.

(** C52, full claim: a strain that is returned has a residual below the tolerance. False with the default tolerance and the default
    number of iterations, with stress zero and the three components of the start strain equal to one. *)
Theorem C52_refuted : exists stresses inverseModuli S start D e,
  (forall e, (forall k, (k < 3)%nat -> e k <> 0) -> inverseOfTangent 3 stresses inverseModuli e) /\
  numericalMaterialInversion 3 stresses inverseModuli S (/ 10 ^ 12) 20 start = Inverted D e /\ / 10 ^ 12 <= residual 3 stresses S e.
Proof.
  destruct (cubic_loop (/ 10 ^ 12) 20 0 (fun _ => 1) (fun _ _ => 0) eq_refl above_tolerance ltac:(intros; reflexivity)) as (D & e & R & E).
  exists cubic, cubicInverse, (fun _ => 0), (fun _ => 1), D, e. split; [apply cubic_material|]. split; [exact R|].
  apply (Rle_trans _ _ _ above_tolerance). unfold residual, norm. assert (0 < (2 / 3) ^ 60) by (apply pow_lt; lra).
  rewrite <- (sqrt_square ((2 / 3) ^ 60)) by lra. apply sqrt_le_1_alt. cbn [sum]. unfold cubic. rewrite !E by lia.
  replace 60%nat with (20 * 3)%nat by reflexivity. rewrite pow_mult. set (q := ((2 / 3) ^ 20) ^ 3).
  assert (0 <= q * q) by apply Rle_0_sqr. lra.
Qed.
Print Assumptions C52_refuted.

(** The iterates of Newton's method *)
Fixpoint iterate (n : nat) (stresses : (nat -> R) -> nat -> R) (inverseModuli : (nat -> R) -> nat -> nat -> R) (S start : nat -> R) (m : nat) : nat -> R :=
  match m with
  | O => start
  | Datatypes.S m =>
    let e := iterate n stresses inverseModuli S start m in
    fun k => e k + apply n (inverseModuli e) (fun k => S k - stresses e k) k
  end.

Lemma loop_iterates n stresses inverseModuli S tol maxIter start todo : forall i D, (i + todo = maxIter)%nat ->
  exists m D', inversionLoop n stresses inverseModuli S tol maxIter todo i (iterate n stresses inverseModuli S start i) D =
    Inverted D' (iterate n stresses inverseModuli S start m) /\ (i <= m <= maxIter)%nat /\
    ((m < maxIter)%nat -> (0 < m)%nat /\ residual n stresses S (iterate n stresses inverseModuli S start m) < tol) /\
    (forall q, (i <= q < m)%nat -> (0 < q)%nat -> tol <= residual n stresses S (iterate n stresses inverseModuli S start q)) /\
    (m = i -> D' = D) /\ (forall q, m = Datatypes.S q -> (i <= q)%nat -> D' = inverseModuli (iterate n stresses inverseModuli S start q)).
Proof.
  induction todo as [|todo IH]; intros i D E; cbn [inversionLoop].
  - exists i, D. split; [reflexivity|]. repeat split; auto; try lia.
  - destruct (_ && _) eqn:C.
    + exists i, D. split; [reflexivity|]. apply andb_prop in C as [C1 C2]. apply rltb_spec in C1. apply Nat.ltb_lt in C2.
      repeat split; auto; try lia.
    + destruct (Nat.eqb_spec i maxIter); [lia|].
      destruct (IH (Datatypes.S i) (inverseModuli (iterate n stresses inverseModuli S start i)) ltac:(lia)) as (m & D' & L & B & R & Q & D0 & D1).
      exists m, D'. split; [exact L|]. split; [lia|]. split; [assumption|]. split; [|split; [lia|]].
      * intros q Hq P. destruct (Nat.eq_dec q i) as [->|]; [|apply Q; lia].
        apply andb_false_iff in C as [C|C]; [now apply rltb_false in C|]. apply Nat.ltb_ge in C. lia.
      * intros q -> Hq. destruct (Nat.eq_dec q i) as [->|]; [now apply D0|]. apply D1; [reflexivity|lia].
Qed.

(** C52: the residual is below the tolerance if one of the iterates, except for the start and the last one, has such a residual *)
Theorem C52_partial n stresses inverseModuli S tol maxIter start D e :
  numericalMaterialInversion n stresses inverseModuli S tol maxIter start = Inverted D e ->
  (exists m, (0 < m < maxIter)%nat /\ residual n stresses S (iterate n stresses inverseModuli S start m) < tol) ->
  residual n stresses S e < tol.
Proof.
  intros H (q & Hq & R). unfold numericalMaterialInversion in H.
  destruct (loop_iterates n stresses inverseModuli S tol maxIter start maxIter 0 (fun _ _ => 0) eq_refl) as (m & D' & L & B & C & Q & _).
  cbn [iterate] in L. rewrite L in H. injection H as <- <-.
  destruct (Nat.eq_dec m maxIter) as [->|]; [|apply C; lia].
  specialize (Q q ltac:(lia) ltac:(lia)). lra.
Qed.
Print Assumptions C52_partial.

(** C52: materials whose stress depends linearly on the strain are inverted, whatever the tolerance *)
Theorem C52_linear_partial n C inverse S tol maxIter start :
  isInverse n C inverse -> (0 < maxIter)%nat ->
  exists e, numericalMaterialInversion n (apply n C) (fun _ => inverse) S tol maxIter start = Inverted inverse e /\ eqv n (apply n C e) S.
Proof.
  intros Inv P. unfold numericalMaterialInversion.
  assert (Step : forall e i, (i < n)%nat -> apply n C (fun k => e k + apply n inverse (fun k => S k - apply n C e k) k) i = S i).
  { intros e i Hi. unfold apply at 1.
    transitivity (apply n C e i + apply n (mul n C inverse) (fun k => S k - apply n C e k) i).
    - unfold apply, mul. transitivity (sum n (fun k => C i k * e k) + sum n (fun k => sum n (fun j => C i k * inverse k j * (S j - sum n (fun k0 => C j k0 * e k0))))).
      + rewrite <- sum_add. apply sum_ext. intros k _. rewrite Rmult_plus_distr_l. f_equal. rewrite <- sum_mul_l. apply sum_ext. intros; ring.
      + f_equal. rewrite sum_swap. apply sum_ext. intros j _. now rewrite sum_mul_r.
    - unfold apply at 2. rewrite (sum_ext n _ (fun k => identity i k * (S k - apply n C e k))).
      + rewrite sum_id_l by assumption. ring.
      + intros k Hk. f_equal. now apply Inv. }
  assert (Rest : forall todo i e, (0 < i)%nat -> (i + todo = maxIter)%nat -> eqv n (apply n C e) S ->
    exists e', inversionLoop n (apply n C) (fun _ => inverse) S tol maxIter todo i e inverse = Inverted inverse e' /\ eqv n (apply n C e') S).
  { induction todo as [|todo IH]; intros i e Hi Hm He; cbn [inversionLoop]; [eexists; split; [reflexivity|assumption]|].
    destruct (_ && _); [eexists; split; [reflexivity|assumption]|]. destruct (Nat.eqb_spec i maxIter); [lia|].
    apply IH; [lia|lia|]. intros k Hk. now apply Step. }
  destruct maxIter as [|m]; [lia|]. cbn [inversionLoop]. rewrite andb_false_r.
  change (0 =? Datatypes.S m)%nat with false. cbn iota.
  apply Rest; [lia|lia|]. intros k Hk. now apply Step.
Qed.
Print Assumptions C52_linear_partial.

Example C52_linear_applies : isInverse 3 (fun i j => if (i =? j)%nat then 2 else 0) (fun i j => if (i =? j)%nat then 1 / 2 else 0).
Proof. intros [|[|[|i]]] [|[|[|j]]] Hi Hj; try lia; cbn; lra. Qed.

(** C80, full claim: the returned moduli are the inverse of the tangent moduli at the returned strain. False: they belong to the
    iterate before. *)
Theorem C80_refuted : exists stresses inverseModuli S tol maxIter start D e,
  (forall e, (forall k, (k < 3)%nat -> e k <> 0) -> inverseOfTangent 3 stresses inverseModuli e) /\
  numericalMaterialInversion 3 stresses inverseModuli S tol maxIter start = Inverted D e /\
  (forall k, (k < 3)%nat -> e k <> 0) /\ residual 3 stresses S e < tol /\ D 0%nat 0%nat <> inverseModuli e 0%nat 0%nat.
Proof.
  assert (E : forall k, (k < 3)%nat -> iterate 3 cubic cubicInverse (fun _ => 0) (fun _ => 1) 1 k = 2 / 3).
  { intros k Hk. cbn [iterate]. unfold apply. rewrite (sum_pick 3 k); [|assumption|].
    - unfold cubicInverse, cubic. rewrite Nat.eqb_refl. field.
    - intros a Ha Ne. unfold cubicInverse. destruct (Nat.eqb_spec k a); [lia|]. ring. }
  assert (R : residual 3 cubic (fun _ => 0) (iterate 3 cubic cubicInverse (fun _ => 0) (fun _ => 1) 1) < 1).
  { set (x := iterate 3 cubic cubicInverse (fun _ => 0) (fun _ => 1) 1) in *. unfold residual, norm. rewrite <- sqrt_1. apply sqrt_lt_1_alt. split.
    - apply sum_nonneg. intros. apply Rle_0_sqr.
    - cbn [sum]. unfold cubic. rewrite !E by lia. lra. }
  exists cubic, cubicInverse, (fun _ => 0), 1, 2%nat, (fun _ => 1), (cubicInverse (fun _ => 1)), (iterate 3 cubic cubicInverse (fun _ => 0) (fun _ => 1) 1).
  split; [apply cubic_material|]. split; [|split; [|split; [exact R|]]].
  - unfold numericalMaterialInversion. cbn [inversionLoop]. rewrite andb_false_r. change (0 =? 2)%nat with false. cbn iota.
    change (fun k => 1 + apply 3 (cubicInverse (fun _ => 1)) (fun k0 => 0 - cubic (fun _ => 1) k0) k) with (iterate 3 cubic cubicInverse (fun _ => 0) (fun _ => 1) 1).
    unfold residual in R. apply rltb_spec in R. rewrite R. reflexivity.
  - intros k Hk. rewrite E by assumption. lra.
  - assert (E0 := E 0%nat ltac:(lia)). set (x := iterate _ _ _ _ _ _) in *. unfold cubicInverse. cbn [Nat.eqb]. rewrite E0. lra.
Qed.
Print Assumptions C80_refuted.

(** C80: they are the inverse tangent moduli at the iterate from which the returned strain was computed *)
Theorem C80_partial n stresses inverseModuli S tol maxIter start D e :
  (0 < maxIter)%nat ->
  numericalMaterialInversion n stresses inverseModuli S tol maxIter start = Inverted D e ->
  exists e0, D = inverseModuli e0 /\ forall k, e k = e0 k + apply n D (fun k => S k - stresses e0 k) k.
Proof.
  intros P H. unfold numericalMaterialInversion in H.
  destruct (loop_iterates n stresses inverseModuli S tol maxIter start maxIter 0 (fun _ _ => 0) eq_refl) as (m & D' & L & B & C & Q & D0 & D1).
  cbn [iterate] in L. rewrite L in H. injection H as <- <-.
  destruct m as [|m]; [specialize (C P); lia|].
  exists (iterate n stresses inverseModuli S start m). rewrite (D1 m eq_refl ltac:(lia)). split; reflexivity.
Qed.
Print Assumptions C80_partial.
