(** Properties C55 and C81: the result evaluators. *)

From Coq Require Import Floats.
From Coq Require Import List Arith ZArith Reals Lra Lia Bool.
From Verif Require Import Tensor_Spec Tensor_Model Tensor_Props Conversions_Spec Conversions_Props SVK_Spec Results_Model Results_Spec.
Import ListNotations.
Local Open Scope R_scope.

(** The rows that the evaluators use are those of fromVoigt *)
Theorem C55_from_voigt d v : (1 <= d <= 3)%nat ->
  exists m, fromVoigt (voigtLength d) v false = Some (d, m) /\ fst (stressRows R (voigtLength d) v) = d /\
    forall i j, (i < d)%nat -> (j < d)%nat -> m i j = Some (nth j (nth i (snd (stressRows R (voigtLength d) v)) []) 0).
Proof.
  intros H. dims d; eexists; (split; [reflexivity|]); (split; [reflexivity|]); intros i j Hi Hj; cases i; cases j;
    cbv -[Rmult Rdiv IZR R0 R1 Rplus Rinv]; f_equal; ring.
Qed.
Print Assumptions C55_from_voigt.

(** C55: the von Mises stress is that of the three-dimensional state, and the square root is taken of a number that is not negative *)
Theorem C55_von_mises d s : (1 <= d <= 3)%nat -> symmetric d s ->
  rVonMises (voigtLength d) (stressVector d s) = equivalentStress (embed d s) /\
  0 <= 3 * rSecondInvariant (voigtLength d) (stressVector d s) /\
  0 <= rVonMises (voigtLength d) (stressVector d s).
Proof.
  intros H S.
  assert (E : 3 * rSecondInvariant (voigtLength d) (stressVector d s) = 3 / 2 * contract 3 (deviator (embed d s)) (deviator (embed d s))).
  { dims d; unfold rSecondInvariant, secondInvariant, contract, deviator, meanStress, embed; cbn [sum Nat.ltb Nat.leb andb identity Nat.eqb];
      cbn; try rewrite (S 1%nat 0%nat) by lia; try rewrite (S 2%nat 0%nat) by lia; try rewrite (S 2%nat 1%nat) by lia; field. }
  unfold rVonMises, equivalentStress. split; [|split].
  - unfold vonMises. fold rSecondInvariant. now rewrite E.
  - rewrite E. apply Rmult_le_pos; [lra|]. unfold contract. apply sum_nonneg. intros. apply sum_nonneg. intros. apply Rle_0_sqr.
  - apply sqrt_pos.
Qed.
Print Assumptions C55_von_mises.

Example C55_von_mises_example : rVonMises 3 (stressVector 2 (fun i j => if ((i =? 0) && (j =? 0))%nat then 3 else 0)) = 3.
Proof.
  unfold rVonMises, vonMises, secondInvariant; cbn.
  replace (3 * _) with (3 * 3) by field. apply sqrt_square. lra.
Qed.

(** C55: in space the von Mises stress vanishes exactly for hydrostatic states *)
Theorem C55_hydrostatic_state s : symmetric 3 s ->
  rVonMises 6 (stressVector 3 s) = 0 <-> exists p, eq3 s (fun i j => p * identity i j).
Proof.
  intros S. destruct (C55_von_mises 3 s ltac:(lia) S) as (E & P & _). change (voigtLength 3) with 6%nat in *.
  split.
  - intros Z. exists (meanStress s).
    assert (Q : contract 3 (deviator (embed 3 s)) (deviator (embed 3 s)) = 0).
    { rewrite E in Z. unfold equivalentStress in Z. apply sqrt_eq_0 in Z; [lra|].
      apply Rmult_le_pos; [lra|]. unfold contract. apply sum_nonneg. intros. apply sum_nonneg. intros. apply Rle_0_sqr. }
    intros i j Hi Hj.
    enough (D : deviator (embed 3 s) i j = 0).
    { unfold deviator in D. enough (embed 3 s i j = s i j /\ meanStress (embed 3 s) = meanStress s) as [A B] by (rewrite A, B in D; lra).
      split; [|reflexivity]. unfold embed. destruct (Nat.ltb_spec i 3), (Nat.ltb_spec j 3); try lia. reflexivity. }
    destruct (Req_dec (deviator (embed 3 s) i j) 0) as [|N]; [assumption|exfalso].
    enough (0 < contract 3 (deviator (embed 3 s)) (deviator (embed 3 s))) by lra.
    unfold contract. apply (sum_pos 3 _ i); [|assumption|].
    + intros. apply sum_nonneg. intros. apply Rle_0_sqr.
    + apply (sum_pos 3 _ j); [|assumption|]; [intros; apply Rle_0_sqr|]. now apply Rsqr_pos_lt.
  - intros [p H]. unfold rVonMises, vonMises. rewrite <- sqrt_0. f_equal.
    unfold secondInvariant. cbn. rewrite !H by lia. cbn. field.
Qed.
Print Assumptions C55_hydrostatic_state.

(** C55, full claim: the triaxiality is the ratio of the mean stress and the equivalent stress of the three-dimensional state.
    False in the plane: the hydrostatic stress is a half of the trace. *)
Theorem C55_triaxiality_refuted : exists s, symmetric 2 s /\ equivalentStress (embed 2 s) <> 0 /\
  rTriaxiality 3 (stressVector 2 s) <> meanStress (embed 2 s) / equivalentStress (embed 2 s).
Proof.
  exists (fun i j => if ((i =? 0) && (j =? 0))%nat then 1 else 0).
  assert (S : symmetric 2 (fun i j => if ((i =? 0) && (j =? 0))%nat then 1 else 0)) by (intros i j Hi Hj; cases i; cases j; reflexivity).
  destruct (C55_von_mises 2 _ ltac:(lia) S) as (E & _). change (voigtLength 2) with 3%nat in E.
  assert (V : rVonMises 3 (stressVector 2 (fun i j => if ((i =? 0) && (j =? 0))%nat then 1 else 0)) = 1).
  { unfold rVonMises, vonMises, secondInvariant; cbn. replace (3 * _) with 1 by field. apply sqrt_1. }
  rewrite V in E. split; [exact S|]. rewrite <- E. split; [lra|].
  unfold rTriaxiality, triaxiality. fold rVonMises. rewrite V. unfold meanStress, hydrostaticStress; cbn. lra.
Qed.
Print Assumptions C55_triaxiality_refuted.

Theorem C55_triaxiality_partial s : symmetric 3 s ->
  rTriaxiality 6 (stressVector 3 s) = meanStress s / equivalentStress s.
Proof.
  intros S. destruct (C55_von_mises 3 s ltac:(lia) S) as (E & _). change (voigtLength 3) with 6%nat in E.
  unfold rTriaxiality, triaxiality. fold rVonMises. rewrite E. f_equal.
  - unfold hydrostaticStress, meanStress; cbn. unfold Rdiv. ring.
Qed.
Print Assumptions C55_triaxiality_partial.

(** The hydrostatic stress is the mean stress in space; in the plane it is a half of the trace *)
Theorem C55_hydrostatic_partial s : symmetric 3 s -> rHydrostaticStress 6 (stressVector 3 s) = meanStress s.
Proof. intros S. unfold rHydrostaticStress, hydrostaticStress, meanStress; cbn. unfold Rdiv. ring. Qed.
Theorem C55_hydrostatic_refuted : (forall s, rHydrostaticStress 3 (stressVector 2 s) = (s 0%nat 0%nat + s 1%nat 1%nat) / 2) /\
  exists s, symmetric 2 s /\ rHydrostaticStress 3 (stressVector 2 s) <> meanStress (embed 2 s).
Proof.
  assert (H : forall s, rHydrostaticStress 3 (stressVector 2 s) = (s 0%nat 0%nat + s 1%nat 1%nat) / 2).
  { intros s. unfold rHydrostaticStress, hydrostaticStress; cbn. unfold Rdiv. ring. }
  split; [exact H|]. exists (fun i j => if ((i =? 0) && (j =? 0))%nat then 1 else 0). split; [intros i j Hi Hj; cases i; cases j; reflexivity|].
  rewrite H. unfold meanStress, embed; cbn. lra.
Qed.
Print Assumptions C55_hydrostatic_partial.
Print Assumptions C55_hydrostatic_refuted.

(** C55, full claim: the von Mises stress is a number for every state of stress. False in binary64: the second invariant of a
    hydrostatic state can be negative after rounding. *)
Definition fVonMises := vonMises float 0%float 1%float 2%float 3%float PrimFloat.add PrimFloat.sub PrimFloat.mul PrimFloat.div PrimFloat.sqrt.
Definition hydrostaticState (p : float) (k : nat) : float := if (k <? 3)%nat then p else 0%float.

Theorem C55_von_mises_number_refuted : exists p, PrimFloat.is_finite p = true /\ PrimFloat.is_nan (fVonMises 6 (hydrostaticState p)) = true.
Proof. exists 0x1.0cccccccccccdp+1%float. split; vm_compute; reflexivity. Qed.
Print Assumptions C55_von_mises_number_refuted.

(** C81: the first principal stress is the largest normal stress, the last one the smallest *)
Definition decomposition (n : nat) (s : nat -> nat -> R) (values : list R) : Prop :=
  length values = n /\
  (forall i j, (i <= j < n)%nat -> nth i values 0 <= nth j values 0) /\
  exists N, eqm n (mul n N (transpose N)) identity /\ eqm n (mul n (transpose N) N) identity /\
    forall i j, (i < n)%nat -> (j < n)%nat -> s i j = sum n (fun a => N i a * nth a values 0 * N j a).

Definition asMatrix (rows : list (list R)) (i j : nat) : R := nth j (nth i rows []) 0.

Lemma norm_transpose n N x : eqm n (mul n N (transpose N)) identity ->
  sum n (fun a => dot n (fun i => N i a) x * dot n (fun i => N i a) x) = dot n x x.
Proof.
  intros O. unfold dot.
  transitivity (sum n (fun a => sum n (fun i => sum n (fun j => N i a * x i * (N j a * x j))))).
  { apply sum_ext. intros a _. rewrite <- sum_mul_r. apply sum_ext. intros i _. rewrite <- sum_mul_l. reflexivity. }
  rewrite sum_swap. apply sum_ext. intros i Hi. rewrite sum_swap.
  transitivity (sum n (fun j => identity i j * (x i * x j))).
  - apply sum_ext. intros j Hj. rewrite <- (O i j Hi Hj). unfold mul, transpose. rewrite <- sum_mul_r. apply sum_ext. intros a _. ring.
  - now rewrite sum_id_l.
Qed.

Lemma normal_stress n s values N x :
  (forall i j, (i < n)%nat -> (j < n)%nat -> s i j = sum n (fun a => N i a * nth a values 0 * N j a)) ->
  traction n s x x = sum n (fun a => nth a values 0 * (dot n (fun i => N i a) x * dot n (fun i => N i a) x)).
Proof.
  intros D. unfold traction, dot, apply.
  transitivity (sum n (fun i => sum n (fun j => sum n (fun a => nth a values 0 * (N i a * x i * (N j a * x j)))))).
  - apply sum_ext. intros i Hi. rewrite <- sum_mul_l. apply sum_ext. intros j Hj. rewrite (D i j Hi Hj), <- sum_mul_r, <- sum_mul_l.
    apply sum_ext. intros a _. ring.
  - transitivity (sum n (fun a => sum n (fun i => sum n (fun j => nth a values 0 * (N i a * x i * (N j a * x j)))))).
    + rewrite sum_swap. transitivity (sum n (fun i => sum n (fun a => sum n (fun j => nth a values 0 * (N i a * x i * (N j a * x j)))))).
      * rewrite sum_swap. apply sum_ext. intros i _. apply sum_swap.
      * apply sum_swap.
    + apply sum_ext. intros a _. rewrite <- sum_mul_r, <- sum_mul_l. apply sum_ext. intros i _. rewrite <- sum_mul_l, <- sum_mul_l.
      apply sum_ext. intros j _. ring.
Qed.

Lemma sum_le n f g : (forall k, (k < n)%nat -> f k <= g k) -> sum n f <= sum n g.
Proof. induction n as [|n IH]; intros H; cbn [sum]; [lra|]. apply Rplus_le_compat; [apply IH; intros; apply H; lia|apply H; lia]. Qed.

Lemma rev_nth_error {A} (l : list A) k x : (k < length l)%nat -> nth_error (rev l) k = Some (nth (length l - 1 - k) l x).
Proof.
  intros H. rewrite (nth_error_nth' _ x) by now rewrite rev_length. rewrite rev_nth by assumption. do 2 f_equal. lia.
Qed.

Theorem C81_principal d s eigenvalues :
  (2 <= d <= 3)%nat -> symmetric d s ->
  (forall n rows, decomposition n (asMatrix rows) (eigenvalues n rows)) ->
  exists sigma : nat -> R,
    (forall k, (k < d)%nat -> principalStress R eigenvalues (voigtLength d) (stressVector d s) k = Number (sigma k)) /\
    (forall i j, (i <= j < d)%nat -> sigma j <= sigma i) /\
    (forall n, unitVector d n -> sigma (d - 1)%nat <= traction d s n n <= sigma 0%nat) /\
    (exists N, forall k, (k < d)%nat -> unitVector d (N k) /\ forall i, (i < d)%nat -> apply d s (N k) i = sigma k * N k i).
Proof.
  intros Hd S C.
  set (rows := snd (stressRows R (voigtLength d) (stressVector d s))).
  assert (F : fst (stressRows R (voigtLength d) (stressVector d s)) = d) by (assert (d = 2 \/ d = 3)%nat as [-> | ->] by lia; reflexivity).
  assert (As : forall i j, (i < d)%nat -> (j < d)%nat -> asMatrix rows i j = s i j).
  { intros i j Hi Hj. unfold rows, asMatrix. assert (d = 2 \/ d = 3)%nat as [-> | ->] by lia; cases i; cases j; cbn; try reflexivity; apply S; lia. }
  destruct (C d rows) as (L & O & N & N1 & N2 & D). set (l := eigenvalues d rows) in *.
  assert (D' : forall i j, (i < d)%nat -> (j < d)%nat -> s i j = sum d (fun a => N i a * nth a l 0 * N j a)).
  { intros i j Hi Hj. rewrite <- As by assumption. now apply D. }
  exists (fun k => nth (d - 1 - k) l 0). split; [|split; [|split]].
  - intros k Hk. unfold principalStress. destruct (stressRows _ _ _) as [n r] eqn:E. cbn in F, rows. subst n. fold rows in l.
    change r with rows. fold l. rewrite (rev_nth_error l k 0) by (rewrite L; assumption). now rewrite L.
  - intros i j Hij. apply O. lia.
  - intros n U. rewrite (normal_stress d s l N n D'). unfold unitVector in U. rewrite <- (norm_transpose d N n N1) in U.
    set (w a := dot d (fun i => N i a) n * dot d (fun i => N i a) n) in *.
    assert (W : forall a, 0 <= w a) by (intros; apply Rle_0_sqr).
    rewrite Nat.sub_diag, Nat.sub_0_r. split.
    + rewrite <- (Rmult_1_r (nth 0 l 0)), <- U, <- sum_mul_l. apply sum_le. intros a Ha. apply Rmult_le_compat_r; [apply W|]. apply O. lia.
    + rewrite <- (Rmult_1_r (nth (d - 1) l 0)), <- U, <- sum_mul_l. apply sum_le. intros a Ha. apply Rmult_le_compat_r; [apply W|]. apply O. lia.
  - exists (fun k i => N i (d - 1 - k)%nat). intros k Hk. split.
    + unfold unitVector, dot. assert (Q := N2 (d - 1 - k)%nat (d - 1 - k)%nat ltac:(lia) ltac:(lia)).
      unfold mul, transpose, identity in Q. now rewrite Nat.eqb_refl in Q.
    + intros i Hi. unfold apply.
      transitivity (sum d (fun a => N i a * nth a l 0 * identity a (d - 1 - k)%nat)).
      * transitivity (sum d (fun j => sum d (fun a => N i a * nth a l 0 * (N j a * N j (d - 1 - k)%nat)))).
        { apply sum_ext. intros j Hj. rewrite (D' i j Hi Hj), <- sum_mul_r. apply sum_ext. intros a _. ring. }
        rewrite sum_swap. apply sum_ext. intros a Ha. rewrite sum_mul_l. f_equal.
        rewrite <- (N2 a (d - 1 - k)%nat Ha ltac:(lia)). reflexivity.
      * rewrite (sum_pick d (d - 1 - k)%nat); [|lia|].
        { unfold identity. rewrite Nat.eqb_refl. ring. }
        intros a Ha Ne. unfold identity. destruct (Nat.eqb_spec a (d - 1 - k)); [lia|]. ring.
Qed.
Print Assumptions C81_principal.

(** C81: a component outside of the state of stress is not answered *)
Theorem C81_component d s eigenvalues k :
  (2 <= d <= 3)%nat -> (forall n rows, length (eigenvalues n rows) = n) -> (d <= k)%nat ->
  principalStress R eigenvalues (voigtLength d) (stressVector d s) k = Unreachable.
Proof.
  intros Hd L Hk. unfold principalStress. destruct (stressRows _ _ _) as [n rows] eqn:E.
  assert (n = d) as -> by (assert (d = 2 \/ d = 3)%nat as [-> | ->] by lia; cbn in E; congruence).
  destruct nth_error eqn:X; [|reflexivity]. exfalso.
  assert (nth_error (rev (eigenvalues d rows)) k <> None) as Y by now rewrite X.
  apply nth_error_Some in Y. rewrite rev_length, L in Y. lia.
Qed.
Print Assumptions C81_component.

(** A decomposition of a diagonal tensor *)
Example C81_applies : decomposition 2 (asMatrix [[3; 0]; [0; 5]]) [3; 5].
Proof.
  split; [reflexivity|]. split.
  - intros [|[|i]] [|[|j]] H; cbn; try lia; lra.
  - exists identity. repeat split; intros i j Hi Hj; cases i; cases j; cbn; ring.
Qed.

Lemma atan2_direction y x : x * x + y * y <> 0 ->
  cos (atan2 y x) = x / sqrt (x * x + y * y) /\ sin (atan2 y x) = y / sqrt (x * x + y * y).
Proof.
  intros N. assert (P : 0 < x * x + y * y) by (assert (A := Rle_0_sqr x); assert (B := Rle_0_sqr y); unfold Rsqr in *; lra).
  assert (G : forall x y, x <> 0 -> 0 < x * x + y * y -> sqrt (1 + (y / x)²) = sqrt (x * x + y * y) / Rabs x).
  { intros a b Na Pa. replace (1 + (b / a)²) with ((a * a + b * b) / (a * a)) by (unfold Rsqr; field; assumption).
    rewrite sqrt_div_alt by now apply Rsqr_pos_lt. f_equal. now rewrite <- sqrt_Rsqr_abs. }
  assert (Q : 0 < sqrt (x * x + y * y)) by now apply sqrt_lt_R0.
  unfold atan2. destruct (Rlt_dec 0 x) as [X|X]; [|destruct (Rlt_dec x 0) as [Y|Y]].
  - rewrite cos_atan, sin_atan, G, Rabs_pos_eq by lra. split; field; lra.
  - destruct (Rle_dec 0 y).
    + rewrite neg_cos, neg_sin, cos_atan, sin_atan, G, Rabs_left by lra. split; field; lra.
    + rewrite <- (cos_period _ 1), <- (sin_period _ 1). cbn [INR].
      replace (atan (y / x) - PI + 2 * 1 * PI) with (atan (y / x) + PI) by ring.
      rewrite neg_cos, neg_sin, cos_atan, sin_atan, G, Rabs_left by lra. split; field; lra.
  - assert (x = 0) as -> by lra.
    destruct (Rlt_dec 0 y); [|destruct (Rlt_dec y 0)].
    + rewrite cos_PI2, sin_PI2. replace (0 * 0 + y * y) with (y * y) by ring. rewrite sqrt_square by lra. split; field; lra.
    + rewrite cos_neg, sin_neg, cos_PI2, sin_PI2. replace (0 * 0 + y * y) with (- y * - y) by ring. rewrite sqrt_square by lra. split; field; lra.
    + exfalso. assert (y = 0) as -> by lra. lra.
Qed.

(** C81: the polar stresses are the tractions in radial and circumferential direction *)
Theorem C81_polar s (origin pos : R * R) :
  symmetric 2 s -> pos <> origin ->
  let x := fst pos - fst origin in
  let y := snd pos - snd origin in
  let r := sqrt (x * x + y * y) in
  let radial k := match k with 0%nat => x / r | _ => y / r end in
  let hoop k := match k with 0%nat => - (y / r) | _ => x / r end in
  rPolarStress origin pos (stressVector 2 s) 0 = Number (traction 2 s radial radial) /\
  rPolarStress origin pos (stressVector 2 s) 1 = Number (traction 2 s hoop hoop) /\
  rPolarStress origin pos (stressVector 2 s) 2 = Number (traction 2 s radial hoop) /\
  (forall comp, (2 < comp)%Z -> rPolarStress origin pos (stressVector 2 s) comp = RangeError).
Proof.
  intros S N. cbv zeta. set (x := fst pos - fst origin). set (y := snd pos - snd origin).
  assert (P : x * x + y * y <> 0).
  { intros Z. apply N. assert (A := Rle_0_sqr x); assert (B := Rle_0_sqr y); unfold Rsqr in *.
    assert (x = 0) by (apply Rsqr_0_uniq; unfold Rsqr; lra). assert (y = 0) by (apply Rsqr_0_uniq; unfold Rsqr; lra).
    destruct pos, origin. cbn in *. subst x y. f_equal; lra. }
  destruct (atan2_direction y x P) as [C D].
  assert (T : s 1%nat 0%nat = s 0%nat 1%nat) by (apply S; lia).
  unfold rPolarStress, polarStress. fold x y. rewrite C, D. unfold traction, dot, apply.
  split; [|split; [|split]].
  - cbn. rewrite T. f_equal. ring.
  - cbn. rewrite T. f_equal. ring.
  - cbn. rewrite T. f_equal. ring.
  - intros comp H. destruct (Z.ltb_spec 2 comp); [reflexivity|lia].
Qed.
Print Assumptions C81_polar.

(** A point to the right of the origin: the radial direction is the first axis *)
Example C81_polar_example : rPolarStress (1, 1) (3, 1) (stressVector 2 (fun i j => if ((i =? 0) && (j =? 0))%nat then 7 else 0)) 0 = Number 7.
Proof.
  destruct (C81_polar (fun i j => if ((i =? 0) && (j =? 0))%nat then 7 else 0) (1, 1) (3, 1)) as (H & _).
  - intros i j Hi Hj. cases i; cases j; reflexivity.
  - intros E. injection E. lra.
  - rewrite H. cbn. f_equal. replace ((3 - 1) * (3 - 1) + (1 - 1) * (1 - 1)) with ((3 - 1) * (3 - 1)) by ring.
    rewrite sqrt_square by lra. field.
Qed.

(** C81, full claim: every component outside of 0, 1, 2 raises the error. A negative one runs into __builtin_unreachable. *)
Theorem C81_polar_component_refuted : exists comp, ~ (0 <= comp <= 2)%Z /\
  rPolarStress (0, 0) (1, 0) (fun _ => 0) comp <> RangeError /\ rPolarStress (0, 0) (1, 0) (fun _ => 0) comp = Unreachable.
Proof. exists (-1)%Z. split; [lia|]. split; [|reflexivity]. cbn. discriminate. Qed.
Print Assumptions C81_polar_component_refuted.
