(** Property C24 in binary64 arithmetic: how far the load factor is from the intended one.

    Floating point numbers are represented by their real values; every operation rounds the exact result to the nearest binary64 number
    (ties to even), including the gradual underflow.  Overflow is not modelled: the theorem is about load factors whose binary64
    values are finite.  The number of load steps is an int and therefore exact. *)

From Coq Require Import List ZArith Bool Lia Reals Lra.
From Flocq Require Import Core Relative Plus_error.
From Verif Require Import Newton_Model Control_Model Control_Spec Control_Proofs Control_Props.
Import ListNotations.
Local Open Scope R_scope.

(** The binary64 format and its rounding. *)
Definition b64 (x : R) : Prop := generic_format radix2 (FLT_exp (-1074) 53) x.
Definition rnd64 (x : R) : R := round radix2 (FLT_exp (-1074) 53) ZnearestE x.
Definition add64 (a b : R) : R := rnd64 (a + b).
Definition sub64 (a b : R) : R := rnd64 (a - b).
Definition div64 (a b : R) : R := rnd64 (a / b).

(** Half a unit in the last place of 1, and half of the smallest positive number. *)
Definition u64 : R := bpow radix2 (-53).
Definition tiny64 : R := bpow radix2 (-1075).

Local Instance prec53 : Prec_gt_0 53. Proof. reflexivity. Qed.

Lemma u64_pos : 0 < u64. Proof. apply bpow_gt_0. Qed.
Lemma tiny64_pos : 0 < tiny64. Proof. apply bpow_gt_0. Qed.
Lemma u64_small : u64 <= 1.
Proof. unfold u64. change 1 with (bpow radix2 0). apply bpow_le. lia. Qed.

Lemma b64_rnd x : b64 (rnd64 x).
Proof. apply generic_format_round; [apply FLT_exp_valid, prec53|apply valid_rnd_N]. Qed.

Lemma u_ro_u : u_ro radix2 53 = u64.
Proof.
  pose proof (bpow_plus radix2 (-1) (-52)) as H. unfold u_ro, u64. replace (bpow radix2 (-1)) with (/ 2) in H by (unfold bpow; simpl; lra).
  symmetry. exact H.
Qed.

Lemma frac_le u : 0 < u -> u / (1 + u) <= u.
Proof. intro U. apply (Rmult_le_reg_r (1 + u)); [lra|]. unfold Rdiv. rewrite Rmult_assoc, Rinv_l, Rmult_1_r by lra. nra. Qed.

Lemma add64_error a b : b64 a -> b64 b -> exists e, Rabs e <= u64 /\ add64 a b = (a + b) * (1 + e).
Proof.
  intros A B. destruct (FLT_plus_error_N_ex radix2 (-1074) 53 (fun z => negb (Z.even z)) a b A B) as [e [E1 E2]].
  exists e. split; [|exact E2]. rewrite u_ro_u in E1. pose proof (frac_le u64 u64_pos). lra.
Qed.

Lemma sub64_error a b : b64 a -> b64 b -> exists e, Rabs e <= u64 /\ sub64 a b = (a - b) * (1 + e).
Proof. intros A B. apply (add64_error a (- b) A). apply generic_format_opp. exact B. Qed.

Lemma div64_error a b : exists e t, Rabs e <= u64 /\ Rabs t <= tiny64 /\ div64 a b = a / b * (1 + e) + t.
Proof.
  destruct (error_N_FLT radix2 (-1074) 53 prec53 (fun z => negb (Z.even z)) (a / b)) as [e [t [E1 [E2 [E3 E4]]]]].
  exists e, t. repeat split; [| |exact E4].
  - replace u64 with (/ 2 * bpow radix2 (- (53) + 1)); [exact E1|]. exact u_ro_u.
  - replace tiny64 with (/ 2 * bpow radix2 (-1074)); [exact E2|]. pose proof (bpow_plus radix2 (-1) (-1074)) as H.
    replace (bpow radix2 (-1)) with (/ 2) in H by (unfold bpow; simpl; lra). symmetry. exact H.
Qed.

Lemma addTimes_S (f : R -> R -> R) s : forall k p, addTimes f p s (S k) = f (addTimes f p s k) s.
Proof. induction k as [|k IH]; intro p; [reflexivity|]. change (addTimes f p s (S (S k))) with (addTimes f (f p s) s (S k)). rewrite IH. reflexivity. Qed.

(** The error of repeated addition of a number that is itself not rounded further. *)
Lemma repeated p s B N : b64 p -> b64 s -> (forall k, (k <= N)%nat -> Rabs (p + INR k * s) <= B) ->
  forall k, (k <= N)%nat -> b64 (addTimes add64 p s k) /\ Rabs (addTimes add64 p s k - (p + INR k * s)) <= ((1 + u64) ^ k - 1) * B.
Proof.
  intros P Sf HB. pose proof u64_pos as U. induction k as [|k IH]; intro K.
  - split; [exact P|]. simpl. replace (p - (p + 0 * s)) with 0 by ring. rewrite Rabs_R0. lra.
  - destruct IH as [F I]; [lia|]. rewrite addTimes_S. set (q := addTimes add64 p s k) in *. split; [apply b64_rnd|].
    destruct (add64_error q s F Sf) as [e [E1 E2]]. rewrite E2.
    pose proof (HB (S k) K) as HB'. rewrite S_INR in HB'. rewrite S_INR.
    set (d := q - (p + INR k * s)) in *. set (x := p + (INR k + 1) * s) in *.
    replace ((q + s) * (1 + e) - x) with (d * (1 + e) + x * e) by (unfold d, x; ring).
    eapply Rle_trans; [apply Rabs_triang|]. rewrite !Rabs_mult.
    assert (Rabs (1 + e) <= 1 + u64) as E3. { eapply Rle_trans; [apply Rabs_triang|]. rewrite Rabs_R1. lra. }
    assert (0 <= B) as B0 by (pose proof (Rabs_pos x); lra).
    assert (Rabs d * Rabs (1 + e) <= ((1 + u64) ^ k - 1) * B * (1 + u64)) by (apply Rmult_le_compat; auto using Rabs_pos).
    assert (Rabs x * Rabs e <= B * u64) by (apply Rmult_le_compat; auto using Rabs_pos).
    simpl. lra.
Qed.

(** The intended load factor after [k] of [n] steps, and the bound of the error. *)
Definition intended (tBegin tEnd : R) (n : Z) (k : nat) : R := tBegin + INR k * ((tEnd - tBegin) / IZR n).
Definition stepError (tBegin tEnd : R) (n : Z) : R := Rabs (tEnd - tBegin) * (2 * u64 + u64 ^ 2) + IZR n * tiny64.
Definition loadError (tBegin tEnd : R) (n : Z) (k : nat) : R :=
  ((1 + u64) ^ k - 1) * (Rmax (Rabs tBegin) (Rabs tEnd) + stepError tBegin tEnd n) + stepError tBegin tEnd n.

Lemma stepSize_error tb te n : (0 < n)%Z -> b64 tb -> b64 te ->
  IZR n * Rabs (div64 (sub64 te tb) (IZR n) - (te - tb) / IZR n) <= stepError tb te n.
Proof.
  intros N B E. assert (0 < IZR n) as N' by (apply (IZR_lt 0); lia). pose proof u64_pos as U.
  destruct (sub64_error te tb E B) as [e [E1 E2]]. destruct (div64_error (sub64 te tb) (IZR n)) as [f [t [F1 [F2 F3]]]].
  rewrite F3, E2. set (d := te - tb).
  replace (d * (1 + e) / IZR n * (1 + f) + t - d / IZR n) with (/ IZR n * (d * (e + f + e * f)) + t) by (field; lra).
  assert (Rabs (e + f + e * f) <= 2 * u64 + u64 ^ 2) as EF.
  { eapply Rle_trans; [apply Rabs_triang|]. rewrite Rabs_mult. pose proof (Rabs_triang e f).
    assert (Rabs e * Rabs f <= u64 * u64) by (apply Rmult_le_compat; auto using Rabs_pos). simpl. lra. }
  assert (Rabs (/ IZR n * (d * (e + f + e * f)) + t) <= / IZR n * (Rabs d * (2 * u64 + u64 ^ 2)) + tiny64) as H.
  { eapply Rle_trans; [apply Rabs_triang|]. rewrite !Rabs_mult, (Rabs_pos_eq (/ IZR n)) by (left; apply Rinv_0_lt_compat; lra).
    apply Rplus_le_compat; auto. apply Rmult_le_compat_l; [left; apply Rinv_0_lt_compat; lra|].
    apply Rmult_le_compat_l; auto using Rabs_pos. }
  apply (Rmult_le_compat_l (IZR n)) in H; [|lra]. unfold stepError. fold d.
  replace (IZR n * (/ IZR n * (Rabs d * (2 * u64 + u64 ^ 2)) + tiny64)) with (Rabs d * (2 * u64 + u64 ^ 2) + IZR n * tiny64) in H by (field; lra).
  exact H.
Qed.

(** Points between two numbers are not larger than the larger one. *)
Lemma between a b r : 0 <= r <= 1 -> Rabs (a + r * (b - a)) <= Rmax (Rabs a) (Rabs b).
Proof.
  intros [R0 R1]. replace (a + r * (b - a)) with ((1 - r) * a + r * b) by ring. eapply Rle_trans; [apply Rabs_triang|].
  rewrite !Rabs_mult, (Rabs_pos_eq (1 - r)), (Rabs_pos_eq r) by lra.
  pose proof (Rmax_l (Rabs a) (Rabs b)). pose proof (Rmax_r (Rabs a) (Rabs b)).
  pose proof (Rmult_le_compat_l (1 - r) _ _ ltac:(lra) H). pose proof (Rmult_le_compat_l r _ _ R0 H0). lra.
Qed.

Lemma k_over_n k n : (0 < n)%Z -> (k <= Z.to_nat n)%nat -> 0 <= INR k / IZR n <= 1.
Proof.
  intros N K. assert (0 < IZR n) by (apply (IZR_lt 0); lia). pose proof (pos_INR k).
  assert (INR k <= IZR n) by (rewrite INR_IZR_INZ; apply IZR_le; lia). split.
  - apply Rmult_le_pos; auto. left. apply Rinv_0_lt_compat. auto.
  - apply (Rmult_le_reg_r (IZR n)); auto. unfold Rdiv. rewrite Rmult_assoc, Rinv_l; lra.
Qed.

Lemma accumulated tb te n : (0 < n)%Z -> b64 tb -> b64 te -> forall k, (k <= Z.to_nat n)%nat ->
  Rabs (addTimes add64 tb (div64 (sub64 te tb) (IZR n)) k - intended tb te n k) <= loadError tb te n k.
Proof.
  intros N B E k K. pose proof (stepSize_error tb te n N B E) as HS. set (s := div64 (sub64 te tb) (IZR n)) in *.
  assert (0 < IZR n) as N' by (apply (IZR_lt 0); lia).
  assert (0 <= stepError tb te n) as SP. { eapply Rle_trans; [|exact HS]. apply Rmult_le_pos; auto using Rabs_pos. lra. }
  assert (forall j, (j <= Z.to_nat n)%nat -> Rabs (tb + INR j * s - intended tb te n j) <= stepError tb te n) as HJ.
  { intros j J. unfold intended. replace (tb + INR j * s - (tb + INR j * ((te - tb) / IZR n))) with (INR j * (s - (te - tb) / IZR n)) by ring.
    rewrite Rabs_mult, (Rabs_pos_eq (INR j)) by apply pos_INR. eapply Rle_trans; [|exact HS]. apply Rmult_le_compat_r; [apply Rabs_pos|].
    rewrite INR_IZR_INZ. apply IZR_le. lia. }
  assert (forall j, (j <= Z.to_nat n)%nat -> Rabs (tb + INR j * s) <= Rmax (Rabs tb) (Rabs te) + stepError tb te n) as HB.
  { intros j J. replace (tb + INR j * s) with (intended tb te n j + (tb + INR j * s - intended tb te n j)) by ring.
    eapply Rle_trans; [apply Rabs_triang|]. apply Rplus_le_compat; auto. unfold intended.
    replace (tb + INR j * ((te - tb) / IZR n)) with (tb + INR j / IZR n * (te - tb)) by (field; lra). apply between, k_over_n; auto. }
  destruct (repeated tb s _ (Z.to_nat n) B (b64_rnd _) HB k K) as [_ H].
  replace (addTimes add64 tb s k - intended tb te n k)
    with (addTimes add64 tb s k - (tb + INR k * s) + (tb + INR k * s - intended tb te n k)) by ring.
  eapply Rle_trans; [apply Rabs_triang|]. unfold loadError. specialize (HJ k K). lra.
Qed.

(** For every solver and listener, number of steps and range: started at tBegin, the load factor seen at the end of the k-th step is that far
    from tBegin + k (tEnd - tBegin) / steps at most, and after a successful run it is that far from tEnd at most. *)
Theorem C24_rounding_partial : forall (X W : Type) listen (solve : X -> R -> R -> W -> X * W * nlinfo R) (sync : X -> R -> X) loadSteps tBegin tEnd lc x w,
  b64 tBegin -> b64 tEnd ->
  lcConstruct sub64 div64 IZR loadSteps tBegin tEnd = Some lc ->
  let s := lcRun listen add64 0 solve sync lc x tBegin w in
  (forall k p, nth_error (stepParams (k_trace s)) k = Some p ->
     Rabs (p - intended tBegin tEnd loadSteps k) <= loadError tBegin tEnd loadSteps k) /\
  (c_success (k_info s) = true -> Rabs (k_p s - tEnd) <= loadError tBegin tEnd loadSteps (Z.to_nat loadSteps)).
Proof.
  intros X W listen solve sync n tb te lc x w B E L s.
  destruct (C23_load_control _ _ _ listen add64 sub64 div64 IZR 0 solve sync n tb te lc x tb w L) as [H1 [_ [_ [H4 [H5 [H6 _]]]]]].
  unfold lcConstruct in L. destruct (n <=? 0)%Z eqn:NN; [discriminate|]. apply Z.leb_gt in NN. fold s in H1, H4, H5, H6. split.
  - intros k p. rewrite H5, nth_error_map. destruct (nth_error (seq 0 (length (c_infos (k_info s)))) k) as [j|] eqn:J; [|discriminate].
    cbn. intro P. injection P as <-. assert (k < length (c_infos (k_info s)))%nat as KL.
    { assert (nth_error (seq 0 (length (c_infos (k_info s)))) k <> None) as Q by congruence. apply nth_error_Some in Q. rewrite seq_length in Q. exact Q. }
    apply (nth_error_nth _ _ 0%nat) in J. rewrite seq_nth in J by exact KL. cbn in J. subst j.
    apply accumulated; auto. lia.
  - intro Sc. rewrite H6, H4 by auto. replace (S (Z.to_nat n) - 1)%nat with (Z.to_nat n) by lia.
    replace te with (intended tb te n (Z.to_nat n)) at 2. { apply accumulated; auto. }
    unfold intended. rewrite INR_IZR_INZ, Z2Nat.id by lia. field. apply not_0_IZR. lia.
Qed.

Lemma power_bound k : INR k * u64 <= / 2 -> (1 + u64) ^ k <= 1 + 2 * INR k * u64.
Proof.
  pose proof u64_pos as U. induction k as [|k IH]; intro K; [simpl; lra|]. rewrite S_INR in *. pose proof (pos_INR k).
  assert ((1 + u64) ^ k <= 1 + 2 * INR k * u64) as I by (apply IH; lra). simpl.
  apply (Rmult_le_compat_l (1 + u64)) in I; [|lra]. assert (INR k * u64 <= / 2) as K' by lra. nra.
Qed.

(** For up to a thousand steps the relative error is below 1e-12. *)
Theorem C24_thousand_partial : forall (X W : Type) listen (solve : X -> R -> R -> W -> X * W * nlinfo R) (sync : X -> R -> X) loadSteps tBegin tEnd M lc x w,
  b64 tBegin -> b64 tEnd -> (loadSteps <= 1000)%Z -> 1 <= M -> Rabs tBegin <= M -> Rabs tEnd <= M ->
  lcConstruct sub64 div64 IZR loadSteps tBegin tEnd = Some lc ->
  let s := lcRun listen add64 0 solve sync lc x tBegin w in
  c_success (k_info s) = true -> Rabs (k_p s - tEnd) <= / 10 ^ 12 * M.
Proof.
  intros X W listen solve sync n tb te M lc x w B E N1 M1 MB ME L s Sc.
  destruct (C24_rounding_partial X W listen solve sync n tb te lc x w B E L) as [_ H]. specialize (H Sc).
  unfold lcConstruct in L. destruct (n <=? 0)%Z eqn:NN; [discriminate|]. apply Z.leb_gt in NN.
  eapply Rle_trans; [exact H|]. pose proof u64_pos as U. pose proof tiny64_pos as T0.
  assert (u64 = / 9007199254740992) as UV by (unfold u64, bpow; simpl; reflexivity).
  assert (tiny64 <= u64 * / 1024) as TV.
  { replace (u64 * / 1024) with (bpow radix2 (-63)); [apply bpow_le; lia|]. unfold u64, bpow. simpl. lra. }
  assert (IZR n <= 1000) as N2 by (apply IZR_le; lia). assert (0 < IZR n) as N3 by (apply (IZR_lt 0); lia).
  assert (INR (Z.to_nat n) = IZR n) as NI by (rewrite INR_IZR_INZ, Z2Nat.id by lia; reflexivity).
  assert (0 <= stepError tb te n <= 7 * M * u64) as [S0 S1].
  { unfold stepError. assert (Rabs (te - tb) <= 2 * M) as D by (unfold Rminus; eapply Rle_trans; [apply Rabs_triang|]; rewrite Rabs_Ropp; lra).
    pose proof (Rabs_pos (te - tb)) as D0. split.
    - apply Rplus_le_le_0_compat; apply Rmult_le_pos; try lra. simpl. nra.
    - assert (Rabs (te - tb) * (2 * u64 + u64 ^ 2) <= 2 * M * (3 * u64)).
      { apply Rmult_le_compat; auto; [simpl; nra|]. pose proof u64_small. simpl. nra. }
      assert (IZR n * tiny64 <= 1000 * (u64 * / 1024)) by (apply Rmult_le_compat; lra). nra. }
  pose proof (power_bound (Z.to_nat n)) as PB. rewrite NI in PB.
  assert ((1 + u64) ^ Z.to_nat n - 1 <= 2000 * u64) as P1.
  { assert (IZR n * u64 <= / 2) as Q by (apply (Rmult_le_compat_r u64) in N2; lra). specialize (PB Q).
    apply (Rmult_le_compat_r u64) in N2; lra. }
  assert (0 <= (1 + u64) ^ Z.to_nat n - 1) as P0.
  { pose proof (pow_R1_Rle (1 + u64) (Z.to_nat n)). lra. }
  assert (Rmax (Rabs tb) (Rabs te) <= M) as MM by (apply Rmax_lub; auto).
  pose proof (Rabs_pos tb) as A0. pose proof (Rmax_l (Rabs tb) (Rabs te)) as A1. unfold loadError.
  assert (((1 + u64) ^ Z.to_nat n - 1) * (Rmax (Rabs tb) (Rabs te) + stepError tb te n) <= 2000 * u64 * (2 * M)).
  { apply Rmult_le_compat; auto; [lra|]. assert (7 * M * u64 <= M) by (rewrite UV; lra). lra. }
  replace (/ 10 ^ 12) with (/ 1000000000000) by (simpl; lra). rewrite UV in *. lra.
Qed.

(** Ten steps from 0 to 1: the exact value is missed (C24_rounding_refuted), but only by that much. *)
Example C24_rounding_applies : exists lc, lcConstruct sub64 div64 IZR 10 0 1 = Some lc /\ b64 0 /\ b64 1 /\
  let s := lcRun (fun _ _ _ _ _ w => w) add64 0 (fun (x : unit) (_ _ : R) (w : unit) => (x, w, okInfo 0 1)) (fun x _ => x) lc tt 0 tt in
  c_success (k_info s) = true /\ Rabs (k_p s - 1) <= / 10 ^ 12.
Proof.
  assert (b64 0) as B0 by apply generic_format_0.
  assert (b64 1) as B1 by (change 1 with (bpow radix2 0); apply generic_format_bpow; unfold FLT_exp; simpl; lia).
  exists (10%Z, div64 (sub64 1 0) (IZR 10)). split; [reflexivity|]. repeat split; auto.
  pose proof (C24_thousand_partial unit unit (fun _ _ _ _ _ w => w) (fun x _ _ w => (x, w, okInfo 0 1)) (fun x _ => x) 10 0 1 1 (10%Z, div64 (sub64 1 0) (IZR 10)) tt tt
    B0 B1 ltac:(lia) ltac:(lra)) as H. rewrite Rabs_R0, Rabs_R1, Rmult_1_r in H. apply H; try lra; reflexivity.
Qed.

Print Assumptions C24_rounding_partial.
Print Assumptions C24_thousand_partial.
