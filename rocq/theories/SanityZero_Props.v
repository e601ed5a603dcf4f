(** Property C131, continued: what the checks of derivatives return if one of the errors is exactly zero. *)

From Coq Require Import List Reals Bool Arith ZArith Lra Lia.
From Coquelicot Require Import Coquelicot.
From Verif Require Import Utils_Model Utils_Proofs Utils_Props Sanity_Model Sanity_Props.
Import ListNotations.
Local Open Scope R_scope.

Lemma first_nan {P} (fit : list (option R) -> list (option R) -> P * option R) x y m : (m < length x)%nat -> length x = length y ->
  snd (fit (firstn (S m) x) (firstn (S m) y)) = None ->
  findLineSegment ltbNaN fit x y (Z.of_nat m) = Some (fst (fit (firstn (S m) x) (firstn (S m) y)), 0%nat, m).
Proof.
  intros Lx Ly N. unfold findLineSegment. destruct (Z.ltb_spec (Z.of_nat (length x)) (Z.of_nat m)); [lia|]. destruct (Z.ltb_spec (Z.of_nat m) 0); [lia|]. cbn [orb]. rewrite Nat2Z.id.
  destruct (fits_from_ok fit x y m (length x - m) 0) as (r & E & L & K); try lia. rewrite E.
  specialize (K 0%nat ltac:(lia)). change (skipn (0 + 0) x) with x in K. change (skipn (0 + 0) y) with y in K. destruct r as [|[p e] r]; [discriminate|]. change (nth_error ((p, e) :: r) 0) with (Some (p, e)) in K. assert (K' : fit (firstn (S m) x) (firstn (S m) y) = (p, e)) by congruence.
  rewrite K' in N |- *. cbn [snd fst] in *. subst e. cbn [map snd min_element].
  assert (Z0 : forall l i, minFrom ltbNaN None 0 i l = 0%nat).
  { induction l as [|a l IH]; intros i; cbn [minFrom]; [reflexivity|]. replace (ltbNaN a None) with false by (destruct a; reflexivity). apply IH. }
  rewrite Z0. reflexivity.
Qed.

Lemma step_0 : step 0 = 1 / 100000000.
Proof.
  unfold step. replace (-8 + 6 * INR 0 / 99) with (- INR 8) by (cbn; lra). rewrite Rpower_Ropp, Rpower_pow by lra. cbn [pow]. lra.
Qed.

(** If the error at the smallest step is zero, the result depends only on the size of the first eleven errors *)
Theorem C131_first_zero : forall {X V} lsq (update : X -> V -> X) scale tol order value b x, undone update scale b x ->
  let E t := value (update x (scale t b)) t in
  E (1 / 100000000) = 0 ->
  check lsq update scale tol order value b x false =
    Some (if Rlt_dec (maxAbs (map (fun j => E (step j)) (seq 0 11))) (1 / 10000000000) then true else false).
Proof.
  intros X V lsq update scale tol order value b x U E Z. unfold check. rewrite (evaluations_map _ _ _ _ _ _ U). fold E.
  change (fun t : R => value (update x (scale t b)) t) with E. unfold returnSlope.
  rewrite first_nan.
  - replace (rangeSize + 1 - 0)%nat with 11%nat by reflexivity. cbn [skipn].
    assert (W : firstn 11 (map E steps) = map (fun j => E (step j)) (seq 0 11)) by reflexivity. rewrite W.
    destruct (Rlt_dec _ _); [reflexivity|]. unfold polyfitNaN.
    assert (N : numbers (firstn (S rangeSize) (map log10 (map E steps))) = None).
    { change (firstn (S rangeSize) (map log10 (map E steps))) with (log10 (E (step 0)) :: map (fun j => log10 (E (step j))) (seq 1 10)).
      rewrite step_0, Z. unfold log10 at 1. destruct (Rlt_dec 0 0); [lra|]. reflexivity. }
    rewrite N. destruct (numbers (firstn (S rangeSize) (map log10 steps))); reflexivity.
  - rewrite map_length, steps_length. unfold rangeSize. lia.
  - rewrite !map_length. reflexivity.
  - unfold polyfitNaN.
    assert (N : numbers (firstn (S rangeSize) (map log10 (map E steps))) = None).
    { change (firstn (S rangeSize) (map log10 (map E steps))) with (log10 (E (step 0)) :: map (fun j => log10 (E (step j))) (seq 1 10)).
      rewrite step_0, Z. unfold log10 at 1. destruct (Rlt_dec 0 0); [lra|]. reflexivity. }
    rewrite N. destruct (numbers (firstn (S rangeSize) (map log10 steps))); reflexivity.
Qed.

(** A wrong second derivative is accepted, although the errors are squares of the steps for all steps but the smallest ones *)
Definition bent (x : R) : R := x ^ 2 * (x - 1 / 100000000) / (x + 1 / 100000000).
Definition bent' (x : R) : R := (2 * x * (x ^ 2 - (1 / 100000000) ^ 2) + x ^ 2 * (2 / 100000000)) / (x + 1 / 100000000) ^ 2.
Theorem C131_zero_refuted : forall lsq, undone Rplus Rmult 1 0 /\
  (forall x, - (1 / 100000000) < x -> is_derive bent x (bent' x)) /\ bent' 0 = 0 /\ is_derive bent' 0 (-2) /\
  checkHessian lsq Rplus Rmult (1 / 100) bent 0 0 1 0 false = Some true.
Proof.
  intros lsq. assert (U : undone Rplus Rmult 1 0) by (intro t; ring). split; [exact U|]. split; [|split; [|split]].
  - intros x Hx. unfold bent, bent'. auto_derive; [lra|]. field. lra.
  - unfold bent'. field.
  - unfold bent'. auto_derive; [|field]. replace ((0 + 1 / 100000000) ^ 2) with (1 / 10000000000000000) by field. lra.
  - unfold checkHessian. cbv zeta. rewrite C131_first_zero; [|exact U|].
    + destruct Rlt_dec as [|N]; [reflexivity|]. exfalso. apply N. apply maxAbs_lt; [lra|]. intros y Hy. apply in_map_iff in Hy as (j & <- & Hj). apply in_seq in Hj.
      assert (B : 1 / 100000000 <= step j <= 5 / 100000000).
      { split; [apply step_range; lia|]. pose proof step_10. destruct (Nat.eq_dec j 10) as [->|]; [lra|]. pose proof (step_mono j 10 ltac:(lia)). lra. }
      set (t := step j) in *. rewrite Rabs_Rabsolu.
      replace (bent (0 + t * 1) - bent 0 - t * 0 - 1 / 2 * t * t * 0) with (t ^ 2 * ((t - 1 / 100000000) / (t + 1 / 100000000))) by (unfold bent; field; lra).
      assert (Q : 0 <= (t - 1 / 100000000) / (t + 1 / 100000000) <= 1).
      { split; [apply Rmult_le_pos; [lra|left; apply Rinv_0_lt_compat; lra]|]. apply (Rmult_le_reg_r (t + 1 / 100000000)); [lra|].
        replace ((t - 1 / 100000000) / (t + 1 / 100000000) * (t + 1 / 100000000)) with (t - 1 / 100000000) by (field; lra). lra. }
      rewrite Rabs_pos_eq by nra. assert (t ^ 2 <= 25 / 10000000000000000) by nra. nra.
    + replace (bent (0 + 1 / 100000000 * 1)) with 0 by (unfold bent; field). replace (bent 0) with 0 by (unfold bent; field).
      replace (0 - 0 - 1 / 100000000 * 0 - 1 / 2 * (1 / 100000000) * (1 / 100000000) * 0) with 0 by ring. apply Rabs_R0.
Qed.

(** A right gradient is rejected *)
Definition steep (x : R) : R := 10 ^ 13 * x ^ 2 * (x - 1 / 100000000).
Theorem C131_rejected_refuted : forall lsq, undone Rplus Rmult 1 0 /\ is_derive steep 0 0 /\
  checkGradient lsq Rplus Rmult (1 / 100) steep 0 1 0 false = Some false.
Proof.
  intros lsq. assert (U : undone Rplus Rmult 1 0) by (intro t; ring). split; [exact U|]. split.
  - unfold steep. auto_derive; [exact I|]. ring.
  - unfold checkGradient. cbv zeta. rewrite C131_first_zero; [|exact U|].
    + destruct Rlt_dec as [N|]; [|reflexivity]. exfalso.
      match type of N with maxAbs (map ?E _) < _ => assert (K := maxAbs_ge (map E (seq 0 11)) (E 10%nat)) end.
      cbv beta in K. specialize (K ltac:(apply in_map_iff; exists 10%nat; split; [reflexivity|apply in_seq; lia])).
      pose proof step_10 as B. set (t := step 10) in *.
      replace (steep (0 + t * 1) - steep 0 - t * 0) with (10 ^ 13 * (t ^ 2 * (t - 1 / 100000000))) in K by (unfold steep; ring).
      assert (16 / 10 ^ 16 <= t ^ 2) by nra. assert (48 / 10 ^ 24 <= t ^ 2 * (t - 1 / 100000000)) by nra.
      rewrite Rabs_pos_eq in K by nra. assert (48 / 10 ^ 11 <= 10 ^ 13 * (t ^ 2 * (t - 1 / 100000000))) by nra. lra.
    + replace (steep (0 + 1 / 100000000 * 1)) with 0 by (unfold steep; field). replace (steep 0) with 0 by (unfold steep; field).
      replace (0 - 0 - 1 / 100000000 * 0) with 0 by ring. apply Rabs_R0.
Qed.

(** If all errors are positive, the result is decided by the straightest window: among the ninety windows of eleven consecutive errors the
    first one whose points, both axes logarithmic, have the least distance from their line of best fit. *)
Definition lessOrNaN (a b : option R) : bool := match a, b with Some a, Some b => if Rlt_dec a b then true else false | Some _, None => true | None, _ => false end.
Lemma min_numbers : forall l (b : R) bi i, List.Forall (fun e => e <> None) l -> minFrom ltbNaN (Some b) bi i l = minFrom lessOrNaN (Some b) bi i l.
Proof.
  induction l as [|e l IH]; intros b bi i F; [reflexivity|]. inversion F as [|? ? Ne Fl]; subst. destruct e as [e|]; [|congruence]. cbn [minFrom ltbNaN lessOrNaN].
  destruct (Rlt_dec e b); apply IH; auto.
Qed.
Lemma line_numbers {P} (fit : list (option R) -> list (option R) -> P * option R) x y m : (m < length x)%nat -> length x = length y ->
  (forall i, (i + m < length x)%nat -> snd (fit (firstn (S m) (skipn i x)) (firstn (S m) (skipn i y))) <> None) ->
  findLineSegment ltbNaN fit x y (Z.of_nat m) = findLineSegment lessOrNaN fit x y (Z.of_nat m).
Proof.
  intros Lx Ly N. unfold findLineSegment. destruct (_ || _)%bool; [reflexivity|]. rewrite Nat2Z.id.
  destruct (fits_from_ok fit x y m (length x - m) 0) as (r & E & L & K); try lia. rewrite E.
  replace (min_element ltbNaN (map snd r)) with (min_element lessOrNaN (map snd r)); [reflexivity|].
  assert (F : List.Forall (fun e => e <> None) (map snd r)).
  { apply Forall_forall. intros e He. apply in_map_iff in He as ([p e'] & <- & He). apply In_nth_error in He as (k & Hk). cbn [snd].
    assert (Lk : (k < length x - m)%nat) by (rewrite <- L; apply nth_error_Some; congruence).
    specialize (N k ltac:(lia)). rewrite (K k Lk) in Hk. assert (Hk' : fit (firstn (S m) (skipn k x)) (firstn (S m) (skipn k y)) = (p, e')) by (change (0 + k)%nat with k in Hk; congruence).
    rewrite Hk' in N. exact N. }
  destruct (map snd r) as [|e l]; [reflexivity|]. inversion F as [|? ? Ne Fl]; subst. destruct e as [e|]; [|congruence]. cbn [min_element]. symmetry. apply min_numbers. exact Fl.
Qed.

Theorem C131_straightest : forall {X V} lsq (update : X -> V -> X) scale tol order value b x, undone update scale b x ->
  let E t := value (update x (scale t b)) t in
  (forall j, (j < 100)%nat -> 0 < E (step j)) ->
  let window i (f : R -> R) := map (fun j => f (step j)) (seq i 11) in
  let fit i := polyfit lsq (window i lg) (window i (fun t => lg (E t))) 1 in
  exists i, (i < 90)%nat /\ (forall k, (k < 90)%nat -> snd (fit i) <= snd (fit k)) /\ (forall k, (k < i)%nat -> snd (fit i) < snd (fit k)) /\
    check lsq update scale tol order value b x false =
      Some (if Rlt_dec (maxAbs (window i E)) (1 / 10000000000) then true else floatLe order (Finite (nth 1 (fst (fit i)) 0)) tol).
Proof.
  intros X V lsq update scale tol order value b x U E P window fit. unfold check. rewrite (evaluations_map _ _ _ _ _ _ U).
  change (fun t : R => value (update x (scale t b)) t) with E. unfold returnSlope.
  assert (Wd : forall i (f : R -> R), (i < 90)%nat -> firstn 11 (skipn i (map f steps)) = window i f).
  { intros i f Hi. unfold window, steps. rewrite map_map. fold step. rewrite skipn_map, firstn_map. f_equal.
    replace 100%nat with (i + (11 + (89 - i)))%nat by lia. rewrite seq_app, skipn_app, seq_length, Nat.sub_diag. rewrite skipn_all2 by (rewrite seq_length; lia). cbn [app skipn].
    rewrite seq_app, firstn_app, seq_length, Nat.sub_diag, firstn_O, app_nil_r, firstn_all2 by (rewrite seq_length; lia). reflexivity. }
  assert (Fp : List.Forall (Rlt 0) (map E steps)).
  { apply Forall_forall. intros e He. apply in_map_iff in He as (t & <- & Ht). unfold steps in Ht. apply in_map_iff in Ht as (j & <- & Hj). apply in_seq in Hj. apply P. lia. }
  assert (Ft : forall i, (i < 90)%nat -> polyfitNaN lsq (firstn 11 (skipn i (map log10 steps))) (firstn 11 (skipn i (map log10 (map E steps)))) = (Some (fst (fit i)), Some (snd (fit i)))).
  { intros i Hi. unfold polyfitNaN.
    assert (N1 : numbers (firstn 11 (skipn i (map log10 steps))) = Some (window i lg)).
    { rewrite skipn_map, firstn_map, numbers_log by (apply Forall_part; apply steps_pos). rewrite <- firstn_map, <- skipn_map, Wd by auto. reflexivity. }
    assert (N2 : numbers (firstn 11 (skipn i (map log10 (map E steps)))) = Some (window i (fun t => lg (E t)))).
    { rewrite skipn_map, firstn_map, numbers_log by (apply Forall_part; exact Fp). rewrite <- firstn_map, <- skipn_map, map_map, Wd by auto. reflexivity. }
    rewrite N1, N2. unfold fit. destruct (polyfit _ _ _ _). reflexivity. }
  assert (Lx : length (map log10 steps) = 100%nat) by (rewrite map_length; apply steps_length).
  assert (Ly : length (map log10 (map E steps)) = 100%nat) by (rewrite !map_length; apply steps_length).
  rewrite line_numbers; [|rewrite Lx; unfold rangeSize; lia|congruence|].
  2:{ rewrite Lx. intros i Hi. unfold rangeSize in *. rewrite Ft by lia. discriminate. }
  destruct (C59_straightest_partial (option R) (option (list R)) lessOrNaN (polyfitNaN lsq)) with (x := map log10 steps) (y := map log10 (map E steps)) (m := rangeSize) as (i & Ef & Hi & A & B).
  - intros [a|]; cbn; [destruct (Rlt_dec a a); [lra|reflexivity]|reflexivity].
  - intros [a|] [c|] [d|]; cbn; intros Q1 Q2; try discriminate; try reflexivity. destruct (Rlt_dec a c), (Rlt_dec c d), (Rlt_dec a d); try discriminate; try reflexivity; lra.
  - intros [a|] [c|] [d|]; cbn; intros Q1; try discriminate; auto. destruct (Rlt_dec a d); try discriminate. destruct (Rlt_dec a c), (Rlt_dec c d); auto; lra.
  - rewrite Lx. unfold rangeSize. lia.
  - rewrite Lx, Ly. lia.
  - rewrite Lx in *. unfold rangeSize in *. assert (Hi' : (i < 90)%nat) by lia. exists i. split; [exact Hi'|]. split; [|split].
    + intros k Hk. specialize (A k ltac:(lia)). rewrite !Ft in A by lia. cbn [fst snd lessOrNaN] in A. destruct (Rlt_dec (snd (fit k)) (snd (fit i))); [discriminate|lra].
    + intros k Hk. specialize (B k Hk). rewrite !Ft in B by lia. cbn [fst snd lessOrNaN] in B. destruct (Rlt_dec (snd (fit i)) (snd (fit k))); [assumption|discriminate].
    + rewrite Ef. rewrite (Ft i Hi'). cbn [fst snd]. replace (i + 10 + 1 - i)%nat with 11%nat by lia. rewrite (Wd i E Hi'). destruct (Rlt_dec _ _); reflexivity.
Qed.
Example C131_straightest_applies : undone Rplus Rmult 1 0 /\ forall j, (j < 100)%nat -> 0 < Rabs ((0 + step j * 1) ^ 2 - 0 - step j * 0).
Proof. split; [intro t; ring|]. intros j _. pose proof (step_pos j). apply Rabs_pos_lt. replace ((0 + step j * 1) ^ 2 - 0 - step j * 0) with (step j * step j) by ring. nra. Qed.

Print Assumptions C131_first_zero.
Print Assumptions C131_zero_refuted.
Print Assumptions C131_rejected_refuted.
Print Assumptions C131_straightest.
