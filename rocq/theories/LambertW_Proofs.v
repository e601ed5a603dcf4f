(** Halley's method for x exp(x) = z. *)

From Coq Require Import Reals Lra Lia Bool Psatz.
From Coquelicot Require Import Coquelicot.
From Verif Require Import LambertW_Model.
Local Open Scope R_scope.

(** ** Signs from derivatives *)
Lemma mean_value (f f' : R -> R) : (forall t, is_derive f t (f' t)) -> forall d,
  exists c, Rmin 0 d <= c <= Rmax 0 d /\ f d - f 0 = f' c * (d - 0).
Proof.
  intros D d. apply (MVT_gen f 0 d f').
  - intros x _. apply D.
  - intros x _. apply continuity_pt_filterlim, (ex_derive_continuous f). exists (f' x). apply D.
Qed.
Lemma sign_of_derivative f f' : (forall t, is_derive f t (f' t)) -> (forall t, 0 <= f' t) -> forall d,
  (0 <= d -> f 0 <= f d) /\ (d <= 0 -> f d <= f 0).
Proof.
  intros D P d. destruct (mean_value f f' D d) as (c & _ & E).
  - specialize (P c). split; intros; nra.
Qed.
Lemma nonneg_of_derivative f f' : (forall t, is_derive f t (f' t)) -> (forall t, 0 <= t -> 0 <= f' t) -> (forall t, t <= 0 -> f' t <= 0) ->
  forall d, f 0 <= f d.
Proof.
  intros D P Q d. destruct (mean_value f f' D d) as (c & (H1 & H2) & E).
  - destruct (Rle_lt_dec 0 d).
    + rewrite Rmin_left, Rmax_right in * by lra. specialize (P c H1). nra.
    + rewrite Rmin_right, Rmax_left in * by lra. specialize (Q c H2). nra.
Qed.

(** ** No iterate passes the solution *)
Definition gap (a d : R) : R := exp d * (d * (a * a + 1) - 2 * a * a + 2 * a) + (a - 1 - d) * (d * (a + 1) + 2 * a).
Lemma exp_ge_1 d : 0 <= d -> 1 <= exp d.
Proof. intros H. destruct (Req_dec d 0) as [->|N]; [rewrite exp_0; lra|]. assert (X := exp_ineq1 d N). lra. Qed.
Lemma exp_le_1 d : d <= 0 -> exp d <= 1.
Proof. intros H. rewrite <- exp_0. destruct H as [H| ->]; [left; apply exp_increasing, H|lra]. Qed.
Lemma gap_sign a d : 0 < a -> (0 <= d -> 0 <= gap a d) /\ (d <= 0 -> gap a d <= 0).
Proof.
  intros Ha.
  set (k1 d := exp d * (d * (a * a + 1) - a * a + 2 * a + 1) + (a * a - 1 - 2 * a - 2 * d * (a + 1))).
  set (k2 d := exp d * (d * (a * a + 1) + 2 * a + 2) - 2 * (a + 1)).
  assert (D1 : forall t, is_derive (gap a) t (k1 t)) by (intros t; unfold gap, k1; auto_derive; [exact I|ring]).
  assert (D2 : forall t, is_derive k1 t (k2 t)) by (intros t; unfold k1, k2; auto_derive; [exact I|ring]).
  assert (P : forall t, 0 <= k1 t).
  { intros t. assert (X := nonneg_of_derivative k1 k2 D2). 
    replace 0 with (k1 0) by (unfold k1; rewrite exp_0; ring). apply X; clear X t; intros t Ht; unfold k2.
    - assert (E := exp_ge_1 t Ht). assert (0 <= t * (a * a + 1)) by (apply Rmult_le_pos; nra). nra.
    - assert (E := exp_le_1 t Ht). assert (E' := exp_pos t). assert (t * (a * a + 1) <= 0) by nra. nra. }
  destruct (sign_of_derivative (gap a) k1 D1 P d) as (X & Y).
  assert (Z : gap a 0 = 0) by (unfold gap; rewrite exp_0; ring). rewrite Z in X, Y. split; assumption.
Qed.

Lemma xexp_from_branch x : -1 <= x -> - exp (-1) <= x * exp x.
Proof.
  intros H. assert (D : forall t, is_derive (fun t => (t - 1) * exp (t - 1)) t (t * exp (t - 1))) by (intros t; auto_derive; [exact I|unfold Rminus; ring]).
  assert (X := nonneg_of_derivative (fun t => (t - 1) * exp (t - 1)) (fun t => t * exp (t - 1)) D). specialize (X ltac:(intros t Ht; apply Rmult_le_pos; [exact Ht|left; apply exp_pos])).
  specialize (X ltac:(intros t Ht; assert (P := exp_pos (t - 1)); nra) (x + 1)). cbv beta in X. replace (x + 1 - 1) with x in X by ring. replace (0 - 1) with (-1) in X by ring. lra.
Qed.

(** The denominator, times 2 (x + 1) *)
Definition divisor (z x : R) : R := exp x * (x * x + 2 * x + 2) + (x + 2) * z.
Lemma divisor_pos z x : -1 < x -> - exp (-1) <= z -> 0 < divisor z x.
Proof.
  intros Hx Hz. unfold divisor.
  assert (A : (x + 2) * exp (-1) < exp x * (x * x + 2 * x + 2)).
  { replace (exp x) with (exp (-1) * exp (x + 1)) by (rewrite <- exp_plus; f_equal; ring). assert (P := exp_pos (-1)).
    assert (E := exp_ineq1 (x + 1) ltac:(lra)). rewrite Rmult_assoc, (Rmult_comm (x + 2)). apply Rmult_lt_compat_l; [exact P|].
    assert (0 <= exp (x + 1) * ((x + 1) * (x + 1))) by (apply Rmult_le_pos; [left; apply exp_pos|nra]). nra. }
  nra.
Qed.
Lemma halley_form z x : -1 < x -> - exp (-1) <= z -> halley z x = x - 2 * (x + 1) * (x * exp x - z) / divisor z x.
Proof.
  intros Hx Hz. assert (D := divisor_pos z x Hx Hz). assert (P := exp_pos x). unfold halley. cbv zeta. f_equal.
  assert (E : exp x * (x + 1) - 1 / 2 * (exp x * (x + 2) / (exp x * (x + 1))) * (x * exp x - z) = divisor z x / (2 * (x + 1))) by (unfold divisor; field; split; lra).
  rewrite E. field. split; lra.
Qed.

(** In terms of the solution w and the distance d = x - w *)
Definition numerator (a d : R) : R := (a - 1) * exp d - (a - d - 1).
Definition denominator (a d : R) : R := exp d * (a * a + 1) + (a + 1) * (a - d - 1).
Lemma halley_step w x : -1 <= w -> -1 < x -> let a := x + 1 in let d := x - w in
  0 < denominator a d /\ x - halley (w * exp w) x = 2 * a * numerator a d / denominator a d.
Proof.
  intros Hw Hx a d. assert (Hz := xexp_from_branch w Hw). assert (D := divisor_pos _ x Hx Hz). assert (P := exp_pos w).
  assert (E : divisor (w * exp w) x = exp w * denominator a d).
  { unfold divisor, denominator. replace (exp x) with (exp w * exp d) by (rewrite <- exp_plus; f_equal; unfold d; ring). unfold a, d. ring. }
  assert (E' : x * exp x - w * exp w = exp w * numerator a d).
  { unfold numerator. replace (exp x) with (exp w * exp d) by (rewrite <- exp_plus; f_equal; unfold d; ring). unfold a, d. ring. }
  assert (Q : 0 < denominator a d) by nra. split; [exact Q|]. rewrite halley_form by assumption. rewrite E', E. fold a. field. split; lra.
Qed.
Lemma numerator_sign a d : 0 < a -> (0 < d -> d <= a -> 0 < numerator a d) /\ (d < 0 -> numerator a d < 0).
Proof.
  intros Ha. unfold numerator. split; intros.
  - assert (E := exp_ineq1 d ltac:(lra)). assert (E2 := exp_ineq1 (- d) ltac:(lra)). assert (I : exp d * exp (- d) = 1) by (rewrite <- exp_plus; replace (d + - d) with 0 by ring; apply exp_0).
    assert (P := exp_pos d). destruct (Rle_lt_dec 1 a); [nra|].
    (* (1 - a) exp d < 1 - a + d  from  1 - a + d > (1 - a)/(1 - d) *)
    assert (exp d * (1 - d) < 1) by nra. assert (0 <= (a - d) * (exp d - 1)) by (apply Rmult_le_pos; lra). nra.
  - assert (E := exp_ineq1 d ltac:(lra)). assert (E1 : exp d < 1) by (rewrite <- exp_0; apply exp_increasing; lra). nra.
Qed.

Lemma halley_between w x : -1 < w -> -1 < x -> let y := halley (w * exp w) x in
  (w < x -> w <= y < x) /\ (x < w -> x < y <= w) /\ (x = w -> y = w).
Proof.
  intros Hw Hx y. destruct (halley_step w x ltac:(lra) Hx) as (D & E). fold y in E. set (a := x + 1) in *. set (d := x - w) in *.
  assert (Ha : 0 < a) by (unfold a; lra). destruct (gap_sign a d Ha) as (G1 & G2). destruct (numerator_sign a d Ha) as (N1 & N2).
  assert (Id : d * denominator a d - 2 * a * numerator a d = gap a d) by (unfold denominator, numerator, gap; ring).
  assert (M : (x - y) * denominator a d = 2 * a * numerator a d) by (rewrite E; field; lra).
  split; [|split]; intros.
  - specialize (G1 ltac:(unfold d; lra)). specialize (N1 ltac:(unfold d; lra) ltac:(unfold a, d; lra)). split.
    + apply Rnot_lt_le. intros L. assert (d < x - y) by (unfold d; lra). nra.
    + apply Rnot_le_lt. intros L. nra.
  - specialize (G2 ltac:(unfold d; lra)). specialize (N2 ltac:(unfold d; lra)). split.
    + apply Rnot_le_lt. intros L. nra.
    + apply Rnot_lt_le. intros L. assert (x - y < d) by (unfold d; lra). nra.
  - assert (d = 0) by (unfold d; lra). rewrite H0 in *. assert (numerator a 0 = 0) by (unfold numerator; rewrite exp_0; ring). rewrite H1 in M. nra.
Qed.

(** ** The correction bounds the error *)
Lemma exp_upper t : 0 <= t <= 1 -> exp t <= 1 + t + t * t / 2 + t * t * t / 4.
Proof.
  intros Ht. 
  assert (D : forall s, is_derive (fun s => (1 + s + s * s / 2 + s * s * s / 4) * exp (- s)) s ((s * s / 4 - s * s * s / 4) * exp (- s))) by (intros s; auto_derive; [exact I|field]).
  destruct (mean_value _ _ D t) as (c & Hc & E). cbv beta in E.
  - rewrite Rmin_left, Rmax_right in Hc by lra. assert (P := exp_pos (- c)). assert (Q := exp_pos (- t)).
    assert (0 <= c * c / 4 - c * c * c / 4) by (assert (0 <= c * c) by nra; nra).
    assert (Z : 1 <= (1 + t + t * t / 2 + t * t * t / 4) * exp (- t)).
    { rewrite Ropp_0, exp_0 in E. assert (0 <= (c * c / 4 - c * c * c / 4) * exp (- c) * (t - 0)) by (apply Rmult_le_pos; [apply Rmult_le_pos|]; lra). lra. }
    assert (I : exp t * exp (- t) = 1) by (rewrite <- exp_plus; replace (t + - t) with 0 by ring; apply exp_0). assert (R := exp_pos t). nra.
Qed.
Lemma exp_lower t : 1 + t + t * t / 2 + t * t * t / 6 <= exp t.
Proof.
  assert (D3 : forall s, is_derive (fun s => exp s - (1 + s + s * s / 2 + s * s * s / 6)) s (exp s - (1 + s + s * s / 2))) by (intros s; auto_derive; [exact I|field]).
  assert (D2 : forall s, is_derive (fun s => exp s - (1 + s + s * s / 2)) s (exp s - (1 + s))) by (intros s; auto_derive; [exact I|field]).
  assert (P1 : forall s, 0 <= exp s - (1 + s)) by (intros s; destruct (Req_dec s 0) as [->|N]; [rewrite exp_0; lra|assert (X := exp_ineq1 s N); lra]).
  assert (P2 : forall s, (0 <= s -> 0 <= exp s - (1 + s + s * s / 2)) /\ (s <= 0 -> exp s - (1 + s + s * s / 2) <= 0)).
  { intros s. destruct (sign_of_derivative _ _ D2 P1 s) as (A & B). rewrite exp_0 in A, B. split; intros; [specialize (A H)|specialize (B H)]; lra. }
  assert (X := nonneg_of_derivative _ _ D3 (fun s H => proj1 (P2 s) H) (fun s H => proj2 (P2 s) H) t). cbv beta in X. rewrite exp_0 in X. lra.
Qed.
Lemma exp_lower3 t : 0 <= t -> 1 + t + t * t / 2 <= exp t.
Proof. intros H. assert (X := exp_lower t). assert (0 <= t * t) by nra. nra. Qed.
Lemma exp_neg_upper t : 0 <= t <= 1 -> exp (- t) <= 1 - t + t * t / 2 - t * t * t / 8.
Proof.
  intros Ht. assert (L := exp_lower t). assert (I : exp t * exp (- t) = 1) by (rewrite <- exp_plus; replace (t + - t) with 0 by ring; apply exp_0).
  assert (P := exp_pos (- t)). set (u := 1 - t + t * t / 2 - t * t * t / 8). 
  assert (1 <= (1 + t + t * t / 2 + t * t * t / 6) * u).
  { replace ((1 + t + t * t / 2 + t * t * t / 6) * u) with (1 + (t * t) * t * (1 - t) * (1 / 24 + t * t / 48)) by (unfold u; field).
    assert (0 <= t * t) by nra. assert (0 <= (t * t) * t * (1 - t) * (1 / 24 + t * t / 48)) by (repeat apply Rmult_le_pos; lra). lra. }
  assert (0 < u).
  { unfold u. assert (0 <= t * t * (1 - t)) by (apply Rmult_le_pos; nra). assert (0 <= (t - 1) * (t - 1)) by nra. lra. }
  apply Rmult_le_reg_l with (exp t); [apply exp_pos|]. rewrite I. eapply Rle_trans; [eassumption|]. apply Rmult_le_compat_r; lra.
Qed.

(** From above, at most 1 away *)
Lemma near_above a d : 0 <= d <= 1 -> d <= a -> 11 * d * denominator a d <= 40 * a * numerator a d.
Proof.
  intros Hd Ha. unfold denominator, numerator. assert (L := exp_lower d). assert (U := exp_upper d Hd). set (e := exp d) in *. clearbody e.
  set (r := e - (1 + d + d * d / 2)). assert (R1 : d * d * d / 6 <= r) by (unfold r; lra). assert (R2 : r <= d * d * d / 4) by (unfold r; lra).
  (* a polynomial of a, increasing for a >= d *)
  set (c2 := 18 * d + 9 * (d * d) - 11 / 2 * (d * d * d) + r * (40 - 11 * d)). set (c1 := - 9 * (d * d) - 40 * r). set (c0 := - 11 / 2 * (d * d * d) - 11 * (d * r)).
  assert (E : 40 * a * ((a - 1) * e - (a - d - 1)) = 11 * d * (e * (a * a + 1) + (a + 1) * (a - d - 1)) + (c2 * (a * a) + c1 * a + c0)).
  { replace e with (1 + d + d * d / 2 + r) by (unfold r; ring). unfold c2, c1, c0. field. }
  rewrite E. clear E.
  assert (D2 : 0 <= d * d) by nra. assert (D3 : 0 <= d * d * d) by nra. assert (R0 : 0 <= r) by lra. assert (D23 : d * d * d <= d * d) by nra.
  assert (C2 : 18 * d <= c2) by (unfold c2; assert (0 <= r * (40 - 11 * d)) by (apply Rmult_le_pos; lra); lra).
  assert (C1 : 0 <= 2 * d * c2 + c1).
  { unfold c1. assert (2 * d * (18 * d) <= 2 * d * c2) by (apply Rmult_le_compat_l; lra). lra. }
  assert (C0 : 0 <= c2 * (d * d) + c1 * d + c0).
  { replace (c2 * (d * d) + c1 * d + c0) with (7 / 2 * (d * d * d) + 9 * (d * d * d * d) - 11 / 2 * (d * d * d * d * d) - r * (51 * d - 40 * (d * d) + 11 * (d * d * d))) by (unfold c2, c1, c0; field).
    assert (0 <= 51 * d - 40 * (d * d) + 11 * (d * d * d)) by nra.
    assert (r * (51 * d - 40 * (d * d) + 11 * (d * d * d)) <= d * d * d / 4 * (51 * d - 40 * (d * d) + 11 * (d * d * d))) by (apply Rmult_le_compat_r; assumption).
    assert (0 <= (d * d * d) * (7 / 2 - 15 / 4 * d + 9 / 2 * (d * d) - 11 / 4 * (d * d * d))) by (apply Rmult_le_pos; [assumption|]; nra). lra. }
  assert (0 <= (a - d) * (c2 * (a - d) + (2 * d * c2 + c1))) by (apply Rmult_le_pos; [lra|]; nra).
  nra.
Qed.

(** From below, at most 1 away *)
Lemma near_below a t : 0 <= t <= 1 -> 1 <= a -> 40 * a * numerator a (- t) <= - (11 * t * denominator a (- t)).
Proof.
  intros Ht Ha. unfold denominator, numerator. assert (L := exp_lower (- t)). assert (U := exp_neg_upper t Ht). set (e := exp (- t)) in *. clearbody e.
  set (r := 1 - t + t * t / 2 - e). assert (R1 : t * t * t / 8 <= r) by (unfold r; lra).
  set (c2 := 18 * t - 9 * (t * t) - 11 / 2 * (t * t * t) + r * (40 + 11 * t)). set (c1 := 9 * (t * t) - 40 * r). set (c0 := - 11 / 2 * (t * t * t) + 11 * (t * r)).
  assert (E : 40 * a * ((a - 1) * e - (a - - t - 1)) = - (11 * t * (e * (a * a + 1) + (a + 1) * (a - - t - 1))) - (c2 * (a * a) + c1 * a + c0)).
  { replace e with (1 - t + t * t / 2 - r) by (unfold r; ring). unfold c2, c1, c0. field. }
  rewrite E. clear E. assert (T2 : 0 <= t * t) by nra. assert (T3 : 0 <= t * t * t) by nra. assert (R0 : 0 <= r) by lra.
  assert (T2' : t * t <= t) by nra. assert (T3' : t * t * t <= t) by nra. assert (TR : 0 <= t * r) by nra.
  assert (S0 : 0 <= c2 + c1 + c0) by (unfold c2, c1, c0; lra). assert (S1 : 0 <= 2 * c2 + c1) by (unfold c2, c1; lra). assert (S2 : 0 <= c2) by (unfold c2; lra).
  assert (0 <= (a - 1) * (c2 * (a - 1) + (2 * c2 + c1))) by (apply Rmult_le_pos; [lra|]; nra).
  nra.
Qed.

Lemma exp_1_upper : exp 1 <= 11 / 4.
Proof. assert (X := exp_upper 1 ltac:(lra)). lra. Qed.

(** Further away the corrections are at least 1/2 *)
Lemma far_above a d : 1 <= d -> d <= a -> denominator a d <= 4 * a * numerator a d.
Proof.
  intros Hd Ha. unfold denominator, numerator. set (c := 3 * (a * a) - 4 * a - 1).
  assert (E : 4 * a * ((a - 1) * exp d - (a - d - 1)) = exp d * (a * a + 1) + (a + 1) * (a - d - 1) + (exp d * c - (a - d - 1) * (5 * a + 1))) by (unfold c; ring).
  rewrite E. clear E. cut (0 <= exp d * c - (a - d - 1) * (5 * a + 1)); [lra|].
  assert (B : (a - d - 1) * (5 * a + 1) <= (a - 2) * (5 * a + 1)) by (apply Rmult_le_compat_r; lra).
  destruct (Rle_lt_dec 0 c) as [C|C].
  - assert (X := exp_lower3 d ltac:(lra)). assert (5 / 2 <= exp d) by nra. assert (5 / 2 * c <= exp d * c) by (apply Rmult_le_compat_r; lra). unfold c in *. nra.
  - set (s := a - 1). assert (Hs : 0 <= s) by (unfold s; lra). assert (Hs1 : s <= 1) by (unfold s, c in *; nra).
    assert (X : exp d <= 11 / 4 * (1 + s + s * s / 2 + s * s * s / 4)).
    { apply Rle_trans with (exp (1 + s)); [destruct (Rle_lt_or_eq_dec d (1 + s) ltac:(unfold s; lra)) as [Q| ->]; [left; apply exp_increasing, Q|lra]|].
      rewrite exp_plus. assert (E1 := exp_1_upper). assert (E2 := exp_upper s ltac:(lra)). assert (P1 := exp_pos 1). assert (P2 := exp_pos s). apply Rmult_le_compat; lra. }
    assert (Y : c * (11 / 4 * (1 + s + s * s / 2 + s * s * s / 4)) <= c * exp d) by (apply Rmult_le_compat_neg_l; lra).
    replace c with (3 * (s * s) + 2 * s - 2) in Y at 1 by (unfold c, s; ring). assert (B' : (a - d - 1) * (5 * a + 1) <= - (6 - s - 5 * (s * s))) by (eapply Rle_trans; [exact B|]; right; unfold s; ring).
    assert (0 <= s * s) by nra. assert (0 <= s * s * s) by nra. assert (0 <= s * s * s * s) by nra. assert (0 <= s * s * s * s * s) by nra.
    assert (0 <= 1 / 2 - s + 6 * (s * s)) by nra. 
    assert (Z : (3 * (s * s) + 2 * s - 2) * (11 / 4 * (1 + s + s * s / 2 + s * s * s / 4)) = 11 / 4 * (- 2 + 4 * (s * s) + 7 / 2 * (s * s * s) + 2 * (s * s * s * s) + 3 / 4 * (s * s * s * s * s))) by field.
    rewrite Z in Y. lra.
Qed.
Lemma far_below a t : 1 <= t -> 1 <= a -> 4 * a * numerator a (- t) <= - denominator a (- t).
Proof.
  intros Ht Ha. unfold denominator, numerator. set (e := exp (- t)).
  assert (Hp : 0 < e) by apply exp_pos.
  assert (He : e <= 3 / 8).
  { apply Rle_trans with (exp (- (1))); [unfold e; destruct (Rle_lt_or_eq_dec 1 t Ht) as [Q| <-]; [left; apply exp_increasing; lra|lra]|].
    assert (X := exp_neg_upper 1 ltac:(lra)). lra. }
  clearbody e. assert (e * (5 * (a * a) - 4 * a + 1) <= 3 / 8 * (5 * (a * a) - 4 * a + 1)) by (apply Rmult_le_compat_r; [nra|lra]).
  assert ((3 * a - 1) * a <= (3 * a - 1) * (a + t - 1)) by (apply Rmult_le_compat_l; lra).
  assert (0 <= (3 * a - 1) * a - 3 / 8 * (5 * (a * a) - 4 * a + 1)) by nra.
  replace (4 * a * ((a - 1) * e - (a - - t - 1))) with (- (e * (a * a + 1) + (a + 1) * (a - - t - 1)) + (e * (5 * (a * a) - 4 * a + 1) - (3 * a - 1) * (a + t - 1))) by ring. lra.
Qed.

(** The correction is at least half the error, or 1/2 *)
Lemma correction w x : -1 < w -> -1 < x -> (x < w -> 0 <= x) -> let y := halley (w * exp w) x in
  (Rabs (x - w) <= 1 -> 11 * Rabs (x - w) <= 20 * Rabs (y - x)) /\ (1 <= Rabs (x - w) -> 1 / 2 <= Rabs (y - x)).
Proof.
  intros Hw Hx Hb y. destruct (halley_step w x ltac:(lra) Hx) as (D & E). fold y in E. set (a := x + 1) in *. set (d := x - w) in *.
  assert (M : (x - y) * denominator a d = 2 * a * numerator a d) by (rewrite E; field; lra).
  destruct (Rle_lt_dec 0 d) as [P|P]; split; intros Q.
  - rewrite Rabs_right in Q by lra. assert (X := near_above a d ltac:(lra) ltac:(unfold a, d; lra)). rewrite (Rabs_right d) by lra. assert (11 * d <= 20 * (x - y)) by nra.
    rewrite Rabs_minus_sym, Rabs_right by lra. lra.
  - rewrite Rabs_right in Q by lra. assert (X := far_above a d ltac:(lra) ltac:(unfold a, d; lra)). assert (1 / 2 <= x - y) by nra. rewrite Rabs_minus_sym, Rabs_right by lra. lra.
  - rewrite Rabs_left in Q by lra. assert (Ha : 1 <= a) by (unfold a; assert (0 <= x) by (apply Hb; unfold d in P; lra); lra). assert (Ed : d = - (- d)) by ring.
    assert (X := near_below a (- d) ltac:(lra) Ha). rewrite <- Ed in X. rewrite (Rabs_left d) by lra. assert (11 * (- d) <= 20 * (y - x)) by nra.
    rewrite Rabs_right by lra. lra.
  - rewrite Rabs_left in Q by lra. assert (Ha : 1 <= a) by (unfold a; assert (0 <= x) by (apply Hb; unfold d in P; lra); lra). assert (Ed : d = - (- d)) by ring.
    assert (X := far_below a (- d) ltac:(lra) Ha). rewrite <- Ed in X. assert (1 / 2 <= y - x) by nra. rewrite Rabs_right by lra. lra.
Qed.

(** ** The initial guess *)
Lemma ln_le_sub t : 0 < t -> ln t <= t - 1.
Proof. intros H. apply Rnot_lt_le. intros L. apply exp_increasing in L. rewrite exp_ln in L by exact H. destruct (Req_dec t 1) as [->|N]; [replace (1 - 1) with 0 in L by ring; rewrite exp_0 in L; lra|]. assert (X := exp_ineq1 (t - 1) ltac:(lra)). lra. Qed.
Lemma branch_exp : branchPoint = - exp (-1).
Proof. unfold branchPoint. replace (-1) with (- (1)) by lra. rewrite exp_Ropp. assert (P := exp_pos 1). field. lra. Qed.

(** For z > 1, with t = ln z and u = t - ln t *)
Lemma guess_large t : 0 < t -> let u := t - ln t in 1 <= u /\ t - ln t - 0.5 * ln (1 + - ln t / t) = (u + t - ln u) / 2.
Proof.
  intros Ht u. assert (U : 1 <= u) by (unfold u; assert (X := ln_le_sub t Ht); lra). split; [exact U|].
  replace (1 + - ln t / t) with (u / t) by (unfold u; field; lra). unfold Rdiv at 1. rewrite ln_mult by (try apply Rinv_0_lt_compat; lra). rewrite ln_Rinv by lra. unfold u. lra.
Qed.

Lemma guess_domain cmp z w : -1 <= w -> w * exp w = z -> - exp (-1) < z -> let x := initialGuess cmp z in -1 < x /\ (x < w -> 0 <= x).
Proof.
  intros Hw E Hz x. unfold x, initialGuess. clear x. unfold floatGt. destruct (Rlt_dec 1 z) as [L|L]; cbn [andb].
  - destruct (negb (floatEq cmp z 1)).
    + assert (Ht : 0 < ln z) by (rewrite <- ln_1; apply ln_increasing; lra). cbv zeta. destruct (guess_large (ln z) Ht) as (U & ->). set (u := ln z - ln (ln z)) in *.
      assert (X := ln_le_sub u ltac:(lra)). split; intros; lra.
    + split; intros; lra.
  - assert (P : exp (-1) < 1) by (rewrite <- exp_0; apply exp_increasing; lra). split; [lra|]. intros H. destruct (Rle_lt_dec 0 z) as [Q|Q]; [lra|exfalso].
    assert (Pw := exp_pos w). assert (w < 0) by nra. assert (exp w < 1) by (rewrite <- exp_0; apply exp_increasing; lra). nra.
Qed.

(** The initial guess is at most 1 away from the solution, unless z is between 1 and exp(1/10) *)
Lemma solution_lower w c : -1 <= w -> 0 <= c <= 1 -> c * (1 + c + c * c / 2 + c * c * c / 4) <= w * exp w -> c <= w.
Proof.
  intros Hw Hc H. apply Rnot_lt_le. intros L. assert (P := exp_pos w). destruct (Rlt_le_dec w 0) as [N|N].
  - assert (w * exp w < 0) by nra. assert (0 <= c * c) by nra. assert (0 <= c * c * c) by nra. assert (0 <= c * (1 + c + c * c / 2 + c * c * c / 4)) by (apply Rmult_le_pos; lra). lra.
  - assert (E : exp w < exp c) by (apply exp_increasing, L). assert (U := exp_upper c Hc). assert (w * exp w < c * exp c) by nra. nra.
Qed.
Lemma guess_near cmp z w : -1 <= w -> w * exp w = z -> - exp (-1) < z -> 0 <= cmp < 1 / 20 -> z <= 1 \/ exp (1 / 10) <= z -> Rabs (initialGuess cmp z - w) <= 1.
Proof.
  intros Hw E Hz Hc Hr. unfold initialGuess, floatGt. assert (Pw := exp_pos w).
  assert (P1 : exp (-1) < 1) by (rewrite <- exp_0; apply exp_increasing; lra).
  destruct (Rlt_dec 1 z) as [L|L]; cbn [andb].
  - assert (B : exp (1 / 10) <= z) by lra. assert (B' := exp_ineq1 (1 / 10) ltac:(lra)).
    assert (F : floatEq cmp z 1 = false).
    { unfold floatEq. destruct (Rle_dec _ _) as [Q|Q]; [exfalso|reflexivity]. rewrite Rabs_right in Q by lra. rewrite (Rabs_right z), Rabs_R1 in Q by lra. rewrite Rmax_left in Q by lra. nra. }
    rewrite F. cbn [negb]. cbv zeta. set (t := ln z). assert (Ht : 1 / 10 <= t) by (unfold t; rewrite <- (ln_exp (1 / 10)); destruct B as [B|B]; [left; apply ln_increasing; [apply exp_pos|exact B]|rewrite B; lra]).
    destruct (guess_large t ltac:(lra)) as (U & ->). set (u := t - ln t) in *.
    assert (Wp : 0 < w) by (apply Rnot_le_lt; intros N; assert (w * exp w <= 0) by nra; lra).
    assert (Et : t = ln w + w) by (unfold t; rewrite <- E, ln_mult, ln_exp by (try apply exp_pos; lra); reflexivity).
    (* u <= w <= t - ln u + ... *)
    destruct (Rle_lt_dec 1 t) as [T|T].
    + assert (W1 : 1 <= w) by (apply Rnot_lt_le; intros N; assert (ln w < 0) by (rewrite <- ln_1; apply ln_increasing; lra); lra).
      assert (Lw : 0 <= ln w) by (rewrite <- ln_1; destruct W1 as [W1|W1]; [left; apply ln_increasing; lra|rewrite <- W1; lra]).
      assert (Uw : u <= w). { unfold u. assert (ln w <= ln t); [|lra]. destruct (Rle_lt_or_eq_dec w t ltac:(lra)) as [Q|Q]; [left; apply ln_increasing; lra|rewrite Q; lra]. }
      assert (Lu : ln u <= ln w) by (destruct Uw as [Uw|Uw]; [left; apply ln_increasing; lra|rewrite Uw; lra]).
      (* x - w = (u - w)/2 + (t - w - ln u)/2, and  t - w = ln w *)
      assert (Q : ln t - ln u <= 1).
      { assert (X : ln t <= t / 2). { assert (Y := ln_le_sub (t / 2) ltac:(lra)). unfold Rdiv in Y at 1. rewrite ln_mult, ln_Rinv in Y by lra. assert (ln 2 <= 1) by (assert (V := ln_le_sub 2 ltac:(lra)); lra). lra. }
        assert (Y : ln (t / u) <= ln 2). { assert (t / u <= 2) by (apply Rmult_le_reg_r with u; [lra|]; unfold Rdiv; rewrite Rmult_assoc, Rinv_l by lra; unfold u; lra).
          assert (0 < t / u) by (apply Rdiv_lt_0_compat; lra). destruct H as [H|H]; [left; apply ln_increasing; lra|rewrite H; lra]. }
        unfold Rdiv in Y. rewrite ln_mult, ln_Rinv in Y by (try apply Rinv_0_lt_compat; lra). assert (V := ln_le_sub 2 ltac:(lra)). lra. }
      apply Rabs_le. unfold u in *. lra.
    + assert (E25 : 10 <= exp 2.5). { assert (X := exp_lower3 1.25 ltac:(lra)). replace 2.5 with (1.25 + 1.25) by lra. rewrite exp_plus. assert (X' := exp_lower 1.25). nra. }
      assert (L10 : - 2.5 <= ln (1 / 10)). { assert (ln 10 <= 2.5). { rewrite <- (ln_exp 2.5). destruct E25 as [Q|Q]; [left; apply ln_increasing; lra|rewrite <- Q; lra]. }
        unfold Rdiv. rewrite Rmult_1_l, ln_Rinv by lra. lra. }
      assert (U2 : u <= 2.6).
      { unfold u. assert (X := ln_le_sub (1 / (10 * t)) ltac:(apply Rdiv_lt_0_compat; lra)). 
        assert (Y : ln (1 / (10 * t)) = ln (1 / 10) - ln t). { replace (1 / (10 * t)) with (1 / 10 * / t) by (field; lra). rewrite ln_mult, ln_Rinv by (try apply Rinv_0_lt_compat; lra). ring. }
        assert (Z : 1 / (10 * t) - 1 <= 1 / 10 - t). { apply Rmult_le_reg_r with (10 * t); [lra|]. replace ((1 / (10 * t) - 1) * (10 * t)) with (1 - 10 * t) by (field; lra). nra. }
        lra. }
      assert (U3 : u - ln u <= 1.7).
      { assert (L26 : 0.9 <= ln 2.6). { rewrite <- (ln_exp 0.9). assert (X := exp_upper 0.9 ltac:(lra)). destruct (Rle_lt_or_eq_dec (exp 0.9) 2.6 ltac:(lra)) as [Q|Q]; [left; apply ln_increasing; [apply exp_pos|exact Q]|rewrite Q; lra]. }
        assert (X := ln_le_sub (2.6 / u) ltac:(apply Rdiv_lt_0_compat; lra)). unfold Rdiv in X. rewrite ln_mult, ln_Rinv in X by (try apply Rinv_0_lt_compat; lra).
        assert (Z : 2.6 * / u - 1 <= 2.6 - u). { apply Rmult_le_reg_r with u; [lra|]. replace ((2.6 * / u - 1) * u) with (2.6 - u) by (field; lra). nra. }
        lra. }
      assert (W1 : w < 1) by (apply Rnot_le_lt; intros N; assert (0 <= ln w) by (rewrite <- ln_1; destruct N as [N|N]; [left; apply ln_increasing; lra|rewrite <- N; lra]); lra).
      assert (W4 : 0.4 <= w) by (apply solution_lower; lra).
      assert (ln u <= u - 1) by (apply ln_le_sub; lra). apply Rabs_le. lra.
  - assert (Z1 : z <= 1) by lra. assert (W1 : w <= 1). { apply Rnot_lt_le. intros N. assert (X := exp_ineq1 w ltac:(lra)). nra. }
    destruct (Rle_lt_dec 0 z) as [Q|Q].
    + assert (0 <= w) by (apply Rnot_lt_le; intros N; nra). apply Rabs_le. lra.
    + assert (w < 0) by nra. apply Rabs_le. lra.
Qed.
