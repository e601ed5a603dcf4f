(** Continuity of the derivatives of the deviatoric functions in all three stretches, and the first order expansion it gives. *)

From Coq Require Import Reals List ZArith Bool Lia Lra FunctionalExtensionality.
From Coquelicot Require Import Coquelicot.
From Verif Require Import Tensor_Spec Deviatoric_Model Deviatoric_Spec Deviatoric_Proofs Deviatoric_Props Spectral_Proofs.
Import ListNotations.
Local Open Scope R_scope.

(** Neighbourhoods of stretches *)
Definition nearby (l : stretches) (P : stretches -> Prop) : Prop :=
  exists d, 0 < d /\ forall l' : stretches, (forall i, (i < 3)%nat -> Rabs (l' i - l i) < d) -> P l'.

#[global] Instance nearby_filter l : Filter (nearby l).
Proof.
  constructor.
  - exists 1. split; [lra|auto].
  - intros P Q (d & D & H) (e & E & K). exists (Rmin d e). split; [now apply Rmin_glb_lt|].
    intros l' L. split; [apply H|apply K]; intros i Hi; eapply Rlt_le_trans; [now apply L|apply Rmin_l|now apply L|apply Rmin_r].
  - intros P Q I (d & D & H). exists d. split; auto.
Qed.

Definition cont (f : stretches -> R) (l : stretches) : Prop := filterlim f (nearby l) (locally (f l)).

Lemma cont_const c l : cont (fun _ => c) l.
Proof. apply filterlim_const. Qed.
Lemma cont_coord i l : (i < 3)%nat -> cont (fun l => l i) l.
Proof. intros Hi P [d H]. exists d. split; [apply cond_pos|]. intros l' L. apply H. exact (L i Hi). Qed.
Lemma cont_ext f g l : (forall l, f l = g l) -> cont f l -> cont g l.
Proof. intros E C. unfold cont. rewrite <- E. eapply filterlim_ext; [|exact C]. exact E. Qed.
Lemma cont_ext_near f g l : nearby l (fun l => f l = g l) -> cont f l -> cont g l.
Proof.
  intros E C. assert (E0 : f l = g l).
  { destruct E as (d & D & E). apply E. intros i _. unfold Rminus. now rewrite Rplus_opp_r, Rabs_R0. }
  unfold cont. rewrite <- E0. eapply filterlim_ext_loc; [exact E|exact C].
Qed.
Lemma cont_comp (g : R -> R) f l : cont f l -> continuous g (f l) -> cont (fun l => g (f l)) l.
Proof. intros F G. eapply filterlim_comp; [exact F|exact G]. Qed.
Lemma cont_plus f g l : cont f l -> cont g l -> cont (fun l => f l + g l) l.
Proof. intros F G. eapply (filterlim_comp_2 f g Rplus); [exact F|exact G|]. apply (filterlim_plus (f l) (g l)). Qed.
Lemma cont_mult f g l : cont f l -> cont g l -> cont (fun l => f l * g l) l.
Proof. intros F G. eapply (filterlim_comp_2 f g Rmult); [exact F|exact G|]. apply (filterlim_mult (f l) (g l)). Qed.
Lemma cont_opp f l : cont f l -> cont (fun l => - f l) l.
Proof. intros F. apply (cont_comp Ropp); [exact F|]. apply (@ex_derive_continuous R_AbsRing R_NormedModule). exists (-1). auto_derive; [exact I|ring]. Qed.
Lemma cont_minus f g l : cont f l -> cont g l -> cont (fun l => f l - g l) l.
Proof. intros F G. apply (cont_plus f (fun l => - g l)); [exact F|now apply cont_opp]. Qed.
Lemma cont_inv f l : cont f l -> f l <> 0 -> cont (fun l => / f l) l.
Proof. intros F N. apply (cont_comp Rinv); [exact F|]. now apply continuous_Rinv. Qed.
Lemma cont_div f g l : cont f l -> cont g l -> g l <> 0 -> cont (fun l => f l / g l) l.
Proof. intros F G N. apply (cont_mult f (fun l => / g l)); [exact F|now apply cont_inv]. Qed.
Lemma cont_pow f n l : cont f l -> cont (fun l => f l ^ n) l.
Proof. intros F. induction n as [|n IH]; cbn [pow]; [apply cont_const|]. now apply cont_mult. Qed.
Lemma cont_Rpower f a l : cont f l -> 0 < f l -> cont (fun l => Rpower (f l) a) l.
Proof.
  intros F P. apply (cont_comp (fun x => Rpower x a)); [exact F|].
  apply (@ex_derive_continuous R_AbsRing R_NormedModule). unfold Rpower. auto_derive. exact P.
Qed.
Lemma cont_powerRZ f z l : cont f l -> f l <> 0 -> cont (fun l => powerRZ (f l) z) l.
Proof.
  intros F N. destruct z as [|p|p]; cbn [powerRZ]; [apply cont_const|now apply cont_pow|].
  apply cont_inv; [now apply cont_pow|now apply pow_nonzero].
Qed.
Lemma cont_total {A} (f : A -> stretches -> R) terms l : (forall x, In x terms -> cont (f x) l) -> cont (fun l => total (fun x => f x l) terms) l.
Proof.
  induction terms as [|x terms IH]; intros H; [apply cont_const|].
  apply (cont_ext (fun l => f x l + total (fun x => f x l) terms)); [intros; now rewrite total_cons|].
  apply cont_plus; [apply H; now left|]. apply IH. intros; apply H; now right.
Qed.

(** ** The building blocks *)
Section At.
Variable l : stretches.
Hypothesis P : positiveStretches l.

Let P0 : 0 < l 0%nat. Proof. apply P. Qed.
Let P1 : 0 < l 1%nat. Proof. apply P. Qed.
Let P2 : 0 < l 2%nat. Proof. apply P. Qed.
Let PI3 : 0 < I3 l. Proof. now apply I3_pos. Qed.
Let PJ : 0 < prod3 l. Proof. now apply prod3_pos. Qed.

Ltac shape :=
  match goal with
  | |- cont (fun _ => ?c) _ => apply (cont_const c)
  | |- cont (fun x => x ?i) _ => apply (cont_coord i); lia
  | |- cont (fun x => @?f x + @?g x) _ => apply (cont_plus f g)
  | |- cont (fun x => @?f x - @?g x) _ => apply (cont_minus f g)
  | |- cont (fun x => @?f x * @?g x) _ => apply (cont_mult f g)
  | |- cont (fun x => @?f x / @?g x) _ => apply (cont_div f g)
  | |- cont (fun x => / @?f x) _ => apply (cont_inv f)
  | |- cont (fun x => - @?f x) _ => apply (cont_opp f)
  | |- cont (fun x => @?f x ^ ?n) _ => apply (cont_pow f n)
  | |- cont (fun x => Rpower (@?f x) ?a) _ => apply (cont_Rpower f a); [|first [assumption | apply positive_at; [assumption|lia]]]
  end; cbn beta.
Lemma cont_I1 : cont I1 l.
Proof. unfold I1, sum3. repeat shape. Qed.
Lemma cont_I2 : cont I2 l.
Proof. unfold I2. repeat shape. Qed.
Lemma cont_I3 : cont I3 l.
Proof. unfold I3, prod3. repeat shape. Qed.
Lemma cont_prod3 : cont prod3 l.
Proof. unfold prod3. repeat shape. Qed.
Lemma cont_W1 : cont W1 l.
Proof. unfold W1. apply cont_mult; [apply cont_I1|]. apply cont_Rpower; auto using cont_I3. Qed.
Lemma cont_W2 : cont W2 l.
Proof. unfold W2. apply cont_mult; [apply cont_I2|]. apply cont_Rpower; auto using cont_I3. Qed.
Lemma pow_ne a : Rpower (I3 l) a <> 0.
Proof. apply Rgt_not_eq, exp_pos. Qed.
Lemma cont_bar i : (i < 3)%nat -> cont (fun l => deviatoricStretches l i) l.
Proof. intros Hi. unfold deviatoricStretches. shape; [|shape]. apply cont_Rpower; auto using cont_prod3. Qed.
Lemma cont_barpow i a : (i < 3)%nat -> cont (fun l => Rpower (deviatoricStretches l i) a) l.
Proof. intros Hi. apply cont_Rpower; [now apply cont_bar|]. now apply bar_pos. Qed.
Lemma cont_barSum a : cont (barSum a) l.
Proof. unfold barSum, sum3. repeat shape; apply cont_barpow; lia. Qed.

Lemma l_ne i : (i < 3)%nat -> l i <> 0.
Proof. intros Hi. apply Rgt_not_eq. now apply positive_at. Qed.

Ltac side := repeat first [apply Rmult_integral_contrapositive_currified | apply pow_ne | apply pow_nonzero | apply l_ne; lia | lra].
Ltac step :=
  first
  [ assumption
  | match goal with
    | |- cont I1 _ => exact cont_I1 | |- cont I2 _ => exact cont_I2 | |- cont I3 _ => exact cont_I3
    | |- cont W1 _ => exact cont_W1 | |- cont W2 _ => exact cont_W2 | |- cont prod3 _ => exact cont_prod3
    | |- cont (fun x => I1 x) _ => exact cont_I1 | |- cont (fun x => I2 x) _ => exact cont_I2 | |- cont (fun x => I3 x) _ => exact cont_I3
    | |- cont (fun x => W1 x) _ => exact cont_W1 | |- cont (fun x => W2 x) _ => exact cont_W2 | |- cont (fun x => prod3 x) _ => exact cont_prod3
    | |- cont (fun x => barSum ?a x) _ => exact (cont_barSum a) | |- cont (barSum ?a) _ => exact (cont_barSum a)
    | |- cont (fun x => Rpower (deviatoricStretches x ?i) ?a) _ => apply (cont_barpow i a); lia
    | |- cont (fun x => deviatoricStretches x ?i) _ => apply (cont_bar i); lia
    end
  | shape ].
Ltac solve_cont := repeat step; side.

Lemma cont_dW1 k : (k < 3)%nat -> cont (fun l => dW1 l k) l.
Proof. intros Hk. unfold dW1. solve_cont. Qed.
Lemma cont_dW2 k : (k < 3)%nat -> cont (fun l => dW2 l k) l.
Proof. intros Hk. unfold dW2. solve_cont. Qed.
Lemma cont_ddW1 i j : (i < 3)%nat -> (j < 3)%nat -> cont (fun l => ddW1 l i j) l.
Proof. intros Hi Hj. unfold ddW1. destruct (Nat.eqb i j); solve_cont. Qed.
Lemma cont_ddW2 i j : (i < 3)%nat -> (j < 3)%nat -> cont (fun l => ddW2 l i j) l.
Proof. intros Hi Hj. unfold ddW2. destruct (Nat.eqb i j); solve_cont. Qed.

(** ** The derivatives *)
Lemma cont_blatzKoFirst mu k : (k < 3)%nat -> cont (fun l => blatzKoFirst mu l k) l.
Proof. intros Hk. unfold blatzKoFirst. solve_cont. Qed.
Lemma cont_blatzKoSecond mu i j : (i < 3)%nat -> (j < 3)%nat -> cont (fun l => blatzKoSecond mu l i j) l.
Proof. intros Hi Hj. unfold blatzKoSecond. destruct (Nat.eqb i j); solve_cont. Qed.

Lemma cont_ogdenTotalFirst terms k : (k < 3)%nat -> cont (fun l => ogdenTotalFirst terms l k) l.
Proof.
  intros Hk. unfold ogdenTotalFirst.
  apply (cont_total (fun t l => let '(mu, alpha) := t in mu * (Rpower (l k) alpha - 1) / l k)). intros [mu alpha] _. solve_cont.
Qed.
Lemma cont_ogdenTotalSecond terms i j : (i < 3)%nat -> (j < 3)%nat -> cont (fun l => ogdenTotalSecond terms l i j) l.
Proof.
  intros Hi Hj. unfold ogdenTotalSecond. destruct (Nat.eqb i j); [|apply cont_const].
  apply (cont_total (fun t l => let '(mu, alpha) := t in (-2 * mu * (Rpower (l i) alpha - 1) + mu * Rpower (l i) alpha * alpha) / (l i) ^ 2)).
  intros [mu alpha] _. solve_cont.
Qed.

Lemma cont_ogdenFirst terms k : (k < 3)%nat -> cont (fun l => ogdenFirst terms l k) l.
Proof.
  intros Hk. unfold ogdenFirst, sum3.
  assert (T : forall i, (i < 3)%nat -> cont (fun l => total (fun '(mu, alpha) => mu * Rpower (deviatoricStretches l i) (alpha - 1)) terms) l).
  { intros i Hi. apply (cont_total (fun t l => let '(mu, alpha) := t in mu * Rpower (deviatoricStretches l i) (alpha - 1))).
    intros [mu alpha] _. solve_cont. }
  assert (T0 := T 0%nat ltac:(lia)). assert (T1 := T 1%nat ltac:(lia)). assert (T2 := T 2%nat ltac:(lia)). assert (Tk := T k Hk).
  solve_cont.
Qed.
Lemma cont_ogdenSecond terms i j : (length terms <= 3)%nat -> (i < 3)%nat -> (j < 3)%nat ->
  cont (fun l => valueOf (fun _ _ => 0) (ogdenSecond terms l) i j) l.
Proof.
  intros L Hi Hj.
  apply (cont_ext (fun l => total (fun '(mu, alpha) => mu * alpha *
      ((if Nat.eqb i j then 1 / 3 * Rpower (deviatoricStretches l i) alpha
        else - (1 / 3) * (Rpower (deviatoricStretches l i) alpha + Rpower (deviatoricStretches l j) alpha)) + 1 / 9 * barSum alpha l)) terms
      * (1 / (l i * l j)) - 2 * kronecker i j / l i * ogdenFirst terms l i)).
  { intros l'. destruct (ogdenSecond_value terms l' L) as (dS & -> & D). cbn [valueOf]. now rewrite D. }
  assert (F := cont_ogdenFirst terms i Hi).
  assert (T : cont (fun l => total (fun '(mu, alpha) => mu * alpha *
      ((if Nat.eqb i j then 1 / 3 * Rpower (deviatoricStretches l i) alpha
        else - (1 / 3) * (Rpower (deviatoricStretches l i) alpha + Rpower (deviatoricStretches l j) alpha)) + 1 / 9 * barSum alpha l)) terms) l).
  { apply (cont_total (fun t l => let '(mu, alpha) := t in mu * alpha *
      ((if Nat.eqb i j then 1 / 3 * Rpower (deviatoricStretches l i) alpha
        else - (1 / 3) * (Rpower (deviatoricStretches l i) alpha + Rpower (deviatoricStretches l j) alpha)) + 1 / 9 * barSum alpha l))).
    intros [mu alpha] _. destruct (Nat.eqb i j); solve_cont. }
  solve_cont.
Qed.

Lemma cont_powerAndMultiply1 f p : cont f l -> cont (fun l => powerAndMultiply (f l) (Z.of_nat p - 1) (Z.of_nat p)) l.
Proof. intros F. apply (cont_ext (fun l => INR p * f l ^ pred p)); [intros; now rewrite powerAndMultiply_1|]. solve_cont. Qed.
Lemma cont_powerAndMultiply2 f p : cont f l -> cont (fun l => powerAndMultiply (f l) (Z.of_nat p - 2) (Z.of_nat p * (Z.of_nat p - 1))) l.
Proof. intros F. apply (cont_ext (fun l => INR p * (INR (pred p) * f l ^ pred (pred p)))); [intros; now rewrite powerAndMultiply_2|]. solve_cont. Qed.

Lemma cont_invariantFirst terms k : (k < 3)%nat -> cont (fun l => invariantFirst terms l k) l.
Proof.
  intros Hk. assert (D1 := cont_dW1 k Hk). assert (D2 := cont_dW2 k Hk). unfold invariantFirst.
  apply (cont_total (fun t l => let '(mu, p, q) := t in
    mu * (powerAndMultiply (W1 l - 3) (Z.of_nat p - 1) (Z.of_nat p) * (W2 l - 3) ^ q * dW1 l k +
          (W1 l - 3) ^ p * powerAndMultiply (W2 l - 3) (Z.of_nat q - 1) (Z.of_nat q) * dW2 l k))).
  intros [[mu p] q] _.
  assert (C1 := cont_powerAndMultiply1 (fun l => W1 l - 3) p ltac:(solve_cont)).
  assert (C2 := cont_powerAndMultiply1 (fun l => W2 l - 3) q ltac:(solve_cont)). solve_cont.
Qed.
Lemma cont_invariantSecond terms i j : (i < 3)%nat -> (j < 3)%nat -> cont (fun l => invariantSecond terms l i j) l.
Proof.
  intros Hi Hj. assert (D1 := cont_dW1 i Hi). assert (D2 := cont_dW2 i Hi). assert (E1 := cont_dW1 j Hj). assert (E2 := cont_dW2 j Hj).
  assert (F1 := cont_ddW1 i j Hi Hj). assert (F2 := cont_ddW2 i j Hi Hj). unfold invariantSecond.
  apply (cont_total (fun t l => let '(mu, p, q) := t in
    let w1 := W1 l - 3 in let w2 := W2 l - 3 in
    let W1pm1p := powerAndMultiply w1 (Z.of_nat p - 1) (Z.of_nat p) in
    let W2qm1q := powerAndMultiply w2 (Z.of_nat q - 1) (Z.of_nat q) in
    let W1pm2pp := powerAndMultiply w1 (Z.of_nat p - 2) (Z.of_nat p * (Z.of_nat p - 1)) in
    let W2qm2qq := powerAndMultiply w2 (Z.of_nat q - 2) (Z.of_nat q * (Z.of_nat q - 1)) in
    let dW1W2 := dW1 l i * dW2 l j + dW1 l j * dW2 l i in
    let factor1 := (W2qm1q * dW1W2 + w2 ^ q * ddW1 l i j) * W1pm1p * mu in
    let factor2 := W2qm1q * ddW2 l i j * w1 ^ p * mu in
    let factor3 := W1pm2pp * w2 ^ q * dW1 l i * dW1 l j * mu in
    let factor4 := W2qm2qq * w1 ^ p * dW2 l i * dW2 l j * mu in
    let factor5 := mu * (W1pm1p * w2 ^ q * dW1 l i + w1 ^ p * W2qm1q * dW2 l i) in
    if Nat.eqb i j then factor1 + factor2 + factor3 + factor4 - 1 / l i * factor5
    else factor1 + factor2 + factor3 + factor4)).
  intros [[mu p] q] _. cbv zeta.
  assert (C1 := cont_powerAndMultiply1 (fun l => W1 l - 3) p ltac:(solve_cont)).
  assert (C2 := cont_powerAndMultiply1 (fun l => W2 l - 3) q ltac:(solve_cont)).
  assert (C3 := cont_powerAndMultiply2 (fun l => W1 l - 3) p ltac:(solve_cont)).
  assert (C4 := cont_powerAndMultiply2 (fun l => W2 l - 3) q ltac:(solve_cont)).
  destruct (Nat.eqb i j); solve_cont.
Qed.

Lemma cont_gentFirst mu Jm k : W1 l - 3 < Jm -> (k < 3)%nat -> cont (fun l => gentFirst mu Jm l k) l.
Proof. intros G Hk. assert (D := cont_dW1 k Hk). unfold gentFirst. solve_cont. Qed.
Lemma cont_gentSecond mu Jm i j : 0 <= W1 l - 3 < Jm -> (i < 3)%nat -> (j < 3)%nat -> cont (fun l => gentSecond mu Jm l i j) l.
Proof.
  intros G Hi Hj. assert (D := cont_dW1 i Hi). assert (D' := cont_dW1 j Hj). assert (D'' := cont_ddW1 i j Hi Hj).
  assert (N : 1 - (W1 l - 3) / Jm <> 0).
  { intros Z. assert (W1 l - 3 = Jm); [|lra]. apply Rmult_eq_reg_r with (/ Jm); [|apply Rinv_neq_0_compat; lra]. rewrite Rinv_r by lra. unfold Rdiv in Z. lra. }
  assert (NJ : Jm <> 0) by lra.
  assert (F : cont (fun l => 1 - (W1 l - 3) / Jm) l) by solve_cont.
  unfold gentSecond. destruct (Nat.eqb i j); solve_cont; auto.
Qed.

Lemma cont_arrudaFirst mu lambdaM k : (k < 3)%nat -> cont (fun l => arrudaFirst mu lambdaM l k) l.
Proof.
  intros Hk. assert (D := cont_dW1 k Hk). unfold arrudaFirst.
  apply (cont_total (fun t l => let '(j, alpha) := t in mu * alpha * (1 / lambdaM ^ 2) ^ j * W1 l ^ j * dW1 l k * INR (j + 1))).
  intros [j alpha] _. solve_cont.
Qed.
Lemma cont_arrudaSecond mu lambdaM i j : (i < 3)%nat -> (j < 3)%nat -> cont (fun l => arrudaSecond mu lambdaM l i j) l.
Proof.
  intros Hi Hj. assert (D := cont_dW1 i Hi). assert (D' := cont_dW1 j Hj). assert (D'' := cont_ddW1 i j Hi Hj). unfold arrudaSecond.
  assert (N : W1 l <> 0) by (assert (G := W1_ge l P); lra).
  apply (cont_total (fun t l => let '(p, alpha) := t in
    let factor1 := mu * alpha * (1 / lambdaM ^ 2) ^ p in
    let factor2 := W1 l ^ p * ddW1 l i j * INR (p + 1) in
    let factor3 := powerRZ (W1 l) (Z.of_nat p - 1) * (dW1 l i * dW1 l j) * INR p * INR (p + 1) in
    if Nat.eqb i j then factor1 * (factor2 + factor3) - dW1 l i / l i * factor1 * W1 l ^ p * INR (p + 1)
    else factor1 * (factor2 + factor3))).
  intros [p alpha] _. cbv zeta. assert (Z := cont_powerRZ W1 (Z.of_nat p - 1) l cont_W1 N).
  destruct (Nat.eqb i j); solve_cont.
Qed.

Lemma positive_nearby : nearby l positiveStretches.
Proof.
  exists (Rmin (l 0%nat) (Rmin (l 1%nat) (l 2%nat))). split; [repeat apply Rmin_glb_lt; auto|].
  intros l' L.
  assert (A := Rmin_l (l 0%nat) (Rmin (l 1%nat) (l 2%nat))). assert (B := Rmin_r (l 0%nat) (Rmin (l 1%nat) (l 2%nat))).
  assert (B1 := Rmin_l (l 1%nat) (l 2%nat)). assert (B2 := Rmin_r (l 1%nat) (l 2%nat)).
  assert (L0 := L 0%nat ltac:(lia)). assert (L1 := L 1%nat ltac:(lia)). assert (L2 := L 2%nat ltac:(lia)).
  apply Rabs_def2 in L0, L1, L2. unfold positiveStretches. lra.
Qed.

Lemma checkJm_nearby Jm : checkJm Jm (W1 l) = false -> nearby l (fun l => checkJm Jm (W1 l) = false).
Proof.
  intros H. assert (G := checkJm_gap Jm l P H).
  assert (Hm : 1 / 10 ^ 14 * Jm < Jm - (W1 l - 3)).
  { revert H. unfold checkJm, floatLe, rltb. destruct Rlt_dec; [discriminate|]. cbn [orb]. unfold floatEq, rleb.
    destruct Rle_dec as [|N]; [discriminate|]. intros _. apply Rnot_le_lt in N.
    rewrite (Rabs_pos_eq (Jm - _)) in N by lra. rewrite (Rabs_pos_eq Jm), (Rabs_pos_eq (W1 l - 3)), Rmax_left in N by lra. exact N. }
  set (delta := Jm - (W1 l - 3) - 1 / 10 ^ 14 * Jm). assert (D : 0 < delta) by (unfold delta; lra).
  assert (C : nearby l (fun l' => W1 l' < W1 l + delta)).
  { apply (cont_W1 (fun w => w < W1 l + delta)). apply open_lt. lra. }
  generalize (filter_and _ _ C positive_nearby). apply filter_imp. intros l' [C' P'].
  assert (G' := W1_ge l' P'). unfold delta in C'.
  unfold checkJm, floatLe, rltb. destruct Rlt_dec as [X|X]; [exfalso; assert (0 < 1 / 10 ^ 14 * Jm) by (apply Rmult_lt_0_compat; [apply Rdiv_lt_0_compat; [lra|apply pow_lt; lra]|lra]); lra|].
  cbn [orb]. unfold floatEq, rleb. destruct Rle_dec as [N|]; [exfalso|reflexivity].
  assert (Q : 0 < 1 / 10 ^ 14 * Jm) by (apply Rmult_lt_0_compat; [apply Rdiv_lt_0_compat; [lra|apply pow_lt; lra]|lra]).
  rewrite (Rabs_pos_eq (Jm - _)) in N by lra. rewrite (Rabs_pos_eq Jm), (Rabs_pos_eq (W1 l' - 3)), Rmax_left in N by lra. lra.
Qed.
End At.

(** The first derivatives are continuous *)
Lemma first_continuous f l k : positiveStretches l -> energyImpl f l <> Throws -> (k < 3)%nat ->
  cont (fun l => valueOf (fun _ => 0) (devStresses f l) k) l.
Proof.
  intros P T Hk. assert (Nk := l_ne l P k Hk).
  assert (G : forall D : stretches -> nat -> R, cont (fun l => D l k) l -> nearby l (fun l => firstImpl f l = Value (D l)) ->
    cont (fun l => valueOf (fun _ => 0) (devStresses f l) k) l).
  { intros D C E. apply (cont_ext_near (fun l => D l k / l k)).
    - generalize E. apply filter_imp. intros l' E'. unfold devStresses. now rewrite E'.
    - apply cont_div; [exact C|now apply cont_coord|exact Nk]. }
  destruct f as [|mu|terms|terms|terms|mu Jm|mu lambdaM]; cbn [energyImpl] in T.
  - apply (G (fun _ _ => 0)); [apply cont_const|]. now apply filter_forall.
  - apply (G (blatzKoFirst mu)); [now apply cont_blatzKoFirst|]. now apply filter_forall.
  - apply (G (ogdenTotalFirst terms)); [now apply cont_ogdenTotalFirst|]. now apply filter_forall.
  - apply (G (ogdenFirst terms)); [now apply cont_ogdenFirst|]. now apply filter_forall.
  - apply (G (invariantFirst terms)); [now apply cont_invariantFirst|]. now apply filter_forall.
  - destruct (checkJm Jm (W1 l)) eqn:E; [now contradict T|].
    apply (G (gentFirst mu Jm)); [apply cont_gentFirst; auto; apply (checkJm_gap Jm l P E)|].
    generalize (checkJm_nearby l P Jm E). apply filter_imp. intros l' E'. cbn [firstImpl]. now rewrite E'.
  - apply (G (arrudaFirst mu lambdaM)); [now apply cont_arrudaFirst|]. now apply filter_forall.
Qed.

Lemma throws_nearby f l : positiveStretches l -> energyImpl f l <> Throws -> nearby l (fun l => energyImpl f l <> Throws).
Proof.
  intros P T. destruct f; cbn [energyImpl] in *; try (apply filter_forall; discriminate).
  destruct (checkJm Jm (W1 l)) eqn:E; [now contradict T|].
  generalize (checkJm_nearby l P Jm E). apply filter_imp. intros l' ->. discriminate.
Qed.

(** The second derivatives are continuous *)
Lemma second_continuous f l i k : positiveStretches l -> energyImpl f l <> Throws -> fewTerms f -> (i < 3)%nat -> (k < 3)%nat ->
  cont (fun l => valueOf (fun _ _ _ _ => 0) (devTangent f l) i i k k) l.
Proof.
  intros P T F Hi Hk. assert (Ni := l_ne l P i Hi). assert (Nk := l_ne l P k Hk).
  assert (G : forall D : stretches -> nat -> nat -> R, cont (fun l => D l i k) l -> nearby l (fun l => secondImpl f l = Value (D l)) ->
    cont (fun l => valueOf (fun _ _ _ _ => 0) (devTangent f l) i i k k) l).
  { intros D C E. apply (cont_ext_near (fun l => 1 / (l i * l k) * D l i k)).
    - generalize (filter_and _ _ E (filter_and _ _ (positive_nearby l P) (throws_nearby f l P T))). apply filter_imp. intros l' (E' & P' & T').
      unfold devTangent, devStresses.
      assert (K : exists s, firstImpl f l' = Value s).
      { destruct f; cbn [energyImpl firstImpl] in T' |- *; try (eexists; reflexivity). destruct (checkJm Jm (W1 l')); [now contradict T'|eexists; reflexivity]. }
      destruct K as [s ->]. rewrite E'. cbn [valueOf]. now rewrite !Nat.eqb_refl.
    - apply cont_mult; [|exact C]. apply cont_div; [apply cont_const|apply cont_mult; now apply cont_coord|].
      now apply Rmult_integral_contrapositive_currified. }
  destruct f as [|mu|terms|terms|terms|mu Jm|mu lambdaM]; cbn [energyImpl] in T.
  - apply (G (fun _ _ _ => 0)); [apply cont_const|]. now apply filter_forall.
  - apply (G (blatzKoSecond mu)); [now apply cont_blatzKoSecond|]. now apply filter_forall.
  - apply (G (ogdenTotalSecond terms)); [now apply cont_ogdenTotalSecond|]. now apply filter_forall.
  - apply (G (fun l => valueOf (fun _ _ => 0) (ogdenSecond terms l))); [now apply cont_ogdenSecond|]. apply filter_forall. intros l'.
    cbn [secondImpl]. destruct (ogdenSecond_value terms l' F) as (dS & -> & _). reflexivity.
  - apply (G (invariantSecond terms)); [now apply cont_invariantSecond|]. now apply filter_forall.
  - destruct (checkJm Jm (W1 l)) eqn:E; [now contradict T|].
    apply (G (gentSecond mu Jm)); [apply cont_gentSecond; auto; apply (checkJm_gap Jm l P E)|].
    generalize (checkJm_nearby l P Jm E). apply filter_imp. intros l' E'. cbn [secondImpl]. now rewrite E'.
  - apply (G (arrudaSecond mu lambdaM)); [now apply cont_arrudaSecond|]. now apply filter_forall.
Qed.

(** ** First order expansion in all stretches *)
Lemma mean_value w D l l' : (forall x, 0 <= x <= 1 -> gradient w (fun i => l i + x * (l' i - l i)) (D (fun i => l i + x * (l' i - l i)))) ->
  exists x, 0 <= x <= 1 /\
  w l' - w l = sum 3 (fun i => D (fun i => l i + x * (l' i - l i)) i * (l' i - l i)).
Proof.
  intros G. set (h := fun i => l' i - l i).
  assert (Dv : forall x, 0 <= x <= 1 -> is_derive (fun x => w (fun i => l i + x * h i)) x (sum 3 (fun i => D (fun i => l i + x * h i) i * h i))).
  { intros x Hx. assert (K := G x Hx h). fold h in K. rewrite sum_3.
    apply (is_derive_ext (fun y => w (fun i => l i + x * h i + (y - x) * h i))).
    { intros y. f_equal. apply functional_extensionality. intros i. ring. }
    set (u := fun t => w (fun i => l i + x * h i + t * h i)) in K.
    change (is_derive (fun y => u (y - x)) x (D (fun i => l i + x * h i) 0%nat * h 0%nat + D (fun i => l i + x * h i) 1%nat * h 1%nat + D (fun i => l i + x * h i) 2%nat * h 2%nat)).
    assert (K' : is_derive u (x - x) (D (fun i => l i + x * h i) 0%nat * h 0%nat + D (fun i => l i + x * h i) 1%nat * h 1%nat + D (fun i => l i + x * h i) 2%nat * h 2%nat)).
    { unfold Rminus. rewrite Rplus_opp_r. exact K. }
    replace (D (fun i => l i + x * h i) 0%nat * h 0%nat + D (fun i => l i + x * h i) 1%nat * h 1%nat + D (fun i => l i + x * h i) 2%nat * h 2%nat)
      with (scal 1 (D (fun i => l i + x * h i) 0%nat * h 0%nat + D (fun i => l i + x * h i) 1%nat * h 1%nat + D (fun i => l i + x * h i) 2%nat * h 2%nat)) by apply Rmult_1_l.
    apply (is_derive_comp u (fun y => y - x)); [exact K'|]. auto_derive; [exact I|ring]. }
  destruct (MVT_gen (fun x => w (fun i => l i + x * h i)) 0 1 (fun x => sum 3 (fun i => D (fun i => l i + x * h i) i * h i))) as (x & Hx & E).
  - intros x Hx. rewrite Rmin_left, Rmax_right in Hx by lra. apply Dv. lra.
  - intros x Hx. rewrite Rmin_left, Rmax_right in Hx by lra. apply continuity_pt_filterlim.
    apply (@ex_derive_continuous R_AbsRing R_NormedModule). eexists. apply Dv. exact Hx.
  - rewrite Rmin_left, Rmax_right in Hx by lra. exists x. split; [exact Hx|].
    fold h. rewrite Rminus_0_r, Rmult_1_r in E. unfold h in *. rewrite <- E. assert (E1 : (fun i => l i + 1 * (l' i - l i)) = l') by (apply functional_extensionality; intros; ring).
    assert (E0 : (fun i => l i + 0 * (l' i - l i)) = l) by (apply functional_extensionality; intros; ring).
    now rewrite E1, E0.
Qed.

Lemma expansion_path w D l (x : R -> stretches) : nearby l (fun l' => gradient w l' (D l')) ->
  (forall i, (i < 3)%nat -> cont (fun l => D l i) l) ->
  (forall i, (i < 3)%nat -> Oh (fun t => x t i - l i)) ->
  oh (fun t => w (x t) - w l - sum 3 (fun i => D l i * (x t i - l i))).
Proof.
  intros G C X.
  destruct (X 0%nat ltac:(lia)) as (K0 & K0p & X0). destruct (X 1%nat ltac:(lia)) as (K1 & K1p & X1). destruct (X 2%nat ltac:(lia)) as (K2 & K2p & X2).
  set (K := K0 + K1 + K2 + 1). assert (Kp : 0 < K) by (unfold K; lra).
  intros eps E. assert (E' : 0 < eps / K) by (now apply Rdiv_lt_0_compat).
  assert (U : nearby l (fun l' => forall i, (i < 3)%nat -> Rabs (D l' i - D l i) < eps / K)).
  { assert (U' : forall i, (i < 3)%nat -> nearby l (fun l' => Rabs (D l' i - D l i) < eps / K)).
    { intros i Hi. apply (C i Hi (fun y => Rabs (y - D l i) < eps / K)). exists (mkposreal _ E'). intros y B. exact B. }
    assert (V0 := U' 0%nat ltac:(lia)). assert (V1 := U' 1%nat ltac:(lia)). assert (V2 := U' 2%nat ltac:(lia)).
    generalize (filter_and _ _ V0 (filter_and _ _ V1 V2)). apply filter_imp.
    intros l' (A & B & C') i Hi. index i Hi; assumption. }
  destruct (filter_and _ _ U G) as (d & Dp & Q).
  assert (Small : forall i, (i < 3)%nat -> locally 0 (fun t => Rabs (x t i - l i) <= d / 2)).
  { intros i Hi. apply (Oh_vanishing _ (X i Hi)). lra. }
  assert (Y0 := Small 0%nat ltac:(lia)). assert (Y1 := Small 1%nat ltac:(lia)). assert (Y2 := Small 2%nat ltac:(lia)).
  generalize (filter_and _ _ (filter_and _ _ X0 (filter_and _ _ X1 X2)) (filter_and _ _ Y0 (filter_and _ _ Y1 Y2))).
  apply filter_imp. intros t ((B0 & B1 & B2) & (S0 & S1 & S2)).
  assert (S : forall i, (i < 3)%nat -> Rabs (x t i - l i) < d) by (intros i Hi; index i Hi; lra).
  assert (Seg : forall y, 0 <= y <= 1 -> forall i, (i < 3)%nat -> Rabs (l i + y * (x t i - l i) - l i) < d).
  { intros y Hy i Hi. replace (l i + y * (x t i - l i) - l i) with (y * (x t i - l i)) by ring. rewrite Rabs_mult, (Rabs_pos_eq y) by lra.
    assert (S' := S i Hi). assert (P' := Rabs_pos (x t i - l i)). nra. }
  destruct (mean_value w D l (x t)) as (y & Hy & M).
  { intros y Hy. apply (Q (fun i => l i + y * (x t i - l i))). now apply Seg. }
  rewrite M. rewrite !sum_3.
  destruct (Q (fun i => l i + y * (x t i - l i)) (Seg y Hy)) as [V _]. set (z := D (fun i => l i + y * (x t i - l i))) in *.
  assert (V0 := V 0%nat ltac:(lia)). assert (V1 := V 1%nat ltac:(lia)). assert (V2 := V 2%nat ltac:(lia)).
  replace (z 0%nat * (x t 0%nat - l 0%nat) + z 1%nat * (x t 1%nat - l 1%nat) + z 2%nat * (x t 2%nat - l 2%nat) - _)
    with ((z 0%nat - D l 0%nat) * (x t 0%nat - l 0%nat) + (z 1%nat - D l 1%nat) * (x t 1%nat - l 1%nat) + (z 2%nat - D l 2%nat) * (x t 2%nat - l 2%nat)) by ring.
  eapply Rle_trans; [apply Rabs_triang|]. eapply Rle_trans; [apply Rplus_le_compat_r, Rabs_triang|]. rewrite !Rabs_mult.
  assert (T : forall u v k, 0 <= k -> Rabs u < eps / K -> Rabs v <= k * Rabs t -> Rabs u * Rabs v <= eps / K * (k * Rabs t)).
  { intros u v k kp A B. apply Rmult_le_compat; auto using Rabs_pos. lra. }
  assert (T0 := T _ _ _ K0p V0 B0). assert (T1 := T _ _ _ K1p V1 B1). assert (T2 := T _ _ _ K2p V2 B2).
  apply Rle_trans with (eps / K * (K * Rabs t)).
  - replace (K * Rabs t) with (K0 * Rabs t + K1 * Rabs t + K2 * Rabs t + Rabs t) by (unfold K; ring). assert (Z := Rabs_pos t).
    assert (0 <= eps / K * Rabs t) by (apply Rmult_le_pos; lra). lra.
  - apply Req_le. field. lra.
Qed.

(** In one variable *)
Lemma expansion_one (f : R -> R) a d (b : R -> R) : is_derive f a d -> Oh (fun t => b t - a) -> oh (fun t => f (b t) - f a - d * (b t - a)).
Proof.
  intros [_ Df] B eps E. assert (V := Oh_vanishing _ B). destruct B as (K & Kp & B).
  assert (E' : 0 < eps / (K + 1)) by (apply Rdiv_lt_0_compat; lra).
  destruct (Df a (fun P H => H) (mkposreal _ E')) as [r H].
  assert (Vr := V (r / 2) ltac:(assert (Q := cond_pos r); lra)).
  generalize (filter_and _ _ B Vr). apply filter_imp. intros t [B1 B2]. cbn beta in *.
  assert (U : Rabs (f (b t) - f a - (b t - a) * d) <= eps / (K + 1) * Rabs (b t - a)).
  { apply (H (b t)). change (Rabs (b t - a) < r). assert (Q := cond_pos r). lra. }
  rewrite (Rmult_comm d). eapply Rle_trans; [exact U|].
  apply Rle_trans with (eps / (K + 1) * (K * Rabs t)); [apply Rmult_le_compat_l; [lra|exact B1]|].
  assert (Z := Rabs_pos t). replace (eps / (K + 1) * (K * Rabs t)) with (eps * Rabs t * (K / (K + 1))) by (field; lra).
  rewrite <- (Rmult_1_r (eps * Rabs t)) at 2. apply Rmult_le_compat_l; [apply Rmult_le_pos; lra|].
  apply Rmult_le_reg_r with (K + 1); [lra|]. unfold Rdiv. rewrite Rmult_assoc, Rinv_l by lra. lra.
Qed.
