From Coq Require Import Reals List ZArith Bool Lia Lra.
From Coquelicot Require Import Coquelicot.
From Verif Require Import Deviatoric_Model Deviatoric_Spec.
Import ListNotations.
Local Open Scope R_scope.

(** Sums over material parameters *)

Lemma total_acc {A} (f : A -> R) l : forall a, fold_left (fun acc t => acc + f t) l a = a + total f l.
Proof.
  unfold total. induction l as [|x l IH]; intros a; cbn [fold_left]; [ring|].
  rewrite IH, (IH (0 + f x)). ring.
Qed.

Lemma total_cons {A} (f : A -> R) x l : total f (x :: l) = f x + total f l.
Proof. unfold total at 1. cbn [fold_left]. rewrite total_acc. ring. Qed.

Lemma total_nil {A} (f : A -> R) : total f [] = 0.
Proof. reflexivity. Qed.

Lemma total_ext {A} (f g : A -> R) l : (forall x, In x l -> f x = g x) -> total f l = total g l.
Proof.
  induction l as [|x l IH]; intros H; [reflexivity|].
  rewrite !total_cons, (H x), IH; [reflexivity| |now left]. intros; apply H; now right.
Qed.

Lemma total_add {A} (f g : A -> R) l : total (fun x => f x + g x) l = total f l + total g l.
Proof. induction l as [|x l IH]; [rewrite !total_nil; ring|]. rewrite !total_cons, IH. ring. Qed.

Lemma total_scale {A} (f : A -> R) c l : total (fun x => c * f x) l = c * total f l.
Proof. induction l as [|x l IH]; [rewrite !total_nil; ring|]. rewrite !total_cons, IH. ring. Qed.

Lemma total_zero {A} (f : A -> R) l : (forall x, In x l -> f x = 0) -> total f l = 0.
Proof. intros H. rewrite (total_ext f (fun x => 0 * f x)), total_scale; [ring|]. intros; rewrite H; [ring|assumption]. Qed.

Lemma total_nonneg {A} (f : A -> R) l : (forall x, In x l -> 0 <= f x) -> 0 <= total f l.
Proof.
  induction l as [|x l IH]; intros H; [rewrite total_nil; lra|].
  rewrite total_cons. assert (0 <= f x) by (apply H; now left).
  assert (0 <= total f l) by (apply IH; intros; apply H; now right). lra.
Qed.

(** Gradients *)

Lemma gradient_ext w w' l g g' :
  (forall l, w l = w' l) -> (forall i, (i < 3)%nat -> g i = g' i) -> gradient w l g -> gradient w' l g'.
Proof.
  intros E G H h. apply (is_derive_ext (fun t => w (fun i => l i + t * h i))); [intros; apply E|].
  rewrite <- !G by lia. apply H.
Qed.

Lemma gradient_total {A} (w : A -> stretches -> R) (g : A -> nat -> R) terms l :
  (forall x, In x terms -> gradient (w x) l (g x)) ->
  gradient (fun l => total (fun x => w x l) terms) l (fun i => total (fun x => g x i) terms).
Proof.
  induction terms as [|x terms IH]; intros H h.
  - rewrite !total_nil. apply (is_derive_ext (fun _ => 0)); [reflexivity|].
    replace (_ + _) with 0 by ring. apply @is_derive_const.
  - rewrite !total_cons.
    apply (is_derive_ext (fun t => w x (fun i => l i + t * h i) + total (fun x => w x (fun i => l i + t * h i)) terms)).
    { intros t. now rewrite total_cons. }
    match goal with |- is_derive _ _ ?d =>
      replace d with ((g x 0%nat * h 0%nat + g x 1%nat * h 1%nat + g x 2%nat * h 2%nat) +
                      (total (fun x => g x 0%nat) terms * h 0%nat + total (fun x => g x 1%nat) terms * h 1%nat +
                       total (fun x => g x 2%nat) terms * h 2%nat)) by ring end.
    apply @is_derive_plus; [apply H; now left|]. apply IH. intros; apply H; now right.
Qed.

Lemma gradient_loc w w' l g :
  (forall h, locally 0 (fun t => w (fun i => l i + t * h i) = w' (fun i => l i + t * h i))) ->
  gradient w l g -> gradient w' l g.
Proof. intros E H h. eapply is_derive_ext_loc; [apply E|apply H]. Qed.

(** A derivative along a line through l, with the values of the components at t = 0 *)
Lemma derive_at (w : R -> R) (d d' : R) : d = d' -> is_derive w 0 d -> is_derive w 0 d'.
Proof. now intros <-. Qed.

Lemma Rpower_neg x y : Rpower x (- y) = / Rpower x y.
Proof. apply Rpower_Ropp. Qed.

Lemma dpow x h a : 0 < x -> is_derive (fun t => Rpower (x + t * h) a) 0 (a * (Rpower x a / x) * h).
Proof.
  intros P. unfold Rpower. auto_derive.
  - replace (x + 0 * h) with x by ring. assumption.
  - replace (x + 0 * h) with x by ring. field. lra.
Qed.

(** The power of a positive function *)
Lemma dpowf (f : R -> R) d a : 0 < f 0 -> is_derive f 0 d ->
  is_derive (fun t => Rpower (f t) a) 0 (a * (Rpower (f 0) a / f 0) * d).
Proof.
  intros P D. unfold Rpower. auto_derive.
  - repeat split; [exists d; assumption|assumption].
  - change (Derive (fun x : R => f x) 0) with (Derive f 0). rewrite (is_derive_unique f 0 _ D). field. lra.
Qed.

Lemma I3_pos l : positiveStretches l -> 0 < I3 l.
Proof. intros (A & B & C). unfold I3, prod3. apply Rmult_lt_0_compat; [apply Rmult_lt_0_compat|]; now apply pow_lt. Qed.

Lemma prod3_pos l : positiveStretches l -> 0 < prod3 l.
Proof. intros (A & B & C). unfold prod3. apply Rmult_lt_0_compat; [apply Rmult_lt_0_compat|]; assumption. Qed.

Lemma I3_pow23 l : Rpower (I3 l) (2 / 3) = Rpower (I3 l) (1 / 3) * Rpower (I3 l) (1 / 3).
Proof. rewrite <- Rpower_plus. f_equal. lra. Qed.

Lemma I3_neg13 l : Rpower (I3 l) (-1 / 3) = / Rpower (I3 l) (1 / 3).
Proof. rewrite <- Rpower_neg. f_equal. lra. Qed.

Lemma I3_neg23 l : Rpower (I3 l) (-2 / 3) = / (Rpower (I3 l) (1 / 3) * Rpower (I3 l) (1 / 3)).
Proof. rewrite <- I3_pow23, <- Rpower_neg. f_equal. lra. Qed.

Lemma dI3root l h : positiveStretches l ->
  is_derive (fun t => Rpower (I3 (fun i => l i + t * h i)) (1 / 3)) 0
    (2 / 3 * Rpower (I3 l) (1 / 3) * (h 0%nat / l 0%nat + h 1%nat / l 1%nat + h 2%nat / l 2%nat)).
Proof.
  intros P. assert (Q := I3_pos l P). destruct P as (A & B & C).
  assert (E : I3 (fun i => l i + 0 * h i) = I3 l) by (unfold I3, prod3; ring).
  eapply derive_at; [|apply (dpowf (fun t => I3 (fun i => l i + t * h i)) (2 * I3 l * (h 0%nat / l 0%nat + h 1%nat / l 1%nat + h 2%nat / l 2%nat)))].
  - rewrite E. field. repeat split; lra.
  - rewrite E. assumption.
  - unfold I3, prod3. auto_derive; [exact I|]. field. lra.
Qed.

Ltac clean3 l := let a := fresh "a" in let b := fresh "b" in let c := fresh "c" in
  generalize (l 0%nat) (l 1%nat) (l 2%nat); intros a b c.

Lemma W1_gradient l : positiveStretches l -> gradient W1 l (dW1 l).
Proof.
  intros P h. assert (D := dI3root l h P). assert (Q := exp_pos (1 / 3 * ln (I3 l))).
  change (0 < Rpower (I3 l) (1 / 3)) in Q. destruct P as (A & B & C).
  unfold W1. apply (is_derive_ext (fun t => I1 (fun i => l i + t * h i) / Rpower (I3 (fun i => l i + t * h i)) (1 / 3))).
  { intros t. now rewrite I3_neg13. }
  assert (E : I3 (fun i => l i + 0 * h i) = I3 l) by (unfold I3, prod3; ring).
  eapply derive_at; [|apply (is_derive_div (fun t => I1 (fun i => l i + t * h i)) _ 0 (2 * (l 0%nat * h 0%nat + l 1%nat * h 1%nat + l 2%nat * h 2%nat))); [|exact D|]].
  - cbn beta. rewrite E. unfold dW1, I1, sum3. generalize dependent (Rpower (I3 l) (1 / 3)). intros r _ Q.
    field. repeat split; lra.
  - unfold I1, sum3. auto_derive; [exact I|]. ring.
  - cbn beta. rewrite E. lra.
Qed.

Lemma W2_gradient l : positiveStretches l -> gradient W2 l (dW2 l).
Proof.
  intros P h. assert (D := dI3root l h P). assert (Q := exp_pos (1 / 3 * ln (I3 l))).
  change (0 < Rpower (I3 l) (1 / 3)) in Q. destruct P as (A & B & C).
  unfold W2. apply (is_derive_ext (fun t => I2 (fun i => l i + t * h i) / Rpower (I3 (fun i => l i + t * h i)) (1 / 3) ^ 2)).
  { intros t. rewrite I3_neg23. unfold Rdiv. f_equal. f_equal. ring. }
  assert (E : I3 (fun i => l i + 0 * h i) = I3 l) by (unfold I3, prod3; ring).
  set (r := fun t => Rpower (I3 (fun i => l i + t * h i)) (1 / 3)) in *.
  change (is_derive (fun t => I2 (fun i => l i + t * h i) / r t ^ 2) 0
    (dW2 l 0 * h 0%nat + dW2 l 1 * h 1%nat + dW2 l 2 * h 2%nat)).
  assert (E0 : r 0 = Rpower (I3 l) (1 / 3)) by (unfold r; now rewrite E).
  unfold I2. auto_derive.
  - repeat split; [eexists; exact D|]. intros K. apply (pow_nonzero (r 0) 2); [rewrite E0; lra|]. exact K.
  - change (Derive (fun x : R => r x) 0) with (Derive r 0). rewrite (is_derive_unique r 0 _ D), E0. unfold dW2, I2. rewrite I3_pow23.
    generalize dependent (Rpower (I3 l) (1 / 3)). intros s _ Q E1. unfold I3, prod3. field. repeat split; lra.
Qed.

Lemma line0 (x h : R) : x + 0 * h = x.
Proof. ring. Qed.

Ltac index i H := destruct i as [|[|[|i]]]; [| | |exfalso; lia].

Lemma dW1_gradient l i : positiveStretches l -> (i < 3)%nat -> gradient (fun l => dW1 l i) l (ddW1 l i).
Proof.
  intros P Hi h. assert (D := dI3root l h P). assert (Q := exp_pos (1 / 3 * ln (I3 l))).
  change (0 < Rpower (I3 l) (1 / 3)) in Q. destruct P as (A & B & C).
  assert (E : I3 (fun i => l i + 0 * h i) = I3 l) by (unfold I3, prod3; ring).
  unfold dW1.
  set (r := fun t => Rpower (I3 (fun i => l i + t * h i)) (1 / 3)) in *.
  assert (E0 : r 0 = Rpower (I3 l) (1 / 3)) by (unfold r; now rewrite E).
  assert (F : forall k, (k < 3)%nat -> forall d,
    is_derive (fun t => 2 * (3 * (l k + t * h k) ^ 2 - I1 (fun i => l i + t * h i)) / (3 * (l k + t * h k) * r t)) 0 d ->
    is_derive (fun t => 2 * (3 * (l k + t * h k) ^ 2 - I1 (fun i => l i + t * h i)) /
       (3 * (l k + t * h k) * Rpower (I3 (fun i => l i + t * h i)) (1 / 3))) 0 d) by (intros; assumption).
  index i Hi; apply F; try lia; clear F; unfold I1, sum3, ddW1; cbn [Nat.eqb];
    (auto_derive;
    [repeat split; [eexists; exact D|]; rewrite E0, ?line0; apply Rgt_not_eq; repeat apply Rmult_lt_0_compat; lra
    |change (Derive (fun x : R => r x) 0) with (Derive r 0); rewrite (is_derive_unique r 0 _ D), E0; unfold I1, sum3;
     generalize dependent (Rpower (I3 l) (1 / 3)); intros s _ Q E1; field; repeat split; lra]).
Qed.

Lemma dW2_gradient l i : positiveStretches l -> (i < 3)%nat -> gradient (fun l => dW2 l i) l (ddW2 l i).
Proof.
  intros P Hi h. assert (D := dI3root l h P). assert (Q := exp_pos (1 / 3 * ln (I3 l))).
  change (0 < Rpower (I3 l) (1 / 3)) in Q. destruct P as (A & B & C).
  assert (E : I3 (fun i => l i + 0 * h i) = I3 l) by (unfold I3, prod3; ring).
  unfold dW2.
  set (r := fun t => Rpower (I3 (fun i => l i + t * h i)) (1 / 3)) in *.
  assert (E0 : r 0 = Rpower (I3 l) (1 / 3)) by (unfold r; now rewrite E).
  assert (F : forall k, (k < 3)%nat -> forall d,
    is_derive (fun t => -2 * (3 * I3 (fun i => l i + t * h i) * / (l k + t * h k) ^ 2 - I2 (fun i => l i + t * h i)) /
       (3 * (l k + t * h k) * (r t * r t))) 0 d ->
    is_derive (fun t => -2 * (3 * I3 (fun i => l i + t * h i) * / (l k + t * h k) ^ 2 - I2 (fun i => l i + t * h i)) /
       (3 * (l k + t * h k) * Rpower (I3 (fun i => l i + t * h i)) (2 / 3))) 0 d).
  { intros k _ d K. eapply is_derive_ext; [|exact K]. intros t. unfold r. cbn beta. now rewrite I3_pow23. }
  index i Hi; apply F; try lia; clear F; unfold I2, I3, prod3, ddW2; rewrite I3_pow23; cbn [Nat.eqb];
    (auto_derive;
    [repeat split; try (eexists; exact D);
     rewrite ?E0, ?line0; apply Rgt_not_eq; repeat apply Rmult_lt_0_compat; lra
    |change (Derive (fun x : R => r x) 0) with (Derive r 0); rewrite (is_derive_unique r 0 _ D), E0;
     generalize dependent (Rpower (I3 l) (1 / 3)); intros s _ Q E1; unfold I2, I3, prod3; field; repeat split; lra]).
Qed.

(** Rules for gradients *)

Lemma gradient_const c l : gradient (fun _ => c) l (fun _ => 0).
Proof. intros h. replace (_ + _) with 0 by ring. apply @is_derive_const. Qed.

Lemma gradient_coord i l : (i < 3)%nat -> gradient (fun l => l i) l (kronecker i).
Proof.
  intros Hi h. unfold kronecker. index i Hi; cbn [Nat.eqb]; (auto_derive; [exact I|ring]).
Qed.

Lemma gradient_plus u v l gu gv : gradient u l gu -> gradient v l gv -> gradient (fun l => u l + v l) l (fun k => gu k + gv k).
Proof.
  intros U V h. eapply derive_at; [|apply @is_derive_plus; [apply U|apply V]]. change plus with Rplus. cbn. ring.
Qed.


(** The value at t = 0, for functions of the three stretches only *)
Definition local (w : stretches -> R) : Prop :=
  forall l l' : stretches, (forall i, (i < 3)%nat -> l i = l' i) -> w l = w l'.

Lemma local_line w l h : local w -> w (fun i => l i + 0 * h i) = w l.
Proof. intros L. apply L. intros. ring. Qed.

Lemma gradient_mult u v l gu gv : local u -> local v -> gradient u l gu -> gradient v l gv ->
  gradient (fun l => u l * v l) l (fun k => gu k * v l + u l * gv k).
Proof.
  intros Lu Lv U V h.
  eapply derive_at; [|apply (is_derive_mult (fun t => u (fun i => l i + t * h i)) (fun t => v (fun i => l i + t * h i)));
    [apply U|apply V|intros; apply Rmult_comm]].
  change plus with Rplus. change mult with Rmult. cbn beta. rewrite !local_line by assumption. ring.
Qed.

Lemma gradient_comp (f : R -> R) w l g d : local w -> gradient w l g -> is_derive f (w l) d ->
  gradient (fun l => f (w l)) l (fun k => d * g k).
Proof.
  intros L W F h.
  eapply derive_at; [|apply (is_derive_comp f (fun t => w (fun i => l i + t * h i)));
    [cbn beta; rewrite local_line by assumption; apply F|apply W]].
  unfold scal; cbn; unfold mult; cbn. ring.
Qed.

Lemma gradient_scale c w l g : gradient w l g -> gradient (fun l => c * w l) l (fun k => c * g k).
Proof.
  intros W h. eapply derive_at; [|apply (is_derive_scal (fun t => w (fun i => l i + t * h i)) 0 c); apply W].
  ring.
Qed.

Lemma gradient_grad w l g g' : (forall i, (i < 3)%nat -> g i = g' i) -> gradient w l g -> gradient w l g'.
Proof. intros. eapply gradient_ext; [reflexivity|eassumption|assumption]. Qed.

Lemma local_coord i : (i < 3)%nat -> local (fun l => l i).
Proof. intros Hi l l' E. now apply E. Qed.

Lemma local_I3 : local I3.
Proof. intros l l' E. unfold I3, prod3. now rewrite !E by lia. Qed.
Lemma local_I1 : local I1.
Proof. intros l l' E. unfold I1, sum3. now rewrite !E by lia. Qed.
Lemma local_I2 : local I2.
Proof. intros l l' E. unfold I2. now rewrite !E by lia. Qed.
Lemma local_prod3 : local prod3.
Proof. intros l l' E. unfold prod3. now rewrite !E by lia. Qed.
Lemma local_W1 : local W1.
Proof. intros l l' E. unfold W1. now rewrite (local_I1 l l' E), (local_I3 l l' E). Qed.
Lemma local_W2 : local W2.
Proof. intros l l' E. unfold W2. now rewrite (local_I2 l l' E), (local_I3 l l' E). Qed.
Lemma local_dW1 k : (k < 3)%nat -> local (fun l => dW1 l k).
Proof. intros Hk l l' E. unfold dW1. now rewrite (local_I1 l l' E), (local_I3 l l' E), !E by lia. Qed.
Lemma local_dW2 k : (k < 3)%nat -> local (fun l => dW2 l k).
Proof. intros Hk l l' E. unfold dW2. now rewrite (local_I2 l l' E), (local_I3 l l' E), !E by lia. Qed.
Lemma local_const c : local (fun _ => c).
Proof. now intros l l' E. Qed.
Lemma local_mult u v : local u -> local v -> local (fun l => u l * v l).
Proof. intros U V l l' E. now rewrite (U _ _ E), (V _ _ E). Qed.
Lemma local_comp f w : local w -> local (fun l => f (w l)).
Proof. intros W l l' E. now rewrite (W _ _ E). Qed.

Lemma positive_at l i : positiveStretches l -> (i < 3)%nat -> 0 < l i.
Proof. intros (A & B & C) Hi. index i Hi; assumption. Qed.

Lemma gradient_inv i l : positiveStretches l -> (i < 3)%nat -> gradient (fun l => / l i) l (fun k => - kronecker i k / l i ^ 2).
Proof.
  intros P Hi. assert (Q := positive_at l i P Hi).
  eapply gradient_grad; [|apply (gradient_comp Rinv (fun l => l i) l (kronecker i) (- 1 / l i ^ 2));
    [now apply local_coord|now apply gradient_coord|auto_derive; [lra|field; lra]]].
  intros. cbn beta. field. lra.
Qed.

(** From the second derivatives of the energy to the first derivatives of the principal stresses *)
Lemma stress_gradient F H l i : positiveStretches l -> (i < 3)%nat -> local F ->
  gradient F l H -> gradient (fun l => F l / l i) l (fun k => (H k - kronecker i k * (F l / l i)) / l i).
Proof.
  intros P Hi L G. assert (Q := positive_at l i P Hi).
  eapply gradient_grad; [|apply gradient_mult; [assumption|apply (local_comp Rinv), local_coord; assumption|exact G|
    apply gradient_inv; assumption]].
  intros k Hk. cbn beta. field. lra.
Qed.

(** BlatzKo *)

Lemma blatzKo_gradient mu l : positiveStretches l -> gradient (blatzKoEnergy mu) l (blatzKoFirst mu l).
Proof.
  intros (A & B & C) h. unfold blatzKoEnergy, sum3, prod3. auto_derive.
  - rewrite !line0. repeat split; lra.
  - rewrite !line0. unfold blatzKoFirst, prod3. field. repeat split; lra.
Qed.

Lemma blatzKo_hessian mu l i : positiveStretches l -> (i < 3)%nat ->
  gradient (fun l => blatzKoFirst mu l i) l (fun k => blatzKoSecond mu l i k + kronecker i k * (blatzKoFirst mu l i / l i)).
Proof.
  intros (A & B & C) Hi h. unfold blatzKoFirst, prod3, blatzKoSecond, kronecker.
  index i Hi; cbn [Nat.eqb];
  (auto_derive;
  [rewrite !line0; repeat split; try lra; apply Rgt_not_eq; repeat apply Rmult_lt_0_compat; lra
  |rewrite !line0; unfold prod3; field; repeat split; lra]).
Qed.

Lemma blatzKo_local mu i : (i < 3)%nat -> local (fun l => blatzKoFirst mu l i).
Proof. intros Hi l l' E. unfold blatzKoFirst. now rewrite (local_prod3 _ _ E), E. Qed.

(** Ogden with total stretches *)

Lemma pow_gradient i a l : positiveStretches l -> (i < 3)%nat ->
  gradient (fun l => Rpower (l i) a) l (fun k => a * (Rpower (l i) a / l i) * kronecker i k).
Proof.
  intros P Hi. assert (Q := positive_at l i P Hi).
  apply (gradient_comp (fun x => Rpower x a) (fun l => l i) l (kronecker i));
    [now apply local_coord|now apply gradient_coord|].
  unfold Rpower. auto_derive; [assumption|]. field. lra.
Qed.

Lemma ogdenTotal_gradient terms l : positiveStretches l -> (forall t, In t terms -> snd t <> 0) ->
  gradient (ogdenTotalEnergy terms) l (ogdenTotalFirst terms l).
Proof.
  intros P N. unfold ogdenTotalEnergy, ogdenTotalFirst.
  apply (gradient_total (fun t l => let '(mu, alpha) := t in mu / alpha * (sum3 (fun i => Rpower (l i) alpha) - 3) - mu * ln (l 0%nat * l 1%nat * l 2%nat))
    (fun t k => let '(mu, alpha) := t in mu * (Rpower (l k) alpha - 1) / l k) terms l).
  intros [mu alpha] Ht. assert (M := N _ Ht). cbn [snd] in M. intros h.
  destruct P as (A & B & C). unfold sum3, Rpower. auto_derive.
  - rewrite !line0. repeat split; try lra. repeat apply Rmult_lt_0_compat; lra.
  - rewrite !line0. field. repeat split; lra.
Qed.

Lemma ogdenTotal_hessian terms l i : positiveStretches l -> (i < 3)%nat ->
  gradient (fun l => ogdenTotalFirst terms l i) l
    (fun k => ogdenTotalSecond terms l i k + kronecker i k * (ogdenTotalFirst terms l i / l i)).
Proof.
  intros P Hi. assert (Q := positive_at l i P Hi).
  eapply gradient_grad; [|apply (gradient_total (fun t l => let '(mu, alpha) := t in mu * (Rpower (l i) alpha - 1) / l i)
    (fun t k => let '(mu, alpha) := t in kronecker i k * (mu * (alpha * Rpower (l i) alpha - Rpower (l i) alpha + 1) / l i ^ 2)) terms l)].
  - intros k Hk. cbn beta. unfold ogdenTotalSecond, ogdenTotalFirst, kronecker. destruct (Nat.eqb_spec i k) as [<-|].
    + match goal with |- _ = _ + 1 * (?s / _) => replace (1 * (s / l i)) with (/ l i * s) by (field; lra) end.
      rewrite <- total_scale, <- total_add.
      apply total_ext. intros [mu alpha] _. field. lra.
    + rewrite total_zero; [ring|]. intros [mu alpha] _. ring.
  - intros [mu alpha] _.
    eapply gradient_grad; [|apply (gradient_comp (fun x => mu * (Rpower x alpha - 1) / x) (fun l => l i) l (kronecker i)
      (mu * (alpha * Rpower (l i) alpha - Rpower (l i) alpha + 1) / l i ^ 2)); [now apply local_coord|now apply gradient_coord|]].
    + intros. cbn beta. ring.
    + unfold Rpower. auto_derive; [repeat split; lra|]. field. lra.
Qed.

Lemma ogdenTotal_local terms i : (i < 3)%nat -> local (fun l => ogdenTotalFirst terms l i).
Proof. intros Hi l l' E. unfold ogdenTotalFirst. now rewrite (E i Hi). Qed.

(** Ogden with deviatoric stretches *)

Lemma prod3_gradient l : positiveStretches l -> gradient prod3 l (fun k => prod3 l / l k).
Proof. intros (A & B & C) h. unfold prod3. auto_derive; [exact I|]. field. repeat split; lra. Qed.

Lemma local_bar i : (i < 3)%nat -> local (fun l => deviatoricStretches l i).
Proof. intros Hi l l' E. unfold deviatoricStretches. now rewrite (local_prod3 _ _ E), E. Qed.

Lemma bar_pos l i : positiveStretches l -> (i < 3)%nat -> 0 < deviatoricStretches l i.
Proof. intros P Hi. unfold deviatoricStretches. apply Rmult_lt_0_compat; [apply exp_pos|now apply positive_at]. Qed.

Lemma bar_gradient l i : positiveStretches l -> (i < 3)%nat ->
  gradient (fun l => deviatoricStretches l i) l (fun k => deviatoricStretches l i * (kronecker i k / l i - 1 / (3 * l k))).
Proof.
  intros P Hi. assert (Q := positive_at l i P Hi). assert (J := prod3_pos l P). unfold deviatoricStretches.
  eapply gradient_grad; [|apply gradient_mult; [apply (local_comp (fun x => Rpower x (-1 / 3)) prod3), local_prod3|now apply local_coord
    |apply (gradient_comp (fun x => Rpower x (-1 / 3)) prod3 l (fun k => prod3 l / l k) (-1 / 3 * (Rpower (prod3 l) (-1 / 3) / prod3 l)));
      [apply local_prod3|now apply prod3_gradient|]
    |now apply gradient_coord]].
  - intros k Hk. assert (K := positive_at l k P Hk). cbn beta. field. lra.
  - unfold Rpower. auto_derive; [assumption|]. field. lra.
Qed.

Lemma barpow_gradient l i a : positiveStretches l -> (i < 3)%nat ->
  gradient (fun l => Rpower (deviatoricStretches l i) a) l
    (fun k => a * Rpower (deviatoricStretches l i) a * (kronecker i k / l i - 1 / (3 * l k))).
Proof.
  intros P Hi. assert (Q := bar_pos l i P Hi).
  eapply gradient_grad; [|apply (gradient_comp (fun x => Rpower x a) _ l _ (a * (Rpower (deviatoricStretches l i) a / deviatoricStretches l i))
    (local_bar i Hi) (bar_gradient l i P Hi))].
  - intros k Hk. assert (K := positive_at l k P Hk). assert (K' := positive_at l i P Hi). cbn beta. field. repeat split; lra.
  - unfold Rpower. auto_derive; [assumption|]. field. lra.
Qed.

Definition barSum (a : R) (l : stretches) : R := sum3 (fun i => Rpower (deviatoricStretches l i) a).

Lemma barSum_gradient l a : positiveStretches l ->
  gradient (barSum a) l (fun k => a * (Rpower (deviatoricStretches l k) a - barSum a l / 3) / l k).
Proof.
  intros P. unfold barSum, sum3.
  eapply gradient_grad; [|apply gradient_plus; [apply gradient_plus|]; apply barpow_gradient; [assumption|lia|assumption|lia|assumption|lia]].
  destruct P as (A & B & C). intros k Hk. unfold kronecker. index k Hk; cbn [Nat.eqb]; field; repeat split; lra.
Qed.

Lemma barSum_local a : local (barSum a).
Proof. intros l l' E. unfold barSum, sum3. now rewrite (local_bar 0 ltac:(lia) _ _ E), (local_bar 1 ltac:(lia) _ _ E), (local_bar 2 ltac:(lia) _ _ E). Qed.

Lemma ogden_gradient terms l : positiveStretches l -> (forall t, In t terms -> snd t <> 0) ->
  gradient (ogdenEnergy terms) l (fun k => total (fun '(mu, alpha) => mu * (Rpower (deviatoricStretches l k) alpha - barSum alpha l / 3) / l k) terms).
Proof.
  intros P N. unfold ogdenEnergy.
  apply (gradient_total (fun t l => let '(mu, alpha) := t in mu / alpha * (barSum alpha l - 3))
    (fun t k => let '(mu, alpha) := t in mu * (Rpower (deviatoricStretches l k) alpha - barSum alpha l / 3) / l k) terms l).
  intros [mu alpha] Ht. assert (M := N _ Ht). cbn [snd] in M.
  eapply gradient_grad; [|apply gradient_scale; apply gradient_plus; [apply barSum_gradient; assumption|apply gradient_const]].
  intros k Hk. assert (K := positive_at l k P Hk). cbn beta. field. repeat split; lra.
Qed.

Lemma ogdenFirst_total terms l k : positiveStretches l -> (k < 3)%nat ->
  ogdenFirst terms l k = total (fun '(mu, alpha) => mu * (Rpower (deviatoricStretches l k) alpha - barSum alpha l / 3) / l k) terms.
Proof.
  intros P Hk. unfold ogdenFirst, sum3. rewrite <- !total_scale.
  assert (K := positive_at l k P Hk).
  assert (E : forall i, (i < 3)%nat ->
    total (fun x : R * R => deviatoricStretches l i * (let '(mu, alpha) := x in mu * Rpower (deviatoricStretches l i) (alpha - 1))) terms =
    total (fun '(mu, alpha) => mu * Rpower (deviatoricStretches l i) alpha) terms).
  { intros i Hi. assert (Q := bar_pos l i P Hi). apply total_ext. intros [mu alpha] _.
    replace alpha with (alpha - 1 + 1) at 2 by ring. rewrite Rpower_plus, Rpower_1 by assumption. ring. }
  rewrite (E k Hk), !E by lia.
  match goal with |- (?a - 1 / 3 * (?b + ?c + ?d)) / _ = _ =>
    replace ((a - 1 / 3 * (b + c + d)) / l k) with (/ l k * a + (- 1 / 3 * / l k) * (b + c + d)) by (field; lra) end.
  rewrite <- !total_add, <- !total_scale, <- !total_add.
  apply total_ext. intros [mu alpha] _. unfold barSum, sum3. field. lra.
Qed.

Lemma writePowSums_some lambdaBar terms : forall p a, (p + length terms <= 3)%nat ->
  exists b, writePowSums lambdaBar terms p a = Some b /\
    (forall q, (q < p)%nat -> b q = a q) /\
    (forall q mu alpha, nth_error terms q = Some (mu, alpha) -> b (p + q)%nat = sum3 (fun i => Rpower (lambdaBar i) alpha)).
Proof.
  induction terms as [|[mu alpha] terms IH]; intros p a L; cbn [writePowSums length] in *.
  - exists a. repeat split; intros [|]; discriminate.
  - destruct (Nat.ltb_spec p 3) as [_|?]; [|lia].
    destruct (IH (S p) (fun q => if Nat.eqb q p then sum3 (fun i => Rpower (lambdaBar i) alpha) else a q) ltac:(lia)) as (b & E & B1 & B2).
    exists b. split; [exact E|]. split.
    + intros q Hq. rewrite B1 by lia. destruct (Nat.eqb_spec q p); [lia|reflexivity].
    + intros [|q] m al; cbn [nth_error]; intros K.
      * injection K as <- <-. rewrite Nat.add_0_r, B1 by lia. now rewrite Nat.eqb_refl.
      * rewrite <- (B2 q m al K). f_equal. lia.
Qed.

Lemma writePowSums_none lambdaBar terms : forall p a, (p <= 3)%nat -> (3 < p + length terms)%nat -> writePowSums lambdaBar terms p a = None.
Proof.
  induction terms as [|[mu alpha] terms IH]; intros p a L L'; cbn [writePowSums length] in *; [lia|].
  destruct (Nat.ltb_spec p 3); [|reflexivity]. apply IH; lia.
Qed.

Lemma total_indexed (F : nat -> R * R -> R) (G : R * R -> R) terms : forall p,
  (forall q t, nth_error terms q = Some t -> F (p + q)%nat t = G t) ->
  total (fun '(q, t) => F q t) (combine (seq p (length terms)) terms) = total G terms.
Proof.
  induction terms as [|t terms IH]; intros p H; [reflexivity|].
  cbn [length seq combine]. rewrite !total_cons, (IH (S p)).
  - rewrite <- (H 0%nat t eq_refl). now rewrite Nat.add_0_r.
  - intros q u K. rewrite <- (H (S q) u K). f_equal. lia.
Qed.

Lemma ogdenSecond_value terms l : (length terms <= 3)%nat ->
  exists dS, ogdenSecond terms l = Value dS /\ forall a b,
    dS a b = total (fun '(mu, alpha) => mu * alpha *
      ((if Nat.eqb a b then 1 / 3 * Rpower (deviatoricStretches l a) alpha
        else - (1 / 3) * (Rpower (deviatoricStretches l a) alpha + Rpower (deviatoricStretches l b) alpha)) + 1 / 9 * barSum alpha l)) terms
      * (1 / (l a * l b)) - 2 * kronecker a b / l a * ogdenFirst terms l a.
Proof.
  intros L. unfold ogdenSecond.
  destruct (writePowSums_some (deviatoricStretches l) terms 0 (fun _ => 0) ltac:(lia)) as (w & E & _ & B).
  rewrite E. eexists. split; [reflexivity|]. intros a b. cbn beta. unfold kronecker.
  assert (B' : forall q mu alpha, nth_error terms q = Some (mu, alpha) -> w q = barSum alpha l).
  { intros q mu alpha K. now rewrite <- (Nat.add_0_l q), (B q mu alpha K). }
  destruct (Nat.eqb a b).
  - rewrite (total_indexed (fun p t => let '(mu, alpha) := t in mu * alpha * (1 / 3 * Rpower (deviatoricStretches l a) alpha + 1 / 9 * w p))
      (fun '(mu, alpha) => mu * alpha * (1 / 3 * Rpower (deviatoricStretches l a) alpha + 1 / 9 * barSum alpha l))); [unfold Rdiv; ring|].
    intros q [mu alpha] K. cbn [Nat.add]. now rewrite (B' _ _ _ K).
  - rewrite (total_indexed (fun p t => let '(mu, alpha) := t in mu * alpha * (- (1 / 3) * (Rpower (deviatoricStretches l a) alpha + Rpower (deviatoricStretches l b) alpha) + 1 / 9 * w p))
      (fun '(mu, alpha) => mu * alpha * (- (1 / 3) * (Rpower (deviatoricStretches l a) alpha + Rpower (deviatoricStretches l b) alpha) + 1 / 9 * barSum alpha l))); [unfold Rdiv; ring|].
    intros q [mu alpha] K. cbn [Nat.add]. now rewrite (B' _ _ _ K).
Qed.

Lemma ogden_hessian terms l i : positiveStretches l -> (i < 3)%nat -> (length terms <= 3)%nat ->
  exists dS, ogdenSecond terms l = Value dS /\
  gradient (fun l => total (fun '(mu, alpha) => mu * (Rpower (deviatoricStretches l i) alpha - barSum alpha l / 3) / l i) terms) l
    (fun k => dS i k + kronecker i k * (ogdenFirst terms l i / l i)).
Proof.
  intros P Hi L. assert (Q := positive_at l i P Hi).
  destruct (ogdenSecond_value terms l L) as (dS & E & D). exists dS. split; [exact E|].
  eapply gradient_grad; [|apply (gradient_total
    (fun t l => let '(mu, alpha) := t in mu * (Rpower (deviatoricStretches l i) alpha - barSum alpha l / 3) / l i)
    (fun t k => let '(mu, alpha) := t in
       mu * (alpha * Rpower (deviatoricStretches l i) alpha * (kronecker i k / l i - 1 / (3 * l k))
             - alpha * (Rpower (deviatoricStretches l k) alpha - barSum alpha l / 3) / l k / 3) / l i
       - mu * (Rpower (deviatoricStretches l i) alpha - barSum alpha l / 3) / l i ^ 2 * kronecker i k) terms l)].
  - intros k Hk. cbn beta. rewrite D, ogdenFirst_total by assumption. assert (K := positive_at l k P Hk).
    match goal with |- _ = ?a * ?c - ?d * ?b + ?e * (?b / _) =>
      replace (a * c - d * b + e * (b / l i)) with (c * a + (- kronecker i k / l i) * b) by (field; repeat split; lra) end.
    rewrite <- !total_scale, <- total_add. apply total_ext. intros [mu alpha] _.
    unfold kronecker. destruct (Nat.eqb_spec i k) as [<-|]; field; repeat split; lra.
  - intros [mu alpha] _.
    assert (G1 := barpow_gradient l i alpha P Hi). assert (G2 := barSum_gradient l alpha P).
    assert (G3 := gradient_plus _ _ _ _ _ G1 (gradient_scale (- 1 / 3) _ _ _ G2)).
    assert (Lo : local (fun l => Rpower (deviatoricStretches l i) alpha + - 1 / 3 * barSum alpha l)).
    { intros a b K. now rewrite (local_bar i Hi _ _ K), (barSum_local alpha _ _ K). }
    assert (G4 := gradient_scale mu _ _ _ (gradient_mult _ _ _ _ _ Lo (local_comp Rinv _ (local_coord i Hi)) G3 (gradient_inv i l P Hi))).
    eapply gradient_ext; [| |exact G4]; cbn beta.
    + intros l'. unfold Rdiv. ring.
    + intros k Hk. assert (K := positive_at l k P Hk). field. repeat split; lra.
Qed.

(** Invariant-based functions *)

Lemma powerAndMultiply_1 x p : powerAndMultiply x (Z.of_nat p - 1) (Z.of_nat p) = INR p * x ^ pred p.
Proof.
  unfold powerAndMultiply. destruct p as [|p]; [cbn; ring|].
  destruct (Z.eqb_spec (Z.of_nat (S p)) 0); [lia|]. rewrite <- INR_IZR_INZ.
  destruct (Z.eqb_spec (Z.of_nat (S p) - 1) 0) as [E|E].
  - assert (p = 0%nat) as -> by lia. cbn. ring.
  - replace (Z.of_nat (S p) - 1)%Z with (Z.of_nat p) by lia. rewrite <- pow_powerRZ. cbn [pred]. ring.
Qed.

Lemma powerAndMultiply_2 x p :
  powerAndMultiply x (Z.of_nat p - 2) (Z.of_nat p * (Z.of_nat p - 1)) = INR p * (INR (pred p) * x ^ pred (pred p)).
Proof.
  unfold powerAndMultiply. destruct p as [|[|p]]; [cbn; ring|cbn; ring|].
  destruct (Z.eqb_spec (Z.of_nat (S (S p)) * (Z.of_nat (S (S p)) - 1)) 0); [lia|].
  rewrite mult_IZR. replace (Z.of_nat (S (S p)) - 1)%Z with (Z.of_nat (S p)) by lia. rewrite <- !INR_IZR_INZ.
  destruct (Z.eqb_spec (Z.of_nat (S (S p)) - 2) 0) as [E|E].
  - assert (p = 0%nat) as -> by lia. cbn. ring.
  - replace (Z.of_nat (S (S p)) - 2)%Z with (Z.of_nat p) by lia. rewrite <- pow_powerRZ. cbn [pred]. ring.
Qed.

Lemma shift_gradient w l g : gradient w l g -> gradient (fun l => w l - 3) l g.
Proof.
  intros G. eapply gradient_ext; [| |apply gradient_plus; [exact G|apply (gradient_const (-3))]]; cbn beta; intros; ring.
Qed.

Lemma power_gradient w l g p : local w -> gradient w l g -> gradient (fun l => w l ^ p) l (fun k => INR p * w l ^ pred p * g k).
Proof.
  intros L G. apply (gradient_comp (fun x => x ^ p) w l g); [assumption|assumption|].
  auto_derive; [exact I|]. ring.
Qed.

Lemma local_shift w : local w -> local (fun l => w l - 3).
Proof. intros W l l' E. now rewrite (W _ _ E). Qed.

Lemma local_pow w p : local w -> local (fun l => w l ^ p).
Proof. intros W l l' E. now rewrite (W _ _ E). Qed.

Lemma invariant_gradient terms l : positiveStretches l -> gradient (invariantEnergy terms) l (invariantFirst terms l).
Proof.
  intros P. unfold invariantEnergy, invariantFirst.
  eapply gradient_grad; [|apply (gradient_total (fun t l => let '(mu, p, q) := t in mu * (W1 l - 3) ^ p * (W2 l - 3) ^ q)
    (fun t k => let '(mu, p, q) := t in mu * (INR p * (W1 l - 3) ^ pred p * (W2 l - 3) ^ q * dW1 l k + (W1 l - 3) ^ p * (INR q * (W2 l - 3) ^ pred q) * dW2 l k)) terms l)].
  - intros k Hk. cbn beta. apply total_ext. intros [[mu p] q] _. now rewrite !powerAndMultiply_1.
  - intros [[mu p] q] _.
    assert (G1 := power_gradient _ _ _ p (local_shift _ local_W1) (shift_gradient _ _ _ (W1_gradient l P))).
    assert (G2 := power_gradient _ _ _ q (local_shift _ local_W2) (shift_gradient _ _ _ (W2_gradient l P))).
    assert (G := gradient_scale mu _ _ _ (gradient_mult _ _ _ _ _ (local_pow _ p (local_shift _ local_W1)) (local_pow _ q (local_shift _ local_W2)) G1 G2)).
    eapply gradient_ext; [| |exact G]; cbn beta; intros; ring.
Qed.

Lemma invariant_hessian terms l i : positiveStretches l -> (i < 3)%nat ->
  gradient (fun l => invariantFirst terms l i) l
    (fun k => invariantSecond terms l i k + kronecker i k * (invariantFirst terms l i / l i)).
Proof.
  intros P Hi. assert (Q := positive_at l i P Hi).
  eapply (gradient_ext (fun l => total (fun t => let '(mu, p, q) := t in
      mu * (INR p * (W1 l - 3) ^ pred p * (W2 l - 3) ^ q * dW1 l i + (W1 l - 3) ^ p * (INR q * (W2 l - 3) ^ pred q) * dW2 l i)) terms));
    [intros l'; unfold invariantFirst; apply total_ext; intros [[mu p] q] _; rewrite !powerAndMultiply_1; reflexivity| |].
  2: apply (gradient_total (fun t l => let '(mu, p, q) := t in
      mu * (INR p * (W1 l - 3) ^ pred p * (W2 l - 3) ^ q * dW1 l i + (W1 l - 3) ^ p * (INR q * (W2 l - 3) ^ pred q) * dW2 l i))
    (fun t k => let '(mu, p, q) := t in
      mu * (INR p * (INR (pred p) * (W1 l - 3) ^ pred (pred p)) * (W2 l - 3) ^ q * dW1 l i * dW1 l k
            + INR p * (W1 l - 3) ^ pred p * (INR q * (W2 l - 3) ^ pred q) * dW1 l i * dW2 l k
            + INR p * (W1 l - 3) ^ pred p * (W2 l - 3) ^ q * ddW1 l i k
            + INR p * (W1 l - 3) ^ pred p * (INR q * (W2 l - 3) ^ pred q) * dW2 l i * dW1 l k
            + (W1 l - 3) ^ p * (INR q * (INR (pred q) * (W2 l - 3) ^ pred (pred q))) * dW2 l i * dW2 l k
            + (W1 l - 3) ^ p * (INR q * (W2 l - 3) ^ pred q) * ddW2 l i k)) terms l).
  - intros k Hk. cbn beta. unfold invariantSecond, invariantFirst, kronecker. destruct (Nat.eqb_spec i k) as [<-|].
    + match goal with |- _ = _ + 1 * (?s / _) => replace (1 * (s / l i)) with (/ l i * s) by (field; lra) end.
      rewrite <- total_scale, <- total_add. apply total_ext. intros [[mu p] q] _.
      rewrite !powerAndMultiply_1, !powerAndMultiply_2. field. lra.
    + rewrite Rmult_0_l, Rplus_0_r. apply total_ext. intros [[mu p] q] _.
      rewrite !powerAndMultiply_1, !powerAndMultiply_2. ring.
  - intros [[mu p] q] _.
    assert (S1 := local_shift _ local_W1). assert (S2 := local_shift _ local_W2).
    assert (D1 := shift_gradient _ _ _ (W1_gradient l P)). assert (D2 := shift_gradient _ _ _ (W2_gradient l P)).
    assert (A1 := power_gradient _ _ _ p S1 D1). assert (A2 := power_gradient _ _ _ (pred p) S1 D1).
    assert (B1 := power_gradient _ _ _ q S2 D2). assert (B2 := power_gradient _ _ _ (pred q) S2 D2).
    assert (X := gradient_mult _ _ _ _ _ (local_mult _ _ (local_pow _ (pred p) S1) (local_pow _ q S2)) (local_dW1 i Hi)
      (gradient_mult _ _ _ _ _ (local_pow _ (pred p) S1) (local_pow _ q S2) A2 B1) (dW1_gradient l i P Hi)).
    assert (Y := gradient_mult _ _ _ _ _ (local_mult _ _ (local_pow _ p S1) (local_pow _ (pred q) S2)) (local_dW2 i Hi)
      (gradient_mult _ _ _ _ _ (local_pow _ p S1) (local_pow _ (pred q) S2) A1 B2) (dW2_gradient l i P Hi)).
    assert (G := gradient_plus _ _ _ _ _ (gradient_scale (mu * INR p) _ _ _ X) (gradient_scale (mu * INR q) _ _ _ Y)).
    eapply gradient_ext; [| |exact G]; cbn beta; intros; ring.
Qed.

Lemma invariant_local terms i : (i < 3)%nat -> local (fun l => invariantFirst terms l i).
Proof.
  intros Hi l l' E. unfold invariantFirst.
  now rewrite (local_W1 _ _ E), (local_W2 _ _ E), (local_dW1 i Hi _ _ E), (local_dW2 i Hi _ _ E).
Qed.

(** The deviatoric invariants are at least 3 *)

Lemma cubes x y z : 0 < x -> 0 < y -> 0 < z -> 3 * x * y * z <= x ^ 3 + y ^ 3 + z ^ 3.
Proof.
  intros X Y Z.
  assert (E : x ^ 3 + y ^ 3 + z ^ 3 - 3 * x * y * z = (x + y + z) * ((x - y) ^ 2 + (y - z) ^ 2 + (z - x) ^ 2) / 2) by field.
  assert (0 <= (x + y + z) * ((x - y) ^ 2 + (y - z) ^ 2 + (z - x) ^ 2)).
  { apply Rmult_le_pos; [lra|]. assert (A := pow2_ge_0 (x - y)). assert (B := pow2_ge_0 (y - z)). assert (C := pow2_ge_0 (z - x)). lra. }
  lra.
Qed.

Lemma root3 x : 0 < x -> Rpower x (1 / 3) ^ 3 = x.
Proof.
  intros P. rewrite <- (Rpower_1 x P) at 2. change (Rpower x (1 / 3) ^ 3) with (Rpower x (1 / 3) * (Rpower x (1 / 3) * (Rpower x (1 / 3) * 1))).
  rewrite Rmult_1_r, <- !Rpower_plus. f_equal. lra.
Qed.

Lemma amgm a b c : 0 < a -> 0 < b -> 0 < c -> 3 <= (a + b + c) * / Rpower (a * b * c) (1 / 3).
Proof.
  intros A B C. assert (M := cubes (Rpower a (1 / 3)) (Rpower b (1 / 3)) (Rpower c (1 / 3)) (exp_pos _) (exp_pos _) (exp_pos _)).
  rewrite !root3 in M by assumption.
  assert (E : Rpower (a * b * c) (1 / 3) = Rpower a (1 / 3) * Rpower b (1 / 3) * Rpower c (1 / 3)).
  { rewrite !Rpower_mult_distr; try assumption; [reflexivity|]. now apply Rmult_lt_0_compat. }
  rewrite E. set (p := Rpower a (1 / 3) * Rpower b (1 / 3) * Rpower c (1 / 3)) in *.
  assert (0 < p) by (unfold p; repeat apply Rmult_lt_0_compat; apply exp_pos).
  apply (Rmult_le_reg_r p); [assumption|]. rewrite Rmult_assoc, Rinv_l, Rmult_1_r by lra. unfold p. lra.
Qed.

Lemma W1_ge l : positiveStretches l -> 3 <= W1 l.
Proof.
  intros (A & B & C). unfold W1. rewrite I3_neg13. unfold I1, I3, sum3, prod3. apply amgm; now apply pow_lt.
Qed.

Lemma W2_ge l : positiveStretches l -> 3 <= W2 l.
Proof.
  intros (A & B & C). unfold W2. rewrite I3_neg23, <- I3_pow23.
  replace (Rpower (I3 l) (2 / 3)) with (Rpower (l 0%nat ^ 2 * l 1%nat ^ 2 * (l 1%nat ^ 2 * l 2%nat ^ 2) * (l 0%nat ^ 2 * l 2%nat ^ 2)) (1 / 3)).
  - unfold I2. apply amgm; apply Rmult_lt_0_compat; now apply pow_lt.
  - replace (_ * _) with (I3 l * I3 l) by (unfold I3, prod3; ring).
    assert (0 < I3 l) by (apply I3_pos; now split).
    rewrite <- Rpower_mult_distr, <- Rpower_plus by assumption. f_equal. lra.
Qed.

(** Gent *)

Lemma checkJm_gap Jm l : positiveStretches l -> checkJm Jm (W1 l) = false -> 0 <= W1 l - 3 < Jm.
Proof.
  intros P. unfold checkJm, floatLe, rltb. destruct (Rlt_dec Jm (W1 l - 3)) as [|H]; [discriminate|]. cbn [orb].
  unfold floatEq, rleb. destruct Rle_dec as [|N]; [discriminate|]. intros _.
  assert (G := W1_ge l P). split; [lra|]. apply Rnot_lt_le in H. destruct H as [H|H]; [assumption|exfalso; apply N].
  rewrite H. unfold Rminus at 1. rewrite Rplus_opp_r, Rabs_R0. apply Rmult_le_pos.
  - apply Rlt_le, Rdiv_lt_0_compat; [lra|]. apply pow_lt. lra.
  - eapply Rle_trans; [|apply Rmax_l]. apply Rabs_pos.
Qed.

Lemma gent_gradient mu Jm l : positiveStretches l -> 0 <= W1 l - 3 < Jm -> gradient (gentEnergy mu Jm) l (gentFirst mu Jm l).
Proof.
  intros P J. unfold gentEnergy.
  assert (F : 0 < 1 - (W1 l - 3) / Jm).
  { apply Rlt_Rminus. apply (Rmult_lt_reg_r Jm); [lra|]. unfold Rdiv. rewrite Rmult_assoc, Rinv_l; lra. }
  eapply gradient_grad; [|apply (gradient_comp (fun w => - (mu / 2) * Jm * ln (1 - (w - 3) / Jm)) W1 l (dW1 l)
    (mu / 2 / (1 - (W1 l - 3) / Jm))); [apply local_W1|now apply W1_gradient|]].
  - intros k Hk. unfold gentFirst. field. repeat split; lra.
  - auto_derive; [split; [exact F|exact I] || exact F|]. field. repeat split; lra.
Qed.

Lemma gent_hessian mu Jm l i : positiveStretches l -> (i < 3)%nat -> 0 <= W1 l - 3 < Jm ->
  gradient (fun l => gentFirst mu Jm l i) l (fun k => gentSecond mu Jm l i k + kronecker i k * (gentFirst mu Jm l i / l i)).
Proof.
  intros P Hi J. assert (Q := positive_at l i P Hi).
  assert (G1 := gradient_comp (fun w => mu * Jm / (2 * (Jm - w) + 6)) W1 l (dW1 l) (2 * mu * Jm / (2 * (Jm - W1 l) + 6) ^ 2)
    local_W1 (W1_gradient l P) ltac:(auto_derive; [lra|field; lra])).
  assert (G := gradient_mult _ _ _ _ _ (local_comp (fun w => mu * Jm / (2 * (Jm - w) + 6)) _ local_W1) (local_dW1 i Hi) G1 (dW1_gradient l i P Hi)).
  eapply gradient_ext; [| |exact G]; cbn beta.
  - intros l'. unfold gentFirst, Rdiv. ring.
  - intros k Hk. unfold gentSecond, gentFirst, kronecker. destruct (Nat.eqb_spec i k) as [<-|]; field; repeat split; lra.
Qed.

Lemma gent_local mu Jm i : (i < 3)%nat -> local (fun l => gentFirst mu Jm l i).
Proof. intros Hi l l' E. unfold gentFirst. now rewrite (local_W1 _ _ E), (local_dW1 i Hi _ _ E). Qed.

(** Arruda-Boyce *)

Lemma arruda_gradient mu lambdaM l : positiveStretches l -> gradient (arrudaEnergy mu lambdaM) l (arrudaFirst mu lambdaM l).
Proof.
  intros P. unfold arrudaEnergy, arrudaFirst. set (beta := 1 / lambdaM ^ 2).
  eapply (gradient_ext (fun l => total (fun t => mu * (let '(i, alpha) := t in alpha * beta ^ i * (W1 l ^ (i + 1) - 3 ^ (i + 1)))) arrudaTerms));
    [intros l'; rewrite total_scale; apply Rmult_comm|reflexivity|].
  apply (gradient_total (fun t l => mu * (let '(i, alpha) := t in alpha * beta ^ i * (W1 l ^ (i + 1) - 3 ^ (i + 1))))
    (fun t k => let '(j, alpha) := t in mu * alpha * beta ^ j * W1 l ^ j * dW1 l k * INR (j + 1)) arrudaTerms l).
  intros [p alpha] _.
  assert (G := power_gradient _ _ _ (p + 1) local_W1 (W1_gradient l P)).
  assert (G' := gradient_scale (mu * alpha * beta ^ p) _ _ _ (gradient_plus _ _ _ _ _ G (gradient_const (- 3 ^ (p + 1)) l))).
  eapply gradient_ext; [| |exact G']; cbn beta; intros; [ring|].
  replace (pred (p + 1)) with p by lia. ring.
Qed.

Lemma arruda_hessian mu lambdaM l i : positiveStretches l -> (i < 3)%nat ->
  gradient (fun l => arrudaFirst mu lambdaM l i) l
    (fun k => arrudaSecond mu lambdaM l i k + kronecker i k * (arrudaFirst mu lambdaM l i / l i)).
Proof.
  intros P Hi. assert (Q := positive_at l i P Hi). assert (W := W1_ge l P). unfold arrudaFirst, arrudaSecond. set (beta := 1 / lambdaM ^ 2).
  eapply gradient_grad; [|apply (gradient_total (fun t l => let '(j, alpha) := t in mu * alpha * beta ^ j * W1 l ^ j * dW1 l i * INR (j + 1))
    (fun t k => let '(j, alpha) := t in mu * alpha * beta ^ j * INR (j + 1) * (INR j * W1 l ^ pred j * dW1 l k * dW1 l i + W1 l ^ j * ddW1 l i k)) arrudaTerms l)].
  - intros k Hk. cbn beta.
    assert (F : forall p, INR p * W1 l ^ pred p = powerRZ (W1 l) (Z.of_nat p - 1) * INR p).
    { intros [|p]; [cbn; ring|]. replace (Z.of_nat (S p) - 1)%Z with (Z.of_nat p) by lia. rewrite <- pow_powerRZ. cbn [pred]. ring. }
    unfold kronecker. destruct (Nat.eqb_spec i k) as [<-|].
    + match goal with |- _ = _ + 1 * (?s / _) => replace (1 * (s / l i)) with (/ l i * s) by (field; lra) end.
      rewrite <- total_scale, <- total_add. apply total_ext. intros [p alpha] _. rewrite F. field. lra.
    + rewrite Rmult_0_l, Rplus_0_r. apply total_ext. intros [p alpha] _. rewrite F. ring.
  - intros [p alpha] _.
    assert (G := gradient_mult _ _ _ _ _ (local_pow _ p local_W1) (local_dW1 i Hi) (power_gradient _ _ _ p local_W1 (W1_gradient l P)) (dW1_gradient l i P Hi)).
    assert (G' := gradient_scale (mu * alpha * beta ^ p * INR (p + 1)) _ _ _ G).
    eapply gradient_ext; [| |exact G']; cbn beta; intros; ring.
Qed.

Lemma arruda_local mu lambdaM i : (i < 3)%nat -> local (fun l => arrudaFirst mu lambdaM l i).
Proof. intros Hi l l' E. unfold arrudaFirst. now rewrite (local_W1 _ _ E), (local_dW1 i Hi _ _ E). Qed.
