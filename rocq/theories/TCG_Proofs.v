(** The truncated conjugate gradient method in a real inner-product space. *)

From Coq Require Import List ZArith Bool Lia Reals Lra.
From Verif Require Import TCG_Model TrustRegion_Proofs.
Import ListNotations.
Local Open Scope R_scope.

Section Space.
Context {V : Type}.
Variables (vzero : V) (vadd vsub : V -> V -> V) (vscale : R -> V -> V) (dot : V -> V -> R).
Variables (A P M : V -> V).
Hypothesis dot_sym : forall u v, dot u v = dot v u.
Hypothesis dot_add : forall u v w, dot (vadd u v) w = dot u w + dot v w.
Hypothesis dot_sub : forall u v w, dot (vsub u v) w = dot u w - dot v w.
Hypothesis dot_scale : forall s u w, dot (vscale s u) w = s * dot u w.
Hypothesis dot_zero : forall w, dot vzero w = 0.
Hypothesis dot_pos : forall u, 0 <= dot u u.
(** The matrix is symmetric and linear; the preconditioner [P] is symmetric positive definite with inverse [M]. *)
Hypothesis A_sym : forall u v, dot (A u) v = dot u (A v).
Hypothesis P_sym : forall u v, dot (P u) v = dot u (P v).
Hypothesis M_sym : forall u v, dot (M u) v = dot u (M v).
Hypothesis PM : forall u v, dot (P u) (M v) = dot u v.
Hypothesis P_pos : forall u, 0 < dot u u -> 0 < dot u (P u).

Variable b : V.
Definition model (x : V) : R := 1 / 2 * dot x (A x) - dot b x.
Definition mnorm2 (x : V) : R := dot x (M x).

Lemma dot_addr u v w : dot w (vadd u v) = dot w u + dot w v.
Proof. rewrite dot_sym, dot_add, (dot_sym u), (dot_sym v). reflexivity. Qed.
Lemma dot_subr u v w : dot w (vsub u v) = dot w u - dot w v.
Proof. rewrite dot_sym, dot_sub, (dot_sym u), (dot_sym v). reflexivity. Qed.
Lemma dot_scaler s u w : dot w (vscale s u) = s * dot w u.
Proof. rewrite dot_sym, dot_scale, (dot_sym u). reflexivity. Qed.
Lemma dA_add u v w : dot (A (vadd u v)) w = dot (A u) w + dot (A v) w.
Proof. rewrite !A_sym, dot_add. reflexivity. Qed.
Lemma dA_scale s v w : dot (A (vscale s v)) w = s * dot (A v) w.
Proof. rewrite !A_sym, dot_scale. reflexivity. Qed.
Lemma dM_add u v w : dot (M (vadd u v)) w = dot (M u) w + dot (M v) w.
Proof. rewrite !M_sym, dot_add. reflexivity. Qed.
Lemma dM_scale s v w : dot (M (vscale s v)) w = s * dot (M v) w.
Proof. rewrite !M_sym, dot_scale. reflexivity. Qed.
Lemma dA_swap u v : dot u (A v) = dot v (A u).
Proof. rewrite <- A_sym, dot_sym. reflexivity. Qed.
Lemma dM_swap u v : dot u (M v) = dot v (M u).
Proof. rewrite <- M_sym, dot_sym. reflexivity. Qed.

Lemma model_step x p t : model (vadd x (vscale t p)) = model x - t * (dot b p - dot p (A x)) + 1 / 2 * (t * t) * dot p (A p).
Proof.
  unfold model. rewrite dot_add, dot_scale, (dot_addr x). rewrite (dot_scaler t p b).
  rewrite <- (A_sym x (vadd _ _)), <- (A_sym p (vadd _ _)). rewrite !dot_addr, !dot_scaler, !A_sym.
  rewrite (dA_swap x p). field.
Qed.

Lemma mnorm_step x p t : mnorm2 (vadd x (vscale t p)) = mnorm2 x + 2 * t * dot x (M p) + t * t * dot p (M p).
Proof.
  unfold mnorm2. rewrite dot_add, dot_scale, <- (M_sym x (vadd _ _)), <- (M_sym p (vadd _ _)).
  rewrite !dot_addr, !dot_scaler, !M_sym. rewrite (dM_swap x p), (dM_swap p x). ring.
Qed.

(** The state with the history of search directions [ps] and residuals [rs] before it; [c] bounds the model *)
Record good (D c : R) (ps rs : list V) (s : @tcgState R V) : Prop := {
  g_r : forall w, dot (ts_r s) w = dot b w - dot (A (ts_x s)) w;
  g_rpos : 0 < dot (ts_r s) (ts_r s);
  g_abs : ts_absNew s = dot (ts_r s) (P (ts_r s));
  g_rp : dot (ts_r s) (ts_p s) = ts_absNew s;
  g_pA : forall q, In q ps -> dot q (A (ts_p s)) = 0;
  g_pr : forall q, In q ps -> dot q (ts_r s) = 0;
  g_span : forall y, (forall q, In q ps -> dot q y = 0) -> dot (ts_x s) y = 0;
  g_zspan : forall r y, In r rs -> (forall q, In q ps -> dot q y = 0) -> dot (P r) y = 0;
  g_zcur : forall y, (forall q, In q ps -> dot q y = 0) -> dot (ts_p s) y = 0 -> dot (P (ts_r s)) y = 0;
  g_Aspan : forall q y, In q ps -> (forall r, In r rs -> dot r y = 0) -> dot (ts_r s) y = 0 -> dot (A q) y = 0;
  g_ePd : ts_ePd s = dot (ts_x s) (M (ts_p s));
  g_ePe : ts_ePe s = mnorm2 (ts_x s);
  g_dPd : ts_dPd s = dot (ts_p s) (M (ts_p s));
  g_dPos : 0 < ts_dPd s;
  g_in : mnorm2 (ts_x s) < D * D;
  g_model : model (ts_x s) <= c }.

(** One step inside the region keeps everything *)
Lemma good_step D c ps rs s : good D c ps rs s -> 0 < dot (ts_p s) (A (ts_p s)) ->
  let alpha := ts_absNew s / dot (ts_p s) (A (ts_p s)) in
  let ePeNew := ts_ePe s + 2 * alpha * ts_ePd s + alpha * alpha * ts_dPd s in
  let x := vadd (ts_x s) (vscale alpha (ts_p s)) in
  let r := vsub (ts_r s) (vscale alpha (A (ts_p s))) in
  ePeNew < D * D ->
  mnorm2 x = ePeNew /\ model x <= model (ts_x s) /\
  (forall c', model x <= c' -> 0 < dot r r ->
   let absNew := dot r (P r) in
   let beta := absNew / ts_absNew s in
   good D c' (ts_p s :: ps) (ts_r s :: rs)
     (mkTS x r (vadd (P r) (vscale beta (ts_p s))) absNew (beta * (ts_ePd s + alpha * ts_dPd s)) ePeNew (absNew + beta * beta * ts_dPd s))).
Proof.
  intros G Hd alpha ePeNew x r Hin.
  destruct G as [Gr Grp Gabs Gp GpA Gpr Gspan Gz Gzc GA GePd GePe GdPd GdPos Gin Gm].
  set (p := ts_p s) in *. set (r0 := ts_r s) in *. set (x0 := ts_x s) in *.
  assert (Habs : 0 < ts_absNew s) by (rewrite Gabs; apply P_pos; auto).
  assert (Hal : alpha * dot p (A p) = ts_absNew s) by (unfold alpha; field; lra).
  assert (Hm : mnorm2 x = ePeNew).
  { unfold x. rewrite mnorm_step. unfold ePeNew. rewrite GePe, GePd, GdPd. ring. }
  assert (Hrp0 : dot b p - dot p (A x0) = ts_absNew s).
  { rewrite <- Gp, Gr, A_sym, (dA_swap x0 p). ring. }
  assert (Hmod : model x <= model x0).
  { unfold x. rewrite model_step, Hrp0.
    replace (1 / 2 * (alpha * alpha) * dot p (A p)) with (1 / 2 * alpha * (alpha * dot p (A p))) by ring. rewrite Hal.
    assert (0 < alpha) by (apply Rdiv_lt_0_compat; auto). nra. }
  split; auto. split; auto. intros c' Hc' Hr absNew beta.
  (* the new residual is orthogonal to all old directions *)
  assert (Hpr : forall q, In q (p :: ps) -> dot q r = 0).
  { intros q [<-|Hq]; unfold r; rewrite dot_subr, dot_scaler.
    - rewrite Hal, dot_sym, Gp. ring.
    - rewrite (Gpr q Hq), (GpA q Hq). ring. }
  (* and, preconditioned, to all old residuals *)
  assert (Hzr : forall q, In q (r0 :: rs) -> dot q (P r) = 0).
  { intros q [<-|Hq]; rewrite <- P_sym.
    - apply Gzc; [intros; apply Hpr; right; auto|apply Hpr; left; auto].
    - apply Gz; auto. intros; apply Hpr; right; auto. }
  assert (HrPr : 0 < absNew) by (apply P_pos; auto).
  assert (Hx0A : dot x0 (A p) = 0) by (apply Gspan; auto).
  assert (Hx0r : dot x0 r = 0) by (apply Gspan; intros; apply Hpr; right; auto).
  assert (Hxr : dot x r = 0).
  { unfold x. rewrite dot_add, dot_scale, Hx0r, (Hpr p) by (left; auto). ring. }
  assert (Hrz : dot r (vadd (P r) (vscale beta p)) = absNew).
  { rewrite dot_addr, dot_scaler, (dot_sym r p), (Hpr p) by (left; auto). unfold absNew. ring. }
  assert (HMp : forall w, dot w (M (vadd (P r) (vscale beta p))) = dot w r + beta * dot w (M p)).
  { intro w. rewrite dM_swap, dot_add, dot_scale, PM, (dM_swap p w), (dot_sym r w). reflexivity. }
  assert (Hal0 : alpha <> 0). { assert (0 < alpha) by (apply Rdiv_lt_0_compat; auto). lra. }
  constructor; simpl.
  - intro w. unfold r, x. rewrite dot_sub, dot_scale, Gr, dA_add, dA_scale. ring.
  - exact Hr.
  - reflexivity.
  - exact Hrz.
  - intros q Hq. rewrite <- A_sym, dot_addr, dot_scaler.
    destruct Hq as [<-|Hq].
    + (* A p = (r0 - r) / alpha *)
      assert (E : alpha * dot (A p) (P r) = - absNew).
      { pose proof (Hzr r0 (or_introl eq_refl)) as Z0. assert (Q : absNew = dot r0 (P r) - alpha * dot (A p) (P r)) by (unfold absNew; generalize (P r); intro w; unfold r; rewrite dot_sub, dot_scale; reflexivity). rewrite Z0 in Q. lra. }
      rewrite (A_sym p p). unfold beta.
      apply (Rmult_eq_reg_l alpha); auto. rewrite Rmult_plus_distr_l, E.
      replace (alpha * (absNew / ts_absNew s * dot p (A p))) with (absNew / ts_absNew s * (alpha * dot p (A p))) by ring.
      rewrite Hal. field. lra.
    + rewrite (GA q (P r)); auto.
      * rewrite (A_sym q p), (GpA q Hq). ring.
      * intros r1 Hr1. apply Hzr. right; auto.
      * apply Hzr. left; auto.
  - exact Hpr.
  - intros y Hy. unfold x. rewrite dot_add, dot_scale, (Hy p) by (left; auto). rewrite Gspan; [ring|]. intros; apply Hy; right; auto.
  - intros q y [<-|Hq] Hy.
    + apply Gzc; [intros; apply Hy; right; auto|apply Hy; left; auto].
    + apply Gz; [exact Hq|intros; apply Hy; right; auto].
  - intros y Hy Hp. rewrite dot_add, dot_scale, (Hy p) in Hp by (left; auto). lra.
  - intros q y Hq Hy Hry. destruct Hq as [<-|Hq].
    + unfold r in Hry. rewrite dot_sub, dot_scale, (Hy r0) in Hry by (left; auto).
      apply (Rmult_eq_reg_l alpha); auto. lra.
    + apply GA; [exact Hq|intros; apply Hy; right; auto|apply Hy; left; auto].
  - rewrite HMp, Hxr. unfold x. rewrite dot_add, dot_scale, GePd, GdPd. ring.
  - symmetry. exact Hm.
  - rewrite HMp, dot_add, dot_scale, dot_add, dot_scale. rewrite PM, (Hpr p) by (left; auto).
    replace (dot (P r) r) with absNew by (unfold absNew; apply dot_sym). rewrite GdPd.
    rewrite (dot_sym r p), (Hpr p) by (left; auto). ring.
  - assert (0 <= beta * beta * ts_dPd s). { pose proof (Rle_0_sqr beta). unfold Rsqr in *. nra. } lra.
  - rewrite Hm. auto.
  - exact Hc'.
Qed.

(** The step to the boundary *)
Lemma good_boundary D c ps rs s : good D c ps rs s ->
  let dHd := dot (ts_p s) (A (ts_p s)) in
  let alpha := ts_absNew s / dHd in
  let ePeNew := ts_ePe s + 2 * alpha * ts_ePd s + alpha * alpha * ts_dPd s in
  let tau := (- ts_ePd s + sqrt (ts_ePd s * ts_ePd s + ts_dPd s * (D * D - ts_ePe s))) / ts_dPd s in
  let x := vadd (ts_x s) (vscale tau (ts_p s)) in
  dHd <= 0 \/ D * D <= ePeNew ->
  mnorm2 x = D * D /\ 0 < tau /\ (0 < dHd -> tau <= alpha) /\ model x <= model (ts_x s).
Proof.
  intros G dHd alpha ePeNew tau x Hc.
  destruct G as [Gr Grp Gabs Gp GpA Gpr Gspan Gz Gzc GA GePd GePe GdPd GdPos Gin Gm].
  assert (Habs : 0 < ts_absNew s) by (rewrite Gabs; apply P_pos; auto).
  assert (Hrp0 : dot b (ts_p s) - dot (ts_p s) (A (ts_x s)) = ts_absNew s).
  { rewrite <- Gp, Gr, A_sym, (dA_swap (ts_x s)). ring. }
  assert (Hx : mnorm2 x = ts_ePe s + 2 * tau * ts_ePd s + tau * tau * ts_dPd s).
  { unfold x. rewrite mnorm_step, GePe, GePd, GdPd. ring. }
  assert (Hmx : model x = model (ts_x s) - tau * ts_absNew s + 1 / 2 * (tau * tau) * dHd).
  { unfold x. rewrite model_step, Hrp0. reflexivity. }
  rewrite <- GePe in Gin. clear - Hx Hmx Habs Gin GdPos Hc Gm.
  set (e := ts_ePe s) in *. set (f := ts_ePd s) in *. set (d := ts_dPd s) in *. set (a := ts_absNew s) in *.
  assert (Hdisc : 0 <= f * f + d * (D * D - e)).
  { pose proof (Rle_0_sqr f). unfold Rsqr in *. assert (0 < d * (D * D - e)) by (apply Rmult_lt_0_compat; lra). lra. }
  pose proof (sqrt_sqrt _ Hdisc) as Hs. pose proof (sqrt_pos (f * f + d * (D * D - e))) as Hsp.
  set (q := sqrt (f * f + d * (D * D - e))) in *.
  assert (Hq : f < q). { destruct (Rle_lt_dec q f); auto. assert (0 < d * (D * D - e)) by (apply Rmult_lt_0_compat; lra). nra. }
  assert (Htau : tau * d = q - f) by (unfold tau; field; lra).
  assert (Ht0 : 0 < tau). { destruct (Rle_lt_dec tau 0); auto. exfalso. assert (tau * d <= 0) by nra. lra. }
  assert (Hta : 0 < dHd -> tau <= alpha).
  { intros Hp. destruct Hc as [|Hc]; [lra|].
    assert (Hal0 : 0 < alpha) by (apply Rdiv_lt_0_compat; auto).
    (* e + 2 alpha f + alpha^2 d >= D^2  ->  alpha >= tau *)
    destruct (Rle_lt_dec tau alpha); auto. exfalso. unfold ePeNew in Hc.
    assert (K : d * e + 2 * (alpha * d) * f + alpha * d * (alpha * d) >= d * (D * D)). { nra. }
    set (y := alpha * d) in *.
    assert (Hy : 0 < y < q - f). { split; [apply Rmult_lt_0_compat; lra|]. rewrite <- Htau. unfold y. apply Rmult_lt_compat_r; auto. }
    assert ((y + f) * (y + f) >= q * q). { rewrite Hs. nra. }
    assert (0 <= q) by auto.
    destruct (Rle_lt_dec 0 (y + f)).
    - assert (y + f < q) by lra. nra.
    - (* y + f < 0: then |y+f| < -f <= q *)
      assert (- (y + f) < q). { assert (- f < q). { destruct (Rle_lt_dec q (- f)); auto. assert (0 < d * (D * D - e)) by (apply Rmult_lt_0_compat; lra). nra. } lra. }
      nra. }
  split; [|split; [exact Ht0|split; [exact Hta|]]].
  - rewrite Hx. apply (Rmult_eq_reg_l d); [|lra].
    replace (d * (e + 2 * tau * f + tau * tau * d)) with (d * e + 2 * (tau * d) * f + (tau * d) * (tau * d)) by ring. rewrite Htau.
    replace (d * e + 2 * (q - f) * f + (q - f) * (q - f)) with (d * e + q * q - f * f) by ring. rewrite Hs. ring.
  - rewrite Hmx. destruct (Rle_lt_dec dHd 0) as [Hn|Hp].
    + assert (0 < tau * a) by (apply Rmult_lt_0_compat; lra). assert (0 <= tau * tau) by nra. nra.
    + assert (Hal : alpha * dHd = a) by (unfold alpha; field; lra).
      specialize (Hta Hp).
      rewrite <- Hal. assert (0 <= tau * dHd * (alpha - tau / 2)). { apply Rmult_le_pos; [nra|lra]. } nra.
Qed.

Variables (tiny : R).
Hypothesis tiny_pos : 0 < tiny.
Notation loop := (tcgLoop 0 2 Rplus Rminus Rmult Rdiv Ropp sqrt rltb rleb vadd vsub vscale dot A P).

Lemma loop_good fuel : forall maxIters i rn th info c ps rs s, 0 < th -> good (tcg_Delta info) c ps rs s ->
  let '(x, _, _) := loop fuel maxIters i rn th info s in mnorm2 x <= tcg_Delta info * tcg_Delta info /\ model x <= c.
Proof.
  induction fuel as [|fuel IH]; intros maxIters i rn th info c ps rs s Hth G; cbn [tcgLoop].
  { destruct G. split; [lra|auto]. }
  destruct (i <? maxIters)%Z; [|destruct G; split; [lra|auto]].
  cbv zeta. set (D := tcg_Delta info) in *.
  match goal with |- context [if ?c then _ else _] => destruct c eqn:C end.
  - assert (Gm := g_model _ _ _ _ _ G).
    destruct (good_boundary D c ps rs s G) as [B1 [_ [_ B2]]]; [apply orb_true_iff in C; destruct C as [C|C]; apply rleb_true in C; auto|].
    split; [rewrite B1; lra|lra].
  - apply orb_false_iff in C. destruct C as [C1 C2]. apply rleb_false in C1. apply rleb_false in C2.
    assert (Gm := g_model _ _ _ _ _ G). destruct (good_step D c ps rs s G C1 C2) as [S1 [S2 S3]].
    set (al := ts_absNew s / dot (ts_p s) (A (ts_p s))) in *.
    match goal with |- context [if ?c then _ else _] => destruct c end; [rewrite S1; split; [lra|lra]|].
    match goal with |- context [if rltb ?n th then _ else _] => destruct (rltb n th) eqn:C3 end; [rewrite S1; split; [lra|lra]|].
    apply rltb_false in C3.
    refine (IH _ _ _ _ _ c (ts_p s :: ps) (ts_r s :: rs) _ Hth _). apply S3; [lra|].
    unfold vnorm in C3. match goal with |- 0 < ?z => destruct (Rle_lt_or_eq_dec 0 z (dot_pos _)) as [|Z0]; [auto|] end.
    rewrite <- Z0, sqrt_0 in C3. lra.
Qed.

Notation tcgR := (tcg 0 2 Rplus Rminus Rmult Rdiv Ropp sqrt rltb rleb tiny vzero vadd vsub vscale dot A P).

(** Any start vector without length *)
Lemma tcg_good maxIters tol x0 info : 0 < tcg_Delta info -> (forall w, dot x0 w = 0) ->
  let '(x, _) := tcgR maxIters tol b x0 info in mnorm2 x <= tcg_Delta info * tcg_Delta info /\ model x <= 0.
Proof.
  intros HD Hx0. unfold tcg. cbv zeta.
  assert (Hz : forall v, (forall w, dot v w = 0) -> mnorm2 v <= tcg_Delta info * tcg_Delta info /\ model v <= 0).
  { intros v Hv. unfold mnorm2, model. rewrite !Hv, (dot_sym b), Hv. split; [nra|lra]. }
  match goal with |- context [if ?c then _ else _] => destruct c end; [apply Hz; auto|].
  match goal with |- context [rltb _ (tmax ?lt ?q ?t)] => set (th := tmax lt q t) end.
  assert (Hth : 0 < th).
  { unfold th, tmax. match goal with |- context [rltb ?q ?t] => destruct (rltb q t) eqn:Q end; auto. apply rltb_false in Q. lra. }
  match goal with |- context [if ?c then _ else _] => destruct c eqn:C end; [apply Hz; auto|].
  apply rltb_false in C. unfold vnorm in C.
  set (r := vsub b (A x0)) in *.
  assert (Hr : 0 < dot r r). { rewrite sqrt_sqrt in C by auto. lra. }
  assert (HrP : 0 < dot r (P r)) by (apply P_pos; auto).
  assert (HMP : forall w, dot w (M (P r)) = dot w r). { intro w. rewrite dM_swap, PM. apply dot_sym. }
  match goal with |- context [loop ?f ?mi ?i ?rn ?t ?inf ?s] => pose proof (loop_good f mi i rn t inf 0 [] [] s Hth) as L end.
  destruct (loop _ _ _ _ _ _ _) as [[x i] st]. apply L.
  constructor; simpl; try tauto.
  - intro w. unfold r. rewrite dot_sub. reflexivity.
  - intros y _. apply Hx0.
  - rewrite Hx0. reflexivity.
  - unfold mnorm2. rewrite !Hx0. reflexivity.
  - rewrite HMP. apply dot_sym.
  - unfold mnorm2. rewrite Hx0. nra.
  - unfold model. rewrite Hx0, (dot_sym b), Hx0. lra.
Qed.

(** The state before the first iteration *)
Lemma good_start D x0 : 0 < D -> (forall w, dot x0 w = 0) -> let r := vsub b (A x0) in 0 < dot r r ->
  good D 0 [] [] (mkTS x0 r (P r) (dot r (P r)) 0 (dot x0 x0) (dot r (P r))).
Proof.
  intros HD Hx0 r Hr. assert (HrP : 0 < dot r (P r)) by (apply P_pos; auto).
  assert (HMP : forall w, dot w (M (P r)) = dot w r). { intro w. rewrite dM_swap, PM. apply dot_sym. }
  constructor; simpl; try tauto.
  - intro w. unfold r. rewrite dot_sub. reflexivity.
  - intros y _. apply Hx0.
  - rewrite Hx0. reflexivity.
  - unfold mnorm2. rewrite !Hx0. reflexivity.
  - rewrite HMP. apply dot_sym.
  - unfold mnorm2. rewrite Hx0. nra.
  - unfold model. rewrite Hx0, (dot_sym b), Hx0. lra.
Qed.

(** What the stop reasons say about the region *)
Lemma loop_boundary fuel : forall maxIters i rn th info c ps rs s, 0 < th -> good (tcg_Delta info) c ps rs s ->
  let '(x, _, st) := loop fuel maxIters i rn th info s in
  match st with
  | negativeCurvature => mnorm2 x = tcg_Delta info * tcg_Delta info /\ exists p, 0 < dot p (M p) /\ dot p (A p) <= 0
  | exceededTrustRegion => mnorm2 x = tcg_Delta info * tcg_Delta info
  | _ => mnorm2 x < tcg_Delta info * tcg_Delta info
  end.
Proof.
  induction fuel as [|fuel IH]; intros maxIters i rn th info c ps rs s Hth G; cbn [tcgLoop].
  { destruct G. lra. }
  destruct (i <? maxIters)%Z; [|destruct G; lra].
  cbv zeta. set (D := tcg_Delta info) in *.
  match goal with |- context [if ?c then _ else _] => destruct c eqn:C end.
  - destruct (good_boundary D c ps rs s G) as [B1 _]; [apply orb_true_iff in C; destruct C as [C|C]; apply rleb_true in C; auto|].
    destruct (rleb (dot (ts_p s) (A (ts_p s))) 0) eqn:N; [|exact B1]. split; [exact B1|]. exists (ts_p s). apply rleb_true in N.
    destruct G. split; lra.
  - apply orb_false_iff in C. destruct C as [C1 C2]. apply rleb_false in C1. apply rleb_false in C2.
    assert (Gm := g_model _ _ _ _ _ G). destruct (good_step D c ps rs s G C1 C2) as [S1 [S2 S3]].
    set (al := ts_absNew s / dot (ts_p s) (A (ts_p s))) in *.
    match goal with |- context [if ?c then _ else _] => destruct c end; [destruct (rltb _ _); cbv beta iota; rewrite S1; lra|].
    match goal with |- context [if rltb ?n th then _ else _] => destruct (rltb n th) eqn:C3 end; [cbv beta iota; rewrite S1; lra|].
    apply rltb_false in C3.
    refine (IH _ _ _ _ _ c (ts_p s :: ps) (ts_r s :: rs) _ Hth _). apply S3; [lra|].
    unfold vnorm in C3. match goal with |- 0 < ?z => destruct (Rle_lt_or_eq_dec 0 z (dot_pos _)) as [|Z0]; [auto|] end.
    rewrite <- Z0, sqrt_0 in C3. lra.
Qed.

(** The first step minimises the model along the preconditioned residual, inside the region *)
Lemma along_min (a h t0 t : R) : 0 < a -> 0 <= t -> 0 < t0 -> (h <= 0 -> t <= t0) -> (0 < h -> t0 = a / h \/ (t0 <= a / h /\ t <= t0)) ->
  - t0 * a + 1 / 2 * (t0 * t0) * h <= - t * a + 1 / 2 * (t * t) * h.
Proof.
  intros Ha Ht Ht0 Hn Hp.
  assert (E : (- t * a + 1 / 2 * (t * t) * h) - (- t0 * a + 1 / 2 * (t0 * t0) * h) = (t0 - t) * (a - 1 / 2 * h * (t0 + t))) by field.
  destruct (Rle_lt_dec h 0) as [L|L].
  - specialize (Hn L). assert (0 <= a - 1 / 2 * h * (t0 + t)) by nra. assert (0 <= (t0 - t) * (a - 1 / 2 * h * (t0 + t))) by (apply Rmult_le_pos; lra). lra.
  - destruct (Hp L) as [->|[H1 H2]].
    + assert (0 <= 1 / 2 * h * ((a / h - t) * (a / h - t))) by (apply Rmult_le_pos; [lra|apply Rle_0_sqr]).
      assert (Q : (a / h - t) * (a - 1 / 2 * h * (a / h + t)) = 1 / 2 * h * ((a / h - t) * (a / h - t))) by (field; lra). lra.
    + assert (h * t0 <= a). { replace a with (h * (a / h)) by (field; lra). apply Rmult_le_compat_l; lra. }
      assert (0 <= a - 1 / 2 * h * (t0 + t)). { assert (h * t <= h * t0) by (apply Rmult_le_compat_l; lra). lra. }
      assert (0 <= (t0 - t) * (a - 1 / 2 * h * (t0 + t))) by (apply Rmult_le_pos; lra). lra.
Qed.

Lemma tcg_cauchy maxIters tol x0 info t : 0 < tcg_Delta info -> (forall w, dot x0 w = 0) ->
  tiny < sqrt (dot b b) -> tiny <= dot b b -> tol * tol <= 1 -> (1 < maxIters)%Z ->
  0 <= t -> mnorm2 (vscale t (P b)) <= tcg_Delta info * tcg_Delta info ->
  let '(x, _) := tcgR maxIters tol b x0 info in model x <= model (vscale t (P b)).
Proof.
  intros HD Hx0 Hb1 Hb2 Htol HmI Ht Hin. unfold tcg. cbv zeta. unfold vnorm at 1.
  destruct (rleb (sqrt (dot b b)) tiny) eqn:C0; [apply rleb_true in C0; lra|clear C0].
  match goal with |- context [rltb _ (tmax ?lt ?q ?t)] => set (th := tmax lt q t) end.
  assert (Hth : 0 < th /\ th <= dot b b).
  { unfold th, tmax. match goal with |- context [rltb ?q ?t] => destruct (rltb q t) eqn:Q end; [split; lra|]. apply rltb_false in Q. split; [lra|].
    unfold vnorm. replace (tol * tol * sqrt (dot b b) * sqrt (dot b b)) with (tol * tol * (sqrt (dot b b) * sqrt (dot b b))) by ring.
    rewrite sqrt_sqrt by auto. assert (0 <= dot b b) by auto. nra. }
  assert (HA0 : forall w, dot (A x0) w = 0) by (intros w; rewrite A_sym; auto).
  set (r := vsub b (A x0)) in *.
  assert (Hrw : forall w, dot r w = dot b w) by (intros w; unfold r; rewrite dot_sub, HA0; ring).
  assert (Hrr : dot r r = dot b b) by (rewrite Hrw, dot_sym, Hrw; reflexivity).
  match goal with |- context [if ?c then _ else _] => destruct c eqn:C end.
  { apply rltb_true in C. unfold vnorm in C. rewrite sqrt_sqrt in C by auto. lra. }
  clear C.
  assert (Hr : 0 < dot r r) by lra.
  assert (HrP : 0 < dot r (P r)) by (apply P_pos; auto).
  assert (HMP : forall w, dot w (M (P r)) = dot w r). { intro w. rewrite dM_swap, PM. apply dot_sym. }
  assert (HPw : forall w, dot (P b) w = dot (P r) w). { intro w. rewrite !P_sym, Hrw. reflexivity. }
  set (s0 := mkTS x0 r (P r) (dot r (P r)) 0 (dot x0 x0) (dot r (P r))).
  assert (G : good (tcg_Delta info) 0 [] [] s0).
  { constructor; simpl; try tauto.
    - intro w. unfold r. rewrite dot_sub. reflexivity.
    - intros y _. apply Hx0.
    - rewrite Hx0. reflexivity.
    - unfold mnorm2. rewrite !Hx0. reflexivity.
    - rewrite HMP. apply dot_sym.
    - unfold mnorm2. rewrite Hx0. nra.
    - unfold model. rewrite Hx0, (dot_sym b), Hx0. lra. }
  assert (Hm0 : model x0 = 0) by (unfold model; rewrite Hx0, (dot_sym b), Hx0; lra).
  set (a := dot r (P r)) in *. set (h := dot (P r) (A (P r))) in *.
  assert (Hba : dot b (P r) = a) by (unfold a; now rewrite Hrw).
  assert (Hxa : dot (P r) (A x0) = 0) by (rewrite dA_swap; apply Hx0).
  assert (Hmt : model (vscale t (P b)) = - t * a + 1 / 2 * (t * t) * h).
  { assert (E : dot (P b) (A (vscale t (P b))) = t * h).
    { rewrite HPw, <- A_sym, dot_scaler, dot_sym, HPw. reflexivity. }
    unfold model. rewrite dot_scale, E, dot_scaler, (dot_sym b), HPw, (dot_sym (P r) b), Hba. field. }
  assert (Hnt : mnorm2 (vscale t (P b)) = t * t * a).
  { unfold mnorm2. rewrite dot_scale, dM_swap, dot_scale, PM, dot_sym, HPw, dot_sym, Hba. ring. }
  rewrite Hnt in Hin. rewrite Hmt.
  destruct (Z.to_nat maxIters) as [|fuel] eqn:Fu; [lia|]. cbn [tcgLoop]. destruct (1 <? maxIters)%Z eqn:Lt; [|apply Z.ltb_ge in Lt; lia].
  cbv zeta. set (D := tcg_Delta info) in *.
  assert (Hstep : forall z, model (vadd x0 (vscale z (P r))) = - z * a + 1 / 2 * (z * z) * h).
  { intros z. rewrite model_step, Hm0, Hba, Hxa. unfold h. ring. }
  match goal with |- context [if ?c then _ else _] => destruct c eqn:C end.
  - apply orb_true_iff in C.
    destruct (good_boundary D 0 [] [] s0 G) as [B1 [B2 [B3 _]]]; [destruct C as [C|C]; apply rleb_true in C; auto|].
    cbn [ts_x ts_p ts_absNew ts_ePd ts_ePe ts_dPd s0] in *. fold a h in B1, B2, B3, C |- *.
    match type of B1 with mnorm2 (vadd x0 (vscale ?z _)) = _ => set (tau := z) in * end.
    rewrite Hstep.
    assert (T : t <= tau).
    { assert (E : mnorm2 (vadd x0 (vscale tau (P r))) = tau * tau * a).
      { rewrite mnorm_step. unfold mnorm2. rewrite !Hx0, HMP, (dot_sym (P r) r). fold a. ring. }
      rewrite E in B1. destruct (Rle_lt_dec t tau) as [|L]; auto. exfalso. assert (tau * tau < t * t) by nra. assert (tau * tau * a < t * t * a) by (apply Rmult_lt_compat_r; lra). lra. }
    apply along_min; auto.
  - apply orb_false_iff in C. destruct C as [C1 C2]. apply rleb_false in C1. apply rleb_false in C2.
    destruct (good_step D 0 [] [] s0 G C1 C2) as [S1 [S2 S3]].
    cbn [ts_x ts_p ts_r ts_absNew ts_ePd ts_ePe ts_dPd s0] in *. fold a h in C1, S1, S2, S3 |- *.
    assert (S0 : model (vadd x0 (vscale (a / h) (P r))) <= - t * a + 1 / 2 * (t * t) * h).
    { rewrite Hstep. apply along_min; auto; [apply Rdiv_lt_0_compat; auto|lra]. }
    match goal with |- context [if ?c then _ else _] => destruct c end; [exact S0|].
    match goal with |- context [if rltb ?n th then _ else _] => destruct (rltb n th) eqn:C3 end; [exact S0|].
    apply rltb_false in C3.
    match goal with |- context [tcgLoop _ _ _ _ _ _ _ _ _ _ _ _ _ _ _ _ ?f ?mi ?i ?rn ?t ?inf ?s] =>
      pose proof (loop_good f mi i rn t inf _ [P r] [r] s (proj1 Hth) (S3 _ S0 ltac:(
        unfold vnorm in C3; match goal with |- 0 < ?z => destruct (Rle_lt_or_eq_dec 0 z (dot_pos _)) as [|Z0]; [assumption|] end;
        rewrite <- Z0, sqrt_0 in C3; lra))) as L end.
    match goal with |- context [match ?l with (_, _) => _ end] => destruct l as [[x i] st] end. apply L.
Qed.
End Space.
