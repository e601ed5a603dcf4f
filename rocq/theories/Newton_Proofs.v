From Coq Require Import List ZArith Bool Lia.
From Verif Require Import Newton_Model Newton_Spec.
Import ListNotations.
Local Open Scope Z_scope.

(** 1, 2, ..., n shifted by [a] *)
Fixpoint zseq (a : Z) (n : nat) : list Z := match n with O => [] | S n' => a :: zseq (a + 1) n' end.

Lemma endedCounts_app {T C D} (a b : list (nlmsg * nlinfo T * C * D)) : endedCounts (a ++ b) = endedCounts a ++ endedCounts b.
Proof. unfold endedCounts. rewrite filter_app, map_app. auto. Qed.

Lemma corrections_app {T C D} (a b : list (nlmsg * nlinfo T * C * D)) : corrections (a ++ b) = corrections a ++ corrections b.
Proof. unfold corrections. rewrite filter_app, map_app. auto. Qed.

Section NR.
Context {T D R J C W : Type}.
Variable gt : T -> T -> bool.
Variable inf : T.
Variable residual : W -> D -> R.
Variable jacobian : W -> D -> J.
Variable rnorm : R -> T.
Variable cnorm : C -> T.
Variable lsolve : J -> R -> C.
Variable update : D -> C -> D.
Variable idbc : option ((W -> D -> R -> R) * (D -> D)).
Variable listen : nlmsg -> nlinfo T -> C -> D -> W -> W.

Notation nrBody' := (nrBody residual jacobian rnorm cnorm lsolve update idbc listen).
Notation nrLoop' := (nrLoop gt residual jacobian rnorm cnorm lsolve update idbc listen).
Notation nrSolve' := (nrSolve gt inf residual jacobian rnorm cnorm lsolve update idbc listen).
Notation nrStart' := (nrStart inf residual jacobian rnorm idbc listen).

(** Listeners that leave the outside world alone once the residual is known. *)
Definition quiet : Prop := forall i c d w, listen RESIDUALNORM_UPDATED i c d w = w /\ listen ITERATION_ENDED i c d w = w
  /\ listen FINISHED_SUCESSFULLY i c d w = w.

Lemma nrBody_spec iter rx ax s : exists s' w,
  nrBody' iter rx ax s = (s', residual w (s_d s'), jacobian w (s_d s'), rnorm (residual w (s_d s'))) /\
  (exists tr, s_trace s' = s_trace s ++ tr /\ map msgOf tr = iterationBlock /\ endedCounts tr = [iter + 1] /\
     corrections tr = [lsolve ax rx]) /\
  i_success (s_info s') = i_success (s_info s) /\
  i_res (s_info s') = rnorm (residual w (s_d s')) /\ i_iter (s_info s') = iter + 1 /\
  s_c s' = lsolve ax rx /\
  s_d s' = (match idbc with None => fun d => d | Some (_, sync) => sync end) (update (s_d s) (lsolve ax rx)) /\
  (quiet -> s_w s' = w).
Proof.
  unfold nrBody. set (s1 := emit listen ITERATION_STARTED s). set (c := lsolve ax rx).
  assert (s_info s1 = s_info s /\ s_d s1 = s_d s /\ s_trace s1 = s_trace s ++ [(ITERATION_STARTED, s_info s, s_c s, s_d s)]) as [E1 [E2 E3]] by auto.
  clearbody s1. cbv zeta.
  set (s2 := emit listen CORRECTION_UPDATED _).
  assert (s_d s2 = s_d s /\ s_c s2 = c /\ i_success (s_info s2) = i_success (s_info s) /\
    exists i d, s_trace s2 = s_trace s1 ++ [(CORRECTION_UPDATED, i, c, d)]) as [F1 [F2 [F3 [i2 [d2 F4]]]]].
  { subst s2. cbn. rewrite E1, E2. repeat split; auto. eexists. eexists. reflexivity. }
  clearbody s2.
  set (d2' := match idbc with None => update (s_d s2) c | Some (_, sync) => sync (update (s_d s2) c) end).
  set (s3 := emit listen CORRECTIONNORM_UPDATED _).
  assert (s_d s3 = d2' /\ s_c s3 = c /\ i_success (s_info s3) = i_success (s_info s) /\
    exists i d, s_trace s3 = s_trace s2 ++ [(CORRECTIONNORM_UPDATED, i, c, d)]) as [G1 [G2 [G3 [i3 [d3 G4]]]]].
  { subst s3. cbn. repeat split; auto. rewrite F2. eexists. eexists. reflexivity. }
  clearbody s3.
  set (s4 := emit listen SOLUTION_CHANGED _).
  assert (s_d s4 = d2' /\ s_c s4 = c /\ i_success (s_info s4) = i_success (s_info s) /\
    exists i d, s_trace s4 = s_trace s3 ++ [(SOLUTION_CHANGED, i, c, d)]) as [H1 [H2 [H3 [i4 [d4 H4]]]]].
  { subst s4. cbn. repeat split; auto. rewrite G2. eexists. eexists. reflexivity. }
  clearbody s4.
  set (rn := rnorm (residual (s_w s4) (s_d s4))).
  set (s5 := emit listen RESIDUALNORM_UPDATED _).
  assert (s_d s5 = d2' /\ s_c s5 = c /\ i_success (s_info s5) = i_success (s_info s) /\ i_res (s_info s5) = rn /\ (quiet -> s_w s5 = s_w s4) /\
    exists i d, s_trace s5 = s_trace s4 ++ [(RESIDUALNORM_UPDATED, i, c, d)]) as [K1 [K2 [K3 [K4 [K5 [i5 [d5 K6]]]]]]].
  { subst s5. cbn. repeat split; auto. - intro Q. apply Q. - rewrite H2. eexists. eexists. reflexivity. }
  clearbody s5.
  set (s6 := emit listen ITERATION_ENDED _).
  assert (s_d s6 = d2' /\ s_c s6 = c /\ i_success (s_info s6) = i_success (s_info s) /\ i_res (s_info s6) = rn /\ i_iter (s_info s6) = iter + 1 /\
    (quiet -> s_w s6 = s_w s5) /\
    exists i d, i_iter i = iter + 1 /\ s_trace s6 = s_trace s5 ++ [(ITERATION_ENDED, i, c, d)]) as [L1 [L2 [L3 [L4 [L5 [L6 [i6 [d6 [L7 L8]]]]]]]]].
  { subst s6. cbn. repeat split; auto. - intro Q. apply Q. - rewrite K2. eexists. eexists. split; [|reflexivity]. reflexivity. }
  clearbody s6. exists s6, (s_w s4). subst rn. rewrite H1 in *. rewrite L1.
  split; auto. split.
  { exists [(ITERATION_STARTED, s_info s, s_c s, s_d s); (CORRECTION_UPDATED, i2, c, d2); (CORRECTIONNORM_UPDATED, i3, c, d3);
            (SOLUTION_CHANGED, i4, c, d4); (RESIDUALNORM_UPDATED, i5, c, d5); (ITERATION_ENDED, i6, c, d6)].
    split. { rewrite L8, K6, H4, G4, F4, E3, <- !app_assoc. reflexivity. }
    split; [reflexivity|]. split. { unfold endedCounts. simpl. unfold infoOf. simpl. rewrite L7. reflexivity. }
    reflexivity. }
  split; auto. split; auto. split; auto. split; auto. split.
  { subst d2'. rewrite F1. destruct idbc as [[? ?]|]; auto. }
  intro Q. rewrite L6, K5; auto.
Qed.

(** Application of one correction. *)
Definition upd1 (d : D) (c : C) : D := (match idbc with None => fun d => d | Some (_, sync) => sync end) (update d c).

Lemma nrLoop_spec st fuel : forall iter rx ax rn s,
  (Z.to_nat (Z.max (nr_maxIter st) (nr_minIter st) - iter) <= fuel)%nat ->
  exists iter' s' rn', nrLoop' fuel st iter rx ax rn s = Some (iter', s') /\
    iter <= iter' /\ iter' <= Z.max iter (Z.max (nr_maxIter st) (nr_minIter st)) /\
    nrCond gt st rn' iter' = false /\
    i_success (s_info s') = i_success (s_info s) /\
    (exists tr, s_trace s' = s_trace s ++ tr /\ map msgOf tr = concat (repeat iterationBlock (Z.to_nat (iter' - iter))) /\
       endedCounts tr = zseq (iter + 1) (Z.to_nat (iter' - iter)) /\ s_d s' = fold_left upd1 (corrections tr) (s_d s)) /\
    ((iter' = iter /\ s' = s /\ rn' = rn) \/
     (iter < iter' /\ i_res (s_info s') = rn' /\ exists w, rn' = rnorm (residual w (s_d s')) /\ (quiet -> s_w s' = w))).
Proof.
  induction fuel as [|fuel IH]; intros iter rx ax rn s F; cbn [nrLoop].
  - destruct (nrCond gt st rn iter) eqn:Cd.
    + exfalso. unfold nrCond in Cd. apply orb_true_iff in Cd as [Cd|Cd].
      * apply andb_true_iff in Cd as [_ Cd]. apply Z.ltb_lt in Cd. lia.
      * apply Z.ltb_lt in Cd. lia.
    + exists iter, s, rn. rewrite Z.sub_diag. repeat split; try lia; auto. exists []. rewrite app_nil_r. auto.
  - destruct (nrCond gt st rn iter) eqn:Cd.
    + assert (iter < Z.max (nr_maxIter st) (nr_minIter st)) as L.
      { unfold nrCond in Cd. apply orb_true_iff in Cd as [Cd|Cd].
        - apply andb_true_iff in Cd as [_ Cd]. apply Z.ltb_lt in Cd. lia.
        - apply Z.ltb_lt in Cd. lia. }
      destruct (nrBody_spec iter rx ax s) as [s1 [w1 [E [[tr1 [T1 [M1 [C1 K1]]]] [S1 [R1 [I1 [_ [Dd Q1]]]]]]]]]. rewrite E.
      destruct (IH (iter + 1) (residual w1 (s_d s1)) (jacobian w1 (s_d s1)) (rnorm (residual w1 (s_d s1))) s1) as
        [iter' [s' [rn' [E' [L1 [L2 [Cf [S' [[tr' [T' [M' [C' K']]]] Ex]]]]]]]]]; [lia|].
      exists iter', s', rn'. split; auto. split; [lia|]. split; [lia|]. split; auto. split; [congruence|]. split.
      { exists (tr1 ++ tr'). rewrite T', T1, app_assoc. split; auto.
        replace (Z.to_nat (iter' - iter)) with (S (Z.to_nat (iter' - (iter + 1)))) by lia.
        rewrite map_app, M1, M', endedCounts_app, C1, C', corrections_app, K1, K', Dd. split; auto. }
      right. split; [lia|]. destruct Ex as [[-> [-> ->]]|[_ [A B]]]; auto. split; auto. exists w1; auto.
    + exists iter, s, rn. rewrite Z.sub_diag. repeat split; try lia; auto. exists []. rewrite app_nil_r. auto.
Qed.

Lemma nrStart_spec x c w : exists s rx ax rn, nrStart' x c w = (s, rx, ax, rn) /\
  s_d s = x /\ s_c s = c /\ i_success (s_info s) = true /\ i_iter (s_info s) = -1 /\ map msgOf (s_trace s) = [INIT] /\ endedCounts (s_trace s) = [] /\ corrections (s_trace s) = [] /\
  i_res (s_info s) = rnorm (residual (s_w s) x) /\ ax = jacobian (s_w s) x /\ rn = rnorm rx /\
  rx = (match idbc with None => fun r => r | Some (add, _) => add (s_w s) x end) (residual (s_w s) x).
Proof.
  unfold nrStart, emit, setInfo; cbn. destruct idbc as [[add sync]|]; do 4 eexists; split; try reflexivity; cbn; repeat split; auto.
Qed.

(** Everything about one run. *)
Lemma nrSolve_spec st x c w : exists s,
  nrSolve' st x c w = Some s /\
  0 <= i_iter (s_info s) <= Z.max 0 (Z.max (nr_maxIter st) (nr_minIter st)) /\ nr_minIter st <= i_iter (s_info s) /\
  i_success (s_info s) = negb (i_iter (s_info s) =? nr_maxIter st) /\
  map msgOf (s_trace s) = protocol iterationBlock (Z.to_nat (i_iter (s_info s))) (i_success (s_info s)) /\
  endedCounts (s_trace s) = zseq 1 (Z.to_nat (i_iter (s_info s))) /\
  s_d s = fold_left upd1 (corrections (s_trace s)) x /\
  exists rn, nrCond gt st rn (i_iter (s_info s)) = false /\
    ((i_iter (s_info s) = 0 /\ s_d s = x /\ s_c s = c /\ exists w1, i_res (s_info s) = rnorm (residual w1 x) /\
        rn = rnorm ((match idbc with None => fun r => r | Some (add, _) => add w1 x end) (residual w1 x)) /\
        (quiet -> w1 = s_w s)) \/
     (0 < i_iter (s_info s) /\ i_res (s_info s) = rn /\ exists w1, rn = rnorm (residual w1 (s_d s)) /\ (quiet -> w1 = s_w s))).
Proof.
  unfold nrSolve. destruct (nrStart_spec x c w) as [s0 [rx [ax [rn [E0 [D0 [C0 [S0 [I0 [M0 [Z0 [Y0 [R0 [A0 [N0 X0]]]]]]]]]]]]]]]. rewrite E0.
  destruct (nrLoop_spec st (Z.to_nat (Z.max (nr_maxIter st) (nr_minIter st))) 0 rx ax rn s0) as
    [iter [s1 [rn' [E1 [L1 [L2 [Cf [S1 [[tr [T1 [M1 [C1 K1]]]] Ex]]]]]]]]]; [lia|].
  rewrite E1. eexists. split; [reflexivity|]. rewrite Z.sub_0_r in *.
  assert (i_iter (s_info (nrFinish listen st iter s1)) = iter) as Ei.
  { unfold nrFinish. destruct (if iter =? nr_maxIter st then false else i_success (s_info s1)); auto. }
  assert (i_res (s_info (nrFinish listen st iter s1)) = i_res (s_info s1)) as Er.
  { unfold nrFinish. destruct (if iter =? nr_maxIter st then false else i_success (s_info s1)); auto. }
  assert (s_d (nrFinish listen st iter s1) = s_d s1) as Ed.
  { unfold nrFinish. destruct (if iter =? nr_maxIter st then false else i_success (s_info s1)); auto. }
  assert (s_c (nrFinish listen st iter s1) = s_c s1) as Ec.
  { unfold nrFinish. destruct (if iter =? nr_maxIter st then false else i_success (s_info s1)); auto. }
  assert (i_success (s_info (nrFinish listen st iter s1)) = negb (iter =? nr_maxIter st)) as Es.
  { unfold nrFinish. rewrite S1, S0. destruct (iter =? nr_maxIter st); auto. }
  assert (quiet -> s_w (nrFinish listen st iter s1) = s_w s1) as Ew.
  { intro Q. unfold nrFinish. destruct (if iter =? nr_maxIter st then false else i_success (s_info s1)); auto. cbn. apply Q. }
  assert (s_trace (nrFinish listen st iter s1) = s_trace s1 ++ (if negb (iter =? nr_maxIter st) then [(FINISHED_SUCESSFULLY,
     s_info (nrFinish listen st iter s1), s_c s1, s_d s1)] else [])) as Et.
  { unfold nrFinish. rewrite S1, S0. destruct (iter =? nr_maxIter st); cbn; auto. rewrite app_nil_r; auto. }
  rewrite Ei, Er, Ed, Ec, Es, Et.
  split; [lia|]. split. { unfold nrCond in Cf. apply orb_false_iff in Cf as [_ Cf]. apply Z.ltb_ge in Cf. lia. }
  split; auto. split.
  { unfold protocol. rewrite map_app, T1, map_app, M0, M1. simpl. f_equal. f_equal. destruct (negb (iter =? nr_maxIter st)); auto. }
  split.
  { rewrite endedCounts_app, T1, endedCounts_app, Z0, C1. simpl. destruct (negb (iter =? nr_maxIter st)); cbn; apply app_nil_r. }
  split.
  { rewrite K1, D0, corrections_app, T1, corrections_app, Y0. simpl. f_equal. destruct (negb (iter =? nr_maxIter st)); cbn; rewrite app_nil_r; auto. }
  exists rn'. split; auto. destruct Ex as [[Ea [Eb Ecc]]|[La [Ra [w1 [Ra' Q]]]]].
  - left. subst iter s1 rn'. split; auto. split; [congruence|]. split; [congruence|]. exists (s_w s0). split; auto. split; [congruence|].
    intro Q. rewrite Ew; auto.
  - right. split; auto. split; [congruence|]. exists w1. split; auto. intro Q'. rewrite Ew, Q; auto.
Qed.

(** A run of exactly one iteration, without IDBC forces. *)
Lemma nrSolve_one st x c w : idbc = None ->
  (forall w1, nrCond gt st (rnorm (residual w1 x)) 0 = true) ->
  (forall w1 w2 w3, nrCond gt st (rnorm (residual w3 (update x (lsolve (jacobian w1 x) (residual w2 x))))) 1 = false) ->
  1 < nr_maxIter st ->
  exists s w1, nrSolve' st x c w = Some s /\ i_iter (s_info s) = 1 /\ i_success (s_info s) = true /\ s_d s = update x (lsolve (jacobian w1 x) (residual w1 x)).
Proof.
  intros Id C0 C1 M. unfold nrSolve.
  destruct (nrStart_spec x c w) as [s0 [rx [ax [rn [E0 [D0 [_ [S0 [I0 [M0 [Z0 [Y0 [R0 [A0 [N0 X0]]]]]]]]]]]]]]]. rewrite E0.
  rewrite Id in X0. assert (exists f, Z.to_nat (Z.max (nr_maxIter st) (nr_minIter st)) = S (S f)) as [f Hf].
  { exists (Z.to_nat (Z.max (nr_maxIter st) (nr_minIter st) - 2)). lia. }
  rewrite Hf. cbn [nrLoop]. rewrite N0, X0, C0.
  destruct (nrBody_spec 0 (residual (s_w s0) x) ax s0) as [s1 [w1 [E [_ [S1 [_ [_ [_ [Dd _]]]]]]]]]. rewrite E.
  rewrite Id in Dd. rewrite Dd, D0, A0. change (0 + 1) with 1. cbn [nrLoop]. rewrite C1.
  eexists. exists (s_w s0). split; [reflexivity|]. unfold nrFinish. rewrite S1, S0.
  destruct (1 =? nr_maxIter st) eqn:Q. { apply Z.eqb_eq in Q. lia. } cbn. rewrite Dd, D0, A0. auto.
Qed.

End NR.

Section NRS.
Context {T V J W : Type}.
Variables (tadd tsub tmul tdiv : T -> T -> T) (topp tsqrt : T -> T) (t1 inf : T).
Variable gt : T -> T -> bool.
Variables (vadd vsub : V -> V -> V) (vopp : V -> V) (vscale : T -> V -> V) (vdot : V -> V -> T) (vzeroLike : V -> V).
Variable residual : W -> V * T -> V.
Variable jacobian : W -> V * T -> J.
Variable lsolve : J -> V -> V.
Variable update : V -> V -> V.
Variable idbc : option ((W -> V * T -> V) * (V * T -> V)).
Variable listen : nlmsg -> nlinfo T -> V -> V * T -> W -> W.
Variable subsidiary : V * T -> subArgs T V -> subArgs T V.

Notation nrsBody' := (nrsBody tadd tsub tmul tdiv topp tsqrt vadd vsub vopp vscale vdot residual jacobian lsolve update idbc listen subsidiary).
Notation nrsLoop' := (nrsLoop tadd tsub tmul tdiv topp tsqrt gt vadd vsub vopp vscale vdot residual jacobian lsolve update idbc listen subsidiary).
Notation nrsSolve' := (nrsSolve tadd tsub tmul tdiv topp tsqrt t1 inf gt vadd vsub vopp vscale vdot vzeroLike residual jacobian lsolve update idbc listen subsidiary).
Notation corr := (subsidiaryCorrection tadd tsub tdiv topp vadd vopp vscale vdot lsolve).
Notation column := (loadColumn vsub idbc).

(** Listeners that change nothing outside after the residual evaluation of an iteration. *)
Definition quietS : Prop := forall i c d w, listen SOLUTION_CHANGED i c d w = w /\ listen CORRECTIONNORM_UPDATED i c d w = w /\
  listen RESIDUALNORM_UPDATED i c d w = w /\ listen ITERATION_ENDED i c d w = w /\ listen FINISHED_SUCESSFULLY i c d w = w.

Lemma nrsBody_spec iter fext0 rx ax a s : exists s' w w0 a' ,
  nrsBody' iter fext0 rx ax a s = (s', residual w (s_d s'), jacobian w (s_d s'), a', tsqrt (tadd (vdot (residual w (s_d s')) (residual w (s_d s'))) (tmul (a_f a') (a_f a')))) /\
  (exists tr, s_trace s' = s_trace s ++ tr /\ map msgOf tr = subsidiaryBlock /\ endedCounts tr = [iter + 1]) /\
  i_success (s_info s') = i_success (s_info s) /\
  i_res (s_info s') = tsqrt (tadd (vdot (residual w (s_d s')) (residual w (s_d s'))) (tmul (a_f a') (a_f a'))) /\
  i_iter (s_info s') = iter + 1 /\
  s_c s' = fst (corr ax rx (column w0 (s_d s) fext0) a) /\
  (exists a1, a' = subsidiary (s_d s') a1 /\ a_DD a1 = vadd (a_DD a) (s_c s') /\ a_stepSize a1 = a_stepSize a /\
     a_Dlambda a1 = tadd (a_Dlambda a) (snd (corr ax rx (column w0 (s_d s) fext0) a))) /\
  (quietS -> s_w s' = w).
Proof.
  unfold nrsBody. set (s1 := emit listen ITERATION_STARTED s).
  assert (s_info s1 = s_info s /\ s_d s1 = s_d s /\ s_trace s1 = s_trace s ++ [(ITERATION_STARTED, s_info s, s_c s, s_d s)]) as [E1 [E2 E3]] by auto.
  clearbody s1. cbv zeta. rewrite E2.
  destruct (corr ax rx (column (s_w s1) (s_d s) fext0) a) as [dD dl] eqn:Ec.
  set (s2 := emit listen CORRECTION_UPDATED _).
  assert (s_d s2 = s_d s /\ s_c s2 = dD /\ s_info s2 = s_info s /\
    exists i d, s_trace s2 = s_trace s1 ++ [(CORRECTION_UPDATED, i, dD, d)]) as [F1 [F2 [F3 [i2 [d2 F4]]]]].
  { subst s2. cbn. rewrite E1. repeat split; auto. eexists. eexists. reflexivity. }
  clearbody s2.
  set (a1 := mkArgs (a_stepSize a) (vadd (a_DD a) dD) (tadd (a_Dlambda a) dl) (a_f a) (a_dfdDD a) (a_dfdDlambda a) (a_step a)).
  set (dd := match idbc with None => _ | Some (_, sync) => _ end).
  set (a2 := subsidiary dd a1).
  set (rn := tsqrt (tadd (vdot (residual (s_w s2) dd) (residual (s_w s2) dd)) (tmul (a_f a2) (a_f a2)))).
  set (s3 := emit listen SOLUTION_CHANGED _).
  assert (s_d s3 = dd /\ s_c s3 = dD /\ i_success (s_info s3) = i_success (s_info s) /\ i_res (s_info s3) = rn /\ (quietS -> s_w s3 = s_w s2) /\
    exists i d, s_trace s3 = s_trace s2 ++ [(SOLUTION_CHANGED, i, dD, d)]) as [G1 [G2 [G3 [G4 [G5 [i3 [d3 G6]]]]]]].
  { subst s3. cbn. rewrite F2, F3. repeat split; auto. - intro Q. apply Q. - eexists. eexists. reflexivity. }
  clearbody s3.
  set (s4 := emit listen CORRECTIONNORM_UPDATED _).
  assert (s_d s4 = dd /\ s_c s4 = dD /\ i_success (s_info s4) = i_success (s_info s) /\ i_res (s_info s4) = rn /\ (quietS -> s_w s4 = s_w s3) /\
    exists i d, s_trace s4 = s_trace s3 ++ [(CORRECTIONNORM_UPDATED, i, dD, d)]) as [H1 [H2 [H3 [H4 [H5 [i4 [d4 H6]]]]]]].
  { subst s4. cbn. rewrite G2. repeat split; auto. - intro Q. apply Q. - eexists. eexists. reflexivity. }
  clearbody s4.
  set (s5 := emit listen RESIDUALNORM_UPDATED _).
  assert (s_d s5 = dd /\ s_c s5 = dD /\ i_success (s_info s5) = i_success (s_info s) /\ i_res (s_info s5) = rn /\ (quietS -> s_w s5 = s_w s4) /\
    exists i d, s_trace s5 = s_trace s4 ++ [(RESIDUALNORM_UPDATED, i, dD, d)]) as [K1 [K2 [K3 [K4 [K5 [i5 [d5 K6]]]]]]].
  { subst s5. cbn. rewrite H2. repeat split; auto. - intro Q. apply Q. - eexists. eexists. reflexivity. }
  clearbody s5.
  set (s6 := emit listen ITERATION_ENDED _).
  assert (s_d s6 = dd /\ s_c s6 = dD /\ i_success (s_info s6) = i_success (s_info s) /\ i_res (s_info s6) = rn /\ i_iter (s_info s6) = iter + 1 /\
    (quietS -> s_w s6 = s_w s5) /\
    exists i d, i_iter i = iter + 1 /\ s_trace s6 = s_trace s5 ++ [(ITERATION_ENDED, i, dD, d)]) as [L1 [L2 [L3 [L4 [L5 [L6 [i6 [d6 [L7 L8]]]]]]]]].
  { subst s6. cbn. rewrite K2. repeat split; auto. - intro Q. apply Q. - eexists. eexists. split; [|reflexivity]. reflexivity. }
  clearbody s6. exists s6, (s_w s2), (s_w s1), a2. rewrite L1. split; auto. split.
  { exists [(ITERATION_STARTED, s_info s, s_c s, s_d s); (CORRECTION_UPDATED, i2, dD, d2); (SOLUTION_CHANGED, i3, dD, d3);
            (CORRECTIONNORM_UPDATED, i4, dD, d4); (RESIDUALNORM_UPDATED, i5, dD, d5); (ITERATION_ENDED, i6, dD, d6)].
    split. { rewrite L8, K6, H6, G6, F4, E3, <- !app_assoc. reflexivity. }
    split; [reflexivity|]. unfold endedCounts. simpl. unfold infoOf. simpl. rewrite L7. reflexivity. }
  split; auto. split; auto. split; auto. rewrite Ec. split; auto. split.
  - exists a1. subst a1 a2. simpl. rewrite L2. auto.
  - intro Q. rewrite L6, K5, H5, G5; auto.
Qed.

Lemma nrsLoop_spec tol maxIter fext0 fuel : forall iter rx ax a rn s,
  (Z.to_nat (maxIter - iter) <= fuel)%nat ->
  exists iter' s' a' rn', nrsLoop' fuel tol maxIter iter fext0 rx ax a rn s = Some (iter', s', a') /\
    iter <= iter' /\ iter' <= Z.max iter maxIter /\
    (gt rn' tol && (iter' <? maxIter) = false) /\
    i_success (s_info s') = i_success (s_info s) /\
    (exists tr, s_trace s' = s_trace s ++ tr /\ map msgOf tr = concat (repeat subsidiaryBlock (Z.to_nat (iter' - iter))) /\
       endedCounts tr = zseq (iter + 1) (Z.to_nat (iter' - iter))) /\
    ((iter' = iter /\ s' = s /\ rn' = rn /\ a' = a) \/
     (iter < iter' /\ i_res (s_info s') = rn' /\ exists w a1, a' = subsidiary (s_d s') a1 /\
        rn' = tsqrt (tadd (vdot (residual w (s_d s')) (residual w (s_d s'))) (tmul (a_f a') (a_f a'))) /\ (quietS -> s_w s' = w))).
Proof.
  induction fuel as [|fuel IH]; intros iter rx ax a rn s F; cbn [nrsLoop].
  - destruct (gt rn tol && (iter <? maxIter)) eqn:Cd.
    + exfalso. apply andb_true_iff in Cd as [_ Cd]. apply Z.ltb_lt in Cd. lia.
    + exists iter, s, a, rn. rewrite Z.sub_diag. repeat split; try lia; auto. { exists []. rewrite app_nil_r. auto. }
  - destruct (gt rn tol && (iter <? maxIter)) eqn:Cd.
    + assert (iter < maxIter) as L. { apply andb_true_iff in Cd as [_ Cd]. apply Z.ltb_lt in Cd. lia. }
      destruct (nrsBody_spec iter fext0 rx ax a s) as [s1 [w1 [w0 [a' [E [[tr1 [T1 [M1 C1]]] [S1 [R1 [I1 [_ [[ab [Ab _]] Q1]]]]]]]]]]]. rewrite E.
      match goal with |- context [nrsLoop' fuel tol maxIter (iter + 1) fext0 ?rr ?aa ?aar ?nn s1] =>
        destruct (IH (iter + 1) rr aa aar nn s1) as [iter' [s' [a'' [rn' [E' [L1 [L2 [Cf [S' [[tr' [T' [M' C']]] Ex]]]]]]]]]]; [lia|] end.
      exists iter', s', a'', rn'. split; auto. split; [lia|]. split; [lia|]. split; auto. split; [congruence|]. split.
      { exists (tr1 ++ tr'). rewrite T', T1, app_assoc. split; auto.
        replace (Z.to_nat (iter' - iter)) with (S (Z.to_nat (iter' - (iter + 1)))) by lia.
        rewrite map_app, M1, M', endedCounts_app, C1, C'. split; auto. }
      right. split; [lia|]. destruct Ex as [[-> [-> [-> ->]]]|[_ [A B]]]; auto. split; auto. exists w1, ab. auto.
    + exists iter, s, a, rn. rewrite Z.sub_diag. repeat split; try lia; auto. { exists []. rewrite app_nil_r. auto. }
Qed.

Lemma nrsSolve_spec tol maxIter req a c w : exists s a',
  nrsSolve' tol maxIter req a c w = Some (s, a') /\
  0 <= i_iter (s_info s) <= Z.max 0 maxIter /\
  i_success (s_info s) = negb (i_iter (s_info s) =? maxIter) /\
  map msgOf (s_trace s) = protocol subsidiaryBlock (Z.to_nat (i_iter (s_info s))) (i_success (s_info s)) /\
  endedCounts (s_trace s) = zseq 1 (Z.to_nat (i_iter (s_info s))) /\
  exists rn, (gt rn tol && (i_iter (s_info s) <? maxIter) = false) /\ i_res (s_info s) = rn /\
    ((i_iter (s_info s) = 0 /\ s_d s = req /\ s_c s = c /\ exists w1, rn = tsqrt (vdot (residual w1 req) (residual w1 req)) /\ (quietS -> w1 = s_w s)) \/
     (0 < i_iter (s_info s) /\ exists w1 a1, a' = subsidiary (s_d s) a1 /\
       rn = tsqrt (tadd (vdot (residual w1 (s_d s)) (residual w1 (s_d s))) (tmul (a_f a') (a_f a'))) /\ (quietS -> w1 = s_w s))).
Proof.
  unfold nrsSolve. cbv zeta.
  set (s00 := emit listen INIT _).
  assert (s_d s00 = req /\ s_c s00 = c /\ s_trace s00 = [(INIT, mkInfo false inf inf (-1), c, req)]) as [A1 [A2 A3]] by auto.
  clearbody s00.
  match goal with |- context [nrsLoop' ?f ?t ?m 0 ?fe ?r ?ax ?ar ?rn ?s0] => 
    assert (s_d s0 = req /\ s_c s0 = c /\ i_success (s_info s0) = true /\ s_trace s0 = [(INIT, mkInfo false inf inf (-1), c, req)] /\ i_res (s_info s0) = rn /\ s_w s0 = s_w s00)
      as [D0 [C0 [S0 [T0 [R0 W0]]]]] by (repeat split; auto);
    destruct (nrsLoop_spec t m fe f 0 r ax ar rn s0) as [iter [s1 [a' [rn' [E1 [L1 [L2 [Cf [S1 [[tr [T1 [M1 C1]]] Ex]]]]]]]]]]; [lia|];
    set (sx := s0) in *; clearbody sx end.
  rewrite E1. eexists. eexists. split; [reflexivity|]. rewrite Z.sub_0_r in *.
  set (st := mkNRSettings tol maxIter 0).
  assert (nr_maxIter st = maxIter) as Em by auto.
  assert (i_iter (s_info (nrFinish listen st iter s1)) = iter) as Ei.
  { unfold nrFinish. destruct (if iter =? nr_maxIter st then false else i_success (s_info s1)); auto. }
  assert (i_res (s_info (nrFinish listen st iter s1)) = i_res (s_info s1)) as Er.
  { unfold nrFinish. destruct (if iter =? nr_maxIter st then false else i_success (s_info s1)); auto. }
  assert (s_d (nrFinish listen st iter s1) = s_d s1) as Ed.
  { unfold nrFinish. destruct (if iter =? nr_maxIter st then false else i_success (s_info s1)); auto. }
  assert (s_c (nrFinish listen st iter s1) = s_c s1) as Ec.
  { unfold nrFinish. destruct (if iter =? nr_maxIter st then false else i_success (s_info s1)); auto. }
  assert (i_success (s_info (nrFinish listen st iter s1)) = negb (iter =? nr_maxIter st)) as Es.
  { unfold nrFinish. rewrite S1, S0. destruct (iter =? nr_maxIter st); auto. }
  assert (quietS -> s_w (nrFinish listen st iter s1) = s_w s1) as Ew.
  { intro Q. unfold nrFinish. destruct (if iter =? nr_maxIter st then false else i_success (s_info s1)); auto. cbn. apply Q. }
  assert (s_trace (nrFinish listen st iter s1) = s_trace s1 ++ (if negb (iter =? nr_maxIter st) then [(FINISHED_SUCESSFULLY,
     s_info (nrFinish listen st iter s1), s_c s1, s_d s1)] else [])) as Et.
  { unfold nrFinish. rewrite S1, S0. destruct (iter =? nr_maxIter st); cbn; auto. rewrite app_nil_r; auto. }
  rewrite Ei, Er, Ed, Ec, Es, Et. rewrite Em in *.
  split; [lia|]. split; auto. split.
  { unfold protocol. rewrite map_app, T1, map_app, T0, M1. simpl. f_equal. f_equal. destruct (negb (iter =? maxIter)); auto. }
  split.
  { rewrite endedCounts_app, T1, endedCounts_app, T0, C1. simpl. destruct (negb (iter =? maxIter)); cbn; apply app_nil_r. }
  exists rn'. split; auto. destruct Ex as [[Ea [Eb [Ecc _]]]|[La [Ra [w1 [a1 [Ha [Ra' Q]]]]]]].
  - split; [congruence|]. left. subst iter s1 rn'. split; auto. split; [congruence|]. split; [congruence|]. exists (s_w s00). split; auto.
    intro Q. rewrite Ew; auto.
  - split; auto. right. split; auto. exists w1, a1. split; auto. split; auto. intro Q'. rewrite Ew, Q; auto.
Qed.

End NRS.
