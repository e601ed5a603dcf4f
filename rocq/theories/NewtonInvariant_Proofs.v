(** Runs of the Newton solver with forces of inhomogeneous Dirichlet conditions, residual and tangent independent of the listeners. *)
From Coq Require Import List ZArith Bool Lia.
From Verif Require Import Newton_Model Newton_Spec Newton_Proofs.
Import ListNotations.
Local Open Scope Z_scope.

Section NR.
Context {T D R J C W : Type}.
Variable gt : T -> T -> bool.
Variable inf : T.
Variable res : D -> R.
Variable jac : D -> J.
Variable rnorm : R -> T.
Variable cnorm : C -> T.
Variable lsolve : J -> R -> C.
Variable update : D -> C -> D.
Variable add : D -> R -> R.
Variable sync : D -> D.
Variable listen : nlmsg -> nlinfo T -> C -> D -> W -> W.
Variable st : nrSettings T.
Notation idbc := (Some (fun _ : W => add, sync)).
Notation residual := (fun _ : W => res).
Notation jacobian := (fun _ : W => jac).

Definition idbcFirst (d : D) : D := sync (update d (lsolve (jac d) (add d (res d)))).
Definition idbcNext (d : D) : D := sync (update d (lsolve (jac d) (res d))).

Variable P : D -> Prop.
Hypothesis keeps : forall d, P d -> P (idbcNext d).
Hypothesis converged : forall d, P d -> gt (rnorm (res d)) (nr_tol st) = false.

Lemma nrLoop_inv fuel : forall iter s, 1 <= iter -> P (s_d s) -> (Z.to_nat (Z.max (nr_maxIter st) (nr_minIter st) - iter) <= fuel)%nat ->
  exists iter' s', nrLoop gt residual jacobian rnorm cnorm lsolve update idbc listen fuel st iter (res (s_d s)) (jac (s_d s)) (rnorm (res (s_d s))) s = Some (iter', s') /\
  iter <= iter' <= Z.max iter (nr_minIter st) /\ P (s_d s') /\ i_success (s_info s') = i_success (s_info s).
Proof.
  induction fuel as [|fuel IH]; intros iter s L H F; cbn [nrLoop]; unfold nrCond; rewrite converged by auto; cbn [andb orb].
  - destruct (Z.ltb_spec iter (nr_minIter st)); [exfalso; lia|]. exists iter, s. repeat split; auto; lia.
  - destruct (Z.ltb_spec iter (nr_minIter st)); [|exists iter, s; repeat split; auto; lia].
    destruct (nrBody_spec residual jacobian rnorm cnorm lsolve update idbc listen iter (res (s_d s)) (jac (s_d s)) s) as [s1 [w1 [E [_ [S1 [_ [_ [_ [Dd _]]]]]]]]].
    rewrite E. destruct (IH (iter + 1) s1) as [iter' [s' [E' [L' [P' S']]]]]; [lia| |lia|].
    + rewrite Dd. apply (keeps _ H).
    + exists iter', s'. split; [exact E'|]. split; [lia|]. split; auto. congruence.
Qed.

Lemma nrSolve_inv x c w : P (idbcFirst x) -> 0 < nr_maxIter st -> exists s,
  nrSolve gt inf residual jacobian rnorm cnorm lsolve update idbc listen st x c w = Some s /\
  0 <= i_iter (s_info s) <= Z.max 1 (nr_minIter st) /\ i_success (s_info s) = negb (i_iter (s_info s) =? nr_maxIter st) /\
  (i_iter (s_info s) = 0 /\ s_d s = x /\ gt (rnorm (add x (res x))) (nr_tol st) = false \/ 1 <= i_iter (s_info s) /\ P (s_d s)).
Proof.
  intros H M. unfold nrSolve.
  destruct (nrStart_spec inf residual jacobian rnorm idbc listen x c w) as [s0 [rx [ax [rn [E0 [D0 [_ [S0 [_ [_ [_ [_ [_ [A0 [N0 X0]]]]]]]]]]]]]]].
  rewrite E0. 
  assert (exists iter s1, nrLoop gt residual jacobian rnorm cnorm lsolve update idbc listen (Z.to_nat (Z.max (nr_maxIter st) (nr_minIter st))) st 0 rx ax rn s0 = Some (iter, s1) /\
    0 <= iter <= Z.max 1 (nr_minIter st) /\ i_success (s_info s1) = true /\ (iter = 0 /\ s_d s1 = x /\ gt (rnorm (add x (res x))) (nr_tol st) = false \/ 1 <= iter /\ P (s_d s1)))
    as [iter [s1 [E1 [L1 [S1 C1]]]]].
  { assert (exists f, Z.to_nat (Z.max (nr_maxIter st) (nr_minIter st)) = S f) as [f Ef] by (exists (pred (Z.to_nat (Z.max (nr_maxIter st) (nr_minIter st)))); lia).
    rewrite Ef. cbn [nrLoop]. destruct (nrCond gt st rn 0) eqn:Cd.
    - destruct (nrBody_spec residual jacobian rnorm cnorm lsolve update idbc listen 0 rx ax s0) as [s1 [w1 [E [_ [S1 [_ [_ [_ [Dd _]]]]]]]]].
      rewrite E. change (0 + 1) with 1. destruct (nrLoop_inv f 1 s1) as [iter' [s' [E' [L' [P' S']]]]]; [lia| |lia|].
      + rewrite Dd, D0, A0, X0. exact H.
      + exists iter', s'. split; [exact E'|]. split; [lia|]. split; [congruence|]. right. split; auto. lia.
    - exists 0, s0. split; auto. split; [lia|]. split; auto. left. split; auto. split; auto.
      unfold nrCond in Cd. apply orb_false_iff in Cd as [Cd _]. apply andb_false_iff in Cd as [Cd|Cd]; [|apply Z.ltb_ge in Cd; lia].
      rewrite <- Cd, N0, X0. reflexivity. }
  rewrite E1. exists (nrFinish listen st iter s1). split; auto. unfold nrFinish. rewrite S1.
  destruct (iter =? nr_maxIter st) eqn:Em; cbn; rewrite Em; auto.
Qed.
End NR.

Section Runs.
Context {T D R J C W : Type}.
Variable gt : T -> T -> bool.
Variable inf : T.
Variable res : W -> D -> R.
Variable jac : W -> D -> J.
Variable rnorm : R -> T.
Variable cnorm : C -> T.
Variable lsolve : J -> R -> C.
Variable update : D -> C -> D.
Variable add : W -> D -> R -> R.
Variable sync : D -> D.
Variable listen : nlmsg -> nlinfo T -> C -> D -> W -> W.
Variable st : nrSettings T.

(** No iteration if the residual with the forces passes the test. *)
Lemma nrSolve_zero x c w : (forall w, gt (rnorm (add w x (res w x))) (nr_tol st) = false) -> nr_minIter st <= 0 -> 0 < nr_maxIter st ->
  exists s, nrSolve gt inf res jac rnorm cnorm lsolve update (Some (add, sync)) listen st x c w = Some s /\
  i_iter (s_info s) = 0 /\ i_success (s_info s) = true /\ s_d s = x.
Proof.
  intros H M1 M2. unfold nrSolve.
  destruct (nrStart_spec inf res jac rnorm (Some (add, sync)) listen x c w) as [s0 [rx [ax [rn [E0 [D0 [_ [S0 [_ [_ [_ [_ [_ [A0 [N0 X0]]]]]]]]]]]]]]].
  rewrite E0. assert (nrCond gt st rn 0 = false) as Cd.
  { unfold nrCond. rewrite N0, X0, H. cbn [andb orb]. apply Z.ltb_ge. lia. }
  assert (nrLoop gt res jac rnorm cnorm lsolve update (Some (add, sync)) listen (Z.to_nat (Z.max (nr_maxIter st) (nr_minIter st))) st 0 rx ax rn s0 = Some (0, s0)) as ->.
  { destruct (Z.to_nat _); cbn [nrLoop]; rewrite Cd; reflexivity. }
  exists (nrFinish listen st 0 s0). split; auto. unfold nrFinish. rewrite S0.
  destruct (Z.eqb_spec 0 (nr_maxIter st)); [lia|]. cbn. auto.
Qed.

(** After an iteration the solution is synchronised. *)
Lemma nrLoop_synced (Q : D -> Prop) : (forall d e, Q d -> Q (update d e)) -> (forall d, Q d -> Q (sync d)) -> forall fuel iter rx ax rn s iter' s',
  Q (s_d s) -> nrLoop gt res jac rnorm cnorm lsolve update (Some (add, sync)) listen fuel st iter rx ax rn s = Some (iter', s') ->
  iter' = iter /\ s' = s \/ iter < iter' /\ exists d, Q d /\ s_d s' = sync d.
Proof.
  intros U S0. induction fuel as [|fuel IH]; intros iter rx ax rn s iter' s' q; cbn [nrLoop]; destruct (nrCond gt st rn iter); try discriminate;
    try (intro E; inversion E; subst; left; auto; fail).
  destruct (nrBody_spec res jac rnorm cnorm lsolve update (Some (add, sync)) listen iter rx ax s) as [s1 [w1 [E [_ [_ [_ [_ [_ [Dd _]]]]]]]]].
  rewrite E. intro H. assert (Q (s_d s1)) as q1 by (rewrite Dd; auto).
  destruct (IH _ _ _ _ _ _ _ q1 H) as [[-> ->]|[L [d Hd]]]; right; split; try lia; eauto.
Qed.

Lemma nrSolve_synced (Q : D -> Prop) x c w s : (forall d e, Q d -> Q (update d e)) -> (forall d, Q d -> Q (sync d)) -> Q x ->
  nrSolve gt inf res jac rnorm cnorm lsolve update (Some (add, sync)) listen st x c w = Some s ->
  i_iter (s_info s) = 0 /\ s_d s = x \/ 0 < i_iter (s_info s) /\ exists d, Q d /\ s_d s = sync d.
Proof.
  intros U S0 q. unfold nrSolve.
  destruct (nrStart_spec inf res jac rnorm (Some (add, sync)) listen x c w) as [s0 [rx [ax [rn [E0 [D0 _]]]]]]. rewrite E0.
  destruct (nrLoop _ _ _ _ _ _ _ _ _ _ _ _ _ _ _ _) as [[iter s1]|] eqn:E; try discriminate.
  intro H; inversion H; subst s; clear H. apply nrLoop_synced with (Q := Q) in E; auto; [|rewrite D0; auto].
  unfold nrFinish. destruct (if iter =? nr_maxIter st then false else i_success (s_info s1)); cbn; destruct E as [[-> ->]|E]; auto.
Qed.
End Runs.

(** Two iterations *)
Lemma nrSolve_two {T D R J C W : Type} (gt : T -> T -> bool) inf (res : D -> R) (jac : D -> J) rnorm (cnorm : C -> T) lsolve update add sync
  (listen : nlmsg -> nlinfo T -> C -> D -> W -> W) st x c w :
  gt (rnorm (add x (res x))) (nr_tol st) = true ->
  gt (rnorm (res (idbcFirst res jac lsolve update add sync x))) (nr_tol st) = true ->
  gt (rnorm (res (idbcNext res jac lsolve update sync (idbcFirst res jac lsolve update add sync x)))) (nr_tol st) = false ->
  nr_minIter st <= 2 -> 2 < nr_maxIter st -> exists s,
  nrSolve gt inf (fun _ : W => res) (fun _ : W => jac) rnorm cnorm lsolve update (Some (fun _ : W => add, sync)) listen st x c w = Some s /\
  i_iter (s_info s) = 2 /\ i_success (s_info s) = true /\ s_d s = idbcNext res jac lsolve update sync (idbcFirst res jac lsolve update add sync x).
Proof.
  intros G0 G1 G2 M1 M2. unfold nrSolve.
  destruct (nrStart_spec inf (fun _ : W => res) (fun _ : W => jac) rnorm (Some (fun _ : W => add, sync)) listen x c w) as [s0 [rx [ax [rn [E0 [D0 [_ [S0 [_ [_ [_ [_ [_ [A0 [N0 X0]]]]]]]]]]]]]]].
  rewrite E0. 
  assert (exists f, Z.to_nat (Z.max (nr_maxIter st) (nr_minIter st)) = S (S (S f))) as [f ->].
  { exists (Z.to_nat (Z.max (nr_maxIter st) (nr_minIter st)) - 3)%nat. lia. }
  cbn [nrLoop]. unfold nrCond at 1. rewrite N0, X0, G0. destruct (Z.ltb_spec 0 (nr_maxIter st)); [|lia]. cbn [andb orb].
  destruct (nrBody_spec (fun _ : W => res) (fun _ : W => jac) rnorm cnorm lsolve update (Some (fun _ : W => add, sync)) listen 0 (add x (res x)) ax s0) as [s1 [w1 [E1 [_ [S1 [_ [_ [_ [Dd1 _]]]]]]]]].
  rewrite E1. rewrite D0, A0 in Dd1. fold (idbcFirst res jac lsolve update add sync x) in Dd1. rewrite Dd1.
  cbn [nrLoop]. unfold nrCond at 1. rewrite G1. destruct (Z.ltb_spec (0 + 1) (nr_maxIter st)); [|lia]. cbn [andb orb].
  destruct (nrBody_spec (fun _ : W => res) (fun _ : W => jac) rnorm cnorm lsolve update (Some (fun _ : W => add, sync)) listen (0 + 1) (res (idbcFirst res jac lsolve update add sync x)) (jac (idbcFirst res jac lsolve update add sync x)) s1) as [s2 [w2 [E2 [_ [S2 [_ [_ [_ [Dd2 _]]]]]]]]].
  rewrite E2. rewrite Dd1 in Dd2. fold (idbcNext res jac lsolve update sync (idbcFirst res jac lsolve update add sync x)) in Dd2. rewrite Dd2.
  cbn [nrLoop]. unfold nrCond at 1. rewrite G2. destruct (Z.ltb_spec (0 + 1 + 1) (nr_minIter st)); [lia|]. cbn [andb orb].
  eexists. split; [reflexivity|]. unfold nrFinish. rewrite S2, S1, S0. destruct (Z.eqb_spec (0 + 1 + 1) (nr_maxIter st)); [lia|]. cbn. auto.
Qed.
