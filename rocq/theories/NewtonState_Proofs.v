(** Runs of the Newton solver whose listeners react to CORRECTION_UPDATED only. *)
From Coq Require Import List ZArith Bool Lia.
From Verif Require Import Newton_Model Condensation_Spec.
Local Open Scope Z_scope.

Section NR.
Context {T D R J C W : Type}.
Variable gt : T -> T -> bool.
Variable inf : T.
Variable residual : W -> D -> R.
Variable jacobian : W -> D -> J.
Variable rnorm : R -> T.
Variable cnorm : C -> T.
Variable lsolve : J -> R -> C.
Variable update : D -> C -> D.
Variable listen : nlmsg -> nlinfo T -> C -> D -> W -> W.
Variable change : D -> C -> W -> W.
Hypothesis reacts : forall msg i c d w, listen msg i c d w = match msg with CORRECTION_UPDATED => change d c w | _ => w end.

(** One iteration as a step on solution and outside state. *)
Definition iterationStep (s t : D * W) : Prop :=
  let c := lsolve (jacobian (snd s) (fst s)) (residual (snd s) (fst s)) in
  t = (update (fst s) c, change (fst s) c (snd s)).

Lemma nrBody_state iter s : exists s',
  nrBody residual jacobian rnorm cnorm lsolve update None listen iter (residual (s_w s) (s_d s)) (jacobian (s_w s) (s_d s)) s =
    (s', residual (s_w s') (s_d s'), jacobian (s_w s') (s_d s'), rnorm (residual (s_w s') (s_d s'))) /\
  iterationStep (s_d s, s_w s) (s_d s', s_w s').
Proof.
  assert (forall msg t, msg <> CORRECTION_UPDATED -> s_w (emit listen msg t) = s_w t /\ s_d (emit listen msg t) = s_d t) as O.
  { intros msg t H. split; [|reflexivity]. cbn. rewrite reacts. destruct msg; congruence. }
  assert (forall d c i w tr, s_w (emit listen CORRECTION_UPDATED (mkNR d c i w tr)) = change d c w /\ s_d (emit listen CORRECTION_UPDATED (mkNR d c i w tr)) = d) as P.
  { intros. split; [|reflexivity]. cbn. apply reacts. }
  unfold nrBody. cbv zeta. set (s1 := emit listen ITERATION_STARTED s).
  destruct (O ITERATION_STARTED s ltac:(discriminate)) as [W1 D1]. fold s1 in W1, D1. clearbody s1.
  set (c := lsolve _ _). set (s2 := emit listen CORRECTION_UPDATED _).
  assert (s_w s2 = change (s_d s) c (s_w s) /\ s_d s2 = s_d s) as [W2 D2].
  { subst s2. destruct (P (s_d s1) c (mkInfo (i_success (s_info s1)) (i_res (s_info s1)) (cnorm c) (i_iter (s_info s1))) (s_w s1) (s_trace s1)) as [-> ->].
    rewrite W1, D1. auto. }
  clearbody s2. set (s3 := emit listen CORRECTIONNORM_UPDATED _).
  assert (s_w s3 = s_w s2 /\ s_d s3 = update (s_d s2) c) as [W3 D3].
  { subst s3. edestruct (O CORRECTIONNORM_UPDATED) as [-> ->]; [discriminate|]. auto. }
  clearbody s3. set (s4 := emit listen SOLUTION_CHANGED _).
  assert (s_w s4 = s_w s3 /\ s_d s4 = s_d s3) as [W4 D4] by (apply O; discriminate).
  clearbody s4. set (s5 := emit listen RESIDUALNORM_UPDATED _).
  assert (s_w s5 = s_w s4 /\ s_d s5 = s_d s4) as [W5 D5].
  { subst s5. edestruct (O RESIDUALNORM_UPDATED) as [-> ->]; [discriminate|]. auto. }
  clearbody s5. set (s6 := emit listen ITERATION_ENDED _).
  assert (s_w s6 = s_w s5 /\ s_d s6 = s_d s5) as [W6 D6].
  { subst s6. edestruct (O ITERATION_ENDED) as [-> ->]; [discriminate|]. auto. }
  clearbody s6. exists s6. rewrite W6, D6, W5, D5. split; [reflexivity|].
  unfold iterationStep. cbn [fst snd]. fold c. rewrite W4, W3, W2, D4, D3, D2. reflexivity.
Qed.

Lemma nrLoop_state st fuel : forall iter rn s iter' s', 
  nrLoop gt residual jacobian rnorm cnorm lsolve update None listen fuel st iter (residual (s_w s) (s_d s)) (jacobian (s_w s) (s_d s)) rn s = Some (iter', s') ->
  iter <= iter' /\ steps iterationStep (Z.to_nat (iter' - iter)) (s_d s, s_w s) (s_d s', s_w s').
Proof.
  induction fuel as [|fuel IH]; intros iter rn s iter' s'; cbn [nrLoop]; destruct (nrCond gt st rn iter); try discriminate.
  - intro E; inversion E; subst. rewrite Z.sub_diag. split; [lia|constructor].
  - destruct (nrBody_state iter s) as [s1 [-> S1]]. intro E. apply IH in E as [L P]. split; [lia|].
    replace (Z.to_nat (iter' - iter)) with (S (Z.to_nat (iter' - (iter + 1)))) by lia. econstructor; eauto.
  - intro E; inversion E; subst. rewrite Z.sub_diag. split; [lia|constructor].
Qed.

Lemma nrSolve_state st x c w s :
  nrSolve gt inf residual jacobian rnorm cnorm lsolve update None listen st x c w = Some s ->
  steps iterationStep (Z.to_nat (i_iter (s_info s))) (x, w) (s_d s, s_w s).
Proof.
  unfold nrSolve, nrStart, emit, setInfo. cbn. rewrite !reacts.
  destruct (nrLoop _ _ _ _ _ _ _ _ _ _ _ _ _ _ _ _) as [[iter s1]|] eqn:E; try discriminate. intro H; inversion H; subst; clear H.
  set (s0 := mkNR x c (mkInfo true (rnorm (residual w x)) inf (-1)) w _) in E.
  change (residual w x) with (residual (s_w s0) (s_d s0)) in E. change (jacobian w x) with (jacobian (s_w s0) (s_d s0)) in E.
  apply nrLoop_state in E as [L P]. rewrite Z.sub_0_r in P. change (s_d s0) with x in P. change (s_w s0) with w in P. unfold nrFinish.
  destruct (if iter =? nr_maxIter st then false else i_success (s_info s1)); cbn; [rewrite reacts|]; exact P.
Qed.

Lemma steps_mono {S} (P Q : S -> S -> Prop) n s t : (forall a b, P a b -> Q a b) -> steps P n s t -> steps Q n s t.
Proof. intros H K. induction K; econstructor; eauto. Qed.

(** The last step. *)
Lemma steps_last {S} (P : S -> S -> Prop) n s u : steps P (Datatypes.S n) s u -> exists t, steps P n s t /\ P t u.
Proof.
  revert s. induction n as [|n IH]; intros s H; inversion H as [|? ? t ? P1 P2]; subst.
  - inversion P2; subst. exists s. split; auto. constructor.
  - destruct (IH _ P2) as [v [V1 V2]]. exists v. split; auto. econstructor; eauto.
Qed.
End NR.
