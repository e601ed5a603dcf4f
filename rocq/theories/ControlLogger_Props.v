(** Property C153: what the logger of a control routine prints. *)

From Coq Require Import List ZArith Bool Lia.
From Verif Require Import Newton_Model Control_Model Control_Spec Control_Proofs PathFunctions_Model ControlLogger_Model.
Import ListNotations.
Local Open Scope Z_scope.

(** ** Specification *)
Section Spec.
Context {T N : Type}.

(** The lines of one step *)
Definition stepLines (number : Z) (size : T) : list (ctlLine T N) := [LoadStep number size; SingleRule; DoubleRule].

(** The steps are numbered from -1, the check of the initial state; [number] is that of the first step. *)
Fixpoint allSteps (number : Z) (sizes : list T) : list (ctlLine T N) :=
  match sizes with [] => [] | s :: l => stepLines number s ++ allSteps (number + 1) l end.

Definition expectedLog (name : N) (sizes : list T) (total : option Z) : list (ctlLine T N) :=
  [DoubleRule; Started name; DoubleRule] ++ allSteps (-1) sizes ++
  match total with Some n => [EndOf name; TotalIterations n; ElapsedTime] | None => [] end.

(** The step sizes the step-sizing rule gives from step [number] on, the size before being [s] and [l] the information of the solves
    from the one before *)
Fixpoint ruleSizes (adaptive : Z -> nlinfo T -> T -> option T) (number : Z) (s : T) (l : list (nlinfo T)) : list T :=
  match l with
  | [] => []
  | i :: l' => match adaptive number i s with None => [] | Some s' => s' :: ruleSizes adaptive (number + 1) s' l' end
  end.
End Spec.

(** ** Proofs *)
Section P.
Context {T X W N : Type}.
Variables (name : N) (listen : cmsg -> cinfo T -> Z -> T -> X * T -> W -> W).
Notation log := (ctlLog (T:=T) (X:=X) name).

Lemma log_app a b : log (a ++ b) = log a ++ log b.
Proof. unfold ctlLog. rewrite map_app, concat_app. reflexivity. Qed.

Lemma log_emit m (s : cState (T:=T) (X:=X) (W:=W)) : log (k_trace (cemit listen m s)) = log (k_trace s) ++ ctlUpdate name m (k_info s) (k_step s) (k_size s).
Proof. unfold cemit. cbn [k_trace]. rewrite log_app. unfold ctlLog at 2. cbn. rewrite app_nil_r. reflexivity. Qed.

Lemma log_update i (s : cState (T:=T) (X:=X) (W:=W)) : log (k_trace (updateAndNotify listen i s)) = log (k_trace s) ++ [DoubleRule].
Proof. unfold updateAndNotify. cbv zeta. rewrite !log_emit. cbn. rewrite app_nil_r. reflexivity. Qed.

Lemma update_infos i (s : cState (T:=T) (X:=X) (W:=W)) : let s' := updateAndNotify listen i s in
  c_infos (k_info s') = c_infos (k_info s) ++ [i] /\ c_success (k_info s') = c_success (k_info s) /\ c_total (k_info s') = c_total (k_info s) + i_iter i /\
  k_size s' = k_size s.
Proof. cbn. auto. Qed.

Lemma allSteps_app (a b : list T) n : allSteps (N:=N) n (a ++ b) = allSteps n a ++ allSteps (n + Z.of_nat (length a)) b.
Proof.
  revert n. induction a as [|x a IH]; intro n.
  - cbn. f_equal. lia.
  - cbn [app allSteps length]. rewrite IH, <- app_assoc. f_equal. f_equal. f_equal. lia.
Qed.

Lemma sumIter_one (i : nlinfo T) l : sumIter (i :: l) = i_iter i + sumIter l.
Proof. reflexivity. Qed.

Variables (tadd : T -> T -> T) (t0 : T).
Variable solve : X -> T -> T -> W -> X * W * nlinfo T.
Variable sync : X -> T -> X.

Lemma lcLoop_log st n : forall ls s, k_size s = st -> c_success (k_info s) = false -> exists l, let s' := lcLoop listen tadd solve sync n st ls s in
  c_infos (k_info s') = c_infos (k_info s) ++ l /\ c_total (k_info s') = c_total (k_info s) + sumIter l /\
  log (k_trace s') = log (k_trace s) ++ allSteps ls (repeat st (length l)) ++
    (if c_success (k_info s') then [EndOf name; TotalIterations (c_total (k_info s')); ElapsedTime] else []).
Proof.
  induction n as [|n IH]; intros ls s Hs Hf.
  - exists []. cbn [lcLoop]. cbv zeta. cbn [length repeat allSteps app]. split; [cbn; rewrite app_nil_r; reflexivity|].
    split; [cbn; unfold sumIter; cbn; lia|]. unfold setSuccess. cbn [k_trace k_info c_success]. rewrite log_emit. reflexivity.
  - cbn [lcLoop]. set (s1 := cemit listen STEP_STARTED _).
    assert (A : log (k_trace s1) = log (k_trace s) ++ [LoadStep ls st; SingleRule]) by (subst s1; rewrite log_emit; cbn; rewrite Hs; reflexivity).
    assert (B : k_info s1 = k_info s /\ k_size s1 = st) by (subst s1; cbn; auto). destruct B as [B1 B2]. clearbody s1. cbv zeta.
    destruct (solve (k_x s1) _ st (k_w s1)) as [[x w] i]. set (x' := if i_iter i =? 0 then _ else x). clearbody x'.
    match goal with |- context [updateAndNotify listen i ?sx] => pose proof (log_update i sx) as L; pose proof (update_infos i sx) as (U1 & U2 & U3 & U4); set (s2 := updateAndNotify listen i sx) in * end.
    cbn [k_trace k_info k_size] in L, U1, U2, U3, U4. rewrite A, <- app_assoc in L. rewrite B1 in U1, U2, U3. rewrite B2 in U4. clearbody s2.
    destruct (i_success i).
    + rewrite Hf in U2. destruct (IH (ls + 1) s2 U4 U2) as (l & E1 & E2 & E3). exists (i :: l). cbv zeta in E1, E2, E3.
      split; [rewrite E1, U1, <- app_assoc; reflexivity|]. split; [rewrite E2, U3, sumIter_one; lia|].
      rewrite E3, L. cbn [length repeat allSteps stepLines app]. rewrite <- !app_assoc. reflexivity.
    + exists [i]. split; [exact U1|]. split; [rewrite U3, sumIter_one; unfold sumIter; cbn; lia|]. rewrite L, U2, Hf. cbn. reflexivity.
Qed.

(** Path following *)
Context {V PF : Type}.
Variable psolve : PF -> X * T -> subArgs T V -> W -> (X * T) * subArgs T V * W * nlinfo T.
Variable initialPrediction : PF -> X * T -> subArgs T V -> W -> PF * (X * T) * subArgs T V.
Variable intermediatePrediction : PF -> X * T -> subArgs T V -> option ((X * T) * subArgs T V).
Variable adaptive : Z -> nlinfo T -> T -> option T.
Variable zeroArgs : X -> subArgs T V.
Hypothesis solveKeeps : forall pf req a w, a_stepSize (snd (fst (fst (psolve pf req a w)))) = a_stepSize a.
Hypothesis initialKeeps : forall pf req a w, a_stepSize (snd (initialPrediction pf req a w)) = a_stepSize a.
Hypothesis intermediateKeeps : forall pf req a req' a', intermediatePrediction pf req a = Some (req', a') -> a_stepSize a' = a_stepSize a.

Lemma pfSolve_log pf a s : exists s' a' i, pfSolve listen psolve pf a s = (s', a', i) /\ a_stepSize a' = a_stepSize a /\
  c_infos (k_info s') = c_infos (k_info s) ++ [i] /\ c_success (k_info s') = c_success (k_info s) /\ c_total (k_info s') = c_total (k_info s) + i_iter i /\
  log (k_trace s') = log (k_trace s) ++ [DoubleRule].
Proof.
  unfold pfSolve. pose proof (solveKeeps pf (k_x s, k_p s) a (k_w s)) as K. destruct (psolve pf (k_x s, k_p s) a (k_w s)) as [[[req a'] w] i].
  do 3 eexists. split; [reflexivity|]. split; [exact K|].
  match goal with |- context [updateAndNotify listen i ?sx] => pose proof (log_update i sx) as L; pose proof (update_infos i sx) as (U1 & U2 & U3 & _) end.
  cbn [k_trace k_info] in *. auto.
Qed.

Lemma firstn_rule n (l : list (nlinfo T)) : forall k s, firstn (S n) (ruleSizes adaptive k s l) = match l with [] => [] | i :: l' =>
  match adaptive k i s with None => [] | Some s' => s' :: firstn n (ruleSizes adaptive (k + 1) s' l') end end.
Proof. intros k s. destruct l as [|i l]; [reflexivity|]. cbn [ruleSizes]. destruct (adaptive k i s); reflexivity. Qed.

Lemma pfLoop_log n : forall ls pf a i0 s, c_success (k_info s) = false -> exists l, let s' := resState (pfLoop listen psolve intermediatePrediction adaptive n ls pf a i0 s) in
  let sizes := firstn (length l) (ruleSizes adaptive ls (a_stepSize a) (i0 :: l)) in
  c_infos (k_info s') = c_infos (k_info s) ++ l /\ c_total (k_info s') = c_total (k_info s) + sumIter l /\
  length sizes = length l /\
  log (k_trace s') = log (k_trace s) ++ allSteps ls sizes ++
    (if c_success (k_info s') then [EndOf name; TotalIterations (c_total (k_info s')); ElapsedTime] else []).
Proof.
  induction n as [|n IH]; intros ls pf a i0 s Hf.
  - exists []. cbn [pfLoop resState]. cbv zeta. cbn [length firstn allSteps app]. split; [cbn; rewrite app_nil_r; reflexivity|].
    split; [cbn; unfold sumIter; cbn; lia|]. split; [reflexivity|]. unfold setSuccess. cbn [k_trace k_info c_success]. rewrite log_emit. reflexivity.
  - cbn [pfLoop]. cbv zeta.
    assert (Done : exists l, c_infos (k_info s) = c_infos (k_info s) ++ l /\ c_total (k_info s) = c_total (k_info s) + sumIter l /\
      length (firstn (length l) (ruleSizes adaptive ls (a_stepSize a) (i0 :: l))) = length l /\
      log (k_trace s) = log (k_trace s) ++ allSteps ls (firstn (length l) (ruleSizes adaptive ls (a_stepSize a) (i0 :: l))) ++
        (if c_success (k_info s) then [EndOf name; TotalIterations (c_total (k_info s)); ElapsedTime] else [])).
    { exists []. cbn [length firstn allSteps]. rewrite Hf, !app_nil_r. repeat split; auto. unfold sumIter; cbn; lia. }
    destruct (adaptive ls i0 (a_stepSize a)) as [st|] eqn:Ea; [|exact Done].
    destruct (intermediatePrediction pf _ (withStep a st ls)) as [[req a2]|] eqn:Ei; [|exact Done]. clear Done.
    apply intermediateKeeps in Ei. cbn [withStep a_stepSize] in Ei. rewrite Ei.
    set (s2 := cemit listen STEP_STARTED _).
    assert (A : log (k_trace s2) = log (k_trace s) ++ [LoadStep ls st; SingleRule] /\ k_info s2 = k_info s) by (subst s2; rewrite log_emit; cbn; auto).
    destruct A as [A B]. clearbody s2. destruct (pfSolve_log pf a2 s2) as (s3 & a3 & i & E & F0 & F1 & F2 & F3 & F4). rewrite E.
    rewrite B in F1, F2, F3. rewrite A in F4. rewrite Ei in F0.
    destruct (i_success i).
    + rewrite Hf in F2. destruct (IH (ls + 1) pf a3 i s3 F2) as (l & E1 & E2 & E3 & E4). exists (i :: l). cbv zeta in E1, E2, E3, E4. rewrite F0 in E3, E4.
      cbn [length ruleSizes] in *. rewrite Ea. cbn [firstn length].
      split; [rewrite E1, F1, <- app_assoc; reflexivity|]. split; [rewrite E2, F3, sumIter_one; lia|]. split; [rewrite E3; reflexivity|].
      rewrite E4, F4. cbn [allSteps stepLines app]. rewrite <- !app_assoc. reflexivity.
    + exists [i]. cbn [length ruleSizes]. rewrite Ea. cbn [firstn length resState allSteps stepLines app]. split; [exact F1|].
      split; [rewrite F3, sumIter_one; unfold sumIter; cbn; lia|]. split; [reflexivity|]. rewrite F4, F2, Hf, <- app_assoc. reflexivity.
Qed.
End P.

(** ** C153 *)

(** Load control: the title, then every step with its number and size (the check of the initial state is step -1 of size zero), and at the end
    of a complete run, and only then, the total number of iterations, whatever solver and other listeners do *)
Theorem C153_load_control_partial : forall (T X W N : Type) (name : N) listen (tadd tsub tdiv : T -> T -> T) (tOfZ : Z -> T) (t0 : T)
    (solve : X -> T -> T -> W -> X * W * nlinfo T) (sync : X -> T -> X) loadSteps tBegin tEnd lc x p w,
  lcConstruct tsub tdiv tOfZ loadSteps tBegin tEnd = Some lc ->
  let s := lcRun listen tadd t0 solve sync lc x p w in
  ctlLog name (k_trace s) =
    expectedLog name (t0 :: repeat (tdiv (tsub tEnd tBegin) (tOfZ loadSteps)) (length (c_infos (k_info s)) - 1))
      (if c_success (k_info s) then Some (sumIter (c_infos (k_info s))) else None).
Proof.
  intros T X W N name listen tadd tsub tdiv tOfZ t0 solve sync n tb te lc x p w E. unfold lcConstruct in E.
  destruct (n <=? 0); inversion E; subst lc; clear E. set (st := tdiv (tsub te tb) (tOfZ n)). clearbody st. unfold lcRun.
  set (s0 := cemit listen STEP_STARTED _).
  assert (A : ctlLog name (k_trace s0) = [DoubleRule; Started name; DoubleRule; LoadStep (-1) t0; SingleRule] /\ k_info s0 = mkCInfo false [] 0).
  { subst s0. rewrite log_emit. unfold cemit at 1. cbn. auto. }
  destruct A as [A B]. clearbody s0. destruct (solve (k_x s0) (k_p s0) t0 (k_w s0)) as [[x1 w1] i].
  match goal with |- context [updateAndNotify listen i ?sx] => pose proof (log_update name listen i sx) as L; pose proof (update_infos listen i sx) as (U1 & U2 & U3 & _); set (s1 := updateAndNotify listen i sx) in * end.
  cbn [k_trace k_info] in L, U1, U2, U3. rewrite A in L. rewrite B in U1, U2, U3. clearbody s1. cbn in U1, U2, U3.
  destruct (i_success i).
  - match goal with |- context [lcLoop _ _ _ _ _ _ _ ?sx] => destruct (lcLoop_log name listen tadd solve sync st (Z.to_nat n) 0 sx eq_refl U2) as (l & E1 & E2 & E3) end.
    cbn [k_info k_trace] in E1, E2, E3. cbv zeta in *. rewrite E3, E1, L, U1. rewrite U1, U3 in *. cbn [app length Nat.sub]. rewrite Nat.sub_0_r.
    rewrite E2. unfold expectedLog. cbn [app allSteps stepLines]. rewrite sumIter_one. change (-1 + 1) with 0.
    match goal with |- context [if ?b then Some _ else None] => destruct b end; reflexivity.
  - cbv zeta. rewrite L, U1, U2. reflexivity.
Qed.
Print Assumptions C153_load_control_partial.

(** Path following: the same with the sizes of the step-sizing rule, for path-following functions and solvers that leave the step size alone *)
Theorem C153_path_following_partial : forall (T X W N V PF : Type) (name : N) listen (t0 : T)
    (psolve : PF -> X * T -> subArgs T V -> W -> (X * T) * subArgs T V * W * nlinfo T) initialPrediction intermediatePrediction adaptive zeroArgs
    steps n st (pf : PF) (x : X) (p : T) (w : W),
  (forall pf req a w, a_stepSize (snd (fst (fst (psolve pf req a w)))) = a_stepSize a) ->
  (forall pf req a w, a_stepSize (snd (initialPrediction pf req a w)) = a_stepSize a) ->
  (forall pf req a req' a', intermediatePrediction pf req a = Some (req', a') -> a_stepSize a' = a_stepSize a) ->
  pfConstruct steps = Some n ->
  let s := resState (pfRun (V:=V) listen t0 psolve initialPrediction intermediatePrediction adaptive zeroArgs n st pf x p w) in
  let infos := c_infos (k_info s) in
  let sizes := firstn (length infos) (t0 :: st :: ruleSizes adaptive 1 st (tl infos)) in
  length sizes = length infos /\
  ctlLog name (k_trace s) = expectedLog name sizes (if c_success (k_info s) then Some (sumIter infos) else None).
Proof.
  intros T X W N V PF name listen t0 psolve ip mp ad za steps n st pf x p w K1 K2 K3 E. unfold pfConstruct in E. destruct (steps <=? 0); inversion E; subst. clear E.
  unfold pfRun. cbv zeta. set (s0 := cemit listen STEP_STARTED _).
  assert (A : ctlLog name (k_trace s0) = [DoubleRule; Started name; DoubleRule; LoadStep (-1) t0; SingleRule] /\ k_info s0 = mkCInfo false [] 0).
  { subst s0. rewrite log_emit. unfold cemit at 1. cbn. auto. }
  destruct A as [A B]. clearbody s0.
  match goal with |- context [pfSolve listen psolve pf ?aa s0] => destruct (pfSolve_log name listen psolve K1 pf aa s0) as (s2 & a2 & i & E & F0 & F1 & F2 & F3 & F4) end.
  rewrite E. rewrite B in F1, F2, F3. rewrite A in F4. cbn in F0, F1, F2, F3. cbn [app] in F4.
  destruct (i_success i).
  - set (s3 := cemit listen STEP_STARTED _).
    assert (C : ctlLog name (k_trace s3) = ctlLog name (k_trace s2) ++ [LoadStep 0 st; SingleRule] /\ k_info s3 = k_info s2).
    { subst s3. rewrite log_emit. cbn. auto. }
    destruct C as [C D]. clearbody s3. pose proof (K2 pf (k_x s3, k_p s3) a2 (k_w s3)) as K. destruct (ip pf (k_x s3, k_p s3) a2 (k_w s3)) as [[pf' req] a3].
    match goal with |- context [pfSolve listen psolve pf' a3 ?sx] => destruct (pfSolve_log name listen psolve K1 pf' a3 sx) as (s4 & a4 & i' & E' & G0 & G1 & G2 & G3 & G4) end.
    rewrite E'. cbn [k_info k_trace snd] in *. rewrite D in G1, G2, G3. rewrite C, F4 in G4. rewrite F1 in G1. rewrite F2 in G2. rewrite F3 in G3. cbn [app] in G1, G4.
    rewrite K, F0 in G0.
    destruct (i_success i').
    + destruct (pfLoop_log name listen psolve mp ad K1 K3 (Z.to_nat (n - 1)) 1 pf' a4 i' s4 G2) as (l & H1 & H2 & H3 & H4). cbv zeta in *.
      rewrite G0 in H3, H4. rewrite G1 in H1. rewrite G4 in H4. rewrite G3 in H2. cbn [app] in H1. rewrite H4, H1. cbn [length tl firstn]. rewrite H3. split; [reflexivity|].
      unfold expectedLog. rewrite H2, !sumIter_one. cbn [app allSteps stepLines Z.add]. change (-1 + 1) with 0. change (0 + 1) with 1.
      match goal with |- context [if ?b then Some _ else None] => destruct b end; [|reflexivity]. rewrite Z.add_assoc. reflexivity.
    + cbn [resState]. rewrite G1, G2, G4. split; reflexivity.
  - cbn [resState]. rewrite F1, F2, F4. split; reflexivity.
Qed.
Print Assumptions C153_path_following_partial.

(** The three path-following functions leave the step size alone *)
Theorem C153_functions_keep {T : Type} (t0 t1 : T) tadd tsub tmul tdiv tsqrt idbcSync req (a : subArgs T (list T)) :
  (forall s, a_stepSize (arcEval t0 tadd tsub tmul tdiv tsqrt idbcSync s req a) = a_stepSize a) /\
  (forall lin s, a_stepSize (snd (arcInitial t0 t1 tadd tsub tmul tdiv tsqrt idbcSync lin s req a)) = a_stepSize a) /\
  (forall s req' a', arcIntermediate tadd idbcSync s req a = Some (req', a') -> a' = a) /\
  (forall s, a_stepSize (lcsEval t0 t1 tsub s req a) = a_stepSize a) /\ (forall s, a_stepSize (snd (lcsInitial s req a)) = a_stepSize a) /\
  (forall s req' a', lcsIntermediate tadd s req a = Some (req', a') -> a' = a) /\
  (forall idx s, a_stepSize (dcEval t0 tadd tsub tmul tdiv tsqrt idx s req a) = a_stepSize a) /\ (forall idx s, a_stepSize (snd (dcInitial idx s req a)) = a_stepSize a) /\
  (forall s req' a', dcIntermediate tadd s req a = Some (req', a') -> a' = a).
Proof.
  repeat split; intros; try reflexivity.
  - unfold arcEval. cbv zeta. destruct (arc_computed s); reflexivity.
  - unfold arcIntermediate in H. destruct (arc_computed s); [|discriminate]. inversion H; reflexivity.
  - unfold lcsIntermediate in H. destruct s; [|discriminate]. inversion H; reflexivity.
  - unfold dcIntermediate in H. destruct s; [|discriminate]. inversion H; reflexivity.
Qed.

(** and so does the solver *)
Section NRS.
Context {T V J W : Type}.
Variables (tadd tsub tmul tdiv : T -> T -> T) (topp tsqrt : T -> T) (t1 inf : T) (gt : T -> T -> bool).
Variables (vadd vsub : V -> V -> V) (vopp : V -> V) (vscale : T -> V -> V) (vdot : V -> V -> T) (vzeroLike : V -> V).
Variables (residual : W -> V * T -> V) (jacobian : W -> V * T -> J) (lsolve : J -> V -> V) (update : V -> V -> V).
Variables (idbc : option ((W -> V * T -> V) * (V * T -> V))) (listen : nlmsg -> nlinfo T -> V -> V * T -> W -> W).
Variable subsidiary : V * T -> subArgs T V -> subArgs T V.
Notation body := (nrsBody tadd tsub tmul tdiv topp tsqrt vadd vsub vopp vscale vdot residual jacobian lsolve update idbc listen subsidiary).
Notation loop := (nrsLoop tadd tsub tmul tdiv topp tsqrt gt vadd vsub vopp vscale vdot residual jacobian lsolve update idbc listen subsidiary).
Notation solve := (nrsSolve tadd tsub tmul tdiv topp tsqrt t1 inf gt vadd vsub vopp vscale vdot vzeroLike residual jacobian lsolve update idbc listen subsidiary).

Theorem C153_solver_keeps tol maxIter req a c w s a' : (forall d a, a_stepSize (subsidiary d a) = a_stepSize a) ->
  solve tol maxIter req a c w = Some (s, a') -> a_stepSize a' = a_stepSize a.
Proof.
  intros K. unfold nrsSolve. cbv zeta. destruct (loop _ _ _ _ _ _ _ _ _ _) as [((it, s1), a2)|] eqn:E; [|discriminate].
  intros G. inversion G; subst a'; clear G. rewrite <- (K req a). revert E.
  match goal with |- loop ?f _ _ ?n ?x _ ?y ?b ?r ?t = _ -> _ => generalize f, n, x, y, b, r, t end. clear - K.
  generalize (residual (s_w (emit listen INIT (mkNR req c (mkInfo false inf inf (-1)) w []))) req).
  intros rx fuel. revert rx. induction fuel as [|fuel IH]; intros rx n fext ax b rn t; cbn [nrsLoop]; destruct (gt rn tol && (n <? maxIter)); try discriminate.
  - intros E. inversion E; reflexivity.
  - destruct (body n fext rx ax b t) as ((((s2, rx2), ax2), a3), rn2) eqn:Eb.
    intros E. apply IH in E. rewrite E. revert Eb. unfold nrsBody. cbv zeta. destruct (subsidiaryCorrection _ _ _ _ _ _ _ _ _ _ _ _ _) as (dD, dl).
    intros Eb. inversion Eb. rewrite K. reflexivity.
  - intros E. inversion E; reflexivity.
Qed.
End NRS.

(** A run that fails is not brought to an end: the number of iterations spent is not printed *)
Theorem C153_failed_refuted : exists lc, lcConstruct Z.sub Z.div (fun z => z) 2 0 2 = Some lc /\
  let s := lcRun (fun _ _ _ _ _ w => w) Z.add 0 (fun (x : unit) (p _ : Z) (w : unit) => (x, w, mkInfo (p <? 2) 0 0 3)) (fun x _ => x) lc tt 0 tt in
  c_success (k_info s) = false /\ c_total (k_info s) = 9 /\ forall n, ~ In (TotalIterations n) (ctlLog tt (k_trace s)) /\ ~ In (EndOf tt) (ctlLog tt (k_trace s)).
Proof. eexists. split; [reflexivity|]. split; [reflexivity|]. split; [reflexivity|]. intro n. vm_compute. split; intuition discriminate. Qed.

(** The first solve of path following is shown with step size zero although it is done with the step size of the run *)
Theorem C153_first_size_refuted : let solveAsked := fun (_ : unit) (req : unit * Z) (a : subArgs Z unit) (w : list Z) => (req, a, w ++ [a_stepSize a], mkInfo false 0 0 3) in
  let s := resState (pfRun (fun _ _ _ _ _ w => w) 0 solveAsked (fun pf req a w => (pf, req, a)) (fun pf req a => Some (req, a))
    (fun _ _ st => Some st) (fun _ => mkArgs 0 tt 0 0 tt 0 0) 5 8 tt tt 0 []) in
  k_w s = [8] /\ ctlLog tt (k_trace s) = [DoubleRule; Started tt; DoubleRule; LoadStep (-1) 0; SingleRule; DoubleRule].
Proof. vm_compute. split; reflexivity. Qed.

Example C153_ex : let r := pfRun (T:=Z) (X:=unit) (W:=nat) (V:=unit) (PF:=unit) (fun _ _ _ _ _ w => S w) 0
    (fun _ req a w => (req, a, w, mkInfo true 0 0 4)) (fun pf req a w => (pf, (fst req, 1), a)) (fun pf req a => Some ((fst req, snd req + 1), a))
    (fun _ _ st => Some (st / 2)) (fun _ => mkArgs 0 tt 0 0 tt 0 0) 3 8 tt tt 0 O in
  ctlLog tt (k_trace (resState r)) = [DoubleRule; Started tt; DoubleRule; LoadStep (-1) 0; SingleRule; DoubleRule; LoadStep 0 8; SingleRule; DoubleRule;
    LoadStep 1 4; SingleRule; DoubleRule; LoadStep 2 2; SingleRule; DoubleRule; EndOf tt; TotalIterations 16; ElapsedTime].
Proof. vm_compute. reflexivity. Qed.
Print Assumptions C153_solver_keeps.
