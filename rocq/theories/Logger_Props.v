(** Property C125: the table printed for a solve.  Property C126: listeners of one kind of message. *)

From Coq Require Import Floats.
From Coq Require Import List ZArith Bool Lia.
From Verif Require Import Newton_Model Newton_Spec Newton_Props TCG_Model TrustRegion_Model TrustRegion_Spec TrustRegion_Props Logger_Model.
Import ListNotations.
Local Open Scope Z_scope.

Section Logs.
Context {T C D : Type}.
Variables (zero : T) (parameter : option (D -> T)).
Notation logAll := (@logAll T C D zero parameter).

Lemma logAll_app : forall t t2 l, logAll l (t ++ t2) = (let '(l1, o1) := logAll l t in let '(l2, o2) := logAll l1 t2 in (l2, o1 ++ o2)).
Proof.
  induction t as [|[[[m i] c] d] t IH]; intros t2 l; cbn [app Logger_Model.logAll].
  - destruct (logAll l t2). reflexivity.
  - destruct (logUpdate zero parameter l m i d) as [l1 o1]. rewrite IH. destruct (logAll l1 t) as [l2 o2], (logAll l2 t2) as [l3 o3].
    rewrite app_assoc. reflexivity.
Qed.
End Logs.

(** The end of each iteration: correction and solution then *)
Definition endOf {T C D} (e : nlmsg * nlinfo T * C * D) : list (C * D) := match e with (ITERATION_ENDED, _, c, d) => [(c, d)] | _ => [] end.
Definition ends {T C D} (t : list (nlmsg * nlinfo T * C * D)) : list (C * D) := flat_map endOf t.

(** The table the user expects: one row per iteration, numbered from 1, with the norms of the residual at the solution and of the
    correction of that iteration, and the load factor of the solution. *)
Fixpoint rows {T C D} (rn : D -> T) (cn : C -> T) (parameter : option (D -> T)) (k : Z) (l : list (C * D)) : list (logLine T) :=
  match l with
  | [] => []
  | (c, d) :: l => Row k (rn d) (cn c) (match parameter with None => None | Some p => Some (p d) end) :: rows rn cn parameter (k + 1) l
  end.

Lemma emit_any {T D C W} (listen : nlmsg -> nlinfo T -> C -> D -> W -> W) m (s : nrState) : exists w,
  emit listen m s = mkNR (s_d s) (s_c s) (s_info s) w (s_trace s ++ [(m, s_info s, s_c s, s_d s)]).
Proof. eexists. reflexivity. Qed.

Section Newton.
Context {T D R J C W : Type}.
Variables (gt : T -> T -> bool) (inf zero : T) (res : D -> R) (jacobian : W -> D -> J) (rnorm : R -> T) (cnorm : C -> T).
Variables (lsolve : J -> R -> C) (update : D -> C -> D) (idbc : option ((W -> D -> R -> R) * (D -> D))).
Variable listen : nlmsg -> nlinfo T -> C -> D -> W -> W.
Variable parameter : option (D -> T).
Notation solve := (nrSolve gt inf (fun _ => res) jacobian rnorm cnorm lsolve update idbc listen).
Notation loop := (nrLoop gt (fun _ => res) jacobian rnorm cnorm lsolve update idbc listen).
Notation log := (@logAll T C D zero parameter).

Lemma nrBody_log : forall iter rx ax s s' rx' ax' rn', nrBody (fun _ => res) jacobian rnorm cnorm lsolve update idbc listen iter rx ax s = (s', rx', ax', rn') ->
  exists b, s_trace s' = s_trace s ++ b /\ exists c d, ends b = [(c, d)] /\
    forall l, exists l', log l b = (l', rows (fun d => rnorm (res d)) cnorm parameter (l_iters l) [(c, d)]) /\ l_iters l' = l_iters l + 1.
Proof.
  intros iter rx ax s s' rx' ax' rn'. destruct s as [d0 c0 i0 w0 t0]. unfold nrBody.
  destruct (emit_any listen ITERATION_STARTED (mkNR d0 c0 i0 w0 t0)) as [w1 E1]. rewrite E1. cbn [s_d s_c s_info s_w s_trace]. clear E1.
  match goal with |- context [emit listen CORRECTION_UPDATED ?x] => destruct (emit_any listen CORRECTION_UPDATED x) as [w2 E2] end.
  rewrite E2. cbn [s_d s_c s_info s_w s_trace]. clear E2.
  match goal with |- context [emit listen CORRECTIONNORM_UPDATED ?x] => destruct (emit_any listen CORRECTIONNORM_UPDATED x) as [w3 E3] end.
  rewrite E3. clear E3.
  match goal with |- context [emit listen SOLUTION_CHANGED ?x] => destruct (emit_any listen SOLUTION_CHANGED x) as [w4 E4] end.
  rewrite E4. cbn [s_d s_c s_info s_w s_trace setInfo]. clear E4.
  match goal with |- context [emit listen RESIDUALNORM_UPDATED ?x] => destruct (emit_any listen RESIDUALNORM_UPDATED x) as [w5 E5] end.
  rewrite E5. unfold setInfo. cbn [s_d s_c s_info s_w s_trace]. clear E5.
  match goal with |- context [emit listen ITERATION_ENDED ?x] => destruct (emit_any listen ITERATION_ENDED x) as [w6 E6] end.
  rewrite E6. cbn [s_d s_c s_info s_w s_trace]. clear E6. cbv zeta.
  intro E. inversion E; subst; clear E. cbn [s_trace]. rewrite <- !app_assoc. cbn [app]. eexists; split; [reflexivity|].
  eexists; eexists; split; [reflexivity|]. intro l. cbn [logAll logUpdate i_res i_corr l_iters l_rNorm l_dNorm l_lambda app rows].
  destruct parameter; (eexists; split; reflexivity).
Qed.

Lemma rows_app : forall (rn : D -> T) (cn : C -> T) a b k, rows rn cn parameter k (a ++ b) = rows rn cn parameter k a ++ rows rn cn parameter (k + Z.of_nat (length a)) b.
Proof.
  induction a as [|[c d] a IH]; intros b k; cbn [app rows].
  - cbn [length]. rewrite Z.add_0_r. reflexivity.
  - rewrite IH. cbn [app length]. do 3 f_equal. lia.
Qed.

Lemma ends_app : forall a b : list (nlmsg * nlinfo T * C * D), ends (a ++ b) = ends a ++ ends b.
Proof. intros. apply flat_map_app. Qed.

Lemma nrLoop_log : forall fuel st iter rx ax rn s iter' s', loop fuel st iter rx ax rn s = Some (iter', s') ->
  exists b, s_trace s' = s_trace s ++ b /\ iter' = iter + Z.of_nat (length (ends b)) /\
    forall l, exists l', log l b = (l', rows (fun d => rnorm (res d)) cnorm parameter (l_iters l) (ends b)) /\ l_iters l' = l_iters l + Z.of_nat (length (ends b)).
Proof.
  induction fuel as [|fuel IH]; intros st iter rx ax rn s iter' s'; cbn [nrLoop]; destruct (nrCond gt st rn iter); try discriminate.
  - intro E; inversion E; subst. exists []. split; [symmetry; apply app_nil_r|]. split; [cbn; lia|]. intro l. exists l. cbn. split; [reflexivity|lia].
  - destruct (nrBody _ _ _ _ _ _ _ _ iter rx ax s) as [[[s1 rx1] ax1] rn1] eqn:B. intro E.
    apply nrBody_log in B as [b [Tb [c [d [Eb Lb]]]]]. apply IH in E as [b2 [T2 [I2 L2]]].
    exists (b ++ b2). split; [rewrite T2, Tb, app_assoc; reflexivity|]. rewrite ends_app, Eb. cbn [app length]. split; [lia|].
    intro l. destruct (Lb l) as [l1 [G1 K1]]. destruct (L2 l1) as [l2 [G2 K2]]. exists l2.
    rewrite logAll_app, G1, G2. rewrite K1. split; [reflexivity|]. lia.
  - intro E; inversion E; subst. exists []. split; [symmetry; apply app_nil_r|]. split; [cbn; lia|]. intro l. exists l. cbn. split; [reflexivity|lia].
Qed.

(** A solve with Newton's method, whatever the logger printed before and whatever other listeners do: a header, then a row for each
    iteration with the values of that iteration; then, only on success, the number of iterations, which is the number of rows. *)
Theorem C125_newton : forall st x c w s l, solve st x c w = Some s ->
  snd (log l (s_trace s)) =
    Header :: rows (fun d => rnorm (res d)) cnorm parameter 1 (ends (s_trace s)) ++
    (if i_success (s_info s) then [Iterations (Z.of_nat (length (ends (s_trace s))))] else []).
Proof.
  intros st x c w s l. unfold nrSolve. destruct (nrStart _ _ _ _ _ _ _ _ _) as [[[s0 rx] ax] rn] eqn:S0.
  destruct (loop _ st 0 rx ax rn s0) as [[iter s1]|] eqn:E; try discriminate. intro H; inversion H; subst s; clear H.
  assert (exists i, s_trace s0 = [(INIT, i, c, x)]) as [i T0].
  { unfold nrStart, emit, setInfo in S0. cbn [s_d s_c s_info s_w s_trace app] in S0. destruct idbc as [[add sync]|]; inversion S0; subst; cbn; eauto. }
  apply nrLoop_log in E as [b [Tb [Ib Lb]]]. rewrite T0 in Tb. rewrite Z.add_0_l in Ib.
  destruct (Lb (mkLogger 1 zero zero (l_lambda l))) as [l' [G _]]. cbn [l_iters] in G.
  unfold nrFinish, emit, setInfo. destruct (if iter =? nr_maxIter st then false else i_success (s_info s1)) eqn:Su; cbn [s_trace s_info i_success];
    rewrite Tb.
  - rewrite <- !app_assoc. cbn [app Logger_Model.logAll logUpdate]. rewrite logAll_app, G. cbn [Logger_Model.logAll logUpdate i_iter app snd].
    change (ends ((INIT, i, c, x) :: b ++ ?t)) with (ends (b ++ t)). rewrite ends_app. cbn [ends flat_map endOf app]. rewrite app_nil_r, <- Ib. reflexivity.
  - cbn [app Logger_Model.logAll logUpdate]. rewrite G. cbn [app snd]. rewrite app_nil_r. reflexivity.
Qed.
End Newton.
Print Assumptions C125_newton.

(** ** Newton's method with a subsidiary equation: the norms include the subsidiary function and the change of the load factor. *)
Section Subsidiary.
Context {T V J W : Type}.
Variables (tadd tsub tmul tdiv : T -> T -> T) (topp tsqrt : T -> T) (t1 inf zero : T) (gt : T -> T -> bool).
Variables (vadd vsub : V -> V -> V) (vopp : V -> V) (vscale : T -> V -> V) (vdot : V -> V -> T) (vzeroLike : V -> V).
Variables (res : V * T -> V) (jacobian : W -> V * T -> J) (lsolve : J -> V -> V) (update : V -> V -> V).
Variables (idbc : option ((W -> V * T -> V) * (V * T -> V))) (listen : nlmsg -> nlinfo T -> V -> V * T -> W -> W).
Variable subsidiary : V * T -> subArgs T V -> subArgs T V.
Notation solve := (nrsSolve tadd tsub tmul tdiv topp tsqrt t1 inf gt vadd vsub vopp vscale vdot vzeroLike (fun _ => res) jacobian lsolve update idbc listen subsidiary).
Notation loop := (nrsLoop tadd tsub tmul tdiv topp tsqrt gt vadd vsub vopp vscale vdot (fun _ => res) jacobian lsolve update idbc listen subsidiary).
Notation body := (nrsBody tadd tsub tmul tdiv topp tsqrt vadd vsub vopp vscale vdot (fun _ => res) jacobian lsolve update idbc listen subsidiary).
Notation log := (@logAll T V (V * T) zero (Some snd)).

(** The rows expected after a solution with load factor [lam]: in each iteration the load factor changes by some [dl], and the
    subsidiary function is evaluated at the new solution. *)
Fixpoint subsidiaryRows (lam : T) (k : Z) (l : list (V * (V * T))) (out : list (logLine T)) : Prop :=
  match l, out with
  | [], [] => True
  | (c, d) :: l, row :: out =>
      (exists dl a, snd d = tadd lam dl /\
         row = Row k (tsqrt (tadd (vdot (res d) (res d)) (tmul (a_f (subsidiary d a)) (a_f (subsidiary d a)))))
                     (tsqrt (tadd (vdot c c) (tmul dl dl))) (Some (snd d))) /\
      subsidiaryRows (snd d) (k + 1) l out
  | _, _ => False
  end.

Lemma subsidiaryRows_length : forall l lam k out, subsidiaryRows lam k l out -> length out = length l.
Proof. induction l as [|[c d] l IH]; intros lam k [|row out] H; cbn in *; try tauto. f_equal. eapply IH. apply H. Qed.

Lemma nrsBody_log : forall iter fext0 rx ax a s s' rx' ax' a' rn', body iter fext0 rx ax a s = (s', rx', ax', a', rn') ->
  exists b, s_trace s' = s_trace s ++ b /\ exists c, ends b = [(c, s_d s')] /\
    forall l, exists l' out, log l b = (l', out) /\ subsidiaryRows (snd (s_d s)) (l_iters l) [(c, s_d s')] out /\ l_iters l' = l_iters l + 1.
Proof.
  intros iter fext0 rx ax a s s' rx' ax' a' rn'. destruct s as [d0 c0 i0 w0 t0]. unfold nrsBody.
  destruct (emit_any listen ITERATION_STARTED (mkNR d0 c0 i0 w0 t0)) as [w1 E1]. rewrite E1. cbn [s_d s_c s_info s_w s_trace]. clear E1.
  destruct (subsidiaryCorrection _ _ _ _ _ _ _ _ _ _ _ _ _) as [dD dl].
  match goal with |- context [emit listen CORRECTION_UPDATED ?x] => destruct (emit_any listen CORRECTION_UPDATED x) as [w2 E2] end.
  rewrite E2. cbn [s_d s_c s_info s_w s_trace]. clear E2.
  set (d1 := (update (fst d0) dD, tadd (snd d0) dl)).
  set (a1 := mkArgs (a_stepSize a) (vadd (a_DD a) dD) (tadd (a_Dlambda a) dl) (a_f a) (a_dfdDD a) (a_dfdDlambda a) (a_step a)).
  assert (exists d2, match idbc with None => d1 | Some (_, sync) => (sync d1, snd d1) end = d2 /\ snd d2 = tadd (snd d0) dl) as [d2 [Ed Sd]].
  { destruct idbc as [[force sync]|]; eexists; split; reflexivity. }
  rewrite Ed. clearbody a1 d1. clear Ed.
  match goal with |- context [emit listen SOLUTION_CHANGED ?x] => destruct (emit_any listen SOLUTION_CHANGED x) as [w3 E3] end.
  rewrite E3. clear E3.
  match goal with |- context [emit listen CORRECTIONNORM_UPDATED ?x] => destruct (emit_any listen CORRECTIONNORM_UPDATED x) as [w4 E4] end.
  rewrite E4. cbn [s_d s_c s_info s_w s_trace]. clear E4.
  match goal with |- context [emit listen RESIDUALNORM_UPDATED ?x] => destruct (emit_any listen RESIDUALNORM_UPDATED x) as [w5 E5] end.
  rewrite E5. unfold setInfo. cbn [s_d s_c s_info s_w s_trace]. clear E5.
  match goal with |- context [emit listen ITERATION_ENDED ?x] => destruct (emit_any listen ITERATION_ENDED x) as [w6 E6] end.
  rewrite E6. cbn [s_d s_c s_info s_w s_trace]. clear E6. cbv zeta.
  intro E. inversion E; subst; clear E. cbn [s_trace]. rewrite <- !app_assoc. cbn [app]. eexists; split; [reflexivity|].
  eexists; split; [reflexivity|]. intro l. cbn [logAll logUpdate i_res i_corr l_iters l_rNorm l_dNorm l_lambda app].
  eexists; eexists; split; [reflexivity|]. split; [|reflexivity]. cbn [subsidiaryRows s_d]. split; [|exact I].
  exists dl, a1. split; [exact Sd|reflexivity].
Qed.

Lemma nrsLoop_log : forall fuel tol maxIter iter fext0 rx ax a rn s iter' s' a', loop fuel tol maxIter iter fext0 rx ax a rn s = Some (iter', s', a') ->
  exists b, s_trace s' = s_trace s ++ b /\ iter' = iter + Z.of_nat (length (ends b)) /\
    forall l, exists l' out, log l b = (l', out) /\ subsidiaryRows (snd (s_d s)) (l_iters l) (ends b) out.
Proof.
  induction fuel as [|fuel IH]; intros tol maxIter iter fext0 rx ax a rn s iter' s' a'; cbn [nrsLoop]; destruct (gt rn tol && (iter <? maxIter)); try discriminate.
  - intro E; inversion E; subst. exists []. split; [symmetry; apply app_nil_r|]. split; [cbn; lia|]. intro l. exists l, []. cbn. auto.
  - destruct (body iter fext0 rx ax a s) as [[[[s1 rx1] ax1] a1] rn1] eqn:B. intro E.
    apply nrsBody_log in B as [b [Tb [c [Eb Lb]]]]. apply IH in E as [b2 [T2 [I2 L2]]].
    exists (b ++ b2). split; [rewrite T2, Tb, app_assoc; reflexivity|]. unfold ends in *. rewrite flat_map_app, Eb. cbn [app length]. split; [lia|].
    intro l. destruct (Lb l) as [l1 [o1 [G1 [R1 K1]]]]. destruct (L2 l1) as [l2 [o2 [G2 R2]]]. exists l2, (o1 ++ o2).
    rewrite logAll_app, G1, G2. split; [reflexivity|]. destruct o1 as [|row [|? ?]]; cbn [subsidiaryRows app] in *; try tauto. rewrite K1 in R2. tauto.
  - intro E; inversion E; subst. exists []. split; [symmetry; apply app_nil_r|]. split; [cbn; lia|]. intro l. exists l, []. cbn. auto.
Qed.

Theorem C125_subsidiary : forall tol maxIter req a c w s a' l, solve tol maxIter req a c w = Some (s, a') -> exists out,
  subsidiaryRows (snd req) 1 (ends (s_trace s)) out /\
  snd (log l (s_trace s)) =
    Header :: out ++ (if i_success (s_info s) then [Iterations (Z.of_nat (length (ends (s_trace s))))] else []).
Proof.
  intros tol maxIter req a c w s a' l. unfold nrsSolve.
  destruct (emit_any listen INIT (mkNR req c (mkInfo false inf inf (-1)) w [])) as [w1 E1]. rewrite E1. unfold setInfo. cbn [s_d s_c s_info s_w s_trace app]. clear E1. cbv zeta.
  match goal with |- context [loop ?f tol maxIter 0 ?g ?rx ?ax ?a1 ?rn ?s0] => destruct (loop f tol maxIter 0 g rx ax a1 rn s0) as [[[iter s1] a2]|] eqn:E; try discriminate end.
  intro H; inversion H; subst; clear H.
  apply nrsLoop_log in E as [b [Tb [Ib Lb]]]. cbn [s_trace s_d] in *. rewrite Z.add_0_l in Ib.
  destruct (Lb (mkLogger 1 zero zero (l_lambda l))) as [l' [out [G Rw]]]. cbn [l_iters] in Rw. exists out.
  unfold nrFinish, emit, setInfo. destruct (if iter =? nr_maxIter (mkNRSettings tol maxIter 0) then false else i_success (s_info s1)) eqn:Su; cbn [s_trace s_info i_success];
    rewrite Tb.
  - rewrite <- !app_assoc. cbn [app Logger_Model.logAll logUpdate]. rewrite logAll_app, G. cbn [Logger_Model.logAll logUpdate i_iter app snd].
    change (ends (?e :: b ++ ?t)) with (endOf e ++ ends (b ++ t)). unfold ends in *. rewrite flat_map_app. cbn [flat_map endOf app]. rewrite app_nil_r, <- Ib. auto.
  - cbn [app Logger_Model.logAll logUpdate]. rewrite G. cbn [app snd]. rewrite app_nil_r. auto.
Qed.
End Subsidiary.

(** ** Trust region *)
Section TrustRegion.
Context {T V H X : Type}.
Variable N : trNum T.
Variables (energy : X -> T) (gradient : X -> V) (hessian : X -> H).
Variables (vnorm : V -> T) (vdot : V -> V -> T) (vadd : V -> V -> V) (vscale : T -> V -> V) (vneg : V -> V) (vzeroLike : V -> V) (hmul : H -> V -> V).
Variable update : X -> V -> X.
Variable rnd : H -> T -> V.
Variable inner : V -> H -> V -> tcgInfo T -> option (V * tcgInfo T).
Variables (zero : T) (parameter : option (X -> T)).
Notation solve := (trSolve N energy gradient hessian vnorm vdot vadd vscale vneg vzeroLike hmul update rnd inner).
Notation loop := (trLoop N energy gradient hessian vnorm vdot vadd vscale vneg vzeroLike hmul update rnd inner).
Notation body := (trBody N energy gradient hessian vnorm vdot vadd vscale vneg vzeroLike hmul update rnd inner).
Notation log := (@logAll T V X zero parameter).

(** An iteration: accepted, the solution it starts from and its step.  The table that is printed: a rejected iteration repeats the values
    of the row before (zeros in the first row); an accepted one shows the gradient norm at the solution it STARTED from. *)
Fixpoint trRows (k : Z) (r c lam : T) (l : list (bool * X * V)) : list (logLine T) :=
  match l with
  | [] => []
  | (acc, x, eta) :: l =>
      let r' := if acc then vnorm (gradient x) else r in
      let c' := if acc then vnorm eta else c in
      let lam' := if acc then match parameter with None => lam | Some p => p (update x eta) end else lam in
      Row k r' c' (match parameter with None => None | Some _ => Some lam' end) :: trRows (k + 1) r' c' lam' l
  end.

Definition startOf (e : nlmsg * nlinfo T * V * X) : list X := match e with (ITERATION_STARTED, _, _, x) => [x] | _ => [] end.
Definition stepOf (e : nlmsg * nlinfo T * V * X) : list V := match e with (CORRECTION_UPDATED, _, v, _) => [v] | _ => [] end.
Definition changeOf (e : nlmsg * nlinfo T * V * X) : list (V * X) := match e with (SOLUTION_CHANGED, _, v, x) => [(v, x)] | _ => [] end.
(** The iterations agree with the messages of the solver. *)
Definition iterationsOf (t : list (nlmsg * nlinfo T * V * X)) (its : list (bool * X * V)) : Prop :=
  flat_map startOf t = map (fun it => snd (fst it)) its /\ flat_map stepOf t = map snd its /\
  flat_map changeOf t = map (fun it => (snd it, update (snd (fst it)) (snd it))) (filter (fun it => fst (fst it)) its).

Lemma iterationsOf_app : forall t1 t2 i1 i2, iterationsOf t1 i1 -> iterationsOf t2 i2 -> iterationsOf (t1 ++ t2) (i1 ++ i2).
Proof.
  intros t1 t2 i1 i2 [A [B C]] [A2 [B2 C2]]. unfold iterationsOf. rewrite !flat_map_app, !map_app, filter_app, map_app. rewrite A, B, C, A2, B2, C2. auto.
Qed.

Lemma trBody_log : forall st s s', body st s = Some s' -> u_gradNorm s = vnorm (gradient (u_x s)) ->
  exists b it, map fst (u_trace s') = map fst (u_trace s) ++ b /\ iterationsOf b [it] /\ u_gradNorm s' = vnorm (gradient (u_x s')) /\ u_outer s' = u_outer s + 1 /\
    forall l, exists l', log l b = (l', trRows (l_iters l) (l_rNorm l) (l_dNorm l) (l_lambda l) [it]) /\ l_iters l' = l_iters l + 1 /\
      forall k its, trRows k (l_rNorm l) (l_dNorm l) (l_lambda l) (it :: its) =
                    trRows k (l_rNorm l) (l_dNorm l) (l_lambda l) [it] ++ trRows (k + 1) (l_rNorm l') (l_dNorm l') (l_lambda l') its.
Proof.
  intros st s s' E G. unfold trBody in E.
  change (trPropose N gradient hessian vdot vscale vzeroLike hmul rnd inner st (tremit ITERATION_STARTED s)) with
         (trPropose N gradient hessian vdot vscale vzeroLike hmul rnd inner st s) in E.
  destruct (trPropose _ _ _ _ _ _ _ _ _ st s) as [[[eta Heta] inf]|]; try discriminate.
  destruct (trDecide _ _ _ _ _ _ _ _ _ _ _ _) as [D acc]. cbv zeta in E.
  destruct acc; inversion E; subst; clear E; cbn [tremit u_trace u_x u_gradNorm u_outer u_eta u_info u_inner]; rewrite <- ?app_assoc; cbn [app].
  - eexists. exists (true, u_x s, eta). rewrite map_app. split; [reflexivity|]. split; [repeat split; reflexivity|]. split; [reflexivity|]. split; [reflexivity|].
    intro l. cbn [map fst logAll logUpdate i_res i_corr l_iters l_rNorm l_dNorm l_lambda app trRows]. rewrite G.
    eexists. split; [reflexivity|]. split; [reflexivity|]. intros k its. cbn [app l_rNorm l_dNorm l_lambda]. reflexivity.
  - eexists. exists (false, u_x s, eta). rewrite map_app. split; [reflexivity|]. split; [repeat split; reflexivity|]. split; [reflexivity|]. split; [reflexivity|].
    intro l. cbn [map fst logAll logUpdate i_res i_corr l_iters l_rNorm l_dNorm l_lambda app trRows].
    eexists. split; [reflexivity|]. split; [reflexivity|]. intros k its. cbn [app l_rNorm l_dNorm l_lambda]. reflexivity.
Qed.

Lemma trLoop_log : forall fuel st s r s', loop fuel st s = TrDone r s' -> u_gradNorm s = vnorm (gradient (u_x s)) ->
  exists b its, map fst (u_trace s') = map fst (u_trace s) ++ b /\ iterationsOf b its /\ u_outer s' = u_outer s + Z.of_nat (length its) /\
    forall l, exists l', log l b = (l', trRows (l_iters l) (l_rNorm l) (l_dNorm l) (l_lambda l) its).
Proof.
  induction fuel as [|fuel IH]; intros st s r s'; cbn [trLoop]; destruct (trStop N st s); try discriminate; intros E G.
  - inversion E; subst. exists [], []. rewrite app_nil_r. split; [reflexivity|]. split; [repeat split|]. split; [cbn; lia|]. intro l. exists l. reflexivity.
  - inversion E; subst. exists [], []. rewrite app_nil_r. split; [reflexivity|]. split; [repeat split|]. split; [cbn; lia|]. intro l. exists l. reflexivity.
  - destruct (body st s) as [s1|] eqn:B; try discriminate. apply trBody_log in B as [b [it [Tb [Ib [G1 [O1 Lb]]]]]]; auto.
    apply IH in E as [b2 [its [T2 [I2 [O2 L2]]]]]; auto.
    exists (b ++ b2), (it :: its). split; [rewrite T2, Tb, app_assoc; reflexivity|]. split; [apply (iterationsOf_app b b2 [it] its); auto|].
    split; [cbn [length]; lia|]. intro l. destruct (Lb l) as [l1 [L1 [K1 Ap]]]. destruct (L2 l1) as [l2 L3]. exists l2.
    rewrite logAll_app, L1, L3, (Ap (l_iters l) its), K1. reflexivity.
Qed.

(** What is printed for the trust-region solver: the part of the expectation that holds is the number of rows, the last line and the steps of
    accepted iterations. *)
Theorem C125_trust_region_partial : forall st inf x eta0 ii r s l, solve st inf x eta0 ii = TrDone r s -> exists its,
  iterationsOf (map fst (u_trace s)) its /\
  snd (log l (map fst (u_trace s))) =
    Header :: trRows 1 zero zero (l_lambda l) its ++ (if i_success (u_info s) then [Iterations (Z.of_nat (length its))] else []).
Proof.
  intros st inf x eta0 ii r s l. unfold trSolve. destruct (loop _ st _) as [r1 s1| |] eqn:E; intro K; inversion K; subst; clear K.
  apply trLoop_log in E as [b [its [Tb [Ib [Ob Lb]]]]]; [|reflexivity]. cbn [trStart u_trace u_outer tremit map fst app] in Tb, Ob.
  destruct (Lb (mkLogger 1 zero zero (l_lambda l))) as [l' G]. cbn [l_iters l_rNorm l_dNorm l_lambda] in G.
  exists its. unfold trFinish.
  assert (forall e, iterationsOf [(FINISHED_SUCESSFULLY, e, u_eta s1, u_x s1)] []) as F by (intro; repeat split).
  destruct Ib as [I1 [I2 I3]].
  destruct r; cbn [tremit u_trace u_info i_success]; rewrite ?map_app, Tb; cbn [map fst app Logger_Model.logAll logUpdate];
    (split; [|rewrite ?logAll_app, G; cbn [Logger_Model.logAll logUpdate i_iter app snd]; rewrite ?Ob, ?Z.add_0_l; rewrite ?app_nil_r; reflexivity]);
    unfold iterationsOf; cbn [flat_map startOf stepOf changeOf app]; rewrite ?flat_map_app; cbn [flat_map startOf stepOf changeOf app]; rewrite ?app_nil_r; auto.
Qed.
End TrustRegion.
Print Assumptions C125_subsidiary.
Print Assumptions C125_trust_region_partial.

(** Energy x², start 5, accepted after one iteration at the solution 0: the row shows the gradient norm 10 of the start, not the 0 of the solution. *)
Local Open Scope float_scope.
Theorem C125_trust_region_refuted : exists energy gradient hessian st x, trSetup NF st = true /\
  match solveF energy gradient hessian st x info0 with
  | TrDone r s => i_success (u_info s) = true /\ length (ends (map fst (u_trace s))) = 1%nat /\ PrimFloat.abs (gradient (u_x s)) = 0 /\
      exists c, snd (logAll 0 None (mkLogger 0 0 0 0) (map fst (u_trace s))) = [Header; Row 1 10 c None; Iterations 1]
  | _ => False end.
Proof.
  exists (fun x => x * x), (fun x => 2 * x), (fun _ => 2), (settingsF 1000 1000000), 5.
  split; [vm_compute; reflexivity|].
  match goal with |- match ?t with _ => _ end => let v := eval vm_compute in t in change t with v end. cbv beta iota.
  split; [reflexivity|]. split; [reflexivity|]. split; [vm_compute; reflexivity|]. eexists. vm_compute. reflexivity.
Qed.

(** The energy is NaN away from the start, so the step is rejected: the row shows zero norms although the gradient norm is 1 and the step 1. *)
Theorem C125_rejected_refuted : exists energy gradient hessian st x, trSetup NF st = true /\
  match solveF energy gradient hessian st x info0 with
  | TrDone r s => PrimFloat.abs (gradient (u_x s)) = 1 /\ i_corr (u_info s) = 1 /\
      snd (logAll 0 None (mkLogger 0 0 0 0) (map fst (u_trace s))) = [Header; Row 1 0 0 None]
  | _ => False end.
Proof.
  exists (fun x => PrimFloat.sqrt (- (x * x))), (fun _ => 1), (fun _ => 1), (settingsF 1 1000000), 0.
  split; [vm_compute; reflexivity|].
  match goal with |- match ?t with _ => _ end => let v := eval vm_compute in t in change t with v end. cbv beta iota.
  split; [vm_compute; reflexivity|]. split; vm_compute; reflexivity.
Qed.
Print Assumptions C125_trust_region_refuted.
Print Assumptions C125_rejected_refuted.

(** ** Examples *)
(** A linear residual x - 4 over the integers with the wrong tangent 2: the iteration stalls at 5 because of the rounded division. *)
Local Open Scope Z_scope.
Definition exampleSolve : option (@nrState Z Z Z unit) :=
  nrSolve Z.gtb 1000 (fun _ x => x - 4) (fun _ _ => 2) Z.abs Z.abs (fun j r => - (r / j)) Z.add None (fun _ _ _ _ w => w)
    (mkNRSettings 0 20 0) 12 0 tt.
Example C125_example : match exampleSolve with
  | Some s => snd (logAll 0 (Some (fun d => 10 * d)) (mkLogger 7 7 7 7) (s_trace s)) =
      [Header; Row 1 4 4 (Some 80); Row 2 2 2 (Some 60); Row 3 1 1 (Some 50); Row 4 1 0 (Some 50); Row 5 1 0 (Some 50)] ++
      map (fun k => Row k 1 0 (Some 50)) [6;7;8;9;10;11;12;13;14;15;16;17;18;19;20] /\ i_success (s_info s) = false
  | None => False end.
Proof. vm_compute. auto. Qed.
Example C125_example_success : match nrSolve Z.gtb 1000 (fun _ x => x - 4) (fun _ _ => 1) Z.abs Z.abs (fun j r => - (r / j)) Z.add None (fun _ _ _ _ w => w)
    (mkNRSettings 0 20 2) 12 0 tt with
  | Some s => snd (logAll 0 None (mkLogger 7 7 7 7) (s_trace s)) = [Header; Row 1 0 8 None; Row 2 0 0 None; Iterations 2]
  | None => False end.
Proof. vm_compute. reflexivity. Qed.

(** ** C126 *)
Definition msg_eqb (a b : nlmsg) : bool :=
  match a, b with
  | INIT, INIT | ITERATION_STARTED, ITERATION_STARTED | ITERATION_ENDED, ITERATION_ENDED | RESIDUALNORM_UPDATED, RESIDUALNORM_UPDATED
  | CORRECTIONNORM_UPDATED, CORRECTIONNORM_UPDATED | CORRECTION_UPDATED, CORRECTION_UPDATED | SOLUTION_CHANGED, SOLUTION_CHANGED
  | FINISHED_SUCESSFULLY, FINISHED_SUCESSFULLY => true
  | _, _ => false
  end.

(** For every history of messages: the function gets the states of the messages of its kind, each once and in order, and nothing else. *)
Theorem C126_calls : forall {M S} (eqb : M -> M -> bool) (message : M) (t : list (M * S)),
  (forall a b, eqb a b = true <-> a = b) ->
  (forall s, In s (genericCalls eqb message t) <-> In (message, s) t) /\
  (forall t1 t2 s, t = t1 ++ (message, s) :: t2 -> genericCalls eqb message t = genericCalls eqb message t1 ++ s :: genericCalls eqb message t2) /\
  (forall t1 t2 m s, m <> message -> t = t1 ++ (m, s) :: t2 -> genericCalls eqb message t = genericCalls eqb message t1 ++ genericCalls eqb message t2).
Proof.
  intros M S eqb message t Q.
  assert (forall a b, genericCalls eqb message (a ++ b : list (M * S)) = genericCalls eqb message a ++ genericCalls eqb message b) as A.
  { induction a as [|[m s] a IH]; intro b; cbn [app genericCalls]; auto. destruct (eqb message m); rewrite IH; reflexivity. }
  split; [|split].
  - induction t as [|[m s] t IH]; intro s'; cbn [genericCalls In]; [tauto|]. destruct (eqb message m) eqn:E; cbn [In]; rewrite IH.
    + apply Q in E. subst. split; intros [K|K]; auto. * subst; auto. * inversion K; auto.
    + split; [tauto|]. intros [K|K]; auto. inversion K; subst. assert (eqb message message = true) by (apply Q; reflexivity). congruence.
  - intros t1 t2 s ->. rewrite A. cbn [genericCalls]. replace (eqb message message) with true by (symmetry; apply Q; reflexivity). reflexivity.
  - intros t1 t2 m s Nm ->. rewrite A. cbn [genericCalls]. destruct (eqb message m) eqn:E; [|reflexivity]. apply Q in E. congruence.
Qed.

(** Subscribed to a Newton solver: once for INIT, once per iteration for the messages of an iteration, and for the last message on success only. *)
Theorem C126_newton : forall {T D R J C W : Type} gt (inf : T) (residual : W -> D -> R) (jacobian : W -> D -> J) rnorm (cnorm : C -> T) lsolve update idbc listen st x c w,
  exists s, nrSolve gt inf residual jacobian rnorm cnorm lsolve update idbc listen st x c w = Some s /\
  forall m, length (genericCalls msg_eqb m (map (fun e => (msgOf e, (infoOf e, corrOf e, solOf e))) (s_trace s))) =
    match m with
    | INIT => 1%nat
    | FINISHED_SUCESSFULLY => if i_success (s_info s) then 1%nat else 0%nat
    | _ => Z.to_nat (i_iter (s_info s))
    end.
Proof.
  intros. destruct (C19_messages gt inf residual jacobian rnorm cnorm lsolve update idbc listen st x c w) as [s [E [P _]]]. exists s. split; auto.
  intro m.
  assert (forall t : list (nlmsg * nlinfo T * C * D), length (genericCalls msg_eqb m (map (fun e => (msgOf e, (infoOf e, corrOf e, solOf e))) t)) = length (filter (msg_eqb m) (map msgOf t))) as L.
  { induction t as [|e t IH]; cbn [map genericCalls filter]; auto. destruct (msg_eqb m (msgOf e)); cbn [length]; rewrite ?IH; reflexivity. }
  rewrite L, P. unfold protocol. cbn [filter]. rewrite filter_app.
  assert (forall k n, length (filter (msg_eqb m) iterationBlock) = n -> length (filter (msg_eqb m) (concat (repeat iterationBlock k))) = (k * n)%nat) as B.
  { induction k as [|k IH]; intros n Hn; cbn [repeat concat]; auto. rewrite filter_app, app_length, (IH n Hn), Hn. reflexivity. }
  destruct m; cbn [msg_eqb length]; rewrite ?app_length; erewrite B by reflexivity; destruct (i_success (s_info s)); cbn; lia.
Qed.
Print Assumptions C126_calls.
Print Assumptions C126_newton.
