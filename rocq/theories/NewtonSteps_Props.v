(** C22: what the increments handed to the subsidiary function have to do with the solution. *)

From Coq Require Import List ZArith Bool Lia.
From Verif Require Import Newton_Model Newton_Spec PathFunctions_Model.
Import ListNotations.
Local Open Scope Z_scope.

Section NRS.
Context {T V J W : Type}.
Variables (tadd tsub tmul tdiv : T -> T -> T) (topp tsqrt : T -> T) (t1 inf : T).
Variable gt : T -> T -> bool.
Variables (vadd vsub : V -> V -> V) (vopp : V -> V) (vscale : T -> V -> V) (vdot : V -> V -> T) (vzeroLike : V -> V).
Variable residual : W -> V * T -> V.
Variable jacobian : W -> V * T -> J.
Variable lsolve : J -> V -> V.
Variable update : V -> V -> V.
Variable idbc : option ((W -> V * T -> V) * (V * T -> V)).
Variable listen : nlmsg -> nlinfo T -> V -> V * T -> W -> W.
Variable subsidiary : V * T -> subArgs T V -> subArgs T V.

Notation body := (nrsBody tadd tsub tmul tdiv topp tsqrt vadd vsub vopp vscale vdot residual jacobian lsolve update idbc listen subsidiary).
Notation loop := (nrsLoop tadd tsub tmul tdiv topp tsqrt gt vadd vsub vopp vscale vdot residual jacobian lsolve update idbc listen subsidiary).
Notation solve := (nrsSolve tadd tsub tmul tdiv topp tsqrt t1 inf gt vadd vsub vopp vscale vdot vzeroLike residual jacobian lsolve update idbc listen subsidiary).

(** Solution and load factor after an increment of both; prescribed displacements follow the load factor *)
Definition advance (d : V * T) (c : V * T) : V * T :=
  let x := update (fst d) (fst c) in
  let p := tadd (snd d) (snd c) in
  (match idbc with None => x | Some (_, sync) => sync (x, p) end, p).

Hypothesis keepsIncrements : forall d a, a_DD (subsidiary d a) = a_DD a /\ a_Dlambda (subsidiary d a) = a_Dlambda a.

Lemma body_moves iter fext0 rx ax a s s' rx' ax' a' rn' : body iter fext0 rx ax a s = (s', rx', ax', a', rn') ->
  exists c, s_d s' = advance (s_d s) c /\ a_DD a' = vadd (a_DD a) (fst c) /\ a_Dlambda a' = tadd (a_Dlambda a) (snd c) /\
    corrections (s_trace s') = corrections (s_trace s) ++ [fst c] /\ i_iter (s_info s') = iter + 1.
Proof.
  unfold nrsBody. cbv zeta. destruct (subsidiaryCorrection _ _ _ _ _ _ _ _ _ _ _ _ _) as (dD, dl). intros E. inversion E; subst; clear E.
  exists (dD, dl). cbn [emit setInfo s_d s_info s_trace i_iter fst snd].
  match goal with |- context [subsidiary ?d ?a1] => destruct (keepsIncrements d a1) as (-> & ->) end.
  split; [unfold advance; cbn; destruct idbc as [(f, sync)|]; reflexivity|]. split; [reflexivity|]. split; [reflexivity|]. split; [|reflexivity].
  unfold corrections. cbn. rewrite !filter_app, !map_app. cbn. rewrite !app_nil_r. reflexivity.
Qed.

Lemma loop_moves tol maxIter fext0 fuel : forall iter rx ax a rn s iter' s' a',
  loop fuel tol maxIter iter fext0 rx ax a rn s = Some (iter', s', a') ->
  exists cs, s_d s' = fold_left advance cs (s_d s) /\ a_DD a' = fold_left vadd (map fst cs) (a_DD a) /\
    a_Dlambda a' = fold_left tadd (map snd cs) (a_Dlambda a) /\ corrections (s_trace s') = corrections (s_trace s) ++ map fst cs /\
    iter' = iter + Z.of_nat (length cs).
Proof.
  induction fuel as [|fuel IH]; intros iter rx ax a rn s iter' s' a'; cbn [nrsLoop].
  - destruct (gt rn tol && (iter <? maxIter)); [discriminate|]. intros E. inversion E; subst. exists []. cbn. rewrite app_nil_r, Z.add_0_r. auto.
  - destruct (gt rn tol && (iter <? maxIter)).
    + destruct (body iter fext0 rx ax a s) as ((((s1, rx1), ax1), a1), rn1) eqn:Eb. apply body_moves in Eb as (c & E1 & E2 & E3 & E4 & _).
      intros E. apply IH in E as (cs & F1 & F2 & F3 & F4 & F5). exists (c :: cs).
      cbn [fold_left map length]. rewrite <- E1, <- E2, <- E3. repeat split; auto; [|lia]. rewrite F4, E4, <- app_assoc. reflexivity.
    + intros E. inversion E; subst. exists []. cbn. rewrite app_nil_r, Z.add_0_r. auto.
Qed.

(** C22: the increments of displacements and load factor that the subsidiary function sees are those by which the solution and the load
    factor have moved since the solver was called *)
Theorem C22_increments tol maxIter req a c w s a' : solve tol maxIter req a c w = Some (s, a') ->
  exists cs, s_d s = fold_left advance cs req /\
    a_DD a' = fold_left vadd (map fst cs) (a_DD a) /\ a_Dlambda a' = fold_left tadd (map snd cs) (a_Dlambda a) /\
    snd (s_d s) = fold_left tadd (map snd cs) (snd req) /\
    corrections (s_trace s) = map fst cs /\ i_iter (s_info s) = Z.of_nat (length cs).
Proof.
  unfold nrsSolve. cbv zeta. set (s00 := emit listen INIT _).
  assert (A : s_d s00 = req /\ corrections (s_trace s00) = []) by (split; reflexivity). destruct A as (A1 & A2). clearbody s00.
  destruct (loop _ _ _ _ _ _ _ _ _ _) as [((iter, s1), a1)|] eqn:E; [|discriminate].
  apply loop_moves in E as (cs & F1 & F2 & F3 & F4 & F5). cbn [setInfo s_d s_trace] in F1, F4.
  intros G. inversion G; subst s a'; clear G. exists cs.
  destruct (keepsIncrements req a) as (K1 & K2). rewrite A1 in F1. rewrite K1 in F2. rewrite K2 in F3. rewrite A2 in F4. cbn in F4.
  assert (N : forall st, s_d (nrFinish listen st iter s1) = s_d s1 /\ corrections (s_trace (nrFinish listen st iter s1)) = corrections (s_trace s1) /\
    i_iter (s_info (nrFinish listen st iter s1)) = iter).
  { intros st. unfold nrFinish. destruct (if iter =? nr_maxIter st then false else i_success (s_info s1)); cbn; repeat split.
    unfold corrections. rewrite filter_app, map_app. cbn. apply app_nil_r. }
  destruct (N (mkNRSettings tol maxIter 0)) as (-> & -> & ->). rewrite F1, F4, F5.
  repeat split; auto. clear. revert req. induction cs as [|x cs IH]; intros req; [reflexivity|]. cbn. rewrite IH. reflexivity.
Qed.
End NRS.
Print Assumptions C22_increments.

(** With addition of a group and unconstrained updates: what has been added to the solution is what has been added to the increments *)
Corollary C22_increments_group {J W : Type} tsub tmul tdiv topp tsqrt t1 inf gt vscale vdot vzeroLike (residual : W -> Z * Z -> Z) (jacobian : W -> Z * Z -> J)
  lsolve vsub vopp listen subsidiary tol maxIter req a c w s a' :
  (forall d a, a_DD (subsidiary d a) = a_DD a /\ a_Dlambda (subsidiary d a) = a_Dlambda a) ->
  nrsSolve Z.add tsub tmul tdiv topp tsqrt t1 inf gt Z.add vsub vopp vscale vdot vzeroLike residual jacobian lsolve Z.add None listen subsidiary tol maxIter req a c w
    = Some (s, a') ->
  fst (s_d s) - fst req = a_DD a' - a_DD a /\ snd (s_d s) - snd req = a_Dlambda a' - a_Dlambda a.
Proof.
  intros K E. apply C22_increments in E as (cs & E1 & E2 & E3 & E4 & _); [|exact K].
  assert (G : forall l x y, fold_left Z.add l x - x = fold_left Z.add l y - y).
  { induction l as [|z l IH]; intros x y; cbn; [lia|]. specialize (IH (x + z) (y + z)). lia. }
  rewrite E2, E3, E4. split; [|apply G].
  rewrite (G _ (a_DD a) (fst req)). rewrite E1. f_equal. clear. revert req. induction cs as [|x cs IH]; intros req; [reflexivity|]. cbn. rewrite IH. reflexivity.
Qed.

(** The three path-following functions keep the increments, so C22_increments applies to them *)
Theorem C22_functions_keep {T : Type} (t0 t1 : T) tadd tsub tmul tdiv tsqrt idbcSync req (a : subArgs T (list T)) :
  (forall s, let b := arcEval t0 tadd tsub tmul tdiv tsqrt idbcSync s req a in a_DD b = a_DD a /\ a_Dlambda b = a_Dlambda a) /\
  (forall s, let b := lcsEval t0 t1 tsub s req a in a_DD b = a_DD a /\ a_Dlambda b = a_Dlambda a) /\
  (forall idx s, let b := dcEval t0 tadd tsub tmul tdiv tsqrt idx s req a in a_DD b = a_DD a /\ a_Dlambda b = a_Dlambda a).
Proof.
  split; [|split]; intros; subst b; try (split; reflexivity). unfold arcEval. cbv zeta. destruct (arc_computed s); split; reflexivity.
Qed.
Print Assumptions C22_functions_keep.
