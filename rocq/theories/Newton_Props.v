(** Properties C16, C17, C18, C19, C22 of the Newton-Raphson solvers. *)

From Coq Require Import List ZArith Bool Lia Floats.
From Verif Require Import Newton_Model Newton_Spec Newton_Proofs.
Import ListNotations.
Local Open Scope Z_scope.

Section NR.
Context {T D R J C W : Type}.
Variable gt : T -> T -> bool.
Variable inf : T.
Variable residual : W -> D -> R.
Variable jacobian : W -> D -> J.
Variable rnorm : R -> T.
Variable cnorm : C -> T.
Variable lsolve : J -> R -> C.
Variable update : D -> C -> D.
Variable idbc : option ((W -> D -> R -> R) * (D -> D)).
Variable listen : nlmsg -> nlinfo T -> C -> D -> W -> W.

Notation solve := (nrSolve gt inf residual jacobian rnorm cnorm lsolve update idbc listen).

(** ** C16: bounded number of iterations *)
Theorem C16_bounded_iterations : forall st st' x c w, nrSetup st = Some st' ->
  exists s, solve st' x c w = Some s /\
    Z.max 0 (nr_minIter st) <= i_iter (s_info s) <= Z.max 0 (nr_maxIter st) /\
    Z.of_nat (length (corrections (s_trace s))) = i_iter (s_info s).
Proof.
  intros st st' x c w E. unfold nrSetup in E. destruct (nr_maxIter st <? nr_minIter st) eqn:L; inversion E; subst. apply Z.ltb_ge in L.
  destruct (nrSolve_spec gt inf residual jacobian rnorm cnorm lsolve update idbc listen st' x c w)
    as [s [H1 [H2 [H3 [H4 [H5 _]]]]]]. exists s. split; auto. split; [lia|].
  unfold corrections. rewrite map_length.
  assert (length (filter (fun e => match msgOf e with CORRECTION_UPDATED => true | _ => false end) (s_trace s)) =
    length (filter (fun m => match m with CORRECTION_UPDATED => true | _ => false end) (map msgOf (s_trace s)))) as ->.
  { generalize (s_trace s) as tr. induction tr as [|e tr IH]; simpl; auto. destruct (msgOf e); simpl; auto. }
  rewrite H5. unfold protocol. simpl. rewrite filter_app, app_length.
  assert (forall n, length (filter (fun m => match m with CORRECTION_UPDATED => true | _ => false end) (concat (repeat iterationBlock n))) = n) as K.
  { induction n; simpl; auto. }
  rewrite K. destruct (i_success (s_info s)); simpl; lia.
Qed.

Theorem C16_setup_rejects : forall st : nrSettings T, nrSetup st = None <-> nr_maxIter st < nr_minIter st.
Proof.
  intro st. unfold nrSetup. destruct (nr_maxIter st <? nr_minIter st) eqn:L.
  - apply Z.ltb_lt in L. tauto.
  - apply Z.ltb_ge in L. split; [discriminate|lia].
Qed.

(** ** C17: success means converged *)

(** Proved part: with a non-negative iteration limit, the test "norm > tol" is false for the reported norm, the reported norm is the
    norm of the residual of the returned solution, and the solution is the start value with exactly the reported number of
    corrections applied.  (When an IDBC force is supplied and no iteration is made, the tested residual includes that force.) *)
Theorem C17_success_converged_partial : forall st st' x c w s, nrSetup st = Some st' -> 0 <= nr_maxIter st ->
  (idbc = None \/ 0 < i_iter (s_info s)) ->
  solve st' x c w = Some s -> i_success (s_info s) = true ->
  gt (i_res (s_info s)) (nr_tol st) = false /\
  (exists w1, i_res (s_info s) = rnorm (residual w1 (s_d s)) /\ (quiet listen -> w1 = s_w s)) /\
  Z.of_nat (length (corrections (s_trace s))) = i_iter (s_info s) /\
  s_d s = fold_left (fun d cc => (match idbc with None => fun d => d | Some (_, sync) => sync end) (update d cc)) (corrections (s_trace s)) x.
Proof.
  intros st st' x c w s E M I H S.
  destruct (C16_bounded_iterations st st' x c w E) as [sb [Hb [_ Hc]]]. rewrite H in Hb. inversion Hb; subst sb.
  unfold nrSetup in E. destruct (nr_maxIter st <? nr_minIter st) eqn:L; inversion E; subst st'. apply Z.ltb_ge in L.
  destruct (nrSolve_spec gt inf residual jacobian rnorm cnorm lsolve update idbc listen st x c w)
    as [s' [H1 [H2 [H3 [H4 [H5 [H6 [H7 [rn [H8 H9]]]]]]]]]]. rewrite H in H1. inversion H1; subst s'.
  rewrite H4 in S. apply negb_true_iff, Z.eqb_neq in S.
  assert (gt rn (nr_tol st) = false) as G.
  { unfold nrCond in H8. apply orb_false_iff in H8 as [H8 _]. apply andb_false_iff in H8 as [H8|H8]; auto. apply Z.ltb_ge in H8. lia. }
  destruct H9 as [[A1 [A2 [A3 [w1 [A4 [A5 A6]]]]]]|[A1 [A2 [w1 [A3 A4]]]]].
  - destruct I as [I|I]; [|lia]. rewrite I in A5. rewrite A4, <- A5. split; auto. split; [|auto].
    exists w1. rewrite A2. split; auto.
  - rewrite A2. split; auto. split; [|auto]. exists w1. auto.
Qed.

(** ** C18: what a failure means *)
Theorem C18_failure_partial : forall st st' x c w s, nrSetup st = Some st' -> solve st' x c w = Some s ->
  (i_success (s_info s) = false <-> i_iter (s_info s) = nr_maxIter st).
Proof.
  intros st st' x c w s E H. unfold nrSetup in E. destruct (nr_maxIter st <? nr_minIter st) eqn:L; inversion E; subst st'.
  destruct (nrSolve_spec gt inf residual jacobian rnorm cnorm lsolve update idbc listen st x c w) as [s' [H1 [_ [_ [H4 _]]]]].
  rewrite H in H1. inversion H1; subst s'. rewrite H4. rewrite negb_false_iff. apply Z.eqb_eq.
Qed.

(** ** C19: message protocol *)
Theorem C19_messages : forall st x c w, exists s, solve st x c w = Some s /\
  map msgOf (s_trace s) = protocol iterationBlock (Z.to_nat (i_iter (s_info s))) (i_success (s_info s)) /\
  endedCounts (s_trace s) = zseq 1 (Z.to_nat (i_iter (s_info s))).
Proof.
  intros st x c w. destruct (nrSolve_spec gt inf residual jacobian rnorm cnorm lsolve update idbc listen st x c w)
    as [s [H1 [H2 [H3 [H4 [H5 [H6 _]]]]]]]. exists s; auto.
Qed.

End NR.

Print Assumptions C16_bounded_iterations.
Print Assumptions C16_setup_rejects.
Print Assumptions C17_success_converged_partial.
Print Assumptions C18_failure_partial.
Print Assumptions C19_messages.

(** *** Counterexamples *)
Definition fgt (a b : float) : bool := PrimFloat.ltb b a.

(** A residual that is NaN at the start is reported as solved. *)
Theorem C17_nan_success_refuted : exists (residual : unit -> float -> float) s,
  nrSolve fgt infinity residual (fun _ _ => 1%float) PrimFloat.abs PrimFloat.abs (fun a r => (- r / a)%float) PrimFloat.add None
    (fun _ _ _ _ w => w) (mkNRSettings 0x1p-26%float 20 0) 0%float 0%float tt = Some s /\
  i_success (s_info s) = true /\ PrimFloat.is_nan (PrimFloat.abs (residual tt (s_d s))) = true.
Proof. exists (fun _ _ => nan). eexists. split; [vm_compute; reflexivity|]. split; vm_compute; reflexivity. Qed.

(** A negative iteration limit passes the set-up and any start value is reported as solved. *)
Theorem C17_negative_maxIter_refuted : exists st s,
  nrSetup st = Some st /\
  nrSolve (D:=Z) (R:=Z) (J:=Z) (C:=Z) Z.gtb 1000 (fun (_ : unit) x => x - 7) (fun _ _ => 1) Z.abs Z.abs (fun _ r => - r) Z.add None
    (fun _ _ _ _ w => w) st 0 0 tt = Some s /\
  i_success (s_info s) = true /\ Z.abs (s_d s - 7) > nr_tol st.
Proof. exists (mkNRSettings 0 (-1) (-1)). eexists. split; [reflexivity|]. split; [vm_compute; reflexivity|]. split; vm_compute; reflexivity. Qed.

(** A solve that converges in the last permitted iteration is reported as failed. *)
Theorem C18_converged_failure_refuted : exists st s,
  nrSetup st = Some st /\
  nrSolve (D:=Z) (R:=Z) (J:=Z) (C:=Z) Z.gtb 1000 (fun (_ : unit) x => x - 7) (fun _ _ => 1) Z.abs Z.abs (fun _ r => - r) Z.add None
    (fun _ _ _ _ w => w) st 0 0 tt = Some s /\
  i_success (s_info s) = false /\ s_d s - 7 = 0 /\ i_res (s_info s) = 0.
Proof. exists (mkNRSettings 0 1 0). eexists. split; [reflexivity|]. split; [vm_compute; reflexivity|]. split; [|split]; vm_compute; reflexivity. Qed.

Print Assumptions C17_nan_success_refuted.
Print Assumptions C17_negative_maxIter_refuted.
Print Assumptions C18_converged_failure_refuted.

(** Integer Newton iteration on x^3 - 1000 from 1000, several iterations, with a listener that counts messages. *)
Definition exRun := nrSolve (D:=Z) (R:=Z) (J:=Z) (C:=Z) (W:=nat) Z.gtb 1000000000 (fun _ x => x * x * x - 1000) (fun _ x => 3 * x * x)
   Z.abs Z.abs (fun a r => - (r / a)) Z.add None (fun _ _ _ _ w => S w) (mkNRSettings 400 50 2) 100 0 O.
Example Newton_ex : match exRun with
  | Some s => i_success (s_info s) = true /\ s_d s = 11 /\ i_iter (s_info s) = 7 /\ length (s_trace s) = 44%nat /\ s_w s = 44%nat
  | None => False end.
Proof. vm_compute. repeat split. Qed.

(** ** C22: subsidiary solver *)
Section NRS.
Context {T V J W : Type}.
Variables (tadd tsub tmul tdiv : T -> T -> T) (topp tsqrt : T -> T) (t1 inf : T).
Variable gt : T -> T -> bool.
Variables (vadd vsub : V -> V -> V) (vopp : V -> V) (vscale : T -> V -> V) (vdot : V -> V -> T) (vzeroLike : V -> V).
Variable residual : W -> V * T -> V.
Variable jacobian : W -> V * T -> J.
Variable lsolve : J -> V -> V.
Variable update : V -> V -> V.
Variable idbc : option ((W -> V * T -> V) * (V * T -> V)).
Variable listen : nlmsg -> nlinfo T -> V -> V * T -> W -> W.
Variable subsidiary : V * T -> subArgs T V -> subArgs T V.

Notation solve := (nrsSolve tadd tsub tmul tdiv topp tsqrt t1 inf gt vadd vsub vopp vscale vdot vzeroLike residual jacobian lsolve update idbc listen subsidiary).

(** C16 and C19 for this solver. *)
Theorem C16_subsidiary_bounded_iterations : forall tol maxIter req a c w, exists s a',
  solve tol maxIter req a c w = Some (s, a') /\ 0 <= i_iter (s_info s) <= Z.max 0 maxIter.
Proof.
  intros. destruct (nrsSolve_spec tadd tsub tmul tdiv topp tsqrt t1 inf gt vadd vsub vopp vscale vdot vzeroLike residual jacobian lsolve update idbc listen subsidiary tol maxIter req a c w)
   as [s [a' [H1 [H2 _]]]]. eauto.
Qed.

Theorem C19_subsidiary_messages : forall tol maxIter req a c w, exists s a',
  solve tol maxIter req a c w = Some (s, a') /\
  map msgOf (s_trace s) = protocol subsidiaryBlock (Z.to_nat (i_iter (s_info s))) (i_success (s_info s)) /\
  endedCounts (s_trace s) = zseq 1 (Z.to_nat (i_iter (s_info s))).
Proof.
  intros. destruct (nrsSolve_spec tadd tsub tmul tdiv topp tsqrt t1 inf gt vadd vsub vopp vscale vdot vzeroLike residual jacobian lsolve update idbc listen subsidiary tol maxIter req a c w)
   as [s [a' [H1 [H2 [H3 [H4 [H5 _]]]]]]]. eauto 6.
Qed.

(** If at least one iteration was made, success means that the combined norm of residual and subsidiary function at the returned
    state is not above the tolerance. *)
Theorem C22_success_partial : forall tol maxIter req a c w s a', 0 <= maxIter -> solve tol maxIter req a c w = Some (s, a') ->
  i_success (s_info s) = true -> 0 < i_iter (s_info s) ->
  exists w1 a1, a' = subsidiary (s_d s) a1 /\ (quietS listen -> w1 = s_w s) /\
    gt (tsqrt (tadd (vdot (residual w1 (s_d s)) (residual w1 (s_d s))) (tmul (a_f a') (a_f a')))) tol = false.
Proof.
  intros tol maxIter req a c w s a' M H S P.
  destruct (nrsSolve_spec tadd tsub tmul tdiv topp tsqrt t1 inf gt vadd vsub vopp vscale vdot vzeroLike residual jacobian lsolve update idbc listen subsidiary tol maxIter req a c w)
   as [s' [a'' [H1 [H2 [H3 [H4 [H5 [rn [H6 [H7 H8]]]]]]]]]]. rewrite H in H1. inversion H1; subst s' a''.
  destruct H8 as [[K _]|[_ [w1 [a1 [K1 [K2 K3]]]]]]; [lia|]. exists w1, a1. split; auto. split; auto. rewrite <- K2.
  rewrite H3 in S. apply negb_true_iff, Z.eqb_neq in S. apply andb_false_iff in H6 as [H6|H6]; auto. apply Z.ltb_ge in H6. lia.
Qed.

(** With no iteration only the residual of the start value was tested. *)
Theorem C22_zero_iterations_partial : forall tol maxIter req a c w s a', 0 <= maxIter -> solve tol maxIter req a c w = Some (s, a') ->
  i_success (s_info s) = true -> i_iter (s_info s) = 0 -> s_d s = req /\
  exists w1, (quietS listen -> w1 = s_w s) /\ gt (tsqrt (vdot (residual w1 req) (residual w1 req))) tol = false.
Proof.
  intros tol maxIter req a c w s a' M H S P.
  destruct (nrsSolve_spec tadd tsub tmul tdiv topp tsqrt t1 inf gt vadd vsub vopp vscale vdot vzeroLike residual jacobian lsolve update idbc listen subsidiary tol maxIter req a c w)
   as [s' [a'' [H1 [H2 [H3 [H4 [H5 [rn [H6 [H7 H8]]]]]]]]]]. rewrite H in H1. inversion H1; subst s' a''.
  destruct H8 as [[_ [K1 [_ [w1 [K2 K3]]]]]|[K _]]; [|lia]. split; auto. exists w1. split; auto. rewrite <- K2.
  rewrite H3 in S. apply negb_true_iff, Z.eqb_neq in S. apply andb_false_iff in H6 as [H6|H6]; auto. apply Z.ltb_ge in H6. lia.
Qed.

End NRS.

(** The subsidiary equation is ignored when the start value is in equilibrium: residual x - lambda at (0,0), load control with step 5. *)
Definition exSubs (req : Z * Z) (a : subArgs Z Z) : subArgs Z Z :=
  mkArgs (a_stepSize a) (a_DD a) (a_Dlambda a) (a_Dlambda a - a_stepSize a) 0 1 (a_step a).
Definition exSub (start lambda : Z) :=
  nrsSolve Z.add Z.sub Z.mul Z.div Z.opp Z.sqrt 1 1000 Z.gtb Z.add Z.sub Z.opp Z.mul Z.mul (fun _ => 0)
    (fun (_ : unit) d => fst d - snd d) (fun _ _ => 1) (fun a b => b / a) Z.add None (fun _ _ _ _ w => w) exSubs
    0 20 (start, lambda) (mkArgs 5 0 0 0 0 0 0) 0 tt.

Theorem C22_equilibrium_start_refuted : exists s a', exSub 0 0 = Some (s, a') /\ i_success (s_info s) = true /\
  a_f (exSubs (s_d s) a') = -5 /\ s_d s = (0, 0).
Proof. do 2 eexists. split; [vm_compute; reflexivity|]. split; [|split]; vm_compute; reflexivity. Qed.

(** Non-vacuity: from a non-equilibrium start both equations are satisfied after one iteration. *)
Example C22_ex : match exSub 3 0 with Some (s, a') => i_success (s_info s) = true /\ i_iter (s_info s) = 1 /\ s_d s = (5, 5) /\ a_f a' = 0 | None => False end.
Proof. vm_compute. repeat split. Qed.

Print Assumptions C16_subsidiary_bounded_iterations.
Print Assumptions C19_subsidiary_messages.
Print Assumptions C22_success_partial.
Print Assumptions C22_zero_iterations_partial.
Print Assumptions C22_equilibrium_start_refuted.
