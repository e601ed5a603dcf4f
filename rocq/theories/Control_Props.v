(** Properties C23 to C27 of the control routines. *)

From Coq Require Import List ZArith Bool Lia Floats Reals Lra.
From Verif Require Import Newton_Model Control_Model Control_Spec Control_Proofs.
Import ListNotations.
Local Open Scope Z_scope.

(** ** C23: load control *)

(** For every number type, solver and listener: one solve at the start value, then one per step; the load factor seen at the end of the
    k-th step is the start value with k increments added; the run stops at the first failure; success means that every solve
    succeeded, and then there are loadSteps + 1 of them. *)
Theorem C23_load_control : forall (T X W : Type) listen (tadd tsub tdiv : T -> T -> T) (tOfZ : Z -> T) (t0 : T)
    (solve : X -> T -> T -> W -> X * W * nlinfo T) (sync : X -> T -> X) loadSteps tBegin tEnd lc x p w,
  lcConstruct tsub tdiv tOfZ loadSteps tBegin tEnd = Some lc ->
  let st := tdiv (tsub tEnd tBegin) (tOfZ loadSteps) in
  let s := lcRun listen tadd t0 solve sync lc x p w in
  let l := c_infos (k_info s) in
  (1 <= length l <= S (Z.to_nat loadSteps))%nat /\ stopsAtFirstFailure l /\
  (c_success (k_info s) = true <-> (forall i, In i l -> i_success i = true)) /\
  (c_success (k_info s) = true -> length l = S (Z.to_nat loadSteps)) /\
  stepParams (k_trace s) = map (addTimes tadd p st) (seq 0 (length l)) /\
  k_p s = addTimes tadd p st (length l - 1) /\
  c_total (k_info s) = sumIter l.
Proof.
  intros T X W listen tadd tsub tdiv tOfZ t0 solve sync n tb te lc x p w E st. unfold lcConstruct in E.
  destruct (n <=? 0) eqn:L; inversion E; subst lc. fold st.
  destruct (lcRun_spec listen tadd t0 solve sync n st x p w) as [l1 [l [tr [H1 [H2 [H3 [H4 [H5 [H6 [H7 [H8 [H9 [H10 _]]]]]]]]]]]]].
  cbv zeta. rewrite H1, H2. split; [simpl; lia|]. split; auto. split.
  { rewrite H6. rewrite forallb_forall. reflexivity. }
  split. { intro S. rewrite H6 in S. simpl. rewrite (H7 S). auto. }
  split; auto. split; auto. rewrite H10. f_equal. simpl. lia.
Qed.

Theorem C23_rejects_non_positive_steps : forall (T : Type) (tsub tdiv : T -> T -> T) tOfZ loadSteps tBegin tEnd,
  lcConstruct tsub tdiv tOfZ loadSteps tBegin tEnd = None <-> loadSteps <= 0.
Proof.
  intros. unfold lcConstruct. destruct (loadSteps <=? 0) eqn:L.
  - apply Z.leb_le in L. tauto.
  - apply Z.leb_gt in L. split; [discriminate|lia].
Qed.

(** Over exact arithmetic the load factor after [k] steps is [p + k (tEnd - tBegin) / loadSteps]. *)
Lemma addTimes_R k : forall p s : R, addTimes Rplus p s k = (p + INR k * s)%R.
Proof.
  induction k as [|k IH]; intros p s; simpl addTimes; [simpl; lra|]. rewrite IH, S_INR. lra.
Qed.

Theorem C23_exact_increments : forall (X W : Type) listen (solve : X -> R -> R -> W -> X * W * nlinfo R) (sync : X -> R -> X) loadSteps tBegin tEnd lc x p w,
  lcConstruct Rminus Rdiv IZR loadSteps tBegin tEnd = Some lc ->
  let s := lcRun listen Rplus 0%R solve sync lc x p w in
  stepParams (k_trace s) = map (fun k => (p + INR k * ((tEnd - tBegin) / IZR loadSteps))%R) (seq 0 (length (c_infos (k_info s)))).
Proof.
  intros X W listen solve sync n tb te lc x p w E s.
  destruct (C23_load_control _ _ _ listen Rplus Rminus Rdiv IZR 0%R solve sync n tb te lc x p w E) as [_ [_ [_ [_ [H _]]]]].
  subst s. rewrite H. apply map_ext. intro k. apply addTimes_R.
Qed.

Print Assumptions C23_load_control.
Print Assumptions C23_rejects_non_positive_steps.
Print Assumptions C23_exact_increments.

(** ** C24: load control ends at tEnd *)

(** False: the begin of the interval is never assigned to the requirement. *)
Definition okInfo {T} (r : T) (n : Z) : nlinfo T := mkInfo true r r n.
Theorem C24_start_not_tBegin_refuted : exists lc, lcConstruct Z.sub Z.div (fun z => z) 1 5 6 = Some lc /\
  let s := lcRun (fun _ _ _ _ _ w => w) Z.add 0 (fun (x : unit) (_ _ : Z) (w : unit) => (x, w, okInfo 0 1)) (fun x _ => x) lc tt 0 tt in
  c_success (k_info s) = true /\ k_p s = 1.
Proof. eexists. split; [reflexivity|]. split; reflexivity. Qed.

(** In binary64 it is false even from tBegin: ten steps from 0 to 1. *)
Definition fOfZ (z : Z) : float := match z with Z.pos p => PrimFloat.of_uint63 (Uint63.of_pos p) | _ => 0%float end.
Theorem C24_rounding_refuted : match lcConstruct PrimFloat.sub PrimFloat.div fOfZ 10 0%float 1%float with
  | Some lc => let s := lcRun (fun _ _ _ _ _ w => w) PrimFloat.add 0%float (fun (x : unit) (_ _ : float) (w : unit) => (x, w, okInfo 0%float 1)) (fun x _ => x) lc tt 0%float tt in
      c_success (k_info s) = true /\ PrimFloat.eqb (k_p s) 1 = false /\ PrimFloat.ltb (k_p s) 1 = true
  | None => False end.
Proof. vm_compute. repeat split. Qed.

(** From tBegin and in exact arithmetic it holds. *)
Theorem C24_exact_from_tBegin_partial : forall (X W : Type) listen (solve : X -> R -> R -> W -> X * W * nlinfo R) (sync : X -> R -> X) loadSteps tBegin tEnd lc x w,
  lcConstruct Rminus Rdiv IZR loadSteps tBegin tEnd = Some lc ->
  let s := lcRun listen Rplus 0%R solve sync lc x tBegin w in
  c_success (k_info s) = true -> k_p s = tEnd.
Proof.
  intros X W listen solve sync n tb te lc x w E s Sc.
  destruct (C23_load_control _ _ _ listen Rplus Rminus Rdiv IZR 0%R solve sync n tb te lc x tb w E) as [_ [_ [_ [H4 [_ [H6 _]]]]]].
  subst s. rewrite H6, H4, addTimes_R by auto. unfold lcConstruct in E. destruct (n <=? 0) eqn:L; [discriminate|]. apply Z.leb_gt in L.
  replace (S (Z.to_nat n) - 1)%nat with (Z.to_nat n) by lia. rewrite INR_IZR_INZ, Z2Nat.id by lia.
  field. apply not_0_IZR. lia.
Qed.

Print Assumptions C24_start_not_tBegin_refuted.
Print Assumptions C24_rounding_refuted.
Print Assumptions C24_exact_from_tBegin_partial.

(** ** C25: messages *)

(** The whole protocol of a load-control run: CONTROL_ENDED is sent only after a complete run. *)
Theorem C25_load_control_messages_partial : forall (T X W : Type) listen (tadd tsub tdiv : T -> T -> T) (tOfZ : Z -> T) (t0 : T)
    (solve : X -> T -> T -> W -> X * W * nlinfo T) (sync : X -> T -> X) loadSteps tBegin tEnd lc x p w,
  lcConstruct tsub tdiv tOfZ loadSteps tBegin tEnd = Some lc ->
  let s := lcRun listen tadd t0 solve sync lc x p w in
  map cmsgOf (k_trace s) = cprotocol (length (c_infos (k_info s))) (c_success (k_info s)).
Proof.
  intros T X W listen tadd tsub tdiv tOfZ t0 solve sync n tb te lc x p w E. unfold lcConstruct in E.
  destruct (n <=? 0) eqn:L; inversion E; subst lc.
  match goal with |- context [(n, ?st)] => destruct (lcRun_spec listen tadd t0 solve sync n st x p w) as [l1 [l [tr [H1 [H2 [H3 [H4 [H5 [H6 [H7 [H8 _]]]]]]]]]]] end.
  cbv zeta. rewrite H1, H2, H8, H6. reflexivity.
Qed.

Theorem C25_path_following_messages_partial : forall (T X W V PF : Type) listen (t0 : T) psolve initialPrediction intermediatePrediction adaptive zeroArgs
    steps n st (pf : PF) (x : X) (p : T) (w : W), pfConstruct steps = Some n ->
  let s := resState (pfRun (V:=V) listen t0 psolve initialPrediction intermediatePrediction adaptive zeroArgs n st pf x p w) in
  map cmsgOf (k_trace s) = cprotocol (length (c_infos (k_info s))) (c_success (k_info s)).
Proof.
  intros T X W V PF listen t0 psolve ip mp ad za steps n st pf x p w E. unfold pfConstruct in E. destruct (steps <=? 0) eqn:L; inversion E; subst. apply Z.leb_gt in L.
  destruct (pfRun_spec listen t0 psolve ip mp ad za n st pf x p w L) as [l1 [l [H1 [H2 [H3 [H4 [H5 [H6 H7]]]]]]]].
  cbv zeta in *. rewrite H1, H7. reflexivity.
Qed.

(** Observers of CONTROL_ENDED never see success = true: the flag is set after the message. *)
Theorem C25_control_ended_sees_failure : forall (T X W : Type) listen (tadd tsub tdiv : T -> T -> T) (tOfZ : Z -> T) (t0 : T)
    (solve : X -> T -> T -> W -> X * W * nlinfo T) (sync : X -> T -> X) loadSteps tBegin tEnd lc x p w e,
  lcConstruct tsub tdiv tOfZ loadSteps tBegin tEnd = Some lc ->
  let s := lcRun listen tadd t0 solve sync lc x p w in
  In e (k_trace s) -> cmsgOf e = CONTROL_ENDED -> c_success (cinfoOf e) = false /\ c_success (k_info s) = true.
Proof.
  intros T X W listen tadd tsub tdiv tOfZ t0 solve sync n tb te lc x p w e E. unfold lcConstruct in E.
  destruct (n <=? 0) eqn:L; inversion E; subst lc.
  match goal with |- context [(n, ?st)] => destruct (lcRun_spec listen tadd t0 solve sync n st x p w) as [l1 [l [tr [H1 [H2 [H3 [H4 [H5 [H6 [H7 [H8 [H9 [H10 H11]]]]]]]]]]]]] end.
  cbv zeta in *. rewrite H2. intros He Hm. split; auto. rewrite H6.
  destruct (forallb i_success (l1 :: l)) eqn:F; auto. exfalso.
  assert (In (cmsgOf e) (cprotocol (S (length l)) false)) as K by (rewrite <- H8; apply in_map; auto).
  rewrite Hm in K. unfold cprotocol in K. rewrite app_nil_r in K. simpl in K. destruct K as [K|[K|[K|[K|K]]]]; try discriminate.
  apply in_concat in K as [b [Hb K]]. apply repeat_spec in Hb. subst b. simpl in K. intuition discriminate.
Qed.

Theorem C25_control_ended_success_refuted : exists lc e, lcConstruct Z.sub Z.div (fun z => z) 2 0 2 = Some lc /\
  let s := lcRun (fun _ _ _ _ _ w => w) Z.add 0 (fun (x : unit) (p _ : Z) (w : unit) => (x, w, okInfo 0 3)) (fun x _ => x) lc tt 0 tt in
  c_success (k_info s) = true /\ In e (k_trace s) /\ cmsgOf e = CONTROL_ENDED /\ c_success (cinfoOf e) = false.
Proof.
  eexists. exists (CONTROL_ENDED, mkCInfo false [okInfo 0 3; okInfo 0 3; okInfo 0 3] 9, 1, 1, (tt, 2)).
  split; [reflexivity|]. split; [reflexivity|]. split; [vm_compute; tauto|]. split; reflexivity.
Qed.

(** After a failed solve CONTROL_ENDED is missing. *)
Theorem C25_no_control_ended_refuted : exists lc, lcConstruct Z.sub Z.div (fun z => z) 2 0 2 = Some lc /\
  let s := lcRun (fun _ _ _ _ _ w => w) Z.add 0 (fun (x : unit) (p _ : Z) (w : unit) => (x, w, mkInfo (p <? 2) 0 0 3)) (fun x _ => x) lc tt 0 tt in
  c_success (k_info s) = false /\ ~ In CONTROL_ENDED (map cmsgOf (k_trace s)).
Proof. eexists. split; [reflexivity|]. split; [reflexivity|]. vm_compute. intuition discriminate. Qed.

Print Assumptions C25_load_control_messages_partial.
Print Assumptions C25_path_following_messages_partial.
Print Assumptions C25_control_ended_sees_failure.
Print Assumptions C25_control_ended_success_refuted.
Print Assumptions C25_no_control_ended_refuted.

(** ** C26: path following *)
Theorem C26_path_following : forall (T X W V PF : Type) listen (t0 : T) psolve initialPrediction intermediatePrediction adaptive zeroArgs
    steps n st (pf : PF) (x : X) (p : T) (w : W), pfConstruct steps = Some n ->
  let r := pfRun (V:=V) listen t0 psolve initialPrediction intermediatePrediction adaptive zeroArgs n st pf x p w in
  let s := resState r in let l := c_infos (k_info s) in
  (1 <= length l <= S (Z.to_nat steps))%nat /\ stopsAtFirstFailure l /\
  (c_success (k_info s) = true <-> finished r = true /\ (forall i, In i l -> i_success i = true)) /\
  (c_success (k_info s) = true -> length l = S (Z.to_nat steps)) /\
  c_total (k_info s) = sumIter l.
Proof.
  intros T X W V PF listen t0 psolve ip mp ad za steps n st pf x p w E. unfold pfConstruct in E. destruct (steps <=? 0) eqn:L; inversion E; subst. apply Z.leb_gt in L.
  destruct (pfRun_spec listen t0 psolve ip mp ad za n st pf x p w L) as [l1 [l [H1 [H2 [H3 [H4 [H5 [H6 H7]]]]]]]].
  cbv zeta in *. rewrite H1. split; [simpl; lia|]. split; auto. split.
  { rewrite H5, andb_true_iff, forallb_forall. reflexivity. }
  split; auto. intro S. apply H6 in S. simpl. lia.
Qed.

Theorem C26_rejects_non_positive_steps : forall steps, pfConstruct steps = None <-> steps <= 0.
Proof.
  intro steps. unfold pfConstruct. destruct (steps <=? 0) eqn:L.
  - apply Z.leb_le in L. tauto. - apply Z.leb_gt in L. split; [discriminate|lia].
Qed.

Print Assumptions C26_path_following.
Print Assumptions C26_rejects_non_positive_steps.

(** Non-vacuity: three steps, the solver fails at the load factor 3 with step sizing that always halves. *)
Example C26_ex : let r := pfRun (T:=Z) (X:=unit) (W:=nat) (V:=unit) (PF:=unit) (fun _ _ _ _ _ w => S w) 0
    (fun _ req a w => (req, a, w, mkInfo (snd req <? 3) 0 0 4)) (fun pf req a w => (pf, (fst req, 1), a)) (fun pf req a => Some ((fst req, snd req + 1), a))
    (fun _ _ st => Some (st / 2)) (fun _ => mkArgs 0 tt 0 0 tt 0 0) 5 8 tt tt 0 O in
  finished r = true /\ c_success (k_info (resState r)) = false /\ k_p (resState r) = 3 /\ c_total (k_info (resState r)) = 16 /\ length (k_trace (resState r)) = 13%nat.
Proof. vm_compute. repeat split. Qed.

(** ** C27: adaptive step sizing *)
Local Open Scope R_scope.

Notation itBased := (iterationBased (T:=R) Rdiv IZR Rmult sqrt).

Theorem C27_iteration_based : forall target step (i : nlinfo R) (s s' : R), (0 < target)%Z -> itBased target step i s = Some s' ->
  Rabs s' <= Rabs s /\ (0 < s -> 0 < s') /\ (s < 0 -> s' < 0) /\
  (step = 0%Z -> s' = s) /\ ((i_iter i <= target)%Z -> s' = s) /\
  ((step <> 0)%Z -> (target < i_iter i)%Z -> s' = sqrt (IZR target / IZR (i_iter i)) * s).
Proof.
  intros target step i s s' Ht E. unfold iterationBased in E.
  destruct (Z.eqb_spec step 0).
  { inversion E; subst. repeat split; auto; try lra. congruence. }
  destruct (Z.eqb_spec target 0); [lia|].
  destruct (Z.ltb_spec target (i_iter i)) as [L|L]; inversion E; subst.
  - assert (0 < IZR target) as A by (apply IZR_lt; lia). assert (IZR target < IZR (i_iter i)) as B by (apply IZR_lt; lia).
    assert (0 < sqrt (IZR target / IZR (i_iter i)) <= 1) as [C D].
    { split. - apply sqrt_lt_R0. apply Rdiv_lt_0_compat; lra.
      - rewrite <- sqrt_1. apply sqrt_le_1_alt. apply (Rmult_le_reg_r (IZR (i_iter i))); [lra|]. unfold Rdiv. rewrite Rmult_assoc, Rinv_l by lra. lra. }
    repeat split; auto; try lia.
    + rewrite Rabs_mult, (Rabs_pos_eq (sqrt _)) by lra. rewrite <- (Rmult_1_l (Rabs s)) at 2. apply Rmult_le_compat_r; auto. apply Rabs_pos.
    + intro. apply Rmult_lt_0_compat; lra.
    + intro. rewrite <- (Ropp_involutive s), Ropp_mult_distr_r_reverse. apply Ropp_lt_gt_0_contravar. apply Rmult_lt_0_compat; lra.
  - repeat split; auto; try lra. lia.
Qed.

(** For every sequence of solver informations the magnitudes of the step sizes never increase and stay non-zero. *)
Fixpoint stepSizes (target : Z) (step : Z) (s : R) (l : list (nlinfo R)) : option (list R) :=
  match l with
  | [] => Some []
  | i :: l' => match itBased target step i s with Some s' => option_map (cons s') (stepSizes target (step + 1) s' l') | None => None end
  end.

Theorem C27_sequence_shrinks : forall target l step s out, (0 < target)%Z -> 0 < s -> stepSizes target step s l = Some out ->
  length out = length l /\ forall k a b, nth_error (s :: out) k = Some a -> nth_error (s :: out) (S k) = Some b -> 0 < b <= a.
Proof.
  intros target l. induction l as [|i l IH]; intros step s out Ht Hs E; simpl in E.
  - inversion E; subst. split; auto. intros [|k] a b; simpl; try discriminate; destruct k; discriminate.
  - destruct (itBased target step i s) as [s'|] eqn:B; [|discriminate]. destruct (stepSizes target (step + 1) s' l) as [o|] eqn:So; [|discriminate].
    simpl in E; inversion E; subst. destruct (C27_iteration_based _ _ _ _ _ Ht B) as [H1 [H2 _]]. specialize (H2 Hs).
    rewrite (Rabs_pos_eq s), (Rabs_pos_eq s') in H1 by lra.
    destruct (IH _ _ _ Ht H2 So) as [L K]. split; [simpl; lia|].
    intros [|k] a b Ha Hb. + simpl in *. inversion Ha; inversion Hb; subst. lra. + apply (K k a b); auto.
Qed.

(** An unset target raises an error from the second step on, and a target of zero cannot be set. *)
Theorem C27_zero_target_rejected : forall step (i : nlinfo R) s, setTargetIterations 0 = None /\ (itBased 0 step i s = None <-> (step <> 0)%Z).
Proof.
  intros. split; auto. unfold iterationBased. destruct (Z.eqb_spec step 0); simpl; split; intros; auto; try congruence.
Qed.

Theorem C27_noop_constant : forall (step : Z) (i : nlinfo R) s, noOp step i s = Some s.
Proof. reflexivity. Qed.

Print Assumptions C27_iteration_based.
Print Assumptions C27_sequence_shrinks.
Print Assumptions C27_zero_target_rejected.

Example C27_ex : itBased 4 1 (mkInfo true 0 0 16%Z) 3 = Some (3 / 2).
Proof.
  unfold iterationBased. simpl. f_equal. replace (4 / 16) with ((1 / 2) * (1 / 2)) by lra. rewrite sqrt_square; lra.
Qed.
