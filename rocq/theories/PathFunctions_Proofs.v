(** Lemmas on the path-following functions over the real numbers. *)

From Coq Require Import List ZArith Bool Lia Reals Lra.
From Coquelicot Require Import Coquelicot.
From Verif Require Import Newton_Model PathFunctions_Model PathFunctions_Spec.
Import ListNotations.
Local Open Scope R_scope.

Notation vdotR := (vdot 0 Rplus Rmult).
Notation sqNormR := (sqNorm 0 Rplus Rmult).

Lemma vdot_fold (l : list (R * R)) : forall acc, fold_left (fun acc p => acc + fst p * snd p) l acc = acc + fold_left (fun acc p => acc + fst p * snd p) l 0.
Proof.
  induction l as [|p l IH]; intro acc; simpl; [lra|]. rewrite IH. rewrite (IH (0 + _)). lra.
Qed.

Lemma vdot_dotR a : forall b, vdotR a b = dotR a b.
Proof.
  unfold vdot. induction a as [|x a IH]; intros [|y b]; simpl; auto. rewrite vdot_fold, IH. lra.
Qed.

Lemma sqNorm_dotR a : sqNormR a = dotR a a.
Proof. apply vdot_dotR. Qed.

Lemma dotR_comm a : forall b, dotR a b = dotR b a.
Proof. induction a as [|x a IH]; intros [|y b]; simpl; auto. rewrite IH. lra. Qed.

Lemma dotR_pos a : 0 <= dotR a a.
Proof. induction a as [|x a IH]; simpl; [lra|]. pose proof (Rle_0_sqr x). unfold Rsqr in *. lra. Qed.

Lemma dotR_scal_l a s : forall b, dotR (map (fun x => x * s) a) b = s * dotR a b.
Proof. induction a as [|x a IH]; intros [|y b]; simpl; try lra. rewrite IH. lra. Qed.

Lemma dotR_zero a : forall b, dotR (vzero 0 a) b = 0.
Proof. unfold vzero. induction a as [|x a IH]; intros [|y b]; simpl; auto. rewrite IH. lra. Qed.

Lemma along_sq u : forall v t, length v = length u ->
  dotR (along u v t) (along u v t) = dotR u u + 2 * t * dotR u v + t * t * dotR v v.
Proof.
  induction u as [|x u IH]; intros [|y v] t L; simpl in *; try discriminate; [lra|]. rewrite IH by lia. lra.
Qed.

Lemma along_length u : forall v t, length v = length u -> length (along u v t) = length u.
Proof. induction u as [|x u IH]; intros [|y v] t L; simpl in *; try discriminate; [reflexivity|]. f_equal. apply IH. lia. Qed.

Lemma along_nth u : forall v t i, length v = length u -> nth i (along u v t) 0 = nth i u 0 + t * nth i v 0.
Proof.
  induction u as [|x u IH]; intros [|y v] t i L; simpl in *; try discriminate; destruct i; simpl; try lra; auto.
Qed.

Lemma along_zero u : forall v, length v = length u -> along u v 0 = u.
Proof. induction u as [|x u IH]; intros [|y v] L; simpl in *; try discriminate; [reflexivity|]. f_equal; [lra|]. apply IH. lia. Qed.

(** The derivative of the root of a quadratic polynomial *)
Lemma root_derive A B C s : 0 < A -> is_derive (fun t => sqrt (A + 2 * t * B + t * t * C) - s) 0 (B / sqrt A).
Proof.
  intro HA. auto_derive.
  - replace (A + 2 * 0 * B + 0 * 0 * C) with A by ring. auto.
  - replace (A + 2 * 0 * B + 0 * 0 * C) with A by ring. pose proof (sqrt_lt_R0 A HA). field. lra.
Qed.

(** ** Arc length *)

Definition withD (a : subArgs R (list R)) DD Dl : subArgs R (list R) := setD a DD Dl.

Lemma vdivs_scal d0 l : vdivs Rdiv d0 l = map (fun x => x * / l) d0.
Proof. reflexivity. Qed.

Lemma map_scal_cancel (d0 : list R) l : l <> 0 -> vdivs Rdiv (map (fun x => x * l) d0) l = d0.
Proof. intro H. unfold vdivs. rewrite map_map. rewrite <- (map_id d0) at 2. apply map_ext. intro x. field. auto. Qed.

Lemma dotR_scal2 d0 l : dotR (map (fun x => x * l) d0) (map (fun x => x * l) d0) = l * l * dotR d0 d0.
Proof. rewrite dotR_scal_l, dotR_comm, dotR_scal_l. ring. Qed.

Definition arcEvalR := arcEval 0 Rplus Rminus Rmult Rdiv sqrt.
Definition idbcR := idbcIncrement 0 Rplus Rminus.

Lemma arcEval_value idbc s req a d0 : (idbcR idbc req (a_Dlambda a) = map (fun x => x * a_Dlambda a) d0) ->
  a_f (arcEvalR idbc s req a) = arcLengthValue (arc_psi s) d0 (a_stepSize a) (a_DD a) (a_Dlambda a).
Proof.
  intro H. unfold arcEvalR, arcEval. fold (idbcR idbc req (a_Dlambda a)). rewrite H. cbv zeta.
  rewrite !sqNorm_dotR, dotR_scal2. unfold arcLengthValue.
  destruct (arc_computed s); reflexivity.
Qed.

Lemma arc_derivatives idbc s req a d0 :
  arc_computed s = true -> a_Dlambda a <> 0 -> idbcR idbc req (a_Dlambda a) = map (fun x => x * a_Dlambda a) d0 ->
  0 < dotR (a_DD a) (a_DD a) + a_Dlambda a * a_Dlambda a * dotR d0 d0 + arc_psi s * arc_psi s * a_Dlambda a * a_Dlambda a ->
  let r := arcEvalR idbc s req a in
  hasDerivatives (arcLengthValue (arc_psi s) d0 (a_stepSize a)) (a_DD a) (a_Dlambda a) (a_dfdDD r) (a_dfdDlambda r).
Proof.
  intros C L H P r. subst r. unfold arcEvalR, arcEval. fold (idbcR idbc req (a_Dlambda a)). rewrite H, C. cbv zeta.
  rewrite !sqNorm_dotR, vdot_dotR, map_scal_cancel, dotR_scal2 by auto. simpl a_dfdDD. simpl a_dfdDlambda.
  set (l := a_Dlambda a) in *. set (u := a_DD a) in *. set (psi := arc_psi s) in *.
  set (A := dotR u u + l * l * dotR d0 d0 + psi * psi * l * l) in *.
  split. { unfold vdivs. apply map_length. }
  intros v m Lv. unfold arcLengthValue.
  pose proof (sqrt_lt_R0 A P).
  eapply is_derive_ext with (f := fun t => sqrt (A + 2 * t * (dotR u v + l * m * dotR d0 d0 + psi * psi * l * m) + t * t * (dotR v v + m * m * dotR d0 d0 + psi * psi * m * m)) - a_stepSize a).
  { intro t. rewrite along_sq by auto. unfold A. f_equal. f_equal. ring. }
  replace (dotR (vdivs Rdiv u (sqrt A)) v + (dotR d0 d0 + psi * psi) * l / sqrt A * m)
    with ((dotR u v + l * m * dotR d0 d0 + psi * psi * l * m) / sqrt A).
  - apply root_derive. auto.
  - rewrite vdivs_scal, dotR_scal_l. field. lra.
Qed.

(** ** Displacement control *)

Lemma setNth_length (v : list R) : forall i x, length (setNth v i x) = length v.
Proof. induction v as [|y v IH]; intros [|i] x; simpl; auto. Qed.

Lemma scatter_length idx : forall xs (v : list R), length (scatter v idx xs) = length v.
Proof. induction idx as [|i idx IH]; intros [|x xs] v; simpl; auto. rewrite IH, setNth_length. auto. Qed.

Lemma setNth_dot v : forall i x w, (i < length v)%nat -> length w = length v ->
  dotR (setNth v i x) w = dotR v w + (x - nth i v 0) * nth i w 0.
Proof.
  induction v as [|y v IH]; intros [|i] x [|z w] Hi L; simpl in *; try lia; try lra.
  rewrite IH by lia. lra.
Qed.

Lemma setNth_nth_ne (v : list R) : forall i j x, i <> j -> nth j (setNth v i x) 0 = nth j v 0.
Proof. induction v as [|y v IH]; intros [|i] [|j] x H; simpl; auto; congruence. Qed.

Lemma scatter_dot idx : forall xs v w, NoDup idx -> length xs = length idx -> length w = length v ->
  (forall i, In i idx -> (i < length v)%nat /\ nth i v 0 = 0) ->
  dotR (scatter v idx xs) w = dotR v w + dotR xs (gather 0 w idx).
Proof.
  induction idx as [|i idx IH]; intros [|x xs] v w ND Lx Lw Hz; simpl in *; try discriminate; try lra.
  inversion ND as [|? ? Nin ND']; subst.
  rewrite IH; auto.
  - rewrite setNth_dot; [|apply Hz; auto|auto]. destruct (Hz i) as [_ Hz0]; auto. rewrite Hz0. lra.
  - rewrite setNth_length. auto.
  - intros j Hj. rewrite setNth_length. rewrite setNth_nth_ne by (intro; subst; auto). apply Hz. auto.
Qed.

Lemma gather_along idx u v t : length v = length u -> gather 0 (along u v t) idx = along (gather 0 u idx) (gather 0 v idx) t.
Proof. intro L. induction idx as [|i idx IH]; simpl; auto. rewrite along_nth by auto. f_equal. auto. Qed.

Lemma gather_sq idx u : dotR (gather 0 u idx) (gather 0 u idx) = fold_right (fun i acc => nth i u 0 * nth i u 0 + acc) 0 idx.
Proof. induction idx as [|i idx IH]; simpl; auto. rewrite IH. auto. Qed.

Definition dcEvalR := dcEval 0 Rplus Rminus Rmult Rdiv sqrt.

Lemma dcEval_value idx s req a : a_f (dcEvalR idx s req a) = displacementValue idx (a_stepSize a) (a_DD a).
Proof. unfold dcEvalR, dcEval, displacementValue. simpl. rewrite sqNorm_dotR, gather_sq. auto. Qed.

Lemma vzero_nth (a : list R) i : nth i (vzero 0 a) 0 = 0.
Proof. unfold vzero. revert i. induction a as [|x a IH]; intros [|i]; simpl; auto. Qed.

Lemma dc_derivatives idx s req a : NoDup idx -> length (a_dfdDD a) = length (a_DD a) ->
  (forall i, In i idx -> (i < length (a_DD a))%nat) -> (exists i, In i idx /\ nth i (a_DD a) 0 <> 0) ->
  let r := dcEvalR idx s req a in
  hasDerivatives (fun DD _ => displacementValue idx (a_stepSize a) DD) (a_DD a) (a_Dlambda a) (a_dfdDD r) (a_dfdDlambda r).
Proof.
  intros ND Le Hin [i0 [Hi0 Hne]] r. subst r. unfold dcEvalR, dcEval. simpl. set (u := a_DD a) in *.
  set (g := gather 0 u idx). rewrite sqNorm_dotR. set (A := dotR g g).
  assert (P : 0 < A).
  { unfold A, g. clear - Hi0 Hne. induction idx as [|i idx IH]; simpl in *; [tauto|].
    pose proof (dotR_pos (gather 0 u idx)). destruct Hi0 as [<-|Hi].
    - assert (0 < nth i u 0 * nth i u 0). { apply Rsqr_pos_lt in Hne. unfold Rsqr in Hne. auto. } lra.
    - specialize (IH Hi). pose proof (Rle_0_sqr (nth i u 0)). unfold Rsqr in *. lra. }
  pose proof (sqrt_lt_R0 A P).
  split. { rewrite scatter_length. unfold vzero. rewrite map_length. auto. }
  intros v m Lv.
  eapply is_derive_ext with (f := fun t => sqrt (A + 2 * t * dotR g (gather 0 v idx) + t * t * dotR (gather 0 v idx) (gather 0 v idx)) - a_stepSize a).
  { intro t. unfold displacementValue. rewrite <- gather_sq, gather_along by auto. rewrite along_sq; [reflexivity|]. unfold gather. rewrite !map_length. auto. }
  replace (dotR _ v + 0 * m) with (dotR g (gather 0 v idx) / sqrt A).
  - apply root_derive. auto.
  - rewrite scatter_dot; auto.
    + rewrite dotR_zero, vdivs_scal, dotR_scal_l. field. lra.
    + unfold vdivs, g, gather. rewrite !map_length. auto.
    + unfold vzero. rewrite map_length, Le. auto.
    + intros i Hi. rewrite vzero_nth. unfold vzero. rewrite map_length, Le. auto.
Qed.

(** ** Initial prediction of the arc-length method *)

Definition arcInitialR := arcInitial 0 1 Rplus Rminus Rmult Rdiv sqrt.

Lemma arcInitial_satisfies idbc lin s req a d0 :
  let DD0 := lin (fst req, 1) in
  let '(s', req', a') := arcInitialR idbc lin s req a in
  0 < a_stepSize a -> 0 < dotR DD0 DD0 + dotR d0 d0 -> idbcR idbc req 1 = d0 ->
  arc_computed s' = true /\ 0 < a_Dlambda a' /\ a_DD a' = map (fun x => x * a_Dlambda a') DD0 /\ a_stepSize a' = a_stepSize a /\
  snd req' = a_Dlambda a' /\
  arc_psi s' * arc_psi s' = dotR DD0 DD0 + dotR d0 d0 /\
  arcLengthValue (arc_psi s') d0 (a_stepSize a') (a_DD a') (a_Dlambda a') = 0.
Proof.
  intro DD0. destruct (arcInitialR idbc lin s req a) as [[s' req'] a'] eqn:E. intros Hs HP Hi.
  unfold arcInitialR, arcInitial in E. fold (idbcR idbc req 1) in E. rewrite Hi in E. cbv zeta in E. fold DD0 in E.
  rewrite !sqNorm_dotR in E.
  assert (D1 : vdivs Rdiv d0 1 = d0). { rewrite vdivs_scal, Rinv_1. rewrite <- (map_id d0) at 2. apply map_ext. intro; ring. }
  rewrite D1 in E. set (B := dotR DD0 DD0 + dotR d0 d0) in *.
  set (psi := sqrt B) in *.
  assert (Hpsi : psi * psi = B) by (apply sqrt_sqrt; lra).
  set (ss := sqrt (B + psi * psi * 1 * 1)) in *.
  assert (Hss : ss * ss = 2 * B). { unfold ss. rewrite sqrt_sqrt; lra. }
  assert (Pss : 0 < ss). { apply sqrt_lt_R0. lra. }
  set (Dl := a_stepSize a / ss) in *.
  assert (PDl : 0 < Dl). { apply Rdiv_lt_0_compat; auto. }
  assert (EDD : vdivs Rdiv (vscal Rmult DD0 (a_stepSize a)) ss = map (fun x => x * Dl) DD0).
  { unfold vdivs, vscal. rewrite map_map. apply map_ext. intro x. unfold Dl. field. lra. }
  rewrite EDD in E.
  assert (Ei : vscal Rmult d0 (Dl / 1) = map (fun x => x * Dl) d0).
  { unfold vscal. apply map_ext. intro; field. }
  rewrite Ei, !dotR_scal2 in E. inversion E; subst s' req' a'; clear E. simpl.
  assert (EP : (Dl * Dl * dotR d0 d0 + Dl * Dl * dotR DD0 DD0) / (Dl * Dl) = B). { unfold B. field. lra. }
  rewrite EP. fold psi. repeat split; auto.
  unfold arcLengthValue. rewrite dotR_scal2, Hpsi.
  replace (Dl * Dl * dotR DD0 DD0 + Dl * Dl * dotR d0 d0 + B * Dl * Dl) with (a_stepSize a * a_stepSize a).
  - rewrite sqrt_square; lra.
  - replace (Dl * Dl * dotR DD0 DD0 + Dl * Dl * dotR d0 d0 + B * Dl * Dl) with (2 * B * (Dl * Dl)) by (unfold B; ring).
    rewrite <- Hss. unfold Dl. field. lra.
Qed.
