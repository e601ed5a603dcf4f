(** Properties C28, C29, C61 and C62 of the path-following functions. *)

From Coq Require Import List ZArith Bool Lia Floats Reals Lra.
From Coquelicot Require Import Coquelicot.
From Verif Require Import Newton_Model PathFunctions_Model PathFunctions_Spec PathFunctions_Proofs.
Import ListNotations.
Local Open Scope R_scope.

Lemma idbc_none req l : idbcR None req l = map (fun x => x * l) (map (fun _ => 0) (fst req)).
Proof. unfold idbcR, idbcIncrement, vzero. rewrite map_map. apply map_ext. intro; ring. Qed.

Lemma dot_zeros (x : list R) : dotR (map (fun _ => 0) x) (map (fun _ => 0) x) = 0.
Proof. apply dotR_zero. Qed.

(** ** C28: after the initial prediction the arc-length equation holds *)

(** Without prescribed displacements: for every dimension, tangent solution other than zero and positive step size. *)
Theorem C28_predictor : forall (lin : list R * R -> list R) s (req : list R * R) a,
  0 < a_stepSize a -> 0 < dotR (lin (fst req, 1)) (lin (fst req, 1)) ->
  let '(s', req', a') := arcInitialR None lin s req a in
  sqrt (dotR (a_DD a') (a_DD a') + arc_psi s' * arc_psi s' * (a_Dlambda a' * a_Dlambda a')) = a_stepSize a /\
  0 < a_Dlambda a' /\ a_DD a' = map (fun x => x * a_Dlambda a') (lin (fst req, 1)) /\
  a_f (arcEvalR None s' req' a') = 0.
Proof.
  intros lin s req a Hs HP. pose proof (arcInitial_satisfies None lin s req a (map (fun _ => 0) (fst req))) as H.
  destruct (arcInitialR None lin s req a) as [[s' req'] a'].
  destruct H as [H1 [H2 [H3 [H4 [H5 [H6 H7]]]]]]; auto.
  { rewrite dot_zeros. lra. }
  split; [|split; [auto|split; [auto|]]].
  - unfold arcLengthValue in H7. rewrite dot_zeros in H7. rewrite <- H4.
    replace (arc_psi s' * arc_psi s' * (a_Dlambda a' * a_Dlambda a')) with
      (a_Dlambda a' * a_Dlambda a' * 0 + arc_psi s' * arc_psi s' * a_Dlambda a' * a_Dlambda a') by ring.
    rewrite <- Rplus_assoc. lra.
  - rewrite arcEval_value with (d0 := map (fun _ => 0) (fst req')); [|apply idbc_none].
    revert H7. unfold arcLengthValue. rewrite !dot_zeros. auto.
Qed.

(** With prescribed displacements that are proportional to the load factor, starting at any load factor with a solution that satisfies them. *)
Definition syncTo (cs : list (option R)) (r : list R * R) : list R := prescribed cs (fst r) (snd r).

Lemma increment_prescribed cs x lambda l : satisfies cs x lambda ->
  idbcR (Some (syncTo cs)) (x, lambda) l = map (fun y => y * l) (prescribedRate cs).
Proof.
  intros [L E]. unfold idbcR, idbcIncrement, syncTo, vminus. cbn [fst snd]. revert x L E.
  induction cs as [|[c|] cs IH]; intros [|y x] L E; try discriminate; [reflexivity|..];
    cbn in L, E; injection L as L; assert (E' : prescribed cs x lambda = x) by congruence; cbn; f_equal; try apply (IH x L E').
  - assert (Ey : y = c * lambda) by congruence. rewrite Ey. ring.
  - ring.
Qed.
Lemma prescribed_satisfies cs x lambda : length x = length cs -> satisfies cs (prescribed cs x lambda) lambda.
Proof.
  unfold satisfies. revert x. induction cs as [|[c|] cs IH]; intros [|y x] L; try discriminate; [split; reflexivity|..];
    injection L as L; destruct (IH x L) as [A B]; cbn; rewrite A, B; split; reflexivity.
Qed.

Theorem C28_predictor_idbc : forall cs (lin : list R * R -> list R) s x lambda a, let d0 := prescribedRate cs in
  satisfies cs x lambda -> length (lin (x, 1)) = length cs ->
  0 < a_stepSize a -> 0 < dotR (lin (x, 1)) (lin (x, 1)) + dotR d0 d0 ->
  let '(s', (x', lambda'), a') := arcInitialR (Some (syncTo cs)) lin s (x, lambda) a in
  sqrt (dotR (a_DD a') (a_DD a') + a_Dlambda a' * a_Dlambda a' * dotR d0 d0 + arc_psi s' * arc_psi s' * a_Dlambda a' * a_Dlambda a') = a_stepSize a /\
  0 < a_Dlambda a' /\ a_DD a' = map (fun y => y * a_Dlambda a') (lin (x, 1)) /\
  satisfies cs x' lambda' /\
  a_f (arcEvalR (Some (syncTo cs)) s' (x', lambda') a') = 0.
Proof.
  intros cs lin s x lambda a d0 Sx Ll Hs HP. pose proof (arcInitial_satisfies (Some (syncTo cs)) lin s (x, lambda) a d0) as H.
  destruct (arcInitialR (Some (syncTo cs)) lin s (x, lambda) a) as [[s' [x' lambda']] a'] eqn:E.
  destruct H as [H1 [H2 [H3 [H4 [H5 [H6 H7]]]]]]; auto.
  { rewrite increment_prescribed by assumption. fold d0. transitivity (map (fun y => y) d0); [apply map_ext; intro; ring|apply map_id]. }
  cbn [snd] in H5.
  assert (Sx' : satisfies cs x' lambda').
  { unfold arcInitialR, arcInitial in E. cbv zeta in E. injection E as _ <- <- _. unfold syncTo at 1. cbn [fst snd]. apply prescribed_satisfies.
    unfold vplus. cbn [fst]. rewrite map_length, combine_length. unfold vdivs, vscal. rewrite !map_length, Ll. destruct Sx as [-> _]. apply Nat.min_id. }
  split; [|split; [auto|split; [auto|split; [exact Sx'|]]]].
  - unfold arcLengthValue in H7. rewrite <- H4. lra.
  - rewrite arcEval_value with (d0 := d0); [exact H7|]. apply increment_prescribed. exact Sx'.
Qed.

(** A negative step size is not met. *)
Theorem C28_negative_step : forall (lin : list R * R -> list R) s (req : list R * R) a,
  a_stepSize a < 0 -> 0 < dotR (lin (fst req, 1)) (lin (fst req, 1)) ->
  let '(s', req', a') := arcInitialR None lin s req a in a_f (arcEvalR None s' req' a') > 0.
Proof.
  intros lin s req a Hs HP. destruct (arcInitialR None lin s req a) as [[s' req'] a'] eqn:E.
  rewrite arcEval_value with (d0 := map (fun _ => 0) (fst req')); [|apply idbc_none].
  assert (a_stepSize a' = a_stepSize a) as -> by (inversion E; reflexivity).
  unfold arcLengthValue. match goal with |- sqrt ?x - _ > 0 => pose proof (sqrt_pos x) end. lra.
Qed.

(** Non-vacuity: K = 1, R = -3 at load factor 1, step size 2. *)
Example C28_example : let '(s', req', a') := arcInitialR None (fun _ => [3; 4]) (mkArc 0 false) ([0; 0], 0) (mkArgs 2 [0; 0] 0 0 [0; 0] 0 0%Z) in
  a_f (arcEvalR None s' req' a') = 0.
Proof.
  pose proof (C28_predictor (fun _ => [3; 4]) (mkArc 0 false) ([0; 0], 0) (mkArgs 2 [0; 0] 0 0 [0; 0] 0 0%Z)) as H.
  destruct (arcInitialR None _ _ _ _) as [[s' req'] a']. apply H; simpl; lra.
Qed.

(** Non-vacuity with a prescribed second displacement, at a load factor other than zero *)
Example C28_example_idbc : satisfies [None; Some 2] [5; 6] 3 /\ 0 < dotR [1; 0] [1; 0] + dotR (prescribedRate [None; Some 2]) (prescribedRate [None; Some 2]).
Proof. split; [split; [reflexivity|cbn; repeat f_equal; ring]|cbn; lra]. Qed.

(** ** C29: the derivatives *)

(** Arc length, after the initial prediction and for a load increment other than zero; with or without prescribed displacements. *)
Theorem C29_arc_length_partial : forall idbc s (req : list R * R) a d0,
  arc_computed s = true -> a_Dlambda a <> 0 ->
  (forall l, idbcR idbc req l = map (fun x => x * l) d0) ->
  0 < dotR (a_DD a) (a_DD a) + a_Dlambda a * a_Dlambda a * dotR d0 d0 + arc_psi s * arc_psi s * a_Dlambda a * a_Dlambda a ->
  let value DD Dl := a_f (arcEvalR idbc s req (setD a DD Dl)) in
  let r := arcEvalR idbc s req a in
  a_f r = arcLengthValue (arc_psi s) d0 (a_stepSize a) (a_DD a) (a_Dlambda a) /\
  hasDerivatives value (a_DD a) (a_Dlambda a) (a_dfdDD r) (a_dfdDlambda r).
Proof.
  intros idbc s req a d0 C L Hi P value r. split. { apply arcEval_value. auto. }
  destruct (arc_derivatives idbc s req a d0 C L (Hi _) P) as [H1 H2]. split; auto.
  intros v m Lv. eapply is_derive_ext; [|apply H2; auto].
  intro t. unfold value. symmetry. rewrite arcEval_value with (d0 := d0); [reflexivity|]. apply Hi.
Qed.

(** In particular when the prescribed displacements are proportional to the load factor and satisfied *)
Corollary C29_arc_length_idbc : forall cs s x lambda a, let d0 := prescribedRate cs in
  satisfies cs x lambda -> arc_computed s = true -> a_Dlambda a <> 0 ->
  0 < dotR (a_DD a) (a_DD a) + a_Dlambda a * a_Dlambda a * dotR d0 d0 + arc_psi s * arc_psi s * a_Dlambda a * a_Dlambda a ->
  let value DD Dl := a_f (arcEvalR (Some (syncTo cs)) s (x, lambda) (setD a DD Dl)) in
  let r := arcEvalR (Some (syncTo cs)) s (x, lambda) a in
  a_f r = arcLengthValue (arc_psi s) d0 (a_stepSize a) (a_DD a) (a_Dlambda a) /\
  hasDerivatives value (a_DD a) (a_Dlambda a) (a_dfdDD r) (a_dfdDlambda r).
Proof. intros cs s x lambda a d0 Sx C L P. apply C29_arc_length_partial; auto. intros l. now apply increment_prescribed. Qed.

Theorem C29_load_control : forall s (req : list R * R) a, length (a_dfdDD a) = length (a_DD a) ->
  let value DD Dl := a_f (lcsEval 0 1 Rminus s req (setD a DD Dl)) in
  let r := lcsEval 0 1 Rminus s req a in
  a_f r = a_Dlambda a - a_stepSize a /\
  hasDerivatives value (a_DD a) (a_Dlambda a) (a_dfdDD r) (a_dfdDlambda r).
Proof.
  intros s req a L value r. split; [reflexivity|]. unfold value, r, lcsEval. simpl. split.
  { unfold vzero. rewrite map_length. auto. }
  intros v m _. rewrite dotR_zero. auto_derive; auto. ring.
Qed.

(** Displacement control: for every set of controlled dofs, where the function is differentiable. *)
Theorem C29_displacement_control : forall idx s (req : list R * R) a,
  NoDup idx -> (forall i, In i idx -> (i < length (a_DD a))%nat) -> length (a_dfdDD a) = length (a_DD a) ->
  (exists i, In i idx /\ nth i (a_DD a) 0 <> 0) ->
  let value DD Dl := a_f (dcEvalR idx s req (setD a DD Dl)) in
  let r := dcEvalR idx s req a in
  a_f r = displacementValue idx (a_stepSize a) (a_DD a) /\
  hasDerivatives value (a_DD a) (a_Dlambda a) (a_dfdDD r) (a_dfdDlambda r).
Proof.
  intros idx s req a ND Hin L Hne value r. split. { apply dcEval_value. }
  destruct (dc_derivatives idx s req a ND L Hin Hne) as [H1 H2]. split; auto.
  intros v m Lv. eapply is_derive_ext; [|apply (H2 v m); auto]. intro t. unfold value. rewrite dcEval_value. reflexivity.
Qed.

(** Without the initial prediction the arc-length function reports zero derivatives. *)
Theorem C29_before_prediction_refuted : exists s (req : list R * R) a,
  let value DD Dl := a_f (arcEvalR None s req (setD a DD Dl)) in
  let r := arcEvalR None s req a in
  ~ hasDerivatives value (a_DD a) (a_Dlambda a) (a_dfdDD r) (a_dfdDlambda r) /\
  hasDerivatives value (a_DD a) (a_Dlambda a) [1] 0.
Proof.
  exists (mkArc 0 false), ([0], 1), (mkArgs 1 [1] 1 0 [0] 0 0%Z).
  set (a := mkArgs 1 [1] 1 0 [0] 0 0%Z). set (s := mkArc 0 false).
  cbv zeta.
  assert (V : forall DD Dl, a_f (arcEvalR None s ([0], 1) (setD a DD Dl)) = arcLengthValue 0 [0] 1 DD Dl).
  { intros. rewrite arcEval_value with (d0 := [0]); [reflexivity|]. rewrite idbc_none. reflexivity. }
  assert (D : forall m, is_derive (fun t => arcLengthValue 0 [0] 1 [1 + t * 1] (1 + t * m)) 0 1).
  { intro m. eapply is_derive_ext with (f := fun t => sqrt (1 + 2 * t * 1 + t * t * 1) - 1).
    - intro t. unfold arcLengthValue. simpl. f_equal. f_equal. ring.
    - pose proof (root_derive 1 1 1 1 ltac:(lra)) as Q. rewrite sqrt_1 in Q. replace (1 / 1) with 1 in Q by field. exact Q. }
  split.
  - intros [_ H]. specialize (H [1] 0 eq_refl). simpl in H.
    assert (E : is_derive (fun t => arcLengthValue 0 [0] 1 [1 + t * 1] (1 + t * 0)) 0 (0 * 1 + 0 + 0 * 0)).
    { eapply is_derive_ext; [|exact H]. intro t. apply V. }
    apply is_derive_unique in E. pose proof (is_derive_unique _ _ _ (D 0)). lra.
  - split; [reflexivity|]. intros [|v [|? ?]] m L; try discriminate. simpl.
    eapply is_derive_ext; [intro t; symmetry; apply V|].
    eapply is_derive_ext with (f := fun t => sqrt (1 + 2 * t * v + t * t * (v * v)) - 1).
    + intro t. unfold arcLengthValue. simpl. f_equal. f_equal. ring.
    + replace (1 * v + 0 + 0 * m) with (v / sqrt 1) by (rewrite sqrt_1; field). apply root_derive. lra.
Qed.

(** For a zero load increment the arc-length function is differentiable, but the reported derivative is NaN (0/0): binary64. *)
Theorem C29_zero_load_increment_refuted : exists (s : arcState) (req : list float * float) a,
  arc_computed s = true /\ a_Dlambda a = 0%float /\
  let r := arcEval 0%float PrimFloat.add PrimFloat.sub PrimFloat.mul PrimFloat.div PrimFloat.sqrt None s req a in
  a_f r = 2%float /\ a_dfdDD r = [1%float] /\ is_nan (a_dfdDlambda r) = true.
Proof.
  exists (mkArc 1%float true), ([0%float], 0%float), (mkArgs 1 [3] 0 0 [0] 0 0%Z)%float.
  split; [reflexivity|]. split; [reflexivity|]. split; [vm_compute; reflexivity|]. split; vm_compute; reflexivity.
Qed.

(** A repeated controlled index spoils the derivative (the list of indices is not checked). *)
Theorem C29_repeated_index_refuted : exists idx s (req : list R * R) a,
  let value DD Dl := a_f (dcEvalR idx s req (setD a DD Dl)) in
  let r := dcEvalR idx s req a in
  ~ hasDerivatives value (a_DD a) (a_Dlambda a) (a_dfdDD r) (a_dfdDlambda r) /\ exists g, hasDerivatives value (a_DD a) (a_Dlambda a) g 0.
Proof.
  exists [0%nat; 0%nat], true, ([0], 1), (mkArgs 1 [1] 1 0 [0] 0 0%Z).
  set (a := mkArgs 1 [1] 1 0 [0] 0 0%Z). cbv zeta.
  assert (V : forall DD Dl, a_f (dcEvalR [0%nat; 0%nat] true ([0], 1) (setD a DD Dl)) = displacementValue [0%nat; 0%nat] 1 DD).
  { intros. rewrite dcEval_value. reflexivity. }
  assert (D : forall v m, is_derive (fun t => a_f (dcEvalR [0%nat; 0%nat] true ([0], 1) (setD a [1 + t * v] (1 + t * m)))) 0 (2 * v / sqrt 2)).
  { intros v m. eapply is_derive_ext with (f := fun t => sqrt (2 + 2 * t * (2 * v) + t * t * (2 * v * v)) - 1).
    - intro t. symmetry. etransitivity; [apply V|]. unfold displacementValue. simpl. f_equal. f_equal. ring.
    - apply root_derive. lra. }
  pose proof (sqrt_lt_R0 2 ltac:(lra)) as S2. pose proof (sqrt_sqrt 2 ltac:(lra)) as SS.
  split.
  - intros [_ H]. specialize (H [1] 0 eq_refl).
    assert (G : a_dfdDD (dcEvalR [0%nat; 0%nat] true ([0], 1) a) = [1 / sqrt 2]).
    { unfold dcEvalR, dcEval. simpl. rewrite sqNorm_dotR. simpl. do 3 f_equal. ring. }
    rewrite G in H. simpl in H.
    apply is_derive_unique in H. pose proof (is_derive_unique _ _ _ (D 1 0)) as H'.
    assert (E : 2 * 1 / sqrt 2 = 1 / sqrt 2 * 1 + 0 + 0 * 0) by (rewrite <- H'; exact H).
    assert (0 < 1 / sqrt 2) by (apply Rdiv_lt_0_compat; lra).
    replace (2 * 1 / sqrt 2) with (2 * (1 / sqrt 2)) in E by (field; lra). lra.
  - exists [2 / sqrt 2]. split; [reflexivity|]. intros [|v [|? ?]] m L; try discriminate.
    replace (dotR [2 / sqrt 2] [v] + 0 * m) with (2 * v / sqrt 2) by (simpl; field; lra). apply (D v m).
Qed.

(** Non-vacuity of the derivative theorems. *)
Example C29_arc_example : let a := mkArgs 1 [3; 4] 2 0 [0; 0] 0 0%Z in
  hasDerivatives (fun DD Dl => a_f (arcEvalR None (mkArc 1 true) ([0; 0], 0) (setD a DD Dl))) [3; 4] 2
    (a_dfdDD (arcEvalR None (mkArc 1 true) ([0; 0], 0) a)) (a_dfdDlambda (arcEvalR None (mkArc 1 true) ([0; 0], 0) a)).
Proof.
  intro a. apply (C29_arc_length_partial None (mkArc 1 true) ([0; 0], 0) a [0; 0]).
  - reflexivity.
  - simpl. lra.
  - intro l. rewrite idbc_none. reflexivity.
  - simpl. lra.
Qed.

Example C29_displacement_example : let a := mkArgs 1 [3; 4; 0] 2 0 [0; 0; 0] 0 0%Z in
  hasDerivatives (fun DD Dl => a_f (dcEvalR [2; 0]%nat true ([0; 0; 0], 0) (setD a DD Dl))) [3; 4; 0] 2
    (a_dfdDD (dcEvalR [2; 0]%nat true ([0; 0; 0], 0) a)) 0.
Proof.
  intro a. apply (C29_displacement_control [2; 0]%nat true ([0; 0; 0], 0) a); simpl.
  - repeat constructor; simpl; intuition discriminate.
  - intros i [<-|[<-|[]]]; lia.
  - reflexivity.
  - exists 0%nat. split; [auto|]. simpl. lra.
Qed.

(** ** C61: the first step continues from the given state *)

(** Arc length and load control put the load factor of the first step to the increment, whatever load factor was given. *)
Theorem C61_arc_length_restart_refuted : exists lin s (req : list R * R) a,
  let '(s', req', a') := arcInitialR None lin s req a in
  snd req' <> snd req + a_Dlambda a' /\ snd req' = a_Dlambda a'.
Proof.
  exists (fun _ => [1]), (mkArc 0 false), ([0], 5), (mkArgs 1 [0] 0 0 [0] 0 0%Z).
  unfold arcInitialR, arcInitial. simpl. split; [|reflexivity]. lra.
Qed.

Theorem C61_load_control_restart_refuted : exists s (req : list R * R) a,
  let '(s', req', a') := lcsInitial s req a in snd req' <> snd req + a_Dlambda a' /\ snd req' = a_Dlambda a'.
Proof.
  exists false, ([0], 5), (mkArgs 1 [0] 0 0 [0] 0 0%Z). simpl. split; [lra|reflexivity].
Qed.

(** Displacement control replaces the given solution by the increment. *)
Theorem C61_displacement_restart_refuted : exists idx s (req : list R * R) a,
  let '(s', req', a') := dcInitial idx s req a in fst req' <> along (fst req) (a_DD a') 1 /\ fst req' = a_DD a'.
Proof.
  exists [0%nat], false, ([5], 0), (mkArgs 1 [0] 0 0 [0] 0 0%Z). simpl. split; [|reflexivity].
  intro H. inversion H. lra.
Qed.

(** What holds: from load factor zero (arc length, load control) or zero displacement (displacement control) the first step starts at the given state;
    and every later step does so from any state. *)
Theorem C61_from_zero_partial :
  (forall idbc lin s x a, let '(s', req', a') := arcInitialR idbc lin s (x, 0) a in snd req' = 0 + a_Dlambda a') /\
  (forall lin s x p a, length (lin (x, 1)) = length x -> let '(s', req', a') := arcInitialR None lin s (x, p) a in fst req' = along x (a_DD a') 1) /\
  (forall s (x : list R) a, let '(s', req', a') := lcsInitial s (x, 0) a in fst req' = x /\ snd req' = 0 + a_Dlambda a') /\
  (forall idx s (x : list R) p a, length x = length (a_DD a) -> (forall y, In y x -> y = 0) ->
     let '(s', req', a') := dcInitial idx s (x, p) a in fst req' = along x (a_DD a') 1 /\ snd req' = p).
Proof.
  split; [|split; [|split]].
  - intros. unfold arcInitialR, arcInitial. simpl. ring.
  - intros lin s x p a L. unfold arcInitialR, arcInitial. simpl.
    set (dd := vdivs Rdiv _ _). assert (Ld : length dd = length x) by (unfold dd, vdivs, vscal; rewrite !map_length; auto).
    clearbody dd. revert dd Ld. clear. induction x as [|y x IH]; intros [|d dd] Ld; simpl in *; try discriminate; auto.
    unfold vplus in *. simpl. f_equal; [ring|]. apply IH. lia.
  - intros. simpl. split; [auto|ring].
  - intros idx s x p a L Hz. unfold dcInitial. simpl. split; auto.
    set (dd := scatter _ _ _). assert (Ld : length dd = length x) by (unfold dd; rewrite scatter_length; auto).
    clearbody dd. revert dd Ld. clear - Hz. induction x as [|y x IH]; intros [|d dd] Ld; simpl in *; try discriminate; auto.
    f_equal; [rewrite (Hz y) by auto; ring|]. apply IH; auto.
Qed.

(** The intermediate prediction adds the increments, and it is refused before an initial prediction. *)
Theorem C61_intermediate : forall (x : list R) p a, length (a_DD a) = length x ->
  (forall s, arcIntermediate Rplus None s (x, p) a = if arc_computed s then Some ((along x (a_DD a) 1, p + a_Dlambda a), a) else None) /\
  (forall s, lcsIntermediate Rplus s (x, p) a = if s then Some ((x, p + a_Dlambda a), a) else None) /\
  (forall s, dcIntermediate Rplus s (x, p) a = if s then Some ((along x (a_DD a) 1, p), a) else None).
Proof.
  intros x p a L.
  assert (E : vplus Rplus x (a_DD a) = along x (a_DD a) 1).
  { revert L. generalize (a_DD a). induction x as [|y x IH]; intros [|d dd] L; simpl in *; try discriminate; auto.
    unfold vplus in *. simpl. f_equal; [ring|]. apply IH. lia. }
  unfold arcIntermediate, lcsIntermediate, dcIntermediate. simpl. rewrite E. auto.
Qed.

(** ** C62: load- and displacement-control predictors satisfy their equations *)

Theorem C62_load_control : forall s (req : list R * R) a,
  let '(s', req', a') := lcsInitial s req a in a_f (lcsEval 0 1 Rminus s' req' a') = 0.
Proof. intros. simpl. ring. Qed.

(** With two controlled dofs the predicted increment is longer than the step size. *)
Theorem C62_two_dofs_refuted : exists idx s (req : list R * R) a, NoDup idx /\ 0 < a_stepSize a /\
  let '(s', req', a') := dcInitial idx s req a in a_f (dcEvalR idx s' req' a') <> 0.
Proof.
  exists [0; 1]%nat, false, ([0; 0], 0), (mkArgs 1 [0; 0] 0 0 [0; 0] 0 0%Z).
  split; [repeat constructor; simpl; intuition discriminate|]. split; [simpl; lra|].
  cbn [dcInitial]. rewrite dcEval_value. unfold displacementValue. simpl.
  intro H. assert (E : sqrt (1 * 1 + (1 * 1 + 0)) = 1) by lra.
  pose proof (sqrt_sqrt (1 * 1 + (1 * 1 + 0)) ltac:(lra)). rewrite E in *. lra.
Qed.

Lemma setNth_nth_eq (v : list R) : forall i x, (i < length v)%nat -> nth i (setNth v i x) 0 = x.
Proof. induction v as [|y v IH]; intros [|i] x H; simpl in *; auto; try lia. apply IH. lia. Qed.

Lemma scatter_const idx : forall (v : list R) c i, (forall i, In i idx -> (i < length v)%nat) -> In i idx ->
  nth i (scatter v idx (map (fun _ => c) idx)) 0 = c.
Proof.
  induction idx as [|j idx IH]; intros v c i Hr Hi; simpl in *; [tauto|].
  destruct (in_dec Nat.eq_dec i idx) as [I|N].
  - apply IH; auto. intros k Hk. rewrite setNth_length. auto.
  - destruct Hi as [->|]; [|tauto].
    assert (K : forall (w : list R) xs, nth i (scatter w idx xs) 0 = nth i w 0).
    { clear - N. induction idx as [|k idx IH]; intros w [|x xs]; simpl; auto.
      rewrite IH by (simpl in N; tauto). apply setNth_nth_ne. simpl in N. intro; subst; tauto. }
    rewrite K. apply setNth_nth_eq. auto.
Qed.

(** The exact value: with [k] controlled dofs the increment has length [stepSize * sqrt k]; the equation holds for [k = 1]. *)
Theorem C62_displacement_partial : forall idx s (req : list R * R) a, 0 <= a_stepSize a ->
  (forall i, In i idx -> (i < length (a_DD a))%nat) ->
  let '(s', req', a') := dcInitial idx s req a in
  a_f (dcEvalR idx s' req' a') = a_stepSize a * sqrt (INR (length idx)) - a_stepSize a /\
  (length idx = 1%nat -> a_f (dcEvalR idx s' req' a') = 0).
Proof.
  intros idx s req a Hs Hr. unfold dcInitial. set (dd := scatter (a_DD a) idx _).
  rewrite dcEval_value. simpl. unfold displacementValue.
  assert (E : forall l, (forall i, In i l -> nth i dd 0 = a_stepSize a) ->
    fold_right (fun i acc => nth i dd 0 * nth i dd 0 + acc) 0 l = a_stepSize a * a_stepSize a * INR (length l)).
  { induction l as [|i l IH]; intros H; cbn [fold_right length]; [simpl; ring|].
    rewrite IH by (intros; apply H; right; auto). rewrite H by (left; auto). rewrite S_INR. ring. }
  rewrite E by (intros i Hi; unfold dd; apply scatter_const; auto).
  assert (E2 : sqrt (a_stepSize a * a_stepSize a * INR (length idx)) = a_stepSize a * sqrt (INR (length idx))).
  { rewrite sqrt_mult; [|nra|apply pos_INR]. rewrite sqrt_square by auto. reflexivity. }
  rewrite E2. split; [reflexivity|]. intros ->. simpl. rewrite sqrt_1. ring.
Qed.

Example C62_example : let '(s', req', a') := dcInitial [1%nat] false ([0; 0], 0) (mkArgs 3 [0; 0] 0 0 [0; 0] 0 0%Z) in
  a_f (dcEvalR [1%nat] s' req' a') = 0.
Proof.
  apply (C62_displacement_partial [1%nat] false ([0; 0], 0) (mkArgs 3 [0; 0] 0 0 [0; 0] 0 0%Z)); simpl; try lra; auto.
  intros i [<-|[]]. lia.
Qed.

Print Assumptions C28_predictor.
Print Assumptions C28_predictor_idbc.
Print Assumptions C28_negative_step.
Print Assumptions C29_arc_length_partial.
Print Assumptions C29_load_control.
Print Assumptions C29_displacement_control.
Print Assumptions C29_before_prediction_refuted.
Print Assumptions C29_zero_load_increment_refuted.
Print Assumptions C29_repeated_index_refuted.
Print Assumptions C61_arc_length_restart_refuted.
Print Assumptions C61_load_control_restart_refuted.
Print Assumptions C61_displacement_restart_refuted.
Print Assumptions C61_from_zero_partial.
Print Assumptions C61_intermediate.
Print Assumptions C62_load_control.
Print Assumptions C62_two_dofs_refuted.
Print Assumptions C62_displacement_partial.

(** A new arc-length function refuses a continuation without a first step, and all functions accept one after their first step;
    the values of new arguments are those of no increment *)
Theorem C61_new : forall (idbc : option (list R * R -> list R)) lin idx (x : list R) lambda a,
  arcIntermediate Rplus idbc (arcInit 0) (x, lambda) a = None /\
  (forall s, let '(s', req', a') := arcInitialR idbc lin s (x, lambda) a in arcIntermediate Rplus idbc s' req' a' <> None) /\
  (forall s, let '(s', req', a') := lcsInitial s (x, lambda) a in lcsIntermediate Rplus s' req' a' <> None) /\
  (forall s, let '(s', req', a') := dcInitial idx s (x, lambda) a in dcIntermediate Rplus s' req' a' <> None) /\
  (let r := arcEvalR None (arcInit 0) (x, lambda) (argsZero 0 x) in
   a_DD (argsZero 0 x) = map (fun _ => 0) x /\ a_Dlambda (argsZero 0 x) = 0 /\ a_stepSize (argsZero 0 x) = 0 /\ a_step (argsZero 0 x) = 0%Z /\
   a_f (argsZero 0 x) = 0 /\ a_dfdDD (argsZero 0 x) = map (fun _ => 0) x /\ a_dfdDlambda (argsZero 0 x) = 0 /\
   a_f r = 0 /\ a_dfdDD r = map (fun _ => 0) x /\ a_dfdDlambda r = 0).
Proof.
  intros idbc lin idx x lambda a. split; [reflexivity|]. split; [|split; [discriminate|split; [discriminate|]]].
  - intros s. destruct (arcInitialR idbc lin s (x, lambda) a) as [[s' req'] a'] eqn:E. unfold arcInitialR, arcInitial in E. injection E as <- <- <-. discriminate.
  - cbv zeta. do 7 (split; [reflexivity|]). split; [|split].
    + rewrite arcEval_value with (d0 := map (fun _ => 0) x); [|apply idbc_none]. unfold arcLengthValue. cbn [argsZero a_DD a_Dlambda a_stepSize arcInit arc_psi].
      unfold vzero. rewrite dot_zeros. replace (0 + 0 * 0 * 0 + 0 * 0 * 0 * 0) with 0 by ring. rewrite sqrt_0. ring.
    + cbn. unfold vzero. now rewrite map_map.
    + reflexivity.
Qed.
Print Assumptions C61_new.
