(** Property C156: what the steps of the arc-length method satisfy. *)

From Coq Require Import List Arith ZArith Bool Reals Lia Lra.
From Coquelicot Require Import Coquelicot.
From Verif Require Import FEHelper_Model Assembler_Model Assembler_Spec Newton_Model Newton_Spec Newton_Proofs Newton_Props NewtonSteps_Props.
From Verif Require Import Control_Model Control_Spec Control_Proofs Control_Props PathFunctions_Model PathFunctions_Spec PathFunctions_Proofs.
From Verif Require Import Tensor_Spec Element_Spec Element_Model AssemblyMesh_Model AssemblyMesh_Props StructureNewton_Model StructureNewton_Props
  StructureLoad_Props ControlLogger_Model ControlLogger_Props ArcLengthRun_Model.
Import ListNotations.
Local Open Scope R_scope.

(** ** The steps of path following *)
Section Chain.
  Context {T X W V PF : Type}.
  Variables (listen : cmsg -> cinfo T -> Z -> T -> X * T -> W -> W) (t0 : T).
  Variable psolve : PF -> X * T -> subArgs T V -> W -> (X * T) * subArgs T V * W * nlinfo T.
  Variable initialPrediction : PF -> X * T -> subArgs T V -> W -> PF * (X * T) * subArgs T V.
  Variable intermediatePrediction : PF -> X * T -> subArgs T V -> option ((X * T) * subArgs T V).
  Variable adaptive : Z -> nlinfo T -> T -> option T.
  Variable zeroArgs : X -> subArgs T V.

  (** From the requirement and arguments after a step on: informations and results of the later steps *)
  Inductive laterSolves (pf : PF) : Z -> X * T -> subArgs T V -> nlinfo T -> list (nlinfo T) -> list (X * T) -> Prop :=
  | later_none ls req a i0 : laterSolves pf ls req a i0 [] []
  | later_one ls req a i0 st req1 a1 w req2 a2 w2 i l r : adaptive ls i0 (a_stepSize a) = Some st ->
      intermediatePrediction pf req (withStep a st ls) = Some (req1, a1) -> psolve pf req1 a1 w = (req2, a2, w2, i) ->
      laterSolves pf (ls + 1) req2 a2 i l r -> laterSolves pf ls req a i0 (i :: l) (req2 :: r).

  Lemma pfSolve_results pf a s : exists req a' w i, psolve pf (k_x s, k_p s) a (k_w s) = (req, a', w, i) /\
    let s' := fst (fst (pfSolve listen psolve pf a s)) in pfSolve listen psolve pf a s = (s', a', i) /\
    (k_x s', k_p s') = req /\ c_infos (k_info s') = c_infos (k_info s) ++ [i] /\ stepResults (k_trace s') = stepResults (k_trace s) ++ [req].
  Proof.
    unfold pfSolve. destruct (psolve pf (k_x s, k_p s) a (k_w s)) as [[[req a'] w] i]. exists req, a', w, i. split; [reflexivity|]. cbn [fst snd].
    split; [reflexivity|]. split; [cbn; destruct req; reflexivity|]. split; [reflexivity|]. rewrite results_update. cbn [k_trace k_x k_p]. destruct req; reflexivity.
  Qed.

  Lemma pfLoop_later n : forall ls pf a i0 s, exists l r, let s' := resState (pfLoop listen psolve intermediatePrediction adaptive n ls pf a i0 s) in
    laterSolves pf ls (k_x s, k_p s) a i0 l r /\ c_infos (k_info s') = c_infos (k_info s) ++ l /\ stepResults (k_trace s') = stepResults (k_trace s) ++ r.
  Proof.
    induction n as [|n IH]; intros ls pf a i0 s; cbn [pfLoop]; cbv zeta.
    - exists [], []. split; [constructor|]. cbn [resState setSuccess k_info c_infos k_trace]. rewrite results_emit. cbn. rewrite !app_nil_r. auto.
    - assert (Stop : exists l r, laterSolves pf ls (k_x s, k_p s) a i0 l r /\ c_infos (k_info s) = c_infos (k_info s) ++ l /\ stepResults (k_trace s) = stepResults (k_trace s) ++ r)
        by (exists [], []; rewrite !app_nil_r; repeat split; constructor).
      destruct (adaptive ls i0 (a_stepSize a)) as [st|] eqn:Ea; [|exact Stop]. cbn [k_x k_p].
      destruct (intermediatePrediction pf (k_x s, k_p s) (withStep a st ls)) as [[req1 a1]|] eqn:Ei; [|exact Stop]. clear Stop.
      set (s2 := cemit listen STEP_STARTED _).
      assert (A : (k_x s2, k_p s2) = req1 /\ k_info s2 = k_info s /\ stepResults (k_trace s2) = stepResults (k_trace s)).
      { subst s2. rewrite results_emit. cbn. rewrite app_nil_r. destruct req1; auto. }
      destruct A as (A1 & A2 & A3). clearbody s2.
      destruct (pfSolve_results pf a1 s2) as (req2 & a2 & w & i & E1 & E2 & E3 & E4 & E5). rewrite E2. cbv beta iota. rewrite A1 in E1.
      set (s3 := fst (fst (pfSolve listen psolve pf a1 s2))) in *. clearbody s3. rewrite A2 in E4. rewrite A3 in E5.
      destruct (i_success i).
      + destruct (IH (ls + 1)%Z pf a2 i s3) as (l & r & F1 & F2 & F3). exists (i :: l), (req2 :: r). rewrite E3 in F1.
        split; [eapply later_one; eauto|]. rewrite F2, F3, E4, E5, <- !app_assoc. auto.
      + exists [i], [req2]. split; [eapply later_one; eauto; constructor|]. cbn [resState]. auto.
  Qed.

  (** The whole run *)
  Lemma pfRun_chain n st pf x p w : let s := resState (pfRun listen t0 psolve initialPrediction intermediatePrediction adaptive zeroArgs n st pf x p w) in
    exists w0 req0 a0 w1 i0 l r,
    psolve pf (x, p) (withStep (zeroArgs x) st (a_step (zeroArgs x))) w0 = (req0, a0, w1, i0) /\
    c_infos (k_info s) = i0 :: l /\ stepResults (k_trace s) = req0 :: r /\ (i_success i0 = true -> match l with [] => False | _ => True end) /\
    match l, r with
    | [], [] => True
    | i1 :: l', req1 :: r' => exists w2 pf' reqp ap w3 a1 w4, initialPrediction pf req0 a0 w2 = (pf', reqp, ap) /\
        psolve pf' reqp ap w3 = (req1, a1, w4, i1) /\ laterSolves pf' 1 req1 a1 i1 l' r'
    | _, _ => False
    end.
  Proof.
    unfold pfRun. cbv zeta. set (s0 := cemit listen STEP_STARTED _).
    assert (A : (k_x s0, k_p s0) = (x, p) /\ k_info s0 = mkCInfo false [] 0 /\ stepResults (k_trace s0) = []) by (subst s0; cbn; auto).
    destruct A as (A1 & A2 & A3). clearbody s0.
    match goal with |- context [pfSolve listen psolve pf ?aa s0] => destruct (pfSolve_results pf aa s0) as (req0 & a0 & w1 & i0 & E1 & E2 & E3 & E4 & E5);
      rewrite E2; set (s1 := fst (fst (pfSolve listen psolve pf aa s0))) in * end.
    cbv beta iota. clearbody s1. rewrite A1 in E1. rewrite A2 in E4. rewrite A3 in E5. cbn [c_infos app] in E4, E5.
    destruct (i_success i0) eqn:Ei0.
    - set (s3 := cemit listen STEP_STARTED _).
      assert (B : (k_x s3, k_p s3) = req0 /\ k_info s3 = k_info s1 /\ stepResults (k_trace s3) = stepResults (k_trace s1)).
      { subst s3. rewrite results_emit. cbn. rewrite app_nil_r. auto. }
      destruct B as (B1 & B2 & B3). clearbody s3. rewrite B1.
      destruct (initialPrediction pf req0 a0 (k_w s3)) as [[pf' reqp] ap] eqn:Ep.
      match goal with |- context [pfSolve listen psolve pf' ap ?sx] => destruct (pfSolve_results pf' ap sx) as (req1 & a1 & w4 & i1 & F1 & F2 & F3 & F4 & F5);
        rewrite F2; set (s4 := fst (fst (pfSolve listen psolve pf' ap sx))) in * end.
      cbv beta iota. clearbody s4. cbn [k_x k_p k_w k_info k_trace] in F1, F4, F5. rewrite <- surjective_pairing in F1. rewrite B2, E4 in F4. rewrite B3, E5 in F5. cbn [app] in F4, F5.
      destruct (i_success i1).
      + destruct (pfLoop_later (Z.to_nat (n - 1)) 1%Z pf' a1 i1 s4) as (l & r & G1 & G2 & G3). rewrite F3 in G1. cbv zeta in G2, G3.
        exists (k_w s0), req0, a0, w1, i0, (i1 :: l), (req1 :: r). rewrite G2, G3, F4, F5. split; [exact E1|]. split; [reflexivity|]. split; [reflexivity|]. split; [auto|].
        exists (k_w s3), pf', reqp, ap, (k_w s3), a1, w4. auto.
      + exists (k_w s0), req0, a0, w1, i0, [i1], [req1]. cbn [resState]. split; [exact E1|]. split; [exact F4|]. split; [exact F5|]. split; [auto|].
        exists (k_w s3), pf', reqp, ap, (k_w s3), a1, w4. split; [exact Ep|]. split; [exact F1|]. constructor.
    - exists (k_w s0), req0, a0, w1, i0, [], []. cbn [resState]. split; [exact E1|]. split; [exact E4|]. split; [exact E5|]. split; [congruence|exact I].
  Qed.
End Chain.

(** ** Vectors *)
Lemma minus_plus (x : list R) : forall y c, vminus Rminus (vplus Rplus y c) x = vplus Rplus (vminus Rminus y x) c.
Proof.
  unfold vminus, vplus. induction x as [|a x IH]; intros [|b y] [|d c]; cbn; try reflexivity. rewrite IH. f_equal. ring.
Qed.
Lemma minus_plus_same (x : list R) : forall d, (length d <= length x)%nat -> vminus Rminus (vplus Rplus x d) x = d.
Proof.
  unfold vminus, vplus. induction x as [|a x IH]; intros [|b d] L; cbn in *; try reflexivity; [lia|]. rewrite IH by lia. f_equal. ring.
Qed.
Lemma minus_length (y x : list R) : (length (vminus Rminus y x) <= length y)%nat.
Proof. unfold vminus. rewrite map_length, combine_length. lia. Qed.
Lemma minus_self (x : list R) : vminus Rminus x x = vzero 0 x.
Proof. unfold vminus, vzero. induction x as [|a x IH]; [reflexivity|]. cbn. rewrite IH. f_equal. ring. Qed.
Lemma fold_minus cs : forall (y x : list R), vminus Rminus (fold_left (vplus Rplus) cs y) x = fold_left (vplus Rplus) cs (vminus Rminus y x).
Proof. induction cs as [|c cs IH]; intros y x; [reflexivity|]. cbn [fold_left]. rewrite IH, minus_plus. reflexivity. Qed.
Lemma fold_plus_number cs : forall (a b : R), fold_left Rplus cs a - b = fold_left Rplus cs (a - b).
Proof. induction cs as [|c cs IH]; intros a b; [reflexivity|]. cbn. rewrite IH. f_equal. ring. Qed.
Lemma norm_dotR v : norm v = sqrt (dotR v v).
Proof.
  unfold norm. f_equal. enough (H : forall a, fold_left (fun s x => s + x * x) v a = a + dotR v v) by (rewrite H; ring).
  induction v as [|x v IH]; intros a; cbn; [ring|]. rewrite IH. ring.
Qed.

(** ** One step *)
Section Run.
  Context {J W : Type}.
  Variables (residual : list R * R -> list R) (tangent : list R * R -> J) (lsolve : J -> list R -> list R) (lin : list R * R -> list R).
  Variable listenSolver : nlmsg -> nlinfo R -> list R -> list R * R -> W -> W.
  Variable listenControl : cmsg -> cinfo R -> Z -> R -> list R * R -> W * list R -> W * list R.
  Variables (inf tol : R) (maxIter : Z).
  Variable adaptive : Z -> nlinfo R -> R -> option R.
  Hypothesis limit : (0 <= maxIter)%Z.
  Notation solve := (arcSolve residual tangent lsolve listenSolver inf tol maxIter).

  (** the distance in the plane of solution and load factor *)
  Definition distance (psi : R) (from to : list R * R) : R :=
    sqrt (dotR (vminus Rminus (fst to) (fst from)) (vminus Rminus (fst to) (fst from)) + (psi * (snd to - snd from)) * (psi * (snd to - snd from))).

  Lemma arc_keeps pf d (a : subArgs R (list R)) : let b := arcEval 0 Rplus Rminus Rmult Rdiv sqrt None pf d a in
    a_DD b = a_DD a /\ a_Dlambda b = a_Dlambda a /\ a_stepSize b = a_stepSize a /\
    a_f b = sqrt (dotR (a_DD a) (a_DD a) + (arc_psi pf * a_Dlambda a) * (arc_psi pf * a_Dlambda a)) - a_stepSize a.
  Proof.
    cbv zeta. unfold arcEval. cbv zeta.
    assert (F : forall x, sqNorm 0 Rplus Rmult (idbcIncrement (T:=R) 0 Rplus Rminus None d x) = 0) by (intros x; rewrite sqNorm_dotR; apply dotR_zero).
    destruct (arc_computed pf); cbn [setF a_DD a_Dlambda a_stepSize a_f]; rewrite F, sqNorm_dotR; repeat split; f_equal; f_equal; ring.
  Qed.

  (** The increments of the arguments are those of the requirement since [from] *)
  Definition counts (from req : list R * R) (a : subArgs R (list R)) : Prop :=
    a_DD a = vminus Rminus (fst req) (fst from) /\ a_Dlambda a = snd req - snd from.

  Lemma solve_step pf from req a w req' a' w' i : counts from req a -> solve pf req a w = (req', a', w', i) ->
    counts from req' a' /\ a_stepSize a' = a_stepSize a /\
    (i_success i = true -> norm (residual req') <= tol /\
      ((0 < i_iter i)%Z -> Rabs (distance (arc_psi pf) from req' - a_stepSize a) <= tol) /\ (i_iter i = 0%Z -> req' = req)).
  Proof.
    intros [C1 C2]. unfold arcSolve. destruct (nrsSolve _ _ _ _ _ _ _ _ _ _ _ _ _ _ _ _ _ _ _ _ _ _ _ _ _ _ _ _) as [(s, a1)|] eqn:E.
    2:{ intros H; inversion H; subst. split; [split; auto|]. split; [reflexivity|]. discriminate. }
    intros H; inversion H; subst req' a' w' i; clear H.
    assert (D : counts from (s_d s) a1).
    { pose proof (C22_increments _ _ _ _ _ _ _ _ _ _ _ _ _ _ _ _ _ _ _ _ _ _ (fun d b => conj (proj1 (arc_keeps pf d b)) (proj1 (proj2 (arc_keeps pf d b)))) _ _ _ _ _ _ _ _ E)
        as (cs & E1 & E2 & E3 & E4 & _).
      split.
      - rewrite E2, C1, <- fold_minus. f_equal. rewrite E1. clear. revert req. induction cs as [|c cs IH]; intros req; [reflexivity|]. cbn. rewrite <- IH. reflexivity.
      - rewrite E3, E4, C2, fold_plus_number. reflexivity. }
    split; [exact D|]. split.
    { eapply C153_solver_keeps; [|exact E]. intros d b. apply arc_keeps. }
    intros Su.
    assert (Iter := C16_subsidiary_bounded_iterations Rplus Rminus Rmult Rdiv Ropp sqrt 1 inf greater (vplus Rplus) (vminus Rminus) (map Ropp) (fun s v => vscal Rmult v s)
        (vdot 0 Rplus Rmult) (vzero 0) (fun _ : W => residual) (fun _ => tangent) lsolve (vplus Rplus) None listenSolver
        (arcEval 0 Rplus Rminus Rmult Rdiv sqrt None pf) tol maxIter req a (snd w) (fst w)).
    destruct Iter as (s' & a'' & E' & Bounds). rewrite E in E'. inversion E'; subst s' a''; clear E'.
    destruct (Z.eq_dec (i_iter (s_info s)) 0) as [Z0|NZ].
    - destruct (C22_zero_iterations_partial _ _ _ _ _ _ _ _ _ _ _ _ _ _ _ _ _ _ _ _ _ _ _ _ _ _ _ _ _ _ limit E Su Z0) as (Er & w1 & _ & G).
      split; [|split; [lia|intros _; exact Er]]. rewrite Er. unfold greater in G. destruct Rlt_dec as [|N]; [discriminate|].
      rewrite norm_dotR. rewrite vdot_dotR in N. apply Rnot_lt_le, N.
    - destruct (C22_success_partial _ _ _ _ _ _ _ _ _ _ _ _ _ _ _ _ _ _ _ _ _ _ _ _ _ _ _ _ _ _ limit E Su ltac:(lia)) as (w1 & a2 & Ea & _ & G).
      destruct (arc_keeps pf (s_d s) a2) as (K1 & K2 & K3 & K4). rewrite <- Ea in K1, K2, K3, K4.
      unfold greater in G. destruct Rlt_dec as [|N]; [discriminate|]. apply Rnot_lt_le in N. rewrite vdot_dotR in N.
      pose proof (dotR_pos (residual (s_d s))) as P0. pose proof (Rle_0_sqr (a_f a1)) as P1. unfold Rsqr in P1.
      split; [|split; [|lia]].
      + rewrite norm_dotR. eapply Rle_trans; [|exact N]. apply sqrt_le_1_alt. lra.
      + intros _. destruct D as [D1 D2].
        assert (Ef : a_f a1 = distance (arc_psi pf) from (s_d s) - a_stepSize a).
        { rewrite K4, <- K1, <- K2, <- K3, D1, D2. unfold distance. f_equal.
          eapply C153_solver_keeps; [|exact E]. intros d b. apply arc_keeps. }
        rewrite <- Ef. eapply Rle_trans; [|exact N]. rewrite <- sqrt_Rsqr_abs. apply sqrt_le_1_alt. unfold Rsqr. lra.
  Qed.

  (** In equilibrium nothing is done *)
  Lemma start_solved pf req a w : norm (residual req) <= tol -> (0 < maxIter)%Z -> exists w',
    solve pf req a w = (req, arcEval 0 Rplus Rminus Rmult Rdiv sqrt None pf req a, w', mkInfo true (norm (residual req)) inf 0).
  Proof.
    intros N M. unfold arcSolve, nrsSolve. cbv zeta. cbn [s_w emit setInfo].
    assert (G : greater (sqrt (vdot 0 Rplus Rmult (residual req) (residual req))) tol = false).
    { rewrite vdot_dotR, <- norm_dotR. unfold greater. destruct Rlt_dec; [lra|reflexivity]. }
    replace (sqrt (vdot 0 Rplus Rmult (residual req) (residual req))) with (norm (residual req)) in * by (rewrite vdot_dotR, <- norm_dotR; reflexivity).
    destruct (Z.to_nat maxIter); cbn [nrsLoop]; rewrite G; cbn [andb]; unfold nrFinish; cbn [nr_maxIter];
      (destruct (Z.eqb_spec 0 maxIter) as [Z0|_]; [lia|]); cbn; eexists; reflexivity.
  Qed.

  (** ** The later steps *)
  Lemma intermediate_step pf from req a st ls req1 a1 : counts from req a -> arcIntermediate Rplus None pf req (withStep a st ls) = Some (req1, a1) ->
    counts req req1 a1 /\ a_stepSize a1 = st.
  Proof.
    intros [C1 C2]. unfold arcIntermediate. destruct (arc_computed pf); [|discriminate]. cbn [withStep a_DD a_Dlambda]. intros H; inversion H; subst; clear H.
    split; [|reflexivity]. split; cbn [fst snd a_DD a_Dlambda withStep]; [rewrite minus_plus_same; [reflexivity|]|ring]. rewrite C1. apply minus_length.
  Qed.

  (** What is claimed of a step from [from] to [to] with step size [size] *)
  Definition goodStep (psi : R) (i : nlinfo R) (size : R) (from to : list R * R) : Prop :=
    i_success i = true -> norm (residual to) <= tol /\ ((0 < i_iter i)%Z -> Rabs (distance psi from to - size) <= tol).

  Lemma later_good pf ls req a i0 l r : laterSolves solve (arcIntermediate Rplus None) adaptive pf ls req a i0 l r -> forall from, counts from req a ->
    forall k i to, nth_error l k = Some i -> nth_error r k = Some to -> exists size before,
      nth_error (ruleSizes adaptive ls (a_stepSize a) (i0 :: l)) k = Some size /\ nth_error (req :: r) k = Some before /\ goodStep (arc_psi pf) i size before to.
  Proof.
    induction 1 as [|ls req a i0 st req1 a1 w req2 a2 w2 i l r Ha Hi Hs HL IH]; intros from C k i' to; [destruct k; discriminate|].
    destruct (intermediate_step _ _ _ _ _ _ _ _ C Hi) as [C1 S1]. destruct (solve_step _ _ _ _ _ _ _ _ _ C1 Hs) as (C2 & S2 & G).
    cbn [ruleSizes]. rewrite Ha. destruct k as [|k]; cbn [nth_error].
    - intros E1 E2. inversion E1; subst i'. inversion E2; subst to. exists st, req. split; [reflexivity|]. split; [reflexivity|].
      intros Su. destruct (G Su) as (G1 & G2 & _). rewrite <- S1. split; assumption.
    - intros E1 E2. destruct (IH req C2 k i' to E1 E2) as (size & before & F1 & F2 & F3). exists size, before. rewrite S2, S1 in F1. auto.
  Qed.

  Lemma later_lengths pf ls req a i0 l r : laterSolves solve (arcIntermediate Rplus None) adaptive pf ls req a i0 l r -> length r = length l.
  Proof. induction 1; cbn; congruence. Qed.

  (** C156: starting from an equilibrium at load factor zero, every step reported as solved ends in equilibrium, and if the solver has iterated, at the
      distance of the step size from the end of the step before, both up to the tolerance; the scaling of the load factor is the same in all steps *)
  Theorem C156_arc_length_partial : (0 < maxIter)%Z -> (forall req, length (lin req) = length (fst req)) ->
    forall steps n st pf x w, pfConstruct steps = Some n -> norm (residual (x, 0)) <= tol ->
    let s := resState (arcRun residual tangent lsolve lin listenSolver listenControl inf tol maxIter adaptive n st pf x 0 w) in
    let infos := c_infos (k_info s) in let ends := stepResults (k_trace s) in
    length ends = length infos /\ (1 < length infos)%nat /\ nth_error ends 0 = Some (x, 0) /\ option_map i_success (nth_error infos 0) = Some true /\
    exists psi, forall k i to, nth_error infos (S k) = Some i -> nth_error ends (S k) = Some to -> exists size from,
      nth_error (st :: ruleSizes adaptive 1 st (tl infos)) k = Some size /\ nth_error ends k = Some from /\ goodStep psi i size from to.
  Proof.
    intros M Ll steps n st pf x w Hn Start s infos ends.
    destruct (pfRun_chain listenControl 0 solve (fun pf req a _ => arcInitial 0 1 Rplus Rminus Rmult Rdiv sqrt None lin pf req a) (arcIntermediate Rplus None) adaptive
      (argsZero 0) n st pf x 0 w) as (w0 & req0 & a0 & w1 & i0 & l & r & E1 & E2 & E3 & E0 & E4).
    change (c_infos (k_info s) = i0 :: l) in E2. change (stepResults (k_trace s) = req0 :: r) in E3. fold infos in E2. fold ends in E3.
    destruct (start_solved pf (x, 0) (withStep (argsZero 0 x) st (a_step (argsZero 0 x))) w0 Start M) as (wn & En). rewrite En in E1. inversion E1; subst req0 a0 w1 i0; clear E1.
    destruct (arc_keeps pf (x, 0) (withStep (argsZero 0 x) st (a_step (argsZero 0 x)))) as (_ & _ & S0 & _). cbn [withStep a_stepSize] in S0.
    cbn [i_success] in E0. specialize (E0 eq_refl). destruct l as [|i1 l]; [contradiction|]. destruct r as [|req1 r]; [contradiction|].
    destruct E4 as (w2 & pf' & reqp & ap & w3 & a1 & w4 & Ei & Es & L). rewrite E2, E3.
    split; [cbn; do 2 f_equal; eapply later_lengths, L|]. split; [cbn; lia|]. split; [reflexivity|]. split; [reflexivity|].
    assert (C1 : counts (x, 0) reqp ap /\ a_stepSize ap = st).
    { unfold arcInitial in Ei. cbv zeta in Ei. inversion Ei; subst reqp ap. cbn [setD a_stepSize]. split; [|exact S0]. split; cbn [fst snd a_DD a_Dlambda setD]; [|ring].
      rewrite minus_plus_same; [reflexivity|]. unfold vdivs, vscal. rewrite !map_length, Ll. cbn. lia. }
    destruct C1 as [C1 S1]. destruct (solve_step _ _ _ _ _ _ _ _ _ C1 Es) as (C2 & S2 & G2).
    exists (arc_psi pf'). intros k i to H1 H2. cbn [nth_error] in H1, H2. cbn [tl].
    destruct k as [|k]; cbn [nth_error] in *.
    - inversion H1; subst i. inversion H2; subst to. exists st, (x, 0). split; [reflexivity|]. split; [reflexivity|].
      intros Su1. destruct (G2 Su1) as (F1 & F2 & _). rewrite <- S1. split; assumption.
    - destruct (later_good _ _ _ _ _ _ _ L _ C2 k i to H1 H2) as (size & before & F1 & F2 & F3). exists size, before. rewrite S2, S1 in F1. auto.
  Qed.
End Run.
Print Assumptions C156_arc_length_partial.

(** ** Structures *)
Section Structure.
  Variables (flags : list bool) (meshAt : R -> list meshElement).
  Let n := length flags.

  (** The residual of the assembler for full systems (assembler, AssemblyMesh_Model), with the loads of the load factor *)
  Definition structureResidual (req : list R * R) : list R := residualFunction flags (meshAt (snd req)) Full (fun i => nth i (fst req) 0).

  Lemma small_residual tol req : norm (structureResidual req) <= tol -> (forall e, In e (meshAt (snd req)) -> goodAt n (fun i => nth i (fst req) 0) e) ->
    inEquilibrium flags meshAt tol (snd req) (fun i => nth i (fst req) 0).
  Proof.
    intros N G motion v P Z.
    assert (Ra : forall e, In e (meshAt (snd req)) -> forall i, In i (me_dofs e) -> (i < length flags)%nat) by (intros e He; apply (G e He)).
    destruct (C147_full flags (meshAt (snd req)) _ G) as (_ & _ & V). destruct (V motion v P Z) as [V1 _].
    eexists. split; [exact V1|]. eapply Rle_trans; [apply cauchy_schwarz|]. apply Rmult_le_compat_r; [apply sqrt_pos|].
    change (fun k => vectorEntries ?a k) with (vectorEntries a).
    unfold structureResidual in N. rewrite (residual_norm flags (meshAt (snd req)) Full ltac:(discriminate) _ Ra) in N. exact N.
  Qed.

  (** C156: every step of a structure that is reported as solved is in equilibrium with the loads at its load factor *)
  Theorem C156_structure {J W : Type} (tangent : list R * R -> J) lsolve lin listenSolver (listenControl : cmsg -> cinfo R -> Z -> R -> list R * R -> W * list R -> W * list R)
    inf tol maxIter adaptive : (0 < maxIter)%Z -> (forall req, length (lin req) = length (fst req)) ->
    forall steps m st pf x w, pfConstruct steps = Some m -> norm (structureResidual (x, 0)) <= tol ->
    let s := resState (arcRun structureResidual tangent lsolve lin listenSolver listenControl inf tol maxIter adaptive m st pf x 0 w) in
    forall k i to, nth_error (c_infos (k_info s)) k = Some i -> nth_error (stepResults (k_trace s)) k = Some to -> i_success i = true ->
    (forall e, In e (meshAt (snd to)) -> goodAt n (fun i => nth i (fst to) 0) e) -> inEquilibrium flags meshAt tol (snd to) (fun i => nth i (fst to) 0).
  Proof.
    intros M Ll steps m st pf x w Hm Start s k i to Ei Et Su G.
    destruct (C156_arc_length_partial structureResidual tangent lsolve lin listenSolver listenControl inf tol maxIter adaptive ltac:(lia) M Ll steps m st pf x w Hm Start)
      as (_ & _ & H0 & _ & psi & H). fold s in H0, H.
    apply small_residual; [|exact G]. destruct k as [|k].
    - rewrite H0 in Et. inversion Et; subst to. exact Start.
    - destruct (H k i to Ei Et) as (size & from & _ & _ & Q). apply (Q Su).
  Qed.
End Structure.
Print Assumptions C156_structure.

(** ** A linear problem: the step size is ignored as soon as the prediction is exact *)
Definition lineResidual (req : list R * R) : list R := map (fun x => x - snd req) (fst req).
Definition lineRun (tol size : R) (lin : list R * R -> list R) (adaptive : Z -> nlinfo R -> R -> option R) (n : Z) :=
  resState (arcRun lineResidual (fun _ => tt) (fun _ b => b) lin (fun _ _ _ _ (w : unit) => w) (fun _ _ _ _ _ w => w) 0 tol 5 adaptive n size (arcInit 0) [0] 0 (tt, [])).

Theorem C156_size_refuted : exists adaptive lin tol size, (forall req, lin req = map Ropp (lineResidual req)) /\ 0 < size /\
  let s := lineRun tol size lin adaptive 2 in
  c_success (k_info s) = true /\ nth_error (size :: ruleSizes adaptive 1 size (tl (c_infos (k_info s)))) 1 = Some (2 * size) /\
  stepResults (k_trace s) = [([0], 0); ([1], 1); ([2], 2)] /\ size = distance 1 ([0], 0) ([1], 1) /\ size = distance 1 ([1], 1) ([2], 2) /\ tol < 2 * size - size.
Proof.
  exists (fun _ _ s => Some (2 * s)), (fun req => map Ropp (lineResidual req)), (/ 10), (sqrt 2).
  assert (P : 1 < sqrt 2) by (rewrite <- sqrt_1 at 1; apply sqrt_lt_1; lra).
  assert (N : forall x, norm (lineResidual ([x], x)) <= / 10).
  { intros x. unfold lineResidual, norm. cbn. replace (0 + (x - x) * (x - x)) with 0 by ring. rewrite sqrt_0. lra. }
  assert (Q : sqrt 2 * sqrt 2 = 2) by (apply sqrt_sqrt; lra).
  assert (Init : forall a, a_stepSize a = sqrt 2 ->
    arcInitial 0 1 Rplus Rminus Rmult Rdiv sqrt None (fun req => map Ropp (lineResidual req)) (arcInit 0) ([0], 0) a = (mkArc 1 true, ([1], 1), setD a [1] 1)).
  { intros a Ha. unfold arcInitial, lineResidual, idbcIncrement, vzero, sqNorm, vdot, vdivs, vscal, vplus. cbn. rewrite Ha.
    replace (0 + - (0 - 1) * - (0 - 1) + (0 + 0 / 1 * (0 / 1))) with 1 by field. rewrite sqrt_1. replace (1 + 1 * 1 * 1 * 1) with 2 by ring.
    replace (sqrt 2 / sqrt 2) with 1 by (field; lra). replace (- (0 - 1) * sqrt 2 / sqrt 2) with 1 by (field; lra).
    replace ((0 + 0 * (1 / 1) * (0 * (1 / 1)) + (0 + 1 * 1)) / (1 * 1)) with 1 by field. rewrite sqrt_1, Rplus_0_l. reflexivity. }
  split; [reflexivity|]. split; [lra|]. intros s. enough (E : c_success (k_info s) = true /\ exists i j k,
    c_infos (k_info s) = [i; j; k] /\ stepResults (k_trace s) = [([0], 0); ([1], 1); ([2], 2)]).
  { destruct E as (E1 & i & j & k & E2 & E3). rewrite E2. split; [exact E1|]. split; [reflexivity|]. split; [exact E3|].
    unfold distance. cbn. split; [f_equal; ring|]. split; [f_equal; ring|]. lra. }
  remember s as s' eqn:E. subst s. unfold lineRun, arcRun, pfRun in E. cbv zeta in E.
  set (so := arcSolve _ _ _ _ _ _ _) in E. assert (So : forall pf x a w, exists w', so pf ([x], x) a w =
    (([x], x), arcEval 0 Rplus Rminus Rmult Rdiv sqrt None pf ([x], x) a, w', mkInfo true (norm (lineResidual ([x], x))) 0 0)).
  { intros. apply start_solved; [apply N|lia]. }
  clearbody so. unfold pfSolve at 1 in E. cbn [cemit k_x k_p k_w] in E.
  match type of E with context [so ?pf ([0], 0) ?a ?w] => destruct (So pf 0 a w) as (w1 & E1);
    destruct (arc_keeps pf ([0], 0) a) as (_ & _ & K1 & _); rewrite E1 in E; set (b := arcEval 0 Rplus Rminus Rmult Rdiv sqrt None pf ([0], 0) a) in * end.
  cbn [withStep a_stepSize] in K1. clear E1. clearbody b. cbn [i_success updateAndNotify cemit k_x k_p k_w fst snd] in E.
  rewrite (Init b K1) in E. unfold pfSolve at 1 in E. cbn [k_x k_p k_w fst snd] in E.
  match type of E with context [so ?pf ([1], 1) ?a ?w] => destruct (So pf 1 a w) as (w2 & E1);
    destruct (arc_keeps pf ([1], 1) a) as (K2 & K3 & K4 & _); rewrite E1 in E; set (c := arcEval 0 Rplus Rminus Rmult Rdiv sqrt None pf ([1], 1) a) in * end.
  cbn [setD a_stepSize a_DD a_Dlambda] in K2, K3, K4. rewrite K1 in K4. clear E1. clearbody c.
  change (Z.to_nat (2 - 1)) with 1%nat in E. cbn [i_success pfLoop] in E. rewrite K4 in E. unfold arcIntermediate in E.
  cbn [arc_computed updateAndNotify cemit k_x k_p k_w fst snd withStep a_DD a_Dlambda] in E.
  rewrite K2, K3 in E. unfold pfSolve in E. cbn in E. replace (1 + 1) with 2 in E by ring.
  match type of E with context [so ?pf ([2], 2) ?a ?w] => destruct (So pf 2 a w) as (w3 & E1); rewrite E1 in E end.
  cbn in E. subst s'. cbn. split; [reflexivity|]. do 3 eexists. split; reflexivity.
Qed.
Print Assumptions C156_size_refuted.

(** A run with an iteration: the tangent of the prediction is a third of the correct one, so that the prediction is not in equilibrium *)
Lemma line_iteration a w : a_stepSize a = sqrt 2 -> a_DD a = [1] -> a_Dlambda a = 1 / 3 -> exists a' w' i,
  arcSolve lineResidual (fun _ => tt) (fun _ b => b) (fun _ _ _ _ (w : unit) => w) 0 (/ 5) 5 (mkArc 3 true) ([1], 1 / 3) a w = (([1 / 2], 1 / 2), a', w', i) /\
  i_success i = true /\ i_iter i = 1%Z.
Proof.
  intros A1 A2 A3.
  assert (P : 1 < sqrt 2) by (rewrite <- sqrt_1 at 1; apply sqrt_lt_1; lra).
  assert (Q : sqrt 2 * sqrt 2 = 2) by (apply sqrt_sqrt; lra).
  set (pf := mkArc 3 true). set (a0 := arcEval 0 Rplus Rminus Rmult Rdiv sqrt None pf ([1], 1 / 3) a).
  destruct (arc_keeps pf ([1], 1 / 3) a) as (K1 & K2 & K3 & K4). fold a0 in K1, K2, K3, K4. rewrite A2 in K1, K4. rewrite A3 in K2, K4. rewrite A1 in K3, K4.
  assert (F0 : a_f a0 = 0).
  { rewrite K4. unfold pf. cbn. replace (1 * 1 + 0 + 3 * (1 / 3) * (3 * (1 / 3))) with 2 by field. ring. }
  assert (Dd : a_dfdDD a0 = [1 / sqrt 2] /\ a_dfdDlambda a0 = 3 / sqrt 2).
  { unfold a0, arcEval, pf. cbn. rewrite A2, A3. unfold sqNorm, vdot. cbn. replace (0 + 1 * 1 + (0 + 0 * 0) + 3 * 3 * (1 / 3) * (1 / 3)) with 2 by field.
    split; [reflexivity|]. field. lra. }
  destruct Dd as [Dd Dl].
  assert (Co : subsidiaryCorrection Rplus Rminus Rdiv Ropp (vplus Rplus) (map Ropp) (fun s v => vscal Rmult v s) (vdot 0 Rplus Rmult) (fun (_ : unit) b => b) tt
    (lineResidual ([1], 1 / 3)) (map Ropp (lineResidual (vzero 0 [1], 1))) a0 = ([- (1 / 2)], 1 / 6)).
  { unfold subsidiaryCorrection. cbv zeta. rewrite F0, Dd, Dl. unfold lineResidual, vdot, vscal, vplus, vzero. cbn.
    assert (L : (- 0 - (0 + 1 / sqrt 2 * - (1 - 1 / 3))) / (0 + 1 / sqrt 2 * - (0 - 1) + 3 / sqrt 2) = 1 / 6) by (field; lra).
    rewrite L. do 2 f_equal. field. }
  unfold arcSolve, nrsSolve. cbv zeta. fold pf. fold a0. change (Z.to_nat 5) with 5%nat. cbn [nrsLoop].
  assert (G1 : greater (sqrt (vdot 0 Rplus Rmult (lineResidual ([1], 1 / 3)) (lineResidual ([1], 1 / 3)))) (/ 5) = true).
  { unfold lineResidual, vdot. cbn. replace (0 + (1 - 1 / 3) * (1 - 1 / 3)) with (Rsqr (2 / 3)) by (unfold Rsqr; field). rewrite sqrt_Rsqr by lra.
    unfold greater. destruct Rlt_dec; [reflexivity|lra]. }
  rewrite G1. change (0 <? 5)%Z with true. cbn [andb].
  destruct (nrsBody _ _ _ _ _ _ _ _ _ _ _ _ _ _ _ _ _ _ _ _ _ _ _) as [[[[s1 rx] ax] a1] rn] eqn:B.
  unfold nrsBody, loadColumn in B. cbv zeta in B. cbn [fst] in B. rewrite Co in B. cbn [emit setInfo s_d s_w s_info s_c s_trace fst snd] in B. rewrite K1, K2, K3 in B.
  replace (vplus Rplus [1] [- (1 / 2)]) with [1 / 2] in B by (cbn; f_equal; field). replace (1 / 3 + 1 / 6) with (1 / 2) in B by field.
  match type of B with context [arcEval 0 Rplus Rminus Rmult Rdiv sqrt None pf ([1 / 2], 1 / 2) ?b] => destruct (arc_keeps pf ([1 / 2], 1 / 2) b) as (_ & _ & _ & M4);
    set (a2 := arcEval 0 Rplus Rminus Rmult Rdiv sqrt None pf ([1 / 2], 1 / 2) b) in * end.
  cbn [a_DD a_Dlambda a_stepSize] in M4. clearbody a2. inversion B; subst s1 rx ax a1 rn; clear B.
  assert (G2 : greater (sqrt (vdot 0 Rplus Rmult (lineResidual ([1 / 2], 1 / 2)) (lineResidual ([1 / 2], 1 / 2)) + a_f a2 * a_f a2)) (/ 5) = false).
  { rewrite M4. unfold lineResidual, vdot, pf. cbn. replace (1 / 2 * (1 / 2) + 0 + 3 * (1 / 2) * (3 * (1 / 2))) with (5 / 2) by field.
    match goal with |- greater (sqrt ?e) _ = _ => replace e with (Rsqr (sqrt (5 / 2) - sqrt 2)) by (unfold Rsqr; field) end.
    assert (B1 : sqrt 2 <= sqrt (5 / 2)) by (apply sqrt_le_1_alt; lra). rewrite sqrt_Rsqr by lra.
    assert (B2 : sqrt (5 / 2) <= sqrt 2 + / 5).
    { rewrite <- (sqrt_Rsqr (sqrt 2 + / 5)) by lra. apply sqrt_le_1_alt. unfold Rsqr. 
      assert (14 / 10 <= sqrt 2). { rewrite <- (sqrt_Rsqr (14 / 10)) by lra. apply sqrt_le_1_alt. unfold Rsqr. lra. } nra. }
    unfold greater. destruct Rlt_dec; [lra|reflexivity]. }
  rewrite G2. cbn [andb]. unfold nrFinish. cbn. do 3 eexists. split; [reflexivity|]. split; reflexivity.
Qed.

Example C156_applies (lin := fun req : list R * R => map (fun _ => 3) (fst req)) (s := lineRun (/ 5) (sqrt 2) lin (fun _ _ st => Some st) 1) :
  (forall req, length (lin req) = length (fst req)) /\ norm (lineResidual ([0], 0)) <= / 5 /\ c_success (k_info s) = true /\ 
  stepResults (k_trace s) = [([0], 0); ([1 / 2], 1 / 2)] /\ map i_iter (c_infos (k_info s)) = [0; 1]%Z.
Proof.
  split; [intros req; apply map_length|].
  assert (N : norm (lineResidual ([0], 0)) <= / 5).
  { unfold lineResidual, norm. cbn. replace (0 + (0 - 0) * (0 - 0)) with 0 by ring. rewrite sqrt_0. lra. }
  split; [exact N|].
  assert (P : 1 < sqrt 2) by (rewrite <- sqrt_1 at 1; apply sqrt_lt_1; lra).
  assert (Q : sqrt 2 * sqrt 2 = 2) by (apply sqrt_sqrt; lra).
  assert (Init : forall a, a_stepSize a = sqrt 2 ->
    arcInitial 0 1 Rplus Rminus Rmult Rdiv sqrt None lin (arcInit 0) ([0], 0) a = (mkArc 3 true, ([1], 1 / 3), setD a [1] (1 / 3))).
  { intros a Ha. unfold arcInitial, lin, idbcIncrement, vzero, sqNorm, vdot, vdivs, vscal, vplus. cbn. rewrite Ha.
    replace (0 + 3 * 3 + (0 + 0 / 1 * (0 / 1))) with (Rsqr 3) by (unfold Rsqr; field). rewrite sqrt_Rsqr by lra.
    replace (Rsqr 3 + 3 * 3 * 1 * 1) with (Rsqr (3 * sqrt 2)) by (unfold Rsqr; nra). rewrite sqrt_Rsqr by nra.
    replace (sqrt 2 / (3 * sqrt 2)) with (1 / 3) by (field; lra). replace (3 * sqrt 2 / (3 * sqrt 2)) with 1 by (field; lra).
    replace ((0 + 0 * (1 / 3 / 1) * (0 * (1 / 3 / 1)) + (0 + 1 * 1)) / (1 / 3 * (1 / 3))) with (Rsqr 3) by (unfold Rsqr; field). rewrite sqrt_Rsqr by lra.
    rewrite Rplus_0_l. reflexivity. }
  remember s as s' eqn:E. subst s. unfold lineRun, arcRun, pfRun in E. cbv zeta in E.
  destruct (start_solved lineResidual (fun _ => tt) (fun _ b => b) (fun _ _ _ _ (w : unit) => w) 0 (/ 5) 5 (arcInit 0) ([0], 0)
    (withStep (argsZero 0 [0]) (sqrt 2) (a_step (argsZero 0 [0]))) (tt, []) N ltac:(lia)) as (w1 & E1).
  unfold pfSolve at 1 in E. cbn [cemit k_x k_p k_w] in E. rewrite E1 in E. clear E1.
  match type of E with context [arcEval ?x1 ?x2 ?x3 ?x4 ?x5 ?x6 ?x7 ?pf ?r ?a] => destruct (arc_keeps pf r a) as (_ & _ & K1 & _); set (b := arcEval x1 x2 x3 x4 x5 x6 x7 pf r a) in * end.
  cbn [withStep a_stepSize] in K1. clearbody b. cbn [i_success updateAndNotify cemit k_x k_p k_w fst snd] in E.
  rewrite (Init b K1) in E. unfold pfSolve at 1 in E. cbn [k_x k_p k_w fst snd] in E.
  destruct (line_iteration (setD b [1] (1 / 3)) w1 K1 eq_refl eq_refl) as (a' & w' & i & E1 & I1 & I2). rewrite E1, I1 in E. clear E1.
  change (Z.to_nat (1 - 1)) with 0%nat in E. cbn in E. subst s'. cbn. rewrite I2. repeat split.
Qed.
