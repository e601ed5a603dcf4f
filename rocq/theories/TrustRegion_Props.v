(** Properties C30, C31, C60, C63 and C64 of the trust-region solver. *)

From Coq Require Import List ZArith Bool Lia Floats Reals Lra.
From Verif Require Import Newton_Model TCG_Model TrustRegion_Model TrustRegion_Spec TrustRegion_Proofs TrustRegionReal_Proofs.
Import ListNotations.
Local Open Scope Z_scope.

Section Any.
Context {T V H X : Type}.
Variable N : trNum T.
Variables (energy : X -> T) (gradient : X -> V) (hessian : X -> H).
Variables (vnorm : V -> T) (vdot : V -> V -> T) (vadd : V -> V -> V) (vscale : T -> V -> V) (vneg : V -> V) (vzeroLike : V -> V) (hmul : H -> V -> V).
Variable update : X -> V -> X.
Variable rnd : H -> T -> V.
Variable inner : V -> H -> V -> tcgInfo T -> option (V * tcgInfo T).
Notation solve := (trSolve N energy gradient hessian vnorm vdot vadd vscale vneg vzeroLike hmul update rnd inner).

Lemma solve_iterated st inf x e0 ii r s : solve st inf x e0 ii = TrDone r s -> exists bl s1,
  iterated N energy gradient hessian vnorm vdot vadd vscale vneg vzeroLike hmul update rnd inner st (trStart N energy gradient vnorm st inf x e0 ii) bl s1 /\
  trStop N st s1 = Some r /\ s = trFinish r s1.
Proof.
  unfold trSolve. intro E. destruct (trLoop _ _ _ _ _ _ _ _ _ _ _ _ _ _ _ _ _) as [r' s1| |] eqn:L; inversion E; subst.
  apply loop_iterated in L. destruct L as [bl [L1 L2]]. exists bl, s1. auto.
Qed.

(** ** C60 *)

(** For every number type, energy, inner solver and setting: the loop ends after at most maxIter iterations. *)
Theorem C60_stops : forall st inf x eta0 innerInfo,
  solve st inf x eta0 innerInfo <> TrFuel /\
  forall r s, solve st inf x eta0 innerInfo = TrDone r s -> 0 <= i_iter (u_info s) <= Z.max 0 (tr_maxIter st).
Proof.
  intros. split.
  - unfold trSolve. intro E. destruct (trLoop _ _ _ _ _ _ _ _ _ _ _ _ _ _ _ _ _) eqn:L; try discriminate.
    eapply loop_enough_fuel; [|exact L]. simpl. lia.
  - intros r s E. apply solve_iterated in E. destruct E as [bl [s1 [I [S1 ->]]]].
    destruct (iterated_facts _ _ _ _ _ _ _ _ _ _ _ _ _ _ _ _ _ _ I) as [_ [O _]]. simpl in O.
    assert (i_iter (u_info (trFinish r s1)) = u_outer s1) as -> by (destruct r; reflexivity).
    destruct bl as [|b bl]; [simpl in O; lia|].
    pose proof (iterated_bound _ _ _ _ _ _ _ _ _ _ _ _ _ _ _ _ _ _ I ltac:(discriminate)). lia.
Qed.

(** Success is reported only if at least one iteration was made and the gradient norm at the returned solution, or the norm of the last proposed
    correction, is below its tolerance; the reported norms are these norms. *)
Theorem C60_success : forall st inf x eta0 innerInfo r s,
  solve st inf x eta0 innerInfo = TrDone r s ->
  i_res (u_info s) = vnorm (gradient (u_x s)) /\
  (i_success (u_info s) = true ->
   exists tr e tr', u_trace s = tr ++ e :: tr' /\ entryMsg e = CORRECTION_UPDATED /\ ~ In CORRECTION_UPDATED (map entryMsg tr') /\
   i_corr (u_info s) = vnorm (entryEta e) /\
   (nltb N (vnorm (gradient (u_x s))) (tr_gradTol st) = true \/ nltb N (vnorm (entryEta e)) (tr_corrTol st) = true)).
Proof.
  intros st inf x eta0 ii r s E. apply solve_iterated in E. destruct E as [bl [s1 [I [S1 ->]]]].
  destruct (iterated_facts _ _ _ _ _ _ _ _ _ _ _ _ _ _ _ _ _ _ I) as [Tr [O [_ [_ G]]]]. specialize (G eq_refl).
  assert (Ex : u_x (trFinish r s1) = u_x s1) by (destruct r; reflexivity). rewrite Ex, <- G.
  split; [destruct r; reflexivity|]. intro Su.
  destruct (exists_last (l := bl)) as [bl' [b Eb]].
  { intros ->. simpl in O. unfold trStop in S1. rewrite O in S1. simpl in S1. rewrite !andb_false_r in S1.
    destruct (nleb _ _ _); [inversion S1; subst; discriminate|]. destruct (tr_maxIter st <=? 0); inversion S1; subst; discriminate. }
  subst bl. destruct (iterated_last _ _ _ _ _ _ _ _ _ _ _ _ _ _ _ _ _ _ _ I) as [Le Lc].
  rewrite map_app, concat_app in Tr. cbn [map concat] in Tr. rewrite app_nil_r in Tr. set (pre := concat (map _ bl')) in Tr. unfold blockTrace in Tr. cbv zeta in Tr.
  match type of Tr with u_trace s1 = ?st0 ++ ?l ++ ?b0 :: ?e :: ?rest =>
    exists (st0 ++ l ++ [b0]), e, (rest ++ (match r with gradientNormTolReached | correctionNormTolReached => [(FINISHED_SUCESSFULLY, u_info (trFinish r s1), u_eta s1, u_x s1, tcg_Delta (u_inner s1))] | _ => [] end)) end.
  split. { replace (u_trace (trFinish r s1)) with (u_trace s1 ++ (match r with gradientNormTolReached | correctionNormTolReached => [(FINISHED_SUCESSFULLY, u_info (trFinish r s1), u_eta s1, u_x s1, tcg_Delta (u_inner s1))] | _ => [] end)).
    - rewrite Tr. rewrite <- !app_assoc. reflexivity.
    - destruct r; simpl; rewrite ?app_nil_r; reflexivity. }
  split; [reflexivity|].
  split. { rewrite map_app. intro K. apply in_app_or in K. destruct K as [K|K]; destruct (b_acc b), r; simpl in K; intuition discriminate. }
  split. { destruct r; exact Lc. }
  unfold entryEta. simpl. rewrite <- Le.
  unfold trStop in S1. destruct (nltb N (u_gradNorm s1) (tr_gradTol st)) eqn:Q1; auto.
  simpl in S1. destruct (nltb N (u_etaNorm s1) (tr_corrTol st)) eqn:Q2; auto. simpl in S1.
  destruct (nleb _ _ _); [inversion S1; subst; discriminate|]. destruct (tr_maxIter st <=? u_outer s1); inversion S1; subst; discriminate.
Qed.

(** ** C63, the part that holds: if the last step was accepted, success means a small gradient or a small last change of the solution. *)
Theorem C63_last_accepted_partial : forall st inf x eta0 innerInfo r s,
  solve st inf x eta0 innerInfo = TrDone r s -> i_success (u_info s) = true ->
  nltb N (vnorm (gradient (u_x s))) (tr_gradTol st) = true \/
  (exists tr e tr', u_trace s = tr ++ e :: tr' /\ entryMsg e = SOLUTION_CHANGED /\ nltb N (vnorm (entryEta e)) (tr_corrTol st) = true) \/
  (** the last proposal was rejected *)
  (exists tr e tr', u_trace s = tr ++ e :: tr' /\ entryMsg e = CORRECTION_UPDATED /\ ~ In SOLUTION_CHANGED (map entryMsg tr') /\
     nltb N (vnorm (entryEta e)) (tr_corrTol st) = true).
Proof.
  intros st inf x eta0 ii r s E Su. destruct (C60_success _ _ _ _ _ _ _ E) as [_ K]. specialize (K Su).
  destruct K as [tr [e [tr' [Tr [Em [Nin [Ec [Hg|Hc]]]]]]]]; auto. right.
  destruct (in_dec (fun a b : nlmsg => ltac:(decide equality) : {a = b} + {a <> b}) SOLUTION_CHANGED (map entryMsg tr')) as [I|NI].
  - left. apply solve_iterated in E. destruct E as [bl [s1 [I1 [S1 ->]]]].
    destruct (iterated_facts _ _ _ _ _ _ _ _ _ _ _ _ _ _ _ _ _ _ I1) as [Tr1 [O [_ [_ G]]]].
    destruct (exists_last (l := bl)) as [bl' [b Eb]].
    { intros ->. simpl in O. unfold trStop in S1. rewrite O in S1. simpl in S1. rewrite !andb_false_r in S1.
      destruct (nleb _ _ _); [inversion S1; subst; discriminate|]. destruct (tr_maxIter st <=? 0); inversion S1; subst; discriminate. }
    subst bl. destruct (iterated_last _ _ _ _ _ _ _ _ _ _ _ _ _ _ _ _ _ _ _ I1) as [Le Lc].
    rewrite map_app, concat_app in Tr1. cbn [map concat] in Tr1. rewrite app_nil_r in Tr1. set (pre := concat (map _ bl')) in Tr1.
    assert (Hsm : nltb N (vnorm (b_eta b)) (tr_corrTol st) = true).
    { rewrite <- Lc. replace (i_corr (u_info s1)) with (i_corr (u_info (trFinish r s1))) by (destruct r; reflexivity). rewrite Ec. auto. }
    set (fin := match r with gradientNormTolReached | correctionNormTolReached => [(FINISHED_SUCESSFULLY, u_info (trFinish r s1), u_eta s1, u_x s1, tcg_Delta (u_inner s1))] | _ => [] end).
    assert (F : u_trace (trFinish r s1) = u_trace s1 ++ fin) by (unfold fin; destruct r; simpl; rewrite ?app_nil_r; reflexivity).
    destruct (b_acc b) eqn:Ab.
    + unfold blockTrace in Tr1. rewrite Ab in Tr1. cbv zeta in Tr1.
      match type of Tr1 with u_trace s1 = ?st0 ++ ?l ++ [?b0; ?e1; ?e2; ?e3; ?e4; ?e5] =>
        exists (st0 ++ l ++ [b0; e1; e2; e3]), e4, (e5 :: fin) end.
      split; [rewrite F, Tr1, <- !app_assoc; reflexivity|]. split; [reflexivity|]. exact Hsm.
    + (* a rejected last block has no SOLUTION_CHANGED after its CORRECTION_UPDATED *)
      exfalso. unfold blockTrace in Tr1. rewrite Ab in Tr1. cbv zeta in Tr1.
      match type of Tr1 with u_trace s1 = ?st0 ++ ?l ++ [?b0; ?e1; ?e2] =>
        assert (Tr2 : u_trace (trFinish r s1) = (st0 ++ l ++ [b0]) ++ e1 :: (e2 :: fin)) by (rewrite F, Tr1, <- !app_assoc; reflexivity) end.
      rewrite Tr2 in Tr. clear - Tr Em Nin I. revert Tr.
      match goal with |- ?A ++ ?e1 :: ?B = _ -> _ => generalize A; intro L; revert tr; induction L as [|y L IH]; intros tr Tr end.
      * destruct tr as [|z tr]; simpl in Tr.
        -- inversion Tr; subst. unfold fin in I. destruct r; simpl in I; intuition discriminate.
        -- injection Tr as _ Tr. assert (J : In CORRECTION_UPDATED (map entryMsg (tr ++ e :: tr'))).
           { rewrite map_app. apply in_or_app. right. left. auto. }
           rewrite <- Tr in J. unfold fin in J. destruct r; simpl in J; intuition discriminate.
      * destruct tr as [|z tr]; simpl in Tr.
        -- injection Tr as _ Tr. apply Nin. rewrite <- Tr, map_app. apply in_or_app. right. left. reflexivity.
        -- injection Tr as _ Tr. eapply IH. exact Tr.
  - right. exists tr, e, tr'. auto.
Qed.

(** ** C64 *)
Theorem C64_messages : forall st inf x eta0 innerInfo r s,
  solve st inf x eta0 innerInfo = TrDone r s -> exists accepted : list bool,
  map entryMsg (u_trace s) = INIT :: concat (map iterationMessages accepted) ++ (if i_success (u_info s) then [FINISHED_SUCESSFULLY] else []) /\
  i_iter (u_info s) = Z.of_nat (length accepted).
Proof.
  intros st inf x eta0 ii r s E. apply solve_iterated in E. destruct E as [bl [s1 [I [S1 ->]]]].
  destruct (iterated_facts _ _ _ _ _ _ _ _ _ _ _ _ _ _ _ _ _ _ I) as [Tr [O _]]. simpl in O.
  exists (map b_acc bl). split.
  - assert (B : map entryMsg (u_trace s1) = INIT :: concat (map iterationMessages (map b_acc bl))).
    { rewrite Tr, map_app. simpl. f_equal. rewrite concat_map, !map_map. f_equal. apply map_ext. intro b. apply blockT_msgs. }
    destruct r; simpl; rewrite ?map_app, B; simpl; rewrite ?app_nil_r; reflexivity.
  - rewrite map_length. destruct r; simpl; exact O.
Qed.

(** In every iteration listeners see the step together with the proposed solution; a rejected step is undone with the negative step; every
    iteration starts where the one before ended, and the last one ends with the returned solution. *)
Theorem C64_solutions : forall st inf x eta0 innerInfo r s,
  solve st inf x eta0 innerInfo = TrDone r s -> exists first bl fin,
  u_trace s = first :: concat (map (fun b : @block T V X => blockTrace update vneg vzeroLike b) bl) ++ fin /\ linked update vneg x (tr_delta0 st) bl (u_x s) (tcg_Delta (u_inner s)) /\
  i_iter (u_info s) = Z.of_nat (length bl).
Proof.
  intros st inf x eta0 ii r s E. apply solve_iterated in E. destruct E as [bl [s1 [I [S1 ->]]]].
  destruct (iterated_facts _ _ _ _ _ _ _ _ _ _ _ _ _ _ _ _ _ _ I) as [Tr [O [L _]]]. simpl in Tr.
  eexists. exists bl, (match r with gradientNormTolReached | correctionNormTolReached => [(FINISHED_SUCESSFULLY, u_info (trFinish r s1), u_eta s1, u_x s1, tcg_Delta (u_inner s1))] | _ => [] end).
  split.
  - transitivity (u_trace s1 ++ (match r with gradientNormTolReached | correctionNormTolReached => [(FINISHED_SUCESSFULLY, u_info (trFinish r s1), u_eta s1, u_x s1, tcg_Delta (u_inner s1))] | _ => [] end)).
    + destruct r; simpl; rewrite ?app_nil_r; reflexivity.
    + rewrite Tr. reflexivity.
  - split; [destruct r; exact L|]. simpl in O. assert (i_iter (u_info (trFinish r s1)) = u_outer s1) as -> by (destruct r; reflexivity). lia.
Qed.
End Any.

(** ** C30 and C31 over the real numbers *)
Section Real.
Local Open Scope R_scope.
Context {V H X : Type}.
Variables (energy : X -> R) (gradient : X -> V) (hessian : X -> H).
Variables (vnorm : V -> R) (vdot : V -> V -> R) (vadd : V -> V -> V) (vscale : R -> V -> V) (vneg : V -> V) (vzeroLike : V -> V) (hmul : H -> V -> V).
Variable update : X -> V -> X.
Variable rnd : H -> R -> V.
Variable inner : V -> H -> V -> tcgInfo R -> option (V * tcgInfo R).
Notation solve := (trSolve NR energy gradient hessian vnorm vdot vadd vscale vneg vzeroLike hmul update rnd inner).

(** What is assumed of vectors, update function and inner solver *)
Definition vectorLaws : Prop :=
  (forall v, 0 <= vnorm v) /\ (forall v, vnorm v = 0 -> (forall x, update x v = x) /\ forall w, vdot v w = 0) /\
  (forall x v, update (update x v) (vneg v) = x).
Definition innerKeepsRadius : Prop := forall g h e i eta i', inner g h e i = Some (eta, i') -> tcg_Delta i' = tcg_Delta i.

(** Facts on one iteration, in terms of the energy, the gradient and the Hessian.  [m] is the change predicted by the quadratic model. *)
Definition radiusRule (st : trSettings R) (b : @block R V X) : Prop :=
  exists Heta, (tr_useRand st = false -> Heta = hmul (hessian (b_x b)) (b_eta b)) /\
  exists guess old eta inf, inner (gradient (b_x b)) (hessian (b_x b)) guess old = Some (eta, inf) /\
  let atBoundary := tcg_stop inf = negativeCurvature \/ tcg_stop inf = exceededTrustRegion in
  let E := energy (b_x b) in let E' := energy (update (b_x b) (b_eta b)) in
  let m := vdot (b_eta b) (vadd (gradient (b_x b)) (vscale (1 / 2) Heta)) in
  (0 < b_D b <= tr_deltaBar st) /\ (0 < b_D' b <= tr_deltaBar st) /\
  (b_D' b < b_D b -> predicted m E (tr_rhoReg st) <= 0 \/ agreement E E' m (tr_rhoReg st) < 1 / 4 \/ E < E') /\
  (b_D b < b_D' b -> 99 / 100 < agreement E E' m (tr_rhoReg st) /\ b_acc b = true /\ atBoundary) /\
  (0 < predicted m E (tr_rhoReg st) -> 99 / 100 < agreement E E' m (tr_rhoReg st) -> E' <= E -> atBoundary ->
     b_D' b = Rmin (35 / 10 * b_D b) (tr_deltaBar st)).

Definition acceptRule (st : trSettings R) (b : @block R V X) : Prop :=
  exists Heta, (tr_useRand st = false -> Heta = hmul (hessian (b_x b)) (b_eta b)) /\
  let E := energy (b_x b) in let E' := energy (update (b_x b) (b_eta b)) in
  let m := vdot (b_eta b) (vadd (gradient (b_x b)) (vscale (1 / 2) Heta)) in
  (b_acc b = true -> E' <= E + slack /\ after update vneg b = update (b_x b) (b_eta b) /\
                     0 < predicted m E (tr_rhoReg st) /\ tr_rhoPrime st < agreement E E' m (tr_rhoReg st)) /\
  (b_acc b = false -> after update vneg b = b_x b /\
                     (predicted m E (tr_rhoReg st) <= 0 \/ agreement E E' m (tr_rhoReg st) <= tr_rhoPrime st \/ E < E')).

Lemma setup_facts st : trSetup NR st = true -> tr_rhoPrime st < 1 / 4 /\ 0 < tr_delta0 st < tr_deltaBar st.
Proof.
  unfold trSetup. simpl. rewrite !andb_true_iff, !rltb_true. lra.
Qed.

Lemma real_blocks st inf x e0 ii r s : vectorLaws -> innerKeepsRadius -> trSetup NR st = true -> 0 <= tr_rhoPrime st -> 0 < tr_rhoReg st ->
  solve st inf x e0 ii = TrDone r s -> exists first bl fin,
  u_trace s = first :: concat (map (fun b => blockTrace update vneg vzeroLike b) bl) ++ fin /\
  linked update vneg x (tr_delta0 st) bl (u_x s) (tcg_Delta (u_inner s)) /\
  Forall (radiusRule st) bl /\ Forall (acceptRule st) bl /\ i_iter (u_info s) = Z.of_nat (length bl).
Proof.
  intros [Hn [Hz Hu]] Hin HS Hrp Hrr E. destruct (setup_facts st HS) as [Hr4 HD0].
  apply solve_iterated in E. destruct E as [bl [s1 [I [S1 ->]]]].
  destruct (iterated_facts _ _ _ _ _ _ _ _ _ _ _ _ _ _ _ _ _ _ I) as [Tr [O [L _]]]. simpl in Tr.
  assert (K : (0 < tcg_Delta (u_inner s1) <= tr_deltaBar st /\ u_energy s1 = energy (u_x s1)) /\ Forall (fun b => radiusRule st b /\ acceptRule st b) bl).
  { revert I. apply (iterated_inv NR energy gradient hessian vnorm vdot vadd vscale vneg vzeroLike hmul update rnd inner
       (fun s => 0 < tcg_Delta (u_inner s) <= tr_deltaBar st /\ u_energy s = energy (u_x s)) (fun b => radiusRule st b /\ acceptRule st b)).
    2:{ simpl. split; auto. lra. }
    intros u u' b [HD HE] _ [Heta [inf0 [P [DE [Bx [BD [Bt [Ux [Ui [Ug [Ue [Uen [Uo [Ur [Us Uc]]]]]]]]]]]]]]].
    destruct (propose_facts gradient hessian vdot vscale vzeroLike hmul rnd inner Hin st u _ _ _ P) as [PD [PH [guess [eta' PI]]]].
    pose proof (decide_spec vnorm vdot vadd vscale st u _ _ _ _ _ _ _ DE (conj Hrp Hr4) ltac:(rewrite PD; exact HD) (Hn _)) as [A1 [A2 [A3 [A4 [A5 A6]]]]].
    pose proof (decide_growth vnorm vdot vadd vscale st u _ _ _ _ _ _ _ DE Hr4) as A7.
    rewrite PD, HE, <- ?Bx, <- ?BD in *.
    assert (HDp : 0 < b_D' b).
    { apply A4. destruct (Rle_lt_or_eq_dec 0 (vnorm (b_eta b)) (Hn _)) as [|Z0]; [auto|]. left.
      symmetry in Z0. destruct (Hz _ Z0) as [Zu Zd]. rewrite Zu, Zd in A2.
      destruct (b_acc b); auto. exfalso. specialize (A2 eq_refl). revert A2. unfold agreement, predicted, regularisation.
      pose proof (Rmax_l 1 (Rabs (energy (b_x b)))) as Hm. set (M := Rmax 1 (Rabs (energy (b_x b)))) in *.
      assert (0 < M * (1 / 8192) * tr_rhoReg st). { apply Rmult_lt_0_compat; lra. }
      replace (energy (b_x b) - energy (b_x b) + M * (1 / 8192) * tr_rhoReg st) with (M * (1 / 8192) * tr_rhoReg st) by ring.
      replace (- 0 + M * (1 / 8192) * tr_rhoReg st) with (M * (1 / 8192) * tr_rhoReg st) by ring.
      unfold Rdiv at 2. rewrite Rinv_r by lra. lra. }
    split; [split|split].
    - rewrite Ui. simpl. split; auto.
    - rewrite Uen, Ux. unfold after. destruct (b_acc b); auto. rewrite Hu. auto.
    - exists Heta. split; auto. exists guess, (u_inner u), eta', inf0. split; auto. cbv zeta.
      assert (BH : boundaryHit inf0 = true <-> tcg_stop inf0 = negativeCurvature \/ tcg_stop inf0 = exceededTrustRegion).
      { unfold boundaryHit. destruct (tcg_stop inf0); split; intros Q; auto; try discriminate; destruct Q; discriminate. }
      split; [exact HD|]. split; [auto|]. split; [exact A5|]. split.
      + intro G. destruct (A6 G) as [G1 [G2 G3]]. split; auto. split; auto. now apply BH.
      + intros G1 G2 G3 G4. apply A7; auto. now apply BH.
    - exists Heta. split; auto. cbv zeta. unfold after. split; intro Ab; rewrite Ab.
      + destruct (A1 Ab) as [? [? ?]]. auto.
      + split; auto. }
  destruct K as [_ K].
  eexists. exists bl, (match r with gradientNormTolReached | correctionNormTolReached => [(FINISHED_SUCESSFULLY, u_info (trFinish r s1), u_eta s1, u_x s1, tcg_Delta (u_inner s1))] | _ => [] end).
  split; [|split; [|split; [|split]]].
  - transitivity (u_trace s1 ++ (match r with gradientNormTolReached | correctionNormTolReached => [(FINISHED_SUCESSFULLY, u_info (trFinish r s1), u_eta s1, u_x s1, tcg_Delta (u_inner s1))] | _ => [] end)).
    + destruct r; simpl; rewrite ?app_nil_r; reflexivity.
    + rewrite Tr. reflexivity.
  - destruct r; exact L.
  - eapply Forall_impl; [|exact K]. simpl. tauto.
  - eapply Forall_impl; [|exact K]. simpl. tauto.
  - simpl in O. assert (i_iter (u_info (trFinish r s1)) = u_outer s1) as -> by (destruct r; reflexivity). lia.
Qed.

(** C30 for a positive regularisation: the radius is in (0, Delta_bar] in all iterations, it shrinks only after poor agreement and grows only
    after very good agreement when the inner solver reports that the boundary was hit; it does grow then. *)
Theorem C30_radius_partial : forall st inf x eta0 innerInfo r s,
  vectorLaws -> innerKeepsRadius -> trSetup NR st = true -> 0 <= tr_rhoPrime st -> 0 < tr_rhoReg st ->
  solve st inf x eta0 innerInfo = TrDone r s -> exists first bl fin,
  u_trace s = first :: concat (map (fun b => blockTrace update vneg vzeroLike b) bl) ++ fin /\
  linked update vneg x (tr_delta0 st) bl (u_x s) (tcg_Delta (u_inner s)) /\ Forall (radiusRule st) bl /\
  i_iter (u_info s) = Z.of_nat (length bl).
Proof.
  intros. destruct (real_blocks _ _ _ _ _ _ _ H0 H1 H2 H3 H4 H5) as [f [bl [fin [A [B [C [D It]]]]]]]. exists f, bl, fin. auto.
Qed.

(** C31 in exact arithmetic *)
Theorem C31_exact_partial : forall st inf x eta0 innerInfo r s,
  vectorLaws -> innerKeepsRadius -> trSetup NR st = true -> 0 <= tr_rhoPrime st -> 0 < tr_rhoReg st ->
  solve st inf x eta0 innerInfo = TrDone r s -> exists first bl fin,
  u_trace s = first :: concat (map (fun b => blockTrace update vneg vzeroLike b) bl) ++ fin /\
  linked update vneg x (tr_delta0 st) bl (u_x s) (tcg_Delta (u_inner s)) /\ Forall (acceptRule st) bl /\
  energy (u_x s) <= energy x + INR (length bl) * slack /\ i_iter (u_info s) = Z.of_nat (length bl).
Proof.
  intros. destruct (real_blocks _ _ _ _ _ _ _ H0 H1 H2 H3 H4 H5) as [f [bl [fin [A [B [C [D It]]]]]]]. exists f, bl, fin.
  split; auto. split; auto. split; auto. split; auto.
  clear - B D. revert x B. generalize (tr_delta0 st). induction bl as [|b bl IH]; intros D0 x B; cbn [linked] in B.
  - destruct B as [-> _]. simpl. lra.
  - destruct B as [Bx [_ B]]. inversion D as [|? ? Db D']; subst. specialize (IH D' _ _ B). cbn [length]. rewrite S_INR.
    destruct Db as [Heta [_ [Ac Re]]]. assert (0 < slack) by (unfold slack; lra). destruct (b_acc b) eqn:Ab.
    + destruct (Ac eq_refl) as [Q1 [Q2 _]]. rewrite Q2 in IH. lra.
    + destruct (Re eq_refl) as [Q2 _]. rewrite Q2 in IH. lra.
Qed.
End Real.

(** ** The truncated conjugate gradient method as inner solver *)

Lemma tcg_keeps_radius {T V} t0 t2 tadd tsub tmul tdiv topp tsqrt tltb tleb tiny (vz : V) va vs vsc dot mat pre maxIters (tol : T) rhs x0 info x info' :
  tcg t0 t2 tadd tsub tmul tdiv topp tsqrt tltb tleb tiny vz va vs vsc dot mat pre maxIters tol rhs x0 info = (x, info') -> tcg_Delta info' = tcg_Delta info.
Proof.
  unfold tcg. cbv zeta. destruct (tleb _ _); [intro E; inversion E; auto|]. destruct (tltb _ _); [intro E; inversion E; auto|].
  destruct (tcgLoop _ _ _ _ _ _ _ _ _ _ _ _ _ _ _ _ _ _ _ _ _ _ _) as [[y i] st]. intro E; inversion E; auto.
Qed.

(** One-dimensional problems over the real numbers: an instance of all assumptions. *)
Definition innerR (g h guess : R) (i : tcgInfo R) : option (R * tcgInfo R) :=
  Some (tcg 0 2 Rplus Rminus Rmult Rdiv Ropp sqrt rltb rleb (1 / 4) 0 Rplus Rminus Rmult Rmult (Rmult h) (fun v => v) 2 0 (- g) guess i)%R.
Definition defaultR : trSettings R := (mkTR 1 1000 (1 / 1000000) (1 / 1000000) (1 / 100) false 1000000 100 10)%R.

Example C30_assumptions_example : exists r s,
  vectorLaws Rabs Rmult Ropp Rplus /\ innerKeepsRadius innerR /\ trSetup NR defaultR = true /\
  trSolve NR (fun x => x * x)%R (fun x => 2 * x)%R (fun _ => 2%R) Rabs Rmult Rplus Rmult Ropp (fun _ => 0%R) Rmult Rplus (fun _ _ => 0%R) innerR
    defaultR 0%R 5%R 0%R (mkTcg maximumInnerIterations 0%R (1 / 10)%R 1 0) = TrDone r s.
Proof.
  assert (L : forall fuel u, trLoop NR (fun x => x * x)%R (fun x => 2 * x)%R (fun _ => 2%R) Rabs Rmult Rplus Rmult Ropp (fun _ => 0%R) Rmult Rplus (fun _ _ => 0%R) innerR
    fuel defaultR u <> TrThrew).
  { induction fuel as [|fuel IH]; intro u; cbn [trLoop]; destruct (trStop NR defaultR u); try discriminate.
    match goal with |- context [trBody ?a ?b ?c ?d ?e ?f ?g ?h ?i ?j ?k ?l ?m ?n ?o ?p] => destruct (trBody a b c d e f g h i j k l m n o p) eqn:B end; [apply IH|].
    exfalso. revert B. unfold trBody. cbv zeta. unfold trPropose. cbv zeta. unfold innerR at 1. simpl (tr_useRand defaultR).
    cbn [andb]. destruct (tcg _ _ _ _ _ _ _ _ _ _ _ _ _ _ _ _ _ _ _ _ _ _ _). destruct (trDecide _ _ _ _ _ _ _ _ _ _ _ _) as [D acc]. discriminate. }
  destruct (trSolve NR (fun x => x * x)%R (fun x => 2 * x)%R (fun _ => 2%R) Rabs Rmult Rplus Rmult Ropp (fun _ => 0%R) Rmult Rplus (fun _ _ => 0%R) innerR
    defaultR 0%R 5%R 0%R (mkTcg maximumInnerIterations 0%R (1 / 10)%R 1 0)) as [r s| |] eqn:E.
  - exists r, s. split; [|split; [|split; [|reflexivity]]].
    + split; [intro; apply Rabs_pos|]. split.
      * intros v Hv. assert (v = 0%R) by (destruct (Req_dec v 0); auto; apply Rabs_no_R0 in H; contradiction). subst. split; intros; ring.
      * intros. ring.
    + intros g h e i eta i' K. unfold innerR in K. inversion K as [K']. eapply tcg_keeps_radius. exact K'.
    + unfold trSetup. simpl. rewrite !andb_true_iff, !rltb_true. lra.
  - exfalso. unfold trSolve in E. destruct (trLoop _ _ _ _ _ _ _ _ _ _ _ _ _ _ _ _ _) eqn:Q; try discriminate. eapply L; exact Q.
  - exfalso. eapply (proj1 (C60_stops _ _ _ _ _ _ _ _ _ _ _ _ _ _ _ _ _ _ _)). exact E.
Qed.

(** ** binary64 *)
Local Open Scope float_scope.
Definition NF : trNum float :=
  mkTrNum float 0 1 2 4 0x1p-1 0x1.a36e2eb1c432dp-14 0x1.fae147ae147aep-1 3.5 0x1p-13 0x1.19799812dea11p-40 0x1p-49
    PrimFloat.add PrimFloat.sub PrimFloat.mul PrimFloat.div PrimFloat.opp PrimFloat.abs PrimFloat.ltb PrimFloat.leb is_nan.

(** One unknown, identity preconditioner, Eigen's default of 2n inner iterations and tolerance epsilon *)
Definition innerF (g h guess : float) (i : tcgInfo float) : option (float * tcgInfo float) :=
  Some (tcg 0 2 PrimFloat.add PrimFloat.sub PrimFloat.mul PrimFloat.div PrimFloat.opp PrimFloat.sqrt PrimFloat.ltb PrimFloat.leb 0x1p-1022
          0 PrimFloat.add PrimFloat.sub PrimFloat.mul PrimFloat.mul (PrimFloat.mul h) (fun v => v) 2%Z 0x1p-52 (- g) guess i).
(** The default settings, 43-57, with given maxIter, tolerance and regularisation *)
Definition settingsF (maxIter : Z) (rhoReg : float) : trSettings float :=
  mkTR infinity maxIter 0x1.0c6f7a0b5ed8dp-20 0x1.0c6f7a0b5ed8dp-20 0x1.47ae147ae147bp-7 false rhoReg infinity 10.
Definition solveF (energy gradient hessian : float -> float) st x i :=
  trSolve NF energy gradient hessian PrimFloat.abs PrimFloat.mul PrimFloat.add PrimFloat.mul PrimFloat.opp (fun _ => 0) PrimFloat.mul PrimFloat.add
    (fun _ _ => 0) innerF st infinity x 0 i.
Definition info0 : tcgInfo float := mkTcg maximumInnerIterations 100000 0x1.999999999999ap-4 1 0.

(** Energy x²: converges as it should. *)
Example trust_region_example : match solveF (fun x => x * x) (fun x => 2 * x) (fun _ => 2) (settingsF 1000 1000000) 5 info0 with
  | TrDone r s => i_success (u_info s) = true /\ PrimFloat.eqb (u_x s) 0 = true /\ i_iter (u_info s) = 1%Z
  | _ => False end.
Proof. vm_compute. auto. Qed.

(** C30: without regularisation the radius becomes zero at a stationary start point. *)
Theorem C30_zero_radius_refuted : exists energy gradient hessian st x,
  trSetup NF st = true /\
  match solveF energy gradient hessian st x info0 with
  | TrDone r s => exists e, In e (u_trace s) /\ entryMsg e = CORRECTION_UPDATED /\ PrimFloat.eqb (entryDelta e) 0 = true
  | _ => False end.
Proof.
  exists (fun x => x * x), (fun x => 2 * x), (fun _ => 2), (settingsF 1000 0), 0.
  split; [vm_compute; reflexivity|].
  match goal with |- match ?t with _ => _ end => let v := eval vm_compute in t in change t with v end. cbv beta iota.
  eexists. split; [right; right; left; reflexivity|]. split; [reflexivity|vm_compute; reflexivity].
Qed.

(** C30: a second solve that starts at a stationary point enlarges the radius although the step is zero: the stop reason of the first solve is
    still stored. *)
Theorem C30_stale_stop_reason_refuted : exists energy gradient hessian st x1 x2,
  trSetup NF st = true /\
  match solveF energy gradient hessian st x1 info0 with
  | TrDone _ s1 =>
    match solveF energy gradient hessian st x2 (u_inner s1) with
    | TrDone r s => exists e0 e1 e2 tr, u_trace s = e0 :: e1 :: e2 :: tr /\ entryMsg e1 = ITERATION_STARTED /\ entryMsg e2 = CORRECTION_UPDATED /\
        PrimFloat.eqb (entryEta e2) 0 = true /\ PrimFloat.ltb (entryDelta e1) (entryDelta e2) = true
    | _ => False end
  | _ => False end.
Proof.
  exists (fun x => (x - 100) * (x - 100)), (fun x => 2 * (x - 100)), (fun _ => 2), (settingsF 1 1000000), 0, 100.
  split; [vm_compute; reflexivity|].
  match goal with |- match ?t with _ => _ end => let v := eval vm_compute in t in change t with v end. cbv beta iota.
  match goal with |- match ?t with _ => _ end => let v := eval vm_compute in t in change t with v end. cbv beta iota.
  do 4 eexists. split; [reflexivity|]. split; [reflexivity|]. split; [reflexivity|]. split; vm_compute; reflexivity.
Qed.

(** C31: a rejected step is undone only up to rounding. *)
Theorem C31_rounding_refuted : exists energy gradient hessian st x,
  trSetup NF st = true /\
  match solveF energy gradient hessian st x info0 with
  | TrDone r s => ~ In SOLUTION_CHANGED (map entryMsg (u_trace s)) /\ PrimFloat.eqb (u_x s) x = false
  | _ => False end.
Proof.
  exists (fun x => PrimFloat.sqrt (- ((x - 0x1.999999999999ap-4) * (x - 0x1.999999999999ap-4)))), (fun _ => 1), (fun _ => 1), (settingsF 1 1000000), 0x1.999999999999ap-4.
  split; [vm_compute; reflexivity|].
  match goal with |- match ?t with _ => _ end => let v := eval vm_compute in t in change t with v end. cbv beta iota.
  split; [|vm_compute; reflexivity]. vm_compute. intuition discriminate.
Qed.

(** C63: the energy is NaN everywhere but at the start; every step is rejected, the radius shrinks, and the solver reports success with gradient norm 1. *)
Theorem C63_rejections_refuted : exists energy gradient hessian st x,
  trSetup NF st = true /\
  match solveF energy gradient hessian st x info0 with
  | TrDone r s => i_success (u_info s) = true /\ ~ In SOLUTION_CHANGED (map entryMsg (u_trace s)) /\ i_res (u_info s) = 1 /\
                  (1 < i_iter (u_info s))%Z
  | _ => False end.
Proof.
  exists (fun x => PrimFloat.sqrt (- (x * x))), (fun _ => 1), (fun _ => 1), (settingsF 1000 1000000), 0.
  split; [vm_compute; reflexivity|].
  match goal with |- match ?t with _ => _ end => let v := eval vm_compute in t in change t with v end. cbv beta iota.
  split; [vm_compute; reflexivity|]. split; [vm_compute; intuition discriminate|]. split; vm_compute; reflexivity.
Qed.

Print Assumptions C60_stops.
Print Assumptions C60_success.
Print Assumptions C63_last_accepted_partial.
Print Assumptions C64_messages.
Print Assumptions C64_solutions.
Print Assumptions C30_radius_partial.
Print Assumptions C31_exact_partial.
Print Assumptions C30_zero_radius_refuted.
Print Assumptions C30_stale_stop_reason_refuted.
Print Assumptions C31_rounding_refuted.
Print Assumptions C63_rejections_refuted.
