(** Lemmas on the trust-region solver. *)

From Coq Require Import List ZArith Bool Lia Reals Lra.
From Verif Require Import Newton_Model TCG_Model TrustRegion_Model TrustRegion_Spec.
Import ListNotations.
Local Open Scope Z_scope.

Section TR.
Context {T V H X : Type}.
Variable N : trNum T.
Variables (energy : X -> T) (gradient : X -> V) (hessian : X -> H).
Variables (vnorm : V -> T) (vdot : V -> V -> T) (vadd : V -> V -> V) (vscale : T -> V -> V) (vneg : V -> V) (vzeroLike : V -> V) (hmul : H -> V -> V).
Variable update : X -> V -> X.
Variable rnd : H -> T -> V.
Variable inner : V -> H -> V -> tcgInfo T -> option (V * tcgInfo T).

Notation body := (trBody N energy gradient hessian vnorm vdot vadd vscale vneg vzeroLike hmul update rnd inner).
Notation loop := (trLoop N energy gradient hessian vnorm vdot vadd vscale vneg vzeroLike hmul update rnd inner).
Notation propose := (trPropose N gradient hessian vdot vscale vzeroLike hmul rnd inner).
Notation decide := (trDecide N vnorm vdot vadd vscale).
Notation stop := (trStop N).
Notation blockT := (blockTrace update vneg vzeroLike).
Notation afterB := (after update vneg).

(** What an iteration does *)
Definition iterates (st : trSettings T) (s s' : trState) (b : block) : Prop :=
  exists Heta inf,
    propose st s = Some (b_eta b, Heta, inf) /\
    decide st s (gradient (u_x s)) (b_eta b) Heta inf (energy (update (u_x s) (b_eta b))) = (b_D' b, b_acc b) /\
    b_x b = u_x s /\ b_D b = tcg_Delta (u_inner s) /\
    u_trace s' = u_trace s ++ blockT b /\
    u_x s' = afterB b /\ u_inner s' = withDelta inf (b_D' b) /\
    u_gradNorm s' = vnorm (gradient (u_x s')) /\ u_etaNorm s' = vnorm (b_eta b) /\
    u_energy s' = (if b_acc b then energy (update (u_x s) (b_eta b)) else u_energy s) /\
    u_outer s' = u_outer s + 1 /\
    u_rejected s' = (if b_acc b then 0 else u_rejected s + 1) /\
    i_success (u_info s') = i_success (u_info s) /\ i_corr (u_info s') = vnorm (b_eta b).

Lemma body_iterates st s s' : body st s = Some s' -> exists b, iterates st s s' b.
Proof.
  unfold trBody. intro E.
  change (propose st (tremit ITERATION_STARTED s)) with (propose st s) in E.
  destruct (propose st s) as [[[eta Heta] inf]|] eqn:P; [|discriminate].
  change (decide st (tremit ITERATION_STARTED s)) with (decide st s) in E.
  change (u_x (tremit ITERATION_STARTED s)) with (u_x s) in E.
  destruct (decide st s (gradient (u_x s)) eta Heta inf (energy (update (u_x s) eta))) as [D acc] eqn:DE.
  injection E as E.
  exists (mkBlock (u_x s) (u_eta s) eta acc (tcg_Delta (u_inner s)) D (u_info s) (mkInfo (i_success (u_info s)) (u_gradNorm s) (vnorm eta) (i_iter (u_info s)))).
  exists Heta, inf. unfold after, blockTrace. simpl. subst s'. destruct acc; simpl; rewrite ?DE, <- ?app_assoc; simpl; repeat split; auto.
Qed.

(** A chain of iterations *)
Fixpoint iterated (st : trSettings T) (s : trState) (bl : list block) (s' : trState) : Prop :=
  match bl with
  | [] => s' = s
  | b :: bl' => stop st s = None /\ exists s1, iterates st s s1 b /\ iterated st s1 bl' s'
  end.

Lemma loop_iterated fuel st : forall s r s', loop fuel st s = TrDone r s' ->
  exists bl, iterated st s bl s' /\ stop st s' = Some r.
Proof.
  induction fuel as [|fuel IH]; intros s r s' E; cbn [trLoop] in E.
  - destruct (stop st s) eqn:St; [|discriminate]. inversion E; subst. exists []. split; [reflexivity|auto].
  - destruct (stop st s) eqn:St.
    + inversion E; subst. exists []. split; [reflexivity|auto].
    + destruct (body st s) as [s1|] eqn:B; [|discriminate].
      destruct (body_iterates _ _ _ B) as [b Hb]. destruct (IH _ _ _ E) as [bl [Hbl S1]].
      exists (b :: bl). split; auto. cbn [iterated]. split; auto. exists s1. auto.
Qed.

Lemma loop_enough_fuel st fuel : forall s, tr_maxIter st <= u_outer s + Z.of_nat fuel -> loop fuel st s <> TrFuel.
Proof.
  induction fuel as [|fuel IH]; intros s L; cbn [trLoop].
  - unfold trStop. destruct (_ && _); [discriminate|]. destruct (_ && _); [discriminate|]. destruct (nleb _ _ _); [discriminate|].
    destruct (Z.leb_spec (tr_maxIter st) (u_outer s)); [discriminate|]. simpl in L. lia.
  - destruct (stop st s); [discriminate|]. destruct (body st s) as [s1|] eqn:B; [|discriminate].
    destruct (body_iterates _ _ _ B) as [b [? [? K]]]. decompose [and] K. apply IH. lia.
Qed.

Lemma iterated_facts st bl : forall s s', iterated st s bl s' ->
  u_trace s' = u_trace s ++ concat (map blockT bl) /\ u_outer s' = u_outer s + Z.of_nat (length bl) /\
  linked update vneg (u_x s) (tcg_Delta (u_inner s)) bl (u_x s') (tcg_Delta (u_inner s')) /\
  i_success (u_info s') = i_success (u_info s) /\
  (u_gradNorm s = vnorm (gradient (u_x s)) -> u_gradNorm s' = vnorm (gradient (u_x s'))).
Proof.
  induction bl as [|b bl IH]; intros s s' K; cbn [iterated] in K.
  - subst. simpl. rewrite app_nil_r. repeat split; auto. lia.
  - destruct K as [_ [s1 [[Heta [inf [P [DE [Bx [BD [Tr [Ux [Ui [Ug [Ue [Uen [Uo [Ur [Us Uc]]]]]]]]]]]]]]] K2]]].
    destruct (IH _ _ K2) as [A1 [A2 [A3 [A4 A5]]]].
    split. { rewrite A1, Tr. cbn [map concat]. rewrite app_assoc. auto. }
    split. { rewrite A2, Uo. cbn [length]. lia. }
    split. { cbn [linked]. repeat split; auto. rewrite Ux, Ui in A3. exact A3. }
    split; [congruence|auto].
Qed.

Lemma iterated_last st bl b : forall s s', iterated st s (bl ++ [b]) s' ->
  u_etaNorm s' = vnorm (b_eta b) /\ i_corr (u_info s') = vnorm (b_eta b).
Proof.
  induction bl as [|b0 bl IH]; intros s s' K; cbn [iterated app] in K.
  - destruct K as [_ [s1 [[Heta [inf K1]] K2]]]. subst. decompose [and] K1. auto.
  - destruct K as [_ [s1 [_ K2]]]. eauto.
Qed.

Lemma iterated_bound st bl : forall s s', iterated st s bl s' -> bl <> [] -> u_outer s' <= tr_maxIter st.
Proof.
  induction bl as [|b bl IH]; intros s s' K NE; [congruence|]. cbn [iterated] in K. destruct K as [S0 [s1 [K1 K2]]].
  destruct bl as [|b' bl].
  - cbn [iterated] in K2. subst s'. destruct K1 as [? [? K1]]. decompose [and] K1.
    unfold trStop in S0. destruct (_ && _); [discriminate|]. destruct (_ && _); [discriminate|]. destruct (nleb _ _ _); [discriminate|].
    destruct (Z.leb_spec (tr_maxIter st) (u_outer s)); [discriminate|]. lia.
  - apply (IH _ _ K2). discriminate.
Qed.

Lemma blockT_msgs (b : @block T V X) : map entryMsg (blockT b) = iterationMessages (b_acc b).
Proof. unfold blockTrace, iterationMessages, entryMsg. destruct (b_acc b); reflexivity. Qed.

Lemma iterated_all st bl : forall s s', iterated st s bl s' -> Forall (fun b => exists u u', iterates st u u' b) bl.
Proof.
  induction bl as [|b bl IH]; intros s s' K; [constructor|]. cbn [iterated] in K. destruct K as [_ [s1 [K1 K2]]]. constructor; eauto.
Qed.

(** An invariant kept by every iteration holds at every block *)
Lemma iterated_inv (I : @trState T V X -> Prop) (Q : @block T V X -> Prop) st :
  (forall s s' b, I s -> stop st s = None -> iterates st s s' b -> I s' /\ Q b) ->
  forall bl s s', I s -> iterated st s bl s' -> I s' /\ Forall Q bl.
Proof.
  intro Hstep. induction bl as [|b bl IH]; intros s s' Hs K; cbn [iterated] in K.
  - subst. split; auto.
  - destruct K as [S0 [s1 [K1 K2]]]. destruct (Hstep _ _ _ Hs S0 K1) as [I1 Qb]. destruct (IH _ _ I1 K2). split; auto.
Qed.
End TR.

(** ** The real numbers *)
Local Open Scope R_scope.
Definition rltb (a b : R) : bool := if Rlt_dec a b then true else false.
Definition rleb (a b : R) : bool := if Rle_dec a b then true else false.

Definition NR : trNum R :=
  mkTrNum R 0 1 2 4 (1 / 2) (1 / 10000) (99 / 100) (35 / 10) (1 / 8192) (1 / 1000000000000) (8 / 4503599627370496)
    Rplus Rminus Rmult Rdiv Ropp Rabs rltb rleb (fun _ => false).

Lemma rltb_true a b : rltb a b = true <-> a < b.
Proof. unfold rltb. destruct (Rlt_dec a b); split; intros; auto; discriminate || contradiction. Qed.
Lemma rltb_false a b : rltb a b = false <-> b <= a.
Proof. unfold rltb. destruct (Rlt_dec a b); split; intros; auto; try discriminate; lra. Qed.
Lemma rleb_true a b : rleb a b = true <-> a <= b.
Proof. unfold rleb. destruct (Rle_dec a b); split; intros; auto; discriminate || contradiction. Qed.
Lemma rleb_false a b : rleb a b = false <-> b < a.
Proof. unfold rleb. destruct (Rle_dec a b); split; intros; auto; try discriminate; lra. Qed.

(** An accepted step satisfies the energy test. *)
Definition slack : R := 1 / 1000000000000 * (4503599627370496 / 4503599627370488).

Lemma floatGe_slack d : floatGe NR d (- (1 / 1000000000000)) = true -> - slack <= d.
Proof.
  unfold floatGe, floatEq, nmax. simpl. intro H. apply orb_true_iff in H. destruct H as [H|H].
  - apply rltb_true in H. unfold slack. lra.
  - apply rleb_true in H. unfold rltb in H. unfold slack.
    destruct (Rle_lt_dec 0 d) as [P|P]; [lra|].
    destruct (Rlt_dec (Rabs d) (Rabs (- (1 / 1000000000000)))) as [L|L]; revert H L; unfold Rabs; repeat destruct (Rcase_abs _); intros; lra.
Qed.
