(** Property C172: what the listeners of a trust-region solver are told. *)

From Coq Require Import List ZArith Bool Lia.
From Verif Require Import Newton_Model Newton_Spec TCG_Model TrustRegion_Model TrustRegion_Spec TrustRegion_Props.
From Coq Require Import Floats.
Import ListNotations.
Local Open Scope Z_scope.

Section View.
  Context {T V H X : Type}.
  Variable N : trNum T.
  Variables (energy : X -> T) (gradient : X -> V) (hessian : X -> H).
  Variables (vnorm : V -> T) (vdot : V -> V -> T) (vadd : V -> V -> V) (vscale : T -> V -> V) (vneg : V -> V) (vzeroLike : V -> V) (hmul : H -> V -> V).
  Variable update : X -> V -> X.
  Variable rnd : H -> T -> V.
  Variable inner : V -> H -> V -> tcgInfo T -> option (V * tcgInfo T).
  Notation solve := (trSolve N energy gradient hessian vnorm vdot vadd vscale vneg vzeroLike hmul update rnd inner).
  Notation body := (trBody N energy gradient hessian vnorm vdot vadd vscale vneg vzeroLike hmul update rnd inner).
  Notation loop := (trLoop N energy gradient hessian vnorm vdot vadd vscale vneg vzeroLike hmul update rnd inner).

  (** ** Specification: the information and the correction told in successive iterations; [i] and [c] are those told before.
      The residual norm told in an iteration is the one of the solution the iteration started from. *)
  Definition lastCorrection (b : @block T V X) : V := if b_acc b then b_eta b else vzeroLike (b_eta b).
  Fixpoint told (i : nlinfo T) (c : V) (bl : list block) : Prop :=
    match bl with
    | [] => True
    | b :: bl => b_i b = i /\ b_c b = c /\ b_i' b = mkInfo false (vnorm (gradient (b_x b))) (vnorm (b_eta b)) (-1) /\ told (b_i' b) (lastCorrection b) bl
    end.
  Definition finalNorm (inf : T) (bl : list (@block T V X)) : T := last (map (fun b => vnorm (b_eta b)) bl) inf.
  Definition finalCorrection (c : V) (bl : list (@block T V X)) : V := last (map lastCorrection bl) c.

  (** ** Proofs *)
  Lemma body_told st s s' : body st s = Some s' -> u_gradNorm s = vnorm (gradient (u_x s)) -> i_success (u_info s) = false -> i_iter (u_info s) = -1 ->
    exists b, u_trace s' = u_trace s ++ blockTrace update vneg vzeroLike b /\ b_x b = u_x s /\ b_D b = tcg_Delta (u_inner s) /\ b_i b = u_info s /\ b_c b = u_eta s /\
      b_i' b = mkInfo false (vnorm (gradient (b_x b))) (vnorm (b_eta b)) (-1) /\
      u_x s' = after update vneg b /\ tcg_Delta (u_inner s') = b_D' b /\ u_info s' = b_i' b /\ u_eta s' = lastCorrection b /\
      u_gradNorm s' = vnorm (gradient (u_x s')) /\ u_outer s' = u_outer s + 1.
  Proof.
    unfold trBody. intros E G Su It. destruct (trPropose _ _ _ _ _ _ _ _ _ _ _) as [[[eta Heta] inf]|]; [|discriminate].
    destruct (trDecide _ _ _ _ _ _ _ _ _ _ _ _) as [D acc]. injection E as E.
    exists (mkBlock (u_x s) (u_eta s) eta acc (tcg_Delta (u_inner s)) D (u_info s) (mkInfo (i_success (u_info s)) (u_gradNorm s) (vnorm eta) (i_iter (u_info s)))).
    unfold after, blockTrace, lastCorrection. simpl. subst s'. rewrite G, Su, It. destruct acc; simpl; rewrite <- ?app_assoc; simpl; repeat split; rewrite ?G, ?Su, ?It; reflexivity.
  Qed.

  Lemma loop_told st fuel : forall s r s', loop fuel st s = TrDone r s' -> u_gradNorm s = vnorm (gradient (u_x s)) -> i_success (u_info s) = false -> i_iter (u_info s) = -1 ->
    exists bl, u_trace s' = u_trace s ++ concat (map (blockTrace update vneg vzeroLike) bl) /\
      linked update vneg (u_x s) (tcg_Delta (u_inner s)) bl (u_x s') (tcg_Delta (u_inner s')) /\ told (u_info s) (u_eta s) bl /\
      i_success (u_info s') = false /\ i_corr (u_info s') = finalNorm (i_corr (u_info s)) bl /\ u_eta s' = finalCorrection (u_eta s) bl /\
      u_gradNorm s' = vnorm (gradient (u_x s')) /\ u_outer s' = u_outer s + Z.of_nat (length bl).
  Proof.
    assert (Stop : forall (s : trState), u_gradNorm s = vnorm (gradient (u_x s)) -> i_success (u_info s) = false ->
      exists bl, u_trace s = u_trace s ++ concat (map (blockTrace update vneg vzeroLike) bl) /\
      linked update vneg (u_x s) (tcg_Delta (u_inner s)) bl (u_x s) (tcg_Delta (u_inner s)) /\ told (u_info s) (u_eta s) bl /\
      i_success (u_info s) = false /\ i_corr (u_info s) = finalNorm (i_corr (u_info s)) bl /\ u_eta s = finalCorrection (u_eta s) bl /\
      u_gradNorm s = vnorm (gradient (u_x s)) /\ u_outer s = u_outer s + Z.of_nat (length bl)).
    { intros s G Su. exists []. cbn. rewrite app_nil_r. repeat split; auto. lia. }
    induction fuel as [|fuel IH]; intros s r s' E G Su It; cbn [trLoop] in E; destruct (trStop N st s).
    - injection E as <- <-. auto.
    - discriminate.
    - injection E as <- <-. auto.
    - destruct (body st s) as [s1|] eqn:B; [|discriminate].
      destruct (body_told st s s1 B G Su It) as (b & Tr & Bx & BD & Bi & Bc & Bi' & Ux & UD & Ui & Ue & Ug & Uo).
      destruct (IH s1 r s' E Ug) as (bl & A1 & A2 & A3 & A4 & A5 & A6 & A7 & A8); [rewrite Ui, Bi'; reflexivity|rewrite Ui, Bi'; reflexivity|].
      exists (b :: bl). cbn [map concat linked told length]. rewrite A1, Tr, app_assoc. repeat split; auto; try congruence.
      + rewrite A5, Ui, Bi'. unfold finalNorm. cbn [map i_corr]. destruct bl as [|b0 bl]; [reflexivity|]. cbn [map]. clear.
        change (last (vnorm (b_eta b) :: vnorm (b_eta b0) :: map (fun b => vnorm (b_eta b)) bl) (i_corr (u_info s)))
          with (last (vnorm (b_eta b0) :: map (fun b => vnorm (b_eta b)) bl) (i_corr (u_info s))).
        generalize (vnorm (b_eta b0)). induction bl as [|b1 bl IH]; intros t; [reflexivity|]. cbn [map]. exact (IH _).
      + rewrite A6, Ue. unfold finalCorrection. destruct bl as [|b0 bl]; [reflexivity|]. cbn [map]. clear.
        change (last (lastCorrection b :: lastCorrection b0 :: map lastCorrection bl) (u_eta s)) with (last (lastCorrection b0 :: map lastCorrection bl) (u_eta s)).
        generalize (lastCorrection b0). induction bl as [|b1 bl IH]; intros t; [reflexivity|]. cbn [map]. exact (IH _).
      + lia.
  Qed.

  (** C172: the content of all notifications *)
  Theorem C172_told_partial st inf x eta0 innerInfo r s : solve st inf x eta0 innerInfo = TrDone r s -> exists bl,
    u_trace s = (INIT, mkInfo false inf inf (-1), eta0, x, tcg_Delta innerInfo) :: concat (map (blockTrace update vneg vzeroLike) bl) ++
      (if i_success (u_info s) then [(FINISHED_SUCESSFULLY, mkInfo true (vnorm (gradient (u_x s))) (finalNorm inf bl) (Z.of_nat (length bl)),
                                      finalCorrection eta0 bl, u_x s, tcg_Delta (u_inner s))] else []) /\
    linked update vneg x (tr_delta0 st) bl (u_x s) (tcg_Delta (u_inner s)) /\ told (mkInfo false inf inf (-1)) eta0 bl.
  Proof.
    unfold trSolve. intros E. destruct (loop _ _ _) as [r' s1| |] eqn:L; [|discriminate|discriminate]. injection E as <- <-.
    destruct (loop_told _ _ _ _ _ L eq_refl eq_refl eq_refl) as (bl & A1 & A2 & A3 & A4 & A5 & A6 & A7 & A8). cbn in A1, A2, A3, A5, A6, A8.
    exists bl. split.
    - destruct r'; cbn; rewrite A1, ?A5, ?A6, ?A7, ?A8, ?app_nil_r; reflexivity.
    - split; [destruct r'; exact A2|exact A3].
  Qed.
End View.

Definition entryInfo {T V X} (e : nlmsg * nlinfo T * V * X * T) : nlinfo T := snd (fst (fst (fst e))).

(** ** The energy x² from 5 in binary64: one step to the minimum *)
Definition parabola : @trResult float float float := solveF (fun x => (x * x)%float) (fun x => (2 * x)%float) (fun _ => 2%float) (settingsF 1000 1000) 5%float info0.

Example C172_applies : match parabola with
  | TrDone r s => i_success (u_info s) = true /\ u_x s = 0%float /\ length (u_trace s) = 8%nat /\
      told (fun x => (2 * x)%float) PrimFloat.abs (fun _ => 0%float) (mkInfo false infinity infinity (-1)) 0%float
        [mkBlock 5%float 0%float (-5)%float true 10%float 10%float (mkInfo false infinity infinity (-1)) (mkInfo false 10%float 5%float (-1))]
  | _ => False end.
Proof. match goal with |- match ?t with _ => _ end => let v := eval vm_compute in t in change t with v end. vm_compute. repeat split. Qed.

(** When listeners hear that the residual norm is updated, the norm they are told is the one of the solution before: here 10 instead of 0 *)
Theorem C172_norm_refuted : match parabola with
  | TrDone r s => exists e, In e (u_trace s) /\ entryMsg e = RESIDUALNORM_UPDATED /\ i_res (entryInfo e) = 10%float /\ entryX e = 0%float
  | _ => False end.
Proof.
  match goal with |- match ?t with _ => _ end => let v := eval vm_compute in t in change t with v end. cbv beta iota.
  eexists. split; [right; right; right; right; left; reflexivity|]. vm_compute. repeat split.
Qed.

(** The number of iterations that is told at the end of an iteration is still -1 *)
Theorem C172_count_refuted : match parabola with
  | TrDone r s => exists e, In e (u_trace s) /\ entryMsg e = ITERATION_ENDED /\ i_iter (entryInfo e) = -1 /\ i_iter (u_info s) = 1
  | _ => False end.
Proof.
  match goal with |- match ?t with _ => _ end => let v := eval vm_compute in t in change t with v end. cbv beta iota.
  eexists. split; [right; right; right; right; right; right; left; reflexivity|]. vm_compute. repeat split.
Qed.
Print Assumptions C172_told_partial.
Print Assumptions C172_norm_refuted.
Print Assumptions C172_count_refuted.
