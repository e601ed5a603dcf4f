(** C146: steps of the trust-region solver lower the quadratic model at least as much as steps along the gradient.  Models: TCG_Model.v,
    TrustRegion_Model.v. *)

From Coq Require Import List ZArith Bool Lia Reals Lra.
From Verif Require Import Newton_Model TCG_Model TrustRegion_Model TrustRegion_Spec TrustRegion_Proofs TCG_Proofs TCG_Props TrustRegion_Props.
Import ListNotations.
Local Open Scope R_scope.

(** The quadratic model of the truncated conjugate gradient method *)
Definition quadratic (n : nat) (A : nat -> nat -> R) (rhs x : nat -> R) : R := 1 / 2 * dotN n x (matVec n A x) - dotN n rhs x.

(** Dimension, symmetric matrix, preconditioner and radius arbitrary, zero start vector: the result is at least as good as every multiple of
    the preconditioned right-hand side inside the region.  At least one iteration is allowed and the right-hand side is not counted as zero. *)
Theorem C146_inner : forall n (A P M : nat -> nat -> R) (rhs : nat -> R) maxIters tol tiny info t,
  symmetric n A -> symmetric n P -> symmetric n M -> positiveDefinite n P -> inverse n P M ->
  0 < tiny -> tiny < sqrt (dotN n rhs rhs) -> tiny <= dotN n rhs rhs -> tol * tol <= 1 -> (1 < maxIters)%Z -> 0 < tcg_Delta info ->
  0 <= t -> let d := fun i => t * matVec n P rhs i in dotN n d (matVec n M d) <= tcg_Delta info * tcg_Delta info ->
  let '(x, _) := tcg 0 2 Rplus Rminus Rmult Rdiv Ropp sqrt rltb rleb tiny (fun _ => 0) (fun u v i => u i + v i) (fun u v i => u i - v i)
                   (fun s u i => s * u i) (dotN n) (matVec n A) (matVec n P) maxIters tol rhs (fun _ => 0) info in
  quadratic n A rhs x <= quadratic n A rhs d.
Proof.
  intros n A P M rhs maxIters tol tiny info t SA SP SM PD PI Ht Hr1 Hr2 Htol HmI HD Ht0 d Hd.
  apply (tcg_cauchy (fun _ => 0) (fun u v i => u i + v i) (fun u v i => u i - v i) (fun s u i => s * u i) (dotN n) (matVec n A) (matVec n P) (matVec n M)); auto.
  - intros u v. apply sumTo_ext. intros; ring.
  - intros u v w. unfold dotN. rewrite <- sumTo_plus. apply sumTo_ext. intros; ring.
  - intros u v w. unfold dotN. unfold Rminus at 2. replace (- sumTo n (fun i => v i * w i)) with (-1 * sumTo n (fun i => v i * w i)) by ring.
    rewrite <- sumTo_scale, <- sumTo_plus. apply sumTo_ext. intros; ring.
  - intros s u w. unfold dotN. rewrite <- sumTo_scale. apply sumTo_ext. intros; ring.
  - intro u. apply sumTo_pos. intros. apply Rle_0_sqr.
  - intros. apply dotN_mat; auto.
  - intros. apply dotN_mat; auto.
  - intros. apply dotN_mat; auto.
  - intros u v. rewrite dotN_mat by auto. apply sumTo_ext. intros i Hi. f_equal. unfold matVec.
    rewrite (sumTo_ext n _ (fun j => sumTo n (fun k => P i j * M j k * v k))).
    2:{ intros j Hj. rewrite <- sumTo_scale. apply sumTo_ext. intros; ring. }
    rewrite sumTo_swap. rewrite (sumTo_ext n _ (fun k => (if Nat.eqb i k then 1 else 0) * v k)).
    + apply sumTo_delta. auto.
    + intros k Hk. rewrite <- (PI i k) by auto. rewrite Rmult_comm, <- sumTo_scale. apply sumTo_ext. intros; ring.
  - intros u Hu. apply PD.
    assert (K : forall m, 0 < dotN m u u -> exists i, (i < m)%nat /\ u i <> 0).
    { induction m as [|m IH]; unfold dotN in *; simpl; intro Q; [lra|]. destruct (Req_dec (u m) 0) as [E|E].
      - rewrite E in Q. destruct IH as [i [Hi1 Hi2]]; [lra|]. exists i. split; [lia|auto].
      - exists m. split; [lia|auto]. }
    apply K. auto.
  - intro w. unfold dotN. rewrite (sumTo_ext n _ (fun _ => 0)); [apply sumTo_zero|]. intros; ring.
Qed.
Print Assumptions C146_inner.

Section Solver.
Context {V H X : Type}.
Variables (energy : X -> R) (gradient : X -> V) (hessian : X -> H).
Variables (vnorm : V -> R) (vdot : V -> V -> R) (vadd : V -> V -> V) (vscale : R -> V -> V) (vneg : V -> V) (vzeroLike : V -> V) (hmul : H -> V -> V).
Variable update : X -> V -> X.
Variable rnd : H -> R -> V.
Variable inner : V -> H -> V -> tcgInfo R -> option (V * tcgInfo R).
Notation solve := (trSolve NR energy gradient hessian vnorm vdot vadd vscale vneg vzeroLike hmul update rnd inner).

(** Laws of the vectors, and linear Hessians *)
Definition bilinear : Prop :=
  (forall u v, vdot u v = vdot v u) /\ (forall c u v, vdot (vscale c u) v = c * vdot u v) /\ (forall u, vnorm u * vnorm u = vdot u u) /\
  (forall u, 0 <= vnorm u) /\ (forall h c u, hmul h (vscale c u) = vscale c (hmul h u)).

(** The quadratic model at a point, without the energy *)
Definition quadraticAt (x : X) (v : V) : R := vdot (gradient x) v + 1 / 2 * vdot (hmul (hessian x) v) v.

(** With a random start (useRand): whatever the inner solver returns, the first correction is at least as good as every step along the
    negative gradient that is not longer than the radius. *)
Theorem C146_random_start : forall st inf x eta0 innerInfo r s,
  bilinear -> innerKeepsRadius inner -> tr_useRand st = true -> trSetup NR st = true -> 0 < vnorm (gradient x) ->
  solve st inf x eta0 innerInfo = TrDone r s -> exists first bl fin,
  u_trace s = first :: concat (map (fun b => blockTrace update vneg vzeroLike b) bl) ++ fin /\
  match bl with
  | [] => True
  | b :: _ => b_x b = x /\ forall t, 0 <= t -> t * vnorm (gradient x) <= tr_delta0 st ->
              quadraticAt x (b_eta b) <= quadraticAt x (vscale (- t) (gradient x))
  end.
Proof.
  intros st inf x eta0 ii r s [Sy [Sc [Nn [Np Hl]]]] Hin HR HS Hg E. destruct (setup_facts st HS) as [_ HD0].
  apply solve_iterated in E. destruct E as [bl [s1 [I [S1 ->]]]].
  destruct (iterated_facts _ _ _ _ _ _ _ _ _ _ _ _ _ _ _ _ _ _ I) as [Tr _]. simpl in Tr.
  eexists. exists bl, (match r with gradientNormTolReached | correctionNormTolReached => [(FINISHED_SUCESSFULLY, u_info (trFinish r s1), u_eta s1, u_x s1, tcg_Delta (u_inner s1))] | _ => [] end).
  split.
  { transitivity (u_trace s1 ++ (match r with gradientNormTolReached | correctionNormTolReached => [(FINISHED_SUCESSFULLY, u_info (trFinish r s1), u_eta s1, u_x s1, tcg_Delta (u_inner s1))] | _ => [] end)).
    + destruct r; simpl; rewrite ?app_nil_r; reflexivity.
    + rewrite Tr. reflexivity. }
  destruct bl as [|b bl]; auto. cbn [iterated] in I. destruct I as [_ [s2 [[Heta [inf0 [P [_ [Bx _]]]]] _]]].
  simpl in Bx. split; auto. intros t Ht Htg. revert P. unfold trPropose. rewrite HR. simpl (u_outer _). cbn [andb Z.eqb].
  cbv zeta. simpl (u_x _). simpl (u_inner _). simpl (u_gradNorm _). simpl (u_energy _).
  set (g := gradient x) in *. set (h := hessian x) in *. unfold quadraticAt. fold g h.
  match goal with |- context [inner g h ?gs ?old] => destruct (inner g h gs old) as [[eta inf1]|] eqn:Ei; [|discriminate] end.
  assert (HD : tcg_Delta inf1 = tr_delta0 st) by (rewrite (Hin _ _ _ _ _ _ Ei); reflexivity).
  rewrite HD. set (D := tr_delta0 st) in *. set (gn := vnorm g) in *.
  set (q := vdot g (hmul h g)).
  match goal with |- context [vscale ?f g] => match f with Rdiv _ _ => set (c := f) end end || idtac.
  simpl. set (tau := if rleb q 0 then 1 else nmin NR (gn * gn * gn / (D * q)) 1).
  set (f := - tau * D / gn).
  assert (M : forall z, vdot g (vscale z g) + 1 / 2 * vdot (hmul h (vscale z g)) (vscale z g) = z * (gn * gn) + 1 / 2 * (z * z) * q).
  { intros z. rewrite Hl, !Sc, (Sy g (vscale z g)), Sc, (Sy (hmul h g) (vscale z g)), Sc, <- Nn. fold gn q. ring. }
  assert (C : vdot g (vscale f g) + 1 / 2 * vdot (hmul h (vscale f g)) (vscale f g) <=
              vdot g (vscale (- t) g) + 1 / 2 * vdot (hmul h (vscale (- t) g)) (vscale (- t) g)).
  { rewrite !M. 
    assert (T : t <= D / gn). { apply (Rmult_le_reg_r gn); auto. unfold Rdiv. rewrite Rmult_assoc, Rinv_l; lra. }
    assert (F : f = - (tau * (D / gn))) by (unfold f; field; lra).
    assert (P0 : 0 < D / gn) by (apply Rdiv_lt_0_compat; lra).
    assert (G2 : 0 < gn * gn) by nra.
    assert (L : - (tau * (D / gn)) * (gn * gn) + 1 / 2 * (tau * (D / gn) * (tau * (D / gn))) * q <= - t * (gn * gn) + 1 / 2 * (t * t) * q).
    { unfold tau. unfold rleb. destruct (Rle_dec q 0) as [Q|Q].
      - rewrite Rmult_1_l. apply along_min; auto. intros; lra.
      - assert (Q' : 0 < q) by lra. unfold nmin. simpl. unfold rltb.
        assert (K : gn * gn * gn / (D * q) * (D / gn) = gn * gn / q) by (field; lra).
        destruct (Rlt_dec 1 (gn * gn * gn / (D * q))) as [W|W].
        + rewrite Rmult_1_l. apply along_min; auto. intros _. right. split; auto. rewrite <- K.
          rewrite <- (Rmult_1_l (D / gn)) at 1. apply Rmult_le_compat_r; lra.
        + rewrite K. apply along_min; auto; try lra. apply Rdiv_lt_0_compat; lra. }
    rewrite F. replace (- (tau * (D / gn)) * - (tau * (D / gn))) with (tau * (D / gn) * (tau * (D / gn))) by ring.
    replace (- t * - t) with (t * t) by ring. exact L. }
  rewrite Hl in C at 1.
  match goal with |- context [rltb ?a ?b] => destruct (rltb a b) eqn:B end; intros P; injection P as P1 P2 P3; rewrite <- P1.
  - rewrite Hl at 1. exact C.
  - apply rltb_false in B. fold f in B. lra.
Qed.
End Solver.
Print Assumptions C146_random_start.

(** An indefinite matrix of dimension 2, unit preconditioner, radius 1, right-hand side (1, 0), step 1 *)
Example C146_inner_example : exists A P M rhs, symmetric 2 A /\ symmetric 2 P /\ symmetric 2 M /\ positiveDefinite 2 P /\ inverse 2 P M /\
  1 / 4 < sqrt (dotN 2 rhs rhs) /\ 1 / 4 <= dotN 2 rhs rhs /\
  (let d := fun i => 1 * matVec 2 P rhs i in dotN 2 d (matVec 2 M d) <= 1 * 1) /\
  quadratic 2 A rhs (fun i => 1 * matVec 2 P rhs i) < 0.
Proof.
  exists (fun i j => match i, j with O, O => 1 | 1%nat, 1%nat => -1 | _, _ => 3 end),
         (fun i j => if Nat.eqb i j then 1 else 0), (fun i j => if Nat.eqb i j then 1 else 0), (fun i => match i with O => 1 | _ => 0 end).
  split; [|split; [|split; [|split; [|split; [|split; [|split; [|split]]]]]]].
  - intros i j Hi Hj. destruct i as [|[|i]]; destruct j as [|[|j]]; try lia; reflexivity.
  - intros i j _ _. rewrite Nat.eqb_sym. reflexivity.
  - intros i j _ _. rewrite Nat.eqb_sym. reflexivity.
  - intros v [i [Hi Hv]]. unfold dotN, matVec. simpl.
    pose proof (Rle_0_sqr (v 0%nat)). pose proof (Rle_0_sqr (v 1%nat)). unfold Rsqr in *.
    assert (0 < v i * v i) by (apply Rsqr_pos_lt in Hv; exact Hv). destruct i as [|[|i]]; try lia; nra.
  - intros i k Hi Hk. destruct i as [|[|i]]; destruct k as [|[|k]]; try lia; simpl; field.
  - replace (dotN 2 _ _) with 1 by (unfold dotN; simpl; ring). rewrite sqrt_1. lra.
  - unfold dotN; simpl; lra.
  - unfold dotN, matVec; simpl; lra.
  - unfold quadratic, dotN, matVec; simpl; lra.
Qed.

(** One unknown, energy x^2, one iteration from 5 *)
Definition randomR : trSettings R := mkTR 1 1 (1 / 1000000) (1 / 1000000) (1 / 100) true 1000000 100 10.
Example C146_random_example : exists r s,
  bilinear Rabs Rmult Rmult Rmult /\ innerKeepsRadius innerR /\ tr_useRand randomR = true /\ trSetup NR randomR = true /\ 0 < Rabs (2 * 5) /\
  trSolve NR (fun x => x * x) (fun x => 2 * x) (fun _ => 2) Rabs Rmult Rplus Rmult Ropp (fun _ => 0) Rmult Rplus (fun _ _ => 1) innerR
    randomR 0 5 0 (mkTcg maximumInnerIterations 0 (1 / 10) 1 0) = TrDone r s /\ u_outer s = 1%Z.
Proof.
  assert (E : exists r s, trSolve NR (fun x => x * x) (fun x => 2 * x) (fun _ => 2) Rabs Rmult Rplus Rmult Ropp (fun _ => 0) Rmult Rplus (fun _ _ => 1) innerR
    randomR 0 5 0 (mkTcg maximumInnerIterations 0 (1 / 10) 1 0) = TrDone r s /\ u_outer s = 1%Z).
  { unfold trSolve. change (Z.to_nat (tr_maxIter randomR)) with 1%nat. cbn [trLoop].
    match goal with |- context [trStop NR randomR ?u] => replace (trStop NR randomR u) with (@None stopReason) end.
    2:{ unfold trStop. cbn. rewrite !andb_false_r. unfold rleb. destruct (Rle_dec 1 0); [lra|reflexivity]. }
    match goal with |- context [trBody ?a ?b ?c ?d ?e ?f ?g ?h ?i ?j ?k ?l ?m ?n ?o ?p] => destruct (trBody a b c d e f g h i j k l m n o p) as [u|] eqn:B end.
    - apply body_iterates in B as [b [? [? B]]]. decompose [and] B.
      assert (O1 : u_outer u = 1%Z) by (match goal with H : u_outer u = _ |- _ => rewrite H; reflexivity end).
      unfold trStop. rewrite O1. cbn [tr_maxIter randomR]. change (1 <=? 1)%Z with true.
      repeat match goal with |- context [if ?c then _ else _] => destruct c end; eexists _, _; (split; [reflexivity|]); destruct u; cbn in *; exact O1.
    - exfalso. revert B. unfold trBody, trPropose. cbv zeta. unfold innerR at 1.
      match goal with |- context [tcg ?a ?b ?c ?d ?e ?f ?g ?h ?i ?j ?k ?l ?m ?n ?o ?p ?q ?r ?s ?t ?u ?v ?w] => destruct (tcg a b c d e f g h i j k l m n o p q r s t u v w) end.
      match goal with |- context [if ?c then _ else _] => destruct c end;
      repeat (match goal with |- context [if nltb ?N ?a ?b then Some ?c else Some ?d] => destruct (nltb N a b) end);
      match goal with |- context [trDecide ?a ?b ?c ?d ?e ?f ?g ?h ?i ?j ?k ?l] => destruct (trDecide a b c d e f g h i j k l) end; discriminate. }
  destruct E as [r [s [E O1]]]. exists r, s. split; [|split; [|split; [|split; [|split]]]]; auto.
  - split; [intros; ring|]. split; [intros; ring|]. split; [intros u; rewrite <- Rabs_mult; apply Rabs_right; apply Rle_ge, Rle_0_sqr|].
    split; [apply Rabs_pos|]. intros; ring.
  - intros g h e i eta i' Q. unfold innerR in Q. injection Q as Q. eapply tcg_keeps_radius. exact Q.
  - unfold trSetup. simpl. rewrite !andb_true_iff, !rltb_true. lra.
  - rewrite Rabs_right; lra.
Qed.
