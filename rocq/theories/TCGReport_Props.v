(** Property C149: what the truncated conjugate gradient solver reports. *)

From Coq Require Import List ZArith Bool Lia Floats Reals Lra.
From Verif Require Import TCG_Model TrustRegion_Proofs TCG_Proofs TCG_Props TCGReport_Model.
Import ListNotations.
Local Open Scope R_scope.

(** ** The solution and the info are those of TCG_Model.v *)
Section Same.
Context {T V : Type}.
Variables (t0 t2 : T) (tadd tsub tmul tdiv : T -> T -> T) (topp tsqrt : T -> T) (tltb tleb : T -> T -> bool) (tiny : T).
Variables (vzero : V) (vadd vsub : V -> V -> V) (vscale : T -> V -> V) (dot : V -> V -> T) (mat precond : V -> V).

Lemma loop_same fuel : forall maxIters i rn th info s r,
  fst (reportLoop t0 t2 tadd tsub tmul tdiv topp tsqrt tltb tleb vadd vsub vscale dot mat precond fuel maxIters i rn th info s r) =
  tcgLoop t0 t2 tadd tsub tmul tdiv topp tsqrt tltb tleb vadd vsub vscale dot mat precond fuel maxIters i rn th info s.
Proof.
  induction fuel as [|fuel IH]; intros; cbn [reportLoop tcgLoop]; [reflexivity|]. destruct (i <? maxIters)%Z; [|reflexivity]. cbv zeta.
  match goal with |- context [if ?c || ?d then _ else _] => destruct (c || d) end; [reflexivity|].
  match goal with |- context [if ?c && ?d then _ else _] => destruct (c && d) end; [reflexivity|].
  match goal with |- context [if tltb ?c th then _ else _] => destruct (tltb c th) end; [reflexivity|]. apply IH.
Qed.

Theorem C149_same maxIters tol rhs x0 info :
  let r := solveReport t0 t2 tadd tsub tmul tdiv topp tsqrt tltb tleb tiny vzero vadd vsub vscale dot mat precond maxIters tol rhs x0 info in
  tcg t0 t2 tadd tsub tmul tdiv topp tsqrt tltb tleb tiny vzero vadd vsub vscale dot mat precond maxIters tol rhs x0 info = (rp_x r, rp_info r).
Proof.
  cbv zeta. unfold solveReport, tcg. cbv zeta. match goal with |- context [if ?c then _ else _] => destruct c end; [reflexivity|].
  match goal with |- context [if ?c then _ else _] => destruct c end; [reflexivity|]. rewrite <- (loop_same _ _ _ _ _ _ _ (vnorm tsqrt dot (vsub rhs (mat x0)))).
  destruct reportLoop as [[[x i] st] rn]. reflexivity.
Qed.
End Same.

(** ** Any start vector and preconditioner *)
Section Residuals.
Context {V : Type}.
Variables (vzero : V) (vadd vsub : V -> V -> V) (vscale : R -> V -> V) (dot : V -> V -> R) (A P : V -> V).
Hypothesis dot_sym : forall u v, dot u v = dot v u.
Hypothesis dot_add : forall u v w, dot (vadd u v) w = dot u w + dot v w.
Hypothesis dot_sub : forall u v w, dot (vsub u v) w = dot u w - dot v w.
Hypothesis dot_scale : forall s u w, dot (vscale s u) w = s * dot u w.
Hypothesis A_sym : forall u v, dot (A u) v = dot u (A v).
Variables (b : V) (tiny : R).
Notation norm v := (sqrt (dot v v)).
Notation loop := (reportLoop 0 2 Rplus Rminus Rmult Rdiv Ropp sqrt rltb rleb vadd vsub vscale dot A P).

Lemma residual_norm r x : (forall w, dot r w = dot b w - dot (A x) w) -> norm r = norm (vsub b (A x)).
Proof. intros H. f_equal. rewrite (dot_sub b), <- H, (dot_sym r (vsub _ _)), dot_sub, <- H. reflexivity. Qed.

Lemma next_residual r x p t : (forall w, dot r w = dot b w - dot (A x) w) ->
  forall w, dot (vsub r (vscale t (A p))) w = dot b w - dot (A (vadd x (vscale t p))) w.
Proof. intros H w. rewrite dot_sub, dot_scale, H, (A_sym (vadd _ _)), dot_add, dot_scale, <- !A_sym. ring. Qed.

Definition told (maxIters : Z) (tol : R) (info : tcgInfo R) (x : V) (i : Z) (st : tcgStop) (rn : R) : Prop :=
  let res := norm (vsub b (A x)) in
  match st with
  | reachedTargetResidualKappaLinear => (tcg_mininner info <= i)%Z /\ tcg_kappa info < norm b /\ res <= norm b * tcg_kappa info /\ rn = res
  | reachedTargetResidualThetaSuperLinear => (tcg_mininner info <= i)%Z /\ norm b <= tcg_kappa info /\ res <= norm b * norm b /\ rn = res
  | maximumInnerIterations => (i = Z.max 1 maxIters \/ res < Rmax (tol * norm b * (tol * norm b)) tiny) /\ rn = res
  | negativeCurvature | exceededTrustRegion => True
  | modelIncreased => False
  end.

Lemma loop_told tol maxIters info fuel : forall i s rn, let th := Rmax (tol * norm b * (tol * norm b)) tiny in
  (1 <= i <= Z.max 1 maxIters)%Z -> (Z.max 1 maxIters - i <= Z.of_nat fuel)%Z ->
  (forall w, dot (ts_r s) w = dot b w - dot (A (ts_x s)) w) -> rn = norm (vsub b (A (ts_x s))) ->
  let '(x, i', st, rn') := loop fuel maxIters i (norm b) th info s rn in
  (i <= i' <= Z.max 1 maxIters)%Z /\ told maxIters tol info x i' st rn'.
Proof.
  induction fuel as [|fuel IH]; intros i s rn th Hi Hf Hr Hn; cbn [reportLoop].
  { split; [lia|]. unfold told. split; [left; lia|exact Hn]. }
  destruct (Z.ltb_spec i maxIters) as [L|L]; [|split; [lia|]; split; [left; lia|exact Hn]]. cbv zeta.
  match goal with |- context [if ?c || ?d then _ else _] => destruct (c || d) end; [split; [lia|]; destruct (rleb _ _); exact I|].
  match goal with |- context [vnorm sqrt dot (vsub (ts_r s) (vscale ?a _))] => set (al := a) end.
  assert (N := next_residual _ _ (ts_p s) al Hr). unfold vnorm.
  rewrite (residual_norm _ _ N). set (x := vadd (ts_x s) (vscale al (ts_p s))) in *. set (res := norm (vsub b (A x))).
  destruct ((tcg_mininner info <=? i)%Z && rleb res (norm b * tmin rltb (norm b) (tcg_kappa info))) eqn:C.
  { apply andb_prop in C as [Hm Q]. apply Z.leb_le in Hm. apply rleb_true in Q. unfold tmin in Q.
    destruct (rltb (tcg_kappa info) (norm b)) eqn:K; split; try lia; unfold told; fold res; [apply rltb_true in K|apply rltb_false in K]; auto. }
  destruct (rltb res th) eqn:K; [apply rltb_true in K; split; [lia|]; unfold told; fold res; auto|].
  match goal with |- context [loop fuel maxIters (i + 1)%Z _ _ _ ?s' _] => specialize (IH (i + 1)%Z s' res) end. cbv zeta in IH. fold th in IH.
  destruct loop as [[[x' i'] st] rn'].
  destruct IH as [I1 I2]; [lia|lia|exact N|reflexivity|]. split; [lia|exact I2].
Qed.

Theorem report_told maxIters tol x0 info :
  let rep := solveReport 0 2 Rplus Rminus Rmult Rdiv Ropp sqrt rltb rleb tiny vzero vadd vsub vscale dot A P maxIters tol b x0 info in
  let res := norm (vsub b (A (rp_x rep))) in
  (rp_success rep = true <-> rp_error rep <= tol) /\
  (norm b <= tiny -> rp_x rep = vzero /\ rp_iterations rep = 0%Z /\ rp_error rep = 0 /\ rp_info rep = info) /\
  (tiny < norm b ->
     (rp_iterations rep = 0%Z /\ rp_x rep = x0 /\ rp_info rep = info /\ rp_error rep = res / norm b /\ res * res < Rmax (tol * norm b * (tol * norm b)) tiny) \/
     ((1 <= rp_iterations rep <= Z.max 1 maxIters)%Z /\ tcg_numInner (rp_info rep) = rp_iterations rep /\ tcg_Delta (rp_info rep) = tcg_Delta info /\
      exists rn, rp_error rep = rn / norm b /\ told maxIters tol info (rp_x rep) (rp_iterations rep) (tcg_stop (rp_info rep)) rn)).
Proof.
  cbv zeta. unfold solveReport. cbv zeta. unfold vnorm. set (nb := norm b) in *.
  assert (S : forall e, rleb e tol = true <-> e <= tol).
  { intros e. unfold rleb. destruct Rle_dec; split; auto; try discriminate; contradiction. }
  destruct (rleb nb tiny) eqn:Z0.
  { apply rleb_true in Z0. cbn. split; [apply S|]. split; [auto|]. intros; lra. }
  apply rleb_false in Z0.
  assert (Th : tmax rltb (tol * tol * nb * nb) tiny = Rmax (tol * nb * (tol * nb)) tiny).
  { unfold tmax. replace (tol * nb * (tol * nb)) with (tol * tol * nb * nb) by ring. unfold rltb, Rmax.
    destruct Rlt_dec, Rle_dec; try reflexivity; lra. }
  rewrite Th. match goal with |- context [rltb ?q ?t] => destruct (rltb q t) eqn:Q end.
  { apply rltb_true in Q. cbn. split; [apply S|]. split; [intros; lra|]. intros _. left. auto. }
  match goal with |- context [loop ?f ?mi ?i ?rn ?t ?inf ?s ?r] =>
    assert (L := loop_told tol mi inf f i s r); cbv zeta in L; fold nb in L; destruct (loop f mi i rn t inf s r) as [[[x j] st] rn'] end.
  destruct L as [L1 L2]; [lia|lia|intros w; cbn; now rewrite dot_sub|reflexivity|]. cbn. split; [apply S|]. split; [intros; lra|]. intros _. right.
  split; [lia|]. split; [reflexivity|]. split; [reflexivity|]. exists rn'. auto.
Qed.
End Residuals.

(** ** Vectors and matrices of dimension [n] *)
Definition lengthN (n : nat) (v : nat -> R) : R := sqrt (dotN n v v).
Definition residualN (n : nat) (A : nat -> nat -> R) (rhs x : nat -> R) : R := lengthN n (fun i => rhs i - matVec n A x i).
Definition realReport (n : nat) (A P : nat -> nat -> R) (tiny : R) :=
  solveReport 0 2 Rplus Rminus Rmult Rdiv Ropp sqrt rltb rleb tiny (fun _ => 0) (fun u v i => u i + v i) (fun u v i => u i - v i)
    (fun s u i => s * u i) (dotN n) (matVec n A) (matVec n P).

Lemma dotN_sym n u v : dotN n u v = dotN n v u.
Proof. apply sumTo_ext. intros; ring. Qed.
Lemma dotN_add n u v w : dotN n (fun i => u i + v i) w = dotN n u w + dotN n v w.
Proof. unfold dotN. rewrite <- sumTo_plus. apply sumTo_ext. intros; ring. Qed.
Lemma dotN_sub n u v w : dotN n (fun i => u i - v i) w = dotN n u w - dotN n v w.
Proof.
  unfold dotN. unfold Rminus at 2. replace (- sumTo n (fun i => v i * w i)) with (-1 * sumTo n (fun i => v i * w i)) by ring.
  rewrite <- sumTo_scale, <- sumTo_plus. apply sumTo_ext. intros; ring.
Qed.
Lemma dotN_scale n s u w : dotN n (fun i => s * u i) w = s * dotN n u w.
Proof. unfold dotN. rewrite <- sumTo_scale. apply sumTo_ext. intros; ring. Qed.

(** For every start vector: what the reasons other than the boundary say is true, and then the error is that of the solution. *)
Theorem C149_residual_partial : forall n (A P : nat -> nat -> R) (rhs x0 : nat -> R) maxIters tol tiny info, symmetric n A ->
  let rep := realReport n A P tiny maxIters tol rhs x0 info in
  let x := rp_x rep in let i := rp_iterations rep in let stop := tcg_stop (rp_info rep) in let b := lengthN n rhs in
  (rp_success rep = true <-> rp_error rep <= tol) /\
  (b <= tiny -> x = (fun _ => 0) /\ i = 0%Z /\ rp_error rep = 0 /\ rp_info rep = info) /\
  (tiny < b -> i = 0%Z -> x = x0 /\ rp_info rep = info /\ rp_error rep = residualN n A rhs x / b /\
     residualN n A rhs x * residualN n A rhs x < Rmax (tol * b * (tol * b)) tiny) /\
  (tiny < b -> i <> 0%Z -> (1 <= i <= Z.max 1 maxIters)%Z /\ tcg_numInner (rp_info rep) = i /\
     (stop = reachedTargetResidualKappaLinear -> (tcg_mininner info <= i)%Z /\ tcg_kappa info < b /\ residualN n A rhs x <= b * tcg_kappa info) /\
     (stop = reachedTargetResidualThetaSuperLinear -> (tcg_mininner info <= i)%Z /\ b <= tcg_kappa info /\ residualN n A rhs x <= b * b) /\
     (stop = maximumInnerIterations -> i = Z.max 1 maxIters \/ residualN n A rhs x < Rmax (tol * b * (tol * b)) tiny) /\
     stop <> modelIncreased /\
     (stop <> negativeCurvature -> stop <> exceededTrustRegion -> rp_error rep = residualN n A rhs x / b)).
Proof.
  intros n A P rhs x0 maxIters tol tiny info SA. cbv zeta.
  destruct (report_told (fun _ => 0) (fun u v i => u i + v i) (fun u v i => u i - v i) (fun s u i => s * u i) (dotN n) (matVec n A) (matVec n P)
    (dotN_sym n) (dotN_add n) (dotN_sub n) (dotN_scale n) (fun u v => dotN_mat n A u v SA) rhs tiny maxIters tol x0 info) as (H1 & H2 & H3).
  fold (realReport n A P tiny maxIters tol rhs x0 info) in *. set (rep := realReport n A P tiny maxIters tol rhs x0 info) in *.
  split; [exact H1|]. split; [exact H2|]. split; intros B.
  - intros I. destruct (H3 B) as [(_ & X1 & X2 & X3 & X4)|(X & _)]; [|lia]. auto.
  - intros I. destruct (H3 B) as [(X & _)|(X1 & X2 & _ & rn & X3 & X4)]; [contradiction|]. split; [exact X1|]. split; [exact X2|]. unfold told in X4.
    fold (residualN n A rhs (rp_x rep)) in X4.
    change (sqrt (dotN n (fun i => rhs i - matVec n A (rp_x rep) i) (fun i => rhs i - matVec n A (rp_x rep) i))) with (residualN n A rhs (rp_x rep)) in X4.
    change (sqrt (dotN n rhs rhs)) with (lengthN n rhs) in X3, X4.
    destruct (tcg_stop (rp_info rep)); try contradiction; repeat split; try discriminate; try congruence; try tauto.
    all: intros; destruct X4 as (Y & Z); try (destruct Z as (Z1 & Z2 & Z3)); congruence.
Qed.

(** For the zero start vector: the boundary reasons mean that the step has the length of the radius, the others that it is shorter. *)
Theorem C149_region : forall n (A P M : nat -> nat -> R) (rhs : nat -> R) maxIters tol tiny info,
  symmetric n A -> symmetric n P -> symmetric n M -> positiveDefinite n P -> inverse n P M -> 0 < tiny -> 0 < tcg_Delta info ->
  let rep := realReport n A P tiny maxIters tol rhs (fun _ => 0) info in
  let length2 := dotN n (rp_x rep) (matVec n M (rp_x rep)) in
  rp_iterations rep <> 0%Z ->
  match tcg_stop (rp_info rep) with
  | negativeCurvature => length2 = tcg_Delta info * tcg_Delta info /\ exists p i, (i < n)%nat /\ p i <> 0 /\ dotN n p (matVec n A p) <= 0
  | exceededTrustRegion => length2 = tcg_Delta info * tcg_Delta info
  | _ => length2 < tcg_Delta info * tcg_Delta info
  end.
Proof.
  intros n A P M rhs maxIters tol tiny info SA SP SM PD PI Ht HD. cbv zeta.
  assert (Z0 : forall w, dotN n (fun _ => 0) w = 0).
  { intro w. unfold dotN. rewrite (sumTo_ext n _ (fun _ => 0)); [apply sumTo_zero|]. intros; ring. }
  assert (Pos : forall u, 0 <= dotN n u u) by (intros; apply sumTo_pos; intros; apply Rle_0_sqr).
  assert (PM : forall u v, dotN n (matVec n P u) (matVec n M v) = dotN n u v).
  { intros u v. rewrite dotN_mat by auto. apply sumTo_ext. intros i Hi. f_equal. unfold matVec.
    rewrite (sumTo_ext n _ (fun j => sumTo n (fun k => P i j * M j k * v k))).
    2:{ intros j Hj. rewrite <- sumTo_scale. apply sumTo_ext. intros; ring. }
    rewrite sumTo_swap. rewrite (sumTo_ext n _ (fun k => (if Nat.eqb i k then 1 else 0) * v k)).
    - apply sumTo_delta. auto.
    - intros k Hk. rewrite <- (PI i k) by auto. rewrite Rmult_comm, <- sumTo_scale. apply sumTo_ext. intros; ring. }
  assert (K : forall m u, 0 < dotN m u u -> exists i, (i < m)%nat /\ u i <> 0).
  { induction m as [|m IH]; unfold dotN in *; simpl; intros u Q; [lra|]. destruct (Req_dec (u m) 0) as [E|E].
    - rewrite E in Q. destruct (IH u) as [i [Hi1 Hi2]]; [lra|]. exists i. split; [lia|auto].
    - exists m. split; [lia|auto]. }
  assert (K2 : forall u, 0 < dotN n u (matVec n M u) -> exists i, (i < n)%nat /\ u i <> 0).
  { intros u Q. apply K. destruct (Rle_lt_or_eq_dec 0 (dotN n u u) (Pos u)) as [|E]; [assumption|]. exfalso.
    assert (U0 : forall i, (i < n)%nat -> u i = 0).
    { assert (G : forall m, dotN m u u = 0 -> forall i, (i < m)%nat -> u i = 0).
      { induction m as [|m IH]; intros Z i Hi; [lia|]. unfold dotN in Z. cbn [sumTo] in Z. fold (dotN m u u) in Z.
        assert (0 <= dotN m u u) by (apply sumTo_pos; intros; apply Rle_0_sqr). assert (0 <= u m * u m) by apply Rle_0_sqr.
        destruct (Nat.eq_dec i m) as [->|]; [|apply IH; [lra|lia]]. apply Rsqr_0_uniq. unfold Rsqr. lra. }
      apply G. auto. }
    assert (X : dotN n u (matVec n M u) = 0); [|lra]. unfold dotN. rewrite (sumTo_ext n _ (fun _ => 0)); [apply sumTo_zero|].
    intros i Hi. rewrite U0 by assumption. ring. }
  assert (PP : forall u, 0 < dotN n u u -> 0 < dotN n u (matVec n P u)) by (intros u Q; apply PD, K, Q).
  unfold realReport, solveReport. cbv zeta.
  match goal with |- context [if ?c then _ else _] => destruct c end; [cbn; congruence|].
  match goal with |- context [rltb _ (tmax ?lt ?q ?t)] => set (th := tmax lt q t) end.
  assert (Hth : 0 < th).
  { unfold th, tmax. match goal with |- context [rltb ?q ?t] => destruct (rltb q t) eqn:Q end; auto. apply rltb_false in Q. lra. }
  match goal with |- context [if ?c then _ else _] => destruct c eqn:C end; [cbn; congruence|].
  apply rltb_false in C. unfold vnorm in C. rewrite sqrt_sqrt in C by auto.
  match goal with |- context [reportLoop ?a ?b ?c ?d ?e ?f ?g ?h ?i ?j ?k ?l ?m ?o ?p ?q ?fu ?mi ?i0 ?rn ?t ?inf ?s ?r] =>
    assert (L := loop_boundary k l m o p q (matVec n M) (dotN_sym n) (dotN_add n) (dotN_sub n) (dotN_scale n) Pos
      (fun u v => dotN_mat n A u v SA) (fun u v => dotN_mat n P u v SP) (fun u v => dotN_mat n M u v SM) PM PP rhs fu mi i0 rn t inf 0 [] [] s Hth);
    assert (X := loop_same a b c d e f g h i j k l m o p q fu mi i0 rn t inf s r); destruct (reportLoop a b c d e f g h i j k l m o p q fu mi i0 rn t inf s r) as [[[x jj] st] rn'] end.
  cbn [fst] in X. rewrite <- X in L. cbn. intros _.
  match type of L with ?g -> _ => assert (G : g) end.
  { apply (good_start (fun u v i => u i - v i)); auto; intros; try (apply dotN_mat; assumption); try apply dotN_sym; try apply dotN_sub. lra. }
  specialize (L G). unfold mnorm2 in L. destruct st; auto. destruct L as [L1 (p & L2 & L3)]. split; [exact L1|].
  destruct (K2 p L2) as (i & Hi & Np). exists p, i. auto.
Qed.

(** Non-vacuity: two unknowns, an indefinite matrix, and iterations are made *)
Example C149_applies : exists (A P M : nat -> nat -> R) rhs, symmetric 2 A /\ symmetric 2 P /\ symmetric 2 M /\ positiveDefinite 2 P /\ inverse 2 P M /\ 1 < lengthN 2 rhs /\
  rp_iterations (realReport 2 A P 1 10 (1 / 10) rhs (fun _ => 0) (mkTcg maximumInnerIterations 100 (1 / 10) 1 0)) <> 0%Z.
Proof.
  set (A := fun i j => if Nat.eqb i j then (if Nat.eqb i 0 then 2 else -1) else 0 : R).
  exists A, (fun i j => if Nat.eqb i j then 1 else 0), (fun i j => if Nat.eqb i j then 1 else 0), (fun i => match i with O => 3 | _ => 4 end).
  assert (SA : symmetric 2 A) by (intros i j Hi Hj; unfold A; destruct i as [|[|i]]; destruct j as [|[|j]]; try lia; reflexivity).
  assert (L5 : lengthN 2 (fun i => match i with O => 3 | _ => 4 end) = 5).
  { unfold lengthN, dotN. simpl. replace (0 + 3 * 3 + 4 * 4) with (5 * 5) by ring. apply sqrt_square. lra. }
  split; [exact SA|]. split; [intros i j _ _; rewrite Nat.eqb_sym; reflexivity|].
  split; [intros i j _ _; rewrite Nat.eqb_sym; reflexivity|]. split; [|split; [|split]].
  - intros v [i [Hi Hv]]. unfold dotN, matVec. simpl.
    pose proof (Rle_0_sqr (v 0%nat)). pose proof (Rle_0_sqr (v 1%nat)). unfold Rsqr in *.
    assert (0 < v i * v i) by (apply Rsqr_pos_lt in Hv; exact Hv). destruct i as [|[|i]]; try lia; nra.
  - intros i k Hi Hk. destruct i as [|[|i]]; destruct k as [|[|k]]; try lia; simpl; field.
  - rewrite L5. lra.
  - intros Z. destruct (C149_residual_partial 2 A (fun i j => if Nat.eqb i j then 1 else 0) (fun i => match i with O => 3 | _ => 4 end) (fun _ => 0) 10 (1 / 10) 1
      (mkTcg maximumInnerIterations 100 (1 / 10) 1 0) SA) as (_ & _ & H & _). cbv zeta in H. rewrite L5 in H. destruct (H ltac:(lra) Z) as (X & _ & _ & L).
    rewrite X in L. assert (E : residualN 2 A (fun i => match i with O => 3 | _ => 4 end) (fun _ => 0) = 5).
    { unfold residualN, lengthN, dotN, matVec, A. simpl. match goal with |- sqrt ?q = _ => replace q with (5 * 5) by ring end. apply sqrt_square. lra. }
    rewrite E in L. unfold Rmax in L. destruct Rle_dec; lra.
Qed.
Print Assumptions C149_residual_partial.
Print Assumptions C149_region.

(** ** Where the report is not true; two unknowns, binary64 *)
Local Open Scope float_scope.
Definition vec := (float * float)%type.
Definition vzip (f : float -> float -> float) (u v : vec) : vec := (f (fst u) (fst v), f (snd u) (snd v)).
Definition vdot (u v : vec) : float := fst u * fst v + snd u * snd v.
Definition floatReport (a d : float) :=
  solveReport 0 2 PrimFloat.add PrimFloat.sub PrimFloat.mul PrimFloat.div PrimFloat.opp PrimFloat.sqrt PrimFloat.ltb PrimFloat.leb 0x1p-1022
    (0, 0) (vzip PrimFloat.add) (vzip PrimFloat.sub) (fun s v => (s * fst v, s * snd v)) vdot (fun v => (a * fst v, d * snd v)) (fun v => v).
Definition floatResidual (a d : float) (rhs x : vec) : float := let r := (fst rhs - a * fst x, snd rhs - d * snd x) in PrimFloat.sqrt (vdot r r).

(** With the matrix diag(1, -1) the solver reports success and an error within the tolerance 0.7, but this is the error before the last step, which goes to the
    boundary of the region; the residual of the solution is more than fifty times the right-hand side. *)
Theorem C149_success_refuted : exists a d rhs tol info, let rep := floatReport a d 10 tol rhs (0, 0) info in
  rp_success rep = true /\ PrimFloat.leb (rp_error rep) tol = true /\ tcg_stop (rp_info rep) = negativeCurvature /\
  PrimFloat.ltb (50 * PrimFloat.sqrt (vdot rhs rhs)) (floatResidual a d rhs (rp_x rep)) = true.
Proof.
  exists 1, (-1), (1, 0x1.4p-2), 0x1.8p-1, (mkTcg maximumInnerIterations 100 0x1.999999999999ap-4 1 0). vm_compute. auto.
Qed.

(** The residual is compared with the square of the tolerance times the square of the right-hand side.  The solver stops after one of ten iterations,
    says that the number of iterations was reached, and the error is above the tolerance. *)
Theorem C149_stops_early_refuted : exists a d rhs tol info, let rep := floatReport a d 10 tol rhs (0, 0) info in
  tcg_stop (rp_info rep) = maximumInnerIterations /\ rp_iterations rep = 1%Z /\ rp_success rep = false /\
  PrimFloat.ltb (tol * PrimFloat.sqrt (vdot rhs rhs)) (floatResidual a d rhs (rp_x rep)) = true.
Proof.
  exists 1, 4, (100, 100), 0x1p-3, (mkTcg maximumInnerIterations 1000 0x1.999999999999ap-4 1 0). vm_compute. auto.
Qed.

(** With a limit of one iteration none is made, and one is reported. *)
Theorem C149_iterations_refuted : exists a d rhs tol info, let rep := floatReport a d 1 tol rhs (0, 0) info in
  rp_x rep = (0, 0) /\ rp_iterations rep = 1%Z /\ PrimFloat.ltb 0 (vdot rhs rhs) = true.
Proof. exists 1, 1, (1, 1), 0x1p-10, (mkTcg maximumInnerIterations 100 0x1.999999999999ap-4 1 0). vm_compute. auto. Qed.
Print Assumptions C149_success_refuted.
