(** Property C155: path following can be used with full and with reduced systems. *)

From Coq Require Import List Arith Bool Lia.
From Verif Require Import Assembler_Model PathSizes_Model.
Import ListNotations.

(** The operations of a run are defined *)
Definition defined {A} (r : option A) : Prop := r <> None.

(** Controlled dofs exist *)
Definition controlsExist (n : nat) (pf : pathFunction) : Prop := match pf with Displacement idx => forall i, In i idx -> i < n | _ => True end.

Lemma forallb_below idx n : (forall i, In i idx -> i < n) <-> forallb (fun i => i <? n) idx = true.
Proof. rewrite forallb_forall. split; intros H i Hi; [apply Nat.ltb_lt, H, Hi|apply Nat.ltb_lt, (H i Hi)]. Qed.

(** ** All sizes equal *)
Section Equal.
  Variables (n m : nat) (o : dbc) (pf : pathFunction).
  Hypothesis whole : residualSize n m o = n.
  Hypothesis ok : controlsExist n pf.

  Lemma update_whole : m <= n -> updateDefined n m o n n = true.
  Proof.
    intros _. unfold updateDefined. rewrite Nat.eqb_refl, andb_true_r.
    destruct (_ && _); [reflexivity|]. destruct (m =? n); reflexivity.
  Qed.

  Lemma eval_whole c : evalSizes pf c (mkSizes n n n) = Some (mkSizes n n n).
  Proof.
    unfold evalSizes. destruct pf as [| |idx]; cbn [zx zDD zdf]; [destruct c; reflexivity|reflexivity|].
    cbn in ok. apply forallb_below in ok. rewrite ok. reflexivity.
  Qed.

  Lemma solve_whole k c : m <= n -> solveSizes n m o pf k c (mkSizes n n n) = Some (mkSizes n n n).
  Proof.
    intros L. unfold solveSizes. cbn [zx zDD]. rewrite whole, eval_whole. induction k as [|k IH]; [reflexivity|]. cbn [iterations].
    unfold iterateSizes. cbn [zx zDD zdf]. rewrite whole, Nat.eqb_refl, (update_whole L). cbn [andb guard]. rewrite eval_whole. exact IH.
  Qed.

  Lemma later_whole counts : m <= n -> laterSteps n m o pf counts (mkSizes n n n) = Some (mkSizes n n n).
  Proof.
    intros L. induction counts as [|k counts IH]; [reflexivity|]. cbn [laterSteps].
    assert (E : intermediateSizes n m o pf (mkSizes n n n) = Some (mkSizes n n n)).
    { unfold intermediateSizes. destruct pf; cbn [zx zDD]; rewrite ?(update_whole L), ?Nat.eqb_refl; reflexivity. }
    rewrite E, (solve_whole k true L). exact IH.
  Qed.

  Lemma run_whole c counts : m <= n -> runSizes n m o pf c counts = Some (mkSizes n n n).
  Proof.
    intros L. unfold runSizes. destruct counts as [|k rest]; [reflexivity|]. rewrite (solve_whole k c L). destruct rest as [|k' rest]; [reflexivity|].
    assert (E : initialSizes n m o pf (mkSizes n n n) = Some (mkSizes n n n)).
    { unfold initialSizes. rewrite whole. destruct pf as [| |idx]; cbn [zx zDD zdf]; [rewrite (update_whole L); reflexivity|reflexivity|].
      cbn in ok. apply forallb_below in ok. rewrite ok. reflexivity. }
    rewrite E, (solve_whole k' true L). apply later_whole, L.
  Qed.
End Equal.

(** ** C155 *)

(** With systems of full size every run with every function is defined, also after an earlier run of the same object; so are all runs
    of structures without supports *)
Theorem C155_full_partial : forall n m o pf computed counts, m <= n -> (o <> Reduced \/ m = n) -> controlsExist n pf ->
  defined (runSizes n m o pf computed counts).
Proof.
  intros n m o pf c counts L H K. unfold defined. rewrite run_whole; [discriminate| |exact K|exact L].
  unfold residualSize. destruct o; destruct H as [H|H]; try reflexivity; try (exfalso; apply H; reflexivity); exact H.
Qed.
Print Assumptions C155_full_partial.

Section ArcReduced.
  Variables (n m : nat).
  Hypothesis supports : m < n.

  Lemma eval_arc c z : evalSizes Arc c z = Some (if c then mkSizes (zx z) (zDD z) (zDD z) else z).
  Proof. reflexivity. Qed.

  Lemma update_reduced : updateDefined n m Reduced n m = true.
  Proof. unfold updateDefined. rewrite !Nat.eqb_refl. reflexivity. Qed.

  Lemma solve_arc k d : solveSizes n m Reduced Arc k true (mkSizes n m d) = Some (mkSizes n m m).
  Proof.
    unfold solveSizes. cbn [residualSize zx zDD]. rewrite eval_arc. cbn [zx zDD]. induction k as [|k IH]; [reflexivity|]. cbn [iterations].
    unfold iterateSizes. cbn [residualSize zx zDD zdf]. rewrite Nat.eqb_refl, update_reduced. cbn [andb guard]. rewrite eval_arc. exact IH.
  Qed.

  Lemma later_arc counts : laterSteps n m Reduced Arc counts (mkSizes n m m) = Some (mkSizes n m m).
  Proof.
    induction counts as [|k counts IH]; [reflexivity|]. cbn [laterSteps intermediateSizes zx zDD]. rewrite update_reduced. cbn [guard].
    rewrite solve_arc. exact IH.
  Qed.
End ArcReduced.

(** The arc-length method with reduced systems and supports: defined exactly if the first solve does not iterate, i.e. the structure is in
    equilibrium at the start *)
Theorem C155_arc_length_partial : forall n m computed counts, m < n -> counts <> [] ->
  (defined (runSizes n m Reduced Arc computed counts) <-> hd 0 counts = 0).
Proof.
  intros n m c [|k rest] L N; [contradiction|]. cbn [hd]. unfold defined, runSizes. split.
  - intros D. destruct k as [|k]; [reflexivity|]. exfalso. apply D. unfold solveSizes. rewrite eval_arc. cbn [iterations]. unfold iterateSizes. cbn [residualSize].
    assert (F : (n =? m) = false) by (apply Nat.eqb_neq; lia).
    destruct c; cbn [zx zDD zdf]; rewrite F, ?andb_false_r; reflexivity.
  - intros ->. assert (E : exists d, solveSizes n m Reduced Arc 0 c (mkSizes n n n) = Some (mkSizes n n d)) by (destruct c; cbn; eexists; reflexivity).
    destruct E as (d & ->). destruct rest as [|k' rest]; [discriminate|]. cbn [initialSizes residualSize zx zdf]. rewrite update_reduced by exact L. cbn [guard].
    rewrite solve_arc by exact L. rewrite later_arc by exact L. discriminate.
Qed.
Print Assumptions C155_arc_length_partial.

Section Other.
  Variables (n m : nat) (pf : pathFunction).
  Hypothesis supports : m < n.
  Hypothesis other : pf <> Arc.

  Lemma eval_other c z z' : evalSizes pf c z = Some z' -> z' = z.
  Proof. unfold evalSizes. destruct pf as [| |idx]; [contradiction|congruence|]. unfold guard. destruct (_ && _); congruence. Qed.

  (** a solve that iterates is not defined *)
  Lemma solve_other k c z z' : zDD z = n -> solveSizes n m Reduced pf k c z = Some z' -> k = 0 /\ z' = mkSizes (zx z) n m.
  Proof.
    intros Z. unfold solveSizes. rewrite Z. cbn [residualSize]. destruct (evalSizes pf c _) as [z1|] eqn:E; [|discriminate]. apply eval_other in E. subst z1.
    destruct k as [|k]; [intros H; inversion H; auto|]. cbn [iterations]. unfold iterateSizes. cbn [residualSize zx zDD zdf].
    assert (F : (n =? m) = false) by (apply Nat.eqb_neq; lia). rewrite F, andb_false_r. discriminate.
  Qed.

  Lemma later_other counts : forall z z', zDD z = n -> laterSteps n m Reduced pf counts z = Some z' -> Forall (fun k => k = 0) counts.
  Proof.
    induction counts as [|k counts IH]; intros z z' Z; [constructor|]. cbn [laterSteps].
    destruct (intermediateSizes _ _ _ _ z) as [z1|] eqn:E; [|discriminate].
    assert (Z1 : z1 = z). { revert E. unfold intermediateSizes. destruct pf; [contradiction|congruence|]. unfold guard. destruct (_ =? _); congruence. }
    subst z1. destruct (solveSizes _ _ _ _ _ _ z) as [z2|] eqn:S; [|discriminate]. apply solve_other in S as [-> ->]; [|exact Z].
    intros H. constructor; [reflexivity|]. eapply IH; [|exact H]. reflexivity.
  Qed.
End Other.

(** Load control and displacement control as path following with reduced systems and supports: the first iteration adds a correction of the
    free dofs to an increment of all dofs *)
Theorem C155_reduced_refuted : forall n m pf computed counts, m < n -> pf <> Arc -> (exists k, In k counts /\ k <> 0) ->
  runSizes n m Reduced pf computed counts = None.
Proof.
  intros n m pf c counts L P (k & Hk & Nk). destruct (runSizes n m Reduced pf c counts) as [z|] eqn:E; [exfalso|reflexivity].
  assert (A : Forall (fun k => k = 0) counts); [|apply Nk; exact (proj1 (Forall_forall _ _) A k Hk)]. clear k Hk Nk.
  unfold runSizes in E. destruct counts as [|k rest]; [constructor|].
  destruct (solveSizes _ _ _ _ k c _) as [z1|] eqn:S1; [|discriminate]. apply (solve_other n m pf L P) in S1 as [-> ->]; [|reflexivity].
  constructor; [reflexivity|]. destruct rest as [|k' rest]; [constructor|].
  destruct (initialSizes _ _ _ _ _) as [z2|] eqn:S2; [|discriminate].
  assert (Z2 : zDD z2 = n). { revert S2. unfold initialSizes. destruct pf as [| |idx]; [contradiction| |]; [intros H; inversion H; reflexivity|].
    unfold guard. destruct (forallb _ idx); [|discriminate]. intros H; inversion H; reflexivity. }
  destruct (solveSizes _ _ _ _ k' true _) as [z3|] eqn:S3; [|discriminate]. apply (solve_other n m pf L P) in S3 as [-> ->]; [|exact Z2].
  constructor; [reflexivity|]. eapply (later_other n m pf L P); [|exact E]. reflexivity.
Qed.
Print Assumptions C155_reduced_refuted.

(** Displacement control with reduced systems: the controlled dofs are numbered in the full system, the derivative has the entries of the
    free dofs only, so that already the first evaluation is out of range for a late dof *)
Theorem C155_controlled_refuted : forall n m idx computed k counts, m < n -> (exists i, In i idx /\ m <= i) ->
  runSizes n m Reduced (Displacement idx) computed (k :: counts) = None.
Proof.
  intros n m idx c k counts L (i & Hi & Mi). unfold runSizes, solveSizes, evalSizes. cbn [zx zDD zdf residualSize].
  assert (F : forallb (fun i => i <? m) idx = false).
  { destruct (forallb _ idx) eqn:E; [|reflexivity]. rewrite forallb_forall in E. specialize (E i Hi). apply Nat.ltb_lt in E. lia. }
  rewrite F, andb_false_r. reflexivity.
Qed.

(** Six dofs, two of them fixed: two steps of the arc-length method with three iterations each; load control fails in its first iteration,
    with full systems it is defined *)
Example C155_ex :
  defined (runSizes 6 4 Reduced Arc false [0; 3; 3]) /\ runSizes 6 4 Reduced Arc false [1; 3; 3] = None /\
  runSizes 6 4 Reduced LoadSubsidiary false [0; 1; 3] = None /\ defined (runSizes 6 4 Full LoadSubsidiary false [0; 1; 3]) /\
  defined (runSizes 6 4 Full (Displacement [5]) true [2; 1; 3]) /\ runSizes 6 4 Reduced (Displacement [5]) false [0] = None.
Proof. repeat split; discriminate. Qed.
