(** Property C161: the reactions of a structure in equilibrium balance its loads. *)

From Coq Require Import List Arith ZArith Bool Reals Lia Lra.
From Coquelicot Require Import Coquelicot.
From Verif Require Import FEHelper_Model Assembler_Model Assembler_Spec Assembler_Proofs Assembler_Props Newton_Model Newton_Spec Newton_Proofs Newton_Props.
From Verif Require Import Tensor_Spec Conversions_Props Element_Spec Element_Model Element_Proofs Element_Props Truss_Model Truss_Props TrussSkill_Props
  Shell_Model Shell_Proofs Shell_Props Objectivity_Spec Objectivity_Props AssemblyMesh_Model AssemblyMesh_Props StructureNewton_Model StructureNewton_Props.
Import ListNotations.
Local Open Scope R_scope.

(** ** Specification *)

(** The dof of direction a of node m of a structure with n dofs *)
Definition numbered (d nodes n : nat) (dofAt : nat -> nat -> nat) : Prop :=
  forall m a, (m < nodes)%nat -> (a < d)%nat -> (dofAt m a < n)%nat /\
    forall m' b, (m' < nodes)%nat -> (b < d)%nat -> dofAt m a = dofAt m' b -> m = m' /\ a = b.

(** The element connects the nodes ns *)
Definition connects (d nodes : nat) (dofAt : nat -> nat -> nat) (e : meshElement) (ns : list nat) : Prop :=
  (forall m, In m ns -> (m < nodes)%nat) /\ length (me_dofs e) = (d * length ns)%nat /\
  forall i a, (i < length ns)%nat -> (a < d)%nat -> nth (d * i + a) (me_dofs e) 0%nat = dofAt (nth i ns 0%nat) a.

(** A skill that adds its forces to those of the other skills *)
Definition addsForces (N : nat) (sk : skill) : Prop :=
  forall u force k, (k < N)%nat -> skillVector sk u force k = force k + skillVector sk u zeroVector k.

(** Resultant and moment of forces f at the dofs of nodes at the places x *)
Definition resultant (nodes : nat) (dofAt : nat -> nat -> nat) (f : nat -> R) (a : nat) : R := sum nodes (fun m => f (dofAt m a)).
Definition moment (nodes : nat) (dofAt : nat -> nat -> nat) (x : nat -> nat -> R) (f : nat -> R) (a b : nat) : R :=
  sum nodes (fun m => x m a * f (dofAt m b) - x m b * f (dofAt m a)).

(** The forces f at the constrained dofs *)
Definition atSupports (flags : list bool) (f : nat -> R) (i : nat) : R := if nth i flags false then f i else 0.

(** Resultant and moment of the forces of local skills *)
Definition localForce (d : nat) (ns : list nat) (f : nat -> R) (a : nat) : R := sum (length ns) (fun i => f (d * i + a)%nat).
Definition localMoment (d : nat) (ns : list nat) (x : nat -> nat -> R) (f : nat -> R) (a b : nat) : R :=
  sum (length ns) (fun i => x (nth i ns 0%nat) a * f (d * i + b)%nat - x (nth i ns 0%nat) b * f (d * i + a)%nat).

Section Structure.
  Variables (flags : list bool) (mesh : list meshElement) (d nodes : nat) (dofAt : nat -> nat -> nat).
  Let n := length flags.
  Variables (nodesOf : meshElement -> list nat) (elastic : meshElement -> skill) (loads : meshElement -> list skill).

  (** The loads are what the skills other than the elastic one subtract from the forces *)
  Definition externalForce (U : nat -> R) (a : nat) : R :=
    - sumP mesh (fun e => sumP (loads e) (fun sk => localForce d (nodesOf e) (skillVector sk (localOf n e U) zeroVector) a)).
  Definition externalMoment (x : nat -> nat -> R) (U : nat -> R) (a b : nat) : R :=
    - sumP mesh (fun e => sumP (loads e) (fun sk => localMoment d (nodesOf e) x (skillVector sk (localOf n e U) zeroVector) a b)).

  (** Elements made of an elastic skill and loads; for the nodes at the places x the elastic forces of every element balance *)
  Definition balancedMesh (x : nat -> nat -> R) (U : nat -> R) : Prop :=
    numbered d nodes n dofAt /\
    forall e, In e mesh -> connects d nodes dofAt e (nodesOf e) /\
      (forall i, In i (me_dofs e) -> (i < n)%nat) /\
      me_skill e = mixin (elastic e :: loads e) /\
      addsForces (d * length (nodesOf e)) (elastic e) /\ (forall sk, In sk (loads e) -> addsForces (d * length (nodesOf e)) sk) /\
      let f := skillVector (elastic e) (localOf n e U) zeroVector in
      (forall a, (a < d)%nat -> localForce d (nodesOf e) f a = 0) /\
      (forall a b, (a < d)%nat -> (b < d)%nat -> localMoment d (nodesOf e) x f a b = 0).

  (** ** Proofs *)
  Lemma mixin_adds N skills u force k : (forall sk, In sk skills -> addsForces N sk) -> (k < N)%nat ->
    skillVector (mixin skills) u force k = force k + sumP skills (fun sk => skillVector sk u zeroVector k).
  Proof.
    intros H Hk. apply (fold_vector skills (fun f sk => skillVector sk u f) force (fun sk k => skillVector sk u zeroVector k)).
    intros sk f Hin. apply (H sk Hin), Hk.
  Qed.

  (** A weighted sum of the raw forces in direction a is collected element by element *)
  Lemma weighted x U c a : balancedMesh x U -> (a < d)%nat ->
    sum nodes (fun m => c m * vectorEntries (answer flags mesh (RVector Raw U)) (dofAt m a)) =
    sumP mesh (fun e => sum (length (nodesOf e)) (fun i => c (nth i (nodesOf e) 0%nat) * skillVector (elastic e) (localOf n e U) zeroVector (d * i + a)%nat))
    + sumP mesh (fun e => sumP (loads e) (fun sk => sum (length (nodesOf e)) (fun i => c (nth i (nodesOf e) 0%nat) * skillVector sk (localOf n e U) zeroVector (d * i + a)%nat))).
  Proof.
    intros (Nu & M) Ha.
    assert (W : wfElements n (toElements n mesh)) by (apply wf_any; intros e He; apply (M e He)).
    rewrite (sum_ext nodes _ (fun m => sumP mesh (fun e => sum (length (me_dofs e)) (fun k => if (dofOf e k =? dofAt m a)%nat then c m * forceOf n e U k else 0)))).
    2:{ intros m Hm. unfold answer. fold n. rewrite (ask_raw_vector flags mesh U W) by (apply (Nu m a); assumption). fold n.
        rewrite vecEntry_sum, Rmult_comm, <- sumP_mul_r. apply sumP_ext. intros e _. rewrite <- sum_mul_r. apply sum_ext. intros k _. destruct (_ =? _)%nat; ring. }
    rewrite <- sumP_swap.
    assert (S2 : forall (l : list meshElement) f g, sumP l (fun e => f e) + sumP l (fun e => g e) = sumP l (fun e => f e + g e)).
    { clear. intros l f g. induction l as [|e l IH]; cbn; [ring|]. rewrite <- IH. ring. }
    rewrite S2. apply sumP_ext. intros e He. destruct (M e He) as ((In' & L & E) & _ & Sk & Ae & Al & _).
    set (ns := nodesOf e) in *. rewrite L, sum_swap, sum_blocks.
    rewrite (sum_ext (length ns) _ (fun i => c (nth i ns 0%nat) * forceOf n e U (d * i + a)%nat)).
    - rewrite sumP_swap, <- sum_add. apply sum_ext. intros i Hi. unfold forceOf. rewrite Sk.
      assert (B : (d * i + a < d * length ns)%nat) by nia.
      rewrite (mixin_adds (d * length ns)) by (try assumption; intros sk [<-|H]; auto). cbn [sumP].
      rewrite (sumP_ext (loads e) (fun sk => c (nth i ns 0%nat) * _) (fun sk => skillVector sk (localOf n e U) zeroVector (d * i + a)%nat * c (nth i ns 0%nat)))
        by (intros; ring).
      rewrite sumP_mul_r. unfold zeroVector at 1. ring.
    - intros i Hi. assert (Hm : (nth i ns 0 < nodes)%nat) by (apply In', nth_In, Hi).
      rewrite (sum_pick d a); [|assumption|].
      + unfold dofOf. rewrite E by assumption. rewrite (sum_pick nodes (nth i ns 0%nat)); [now rewrite Nat.eqb_refl|assumption|].
        intros m Hm' Nm. destruct (Nat.eqb_spec (dofAt (nth i ns 0%nat) a) (dofAt m a)) as [Eq|]; [|reflexivity].
        destruct (Nu _ a Hm Ha) as (_ & J). destruct (J m a Hm' Ha Eq). congruence.
      + intros b Hb Nb. apply sum_zero. intros m Hm'. unfold dofOf. rewrite E by assumption.
        destruct (Nat.eqb_spec (dofAt (nth i ns 0%nat) b) (dofAt m a)) as [Eq|]; [|reflexivity].
        destruct (Nu _ b Hm Hb) as (_ & J). destruct (J m a Hm' Ha Eq). congruence.
  Qed.

  Lemma sumP_zero {A} (l : list A) f : (forall x, In x l -> f x = 0) -> sumP l f = 0.
  Proof. intros H. induction l as [|x l IH]; [reflexivity|]. cbn. rewrite H, IH; [ring|intros; apply H; now right|now left]. Qed.
  Lemma sum_minus m f g : sum m (fun k => f k - g k) = sum m f - sum m g.
  Proof. rewrite (sum_ext m _ (fun k => f k + -1 * g k)) by (intros; ring). rewrite sum_add, sum_mul_l. ring. Qed.
  Lemma sumP_minus {A} (l : list A) f g : sumP l (fun x => f x - g x) = sumP l f - sumP l g.
  Proof. induction l as [|x l IH]; cbn; [ring|]. rewrite IH. ring. Qed.

  (** C161: the assembled residual of all dofs, constrained ones included, has the resultant and the moment of the loads *)
  Theorem C161_residual x U : balancedMesh x U ->
    let raw := vectorEntries (answer flags mesh (RVector Raw U)) in
    (forall a, (a < d)%nat -> resultant nodes dofAt raw a = - externalForce U a) /\
    (forall a b, (a < d)%nat -> (b < d)%nat -> moment nodes dofAt x raw a b = - externalMoment x U a b).
  Proof.
    intros B raw. assert (M := proj2 B). split.
    - intros a Ha. unfold resultant, externalForce. rewrite Ropp_involutive.
      rewrite (sum_ext nodes _ (fun m => 1 * raw (dofAt m a))) by (intros; ring). unfold raw. rewrite (weighted x U (fun _ => 1) a B Ha).
      rewrite (sumP_zero mesh).
      + rewrite Rplus_0_l. apply sumP_ext. intros e _. apply sumP_ext. intros sk _. apply sum_ext. intros. ring.
      + intros e He. rewrite (sum_ext _ _ (fun i => skillVector (elastic e) (localOf n e U) zeroVector (d * i + a)%nat)) by (intros; ring).
        apply (M e He). exact Ha.
    - intros a b Ha Hb. unfold moment, externalMoment. rewrite Ropp_involutive, sum_minus. unfold raw.
      rewrite (weighted x U (fun m => x m a) b B Hb), (weighted x U (fun m => x m b) a B Ha).
      match goal with |- ?A + ?B - (?C + ?D) = _ => replace (A + B - (C + D)) with ((A - C) + (B - D)) by ring end.
      rewrite <- !sumP_minus. rewrite (sumP_zero mesh).
      + rewrite Rplus_0_l. apply sumP_ext. intros e _. rewrite <- sumP_minus. apply sumP_ext. intros sk _. unfold localMoment. now rewrite sum_minus.
      + intros e He. rewrite <- sum_minus. apply (M e He); assumption.
  Qed.

  (** The virtual displacement of the dofs that moves node m by v m *)
  Definition nodal (v : nat -> nat -> R) (i : nat) : R := sum nodes (fun m => sum d (fun a => if (dofAt m a =? i)%nat then v m a else 0)).

  Lemma nodal_at v m a : numbered d nodes n dofAt -> (m < nodes)%nat -> (a < d)%nat -> nodal v (dofAt m a) = v m a.
  Proof.
    intros Nu Hm Ha. unfold nodal. rewrite (sum_pick nodes m); [|assumption|].
    - rewrite (sum_pick d a); [now rewrite Nat.eqb_refl|assumption|].
      intros b Hb Nb. destruct (Nat.eqb_spec (dofAt m b) (dofAt m a)) as [Eb|]; [|reflexivity]. destruct (Nu m b Hm Hb) as (_ & J). destruct (J m a Hm Ha Eb). congruence.
    - intros m' Hm' Nm. apply sum_zero. intros b Hb. destruct (Nat.eqb_spec (dofAt m' b) (dofAt m a)) as [Eb|]; [|reflexivity].
      destruct (Nu m' b Hm' Hb) as (_ & J). destruct (J m a Hm Ha Eb). congruence.
  Qed.

  Lemma nodal_dot v f : numbered d nodes n dofAt -> dot n f (nodal v) = sum nodes (fun m => sum d (fun a => f (dofAt m a) * v m a)).
  Proof.
    intros Nu. unfold dot, nodal.
    rewrite (sum_ext n _ (fun i => sum nodes (fun m => sum d (fun a => if (dofAt m a =? i)%nat then f i * v m a else 0)))).
    - rewrite sum_swap. apply sum_ext. intros m Hm. rewrite sum_swap. apply sum_ext. intros a Ha.
      apply (sum_indicator n (dofAt m a) (fun i => f i * v m a)). apply (Nu m a); assumption.
    - intros i _. rewrite <- sum_mul_l. apply sum_ext. intros m _. rewrite <- sum_mul_l. apply sum_ext. intros a _. destruct (_ =? _)%nat; ring.
  Qed.

  Lemma nodal_bound v f : numbered d nodes n dofAt ->
    Rabs (sum nodes (fun m => sum d (fun a => f (dofAt m a) * v m a))) <= sqrt (dot n f f) * sqrt (sum nodes (fun m => sum d (fun a => v m a * v m a))).
  Proof.
    intros Nu. rewrite <- nodal_dot by assumption. eapply Rle_trans; [apply cauchy_schwarz|]. apply Rmult_le_compat_l; [apply sqrt_pos|].
    apply Req_le. f_equal. rewrite nodal_dot by assumption. apply sum_ext. intros m Hm. apply sum_ext. intros a Ha. now rewrite nodal_at.
  Qed.

  (** What the raw residual has beyond the reactions is the residual of the solver *)
  Lemma raw_split U i : (forall e, In e mesh -> forall i, In i (me_dofs e) -> (i < n)%nat) -> (i < n)%nat ->
    vectorEntries (answer flags mesh (RVector Raw U)) i =
    atSupports flags (vectorEntries (answer flags mesh (RVector Raw U))) i + vectorEntries (answer flags mesh (RVector Full U)) i.
  Proof.
    intros Rg Hi. destruct (full_entries flags mesh U i Rg Hi) as [X1 X2]. unfold atSupports.
    destruct (free_or_constrained flags i Hi) as [Fi|Ci].
    - rewrite (nth_error_nth flags i false Fi). destruct (X2 Fi) as [-> _]. ring.
    - rewrite (nth_error_nth flags i false Ci). rewrite (X1 Ci). ring.
  Qed.

  (** C161: the Newton solver reports success: the reactions balance the loads up to the tolerance *)
  Theorem C161_reactions W o inf lsolve (listen : nlmsg -> nlinfo R -> list R -> (nat -> R) -> W -> W) st st' y0 c w s x :
    o <> Raw -> nrSetup st = Some st' -> (0 <= nr_maxIter st)%Z ->
    structureSolve flags mesh o inf lsolve listen st' y0 c w = Some s -> i_success (s_info s) = true ->
    balancedMesh x (s_d s) ->
    let reactions := atSupports flags (vectorEntries (answer flags mesh (RVector Raw (s_d s)))) in
    (forall a, (a < d)%nat -> Rabs (resultant nodes dofAt reactions a + externalForce (s_d s) a) <= nr_tol st * sqrt (INR nodes)) /\
    (forall a b, (a < d)%nat -> (b < d)%nat ->
       Rabs (moment nodes dofAt x reactions a b + externalMoment x (s_d s) a b) <=
       nr_tol st * sqrt (sum nodes (fun m => x m a * x m a + x m b * x m b))).
  Proof.
    intros Ho St Mx H S B reactions. assert (Nu := proj1 B). assert (M := proj2 B).
    assert (Rg : forall e, In e mesh -> forall i, In i (me_dofs e) -> (i < n)%nat) by (intros e He; apply (M e He)).
    destruct (C17_success_converged_partial greater inf _ _ norm norm lsolve (updateFunctor flags o) None listen st st' y0 c w s St Mx (or_introl eq_refl) H S)
      as (N & (w1 & Er & _) & _ & _).
    rewrite Er, (residual_norm flags mesh o Ho (s_d s) Rg) in N. unfold greater in N. destruct Rlt_dec as [|N']; [discriminate|]. apply Rnot_lt_le in N'.
    set (full := vectorEntries (answer flags mesh (RVector Full (s_d s)))) in *. fold n in N'.
    set (raw := vectorEntries (answer flags mesh (RVector Raw (s_d s)))) in *.
    assert (Sp : forall m a, (m < nodes)%nat -> (a < d)%nat -> reactions (dofAt m a) = raw (dofAt m a) - full (dofAt m a)).
    { intros m a Hm Ha. assert (Hi : (dofAt m a < n)%nat) by (apply (Nu m a); assumption). assert (X := raw_split (s_d s) _ Rg Hi). fold raw full reactions in X. lra. }
    assert (Bd : forall v, Rabs (sum nodes (fun m => sum d (fun a => full (dofAt m a) * v m a))) <= nr_tol st * sqrt (sum nodes (fun m => sum d (fun a => v m a * v m a)))).
    { intros v. eapply Rle_trans; [apply nodal_bound, Nu|]. apply Rmult_le_compat_r; [apply sqrt_pos|exact N']. }
    destruct (C161_residual x (s_d s) B) as [F1 F2]. fold raw in F1, F2.
    split.
    - intros a Ha. specialize (F1 a Ha). specialize (Bd (fun _ b => identity a b)).
      assert (E1 : resultant nodes dofAt reactions a + externalForce (s_d s) a = - sum nodes (fun m => sum d (fun b => full (dofAt m b) * identity a b))).
      { assert (E : resultant nodes dofAt reactions a = resultant nodes dofAt raw a - sum nodes (fun m => full (dofAt m a))).
        { unfold resultant. rewrite <- sum_minus. apply sum_ext. intros m Hm. apply Sp; assumption. }
        rewrite E, F1. rewrite (sum_ext nodes (fun m => sum d _) (fun m => full (dofAt m a))); [ring|].
        intros m _. rewrite <- (sum_id_l d a (fun b => full (dofAt m b)) Ha). apply sum_ext. intros. ring. }
      rewrite E1, Rabs_Ropp. eapply Rle_trans; [exact Bd|]. apply Req_le. f_equal. f_equal.
      rewrite (sum_ext nodes _ (fun _ => 1)); [clear; induction nodes as [|k IH]; [reflexivity|]; rewrite S_INR; cbn [sum]; rewrite IH; ring|].
      intros m _. rewrite (sum_id_l d a (fun b => identity a b) Ha). unfold identity. now rewrite Nat.eqb_refl.
    - intros a b Ha Hb. specialize (F2 a b Ha Hb).
      specialize (Bd (fun m k => identity b k * x m a - identity a k * x m b)).
      assert (E1 : moment nodes dofAt x reactions a b + externalMoment x (s_d s) a b =
        - sum nodes (fun m => sum d (fun k => full (dofAt m k) * (identity b k * x m a - identity a k * x m b)))).
      { assert (E : moment nodes dofAt x reactions a b = moment nodes dofAt x raw a b - sum nodes (fun m => x m a * full (dofAt m b) - x m b * full (dofAt m a))).
        { unfold moment. rewrite <- sum_minus. apply sum_ext. intros m Hm. rewrite !Sp by assumption. ring. }
        rewrite E, F2.
        rewrite (sum_ext nodes (fun m => sum d _) (fun m => x m a * full (dofAt m b) - x m b * full (dofAt m a))); [ring|].
        intros m _. rewrite (sum_ext d _ (fun k => identity b k * (x m a * full (dofAt m k)) - identity a k * (x m b * full (dofAt m k)))) by (intros; ring).
        now rewrite sum_minus, !sum_id_l. }
      rewrite E1, Rabs_Ropp. eapply Rle_trans; [exact Bd|].
      apply Rmult_le_compat_l; [eapply Rle_trans; [apply sqrt_pos|exact N']|]. apply sqrt_le_1_alt.
      assert (mono : forall k g h, (forall i, (i < k)%nat -> g i <= h i) -> sum k g <= sum k h).
      { clear. intros k g h. induction k as [|k IH]; intros Hk; cbn; [lra|]. assert (H1 := Hk k ltac:(lia)). assert (H2 := IH ltac:(intros; apply Hk; lia)). lra. }
      apply mono. intros m _.
      rewrite (sum_ext d _ (fun k => identity b k * (x m a * x m a - identity a k * (2 * x m a * x m b)) + identity a k * (x m b * x m b))).
      + rewrite sum_add, !sum_id_l by assumption. unfold identity. destruct (Nat.eqb_spec a b) as [->|]; [|lra]. nra.
      + intros k _. unfold identity. destruct (b =? k)%nat, (a =? k)%nat; ring.
  Qed.
End Structure.
Print Assumptions C161_residual.
Print Assumptions C161_reactions.

(** ** Which elements balance, and about which places *)

(** C161: elements whose forces are self-equilibrated in the current configuration (C100: solids and shells) balance for the current places *)
Theorem C161_current d nodes n dofAt e ns X U f : (0 < d)%nat -> connects d nodes dofAt e ns ->
  (exists m ls, me_children e = map Leaf ls /\ ls <> [] /\ forall l, In l ls -> length l = m) -> (forall i, In i (me_dofs e) -> (i < n)%nat) ->
  selfEquilibrated d (length ns) (fun i => X (nth i ns 0%nat)) (localOf n e U) f ->
  (forall a, (a < d)%nat -> localForce d ns f a = 0) /\
  (forall a b, (a < d)%nat -> (b < d)%nat -> localMoment d ns (fun m a => X m a + U (dofAt m a)) f a b = 0).
Proof.
  intros dpos (In' & L & E) Pb Rg [S1 S2]. split; [exact S1|]. intros a b Ha Hb. rewrite <- (S2 a b Ha Hb). unfold localMoment. apply sum_ext. intros i Hi.
  assert (V : forall c, (c < d)%nat -> localOf n e U (d * i + c)%nat = U (dofAt (nth i ns 0%nat) c)).
  { intros c Hc. rewrite localOf_dofs by (try assumption; rewrite L; nia). rewrite E by assumption. reflexivity. }
  unfold placeOf. rewrite !V by assumption. reflexivity.
Qed.
Print Assumptions C161_current.

(** C161: those that are self-equilibrated in the initial configuration (linear solids) balance for the initial places *)
Theorem C161_initial d ns X f : selfEquilibrated d (length ns) (fun i => X (nth i ns 0%nat)) zeroVector f ->
  (forall a, (a < d)%nat -> localForce d ns f a = 0) /\ (forall a b, (a < d)%nat -> (b < d)%nat -> localMoment d ns X f a b = 0).
Proof.
  intros [S1 S2]. split; [exact S1|]. intros a b Ha Hb. rewrite <- (S2 a b Ha Hb). unfold localMoment. apply sum_ext. intros i _.
  unfold placeOf, zeroVector. ring.
Qed.
Print Assumptions C161_initial.

(** Linear strains, an expression of dune-localfefunctions: the symmetric part of the displacement gradient *)
Definition smallStrain (d n : nat) (dN : point -> nat -> nat -> R) (gp : point) (u : nat -> R) : nat -> R :=
  strainVector d (fun a b => / 2 * (displacementGradientOf d n (dN gp) u a b + displacementGradientOf d n (dN gp) u b a)).
Definition smallBop (d : nat) (dN : point -> nat -> nat -> R) (gp : point) (u : nat -> R) (i m k : nat) : R :=
  strainVector d (fun a b => / 2 * (identity k a * dN gp i b + identity k b * dN gp i a)) m.

Section Linear.
  Variables (d n : nat) (dN : point -> nat -> nat -> R) (points : list point) (X : nat -> nat -> R).
  Hypothesis d3 : (0 < d <= 3)%nat.

  Lemma small_linearStrain gp : linearStrain d n (voigtLength d) (smallStrain d n dN) (smallBop d dN) gp.
  Proof.
    split; [|reflexivity]. intros u m Hm.
    unfold smallStrain, smallBop, strainVector. destruct (component_bound d n (proj1 d3) m (proj2 d3)) as (Ha & Hb).
    destruct (component d m) as (a, b). cbn [fst snd] in *.
    assert (G : isGradient (d * n) (fun y => / 2 * (displacementGradientOf d n (dN gp) y a b + displacementGradientOf d n (dN gp) y b a))
      (fun k => / 2 * (identity (k mod d) a * dN gp (k / d)%nat b + identity (k mod d) b * dN gp (k / d)%nat a)) u).
    { eapply gradient_ext; [apply (gradient_scale _ _ _ u (/ 2) (gradient_plus _ _ _ _ _ u (gradient_H d n dN gp u a b Ha) (gradient_H d n dN gp u b a Hb)))|..];
        intros; cbv beta; ring. }
    destruct (a =? b)%nat; [exact G|]. eapply gradient_ext; [apply (gradient_scale _ _ _ u 2 G)|..]; intros; cbv beta; ring.
  Qed.

  (** C161: the forces of a linear solid are self-equilibrated in the initial configuration, for every displacement *)
  Theorem C161_linear_solid C u : (forall gp, In gp points -> shapeDerivatives d n X dN gp) ->
    selfEquilibrated d n X zeroVector (linearVector d n (voigtLength d) points (smallStrain d n dN) (smallBop d dN) (fun _ => C) false u zeroVector).
  Proof.
    intros Sh.
    set (f := linearVector _ _ _ _ _ _ _ _ _ _).
    assert (F : forall c i b, (b < d)%nat -> (i < n)%nat -> c * f (d * i + b)%nat =
      sumP points (fun gp => sum (voigtLength d) (fun m => linearStress_ (voigtLength d) (fun _ => C) (smallStrain d n dN gp u) m * vol gp * (c * smallBop d dN gp u i m b)))).
    { intros c i b Hb Hi. assert (d * S i <= d * n)%nat by (apply Nat.mul_le_mono_l; lia).
      unfold f, linearVector. rewrite vector_sum by (try apply d3; nia). unfold zeroVector at 1. rewrite Rplus_0_l, Rmult_comm, <- sumP_mul_r. apply sumP_ext. intros gp _.
      unfold pointVector. destruct (block_index d i b Hb) as (-> & ->). rewrite <- !sum_mul_r. apply sum_ext. intros. ring. }
    split.
    - intros a Ha. rewrite (sum_ext n _ _ (fun i Hi => eq_trans (eq_sym (Rmult_1_l _)) (F 1 i a Ha Hi))). rewrite <- sumP_swap.
      apply sumP_zero. intros gp Hgp. rewrite sum_swap. apply sum_zero. intros m _. rewrite sum_mul_l. apply Rmult_eq_0_compat_l.
      rewrite sum_mul_l. apply Rmult_eq_0_compat_l.
      unfold smallBop, strainVector. destruct (component_bound d n (proj1 d3) m (proj2 d3)) as (Hp & Hq).
      destruct (component d m) as (p, q). cbn [fst snd] in *.
      assert (Z : sum n (fun i => / 2 * (identity a p * dN gp i q + identity a q * dN gp i p)) = 0).
      { rewrite sum_mul_l, sum_add, !sum_mul_l. rewrite (proj1 (Sh gp Hgp q Hq)), (proj1 (Sh gp Hgp p Hp)). ring. }
      destruct (p =? q)%nat; [exact Z|]. rewrite sum_mul_l, Z. ring.
    - intros a b Ha Hb. unfold placeOf, zeroVector. cbv beta.
      rewrite (sum_ext n _ (fun i => X i a * f (d * i + b)%nat - X i b * f (d * i + a)%nat)) by (intros; ring).
      rewrite sum_minus. rewrite (sum_ext n _ _ (fun i Hi => F (X i a) i b Hb Hi)), (sum_ext n (fun i => X i b * _) _ (fun i Hi => F (X i b) i a Ha Hi)).
      rewrite <- !sumP_swap, <- sumP_minus. apply sumP_zero. intros gp Hgp. rewrite (sum_swap n _ (fun i m => _ * (X i a * smallBop d dN gp u i m b))), (sum_swap n _ (fun i m => _ * (X i b * smallBop d dN gp u i m a))).
      rewrite <- sum_minus. apply sum_zero. intros m _. rewrite !sum_mul_l. rewrite <- Rmult_minus_distr_l. apply Rmult_eq_0_compat_l. rewrite <- sum_minus.
      unfold smallBop, strainVector. destruct (component_bound d n (proj1 d3) m (proj2 d3)) as (Hp & Hq).
      destruct (component d m) as (p, q). cbn [fst snd] in *.
      assert (Z : sum n (fun i => X i a * (/ 2 * (identity b p * dN gp i q + identity b q * dN gp i p)) - X i b * (/ 2 * (identity a p * dN gp i q + identity a q * dN gp i p))) = 0).
      { rewrite (sum_ext n _ (fun i => / 2 * (identity b p * (X i a * dN gp i q) + identity b q * (X i a * dN gp i p)) - / 2 * (identity a p * (X i b * dN gp i q) + identity a q * (X i b * dN gp i p)))) by (intros; ring).
        rewrite sum_minus, !sum_mul_l, !sum_add, !sum_mul_l.
        rewrite !(proj2 (Sh gp Hgp q Hq)), !(proj2 (Sh gp Hgp p Hp)) by assumption. ring. }
      destruct (p =? q)%nat; [exact Z|].
      rewrite (sum_ext n _ (fun i => 2 * (X i a * (/ 2 * (identity b p * dN gp i q + identity b q * dN gp i p)) - X i b * (/ 2 * (identity a p * dN gp i q + identity a q * dN gp i p))))) by (intros; ring).
      rewrite sum_mul_l, Z. ring.
  Qed.
End Linear.
Print Assumptions C161_linear_solid.

(** C161: the forces of a truss are self-equilibrated in the current configuration *)
Theorem C161_truss d E A (X : nat -> nat -> R) u : (0 < d)%nat ->
  selfEquilibrated d 2 X u (trussForce d E A (X 0%nat) (X 1%nat) u zeroVector).
Proof.
  intros dpos.
  set (c := E * A * Egl (computeStrain d (X 0%nat) (X 1%nat) u) * refLength (computeStrain d (X 0%nat) (X 1%nat) u) / sum d (fun k => (X 1%nat k - X 0%nat k) * (X 1%nat k - X 0%nat k))).
  assert (F0 : forall a, (a < d)%nat -> trussForce d E A (X 0%nat) (X 1%nat) u zeroVector (d * 0 + a)%nat = - c * (placeOf d X u 1 a - placeOf d X u 0 a)).
  { intros a Ha. unfold trussForce, zeroVector, placeOf, c. cbn [computeStrain dEdu]. rewrite Nat.mul_0_r, Nat.add_0_l, Nat.mul_1_r.
    destruct (Nat.ltb_spec a d); [|lia]. unfold Rdiv. ring. }
  assert (F1 : forall a, (a < d)%nat -> trussForce d E A (X 0%nat) (X 1%nat) u zeroVector (d * 1 + a)%nat = c * (placeOf d X u 1 a - placeOf d X u 0 a)).
  { intros a Ha. unfold trussForce, zeroVector, placeOf, c. cbn [computeStrain dEdu]. rewrite Nat.mul_0_r, Nat.add_0_l, Nat.mul_1_r.
    destruct (Nat.ltb_spec (d + a) d); [lia|]. replace (d + a - d)%nat with a by lia. unfold Rdiv. ring. }
  split.
  - intros a Ha. cbn [sum]. rewrite F0, F1 by assumption. ring.
  - intros a b Ha Hb. cbn [sum]. rewrite !F0, !F1 by assumption. ring.
Qed.
Print Assumptions C161_truss.

(** C161: volume loads (and boundary loads, C97) act at their integration points: force and moment of what they subtract *)
Theorem C161_load d ns shape f points lambda u x : (0 < d)%nat -> (forall gp, In gp points -> sum (length ns) (shape gp) = 1) ->
  let load := skillVector (volumeSkill d (length ns) shape (Some f) points lambda) u zeroVector in
  let place gp a := sum (length ns) (fun i => shape gp i * x (nth i ns 0%nat) a) in
  (forall a, (a < d)%nat -> localForce d ns load a = - sumP points (fun gp => f (position gp) lambda a * (integrationElement gp * weight gp))) /\
  (forall a b, (a < d)%nat -> (b < d)%nat -> localMoment d ns x load a b =
     - sumP points (fun gp => (place gp a * f (position gp) lambda b - place gp b * f (position gp) lambda a) * (integrationElement gp * weight gp))).
Proof.
  intros dpos H1 load place. split; [intros a Ha; apply C97_volume_resultant; assumption|].
  assert (F : forall i b c, (i < length ns)%nat -> (b < d)%nat -> c * load (d * i + b)%nat = sumP points (fun gp => - (shape gp i * c * f (position gp) lambda b * vol gp))).
  { intros i b c Hi Hb. assert (d * S i <= d * length ns)%nat by (apply Nat.mul_le_mono_l; lia).
    unfold load. cbn [volumeSkill skillVector volumeVector]. rewrite pointForce_fold by lia. destruct (block_index d i b Hb) as (-> & ->).
    unfold zeroVector. rewrite Rplus_0_l, Rmult_comm, <- sumP_mul_r. apply sumP_ext. intros. ring. }
  intros a b Ha Hb. unfold localMoment. rewrite sum_minus.
  rewrite (sum_ext _ _ _ (fun i Hi => F i b (x (nth i ns 0%nat) a) Hi Hb)), (sum_ext _ (fun i => x (nth i ns 0%nat) b * _) _ (fun i Hi => F i a (x (nth i ns 0%nat) b) Hi Ha)).
  rewrite <- !sumP_swap, <- sumP_minus, <- sumP_opp. apply sumP_ext. intros gp _. unfold place, vol.
  rewrite (sum_ext _ _ (fun i => shape gp i * x (nth i ns 0%nat) a * - (f (position gp) lambda b * (integrationElement gp * weight gp)))) by (intros; ring).
  rewrite (sum_ext _ (fun i => - (shape gp i * x (nth i ns 0%nat) b * _ * _)) (fun i => shape gp i * x (nth i ns 0%nat) b * - (f (position gp) lambda a * (integrationElement gp * weight gp)))) by (intros; ring).
  rewrite !sum_mul_r. ring.
Qed.
Print Assumptions C161_load.

(** A rod of length 1 and stiffness 2 under its weight 6, fixed at its first node *)
Definition rodPoint : point := {| position := fun _ => / 2; integrationElement := 1; weight := 1 |}.
Definition rodDN (_ : point) (i _ : nat) : R := match i with O => -1 | _ => 1 end.
Definition rodElastic : skill := linearSkill 1 2 1 [rodPoint] (smallStrain 1 2 rodDN) (smallBop 1 rodDN) (fun _ _ => 2).
Definition rodLoad : skill := volumeSkill 1 2 (fun _ _ => / 2) (Some (fun _ _ _ => 6)) [rodPoint] 1.
Definition rod : list meshElement := [mkMeshElement [Leaf [0; 1]%nat] (fun i => i) (mixin [rodElastic; rodLoad])].

Lemma rod_residual y : residualFunction springFlags rod Reduced y = [2 * (y 1%nat - y 0%nat) - 3].
Proof.
  unfold residualFunction, answer. cbn. unfold pointForce, addSegment, internalForces, linearStress_, apply, displacementDerivative, localOf. cbn.
  unfold smallStrain, smallBop, strainVector, displacementGradientOf, identity, rodDN. cbn. f_equal. field.
Qed.

Lemma rod_balanced U : balancedMesh springFlags rod 1 2 (fun m _ => m) (fun _ => [0; 1]%nat) (fun _ => rodElastic) (fun _ => [rodLoad]) (fun m _ => INR m) U.
Proof.
  split.
  - intros m a Hm Ha. split; [cbn; lia|]. intros m' b Hm' Hb E. split; [exact E|lia].
  - intros e [<-|[]]. split; [|split; [|split; [|split; [|split]]]].
    + split; [|split; [reflexivity|]]; [cbn; intros m Hm; intuition lia|]. cbn. intros i a Hi Ha. destruct i as [|[|i]]; [| |lia]; destruct a; try lia; reflexivity.
    + cbn. intros i Hi. intuition lia.
    + reflexivity.
    + intros u f k Hk. apply (C96_linear_adds 1 2 1 [rodPoint] ltac:(lia) (smallStrain 1 2 rodDN) (smallBop 1 rodDN) (fun _ _ => 2) u f zeroMatrix k k Hk Hk).
    + intros sk [<-|[]] u f k Hk. apply (C97_volume_dead 1 2 ltac:(lia)). exact Hk.
    + apply (C161_initial 1 [0; 1]%nat (fun m _ => INR m)).
      apply (C161_linear_solid 1 2 rodDN [rodPoint] (fun i _ => INR (nth i [0; 1]%nat 0%nat)) ltac:(lia) (fun _ _ => 2)).
      intros gp _ a Ha. split; [unfold rodDN; cbn; ring|]. intros k Hk. destruct k; [|lia]. destruct a; [|lia]. unfold rodDN, identity. cbn. ring.
Qed.

Example C161_applies :
  (forall U, balancedMesh springFlags rod 1 2 (fun m _ => m) (fun _ => [0; 1]%nat) (fun _ => rodElastic) (fun _ => [rodLoad]) (fun m _ => INR m) U) /\
  (forall U, externalForce springFlags rod 1 (fun _ => [0; 1]%nat) (fun _ => [rodLoad]) U 0 = 6) /\
  exists s, structureSolve springFlags rod Reduced 0 springLinearSolver (fun _ _ _ _ (w : unit) => w) (mkNRSettings (/ 10) 5 0) (fun _ => 0) [] tt = Some s /\
    i_success (s_info s) = true.
Proof.
  split; [exact rod_balanced|]. split.
  - intros U. unfold externalForce, localForce. cbn. unfold pointForce, addSegment, apply, displacementDerivative, identity, zeroVector. cbn. field.
  - set (y := updateFunctor springFlags Reduced (fun _ => 0) (springLinearSolver None (residualFunction springFlags rod Reduced (fun _ => 0)))).
    assert (Y0 : y 0%nat = 0) by (unfold y; rewrite rod_residual; cbn; unfold plusVector; cbn [nth]; ring).
    assert (Y1 : y 1%nat = 3 / 2) by (unfold y; rewrite rod_residual; cbn; unfold plusVector; cbn [nth]; field).
    destruct (one_iteration greater 0 (residualFunction springFlags rod Reduced) (KFunction springFlags rod Reduced) norm norm springLinearSolver
      (updateFunctor springFlags Reduced) (fun _ _ _ _ (w : unit) => w) (/ 10) (fun _ => 0) [] tt) as (s & E & S1 & Es).
    + rewrite rod_residual. unfold greater, norm. cbn [fold_left]. destruct Rlt_dec as [|N]; [reflexivity|]. exfalso. apply N.
      replace (0 + (2 * (0 - 0) - 3) * (2 * (0 - 0) - 3)) with (3 * 3) by ring. rewrite sqrt_square; lra.
    + change (greater (norm (residualFunction springFlags rod Reduced y)) (/ 10) = false).
      rewrite rod_residual. unfold greater, norm. cbn [fold_left]. rewrite Y0, Y1. destruct Rlt_dec as [L|]; [|reflexivity]. exfalso.
      replace (0 + (2 * (3 / 2 - 0) - 3) * (2 * (3 / 2 - 0) - 3)) with 0 in L by field. rewrite sqrt_0 in L. lra.
    + exists s. split; [exact E|]. exact S1.
Qed.
