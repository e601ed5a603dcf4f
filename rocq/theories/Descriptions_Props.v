(** Property C174: a Newton solver goes through the same states whatever coordinates, numbering and units a structure is described in. *)

From Coq Require Import List Arith ZArith Bool Reals Lia Lra FunctionalExtensionality.
From Coquelicot Require Import Coquelicot.
From Verif Require Import FEHelper_Model Assembler_Model Assembler_Spec Assembler_Proofs Assembler_Props Newton_Model Newton_Spec Newton_Proofs Newton_Props.
From Verif Require Import Tensor_Spec Conversions_Spec Conversions_Props Element_Spec Element_Model Element_Proofs Element_Props Truss_Model Truss_Props TrussSkill_Props
  AssemblyMesh_Model AssemblyMesh_Props StructureNewton_Model StructureNewton_Props StructureReactions_Props LinearStructure_Props Numbering_Props FullReduced_Props Coordinates_Props.
Import ListNotations.
Local Open Scope R_scope.

(** ** Two Newton runs with related states *)
Section Related.
  Context {T1 D1 R1 J1 C1 W1 T2 D2 R2 J2 C2 W2 : Type}.
  Variables (gt1 : T1 -> T1 -> bool) (inf1 : T1) (res1 : D1 -> R1) (jac1 : D1 -> J1) (rnorm1 : R1 -> T1) (cnorm1 : C1 -> T1) (lsolve1 : J1 -> R1 -> C1) (update1 : D1 -> C1 -> D1)
    (listen1 : nlmsg -> nlinfo T1 -> C1 -> D1 -> W1 -> W1).
  Variables (gt2 : T2 -> T2 -> bool) (inf2 : T2) (res2 : D2 -> R2) (jac2 : D2 -> J2) (rnorm2 : R2 -> T2) (cnorm2 : C2 -> T2) (lsolve2 : J2 -> R2 -> C2) (update2 : D2 -> C2 -> D2)
    (listen2 : nlmsg -> nlinfo T2 -> C2 -> D2 -> W2 -> W2).
  Variables (st1 : nrSettings T1) (st2 : nrSettings T2).
  (** Related solutions, norms of residuals (RS: computed ones) and norms of corrections *)
  Variables (Rel : D1 -> D2 -> Prop) (RS RR CC : T1 -> T2 -> Prop).
  Hypothesis computed : forall r1 r2, RS r1 r2 -> RR r1 r2.
  Hypothesis limits : nr_maxIter st1 = nr_maxIter st2 /\ nr_minIter st1 = nr_minIter st2.
  Hypothesis infinite : RR inf1 inf2 /\ CC inf1 inf2.
  Hypothesis residuals : forall d1 d2, Rel d1 d2 -> let r1 := rnorm1 (res1 d1) in let r2 := rnorm2 (res2 d2) in RS r1 r2 /\ gt1 r1 (nr_tol st1) = gt2 r2 (nr_tol st2).
  Hypothesis corrections : forall d1 d2, Rel d1 d2 -> let c1 := lsolve1 (jac1 d1) (res1 d1) in let c2 := lsolve2 (jac2 d2) (res2 d2) in
    CC (cnorm1 c1) (cnorm2 c2) /\ Rel (update1 d1 c1) (update2 d2 c2).

  Definition relatedInfo (i1 : nlinfo T1) (i2 : nlinfo T2) : Prop := i_success i1 = i_success i2 /\ RR (i_res i1) (i_res i2) /\ CC (i_corr i1) (i_corr i2) /\ i_iter i1 = i_iter i2.
  Definition relatedMessage (m1 : nlmsg * nlinfo T1 * C1 * D1) (m2 : nlmsg * nlinfo T2 * C2 * D2) : Prop :=
    let '(m1, i1, _, d1) := m1 in let '(m2, i2, _, d2) := m2 in m1 = m2 /\ relatedInfo i1 i2 /\ Rel d1 d2.
  Definition relatedState (s1 : nrState (T := T1) (D := D1) (C := C1) (W := W1)) (s2 : nrState (T := T2) (D := D2) (C := C2) (W := W2)) : Prop :=
    Rel (s_d s1) (s_d s2) /\ relatedInfo (s_info s1) (s_info s2) /\ RS (i_res (s_info s1)) (i_res (s_info s2)) /\ Forall2 relatedMessage (s_trace s1) (s_trace s2).

  Lemma related_emit m s1 s2 : relatedState s1 s2 -> relatedState (emit listen1 m s1) (emit listen2 m s2).
  Proof. intros (A & B & St & Tr). split; [exact A|]. split; [exact B|]. split; [exact St|]. cbn. apply Forall2_app; [exact Tr|]. constructor; [|constructor]. split; [reflexivity|]. split; assumption. Qed.

  Lemma related_body iter s1 s2 : relatedState s1 s2 ->
    let '(s1', rx1, ax1, rn1) := nrBody (fun _ => res1) (fun _ => jac1) rnorm1 cnorm1 lsolve1 update1 None listen1 iter (res1 (s_d s1)) (jac1 (s_d s1)) s1 in
    let '(s2', rx2, ax2, rn2) := nrBody (fun _ => res2) (fun _ => jac2) rnorm2 cnorm2 lsolve2 update2 None listen2 iter (res2 (s_d s2)) (jac2 (s_d s2)) s2 in
    relatedState s1' s2' /\ (rn1 = rnorm1 (res1 (s_d s1')) /\ rn2 = rnorm2 (res2 (s_d s2'))) /\ rx1 = res1 (s_d s1') /\ ax1 = jac1 (s_d s1') /\ rx2 = res2 (s_d s2') /\ ax2 = jac2 (s_d s2').
  Proof.
    destruct s1 as [d1 c1 [suc1 r1 k1 it1] w1 tr1], s2 as [d2 c2 [suc2 r2 k2 it2] w2 tr2]. unfold relatedState. cbn [s_d s_info s_trace]. intros (Rd & (Su & Rr & Rc & It) & St & Tr).
    cbn [i_success i_res i_corr i_iter] in *. subst suc2 it2.
    destruct (corrections d1 d2 Rd) as (Cn & Up). destruct (residuals _ _ Up) as (Rs & _). assert (Rn := computed _ _ Rs).
    destruct (body_eq res1 jac1 rnorm1 cnorm1 lsolve1 update1 listen1 iter d1 c1 suc1 r1 k1 it1 w1 tr1) as (v1 & E1). rewrite E1.
    destruct (body_eq res2 jac2 rnorm2 cnorm2 lsolve2 update2 listen2 iter d2 c2 suc1 r2 k2 it1 w2 tr2) as (v2 & E2). rewrite E2. cbn [s_d s_info s_trace].
    split; [|auto 10]. split; [exact Up|]. split; [repeat split; assumption|]. split; [exact Rs|]. apply Forall2_app; [exact Tr|].
    repeat (constructor; [split; [reflexivity|]; split; [repeat split; assumption|assumption]|]). constructor.
  Qed.

  Lemma related_loop fuel : forall iter rn1 rn2 s1 s2, relatedState s1 s2 -> gt1 rn1 (nr_tol st1) = gt2 rn2 (nr_tol st2) ->
    match nrLoop gt1 (fun _ => res1) (fun _ => jac1) rnorm1 cnorm1 lsolve1 update1 None listen1 fuel st1 iter (res1 (s_d s1)) (jac1 (s_d s1)) rn1 s1,
          nrLoop gt2 (fun _ => res2) (fun _ => jac2) rnorm2 cnorm2 lsolve2 update2 None listen2 fuel st2 iter (res2 (s_d s2)) (jac2 (s_d s2)) rn2 s2 with
    | Some (i1, s1'), Some (i2, s2') => i1 = i2 /\ relatedState s1' s2'
    | None, None => True
    | _, _ => False
    end.
  Proof.
    assert (Co : forall rn1 rn2 iter, gt1 rn1 (nr_tol st1) = gt2 rn2 (nr_tol st2) -> nrCond gt1 st1 rn1 iter = nrCond gt2 st2 rn2 iter).
    { intros rn1 rn2 iter E. unfold nrCond. destruct limits as (-> & ->). now rewrite E. }
    induction fuel as [|fuel IH]; intros iter rn1 rn2 s1 s2 S0 E; cbn [nrLoop]; rewrite (Co rn1 rn2 iter E); destruct (nrCond gt2 st2 rn2 iter); auto.
    assert (X := related_body iter s1 s2 S0).
    destruct (nrBody (fun _ => res1) _ _ _ _ _ _ _ _ _ _ _) as (((s1', rx1), ax1), n1).
    destruct (nrBody (fun _ => res2) _ _ _ _ _ _ _ _ _ _ _) as (((s2', rx2), ax2), n2).
    destruct X as (S' & (-> & ->) & -> & -> & -> & ->). apply IH; [exact S'|]. apply (residuals _ _ (proj1 S')).
  Qed.

  Theorem related_solve x1 x2 c1 w1 c2 w2 : Rel x1 x2 ->
    match nrSolve gt1 inf1 (fun _ => res1) (fun _ => jac1) rnorm1 cnorm1 lsolve1 update1 None listen1 st1 x1 c1 w1,
          nrSolve gt2 inf2 (fun _ => res2) (fun _ => jac2) rnorm2 cnorm2 lsolve2 update2 None listen2 st2 x2 c2 w2 with
    | Some s1, Some s2 => relatedState s1 s2
    | None, None => True
    | _, _ => False
    end.
  Proof.
    intros Rx. destruct (residuals x1 x2 Rx) as (Rs & Rg). assert (Rr := computed _ _ Rs). unfold nrSolve, nrStart, emit, setInfo. cbn. destruct limits as (Mx & Mn). rewrite Mx, Mn.
    match goal with |- context [nrLoop gt1 (fun _ => res1) _ _ _ _ _ _ _ ?f _ _ _ _ ?r1 ?s1] =>
      match goal with |- context [nrLoop gt2 (fun _ => res2) _ _ _ _ _ _ _ _ _ _ _ _ ?r2 ?s2] =>
        assert (X := related_loop f 0%Z r1 r2 s1 s2) end end.
    cbn [s_d] in X. assert (I0 : relatedState (mkNR x1 c1 (mkInfo true (rnorm1 (res1 x1)) inf1 (-1)%Z) (listen1 INIT (mkInfo false inf1 inf1 (-1)%Z) c1 x1 w1) [(INIT, mkInfo false inf1 inf1 (-1)%Z, c1, x1)])
      (mkNR x2 c2 (mkInfo true (rnorm2 (res2 x2)) inf2 (-1)%Z) (listen2 INIT (mkInfo false inf2 inf2 (-1)%Z) c2 x2 w2) [(INIT, mkInfo false inf2 inf2 (-1)%Z, c2, x2)])).
    { destruct infinite as (IR & IC). split; [exact Rx|]. split; [repeat split; assumption|]. split; [exact Rs|]. constructor; [|constructor]. split; [reflexivity|]. split; [repeat split; assumption|exact Rx]. }
    specialize (X I0 Rg).
    destruct (nrLoop gt1 (fun _ => res1) _ _ _ _ _ _ _ _ _ _ _ _ _ _) as [(i1, s1)|], (nrLoop gt2 (fun _ => res2) _ _ _ _ _ _ _ _ _ _ _ _ _ _) as [(i2, s2)|]; auto.
    destruct X as (-> & S0). destruct S0 as (A & (Su & B1 & B2 & B3) & St & Tr). unfold nrFinish. rewrite Mx, Su. destruct (if (i2 =? nr_maxIter st2)%Z then false else i_success (s_info s2)).
    - apply related_emit. split; [exact A|]. split; [repeat split; assumption|]. split; [exact St|exact Tr].
    - split; [exact A|]. split; [repeat split; assumption|]. split; [exact St|exact Tr].
  Qed.
End Related.

(** ** The reduced system in terms of all dofs *)
Section Reduced.
  Variables (flags : list bool) (mesh : list meshElement) (lsolve : option (response (V := R)) -> list R -> list R).
  Let n := length flags.
  Hypothesis range : forall e, In e mesh -> forall i, In i (me_dofs e) -> (i < n)%nat.

  (** The force that is left at a free dof *)
  Definition freeForce (y : nat -> R) (i : nat) : R := if nth i flags true then 0 else forcesAt flags mesh y i.

  Lemma nth_free i : free flags i -> nth i flags true = false.
  Proof. intros F. apply (nth_error_nth flags i true F). Qed.
  Lemma nth_constrained i : constrained flags i -> nth i flags true = true.
  Proof. intros F. apply (nth_error_nth flags i true F). Qed.

  Lemma reduced_norm y : norm (residualFunction flags mesh Reduced y) = sqrt (sum n (fun i => freeForce y i * freeForce y i)).
  Proof.
    rewrite (residual_norm flags mesh Reduced) by (discriminate || exact range). f_equal. unfold dot. apply sum_ext. intros i Hi. unfold freeForce, forcesAt.
    destruct (full_entries flags mesh y i range Hi) as (C & F). destruct (free_or_constrained flags i Hi) as [Fi|Ci].
    - rewrite (nth_free i Fi), (proj1 (F Fi)). reflexivity.
    - rewrite (nth_constrained i Ci), (C Ci). reflexivity.
  Qed.

  Lemma reduced_matrix y r c : free flags r -> free flags c -> matrixEntries (KFunction flags mesh Reduced y) (rank flags r) (rank flags c) = matrixAt flags mesh y r c.
  Proof.
    intros Fr Fc. assert (W0 : wfElements n (toElements n mesh)) by (apply wf_any, range).
    destruct (C05_reduced_dense _ _ 0 Rplus flags _ y W0) as (rawM & Mr & Er & Er' & _ & _ & Vr).
    unfold matrixAt, KFunction, answer. cbn [denseRequest]. fold n. rewrite Er, Er'. cbn [option_map matrixEntries]. rewrite Vr by assumption. reflexivity.
  Qed.

  Lemma reduced_force y i : free flags i -> nth (rank flags i) (residualFunction flags mesh Reduced y) 0 = forcesAt flags mesh y i.
  Proof.
    intros Fi. assert (Hi := free_lt _ _ Fi). destruct (proj2 (full_entries flags mesh y i range Hi) Fi) as (E1 & E2). unfold forcesAt. rewrite <- E1, <- E2.
    unfold residualFunction, vectorEntries. destruct (answer flags mesh (RVector Reduced y)) as [[| | |]|]; try (destruct (rank flags i); reflexivity).
  Qed.

  (** The system that the corrections of all dofs solve *)
  Definition solvesFree (y dc : nat -> R) : Prop :=
    (forall i, constrained flags i -> dc i = 0) /\ forall i, free flags i -> sum n (fun j => matrixAt flags mesh y i j * dc j) = - forcesAt flags mesh y i.

  Lemma reduced_correction y : solved flags mesh Reduced lsolve y -> let b := lsolve (KFunction flags mesh Reduced y) (residualFunction flags mesh Reduced y) in
    exists dc, solvesFree y dc /\ (forall i, updateFunctor flags Reduced y b i = y i + dc i) /\ norm b = sqrt (sum n (fun i => dc i * dc i)).
  Proof.
    intros (Lb & Sb) b. fold b in Lb, Sb. cbn iota in Lb, Sb.
    destruct (createFullVector_spec 0 flags b Lb) as (v & E & Lv & Cv & Fv).
    assert (C : forall i, constrained flags i -> nth i v 0 = 0) by (intros i Ci; exact (nth_error_nth v i 0 (Cv i Ci))).
    assert (F : forall i, free flags i -> nth i v 0 = nth (rank flags i) b 0).
    { intros i Fi. assert (X := Fv i Fi). change (rk flags i) with (rank flags i) in X. rewrite (nth_error_nth' b 0) in X by (rewrite Lb; apply rk_lt; exact Fi). exact (nth_error_nth v i 0 X). }
    exists (fun i => nth i v 0). split; [split; [exact C|]|split].
    - intros i Fi. rewrite <- (reduced_force y i Fi). rewrite <- (Sb (rank flags i) (rk_lt _ _ Fi)).
      rewrite <- (sum_free flags (fun j => matrixAt flags mesh y i j) _ (fun k => nth k b 0)) by (intros j Fj; apply reduced_matrix; assumption).
      apply sum_ext. intros j Hj. destruct (free_or_constrained flags j Hj) as [Fj|Cj].
      + rewrite (nth_free j Fj), F by assumption. reflexivity.
      + rewrite (nth_constrained j Cj), C by assumption. reflexivity.
    - intros i. unfold updateFunctor. cbn [andb]. rewrite Lb, Nat.eqb_refl, E. reflexivity.
    - rewrite norm_dot, Lb. f_equal. unfold dot.
      rewrite <- (sum_free flags (fun i => nth i v 0) (fun k => nth k b 0) (fun k => nth k b 0)) by (intros i Fi; symmetry; apply F, Fi).
      apply sum_ext. intros i Hi. destruct (free_or_constrained flags i Hi) as [Fi|Ci].
      + rewrite (nth_free i Fi), F by assumption. reflexivity.
      + rewrite (nth_constrained i Ci), C by assumption. ring.
  Qed.

  Lemma reduced_unique y dc dc' : regular flags mesh y -> solvesFree y dc -> solvesFree y dc' -> forall i, (i < n)%nat -> dc i = dc' i.
  Proof.
    intros Rg (C & S1) (C' & S2) i Hi. destruct (free_or_constrained flags i Hi) as [Fi|Ci]; [|now rewrite C, C'].
    set (w := fun k => match restrict flags (map (fun i => dc i - dc' i) (seq 0 n)) with l => nth k l 0 end).
    assert (Rw : forall j, free flags j -> w (rank flags j) = dc j - dc' j).
    { intros j Fj. assert (Hj := free_lt _ _ Fj). unfold w.
      assert (X : nth_error (restrict flags (map (fun i => dc i - dc' i) (seq 0 n))) (rank flags j) = nth_error (map (fun i => dc i - dc' i) (seq 0 n)) j)
        by (apply restrict_nth; [now rewrite map_length, seq_length|exact Fj]).
      rewrite (map_nth_error _ j _ (nth_error_nth' (seq 0 n) 0%nat ltac:(rewrite seq_length; exact Hj))), seq_nth in X by exact Hj. exact (nth_error_nth _ _ 0 X). }
    apply Rminus_diag_uniq. rewrite <- (Rw i Fi). apply (Rg w); [|apply rk_lt; exact Fi].
    intros r Hr. destruct (rk_surj flags r Hr) as (j & Fj & <-). change (rk flags j) with (rank flags j) in *.
    rewrite <- (sum_free flags (fun k => matrixAt flags mesh y j k) _ w) by (intros k Fk; apply reduced_matrix; assumption). fold n.
    rewrite (sum_ext n _ (fun k => matrixAt flags mesh y j k * dc k + (-1) * (matrixAt flags mesh y j k * dc' k))).
    - rewrite sum_add, sum_mul_l, (S1 j Fj), (S2 j Fj). ring.
    - intros k Hk. destruct (free_or_constrained flags k Hk) as [Fk|Ck].
      + rewrite (nth_free k Fk), Rw by assumption. ring.
      + rewrite (nth_constrained k Ck), C, C' by assumption. ring.
  Qed.
End Reduced.

(** ** Two descriptions of a structure *)
Section Described.
  Variables (d nodes : nat) (flags flags' : list bool) (mesh mesh' : list meshElement) (dofAt dofAt' : nat -> nat -> nat) (Q : nat -> nat -> R).
  (** The factors between the units of lengths and of forces *)
  Variables (k c : R).
  Let n := length flags.
  Let n' := length flags'.
  Hypothesis dpos : (0 < d)%nat.
  Hypothesis HQ : orthogonal d Q.
  Hypothesis kpos : 0 < k.
  Hypothesis cpos : 0 < c.

  (** Each dof is that of one direction of one node *)
  Definition numbersAll (size : nat) (dofAt : nat -> nat -> nat) : Prop :=
    numbered d nodes size dofAt /\ forall i, (i < size)%nat -> exists m a, (m < nodes)%nat /\ (a < d)%nat /\ dofAt m a = i.
  Hypothesis all : numbersAll n dofAt.
  Hypothesis all' : numbersAll n' dofAt'.

  (** A node is supported in all directions or not at all, in both descriptions.  Supports of single directions are covered by d = 1 where each dof is a node *)
  Hypothesis supports : forall m a b, (m < nodes)%nat -> (a < d)%nat -> (b < d)%nat -> nth (dofAt' m a) flags' true = nth (dofAt m b) flags true.

  (** The vector f' of one description is, up to units, the vector f of the other *)
  Definition describes (s : R) (f f' : nat -> R) : Prop := forall m a, (m < nodes)%nat -> (a < d)%nat -> f' (dofAt' m a) = s * sum d (fun b => Q a b * f (dofAt m b)).
  (** Forces and matrices for the displacements U and U' *)
  Definition sameSystem (U U' : nat -> R) : Prop :=
    describes c (forcesAt flags mesh U) (forcesAt flags' mesh' U') /\
    forall m a m' a', (m < nodes)%nat -> (a < d)%nat -> (m' < nodes)%nat -> (a' < d)%nat ->
      matrixAt flags' mesh' U' (dofAt' m a) (dofAt' m' a') = c / k * sum d (fun b => sum d (fun b' => Q a b * Q a' b' * matrixAt flags mesh U (dofAt m b) (dofAt m' b'))).

  Lemma sum_nodes (fl : list bool) at_ f g : numbersAll (length fl) at_ -> sum (length fl) (fun i => f i * g i) = sum nodes (fun m => sum d (fun a => f (at_ m a) * g (at_ m a))).
  Proof.
    intros (Nu & Su). rewrite <- (nodal_dot fl d nodes at_ (fun m a => g (at_ m a)) f Nu). apply sum_ext. intros i Hi. destruct (Su i Hi) as (m & a & Hm & Ha & <-).
    now rewrite (nodal_at fl d nodes at_).
  Qed.

  Lemma turn_dot s f f' g g' m : describes s f f' -> describes s g g' -> (m < nodes)%nat ->
    sum d (fun a => f' (dofAt' m a) * g' (dofAt' m a)) = s * s * sum d (fun a => f (dofAt m a) * g (dofAt m a)).
  Proof.
    intros F G Hm.
    rewrite (sum_ext d _ (fun a => s * s * sum d (fun b => sum d (fun b' => Q a b * Q a b' * (f (dofAt m b) * g (dofAt m b')))))).
    - rewrite sum_mul_l. f_equal. rewrite sum_swap. apply sum_ext. intros b Hb. rewrite sum_swap.
      rewrite (sum_ext d _ (fun b' => identity b b' * (f (dofAt m b) * g (dofAt m b')))) by (intros; rewrite sum_mul_r, (orth_cols d Q HQ) by assumption; reflexivity). now rewrite sum_id_l.
    - intros a Ha. rewrite F, G by assumption. replace (s * sum d (fun b => Q a b * f (dofAt m b)) * (s * sum d (fun b => Q a b * g (dofAt m b)))) with
        (s * s * (sum d (fun b => Q a b * f (dofAt m b)) * sum d (fun b => Q a b * g (dofAt m b)))) by ring. f_equal.
      rewrite <- sum_mul_r. apply sum_ext. intros b _. rewrite <- sum_mul_l. apply sum_ext. intros. ring.
  Qed.

  Lemma describes_norm s f f' : 0 < s -> describes s f f' -> sqrt (sum n' (fun i => f' i * f' i)) = s * sqrt (sum n (fun i => f i * f i)).
  Proof.
    intros Hs F. unfold n', n. rewrite (sum_nodes flags' dofAt' f' f' all'), (sum_nodes flags dofAt f f all).
    rewrite (sum_ext nodes _ (fun m => s * s * sum d (fun a => f (dofAt m a) * f (dofAt m a)))) by (intros; apply turn_dot; assumption).
    rewrite sum_mul_l, sqrt_mult_alt by (apply Rlt_le, Rmult_lt_0_compat; assumption). now rewrite sqrt_square by lra.
  Qed.

  Lemma describes_free U U' : sameSystem U U' -> describes c (freeForce flags mesh U) (freeForce flags' mesh' U').
  Proof.
    intros (F & _) m a Hm Ha. unfold freeForce. rewrite (sum_ext d _ (fun b => Q a b * (if nth (dofAt' m a) flags' true then 0 else forcesAt flags mesh U (dofAt m b))))
      by (intros b Hb; now rewrite <- (supports m a b Hm Ha Hb)).
    destruct (nth (dofAt' m a) flags' true); [|now apply F]. rewrite sum_zero by (intros; ring). ring.
  Qed.

  Lemma free_flag (fl : list bool) i : (i < length fl)%nat -> (nth i fl true = false <-> free fl i) /\ (nth i fl true = true <-> constrained fl i).
  Proof.
    intros Hi. unfold free, constrained. split; split; intros H; try (apply nth_error_nth with (d := true) in H; exact H);
      rewrite (nth_error_nth' fl true Hi), H; reflexivity.
  Qed.

  (** The corrections solve the same system *)
  Lemma describes_solves U U' dc dc' : sameSystem U U' -> describes k dc dc' -> solvesFree flags mesh U dc -> solvesFree flags' mesh' U' dc'.
  Proof.
    intros (F & M) D (C & S1). destruct all as (Nu & Su), all' as (Nu' & Su'). split; intros i Hi.
    - assert (Li : (i < n')%nat) by (apply nth_error_Some; unfold constrained in Hi; congruence). destruct (Su' i Li) as (m & a & Hm & Ha & <-).
      rewrite D by assumption. rewrite sum_zero; [ring|]. intros b Hb. rewrite C; [ring|].
      apply free_flag; [apply Nu; assumption|]. rewrite <- (supports m a b) by assumption. apply (free_flag flags'); assumption.
    - assert (Li : (i < n')%nat) by (apply (free_lt _ _ Hi)). destruct (Su' i Li) as (m & a & Hm & Ha & <-).
      rewrite (sum_nodes flags' dofAt' _ dc' (conj Nu' Su')).
      rewrite (sum_ext nodes _ (fun m' => c * sum d (fun p => Q a p * sum d (fun q => matrixAt flags mesh U (dofAt m p) (dofAt m' q) * dc (dofAt m' q))))).
      + rewrite sum_mul_l, sum_swap.
        rewrite (sum_ext d _ (fun p => Q a p * - forcesAt flags mesh U (dofAt m p))).
        * rewrite F by assumption. rewrite (sum_ext d (fun p => Q a p * - forcesAt flags mesh U (dofAt m p)) (fun p => (-1) * (Q a p * forcesAt flags mesh U (dofAt m p)))) by (intros; ring). rewrite sum_mul_l. ring.
        * intros p Hp. rewrite sum_mul_l. f_equal. rewrite <- (sum_nodes flags dofAt (fun j => matrixAt flags mesh U (dofAt m p) j) dc (conj Nu Su)). apply S1.
          apply free_flag; [apply Nu; assumption|]. rewrite <- (supports m a p) by assumption. apply (free_flag flags'); assumption.
      + intros m' Hm'.
        rewrite (sum_ext d _ (fun a' => c * sum d (fun q => sum d (fun b => Q a' q * Q a' b * (sum d (fun p => Q a p * matrixAt flags mesh U (dofAt m p) (dofAt m' q)) * dc (dofAt m' b)))))).
        * rewrite sum_mul_l. f_equal. rewrite sum_swap.
          rewrite (sum_ext d _ (fun q => sum d (fun p => Q a p * (matrixAt flags mesh U (dofAt m p) (dofAt m' q) * dc (dofAt m' q))))).
          -- rewrite sum_swap. apply sum_ext. intros p _. apply sum_mul_l.
          -- intros q Hq. rewrite sum_swap.
             rewrite (sum_ext d _ (fun b => identity q b * (sum d (fun p => Q a p * matrixAt flags mesh U (dofAt m p) (dofAt m' q)) * dc (dofAt m' b)))) by (intros; rewrite sum_mul_r, (orth_cols d Q HQ) by assumption; reflexivity).
             rewrite sum_id_l by assumption. rewrite <- sum_mul_r. apply sum_ext. intros. ring.
        * intros a' Ha'. rewrite M, D by assumption.
          rewrite (sum_swap d d (fun b b' => Q a b * Q a' b' * matrixAt flags mesh U (dofAt m b) (dofAt m' b'))).
          match goal with |- c / k * ?x * (k * ?y) = _ => replace (c / k * x * (k * y)) with (c * (x * y)) by (field; lra) end. f_equal. rewrite <- sum_mul_r. apply sum_ext. intros q _.
          rewrite <- sum_mul_l. apply sum_ext. intros b _. rewrite (sum_ext d _ (fun p => Q a' q * (Q a p * matrixAt flags mesh U (dofAt m p) (dofAt m' q)))) by (intros; ring). rewrite sum_mul_l. ring.
  Qed.

  Variables (lsolve lsolve' : option (response (V := R)) -> list R -> list R) (inf : R).
  Hypothesis range : forall e, In e mesh -> forall i, In i (me_dofs e) -> (i < n)%nat.
  Hypothesis range' : forall e, In e mesh' -> forall i, In i (me_dofs e) -> (i < n')%nat.

  (** A norm in the other units; no norm is known before the first iteration *)
  Definition inUnits (s a a' : R) : Prop := a' = s * a \/ (a = inf /\ a' = inf).
  (** The end of both runs, and what their listeners are told *)
  Definition sameRun {W W'} (s : option (nrState (T := R) (D := nat -> R) (C := list R) (W := W))) (s' : option (nrState (T := R) (D := nat -> R) (C := list R) (W := W'))) : Prop :=
    match s, s' with
    | Some s, Some s' =>
      describes k (s_d s) (s_d s') /\
      i_success (s_info s) = i_success (s_info s') /\ i_iter (s_info s) = i_iter (s_info s') /\ i_res (s_info s') = c * i_res (s_info s) /\ inUnits k (i_corr (s_info s)) (i_corr (s_info s')) /\
      Forall2 (fun m m' => let '(m, i, _, y) := m in let '(m', i', _, y') := m' in
        m = m' /\ i_success i = i_success i' /\ i_iter i = i_iter i' /\ inUnits c (i_res i) (i_res i') /\ inUnits k (i_corr i) (i_corr i') /\ describes k y y') (s_trace s) (s_trace s')
    | None, None => True
    | _, _ => False
    end.

  (** C174: with the tolerance in the same units, both runs take the same number of iterations, with the same success, through the same states *)
  Theorem C174_same_run {W W'} (listen : nlmsg -> nlinfo R -> list R -> (nat -> R) -> W -> W) (listen' : nlmsg -> nlinfo R -> list R -> (nat -> R) -> W' -> W') st st' x x' c1 c2 w1 w2 :
    nr_tol st' = c * nr_tol st -> nr_maxIter st = nr_maxIter st' -> nr_minIter st = nr_minIter st' -> describes k x x' ->
    (forall y y', reaches flags mesh Reduced lsolve x y -> reaches flags' mesh' Reduced lsolve' x' y' -> describes k y y' ->
      sameSystem y y' /\ regular flags' mesh' y' /\ solved flags mesh Reduced lsolve y /\ solved flags' mesh' Reduced lsolve' y') ->
    sameRun (structureSolve flags mesh Reduced inf lsolve listen st x c1 w1) (structureSolve flags' mesh' Reduced inf lsolve' listen' st' x' c2 w2).
  Proof.
    intros Tol Mx Mn Dx H.
    assert (X := related_solve greater inf (residualFunction flags mesh Reduced) (KFunction flags mesh Reduced) norm norm lsolve (updateFunctor flags Reduced) listen
      greater inf (residualFunction flags' mesh' Reduced) (KFunction flags' mesh' Reduced) norm norm lsolve' (updateFunctor flags' Reduced) listen' st st'
      (fun y y' => reaches flags mesh Reduced lsolve x y /\ reaches flags' mesh' Reduced lsolve' x' y' /\ describes k y y') (fun a a' => a' = c * a) (inUnits c) (inUnits k)).
    assert (Y : match structureSolve flags mesh Reduced inf lsolve listen st x c1 w1, structureSolve flags' mesh' Reduced inf lsolve' listen' st' x' c2 w2 with
      | Some s, Some s' => relatedState (fun y y' => reaches flags mesh Reduced lsolve x y /\ reaches flags' mesh' Reduced lsolve' x' y' /\ describes k y y') (fun a a' => a' = c * a) (inUnits c) (inUnits k) s s'
      | None, None => True
      | _, _ => False
      end).
    { apply X; clear X.
      - intros r1 r2 E. left. exact E.
      - split; assumption.
      - split; right; split; reflexivity.
      - intros y y' (R1 & R2 & D). destruct (H y y' R1 R2 D) as (Sy & _). cbv zeta.
        assert (E : norm (residualFunction flags' mesh' Reduced y') = c * norm (residualFunction flags mesh Reduced y)).
        { rewrite !reduced_norm by assumption. apply describes_norm; [exact cpos|]. apply describes_free, Sy. }
        split; [exact E|]. rewrite E, Tol. unfold greater.
        destruct (Rlt_dec (nr_tol st) (norm (residualFunction flags mesh Reduced y))) as [L|L], (Rlt_dec (c * nr_tol st) (c * norm (residualFunction flags mesh Reduced y))) as [L'|L']; try reflexivity; exfalso; apply L || apply L'.
        + apply Rmult_lt_compat_l; assumption.
        + apply (Rmult_lt_reg_l c); assumption.
      - intros y y' (R1 & R2 & D). destruct (H y y' R1 R2 D) as (Sy & Rg & So & So'). cbv zeta.
        destruct (reduced_correction flags mesh lsolve range y So) as (dc & S1 & U1 & N1).
        destruct (reduced_correction flags' mesh' lsolve' range' y' So') as (dc' & S2 & U2 & N2).
        assert (Dd : describes k dc dc').
        { set (dd := nodal d nodes dofAt' (fun m a => k * sum d (fun b => Q a b * dc (dofAt m b)))).
          assert (D0 : describes k dc dd) by (intros m a Hm Ha; unfold dd; rewrite (nodal_at flags' d nodes dofAt') by (try assumption; apply all'); reflexivity).
          assert (S3 := describes_solves y y' dc dd Sy D0 S1).
          intros m a Hm Ha. rewrite (reduced_unique flags' mesh' range' y' dc' dd Rg S2 S3) by (apply all'; assumption). apply D0; assumption. }
        split; [left; rewrite N1, N2; apply describes_norm; assumption|].
        split; [now constructor|]. split; [now constructor|].
        intros m a Hm Ha. rewrite U2, D, Dd by assumption.
        rewrite (sum_ext d (fun b => Q a b * updateFunctor _ _ _ _ _) (fun b => Q a b * y (dofAt m b) + Q a b * dc (dofAt m b))) by (intros; rewrite U1; ring). rewrite sum_add. ring.
      - split; [constructor|]. split; [constructor|exact Dx]. }
    unfold sameRun. destruct (structureSolve flags mesh _ _ _ _ _ _ _ _) as [s|], (structureSolve flags' mesh' _ _ _ _ _ _ _ _) as [s'|]; try exact Y.
    destruct Y as ((_ & _ & Ds) & (A1 & A2 & A3 & A4) & St & Tr). repeat split; try assumption.
    revert Tr. generalize (s_trace s) (s_trace s'). induction 1 as [|[[[m i] cc] y] [[[m' i'] cc'] y'] l l' P F IH]; constructor; [|exact IH].
    destruct P as (P1 & (P2 & P3 & P4 & P5) & _ & _ & P6). repeat split; assumption.
  Qed.
End Described.

(** ** Other coordinates *)
Section Coordinates.
  Variables (d nodes : nat) (flags : list bool) (dofAt : nat -> nat -> nat) (Q : nat -> nat -> R) (pairs : list (meshElement * meshElement * list nat)).
  Let mesh := map (fun p => fst (fst p)) pairs.
  Let mesh' := map (fun p => snd (fst p)) pairs.

  (** C174: with the nodes turned and all or no directions of a node supported *)
  Theorem C174_coordinates {W W'} inf lsolve lsolve' (listen : nlmsg -> nlinfo R -> list R -> (nat -> R) -> W -> W) (listen' : nlmsg -> nlinfo R -> list R -> (nat -> R) -> W' -> W') st x x' c1 c2 w1 w2 :
    (0 < d)%nat -> orthogonal d Q -> numbersAll d nodes (length flags) dofAt ->
    (forall m a b, (m < nodes)%nat -> (a < d)%nat -> (b < d)%nat -> nth (dofAt m a) flags true = nth (dofAt m b) flags true) ->
    sameField d nodes dofAt Q x x' ->
    (forall y y', reaches flags mesh Reduced lsolve x y -> reaches flags mesh' Reduced lsolve' x' y' -> sameField d nodes dofAt Q y y' ->
      (forall p, In p pairs -> sameElements d nodes flags dofAt Q y p) /\ regular flags mesh' y' /\ solved flags mesh Reduced lsolve y /\ solved flags mesh' Reduced lsolve' y') ->
    sameRun d nodes dofAt dofAt Q 1 1 inf (structureSolve flags mesh Reduced inf lsolve listen st x c1 w1) (structureSolve flags mesh' Reduced inf lsolve' listen' st x' c2 w2).
  Proof.
    intros dpos HQ All Su Sx H.
    assert (Sd : forall f f', sameField d nodes dofAt Q f f' <-> describes d nodes dofAt dofAt Q 1 f f').
    { intros f f'. split; intros E m a Hm Ha; rewrite (E m a Hm Ha); ring. }
    assert (H0 := H x x' (reaches_start _ _ _ _ _) (reaches_start _ _ _ _ _) Sx).
    apply C174_same_run; try assumption; try lra; try reflexivity.
    - intros e He i Hi. apply in_map_iff in He as (p & <- & Hp). destruct (proj1 H0 p Hp) as ((_ & Pr) & _). exact (Pr i Hi).
    - intros e He i Hi. apply in_map_iff in He as (p & <- & Hp). destruct (proj1 H0 p Hp) as (_ & (_ & Pr) & _). exact (Pr i Hi).
    - apply Sd, Sx.
    - intros y y' R1 R2 D. destruct (H y y' R1 R2 (proj2 (Sd y y') D)) as (Se & Rg & So & So'). split; [|auto].
      destruct (C173_structure d nodes flags dofAt Q dpos HQ (proj1 All) pairs y y' Se (proj2 (Sd y y') D)) as (_ & F & M).
      split; [apply Sd; exact F|]. intros m a m' a' Hm Ha Hm' Ha'. unfold mesh, mesh'. rewrite M by assumption. field.
  Qed.
End Coordinates.

(** ** Other numbering *)
Section Numbers.
  Variables (n : nat) (p : nat -> nat) (flags flags' : list bool) (mesh : list meshElement).
  Let mesh' := map (renumbered p) mesh.

  Theorem C174_numbering {W W'} inf lsolve lsolve' (listen : nlmsg -> nlinfo R -> list R -> (nat -> R) -> W -> W) (listen' : nlmsg -> nlinfo R -> list R -> (nat -> R) -> W' -> W') st x x' c1 c2 w1 w2 :
    renumbering n p flags flags' x x' -> placed n mesh ->
    (forall y y', reaches flags mesh Reduced lsolve x y -> reaches flags' mesh' Reduced lsolve' x' y' -> (forall i, (i < n)%nat -> y' (p i) = y i) ->
      regular flags' mesh' y' /\ solved flags mesh Reduced lsolve y /\ solved flags' mesh' Reduced lsolve' y') ->
    sameRun 1 n (fun m _ => m) (fun m _ => p m) (fun _ _ => 1) 1 1 inf (structureSolve flags mesh Reduced inf lsolve listen st x c1 w1) (structureSolve flags' mesh' Reduced inf lsolve' listen' st x' c2 w2).
  Proof.
    intros Rn Pl H. destruct (rn_size _ _ _ _ _ _ Rn) as (L & L').
    assert (Sd : forall f f', (forall i, (i < n)%nat -> f' (p i) = f i) <-> describes 1 n (fun m _ => m) (fun m _ => p m) (fun _ _ => 1) 1 f f').
    { intros f f'. split; intros E m; [intros a Hm Ha|intros Hm]; [rewrite (E m Hm)|rewrite (E m 0%nat Hm ltac:(lia))]; cbn [sum]; ring. }
    assert (Pl' : placed n mesh') by exact (renumbered_placed n p flags flags' x x' mesh Rn Pl).
    apply C174_same_run; try lra; try reflexivity; try lia.
    - split; intros i j Hi Hj; replace i with 0%nat by lia; replace j with 0%nat by lia; cbn; unfold mul, transpose, identity; cbn; ring.
    - rewrite L. split; [intros m a Hm Ha; split; [exact Hm|intros m' b _ Hb E; split; [exact E|lia]]|]. intros i Hi. exists i, 0%nat. auto.
    - rewrite L'. split.
      + intros m a Hm Ha. split; [apply (rn_range _ _ _ _ _ _ Rn), Hm|]. intros m' b Hm' Hb E. split; [apply (rn_distinct _ _ _ _ _ _ Rn); assumption|lia].
      + assert (B : FinFun.bFun n p) by (intros i Hi; apply (rn_range _ _ _ _ _ _ Rn), Hi).
        assert (I : FinFun.bInjective n p) by (intros i j Hi Hj E; apply (rn_distinct _ _ _ _ _ _ Rn); assumption).
        apply (FinFun.bInjective_bSurjective B) in I. intros i Hi. destruct (I i Hi) as (j & Hj & E). exists j, 0%nat. auto.
    - intros m a b Hm _ _. assert (E := rn_flags _ _ _ _ _ _ Rn m Hm). rewrite (nth_error_nth' flags true) in E by lia. exact (nth_error_nth flags' (p m) true E).
    - rewrite L. intros e He. apply (Pl e He).
    - rewrite L'. intros e He. apply (Pl' e He).
    - apply Sd, (rn_values _ _ _ _ _ _ Rn).
    - intros y y' R1 R2 D. destruct (H y y' R1 R2 (proj2 (Sd y y') D)) as (Rg & So & So'). split; [|auto].
      assert (Rn' : renumbering n p flags flags' y y') by (destruct Rn; split; try assumption; apply Sd, D).
      assert (W0 : wfElements (length flags) (toElements (length flags) mesh)) by (apply wf_any; rewrite L; intros e He; apply (Pl e He)).
      assert (W1 : wfElements (length flags') (toElements (length flags') mesh')) by (apply wf_any; rewrite L'; intros e He; apply (Pl' e He)).
      split.
      + apply Sd. intros i Hi. assert (Hp := proj2 (rn_range _ _ _ _ _ _ Rn i) Hi). unfold forcesAt, answer.
        rewrite (ask_raw_vector flags' mesh' y' W1) by (rewrite L'; exact Hp). rewrite (ask_raw_vector flags mesh y W0) by (rewrite L; exact Hi). rewrite L, L'.
        exact (renumbered_vector n p flags flags' y y' mesh Rn' Pl i Hi).
      + intros m a m' a' Hm Ha Hm' Ha'. assert (Hp := proj2 (rn_range _ _ _ _ _ _ Rn m) Hm). assert (Hp' := proj2 (rn_range _ _ _ _ _ _ Rn m') Hm').
        unfold matrixAt, answer. destruct (C03_matrix_dense _ _ 0 1 Rplus flags' (toElements (length flags') mesh') y' W1) as (M' & E' & _ & _ & V').
        destruct (C03_matrix_dense _ _ 0 1 Rplus flags (toElements (length flags) mesh) y W0) as (M & E & _ & _ & V). rewrite E, E'. cbn [matrixEntries sum].
        rewrite V' by (rewrite L'; assumption). rewrite V by (rewrite L; assumption). rewrite L, L'.
        unfold mesh'. rewrite (renumbered_matrix n p flags flags' y y' mesh Rn' Pl m m' Hm Hm'). field.
  Qed.
End Numbers.

(** ** Other units *)
Definition scaled (k : R) (u : nat -> R) (i : nat) : R := k * u i.

Section UnitsOfElements.
  Variables (N : nat) (k : R).
  Hypothesis kpos : 0 < k.

  Lemma gradients_scaled e f f' g g' u : isGradient N f g u -> isGradient N f' g' (scaled k u) -> around N (fun y => f' (scaled k y) = e * f y) u -> forall i, (i < N)%nat -> g' i = e / k * g i.
  Proof.
    intros G G' I i Hi. set (v := fun j => if (j =? i)%nat then 1 else 0).
    assert (P : passes N (along u v) u v) by (intros j _; unfold along; split; [ring|auto_derive; auto; ring]).
    assert (P' : passes N (fun t => scaled k (along u v t)) (scaled k u) (scaled k v)).
    { intros j Hj. destruct (P j Hj) as (A & B). unfold scaled. split; [now rewrite A|]. apply is_derive_scal, B. }
    assert (E : dot N g' (scaled k v) = e * dot N g v).
    { apply (derive_uniq (fun t => e * f (along u v t))); [|apply is_derive_scal, G, P].
      apply (is_derive_ext_loc (fun t => f' (scaled k (along u v t)))); [exact (I _ _ P)|]. apply G', P'. }
    assert (Pick : forall h s, sum N (fun j => h j * (s * (if (j =? i)%nat then 1 else 0))) = h i * s).
    { intros h s. rewrite (sum_pick N i); [rewrite Nat.eqb_refl; ring|assumption|]. intros j _ Nj. destruct (Nat.eqb_spec j i); [congruence|ring]. }
    unfold dot, scaled, v in E. rewrite Pick in E. rewrite (sum_ext N (fun j => g j * _) (fun j => g j * (1 * (if (j =? i)%nat then 1 else 0)))) in E by (intros; ring). rewrite Pick in E.
    apply (Rmult_eq_reg_r k); [|lra]. rewrite E. field. lra.
  Qed.

  (** C174: an element whose energy is e times as large for the displacements in other units has forces and matrices in the other units *)
  Theorem C174_skill e D D' sk sk' u u' : consistentSkill N D sk -> consistentSkill N D' sk' ->
    (forall v w, (forall i, (i < N)%nat -> v i = w i) -> D' v -> D' w) ->
    (forall y, skillScalar sk' (scaled k y) = e * skillScalar sk y) ->
    around N (fun y => D y /\ D' (scaled k y)) u -> (forall i, (i < N)%nat -> u' i = k * u i) ->
    (forall i, (i < N)%nat -> skillVector sk' u' zeroVector i = e / k * skillVector sk u zeroVector i) /\
    (forall i j, (i < N)%nat -> (j < N)%nat -> skillMatrix sk' u' zeroMatrix i j = e / k / k * skillMatrix sk u zeroMatrix i j).
  Proof.
    intros Co Co' Ext En Ar St.
    assert (At : D u /\ D' (scaled k u)).
    { assert (P : passes N (fun _ => u) u (fun _ => 0)) by (intros i _; split; [reflexivity|apply @is_derive_const]).
      destruct (Ar _ _ P) as (eps & H). exact (H 0 (ball_center 0 eps)). }
    destruct At as (Du & Du'). assert (Dv : D' u') by (apply (Ext (scaled k u)); [intros; symmetry; apply St; assumption|exact Du']).
    destruct Co as (G & J & _). destruct Co' as (G' & J' & _).
    assert (Sg : forall f g, isGradient N f g u' -> isGradient N f g (scaled k u)) by (intros f g H c v P; apply H; intros i Hi; rewrite St by assumption; apply P, Hi).
    assert (F : forall y, D y -> D' (scaled k y) -> forall i, (i < N)%nat -> skillVector sk' (scaled k y) zeroVector i = e / k * skillVector sk y zeroVector i).
    { intros y Dy Dy'. apply (gradients_scaled e (skillScalar sk) (skillScalar sk') _ _ y); [apply G, Dy|apply G', Dy'|]. intros c v _. apply filter_forall. intros t. apply En. }
    split.
    - apply (gradients_scaled e (skillScalar sk) (skillScalar sk') _ _ u); [apply G, Du|apply Sg, G', Dv|]. intros c v _. apply filter_forall. intros t. apply En.
    - intros i j Hi. revert j. apply (fun H => gradients_scaled (e / k) (fun y => skillVector sk y zeroVector i) (fun y => skillVector sk' y zeroVector i) _ _ u (J u Du i Hi) H); [apply Sg, (J' u' Dv i Hi)|].
      intros c v P. generalize (Ar c v P). apply filter_imp. intros t (H1 & H2). apply F; assumption.
  Qed.
End UnitsOfElements.

(** A structure, and the skills of its elements in other units of length and force: k new units of length are one old one, and c new units of force are one old one *)
Section Units.
  Variables (flags : list bool) (k c : R) (pairs : list (meshElement * skill)).
  Hypothesis kpos : 0 < k.
  Hypothesis cpos : 0 < c.
  Let n := length flags.
  Let other (p : meshElement * skill) : meshElement := mkMeshElement (me_children (fst p)) (me_index (fst p)) (snd p).
  Let mesh := map fst pairs.
  Let mesh' := map other pairs.

  Definition inOtherUnits (U : nat -> R) (p : meshElement * skill) : Prop :=
    let e := fst p in let N := length (me_dofs e) in
    Coordinates_Props.proper flags e /\
    exists D D', consistentSkill N D (me_skill e) /\ consistentSkill N D' (snd p) /\
      (forall v w, (forall i, (i < N)%nat -> v i = w i) -> D' v -> D' w) /\
      (forall y, skillScalar (snd p) (scaled k y) = c * k * skillScalar (me_skill e) y) /\
      around N (fun y => D y /\ D' (scaled k y)) (localOf n e U).

  Lemma units_results U U' p : inOtherUnits U p -> (forall i, (i < n)%nat -> U' i = k * U i) ->
    (forall i, (i < length (me_dofs (fst p)))%nat -> forceOf n (other p) U' i = c * forceOf n (fst p) U i) /\
    (forall i j, (i < length (me_dofs (fst p)))%nat -> (j < length (me_dofs (fst p)))%nat -> matrixOf n (other p) U' i j = c / k * matrixOf n (fst p) U i j).
  Proof.
    intros ((Pb & Rg) & D & D' & Co & Co' & Ex & En & Ar) St.
    assert (Lo : forall i, (i < length (me_dofs (fst p)))%nat -> localOf n (other p) U' i = k * localOf n (fst p) U i).
    { intros i Hi. rewrite (localOf_dofs n (other p)), (localOf_dofs n (fst p)); try assumption. apply St, Rg, nth_In, Hi. }
    destruct (C174_skill _ k kpos (c * k) D D' (me_skill (fst p)) (snd p) (localOf n (fst p) U) (localOf n (other p) U') Co Co' Ex En Ar Lo) as (V & M).
    unfold forceOf, matrixOf. cbn [other me_skill]. split; intros; [rewrite V by assumption|rewrite M by assumption]; field; lra.
  Qed.

  Lemma units_structure U U' : (forall p, In p pairs -> inOtherUnits U p) -> (forall i, (i < n)%nat -> U' i = k * U i) ->
    (forall i, (i < n)%nat -> forcesAt flags mesh' U' i = c * forcesAt flags mesh U i) /\
    (forall i j, (i < n)%nat -> (j < n)%nat -> matrixAt flags mesh' U' i j = c / k * matrixAt flags mesh U i j).
  Proof.
    intros Sa St.
    assert (R1 : forall e, In e mesh -> forall i, In i (me_dofs e) -> (i < n)%nat) by (intros e He; apply in_map_iff in He as (p & <- & Hp); destruct (Sa p Hp) as ((_ & Pr) & _); exact Pr).
    assert (R2 : forall e, In e mesh' -> forall i, In i (me_dofs e) -> (i < n)%nat) by (intros e He; apply in_map_iff in He as (p & <- & Hp); destruct (Sa p Hp) as ((_ & Pr) & _); exact Pr).
    assert (W0 : wfElements n (toElements n mesh)) by (apply wf_any; exact R1).
    assert (W1 : wfElements n (toElements n mesh')) by (apply wf_any; exact R2).
    split.
    - intros i Hi. unfold forcesAt, answer. rewrite (ask_raw_vector flags mesh' U' W1) by exact Hi. rewrite (ask_raw_vector flags mesh U W0) by exact Hi.
      fold n. rewrite !vecEntry_sum. unfold mesh, mesh'. rewrite !sumP_map, <- sumP_mul_l. apply sumP_ext. intros p Hp. destruct (units_results U U' p (Sa p Hp) St) as (V & _).
      change (me_dofs (other p)) with (me_dofs (fst p)). rewrite <- sum_mul_l. apply sum_ext. intros j Hj. change (dofOf (other p) j) with (dofOf (fst p) j).
      destruct (_ =? _)%nat; [apply V, Hj|ring].
    - intros i j Hi Hj. unfold matrixAt, answer. destruct (C03_matrix_dense _ _ 0 1 Rplus flags (toElements n mesh') U' W1) as (M' & E' & _ & _ & V').
      destruct (C03_matrix_dense _ _ 0 1 Rplus flags (toElements n mesh) U W0) as (M & E & _ & _ & V). fold n. rewrite E, E'. cbn [matrixEntries].
      rewrite V' by assumption. rewrite V by assumption. rewrite !matEntry_sum. unfold mesh, mesh'. rewrite !sumP_map, <- sumP_mul_l. apply sumP_ext. intros p Hp.
      destruct (units_results U U' p (Sa p Hp) St) as (_ & Vm). change (me_dofs (other p)) with (me_dofs (fst p)). rewrite <- sum_mul_l. apply sum_ext. intros a Ha. rewrite <- sum_mul_l. apply sum_ext. intros b Hb.
      change (dofOf (other p)) with (dofOf (fst p)). destruct (_ && _)%bool; [apply Vm; assumption|ring].
  Qed.

  Theorem C174_units {W W'} inf lsolve lsolve' (listen : nlmsg -> nlinfo R -> list R -> (nat -> R) -> W -> W) (listen' : nlmsg -> nlinfo R -> list R -> (nat -> R) -> W' -> W') st st' x x' c1 c2 w1 w2 :
    nr_tol st' = c * nr_tol st -> nr_maxIter st = nr_maxIter st' -> nr_minIter st = nr_minIter st' -> (forall i, (i < n)%nat -> x' i = k * x i) ->
    (forall y y', reaches flags mesh Reduced lsolve x y -> reaches flags mesh' Reduced lsolve' x' y' -> (forall i, (i < n)%nat -> y' i = k * y i) ->
      (forall p, In p pairs -> inOtherUnits y p) /\ regular flags mesh' y' /\ solved flags mesh Reduced lsolve y /\ solved flags mesh' Reduced lsolve' y') ->
    sameRun 1 n (fun m _ => m) (fun m _ => m) (fun _ _ => 1) k c inf (structureSolve flags mesh Reduced inf lsolve listen st x c1 w1) (structureSolve flags mesh' Reduced inf lsolve' listen' st' x' c2 w2).
  Proof.
    intros Tol Mx Mn Sx H.
    assert (Sd : forall s f f', (forall i, (i < n)%nat -> f' i = s * f i) <-> describes 1 n (fun m _ => m) (fun m _ => m) (fun _ _ => 1) s f f').
    { intros s f f'. split; intros E m; [intros a Hm Ha; rewrite (E m Hm)|intros Hm; rewrite (E m 0%nat Hm ltac:(lia))]; cbn [sum]; ring. }
    assert (H0 := proj1 (H x x' (reaches_start _ _ _ _ _) (reaches_start _ _ _ _ _) Sx)).
    assert (Id : numbersAll 1 n n (fun m _ => m)) by (split; [intros m a Hm Ha; split; [exact Hm|intros m' b _ Hb E; split; [exact E|lia]]|intros i Hi; exists i, 0%nat; auto]).
    apply C174_same_run; try assumption; try lia.
    - split; intros i j Hi Hj; replace i with 0%nat by lia; replace j with 0%nat by lia; cbn; unfold mul, transpose, identity; cbn; ring.
    - intros. reflexivity.
    - intros e He. apply in_map_iff in He as (p & <- & Hp). destruct (H0 p Hp) as ((_ & Pr) & _). exact Pr.
    - intros e He. apply in_map_iff in He as (p & <- & Hp). destruct (H0 p Hp) as ((_ & Pr) & _). exact Pr.
    - apply Sd, Sx.
    - intros y y' R1 R2 D. destruct (H y y' R1 R2 (proj2 (Sd k y y') D)) as (Se & Rg & So & So'). split; [|auto].
      destruct (units_structure y y' Se (proj2 (Sd k y y') D)) as (F & M). split; [apply Sd; exact F|]. intros m a m' a' Hm Ha Hm' Ha'. fold n in M. unfold mesh, mesh' in M. rewrite M by assumption. fold mesh. cbn [sum]. ring.
  Qed.
End Units.

(** A truss whose lengths are k and whose modulus is s times as large *)
Theorem C174_truss d E A X1 X2 k s u : 0 < k -> (exists j, (j < d)%nat /\ X1 j <> X2 j) ->
  trussEnergy d (s * E) (k * k * A) (scaled k X1) (scaled k X2) (scaled k u) = s * k * k * k * trussEnergy d E A X1 X2 u.
Proof.
  intros kpos Ne. unfold trussEnergy, computeStrain, scaled. cbn [refLength Egl].
  rewrite (sum_ext d (fun j => (k * X2 j - k * X1 j) * (k * X2 j - k * X1 j)) (fun j => (k * k) * ((X2 j - X1 j) * (X2 j - X1 j)))) by (intros; ring).
  rewrite (sum_ext d (fun j => (k * X2 j + k * u (d + j)%nat - (k * X1 j + k * u j)) * (k * X2 j + k * u (d + j)%nat - (k * X1 j + k * u j))) (fun j => (k * k) * ((X2 j + u (d + j)%nat - (X1 j + u j)) * (X2 j + u (d + j)%nat - (X1 j + u j))))) by (intros; ring).
  rewrite !sum_mul_l. assert (Lp := proper_length d X1 X2 Ne). set (L := sum d (fun j => (X2 j - X1 j) * (X2 j - X1 j))) in *. set (l := sum d _).
  rewrite sqrt_mult_alt by nra. rewrite sqrt_square by lra.
  replace (1 / 2 * (k * k * l - k * k * L) / (k * k * L)) with (1 / 2 * (l - L) / L) by (field; lra). ring.
Qed.

Theorem C174_truss_elements flags children index d E A X1 X2 k s U : 0 < k -> (exists j, (j < d)%nat /\ X1 j <> X2 j) ->
  let e := mkMeshElement children index (trussSkill d E A X1 X2) in
  Coordinates_Props.proper flags e -> length (me_dofs e) = (d + d)%nat ->
  inOtherUnits flags k (s * k * k) U (e, trussSkill d (s * E) (k * k * A) (scaled k X1) (scaled k X2)).
Proof.
  intros kpos Ne e Pr Ln. split; [exact Pr|]. exists (fun _ => True), (fun _ => True). cbn [fst snd]. rewrite Ln.
  split; [apply C54_skill; exact Ne|]. split; [|split; [auto|split]].
  - apply C54_skill. destruct Ne as (j & Hj & Nj). exists j. split; [exact Hj|]. unfold scaled. intros C. apply Nj, (Rmult_eq_reg_l k); lra.
  - intros y. exact (C174_truss d E A X1 X2 k s y kpos Ne).
  - intros cu v _. apply filter_forall. auto.
Qed.

(** A solid whose lengths are k and whose stored energy is s times as large: the gradients of the shape functions are divided by k *)
Section SolidUnits.
  Variables (d n : nat) (dN dN' : point -> nat -> nat -> R) (k s : R).
  Hypothesis d3 : (0 < d <= 3)%nat.
  Hypothesis kpos : 0 < k.
  Definition scaledPoint (gp gp' : point) : Prop := vol gp' = k ^ d * vol gp /\ forall i a, (i < n)%nat -> (a < d)%nat -> dN' gp' i a = dN gp i a / k.

  Lemma scaled_strain gp gp' u : scaledPoint gp gp' -> forall m, glStrain d n dN' gp' (scaled k u) m = glStrain d n dN gp u m.
  Proof.
    intros (_ & S). intros m. unfold glStrain. apply (strainVector_ext d n d3). intros a b Ha Hb.
    assert (H : forall p q, (p < d)%nat -> (q < d)%nat -> displacementGradientOf d n (dN' gp') (scaled k u) p q = displacementGradientOf d n (dN gp) u p q).
    { intros p q Hp Hq. unfold displacementGradientOf, scaled. apply sum_ext. intros i Hi. rewrite S by assumption. field. lra. }
    unfold greenLagrangeOf. rewrite !H by assumption. f_equal. f_equal. apply sum_ext. intros. now rewrite !H.
  Qed.

  Theorem C174_solid psi psi' points points' u : Forall2 scaledPoint points points' ->
    (forall v w, (forall m, v m = w m) -> psi v = psi w) -> (forall v, psi' v = s * psi v) ->
    nonlinearScalar points' (glStrain d n dN') psi' false (scaled k u) = s * k ^ d * nonlinearScalar points (glStrain d n dN) psi false u.
  Proof.
    intros Sp Ex Ps. cbn [nonlinearScalar]. rewrite !energy_sum. induction Sp as [|gp gp' l l' H Sp IH]; [cbn; ring|]. cbn [sumP]. rewrite IH.
    rewrite (proj1 H), Ps, (Ex _ _ (scaled_strain gp gp' u H)). ring.
  Qed.
End SolidUnits.

(** ** The tolerance is a force *)
(** The spring of C148 with forces in units which are a hundred times as large *)
Definition coarseSkill : skill :=
  {| skillScalar := fun u => / 100 * skillScalar springSkill u;
     skillVector := fun u f i => f i + / 100 * skillVector springSkill u zeroVector i;
     skillMatrix := fun u K i j => K i j + / 100 * skillMatrix springSkill u zeroMatrix i j |}.
Definition coarseSpring : list meshElement := [mkMeshElement [Leaf [0; 1]%nat] (fun i => i) coarseSkill].
Definition coarseSolver (_ : option (response (V := R))) (r : list R) : list R := map (fun x => - x * 50) r.

Lemma coarse_consistent : consistentSkill 2 (fun _ => True) coarseSkill.
Proof.
  destruct spring_consistent as (G & J & _ & _ & Sy). split; [|split; [|split; [|split]]]; cbn [coarseSkill skillScalar skillVector skillMatrix].
  - intros u Du. eapply gradient_ext; [apply (gradient_scale _ _ _ u (/ 100) (G u Du))|..]; intros; unfold zeroVector; cbv beta; ring.
  - intros u Du i Hi. eapply gradient_ext; [apply (gradient_scale _ _ _ u (/ 100) (J u Du i Hi))|..]; intros; unfold zeroVector, zeroMatrix; cbv beta; ring.
  - intros. unfold zeroVector. ring.
  - intros. unfold zeroMatrix. ring.
  - intros u Du i j Hi Hj. f_equal. f_equal. apply Sy; assumption.
Qed.

Lemma coarse_residual y : residualFunction springFlags coarseSpring Reduced y = [0 + (0 + / 100 * (0 + (2 * (y 1%nat - y 0%nat) - 3)))].
Proof. reflexivity. Qed.

Example C174_units_applies y : (forall p, In p [(mkMeshElement [Leaf [0; 1]%nat] (fun i => i) springSkill, coarseSkill)] -> inOtherUnits springFlags 1 (/ 100) y p) /\
  regular springFlags coarseSpring y /\ solved springFlags spring Reduced springLinearSolver y /\ solved springFlags coarseSpring Reduced coarseSolver y.
Proof.
  split; [|split; [|split]].
  - intros p [<-|[]]. split; [split; [exists 2%nat, [[0; 1]]%nat; split; [reflexivity|split; [discriminate|intros l [<-|[]]; reflexivity]]|cbn; intros i Hi; cbn in *; intuition lia]|].
    exists (fun _ => True), (fun _ => True). split; [exact spring_consistent|]. split; [exact coarse_consistent|]. split; [auto|]. split; [|intros cu v _; apply filter_forall; auto].
    intros u. cbn. unfold scaled. ring.
  - intros w H [|i] Hi; [|cbn in Hi; lia]. specialize (H 0%nat Hi). cbn in H. unfold zeroMatrix in H. lra.
  - apply (proj1 (proj2 C148_applies)).
  - split; [reflexivity|]. intros [|i] Hi; [|cbn in Hi; lia]. rewrite coarse_residual. cbn. unfold zeroMatrix. lra.
Qed.

(** The spring along an axis in the other direction *)
Definition mirroredSkill : skill :=
  {| skillScalar := fun u => (u 1%nat - u 0%nat) * (u 1%nat - u 0%nat) + 3 * u 1%nat;
     skillVector := fun u f k => f k + match k with O => -2 * (u 1%nat - u 0%nat) | _ => 2 * (u 1%nat - u 0%nat) + 3 end;
     skillMatrix := skillMatrix springSkill |}.
Definition mirrored : meshElement := mkMeshElement [Leaf [0; 1]%nat] (fun i => i) mirroredSkill.

Lemma mirrored_consistent : consistentSkill 2 (fun _ => True) mirroredSkill.
Proof.
  destruct spring_consistent as (G & J & _ & AM & Sy).
  assert (L : forall s i u, (i < 2)%nat -> isGradient 2 (fun y => s * y i) (fun j => if (j =? i)%nat then s else 0) u).
  { intros s i u Hi cu v P. destruct (P i Hi) as (_ & Di). replace (dot 2 _ v) with (s * v i) by (destruct i as [|[|i]]; [| |lia]; unfold dot; cbn; ring). apply is_derive_scal, Di. }
  split; [|split; [|split; [|split]]].
  - intros u Du. eapply gradient_ext; [apply (gradient_plus _ _ _ _ _ u (G u Du) (L 6 1%nat u ltac:(lia)))|..]; intros; cbn.
    + ring.
    + destruct k as [|[|k]]; [| |lia]; cbn; unfold zeroVector; ring.
  - intros u Du i Hi. intros cu v P. assert (H := J u Du i Hi cu v P). cbn [mirroredSkill skillMatrix].
    apply (is_derive_ext (fun t => skillVector springSkill (cu t) zeroVector i + match i with O => 0 | _ => 6 end)).
    + intros t. destruct i as [|i]; cbn; match goal with |- ?a = ?b => change (@eq R a b) end; ring.
    + eapply derive_eq; [apply @is_derive_plus; [exact H|apply @is_derive_const]|]. unfold plus, zero. cbn -[dot]. ring.
  - intros. cbn. unfold zeroVector. ring.
  - exact AM.
  - exact Sy.
Qed.

Example C174_coordinates_applies y : orthogonal 1 (fun _ _ => -1) /\ numbersAll 1 2 2 (fun m _ => m) /\
  sameElements 1 2 springFlags (fun m _ => m) (fun _ _ => -1) y (mkMeshElement [Leaf [0; 1]%nat] (fun i => i) springSkill, mirrored, [0; 1]%nat) /\
  regular springFlags [mirrored] y /\ solved springFlags spring Reduced springLinearSolver y /\ solved springFlags [mirrored] Reduced springLinearSolver y.
Proof.
  assert (Pr : forall sk, Coordinates_Props.proper springFlags (mkMeshElement [Leaf [0; 1]%nat] (fun i => i) sk)).
  { intros sk. split; [exists 2%nat, [[0; 1]]%nat; split; [reflexivity|split; [discriminate|intros l [<-|[]]; reflexivity]]|]. intros i Hi. cbn in *. intuition lia. }
  assert (Co : forall sk, connects 1 2 (fun m _ => m) (mkMeshElement [Leaf [0; 1]%nat] (fun i => i) sk) [0; 1]%nat).
  { intros sk. split; [cbn; intros; intuition lia|]. split; [reflexivity|]. intros [|[|i]] [|a] Hi Ha; cbn in Hi; try lia; reflexivity. }
  split; [split; intros i j Hi Hj; replace i with 0%nat by lia; replace j with 0%nat by lia; cbn; unfold mul, transpose, identity; cbn; ring|].
  split; [split; [intros m a Hm Ha; split; [exact Hm|intros m' b _ Hb E; split; [exact E|lia]]|intros i Hi; exists i, 0%nat; auto]|].
  split; [|split; [|split]].
  - split; [apply Pr|]. split; [apply Pr|]. split; [apply Co|]. split; [apply Co|].
    exists (fun _ => True), (fun _ => True). split; [exact spring_consistent|]. split; [exact mirrored_consistent|]. split; [auto|]. split; [|intros cu v _; apply filter_forall; auto].
    intros u. cbn. unfold turned, turnVector. cbn. ring.
  - intros w H [|i] Hi; [|cbn in Hi; lia]. specialize (H 0%nat Hi). cbn in H. lra.
  - apply (proj1 (proj2 C148_applies)).
  - split; [reflexivity|]. intros [|i] Hi; [|cbn in Hi; lia]. cbn. unfold zeroVector, zeroMatrix. lra.
Qed.

(** The spring with its two dofs exchanged *)
Example C174_numbering_applies x : let p := (fun i => match i with O => 1 | 1 => 0 | _ => i end)%nat in
  renumbering 2 p springFlags [false; true] x (fun i => x (p i)) /\ placed 2 spring /\
  forall y, regular [false; true] (map (renumbered p) spring) y /\ solved [false; true] (map (renumbered p) spring) Reduced springLinearSolver y.
Proof.
  intros p. split; [|split].
  - split; [auto|..].
    + intros [|[|i]]; cbn; lia.
    + intros [|[|i]] [|[|j]]; cbn; lia.
    + intros [|[|i]] Hi; [reflexivity|reflexivity|lia].
    + intros [|[|i]] Hi; [reflexivity|reflexivity|lia].
  - intros e [<-|[]]. split; [exists 2%nat, [[0; 1]]%nat; split; [reflexivity|split; [discriminate|intros l [<-|[]]; reflexivity]]|]. intros i Hi. cbn in Hi. intuition lia.
  - intros y. split.
    + intros w H [|i] Hi; [|cbn in Hi; lia]. specialize (H 0%nat Hi). cbn in H. unfold zeroMatrix in H. lra.
    + split; [reflexivity|]. intros [|i] Hi; [|cbn in Hi; lia]. cbn. unfold zeroVector, zeroMatrix. lra.
Qed.

(** C174 is false when the number given for the tolerance is the same: the spring which moves by 3 / 2 does not move when forces are given in other units *)
Theorem C174_tolerance_refuted :
  exists s s', structureSolve springFlags spring Reduced 0 springLinearSolver (fun _ _ _ _ (w : unit) => w) (mkNRSettings (/ 10) 5 0) (fun _ => 0) [] tt = Some s /\
    structureSolve springFlags coarseSpring Reduced 0 coarseSolver (fun _ _ _ _ (w : unit) => w) (mkNRSettings (/ 10) 5 0) (fun _ => 0) [] tt = Some s' /\
    i_success (s_info s) = true /\ i_success (s_info s') = true /\ s_d s 1%nat = 3 / 2 /\ s_d s' 1%nat = 0.
Proof.
  destruct C148_applies as (_ & _ & s & E & S1 & _ & X). exists s. rewrite E.
  assert (G : greater (norm (residualFunction springFlags coarseSpring Reduced (fun _ => 0))) (/ 10) = false).
  { rewrite coarse_residual. unfold greater, norm. cbn [fold_left]. destruct Rlt_dec as [L|]; [|reflexivity]. exfalso.
    replace (0 + (0 + (0 + / 100 * (0 + (2 * (0 - 0) - 3)))) * (0 + (0 + / 100 * (0 + (2 * (0 - 0) - 3))))) with ((3 / 100) * (3 / 100)) in L by field. rewrite sqrt_square in L by lra. lra. }
  unfold structureSolve, nrSolve. cbn [nr_maxIter nr_minIter]. change (Z.to_nat (Z.max 5 0)) with 5%nat.
  destruct (nrStart_spec 0 (fun _ => residualFunction springFlags coarseSpring Reduced) (fun _ => KFunction springFlags coarseSpring Reduced) norm None (fun _ _ (_ : list R) _ (w : unit) => w) (fun _ => 0) [] tt)
    as (s0 & rx & ax & rn & E0 & D0 & _ & S0 & _ & _ & _ & _ & _ & A0 & N0 & X0).
  rewrite E0. cbn [nrLoop]. unfold nrCond. cbn [nr_maxIter nr_minIter nr_tol]. rewrite N0, X0, G. change (0 <? 0)%Z with false. cbn [andb orb].
  eexists. split; [reflexivity|]. split; [reflexivity|]. split; [exact S1|]. unfold nrFinish. cbn [nr_maxIter]. change (0 =? 5)%Z with false. cbv iota. rewrite S0. cbn. rewrite D0. auto.
Qed.
Print Assumptions C174_same_run.
Print Assumptions C174_coordinates.
Print Assumptions C174_numbering.
Print Assumptions C174_skill.
Print Assumptions C174_units.
Print Assumptions C174_truss.
Print Assumptions C174_truss_elements.
Print Assumptions C174_solid.
Print Assumptions C174_tolerance_refuted.
