(** Property C162: structures whose matrix does not depend on the displacements. *)

From Coq Require Import List Arith ZArith Bool Reals Lia Lra.
From Coquelicot Require Import Coquelicot.
From Verif Require Import FEHelper_Model Assembler_Model Assembler_Spec Assembler_Proofs Assembler_Props Newton_Model Newton_Spec Newton_Proofs Newton_Props.
From Verif Require Import Tensor_Spec Conversions_Props Element_Spec Element_Model Element_Proofs Element_Props Truss_Model Truss_Props TrussSkill_Props
  AssemblyMesh_Model AssemblyMesh_Props StructureNewton_Model StructureNewton_Props Objectivity_Spec Objectivity_Props StructureReactions_Props.
Import ListNotations.
Local Open Scope R_scope.

(** ** Specification *)

(** w . K w for n entries *)
Definition form (n : nat) (K : nat -> nat -> R) (w : nat -> R) : R := sum n (fun i => w i * sum n (fun j => K i j * w j)).

Section Structure.
  Variables (flags : list bool) (mesh : list meshElement).
  Let n := length flags.

  Definition energyAt (U : nat -> R) : R := scalarEntry (answer flags mesh (RScalar U)).
  Definition forcesAt (U : nat -> R) : nat -> R := vectorEntries (answer flags mesh (RVector Raw U)).
  Definition matrixAt (U : nat -> R) : nat -> nat -> R := matrixEntries (answer flags mesh (RMatrix Raw U)).

  (** A mesh of good elements with the same raw matrix K in all states *)
  Definition linearMesh (K : nat -> nat -> R) : Prop :=
    (forall U e, In e mesh -> goodAt n U e) /\ forall U i j, (i < n)%nat -> (j < n)%nat -> matrixAt U i j = K i j.

  Definition plusV (U w : nat -> R) (i : nat) : R := U i + w i.
  (** w leaves the supports where they are *)
  Definition admissible (w : nat -> R) : Prop := forall i, constrained flags i -> w i = 0.
  (** the forces at the free dofs vanish *)
  Definition equilibrium (U : nat -> R) : Prop := forall i, free flags i -> forcesAt U i = 0.

  (** ** Proofs *)

  Lemma derive_at (f : R -> R) (x l l' : R) : is_derive f x l -> l = l' -> is_derive f x l'. Proof. now intros H <-. Qed.

  (** A function with a constant derivative *)
  Lemma affine (f : R -> R) a : (forall t, is_derive f t a) -> forall t, f t = f 0 + t * a.
  Proof.
    intros H t. assert (E : forall x, is_derive (fun s => f s - s * a) x 0).
    { intros x. apply (derive_at _ _ (a - a)); [|ring]. apply @is_derive_minus; [apply H|]. auto_derive; [auto|ring]. }
    assert (Q := fun x y => eq_is_derive (fun s => f s - s * a) x y).
    destruct (Req_dec t 0) as [->|N]; [ring|].
    assert (X : f 0 - 0 * a = f t - t * a).
    { destruct (Rtotal_order t 0) as [L|[L|L]]; [|contradiction|].
      - symmetry. apply (Q t 0); [intros; apply E|exact L].
      - apply (Q 0 t); [intros; apply E|exact L]. }
    lra.
  Qed.
  Lemma quadratic (f : R -> R) a b : (forall t, is_derive f t (a + t * b)) -> forall t, f t = f 0 + t * a + / 2 * t * t * b.
  Proof.
    intros H t. assert (E : forall x, is_derive (fun s => f s - / 2 * s * s * b) x a).
    { intros x. apply (derive_at _ _ ((a + x * b) - x * b)); [|ring]. apply @is_derive_minus; [apply H|].
      auto_derive; [auto|field]. }
    assert (Q := affine _ _ E t). cbv beta in Q. lra.
  Qed.

  (** From the rates at 0 to those at t *)
  Lemma shifted (f : R -> R) t l : is_derive (fun h => f (t + h)) 0 l -> is_derive f t l.
  Proof.
    intros H. apply (is_derive_ext (fun s => (fun h => f (t + h)) (s - t))); [intros s; f_equal; ring|].
    apply (derive_at _ _ (scal 1 l)); [|unfold scal; cbn; unfold mult; cbn; ring].
    apply (is_derive_comp (fun h => f (t + h)) (fun s => s - t)); [replace (t - t) with 0 by ring; exact H|].
    auto_derive; [auto|ring].
  Qed.

  Lemma line_passes U w t : passes n (fun h => along U w (t + h)) (along U w t) w.
  Proof.
    intros k _. unfold along. split; [f_equal; f_equal; ring|]. auto_derive; [auto|ring].
  Qed.

  Section Linear.
    Variable K : nat -> nat -> R.
    Hypothesis linear : linearMesh K.

    Lemma raw_consistent U : isGradient n energyAt (forcesAt U) U /\ isJacobian n n forcesAt (matrixAt U) U /\ symmetric n (matrixAt U).
    Proof. destruct (C147_raw flags mesh U (fun e He => proj1 linear U e He)) as (_ & _ & G). exact G. Qed.

    (** The state only matters at the dofs of the structure *)
    Lemma same_state U1 U2 : (forall i, (i < n)%nat -> U1 i = U2 i) -> energyAt U1 = energyAt U2 /\ forall i, (i < n)%nat -> forcesAt U1 i = forcesAt U2 i.
    Proof.
      intros E. destruct (raw_consistent U2) as (G & J & _). split; [apply (gradient_value n energyAt _ U2 U1 G E)|].
      intros i Hi. apply (gradient_value n (fun y => forcesAt y i) _ U2 U1 (J i Hi) E).
    Qed.

    (** C162: forces are affine and the energy is a quadratic function of the displacements *)
    Theorem C162_quadratic U w :
      (forall i, (i < n)%nat -> forcesAt (plusV U w) i = forcesAt U i + sum n (fun j => K i j * w j)) /\
      energyAt (plusV U w) = energyAt U + dot n (forcesAt U) w + / 2 * form n K w /\
      symmetric n K.
    Proof.
      assert (Fl : forall t i, (i < n)%nat -> forcesAt (along U w t) i = forcesAt (along U w 0) i + t * sum n (fun j => K i j * w j)).
      { intros t i Hi. apply (affine (fun s => forcesAt (along U w s) i)). intros s. apply shifted.
        apply (derive_eq _ (dot n (matrixAt (along U w s) i) w)).
        - apply (proj1 (proj2 (raw_consistent (along U w s))) i Hi (fun h => along U w (s + h)) w (line_passes U w s)).
        - apply sum_ext. intros j Hj. now rewrite (proj2 linear). }
      assert (El : forall t, energyAt (along U w t) = energyAt (along U w 0) + t * dot n (forcesAt (along U w 0)) w + / 2 * t * t * form n K w).
      { intros t. apply (quadratic (fun s => energyAt (along U w s))). intros s. apply shifted.
        apply (derive_eq _ (dot n (forcesAt (along U w s)) w)).
        - apply (proj1 (raw_consistent (along U w s)) (fun h => along U w (s + h)) w (line_passes U w s)).
        - unfold dot, form. rewrite <- sum_mul_l, <- sum_add. apply sum_ext. intros i Hi. rewrite Fl by exact Hi. ring. }
      destruct (same_state (along U w 0) U) as [V1 V2]; [intros i _; unfold along; ring|].
      destruct (same_state (along U w 1) (plusV U w)) as [V3 V4]; [intros i _; unfold along, plusV; ring|].
      split; [|split].
      - intros i Hi. rewrite <- V4, <- V2, Fl by assumption. ring.
      - rewrite <- V3, <- V1, El. assert (E0 : dot n (forcesAt (along U w 0)) w = dot n (forcesAt U) w) by (apply sum_ext; intros; now rewrite V2).
        rewrite E0. field.
      - intros i j Hi Hj. rewrite <- !(proj2 linear U) by assumption. apply raw_consistent; assumption.
    Qed.

    Lemma admissible_work U w : admissible w ->
      dot n (forcesAt U) w = dot n (vectorEntries (answer flags mesh (RVector Full U))) w.
    Proof.
      intros A. assert (Rg : forall e, In e mesh -> forall i, In i (me_dofs e) -> (i < n)%nat) by (intros e He; apply (proj1 linear U e He)).
      apply sum_ext. intros i Hi. destruct (full_entries flags mesh U i Rg Hi) as [X1 X2].
      destruct (free_or_constrained flags i Hi) as [Fi|Ci]; [destruct (X2 Fi) as [-> _]; reflexivity|rewrite (A i Ci); ring].
    Qed.

    (** C162: a state in equilibrium has the least energy of all states with the same supports, if no admissible motion has a negative form *)
    Theorem C162_minimum U w : (forall v, admissible v -> 0 <= form n K v) -> equilibrium U -> admissible w -> energyAt U <= energyAt (plusV U w).
    Proof.
      intros P Eq A. destruct (C162_quadratic U w) as (_ & -> & _).
      assert (Z : dot n (forcesAt U) w = 0).
      { apply sum_zero. intros i Hi. destruct (free_or_constrained flags i Hi) as [Fi|Ci]; [rewrite (Eq i Fi)|rewrite (A i Ci)]; ring. }
      rewrite Z. specialize (P w A). lra.
    Qed.

    (** C162: two states in equilibrium with the same supports differ by a motion with vanishing form; there is only one if it is definite *)
    Theorem C162_unique U w : equilibrium U -> equilibrium (plusV U w) -> admissible w -> form n K w = 0 /\ energyAt (plusV U w) = energyAt U.
    Proof.
      intros E1 E2 A. destruct (C162_quadratic U w) as (F & En & _).
      assert (Z : dot n (forcesAt U) w = 0).
      { apply sum_zero. intros i Hi. destruct (free_or_constrained flags i Hi) as [Fi|Ci]; [rewrite (E1 i Fi)|rewrite (A i Ci)]; ring. }
      assert (Z2 : form n K w = 0).
      { unfold form. apply sum_zero. intros i Hi. destruct (free_or_constrained flags i Hi) as [Fi|Ci]; [|rewrite (A i Ci); ring].
        specialize (F i Hi). rewrite (E1 i Fi), (E2 i Fi) in F. rewrite <- (Rplus_0_l (sum n (fun j => K i j * w j))), <- F. ring. }
      split; [exact Z2|]. rewrite En, Z, Z2. ring.
    Qed.

    (** C162: if the supports do not move, the elastic energy of the state in equilibrium is half the work of the loads *)
    Theorem C162_clapeyron U : equilibrium U -> admissible U ->
      form n K U = - dot n (forcesAt (fun _ => 0)) U /\ energyAt U = energyAt (fun _ => 0) - / 2 * form n K U.
    Proof.
      intros Eq A. destruct (C162_quadratic (fun _ => 0) U) as (F & En & _).
      destruct (same_state (plusV (fun _ => 0) U) U) as [V1 V2]; [intros; unfold plusV; ring|]. rewrite V1 in En.
      assert (Z : form n K U = - dot n (forcesAt (fun _ => 0)) U).
      { unfold form, dot. rewrite <- (Rmult_1_l (sum n (fun k => forcesAt (fun _ => 0) k * U k))), <- Ropp_mult_distr_l_reverse, <- sum_mul_l.
        apply sum_ext. intros i Hi. destruct (free_or_constrained flags i Hi) as [Fi|Ci]; [|rewrite (A i Ci); ring].
        specialize (F i Hi). rewrite V2, (Eq i Fi) in F by exact Hi. replace (sum n (fun j => K i j * U j)) with (- forcesAt (fun _ => 0) i) by lra. ring. }
      split; [exact Z|]. rewrite En, Z. field.
    Qed.

    (** C162: what the Newton solver reports is within its tolerance of the least energy *)
    Theorem C162_solver W o inf lsolve (listen : nlmsg -> nlinfo R -> list R -> (nat -> R) -> W -> W) st st' y0 c x s :
      o <> Raw -> nrSetup st = Some st' -> (0 <= nr_maxIter st)%Z ->
      structureSolve flags mesh o inf lsolve listen st' y0 c x = Some s -> i_success (s_info s) = true ->
      (forall v, admissible v -> 0 <= form n K v) ->
      forall w, admissible w -> energyAt (s_d s) <= energyAt (plusV (s_d s) w) + nr_tol st * sqrt (dot n w w).
    Proof.
      intros Ho St M H S P w A. destruct (C162_quadratic (s_d s) w) as (_ & -> & _). specialize (P w A).
      assert (B : Rabs (dot n (forcesAt (s_d s)) w) <= nr_tol st * sqrt (dot n w w)).
      { rewrite (admissible_work _ _ A).
        assert (Rg : forall e, In e mesh -> forall i, In i (me_dofs e) -> (i < n)%nat) by (intros e He; apply (proj1 linear (s_d s) e He)).
        destruct (C17_success_converged_partial greater inf _ _ norm norm lsolve (updateFunctor flags o) None listen st st' y0 c x s St M (or_introl eq_refl) H S)
          as (N & (w1 & Er & _) & _ & _).
        rewrite Er, (residual_norm flags mesh o Ho (s_d s) Rg) in N. unfold greater in N. destruct Rlt_dec as [|N']; [discriminate|]. apply Rnot_lt_le in N'.
        eapply Rle_trans; [apply cauchy_schwarz|]. apply Rmult_le_compat_r; [apply sqrt_pos|exact N']. }
      unfold Rabs in B. destruct Rcase_abs; lra.
    Qed.

    (** C162: one Newton step whose linear system is solved reaches equilibrium *)
    Theorem C162_one_step o lsolve y : o <> Raw -> solved flags mesh o lsolve y ->
      equilibrium (updateFunctor flags o y (lsolve (KFunction flags mesh o y) (residualFunction flags mesh o y))).
    Proof.
      intros Ho [L Sol]. set (cc := lsolve _ _) in *. clearbody cc.
      assert (Rg : forall e, In e mesh -> forall i, In i (me_dofs e) -> (i < n)%nat) by (intros e He; apply (proj1 linear y e He)).
      assert (W0 : wfElements n (toElements n mesh)) by (apply wf_any, Rg).
      assert (Fin : forall m, (forall i, (i < n)%nat -> updateFunctor flags o y cc i = plusV y m i) ->
        (forall i, free flags i -> sum n (fun j => K i j * m j) = - forcesAt y i) -> equilibrium (updateFunctor flags o y cc)).
      { intros m E F i Fi. assert (Hi : (i < n)%nat) by (apply free_lt, Fi). destruct (same_state _ _ E) as [_ V]. rewrite V by exact Hi.
        destruct (C162_quadratic y m) as (Q & _). rewrite Q, F by assumption. ring. }
      destruct o eqn:Eo; [contradiction|..].
      - (* Reduced *)
        apply (Fin (fun i => if nth i flags true then 0 else nth (rank flags i) cc 0)).
        + intros i Hi. unfold updateFunctor. cbn [andb]. rewrite L, Nat.eqb_refl. unfold plusVector, plusV. f_equal.
          destruct (createFullVector_spec 0 flags cc L) as (v & E & Lv & Kc & Fr). rewrite E. destruct (free_or_constrained flags i Hi) as [Fi|Ci].
          * rewrite (nth_error_nth flags i true Fi). apply nth_error_nth. rewrite Fr by assumption. change (rk flags i) with (rank flags i).
            apply nth_error_nth'. rewrite L. apply rk_lt; assumption.
          * rewrite (nth_error_nth flags i true Ci). apply nth_error_nth, Kc, Ci.
        + intros i Fi. assert (Hi : (i < n)%nat) by (apply free_lt, Fi).
          destruct (C05_reduced_dense _ _ 0 Rplus flags _ y W0) as (rawM & M & Em & Em' & Rr & C' & V).
          assert (EK : KFunction flags mesh Reduced y = Some (ODense M)) by (unfold KFunction, answer; cbn [denseRequest]; fold n; rewrite Em'; reflexivity).
          assert (EM : forall j, free flags j -> matrixEntries (KFunction flags mesh Reduced y) (rank flags i) (rank flags j) = K i j).
          { intros j Fj. rewrite EK. cbn [matrixEntries]. rewrite V by assumption. rewrite <- (proj2 linear y) by (try apply free_lt; assumption).
            unfold matrixAt, answer. cbn [denseRequest]. fold n. rewrite Em. reflexivity. }
          unfold n. rewrite (sum_free flags (K i) (matrixEntries (KFunction flags mesh Reduced y) (rank flags i)) (fun k => nth k cc 0) EM).
          rewrite Sol by (apply rk_lt; assumption). f_equal.
          destruct (full_entries flags mesh y i Rg Hi) as [_ X]. destruct (X Fi) as [X1 X2]. rewrite X1 in X2. unfold forcesAt. rewrite <- X2.
          unfold residualFunction, vectorEntries. destruct (answer flags mesh (RVector Reduced y)) as [[| | |]|]; try reflexivity; destruct (rank flags i); reflexivity.
      - (* Full *)
        destruct (C05_full_dense _ _ 0 1 Rplus flags _ y W0) as (rawM & M & Em & Em' & Rr & C' & VF & VD & VC).
        assert (EK : KFunction flags mesh Full y = Some (ODense M)) by (unfold KFunction, answer; cbn [denseRequest]; fold n; rewrite Em'; reflexivity).
        assert (ER : forall i, nth i (residualFunction flags mesh Full y) 0 = vectorEntries (answer flags mesh (RVector Full y)) i).
        { intros i. unfold residualFunction, vectorEntries. destruct (answer flags mesh (RVector Full y)) as [[| | |]|]; try reflexivity; destruct i; reflexivity. }
        apply (Fin (fun i => nth i cc 0)).
        + intros i Hi. unfold updateFunctor. cbn [andb]. fold n. destruct (_ && _) eqn:B; [|reflexivity].
          unfold plusVector, plusV. rewrite createReducedVector_spec by exact L. do 2 f_equal.
          apply andb_prop in B as [B _]. apply Nat.eqb_eq in B. rewrite reducedSize_nFree in B. assert (X := size_split flags). fold n in X.
          assert (Z : nConstrained flags = 0%nat) by lia. clear - Z L. revert cc L. unfold nConstrained in Z.
          induction flags as [|b l IH]; intros [|x cc] L; try reflexivity; try discriminate. cbn in Z. destruct b; [discriminate|]. cbn. f_equal. apply IH; [exact Z|].
          cbn in L. congruence.
        + intros i Fi. assert (Hi : (i < n)%nat) by (apply free_lt, Fi).
          destruct (full_entries flags mesh y i Rg Hi) as [_ X]. destruct (X Fi) as [X1 _]. unfold forcesAt. rewrite <- X1, <- ER, <- Sol by exact Hi. fold n.
          apply sum_ext. intros j Hj. destruct (free_or_constrained flags j Hj) as [Fj|Cj].
          * f_equal. rewrite EK. cbn [matrixEntries]. rewrite VF by assumption. rewrite <- (proj2 linear y) by assumption.
            unfold matrixAt, answer. cbn [denseRequest]. fold n. rewrite Em. reflexivity.
          * assert (Z : nth j cc 0 = 0); [|rewrite Z; ring].
            assert (Sj := Sol j Hj). rewrite EK, ER in Sj. destruct (full_entries flags mesh y j Rg Hj) as [Y _]. rewrite (Y Cj) in Sj.
            rewrite (sum_pick n j) in Sj; [|exact Hj|intros k Hk Nk; cbn [matrixEntries]; rewrite VC by auto; ring].
            cbn [matrixEntries] in Sj. rewrite (VD j Cj) in Sj. lra.
    Qed.
  End Linear.
End Structure.
Print Assumptions C162_quadratic.
Print Assumptions C162_minimum.
Print Assumptions C162_unique.
Print Assumptions C162_clapeyron.
Print Assumptions C162_solver.
Print Assumptions C162_one_step.

(** ** Linear solids under dead loads *)

(** A linear solid of dimension d with the elastic energy given by el, and volume loads (boundary loads are the same, C97) *)
Definition linearSolid (d n : nat) (e : meshElement) (el : skill) : Prop :=
  exists nodes points dN C loads,
    el = linearSkill d nodes (voigtLength d) points (smallStrain d nodes dN) (smallBop d dN) C /\ me_skill e = mixin (el :: loads) /\
    (forall sk, In sk loads -> exists shape load pts lambda, sk = volumeSkill d nodes shape load pts lambda) /\
    symmetric (voigtLength d) C /\ (forall v, 0 <= form (voigtLength d) C v) /\
    (forall gp, In gp points -> 0 <= integrationElement gp * weight gp) /\
    length (me_dofs e) = (d * nodes)%nat /\ (forall i, In i (me_dofs e) -> (i < n)%nat) /\
    exists m ls, me_children e = map Leaf ls /\ ls <> [] /\ forall l, In l ls -> length l = m.

Lemma sumP_mul_l {A} (l : list A) c f : sumP l (fun x => c * f x) = c * sumP l f.
Proof. induction l as [|x l IH]; cbn; [ring|]. rewrite IH. ring. Qed.

Lemma classicV s (v : nat -> R) : (forall m, (m < s)%nat -> v m = 0) \/ exists m, (m < s)%nat /\ v m <> 0.
Proof.
  induction s as [|s [IH|(m & Hm & IH)]]; [left; intros; lia| |right; exists m; split; [lia|exact IH]].
  destruct (Req_dec (v s) 0) as [E|E]; [left|right; exists s; split; [lia|exact E]].
  intros m Hm. destruct (Nat.eq_dec m s) as [->|]; [exact E|apply IH; lia].
Qed.

Section Solids.
  Variable d : nat.
  Hypothesis d3 : (0 < d <= 3)%nat.

  Lemma strain_of_bop nodes dN gp w m :
    smallStrain d nodes dN gp w m = sum (d * nodes) (fun k => smallBop d dN gp w (k / d) m (k mod d) * w k).
  Proof.
    assert (E : forall a b, (a < d)%nat -> displacementGradientOf d nodes (dN gp) w a b = sum (d * nodes) (fun k => identity (k mod d) a * dN gp (k / d)%nat b * w k)).
    { intros a b Ha. unfold displacementGradientOf. rewrite sum_blocks. apply sum_ext. intros i _.
      rewrite (sum_pick d a); [destruct (block_index d i a Ha) as (-> & ->); unfold identity; rewrite Nat.eqb_refl; ring|exact Ha|].
      intros b' Hb Nb. destruct (block_index d i b' Hb) as (-> & ->). unfold identity. destruct (Nat.eqb_spec b' a); [contradiction|ring]. }
    unfold smallStrain, smallBop, strainVector. destruct (component_bound d nodes (proj1 d3) m (proj2 d3)) as (Ha & Hb).
    destruct (component d m) as (a, b). cbn [fst snd] in *. rewrite !E by assumption.
    destruct (a =? b)%nat; rewrite <- sum_add, <- !sum_mul_l; apply sum_ext; intros; ring.
  Qed.

  (** C162: the form of the matrix is twice the elastic energy *)
  Theorem C162_solid_form nodes points dN C u w :
    form (d * nodes) (linearMatrix d nodes (voigtLength d) points (smallStrain d nodes dN) (smallBop d dN) (fun _ => C) false u zeroMatrix) w =
    2 * linearScalar (voigtLength d) points (smallStrain d nodes dN) (fun _ => C) false w.
  Proof.
    set (s := voigtLength d). cbn [linearScalar]. rewrite energy_sum, <- sumP_mul_l.
    assert (E : forall gp, 2 * (linearEnergy s (fun _ => C) (smallStrain d nodes dN gp w) * vol gp) =
      sum (d * nodes) (fun k => sum (d * nodes) (fun l => w k * (sum s (fun p => sum s (fun q => smallBop d dN gp u (k / d) p (k mod d) * C p q * smallBop d dN gp u (l / d) q (l mod d))) * vol gp * w l)))).
    { intros gp. unfold linearEnergy, dot, apply.
      transitivity (sum s (fun p => sum s (fun q => C p q * smallStrain d nodes dN gp w p * smallStrain d nodes dN gp w q)) * vol gp).
      - replace (2 * (1 / 2 * sum s (fun k => smallStrain d nodes dN gp w k * sum s (fun l => C k l * smallStrain d nodes dN gp w l)) * vol gp))
          with (sum s (fun k => smallStrain d nodes dN gp w k * sum s (fun l => C k l * smallStrain d nodes dN gp w l)) * vol gp) by field.
        f_equal. apply sum_ext. intros p _. rewrite <- sum_mul_l. apply sum_ext. intros. ring.
      - symmetry.
        rewrite (sum_ext (d * nodes) _ (fun k => sum s (fun p => sum s (fun q => C p q * (smallBop d dN gp w (k / d) p (k mod d) * w k) * smallStrain d nodes dN gp w q)) * vol gp)).
        + rewrite sum_mul_r. f_equal. rewrite sum_swap. apply sum_ext. intros p _. rewrite sum_swap. apply sum_ext. intros q _.
          rewrite (strain_of_bop nodes dN gp w p) at 1. rewrite sum_mul_r, sum_mul_l. ring.
        + intros k _. rewrite (sum_ext (d * nodes) _ (fun l => sum s (fun p => sum s (fun q => C p q * (smallBop d dN gp w (k / d) p (k mod d) * w k) * (smallBop d dN gp w (l / d) q (l mod d) * w l))) * vol gp)).
          * rewrite sum_mul_r. f_equal. rewrite sum_swap. apply sum_ext. intros p _. rewrite sum_swap. apply sum_ext. intros q _.
            rewrite sum_mul_l. f_equal. symmetry. apply strain_of_bop.
          * intros l _. rewrite <- !sum_mul_r, <- sum_mul_l. apply sum_ext. intros p _. rewrite <- !sum_mul_r, <- sum_mul_l. apply sum_ext. intros q _. unfold smallBop. ring. }
    rewrite (sumP_ext points _ _ (fun gp _ => E gp)). unfold form.
    rewrite sumP_swap. apply sum_ext. intros k Hk. rewrite sumP_swap, <- sum_mul_l. apply sum_ext. intros l Hl.
    rewrite linear_matrix_sum by (try assumption; apply d3). unfold zeroMatrix. rewrite Rplus_0_l, <- sumP_mul_r, <- sumP_mul_l. reflexivity.
  Qed.

  (** C162: with a positive definite material, displacements without elastic energy cause no strains *)
  Theorem C162_no_energy nodes points dN C w : (forall v, (exists m, (m < voigtLength d)%nat /\ v m <> 0) -> 0 < form (voigtLength d) C v) ->
    (forall gp, In gp points -> 0 < integrationElement gp * weight gp) ->
    skillScalar (linearSkill d nodes (voigtLength d) points (smallStrain d nodes dN) (smallBop d dN) C) w = 0 ->
    forall gp m, In gp points -> (m < voigtLength d)%nat -> smallStrain d nodes dN gp w m = 0.
  Proof.
    intros Pd Vo. cbn [linearSkill skillScalar linearScalar]. rewrite energy_sum. revert Vo.
    set (s := voigtLength d) in *.
    assert (Ps : forall v, 0 <= form s C v /\ (form s C v = 0 -> forall m, (m < s)%nat -> v m = 0)).
    { intros v. destruct (classicV s v) as [No|Ex].
      - split; [|auto]. apply Req_le. symmetry. apply sum_zero. intros i Hi. rewrite (No i Hi). ring.
      - specialize (Pd v Ex). split; [lra|]. intros Z. lra. }
    induction points as [|g l IH]; intros Vo Z gp m Hgp Hm; [contradiction|]. cbn [sumP] in Z.
    assert (X : forall l, (forall gp, In gp l -> 0 < integrationElement gp * weight gp) -> 0 <= sumP l (fun gp => linearEnergy s (fun _ => C) (smallStrain d nodes dN gp w) * vol gp)).
    { clear - Ps. induction l as [|g l IH]; intros Vo; cbn [sumP]; [lra|]. apply Rplus_le_le_0_compat; [|apply IH; intros; apply Vo; now right].
      apply Rmult_le_pos; [|apply Rlt_le, Vo; now left]. apply Rmult_le_pos; [lra|]. apply (Ps (smallStrain d nodes dN g w)). }
    assert (Vg := Vo g (or_introl eq_refl)). fold (vol g) in Vg.
    assert (Y := proj1 (Ps (smallStrain d nodes dN g w))).
    assert (Eg : linearEnergy s (fun _ => C) (smallStrain d nodes dN g w) = / 2 * form s C (smallStrain d nodes dN g w)) by (unfold linearEnergy, form, dot, apply; field).
    assert (Xl := X l (fun gp H => Vo gp (or_intror H))). rewrite Eg in Z.
    assert (Pos : 0 <= / 2 * form s C (smallStrain d nodes dN g w) * vol g) by (apply Rmult_le_pos; [lra|lra]).
    assert (Zg : / 2 * form s C (smallStrain d nodes dN g w) * vol g = 0) by lra.
    destruct Hgp as [<-|Hgp].
    - apply (proj2 (Ps (smallStrain d nodes dN g w))); [|exact Hm]. apply Rmult_integral in Zg as [Zg|Zg]; lra.
    - apply IH; [intros; apply Vo; now right|lra|assumption..].
  Qed.

  Variables (flags : list bool) (mesh : list meshElement) (elastic : meshElement -> skill).
  Let n := length flags.
  Hypothesis solids : forall e, In e mesh -> linearSolid d n e (elastic e).

  Lemma solid_consistent e : In e mesh -> exists nodes points dN C,
    length (me_dofs e) = (d * nodes)%nat /\
    elastic e = linearSkill d nodes (voigtLength d) points (smallStrain d nodes dN) (smallBop d dN) C /\
    consistentSkill (d * nodes) (fun _ => True) (me_skill e) /\
    (forall u k l, (k < d * nodes)%nat -> (l < d * nodes)%nat -> skillMatrix (me_skill e) u zeroMatrix k l = skillMatrix (elastic e) zeroVector zeroMatrix k l) /\
    (forall v, 0 <= skillScalar (elastic e) v) /\
    (forall v, form (d * nodes) (skillMatrix (elastic e) zeroVector zeroMatrix) v = 2 * skillScalar (elastic e) v).
  Proof.
    intros He. destruct (solids e He) as (nodes & points & dN & C & loads & El & Sk & Lo & Sy & Ps & Vo & Le & _ & _).
    exists nodes, points, dN, C. split; [exact Le|]. split; [exact El|].
    assert (Cs : List.Forall (consistentSkill (d * nodes) (fun _ => True)) (elastic e :: loads)).
    { constructor.
      - rewrite El. apply C101_linear_solid; [apply d3|exact Sy|]. intros gp _. apply small_linearStrain, d3.
      - apply Forall_forall. intros sk Hsk. destruct (Lo sk Hsk) as (sh & ld & pts & la & ->). apply C101_load, d3. }
    split; [rewrite Sk; apply C101_composition, Cs|]. split; [|split].
    - intros u k l Hk Hl. rewrite Sk. cbn [mixin skillMatrix].
      rewrite (mixinMatrix_sum (d * nodes) (fun _ => True) _ u Cs I zeroMatrix (symmetric_zero _)) by assumption. cbn [sumP].
      rewrite (sumP_zero loads) by (intros sk Hsk; destruct (Lo sk Hsk) as (sh & ld & pts & la & ->); reflexivity).
      rewrite El. cbn [linearSkill skillMatrix]. unfold zeroMatrix at 1. rewrite !linear_matrix_sum by (try assumption; apply d3). rewrite Rplus_0_l, Rplus_0_r. reflexivity.
    - intros v. rewrite El. cbn [linearSkill skillScalar linearScalar]. rewrite energy_sum.
      assert (P : forall l, (forall gp, In gp l -> In gp points) -> 0 <= sumP l (fun gp => linearEnergy (voigtLength d) (fun _ => C) (smallStrain d nodes dN gp v) * vol gp)).
      { induction l as [|gp l IH]; intros Hl; cbn [sumP]; [lra|]. specialize (IH (fun g Hg => Hl g (or_intror Hg))).
        assert (X := Vo gp (Hl gp (or_introl eq_refl))). fold (vol gp) in X. assert (Y := Ps (smallStrain d nodes dN gp v)).
        unfold form in Y. apply Rplus_le_le_0_compat; [|exact IH]. apply Rmult_le_pos; [|exact X]. apply Rmult_le_pos; [lra|exact Y]. }
      apply P. auto.
    - intros v. rewrite El. cbn [linearSkill skillMatrix skillScalar]. apply C162_solid_form.
  Qed.

  Lemma solid_good U e : In e mesh -> goodAt n U e.
  Proof.
    intros He. destruct (solid_consistent e He) as (nodes & points & dN & C & Le & _ & Co & _).
    destruct (solids e He) as (? & ? & ? & ? & ? & _ & _ & _ & _ & _ & _ & _ & Rg & Pb).
    split; [exact Pb|]. split; [exact Rg|]. exists (fun _ => True). split; [rewrite Le; exact Co|]. split; auto.
  Qed.

  (** C162: an assembly of linear solids under dead loads is linear, and the form of its matrix is twice the elastic energy of its elements *)
  Theorem C162_solids : exists K, linearMesh flags mesh K /\
    forall w, form n K w = 2 * sumP mesh (fun e => skillScalar (elastic e) (localOf n e w)) /\ 0 <= form n K w.
  Proof.
    set (K := fun r c => sumP mesh (fun e => sum (length (me_dofs e)) (fun k => sum (length (me_dofs e)) (fun l =>
      if (dofOf e k =? r)%nat && (dofOf e l =? c)%nat then skillMatrix (elastic e) zeroVector zeroMatrix k l else 0)))).
    exists K. split.
    - split; [apply solid_good|]. intros U i j Hi Hj.
      assert (W : wfElements n (toElements n mesh)) by (apply (mesh_wf n mesh U), (fun e He => solid_good U e He)).
      destruct (C03_matrix_dense _ _ 0 1 Rplus flags _ U W) as (M & E' & _ & _ & V').
      unfold matrixAt, answer. fold n. rewrite E'. cbn [matrixEntries]. rewrite V' by assumption. rewrite matEntry_sum. unfold K. apply sumP_ext. intros e He.
      destruct (solid_consistent e He) as (nodes & points & dN & C & Le & _ & _ & Mx & _). rewrite Le.
      apply sum_ext. intros k Hk. apply sum_ext. intros l Hl. destruct (_ && _); [|reflexivity]. unfold matrixOf. apply Mx; assumption.
    - intros w.
      assert (F : form n K w = 2 * sumP mesh (fun e => skillScalar (elastic e) (localOf n e w))).
      { rewrite <- sumP_mul_l. unfold form, K.
        rewrite (sum_ext n _ (fun i => sumP mesh (fun e => sum (length (me_dofs e)) (fun k => sum (length (me_dofs e)) (fun l => 
          if (dofOf e k =? i)%nat then w i * (skillMatrix (elastic e) zeroVector zeroMatrix k l * w (dofOf e l)) else 0))))).
        - rewrite <- sumP_swap. apply sumP_ext. intros e He.
          destruct (solid_consistent e He) as (nodes & points & dN & C & Le & _ & _ & _ & _ & Fo). rewrite <- Fo. unfold form. rewrite Le.
          assert (Lo : forall k, (k < d * nodes)%nat -> localOf n e w k = w (dofOf e k)).
          { intros k Hk. apply localOf_dofs; [apply (solid_good w e He)|apply (solid_good w e He)|rewrite Le; exact Hk]. }
          rewrite sum_swap. apply sum_ext. intros k Hk. rewrite sum_swap, Lo by assumption. rewrite <- sum_mul_l. apply sum_ext. intros l Hl. rewrite Lo by assumption.
          rewrite (sum_indicator n (dofOf e k) (fun i => w i * (skillMatrix (elastic e) zeroVector zeroMatrix k l * w (dofOf e l)))); [reflexivity|].
          apply (solid_good w e He), nth_In. rewrite Le. exact Hk.
        - intros i Hi.
          rewrite (sum_ext n _ (fun j => sumP mesh (fun e => sum (length (me_dofs e)) (fun k => sum (length (me_dofs e)) (fun l =>
            if (dofOf e k =? i)%nat && (dofOf e l =? j)%nat then skillMatrix (elastic e) zeroVector zeroMatrix k l * w j else 0))))).
          + rewrite <- sumP_swap, <- sumP_mul_l. apply sumP_ext. intros e He. rewrite sum_swap, <- sum_mul_l. apply sum_ext. intros k Hk. rewrite sum_swap, <- sum_mul_l.
            apply sum_ext. intros l Hl. destruct (dofOf e k =? i)%nat; cbn [andb]; [|rewrite sum_zero by reflexivity; ring].
            rewrite (sum_indicator n (dofOf e l) (fun j => skillMatrix (elastic e) zeroVector zeroMatrix k l * w j)); [reflexivity|].
            apply (solid_good w e He), nth_In, Hl.
          + intros j _. rewrite <- sumP_mul_r. apply sumP_ext. intros e _. rewrite <- sum_mul_r. apply sum_ext. intros k _. rewrite <- sum_mul_r. apply sum_ext. intros l _.
            destruct (_ && _); ring. }
      split; [exact F|]. rewrite F. apply Rmult_le_pos; [lra|].
      assert (P : forall l, (forall e, In e l -> In e mesh) -> 0 <= sumP l (fun e => skillScalar (elastic e) (localOf n e w))).
      { induction l as [|e l IH]; intros Hl; cbn [sumP]; [lra|]. specialize (IH (fun g Hg => Hl g (or_intror Hg))).
        destruct (solid_consistent e (Hl e (or_introl eq_refl))) as (_ & _ & _ & _ & _ & _ & _ & _ & Po & _). specialize (Po (localOf n e w)). lra. }
      apply P. auto.
  Qed.
End Solids.
Print Assumptions C162_solid_form.
Print Assumptions C162_no_energy.
Print Assumptions C162_solids.

(** The rod under its weight, fixed at its first node: in equilibrium its second node is displaced by 3/2 *)
Example C162_applies :
  (forall e, In e rod -> linearSolid 1 2 e rodElastic) /\
  let U i := match i with O => 0 | _ => 3 / 2 end in
  equilibrium springFlags rod U /\ admissible springFlags U /\ energyAt springFlags rod U < energyAt springFlags rod (fun _ => 0).
Proof.
  split; [|intros U; split; [|split]].
  - intros e [<-|[]]. exists 2%nat, [rodPoint], rodDN, (fun _ _ => 2), [rodLoad]. split; [reflexivity|]. split; [reflexivity|].
    split; [intros sk [<-|[]]; do 4 eexists; reflexivity|]. split; [intros i j _ _; reflexivity|].
    split; [intros v; unfold form; cbn; nra|]. split; [intros gp [<-|[]]; cbn; lra|]. split; [reflexivity|].
    split; [cbn; intros i Hi; intuition lia|]. exists 2%nat, [[0; 1]]%nat. split; [reflexivity|split; [discriminate|intros l [<-|[]]; reflexivity]].
  - intros i Fi. assert (Hi := free_lt _ _ Fi). destruct i as [|[|i]]; [discriminate Fi| |cbn in Hi; lia].
    unfold forcesAt, answer. cbn. unfold pointForce, addSegment, internalForces, linearStress_, apply, displacementDerivative, localOf. cbn.
    unfold smallStrain, smallBop, strainVector, displacementGradientOf, identity, rodDN. cbn. field.
  - intros i Ci. destruct i as [|[|i]]; [reflexivity|discriminate Ci|]. destruct i; discriminate Ci.
  - unfold energyAt, answer. cbn. unfold pointEnergy, linearEnergy, dot, apply, localOf. cbn.
    unfold smallStrain, strainVector, displacementGradientOf, rodDN. cbn. lra.
Qed.
