(** Property C159: what a trust-region solve of a structure does to its energy and its supports, and what its residual means. *)

From Coq Require Import List Arith ZArith Bool Reals Lia Lra FunctionalExtensionality.
From Coquelicot Require Import Coquelicot.
From Verif Require Import FEHelper_Model Assembler_Model Assembler_Spec Assembler_Proofs Assembler_Props Newton_Model TCG_Model TrustRegion_Model TrustRegion_Spec
  TrustRegion_Proofs TrustRegionReal_Proofs TrustRegion_Props.
From Verif Require Import Tensor_Spec Conversions_Props Element_Spec Element_Model Element_Proofs Element_Props AssemblyMesh_Model AssemblyMesh_Props StructureNewton_Model
  StructureNewton_Props StructureTrust_Model.
Import ListNotations.
Local Open Scope R_scope.

(** ** The inner solver stays in every subspace that contains the data *)
Section Subspace.
  Context {T V : Type}.
  Variables (t0 t2 : T) (tadd tsub tmul tdiv : T -> T -> T) (topp tsqrt : T -> T) (tltb tleb : T -> T -> bool) (tiny : T).
  Variables (vzero : V) (vadd vsub : V -> V -> V) (vscale : T -> V -> V) (dot : V -> V -> T) (mat precond : V -> V).
  Variable P : V -> Prop.
  Hypothesis Pz : P vzero.
  Hypothesis Pa : forall u v, P u -> P v -> P (vadd u v).
  Hypothesis Ps : forall u v, P u -> P v -> P (vsub u v).
  Hypothesis Pc : forall c u, P u -> P (vscale c u).
  Hypothesis Pm : forall u, P u -> P (mat u).
  Hypothesis Pp : forall u, P u -> P (precond u).

  Lemma tcgLoop_subspace fuel maxIters rhsNorm2 threshold info : forall i s, P (ts_x s) -> P (ts_r s) -> P (ts_p s) ->
    P (fst (fst (tcgLoop t0 t2 tadd tsub tmul tdiv topp tsqrt tltb tleb vadd vsub vscale dot mat precond fuel maxIters i rhsNorm2 threshold info s))).
  Proof.
    induction fuel as [|fuel IH]; intros i s Hx Hr Hp; cbn [tcgLoop]; [exact Hx|].
    destruct (i <? maxIters)%Z; [|exact Hx]. cbv zeta. destruct (_ || _); [cbn; auto|].
    match goal with |- context [if ?b then (_, _, if _ then reachedTargetResidualKappaLinear else _) else _] => destruct b end; [cbn; auto|].
    destruct (tltb _ threshold); [cbn; auto|]. apply IH; cbn; auto 10.
  Qed.

  Lemma tcg_subspace maxIters tol rhs x0 info : P rhs -> P x0 ->
    P (fst (tcg t0 t2 tadd tsub tmul tdiv topp tsqrt tltb tleb tiny vzero vadd vsub vscale dot mat precond maxIters tol rhs x0 info)).
  Proof.
    intros Hr Hx. unfold tcg. cbv zeta. destruct (tleb _ tiny); [exact Pz|]. destruct (tltb _ _); [exact Hx|].
    match goal with |- context [tcgLoop _ _ _ _ _ _ _ _ _ _ _ _ _ _ _ _ ?f ?m ?i ?r ?t ?n ?s] =>
      pose proof (tcgLoop_subspace f m r t n i s) as K; destruct (tcgLoop _ _ _ _ _ _ _ _ _ _ _ _ _ _ _ _ f m i r t n s) as [[x j] q] end.
    cbn in *. apply K; auto.
  Qed.
End Subspace.

(** ** Lists of real numbers *)
Notation add := (listAdd NR). Notation sub := (listSub NR). Notation scale := (listScale NR). Notation neg := (listNeg NR).
Notation ldot := (listDot NR). Notation lnorm := (listNorm NR sqrt). Notation zeros := (zeroLike NR).

Lemma nth_add u v i : length u = length v -> nth i (add u v) 0 = nth i u 0 + nth i v 0.
Proof.
  unfold listAdd. revert v i. induction u as [|a u IH]; intros [|b v] i L; try discriminate; [destruct i; cbn; ring|]. destruct i; cbn; [reflexivity|]. apply IH. cbn in L. lia.
Qed.
Lemma nth_sub u v i : length u = length v -> nth i (sub u v) 0 = nth i u 0 - nth i v 0.
Proof.
  unfold listSub. revert v i. induction u as [|a u IH]; intros [|b v] i L; try discriminate; [destruct i; cbn; ring|]. destruct i; cbn; [reflexivity|]. apply IH. cbn in L. lia.
Qed.
Lemma nth_scale c v i : nth i (scale c v) 0 = c * nth i v 0.
Proof. unfold listScale. revert i. induction v as [|a v IH]; intros [|i]; cbn; auto; ring. Qed.
Lemma nth_neg v i : nth i (neg v) 0 = - nth i v 0.
Proof. unfold listNeg. revert i. induction v as [|a v IH]; intros [|i]; cbn; auto; ring. Qed.
Lemma nth_zeros v i : nth i (zeros v) 0 = 0.
Proof. unfold zeroLike. revert i. induction v as [|a v IH]; intros [|i]; cbn; auto. Qed.
Lemma length_add u v : length u = length v -> length (add u v) = length u.
Proof. intros L. unfold listAdd. rewrite map_length, combine_length. lia. Qed.
Lemma length_sub u v : length u = length v -> length (sub u v) = length u.
Proof. intros L. unfold listSub. rewrite map_length, combine_length. lia. Qed.

Lemma ldot_acc (l : list (R * R)) : forall a, fold_left (fun s p => s + fst p * snd p) l a = a + fold_left (fun s p => s + fst p * snd p) l 0.
Proof. induction l as [|p l IH]; intros a; cbn; [ring|]. rewrite IH, (IH (0 + _)). ring. Qed.

Lemma ldot_zero u v : (forall k, nth k u 0 * nth k v 0 = 0) -> ldot u v = 0.
Proof.
  unfold listDot. cbn. revert v. induction u as [|a u IH]; intros [|b v] H; cbn; auto.
  rewrite ldot_acc. rewrite IH; [|intros k; apply (H (S k))]. specialize (H 0%nat). cbn in H. lra.
Qed.

Lemma lnorm_norm v : lnorm v = norm v.
Proof.
  unfold listNorm, listDot, norm. cbn. f_equal. generalize 0. induction v as [|a v IH]; intros s; cbn; auto.
Qed.

Lemma norm_zero v : lnorm v = 0 -> forall i, nth i v 0 = 0.
Proof.
  rewrite lnorm_norm, norm_dot. intros H. apply sqrt_eq_0 in H; [|apply dot_square_nonneg]. unfold dot in H.
  intros i. destruct (le_lt_dec (length v) i) as [L|L]; [now apply nth_overflow|].
  assert (K : forall n (f : nat -> R), sum n (fun k => f k * f k) = 0 -> forall k, (k < n)%nat -> f k = 0).
  { clear. induction n as [|n IH]; intros f H k Hk; [lia|]. cbn in H.
    assert (A : 0 <= sum n (fun k => f k * f k)) by (apply sum_nonneg; intros; apply Rle_0_sqr).
    assert (B := Rle_0_sqr (f n)). unfold Rsqr in B. assert (f n * f n = 0) by lra.
    destruct (Nat.eq_dec k n) as [->|]; [apply Rsqr_0_uniq; assumption|]. apply (IH f); [lra|lia]. }
  exact (K _ _ H i L).
Qed.

(** ** Updates *)
Lemma createFullVector_map (f : R -> R) flags v : f 0 = 0 -> createFullVector 0 flags (map f v) = option_map (map f) (createFullVector 0 flags v).
Proof.
  intros Hf. unfold createFullVector. rewrite map_length. destruct (length v =? reducedSize flags)%nat; [|reflexivity].
  generalize 0%nat at 1 3. generalize 0%nat. intros rc. revert rc. induction flags as [|b flags IH]; intros rc i; [reflexivity|]. cbn. destruct b.
  - rewrite IH. destruct createFullVector_loop; cbn; [now rewrite Hf|reflexivity].
  - rewrite nth_error_map. destruct (nth_error v (i - rc)); cbn; [|reflexivity]. rewrite IH. now destruct createFullVector_loop.
Qed.

Lemma restrict_map {A B} (f : A -> B) flags v : restrict flags (map f v) = map f (restrict flags v).
Proof. revert v. induction flags as [|b flags IH]; intros [|a v]; cbn; auto. destruct b; cbn; now rewrite IH. Qed.

Lemma createReducedVector_map (f : R -> R) flags v : createReducedVector flags (map f v) = option_map (map f) (createReducedVector flags v).
Proof.
  destruct (Nat.eq_dec (length v) (length flags)) as [L|L].
  - rewrite !createReducedVector_spec by (rewrite ?map_length; exact L). cbn. now rewrite restrict_map.
  - unfold createReducedVector, size. rewrite map_length. apply Nat.eqb_neq in L. now rewrite L.
Qed.

Section Theorems.
  Variables (flags : list bool) (mesh : list meshElement) (o : dbc).
  Variables (factors : option (response (V := R)) -> bool) (precond : option (response (V := R)) -> list R -> list R)
    (rnd : option (response (V := R)) -> R -> list R) (tiny tol : R).
  Let n := length flags.
  Let els := toElements n mesh.
  Hypothesis notRaw : o <> Raw.
  Notation upd := (trUpdate NR plusVector flags o).
  Notation energyF := (energyFunction NR flags els).
  Notation gradientF := (gradientFunction NR flags els o).
  Notation hessianF := (hessianFunction NR flags els o).
  Notation innerP := (innerProblem NR sqrt tiny factors precond tol).
  Notation solve := (structureTrust NR sqrt tiny plusVector flags els o factors precond rnd tol).

  (** What an update adds to entry i *)
  Definition added (b : list R) (i : nat) : R :=
    match (if match o with Reduced => true | _ => false end && (reducedSize flags =? length b)%nat then createFullVector 0 flags b
           else if (reducedSize flags =? n)%nat && (n =? length b)%nat then createReducedVector flags b
           else Some b) with Some v => nth i v 0 | None => 0 end.
  Lemma upd_added x b i : upd x b i = x i + added b i.
  Proof. unfold trUpdate, added, plusVector. fold n. cbn [n0 NR]. destruct (_ && _); [reflexivity|]. now destruct (_ && _). Qed.
  Lemma added_neg b i : added (neg b) i = - added b i.
  Proof.
    unfold added, listNeg. cbn [nopp NR]. rewrite map_length, createFullVector_map, createReducedVector_map by ring.
    assert (K : forall w, nth i (map Ropp w) 0 = - nth i w 0) by (intros w; exact (nth_neg w i)).
    destruct (_ && _); [destruct createFullVector; cbn; [apply K|ring]|]. destruct (_ && _); [destruct createReducedVector; cbn; [apply K|ring]|apply K].
  Qed.

  Lemma trust_laws : vectorLaws lnorm ldot neg upd.
  Proof.
    split; [|split].
    - intros v. apply sqrt_pos.
    - intros v H. assert (Z := norm_zero v H). split.
      + intros x. extensionality i. rewrite upd_added. enough (added v i = 0) by lra.
        assert (E : neg v = v). { apply (nth_ext _ _ 0 0); [unfold listNeg; apply map_length|]. intros k _. rewrite nth_neg, (Z k). ring. }
        assert (K := added_neg v i). rewrite E in K. lra.
      + intros w. apply ldot_zero. intros k. rewrite (Z k). ring.
    - intros x v. extensionality i. rewrite !upd_added, added_neg. ring.
  Qed.

  Lemma trust_radius : innerKeepsRadius innerP.
  Proof.
    intros g h e i eta i'. unfold innerProblem. destruct (factors h); [|discriminate]. unfold tcg. cbv zeta.
    destruct (nleb NR _ tiny); [intros E; now inversion E|]. destruct (nltb NR _ _); [intros E; now inversion E|].
    destruct (tcgLoop _ _ _ _ _ _ _ _ _ _ _ _ _ _ _ _ _ _ _ _ _ _ _) as [[x j] q]. intros E. now inversion E.
  Qed.

  Lemma energy_scalar x : energyF x = scalarEntry (answer flags mesh (RScalar x)).
  Proof. reflexivity. Qed.

  (** C159: the energy does not grow (beyond 2e-12 per iteration) *)
  Theorem C159_energy st inf x eta0 info r s : trSetup NR st = true -> 0 <= tr_rhoPrime st -> 0 < tr_rhoReg st ->
    solve st inf x eta0 info = TrDone r s ->
    scalarEntry (answer flags mesh (RScalar (u_x s))) <= scalarEntry (answer flags mesh (RScalar x)) + IZR (i_iter (u_info s)) * (2 / 1000000000000).
  Proof.
    intros A B C H. rewrite <- !energy_scalar.
    destruct (C31_exact_partial energyF gradientF hessianF lnorm ldot add scale neg zeros (matrixTimes NR) upd rnd innerP st inf x eta0 info r s
      trust_laws trust_radius A B C H) as (f & bl & fin & _ & _ & _ & E & I).
    eapply Rle_trans; [exact E|]. apply Rplus_le_compat_l. rewrite I, <- INR_IZR_INZ.
    apply Rmult_le_compat_l; [apply pos_INR|]. unfold slack. lra.
  Qed.

  (** C159: the reported norm of the residual bounds the virtual work of all virtual displacements that respect the supports *)
  Theorem C159_residual st inf x eta0 info r s : solve st inf x eta0 info = TrDone r s -> (forall e, In e mesh -> goodAt n (u_x s) e) ->
    (forall motion v, passes n motion (u_x s) v -> (forall i, constrained flags i -> v i = 0) ->
      exists work, is_derive (fun t => scalarEntry (answer flags mesh (RScalar (motion t)))) 0 work /\ Rabs work <= i_res (u_info s) * sqrt (dot n v v)) /\
    (r = gradientNormTolReached -> i_success (u_info s) = true /\ i_res (u_info s) < tr_gradTol st).
  Proof.
    intros H G.
    assert (R : forall e, In e mesh -> forall i, In i (me_dofs e) -> (i < n)%nat) by (intros e He; apply (G e He)).
    destruct (C60_success NR energyF gradientF hessianF lnorm ldot add scale neg zeros (matrixTimes NR) upd rnd innerP st inf x eta0 info r s H) as [Re _].
    split.
    - intros motion v P Z. destruct (C147_full flags mesh (u_x s) G) as (_ & _ & V). destruct (V motion v P Z) as [V1 _].
      eexists. split; [exact V1|]. eapply Rle_trans; [apply cauchy_schwarz|]. apply Rmult_le_compat_r; [apply sqrt_pos|].
      rewrite Re, lnorm_norm. change (gradientF (u_x s)) with (residualFunction flags mesh o (u_x s)). rewrite (residual_norm flags mesh o notRaw (u_x s) R).
      apply Rle_refl.
    - intros ->. destruct (solve_iterated NR energyF gradientF hessianF lnorm ldot add scale neg zeros (matrixTimes NR) upd rnd innerP st inf x eta0 info _ s H)
        as (bl & s1 & It & St & ->). split; [reflexivity|]. cbn. unfold trStop in St.
      destruct (nltb NR (u_gradNorm s1) (tr_gradTol st) && _) eqn:E.
      + apply andb_prop in E as [E _]. now apply rltb_true in E.
      + destruct (_ && _) in St; [discriminate|]. destruct (nleb _ _ _) in St; [discriminate|]. destruct (_ <=? _)%Z in St; discriminate.
  Qed.

  (** ** The supports *)
  (** The size of the vectors of the solver *)
  Definition sizeOf : nat := match o with Reduced => reducedSize flags | _ => n end.
  (** Vectors of that size which are zero at the supports *)
  Definition atRest (v : list R) : Prop := length v = sizeOf /\ (o = Full -> forall i, constrained flags i -> nth i v 0 = 0).
  (** A preconditioner that does not couple supports and free dofs *)
  Definition decouples : Prop := forall x v, atRest v -> atRest (precond (hessianF x) v).

  Lemma atRest_add u v : atRest u -> atRest v -> atRest (add u v).
  Proof.
    intros [L Z] [L' Z']. split; [rewrite length_add; congruence|]. intros F i Hi. rewrite nth_add by congruence. rewrite (Z F i Hi), (Z' F i Hi). ring.
  Qed.
  Lemma atRest_sub u v : atRest u -> atRest v -> atRest (sub u v).
  Proof.
    intros [L Z] [L' Z']. split; [rewrite length_sub; congruence|]. intros F i Hi. rewrite nth_sub by congruence. rewrite (Z F i Hi), (Z' F i Hi). ring.
  Qed.
  Lemma atRest_scale c u : atRest u -> atRest (scale c u).
  Proof. intros [L Z]. split; [unfold listScale; now rewrite map_length|]. intros F i Hi. rewrite nth_scale, (Z F i Hi). ring. Qed.
  Lemma atRest_neg u : atRest u -> atRest (neg u).
  Proof. intros [L Z]. split; [unfold listNeg; now rewrite map_length|]. intros F i Hi. rewrite nth_neg, (Z F i Hi). ring. Qed.
  Lemma atRest_zeros u : atRest u -> atRest (zeros u).
  Proof. intros [L Z]. split; [unfold zeroLike; now rewrite map_length|]. intros F i Hi. apply nth_zeros. Qed.

  Hypothesis inRange : forall e, In e mesh -> forall i, In i (me_dofs e) -> (i < n)%nat.
  Lemma W0 : wfElements n els. Proof. apply wf_any, inRange. Qed.

  Lemma atRest_gradient x : atRest (gradientF x).
  Proof.
    unfold gradientFunction, trAnswer. cbn [n0 n1 nadd NR]. unfold atRest, sizeOf. destruct o eqn:Eo; [contradiction|..]; cbn [denseRequest].
    all: first [
      destruct (C04_full_vector _ _ 0 Rplus flags _ x W0) as (raw & v & E & E' & L & K & F); rewrite E'; cbn;
      split; [exact L|intros _ i Hi; apply nth_error_nth, K, Hi]
    | destruct (C04_reduced_vector _ _ 0 Rplus flags _ x W0) as (raw & v & E & E' & _ & Ev); rewrite E'; cbn;
      destruct (C03_vector _ _ 0 Rplus flags _ x W0) as (raw' & E3 & L & _); rewrite E in E3; injection E3 as <-;
      split; [subst v; rewrite restrict_length by exact L; now rewrite reducedSize_nFree|discriminate] ].
  Qed.

  Lemma atRest_matrix x v : atRest v -> atRest (matrixTimes NR (hessianF x) v).
  Proof.
    intros [L Z]. unfold hessianFunction, trAnswer. cbn [n0 n1 nadd NR]. unfold atRest, sizeOf in *. destruct o eqn:Eo; [contradiction|..]; cbn [denseRequest].
    all: first [
      destruct (C05_full_dense _ _ 0 1 Rplus flags _ x W0) as (rawM & M & Em & Em' & Rr & Cc & VF & VD & VC); rewrite Em'; cbn [option_map matrixTimes];
      split; [rewrite map_length, seq_length; exact Rr|]; intros _ i Hi;
      assert (Li : (i < n)%nat) by (apply nth_error_Some; unfold constrained in Hi; congruence);
      rewrite (nth_indep _ 0 (ldot (map (fun j => match dget M 0 j with Some y => y | None => 0 end) (seq 0 (dcols M))) v)) by (rewrite map_length, seq_length, Rr; exact Li);
      rewrite (map_nth (fun i => ldot (map (fun j => match dget M i j with Some y => y | None => 0 end) (seq 0 (dcols M))) v)), seq_nth by (rewrite Rr; exact Li);
      cbn [Nat.add]; apply ldot_zero; intros k;
      destruct (Nat.eq_dec k i) as [->|Nk]; [rewrite (Z eq_refl i Hi); ring|];
      destruct (le_lt_dec n k) as [Lk|Lk]; [rewrite (nth_overflow v) by lia; ring|];
      rewrite (nth_indep _ 0 (match dget M i 0 with Some y => y | None => 0 end)) by (rewrite map_length, seq_length, Cc; exact Lk);
      rewrite (map_nth (fun j => match dget M i j with Some y => y | None => 0 end)), seq_nth by (rewrite Cc; exact Lk); cbn [Nat.add];
      rewrite VC by auto; ring
    | destruct (C05_reduced_dense _ _ 0 Rplus flags _ x W0) as (rawM & M & Em & Em' & Rr & Cc & _); rewrite Em'; cbn [option_map matrixTimes];
      split; [rewrite map_length, seq_length; exact Rr|discriminate] ].
  Qed.

  (** Such a step does not move the supports *)
  Lemma atRest_step x eta i : atRest eta -> constrained flags i -> upd x eta i = x i.
  Proof.
    intros [L Z] Ci. rewrite upd_added. enough (added eta i = 0) by lra. unfold added. unfold sizeOf in L.
    assert (X := size_split flags). assert (0 < nConstrained flags)%nat by (apply count_occ_In, (nth_error_In flags i Ci)).
    destruct o eqn:Eo; [contradiction|..]; cbn [andb].
    - rewrite L, Nat.eqb_refl. destruct (createFullVector_spec 0 flags eta L) as (v & E & Lv & K & Fr). rewrite E. apply nth_error_nth, K, Ci.
    - destruct ((reducedSize flags =? n)%nat && (n =? length eta)%nat) eqn:B; [|apply Z; auto].
      exfalso. apply andb_prop in B as [B _]. apply Nat.eqb_eq in B. rewrite reducedSize_nFree in B. unfold n in B. lia.
  Qed.

  (** C159: the supports do not move, not even in steps that are rejected later *)
  Theorem C159_supports_partial st inf x eta0 info r s : solve st inf x eta0 info = TrDone r s -> decouples ->
    (tr_useRand st = true -> o = Reduced /\ forall h D, length (rnd h D) = reducedSize flags) ->
    (forall i, constrained flags i -> u_x s i = x i) /\
    (forall e i, In e (u_trace s) -> constrained flags i -> entryX e i = x i).
  Proof.
    intros H Dc Hr.
    destruct (solve_iterated NR energyF gradientF hessianF lnorm ldot add scale neg zeros (matrixTimes NR) upd rnd innerP st inf x eta0 info r s H)
      as (bl & s1 & It & St & ->).
    set (P := fun s : @trState R (list R) (nat -> R) => (forall i, constrained flags i -> u_x s i = x i) /\ (forall e i, In e (u_trace s) -> constrained flags i -> entryX e i = x i)).
    assert (K : P s1).
    { revert It. intros It. refine (proj1 (iterated_inv NR energyF gradientF hessianF lnorm ldot add scale neg zeros (matrixTimes NR) upd rnd innerP P (fun _ => True) st _ bl _ s1 _ It)).
      - intros u u' b [P1 P2] _ (Heta & inf0 & Pr & _ & Bx & _ & Tr & Ux & _). split; [|exact I].
        assert (Be : atRest (b_eta b)).
        { unfold trPropose in Pr. cbv zeta in Pr.
          match type of Pr with context [innerP ?g ?h ?e ?i] => destruct (innerP g h e i) as [[eta iq]|] eqn:Ei; [|discriminate]; assert (Gu : atRest e) end.
          { destruct (tr_useRand st) eqn:Eu; cbn [andb]; [|apply atRest_zeros, atRest_gradient].
            destruct (u_outer u =? 0)%Z; [|apply atRest_zeros, atRest_gradient]. destruct (Hr eq_refl) as [Ho Hl].
            split; [unfold sizeOf; rewrite Ho; apply Hl|congruence]. }
          assert (Ee : atRest eta).
          { unfold innerProblem in Ei. destruct (factors _); [|discriminate].
            match type of Ei with Some ?t = _ => assert (Ek : atRest (fst t)) end; [|apply (f_equal (fun q => match q with Some p => fst p | None => [] end)) in Ei; cbn [fst] in Ei; rewrite <- Ei; exact Ek].
            apply (tcg_subspace _ _ _ _ _ _ _ _ _ _ _ _ _ _ _ _ _ _ atRest); auto using atRest_add, atRest_sub, atRest_scale, atRest_neg, atRest_zeros, atRest_gradient, atRest_matrix. }
          destruct (tr_useRand st && _); [|inversion Pr; subst; exact Ee].
          destruct (nltb NR _ _) in Pr; inversion Pr; subst; [|exact Ee]. apply atRest_scale, atRest_gradient. }
        assert (S1 : forall i, constrained flags i -> upd (b_x b) (b_eta b) i = x i) by (intros i Hi; rewrite atRest_step by auto; rewrite Bx; auto).
        assert (S2 : forall i, constrained flags i -> after upd neg b i = x i).
        { intros i Hi. unfold after. destruct (b_acc b); [auto|]. rewrite atRest_step by (auto using atRest_neg). auto. }
        split; [intros i Hi; rewrite Ux; auto|]. intros e i He Hi. rewrite Tr in He. apply in_app_or in He as [He|He]; [eauto|].
        unfold blockTrace in He. destruct He as [<-|[<-|He]]; [cbn; rewrite Bx; auto|cbn; auto|].
        destruct (b_acc b); cbn in He; [destruct He as [<-|[<-|[<-|[<-|[]]]]]; cbn; auto|destruct He as [<-|[]]; cbn; auto].
      - split; [reflexivity|]. cbn. intros e i [<-|[]] _. reflexivity. }
    destruct K as [K1 K2]. split.
    - intros i Hi. destruct r; cbn; auto.
    - intros e i He Hi. destruct r; cbn in He; auto; (apply in_app_or in He as [He|[<-|[]]]; [auto|cbn; auto]).
  Qed.

  (** The solve always ends, unless the factorisation of the preconditioner fails *)
  Theorem C159_ends st inf x eta0 info : (forall h, factors h = true) -> exists r s, solve st inf x eta0 info = TrDone r s.
  Proof.
    intros F. destruct (C60_stops NR energyF gradientF hessianF lnorm ldot add scale neg zeros (matrixTimes NR) upd rnd innerP st inf x eta0 info) as [N _].
    fold (structureTrust NR sqrt tiny plusVector flags els o factors precond rnd tol st inf x eta0 info) in N.
    destruct (solve st inf x eta0 info) as [r s| |] eqn:E; [eauto| |contradiction]. exfalso. revert E. unfold structureTrust, trSolve.
    generalize (trStart NR energyF gradientF lnorm st inf x eta0 info). induction (Z.to_nat (tr_maxIter st)) as [|k IH]; intros s0; cbn [trLoop];
      (destruct (trStop NR st s0); [discriminate|]); [discriminate|].
    destruct (trBody _ _ _ _ _ _ _ _ _ _ _ _ _ _ st s0) as [s1|] eqn:B; [apply IH|]. intros _. revert B. unfold trBody, trPropose, innerProblem. cbv zeta.
    rewrite F. destruct (tcg _ _ _ _ _ _ _ _ _ _ _ _ _ _ _ _ _ _ _ _ _ _ _) as [eta iq].
    destruct (_ && _); [destruct (nltb NR _ _)|]; destruct (trDecide _ _ _ _ _ _ _ _ _ _ _ _); discriminate.
  Qed.
End Theorems.
Print Assumptions C159_energy.
Print Assumptions C159_residual.
Print Assumptions C159_supports_partial.
Print Assumptions C159_ends.

(** The preconditioners without factorisation do not couple supports and free dofs *)
Theorem C159_preconditioners : forall flags mesh o, decouples flags mesh o (@identityPrecond R) /\ decouples flags mesh o (diagonalPrecond NR).
Proof.
  intros flags mesh o. split; intros x v [L Z]; [split; assumption|]. unfold diagonalPrecond.
  set (h := hessianFunction _ _ _ _ _). destruct h as [[| | |M]|]; try (split; assumption).
  split; [rewrite map_length, combine_length, seq_length; lia|]. intros F i Hi. specialize (Z F i Hi). revert Z. clear - M.
  set (f := fun p : nat * R => let '(i, x) := p in match dget M i i with Some d => if nleb NR d (n0 NR) && nleb NR (n0 NR) d then nmul NR x (n1 NR) else nmul NR (ndiv NR (n1 NR) d) x | None => x end).
  assert (Hf : forall k, f (k, 0) = 0) by (intros k; unfold f; destruct (dget M k k); [destruct (_ && _); cbn; ring|reflexivity]). clearbody f.
  generalize 0%nat as a. revert i. induction v as [|y v IH]; intros i a Z; cbn; [destruct i; reflexivity|].
  destruct i; cbn in *; [subst y; apply Hf|]. now apply IH.
Qed.
Print Assumptions C159_preconditioners.

(** The diagonal preconditioner divides every entry by the diagonal entry of the same dof *)
Theorem C159_diagonal M v i : let d := matrixEntries (Some (ODense M)) i i in (exists x, dget M i i = Some x) ->
  nth i (diagonalPrecond NR (Some (ODense M)) v) 0 = if Req_EM_T d 0 then nth i v 0 else nth i v 0 / d.
Proof.
  intros d [x Hx]. assert (Hd : d = x) by (unfold d, matrixEntries; rewrite ?Hx; reflexivity). rewrite Hd. clear d Hd. unfold diagonalPrecond.
  set (f := fun p : nat * R => let '(i, x) := p in match dget M i i with Some d => if nleb NR d (n0 NR) && nleb NR (n0 NR) d then nmul NR x (n1 NR) else nmul NR (ndiv NR (n1 NR) d) x | None => x end).
  assert (Hf : forall y, f (i, y) = if Req_EM_T x 0 then y else y / x).
  { intros y. unfold f. rewrite Hx. cbn. destruct (Req_EM_T x 0) as [->|N0].
    - replace (rleb 0 0) with true by (symmetry; apply rleb_true; lra). cbn. ring.
    - destruct (rleb x 0 && rleb 0 x) eqn:Q; [apply andb_true_iff in Q; rewrite !rleb_true in Q; lra|]. field. exact N0. }
  clearbody f. assert (G : forall v a j, (forall y, f ((a + j)%nat, y) = if Req_EM_T x 0 then y else y / x) ->
    nth j (map f (combine (seq a (length v)) v)) 0 = if Req_EM_T x 0 then nth j v 0 else nth j v 0 / x).
  { clear. induction v as [|y v IH]; intros a j Hf; cbn.
    - destruct j, (Req_EM_T x 0); try reflexivity; unfold Rdiv; ring.
    - destruct j; cbn; [rewrite <- Hf; f_equal; f_equal; lia|]. apply IH. intros z. rewrite <- Hf. f_equal. f_equal. lia. }
  apply (G v 0%nat i Hf).
Qed.
Print Assumptions C159_diagonal.
Example C159_diagonal_applies : nth 1 (diagonalPrecond NR (Some (ODense (mkDense 2 2 [4; 1; 1; 2]))) [6; 8]) 0 = 4.
Proof. rewrite C159_diagonal by (eexists; reflexivity). cbn. destruct (Req_EM_T _ 0); cbn in *; lra. Qed.

(** The hypotheses hold for the spring: default settings, 1000 iterations at most *)
Example C159_applies : let st := mkTR 1 1000 (1 / 1000000) (1 / 1000000) (1 / 100) false 1000000 100 10 in
  trSetup NR st = true /\ 0 <= tr_rhoPrime st /\ 0 < tr_rhoReg st /\ (forall U e, In e spring -> goodAt 2 U e) /\
  forall o, exists r s, structureTrust NR sqrt (/ 1000) plusVector springFlags (toElements 2 spring) o (fun _ => true) (diagonalPrecond NR) (fun _ _ => []) (/ 1000) st 0 (fun _ => 0) [] (mkTcg maximumInnerIterations 1 (1 / 10) 1 0) = TrDone r s.
Proof.
  intros st. split; [|split; [|split; [|split]]]; try (cbn; lra).
  - unfold trSetup. cbn. rewrite !andb_true_iff, !rltb_true. lra.
  - apply C148_applies.
  - intros o. apply (C159_ends springFlags spring o (fun _ => true)). reflexivity.
Qed.

(** ** A random start direction moves the supports *)
(** Binary64, Full option.  A chain of two springs, stiffness 2 and 10, the first node is supported, the last one loaded by the force 3. *)
From Coq Require Import Floats.
Local Open Scope float_scope.
Definition springsF : list (element (V := float) (list float)) :=
  let spring k f a b := mkElement [a; b]%nat (fun x => k / 2 * ((nth b x 0 - nth a x 0) * (nth b x 0 - nth a x 0)) - f * nth b x 0)
    (fun x => [(- k) * (nth b x 0 - nth a x 0); k * (nth b x 0 - nth a x 0) - f]) (fun _ => [k; - k; - k; k]) in
  [spring 2 0 0%nat 1%nat; spring 10 3 1%nat 2%nat].
Definition plusF (x : list float) (v : option (list float)) : list float :=
  match v with Some v => map (fun p => fst p + snd p) (combine x v) | None => x end.
(** The default settings, 43-57, with a random start direction *)
Definition randomSettings : trSettings float := mkTR infinity 1000 0x1.0c6f7a0b5ed8dp-20 0x1.0c6f7a0b5ed8dp-20 0x1.47ae147ae147bp-7 true 1000000 infinity 10.

Theorem C159_random_refuted : exists direction : list float,
  (** a direction that setRandom may draw (entries in [-1, 1]) and that needs no scaling (264-269) *)
  forallb (fun d => PrimFloat.leb (-1) d && PrimFloat.leb d 1) direction = true /\
  PrimFloat.leb (listDot NF direction (matrixTimes NF (hessianFunction NF [true; false; false] springsF Full [0; 0; 0]) direction)) (10 * 10) = true /\
  match structureTrust NF PrimFloat.sqrt 0x1p-1022 plusF [true; false; false] springsF Full (fun _ => true) (@identityPrecond float) (fun _ _ => direction)
          0x1p-52 randomSettings infinity [0; 0; 0] [0; 0; 0] info0 with
  | TrDone r s => i_success (u_info s) = true /\ PrimFloat.ltb (nth 0 (u_x s) 0) (- 0x1p-6) = true
  | _ => False end.
Proof. exists [0x1p-1; 0x1p-2; 0x1p-1]. vm_compute. auto. Qed.
Print Assumptions C159_random_refuted.
