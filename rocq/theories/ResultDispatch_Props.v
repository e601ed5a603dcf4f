(** C179: which skill of an element answers a request for a result, and by which names and lists results are found. *)

From Coq Require Import List Arith Bool String Permutation Lia.
From Verif Require Import ResultDispatch_Model ResultDispatch_Spec.
Import ListNotations.

Lemma beq rt rt' : resultType_beq rt rt' = true <-> rt = rt'.
Proof. split; [apply internal_resultType_dec_bl|apply internal_resultType_dec_lb]. Qed.
Lemma supports s rt : supportsResultType s rt = true <-> In rt (supportedBy s).
Proof.
  unfold supportsResultType. rewrite existsb_exists. split.
  - intros (x & I & E). apply beq in E. now subst.
  - intros I. exists rt. split; auto. now apply beq.
Qed.
Lemma toString_inj rt rt' : toString rt = toString rt' -> rt = rt'.
Proof. destruct rt; destruct rt'; cbn; intros H; try reflexivity; discriminate. Qed.

Lemma filter_perm {A} (f : A -> bool) l l' : Permutation l l' -> Permutation (filter f l) (filter f l').
Proof.
  induction 1; cbn; auto.
  - destruct (f x); auto.
  - destruct (f x); destruct (f y); auto. apply perm_swap.
  - eapply perm_trans; eauto.
Qed.
Lemma forallb_perm {A} (f : A -> bool) l l' : Permutation l l' -> forallb f l = forallb f l'.
Proof. intros P. apply eq_true_iff_eq. rewrite !forallb_forall. split; intros H x I; apply H; [apply Permutation_sym in P|]; eapply Permutation_in; eauto. Qed.
Lemma existsb_perm {A} (f : A -> bool) l l' : Permutation l l' -> existsb f l = existsb f l'.
Proof.
  intros P. apply eq_true_iff_eq. rewrite !existsb_exists. split; intros (x & I & H); exists x; split; auto; (eapply Permutation_in; [|exact I]); auto. now apply Permutation_sym.
Qed.
Lemma singleton_perm {A} (l l' : list A) : Permutation l l' ->
  match l with [s] => Some s | _ => None end = match l' with [s] => Some s | _ => None end.
Proof.
  intros P. assert (L := Permutation_length P). destruct l as [|a [|b l]]; destruct l' as [|a' [|b' l']]; cbn in L; try discriminate; auto.
  apply Permutation_length_1 in P. now subst.
Qed.

(** The order of the skills does not matter for which one answers *)
Lemma resolve_perm fe fe' rt : Permutation (skills fe) (skills fe') -> resolve fe rt = resolve fe' rt.
Proof.
  intros P. unfold resolve. apply singleton_perm.
  assert (V : Permutation (viable fe rt) (viable fe' rt)) by (now apply filter_perm).
  rewrite (filter_ext (fun s => forallb (fun t => negb (better t s)) (viable fe rt)) (fun s => forallb (fun t => negb (better t s)) (viable fe' rt))).
  - now apply filter_perm.
  - intros s. now apply forallb_perm.
Qed.
Lemma filter_loads rt loads : Forall isLoad loads -> filter (fun s => supportsResultType s rt) loads = [].
Proof. induction 1 as [|s l [-> | ->] _ IH]; cbn; auto. Qed.
Lemma supported_loads loads : Forall isLoad loads -> flat_map supportedBy loads = [].
Proof. induction 1 as [|s l [-> | ->] _ IH]; cbn; auto. Qed.
Lemma mixed_loads loads : Forall isLoad loads ->
  existsb (fun s => match s with enhanced _ | assumed _ => true | _ => false end) loads = false.
Proof. induction 1 as [|s l [-> | ->] _ IH]; cbn; auto. Qed.

Lemma resolve_plain b fe rt : plainElement b fe -> resolve fe rt = if supportsResultType b rt then Some b else None.
Proof.
  intros (loads & P & B & L). rewrite (resolve_perm fe (mkElement (b :: loads) (reduced fe))) by auto.
  unfold resolve, viable. cbn [skills filter]. rewrite filter_loads by auto. destruct (supportsResultType b rt); auto.
  cbn [filter forallb]. unfold better. now rewrite Nat.ltb_irrefl.
Qed.
Lemma resolve_mixed b e fe rt : mixedElement b e fe -> resolve fe rt = if supportsResultType b rt then Some e else None.
Proof.
  intros (loads & P & B & L). rewrite (resolve_perm fe (mkElement (b :: e :: loads) (reduced fe))) by auto.
  unfold resolve, viable. cbn [skills filter]. rewrite filter_loads by auto.
  destruct B as [(-> & [-> | ->])|(-> & [-> | ->])]; destruct rt; reflexivity.
Qed.
Lemma perm_supported fe l : Permutation (skills fe) l -> Permutation (supportedResultTypes fe) (flat_map supportedBy l).
Proof. intros P. unfold supportedResultTypes. now apply Permutation_flat_map. Qed.

Lemma supported_plain b fe : plainElement b fe -> supportedResultTypes fe = resultsOf b.
Proof.
  intros (loads & P & B & L). unfold supportedResultTypes.
  assert (I : In b (skills fe)) by (eapply Permutation_in; [apply Permutation_sym; eauto|left; reflexivity]).
  destruct (in_split _ _ I) as (l1 & l2 & E). rewrite E in *.
  assert (P' : Permutation (l1 ++ l2) loads). { apply Permutation_cons_inv with (a := b). eapply perm_trans; [apply Permutation_middle|]. auto. }
  assert (L' : Forall isLoad (l1 ++ l2)) by (eapply Permutation_Forall; [apply Permutation_sym; eauto|auto]).
  apply Forall_app in L'. destruct L' as (L1 & L2). rewrite flat_map_app. cbn. rewrite !supported_loads by auto. cbn. rewrite app_nil_r.
  destruct B as [->|[->|[->|[->| ->]]]]; reflexivity.
Qed.
Lemma supported_mixed b e fe : mixedElement b e fe -> supportedResultTypes fe = resultsOf b ++ resultsOf b.
Proof.
  intros (loads & P & B & L). unfold supportedResultTypes.
  assert (I : In b (skills fe)) by (eapply Permutation_in; [apply Permutation_sym; eauto|left; reflexivity]).
  destruct (in_split _ _ I) as (l1 & l2 & E). rewrite E in *.
  assert (P' : Permutation (l1 ++ l2) (e :: loads)). { apply Permutation_cons_inv with (a := b). eapply perm_trans; [apply Permutation_middle|]. auto. }
  assert (Q : flat_map supportedBy (l1 ++ l2) = supportedBy e /\ (flat_map supportedBy l1 = [] \/ flat_map supportedBy l2 = [])).
  { assert (J : In e (l1 ++ l2)) by (eapply Permutation_in; [apply Permutation_sym; eauto|left; reflexivity]).
    apply in_app_or in J. destruct J as [J|J]; destruct (in_split _ _ J) as (k1 & k2 & K); rewrite K in *.
    - assert (P2 : Permutation (k1 ++ k2 ++ l2) loads).
      { apply Permutation_cons_inv with (a := e). eapply perm_trans; [apply Permutation_middle|]. rewrite <- app_assoc in P'. exact P'. }
      assert (L' : Forall isLoad (k1 ++ k2 ++ l2)) by (eapply Permutation_Forall; [apply Permutation_sym; eauto|auto]).
      apply Forall_app in L'. destruct L' as (L1 & L2). apply Forall_app in L2. destruct L2 as (L2 & L3).
      rewrite !flat_map_app. cbn. rewrite !supported_loads by auto. cbn. rewrite !app_nil_r. auto.
    - assert (P2 : Permutation ((l1 ++ k1) ++ k2) loads).
      { apply Permutation_cons_inv with (a := e). eapply perm_trans; [apply Permutation_middle|]. rewrite app_assoc in P'. exact P'. }
      assert (L' : Forall isLoad ((l1 ++ k1) ++ k2)) by (eapply Permutation_Forall; [apply Permutation_sym; eauto|auto]).
      apply Forall_app in L'. destruct L' as (L1 & L3). apply Forall_app in L1. destruct L1 as (L1 & L2).
      rewrite !flat_map_app. cbn. rewrite !supported_loads by auto. cbn. rewrite !app_nil_r. auto. }
  destruct Q as (Q & O). rewrite flat_map_app in *. cbn.
  assert (SB : supportedBy b = resultsOf b) by (destruct B as [(-> & _)|(-> & _)]; reflexivity).
  assert (SE : supportedBy e = resultsOf b) by (destruct B as [(-> & [-> | ->])|(-> & [-> | ->])]; reflexivity).
  rewrite SB. rewrite SE in Q. destruct O as [O|O]; rewrite O in *; cbn in *; rewrite ?app_nil_r in *; now rewrite Q.
Qed.

Section Dispatch.
Context {V : Type}.
Variable compute : skill -> resultType -> V.

(** Elements without enhancement: exactly the result types of its solid, truss or shell can be asked for, each is computed by that skill and
    written. *)
Theorem C179_plain : forall b fe rt, plainElement b fe ->
  calculateAt compute fe rt = if in_dec resultType_eq_dec rt (resultsOf b) then Some (Written (compute b rt)) else None.
Proof.
  intros b fe rt P. unfold calculateAt. rewrite (resolve_plain b) by auto.
  assert (M : isMixed fe = false).
  { destruct P as (loads & P & B & L). unfold isMixed. rewrite (existsb_perm _ _ _ P). cbn. rewrite mixed_loads by auto.
    destruct B as [->|[->|[->|[->| ->]]]]; reflexivity. }
  destruct P as (loads & P & B & L).
  destruct B as [->|[->|[->|[->| ->]]]]; destruct rt; cbn -[in_dec]; rewrite ?M;
    destruct (in_dec _ _ _) as [I|I]; cbn in I; try reflexivity; exfalso; intuition discriminate.
Qed.

(** Elements with an enhancement of the same kind as the solid: exactly the result types of the solid can be asked for and the enhancement
    computes them (the solid alone would not); all are written, except the full stresses of assumed stress elements with a three-dimensional material. *)
Theorem C179_mixed_partial : forall b e fe rt, mixedElement b e fe ->
  (reduced fe = false -> (e = assumed true \/ e = assumed false) -> rt <> linearStressFull /\ rt <> PK2StressFull) ->
  calculateAt compute fe rt = if in_dec resultType_eq_dec rt (resultsOf b) then Some (Written (compute e rt)) else None.
Proof.
  intros b e fe rt P N. unfold calculateAt. rewrite (resolve_mixed b e) by auto. destruct P as (loads & P & B & L).
  destruct B as [(-> & [-> | ->])|(-> & [-> | ->])]; destruct (reduced fe) eqn:R; destruct rt; cbn -[in_dec]; rewrite ?R;
    destruct (in_dec _ _ _) as [I|I]; cbn in I; try reflexivity; try (exfalso; intuition discriminate);
    exfalso; destruct N as [N1 N2]; auto.
Qed.

(** The full stresses of an assumed stress element with a three-dimensional material are offered but never written. *)
Theorem C179_assumed_refuted : forall b e fe, mixedElement b e fe -> (e = assumed true \/ e = assumed false) -> reduced fe = false ->
  exists rt, In rt (supportedResultTypes fe) /\ calculateAt compute fe rt = Some Uninitialised.
Proof.
  intros b e fe P E R. assert (S := supported_mixed b e fe P). rewrite S.
  exists (match b with linearElastic => linearStressFull | _ => PK2StressFull end).
  unfold calculateAt. rewrite (resolve_mixed b e) by auto. destruct P as (loads & P & B & L).
  destruct B as [(-> & [-> | ->])|(-> & [-> | ->])]; destruct E as [E|E]; try discriminate; cbn; rewrite R; cbn; auto.
Qed.

(** A nonlinear solid with a linear enhancement can be built; its nonlinear stresses are offered but never written. *)
Theorem C179_linear_enhancement_refuted : forall e fe loads, e = enhanced true \/ e = assumed true ->
  Permutation (skills fe) (nonLinearElastic :: e :: loads) -> Forall isLoad loads ->
  constructible fe = true /\ forall rt, In rt (resultsOf nonLinearElastic) -> In rt (supportedResultTypes fe) /\ calculateAt compute fe rt = Some Uninitialised.
Proof.
  intros e fe loads E P L.
  assert (C : constructible fe = true).
  { unfold constructible. apply forallb_forall. intros s I.
    assert (I' : In s (nonLinearElastic :: e :: loads)) by (eapply Permutation_in; eauto).
    destruct I' as [<-|[<-|I']]; auto; [destruct E as [-> | ->]; apply orb_true_r|].
    rewrite Forall_forall in L. destruct (L s I') as [-> | ->]; reflexivity. }
  split; auto. intros rt I. split.
  { eapply Permutation_in; [apply Permutation_sym; apply (perm_supported fe _ P)|]. cbn [flat_map]. apply in_or_app. left. exact I. }
  assert (M : isMixed fe = true).
  { unfold isMixed. rewrite (existsb_perm _ _ _ P). destruct E as [-> | ->]; reflexivity. }
  unfold calculateAt. rewrite (resolve_perm fe (mkElement (nonLinearElastic :: e :: loads) (reduced fe))) by auto.
  unfold resolve, viable. cbn [skills filter]. rewrite filter_loads by auto.
  cbn in I. destruct I as [<-|[<-|[<-|[<-|[]]]]]; destruct E as [-> | ->]; cbn; rewrite M; reflexivity.
Qed.

(** A linear solid with a nonlinear enhancement is refused. *)
Theorem C179_nonlinear_enhancement : forall e fe, e = enhanced false \/ e = assumed false -> In linearElastic (skills fe) -> In e (skills fe) ->
  constructible fe = false.
Proof.
  intros e fe E I J. destruct (constructible fe) eqn:C; auto. unfold constructible in C. rewrite forallb_forall in C. specialize (C e J).
  assert (L : linearStrain fe = true) by (unfold linearStrain; apply existsb_exists; exists linearElastic; auto).
  destruct E as [-> | ->]; rewrite L in C; discriminate.
Qed.

(** Python: a name finds exactly the result type it names, as calculateAt gives it; other names raise NotImplemented.  Any element. *)
Lemma fold_name fe name l : forall r, fold_left (fun r rt => if String.eqb name (toString rt) then calculateAt compute fe rt else r) l r =
  match find (fun rt => String.eqb name (toString rt)) l with Some rt => calculateAt compute fe rt | None => r end.
Proof.
  induction l as [|rt l IH]; intros r; cbn; auto. rewrite IH. destruct (String.eqb name (toString rt)) eqn:E; auto.
  destruct (find _ l) as [rt'|] eqn:F; auto. apply find_some in F. destruct F as (_ & F). apply String.eqb_eq in E. apply String.eqb_eq in F.
  f_equal. apply toString_inj. congruence.
Qed.
Theorem C179_by_name : forall fe,
  (forall rt, In rt (supportedResultTypes fe) -> calculateAtName compute fe (toString rt) = calculateAt compute fe rt) /\
  (forall name, (forall rt, In rt (supportedResultTypes fe) -> name <> toString rt) -> calculateAtName compute fe name = None /\ addedByName fe name = None).
Proof.
  intros fe. split.
  - intros rt I. unfold calculateAtName. rewrite fold_name. destruct (find _ _) as [rt'|] eqn:F.
    + apply find_some in F. destruct F as (_ & F). apply String.eqb_eq in F. apply toString_inj in F. now subst.
    + apply find_none with (x := rt) in F; auto. rewrite String.eqb_refl in F. discriminate.
  - intros name N. split.
    + unfold calculateAtName. rewrite fold_name. destruct (find _ _) as [rt'|] eqn:F; auto.
      apply find_some in F. destruct F as (I & F). apply String.eqb_eq in F. exfalso. now apply (N rt').
    + unfold addedByName. destruct (filter _ _) as [|rt l] eqn:F; auto. exfalso.
      assert (I : In rt (filter (fun rt => String.eqb name (toString rt)) (supportedResultTypes fe))) by (rewrite F; left; reflexivity).
      apply filter_In in I. destruct I as (I & E). apply String.eqb_eq in E. now apply (N rt).
Qed.
End Dispatch.

(** addAllResults and addResult by name: elements without enhancement get every result type once. *)
Theorem C179_added_once_partial : forall b fe, plainElement b fe ->
  addedByAll fe = resultsOf b /\ NoDup (addedByAll fe) /\ forall rt, In rt (resultsOf b) -> addedByName fe (toString rt) = Some [rt].
Proof.
  intros b fe P. unfold addedByAll, addedByName. rewrite (supported_plain b fe P). destruct P as (_ & _ & B & _).
  repeat split.
  - destruct B as [->|[->|[->|[->| ->]]]]; cbn; repeat constructor; cbn; intuition discriminate.
  - intros rt I. destruct B as [->|[->|[->|[->| ->]]]]; cbn in I; decompose [or] I; subst; try tauto; reflexivity.
Qed.
(** Elements with an enhancement get every result type twice. *)
Theorem C179_added_twice_refuted : forall b e fe, mixedElement b e fe ->
  addedByAll fe = resultsOf b ++ resultsOf b /\ ~ NoDup (addedByAll fe) /\ forall rt, In rt (resultsOf b) -> addedByName fe (toString rt) = Some [rt; rt].
Proof.
  intros b e fe P. unfold addedByAll, addedByName. rewrite (supported_mixed b e fe P). destruct P as (_ & _ & B & _).
  repeat split.
  - destruct B as [(-> & _)|(-> & _)]; cbn; intros N; inversion N; cbn in *; intuition.
  - intros rt I. destruct B as [(-> & _)|(-> & _)]; cbn in I; decompose [or] I; subst; try tauto; reflexivity.
Qed.
Print Assumptions C179_plain.
Print Assumptions C179_mixed_partial.
Print Assumptions C179_assumed_refuted.
Print Assumptions C179_linear_enhancement_refuted.
Print Assumptions C179_nonlinear_enhancement.
Print Assumptions C179_by_name.
Print Assumptions C179_added_once_partial.
Print Assumptions C179_added_twice_refuted.

(** The hypotheses are met: a load, an enhancement and a linear solid, in this order *)
Example C179_element : mixedElement linearElastic (assumed true) (mkElement [volumeLoad; assumed true; linearElastic] false) /\
  constructible (mkElement [volumeLoad; assumed true; linearElastic] false) = true /\
  plainElement truss (mkElement [neumannBoundaryLoad; truss] false).
Proof.
  split; [|split; [reflexivity|]].
  - exists [volumeLoad]. split; [|split; [left; auto|constructor; [left; reflexivity|constructor]]].
    change [volumeLoad; assumed true; linearElastic] with (rev [linearElastic; assumed true; volumeLoad]). apply Permutation_sym, Permutation_rev.
  - exists [neumannBoundaryLoad]. split; [apply perm_swap|]. split; [unfold isBase; auto|constructor; [right; reflexivity|constructor]].
Qed.
