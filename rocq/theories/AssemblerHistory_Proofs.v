(** Independence of the sparse assembler's results from the history of requests,
    agreement with the dense assembler, and validity of the cached slots. *)

From Coq Require Import List Arith Bool Lia.
From Verif Require Import Assembler_Model Assembler_Spec Assembler_Proofs AssemblerSparse_Proofs.
Import ListNotations.

Section History.
Context {V Q : Type} (vzero vone : V) (vadd vmul : V -> V -> V).
Notation elt := (element (V:=V) Q).
Notation sparse := (sparse (V:=V)).
Notation spState := (spState (V:=V)).
Implicit Types (els : list elt) (e : elt) (q : Q) (flags : list bool) (m : sparse) (s : spState).

Lemma acc_length v i x v' : acc vadd v i x = Some v' -> length v' = length v.
Proof. unfold acc. destruct (nth_error v i); intro H; inversion H. apply set_nth_length. Qed.

Lemma scatter_length vals : forall c sl c', scatter vadd c sl vals = Some c' -> length c' = length c.
Proof.
  induction vals as [|x vals IH]; intros c sl c' H; simpl in H. - inversion H; auto.
  - destruct sl as [|p sl]; try discriminate. destruct (acc vadd c p x) eqn:E; try discriminate.
    apply IH in H. apply acc_length in E. congruence.
Qed.

Lemma assembleRawSparse_loop_length els q : forall c idx c',
  assembleRawSparse_loop vadd c idx els q = Some c' -> length c' = length c.
Proof.
  induction els as [|e els IH]; intros c idx c' H; simpl in H. - inversion H; auto.
  - destruct idx as [|sl idx]; try discriminate. destruct (scatter vadd c sl (emat e q)) eqn:E; try discriminate.
    apply IH in H. apply scatter_length in E. congruence.
Qed.

Lemma assembleReducedSparse_loop_length flags els q : forall c idx c',
  assembleReducedSparse_loop vadd flags c idx els q = Some c' -> length c' = length c.
Proof.
  induction els as [|e els IH]; intros c idx c' H; simpl in H. - inversion H; auto.
  - destruct idx as [|sl idx]; try discriminate. unfold reducedSparse_element in H.
    destruct (pairs_free flags (dofs e)) as [ps|]; try discriminate.
    destruct (mapM _ ps) as [vals|]; try discriminate.
    destruct (scatter vadd c sl vals) eqn:E; try discriminate.
    apply IH in H. apply scatter_length in E. congruence.
Qed.

Lemma mul_slots_length ps : forall v v', foldM (mul_slot vzero vmul) v ps = Some v' -> length v' = length v.
Proof.
  induction ps as [|p ps IH]; intros v v' H; simpl in H. - inversion H; auto.
  - unfold mul_slot at 1 in H. destruct (nth_error v p); try discriminate. apply IH in H. rewrite set_nth_length in H; auto.
Qed.

(** Same pattern, values of the same number. *)
Definition samePattern m0 m : Prop := exists v, m = with_vals m0 v /\ length v = length (svals m0).

Lemma samePattern_refl m : samePattern m m.
Proof. exists (svals m). destruct m; auto. Qed.

Lemma samePattern_trans a b c : samePattern a b -> samePattern b c -> samePattern a c.
Proof. intros [v [-> Hv]] [w [-> Hw]]. exists w. simpl in *. split; auto. congruence. Qed.

Lemma forConstrained_pattern flags (f : sparse -> nat -> option sparse) m m' :
  (forall a i b, f a i = Some b -> samePattern a b) ->
  forConstrained flags f m = Some m' -> samePattern m m'.
Proof.
  intro Hf. unfold forConstrained. generalize (seq 0 (size flags)) as l. intro l. revert m.
  induction l as [|i l IH]; intros m H; simpl in H.
  - inversion H; apply samePattern_refl.
  - destruct (isConstrained flags i) as [[|]|]; try discriminate.
    + destruct (f m i) eqn:E; try discriminate. eapply samePattern_trans; eauto.
    + apply IH; auto.
Qed.

Lemma col_zero_pattern a i b : sparse_col_zero vzero vmul a i = Some b -> samePattern a b.
Proof.
  unfold sparse_col_zero. destruct (foldM _ _ _) eqn:E; intro H; inversion H.
  exists l; split; auto. eapply mul_slots_length; eauto.
Qed.

Lemma row_zero_pattern a i b : sparse_row_zero vzero vmul a i = Some b -> samePattern a b.
Proof.
  unfold sparse_row_zero. destruct (foldM _ _ _) eqn:E; intro H; inversion H.
  exists l; split; auto. eapply mul_slots_length; eauto.
Qed.

Lemma diag_one_pattern a i b : sparse_diag_one vone a i = Some b -> samePattern a b.
Proof.
  unfold sparse_diag_one. destruct (find _ _); try discriminate. unfold put. destruct (_ <? _); try discriminate.
  intro H; inversion H. eexists; split; eauto. apply set_nth_length.
Qed.

Lemma assembleRawSparse_pattern m idx els q m' : assembleRawSparse vzero vadd m idx els q = Some m' -> samePattern m m'.
Proof.
  unfold assembleRawSparse. destruct (assembleRawSparse_loop _ _ _ _ _) eqn:E; intro H; inversion H.
  exists l; split; auto. apply assembleRawSparse_loop_length in E. rewrite repeat_length in E; auto.
Qed.

(** Raw assembly only depends on the pattern and on the cached slots of the elements. *)
Lemma assembleRawSparse_ext m0 m idx rest els q : samePattern m0 m -> length idx = length els ->
  assembleRawSparse vzero vadd m (idx ++ rest) els q = assembleRawSparse vzero vadd m0 idx els q.
Proof.
  intros [v [-> Hv]] L. unfold assembleRawSparse. cbn [svals with_vals]. rewrite Hv.
  generalize (repeat vzero (length (svals m0))) as c. intro c.
  assert (assembleRawSparse_loop vadd c (idx ++ rest) els q = assembleRawSparse_loop vadd c idx els q) as ->; auto.
  clear Hv v. revert c idx L. induction els as [|e els IH]; intros c [|sl idx] L; simpl in *; try discriminate; auto.
  destruct (scatter vadd c sl (emat e q)); auto.
Qed.

Lemma assembleReducedSparse_ext flags c idx rest els q : length idx = length els ->
  assembleReducedSparse_loop vadd flags c (idx ++ rest) els q = assembleReducedSparse_loop vadd flags c idx els q.
Proof.
  revert c idx. induction els as [|e els IH]; intros c [|sl idx] L; simpl in *; try discriminate; auto.
  destruct (reducedSparse_element vadd flags c sl e q); auto.
Qed.

(** Invariant of the caches. *)
Record Inv flags els s : Prop := {
  inv_raw : st_preRaw s = true -> exists m0 idx m, preProcessSparse vzero flags els [] = Some (m0, idx) /\ st_raw s = Some m /\ samePattern m0 m;
  inv_full : st_preFull s = true -> exists m0 idx m, preProcessSparse vzero flags els [] = Some (m0, idx) /\ st_full s = Some m /\ samePattern m0 m;
  inv_idx : st_idx s = [] /\ st_preRaw s = false /\ st_preFull s = false \/
            exists m0 idx rest, preProcessSparse vzero flags els [] = Some (m0, idx) /\ st_idx s = idx ++ rest;
  inv_red : st_preRed s = true -> exists m0 idx m rest, preProcessSparseReduced vzero flags els [] = Some (m0, idx) /\
            st_red s = Some m /\ samePattern m0 m /\ st_idxRed s = idx ++ rest;
  inv_idxRed : st_preRed s = false -> st_idxRed s = [];
}.

Lemma preProcess_idx flags els idx m0 l : preProcessSparse vzero flags els [] = Some (m0, l) ->
  preProcessSparse vzero flags els idx = Some (m0, idx ++ l) /\ length l = length els.
Proof.
  unfold preProcessSparse. destruct (createOccupationPattern _ _ _); try discriminate.
  destruct (mapM _ els) eqn:E; try discriminate. intro H; inversion H; subst. split; auto. eapply mapM_length; eauto.
Qed.

Lemma preProcess_idx_none flags els idx : preProcessSparse vzero flags els [] = None ->
  preProcessSparse vzero flags els idx = None.
Proof.
  unfold preProcessSparse. destruct (createOccupationPattern _ _ _); auto. destruct (mapM _ els); auto; discriminate.
Qed.

Lemma preProcessRed_length flags els m0 l : preProcessSparseReduced vzero flags els [] = Some (m0, l) -> length l = length els.
Proof.
  unfold preProcessSparseReduced. destruct (createReducedOccupationPattern _ _ _); try discriminate.
  destruct (mapM _ els) eqn:E; try discriminate. intro H; inversion H; subst. eapply mapM_length; eauto.
Qed.

Lemma Inv_init flags els : Inv flags els (spInit vzero).
Proof. constructor; simpl; try discriminate; auto. Qed.

(** What the requests compute, without any state. *)
Definition rawResult flags els q : option sparse :=
  match preProcessSparse vzero flags els [] with
  | Some (m0, idx) => assembleRawSparse vzero vadd m0 idx els q
  | None => None
  end.
Definition fullOf flags (o : option sparse) : option sparse :=
  match o with
  | None => None
  | Some m0 => match forConstrained flags (sparse_col_zero vzero vmul) m0 with
      | None => None
      | Some m1 => match forConstrained flags (sparse_row_zero vzero vmul) m1 with
          | None => None
          | Some m2 => forConstrained flags (sparse_diag_one vone) m2 end end end.
Definition redResult flags els q : option sparse :=
  match preProcessSparseReduced vzero flags els [] with
  | Some (m0, idx) => option_map (with_vals m0) (assembleReducedSparse_loop vadd flags (repeat vzero (length (svals m0))) idx els q)
  | None => None
  end.

Lemma fullOf_pattern flags m0 m : fullOf flags (Some m0) = Some m -> samePattern m0 m.
Proof.
  simpl. destruct (forConstrained flags (sparse_col_zero vzero vmul) m0) eqn:E1; try discriminate.
  destruct (forConstrained flags (sparse_row_zero vzero vmul) s) eqn:E2; try discriminate. intro E3.
  eapply samePattern_trans; [eapply forConstrained_pattern; [|exact E1]; apply col_zero_pattern|].
  eapply samePattern_trans; [eapply forConstrained_pattern; [|exact E2]; apply row_zero_pattern|].
  eapply forConstrained_pattern; [|exact E3]. apply diag_one_pattern.
Qed.

Lemma getRawSparse_step flags els s q : Inv flags els s ->
  match rawResult flags els q with
  | Some m => exists s', getRawSparse vzero vadd flags els s q = Some (s', m) /\ Inv flags els s'
  | None => getRawSparse vzero vadd flags els s q = None
  end.
Proof.
  intro I. unfold rawResult, getRawSparse.
  destruct (st_preRaw s) eqn:P.
  - destruct (inv_raw _ _ _ I P) as [m0 [idx [m [E [Em Sm]]]]]. rewrite E, Em.
    destruct (inv_idx _ _ _ I) as [[_ [K _]]|[m0' [idx' [rest [E' Ei]]]]]; [congruence|].
    rewrite E in E'; inversion E'; subst m0' idx'. rewrite Ei.
    rewrite (assembleRawSparse_ext m0) by (auto; eapply (preProcess_idx flags els []); eauto).
    destruct (assembleRawSparse vzero vadd m0 idx els q) as [m'|] eqn:A; [|reflexivity].
    eexists; split; [reflexivity|]. apply assembleRawSparse_pattern in A.
    destruct I as [I1 I2 I3 I4 I5]. constructor; simpl; auto; try (intro; eauto 10; fail).
    + right; eauto.
  - destruct (preProcessSparse vzero flags els []) as [[m0 idx]|] eqn:E.
    + destruct (preProcess_idx flags els (st_idx s) m0 idx E) as [E2 L]. rewrite E2. cbn [option_map fst snd].
      cbn [st_raw st_idx set_raw]. 
      assert (exists rest, st_idx s ++ idx = idx ++ rest) as [rest Er].
      { destruct (inv_idx _ _ _ I) as [[-> _]|[m0' [idx' [rest [E' ->]]]]].
        - exists []. rewrite app_nil_r; auto.
        - rewrite E in E'. inversion E'; subst. exists (rest ++ idx'). rewrite app_assoc; auto. }
      rewrite Er. rewrite (assembleRawSparse_ext m0) by (auto; apply samePattern_refl).
      destruct (assembleRawSparse vzero vadd m0 idx els q) as [m'|] eqn:A; [|reflexivity].
      eexists; split; [reflexivity|]. apply assembleRawSparse_pattern in A.
      destruct I as [I1 I2 I3 I4 I5]. constructor; simpl; auto.
      * intros _; eauto 10.
      * right; eauto.
    + rewrite preProcess_idx_none by auto. reflexivity.
Qed.

Lemma getSparse_step flags els s q : Inv flags els s ->
  match fullOf flags (rawResult flags els q) with
  | Some m => exists s', getSparse vzero vone vadd vmul flags els s q = Some (s', m) /\ Inv flags els s'
  | None => getSparse vzero vone vadd vmul flags els s q = None
  end.
Proof.
  intro I. unfold rawResult, getSparse.
  destruct (st_preFull s) eqn:P.
  - destruct (inv_full _ _ _ I P) as [m0 [idx [m [E [Em Sm]]]]]. rewrite E, Em.
    destruct (inv_idx _ _ _ I) as [[_ [_ K]]|[m0' [idx' [rest [E' Ei]]]]]; [congruence|].
    rewrite E in E'; inversion E'; subst m0' idx'. rewrite Ei.
    rewrite (assembleRawSparse_ext m0) by (auto; eapply (preProcess_idx flags els []); eauto).
    destruct (assembleRawSparse vzero vadd m0 idx els q) as [ma|] eqn:A; [|reflexivity].
    apply assembleRawSparse_pattern in A. pose proof (fullOf_pattern flags ma) as FP. simpl in *.
    destruct (forConstrained flags (sparse_col_zero vzero vmul) ma) as [m1|]; [|reflexivity].
    destruct (forConstrained flags (sparse_row_zero vzero vmul) m1) as [m2|]; [|reflexivity].
    destruct (forConstrained flags (sparse_diag_one vone) m2) as [m3|]; [|reflexivity].
    specialize (FP m3 eq_refl). eexists; split; [reflexivity|].
    destruct I as [I1 I2 I3 I4 I5]. constructor; simpl; auto.
    + intros _. exists m0, idx, m3. repeat split; auto. eapply samePattern_trans; eauto.
    + right; eauto.
  - destruct (preProcessSparse vzero flags els []) as [[m0 idx]|] eqn:E.
    + destruct (preProcess_idx flags els (st_idx s) m0 idx E) as [E2 L]. rewrite E2. cbn [option_map fst snd].
      cbn [st_full st_idx set_full]. 
      assert (exists rest, st_idx s ++ idx = idx ++ rest) as [rest Er].
      { destruct (inv_idx _ _ _ I) as [[-> _]|[m0' [idx' [rest [E' ->]]]]].
        - exists []. rewrite app_nil_r; auto.
        - rewrite E in E'. inversion E'; subst. exists (rest ++ idx'). rewrite app_assoc; auto. }
      rewrite Er. rewrite (assembleRawSparse_ext m0) by (auto; apply samePattern_refl).
      destruct (assembleRawSparse vzero vadd m0 idx els q) as [ma|] eqn:A; [|reflexivity].
      apply assembleRawSparse_pattern in A. pose proof (fullOf_pattern flags ma) as FP. simpl in *.
      destruct (forConstrained flags (sparse_col_zero vzero vmul) ma) as [m1|]; [|reflexivity].
      destruct (forConstrained flags (sparse_row_zero vzero vmul) m1) as [m2|]; [|reflexivity].
      destruct (forConstrained flags (sparse_diag_one vone) m2) as [m3|]; [|reflexivity].
      specialize (FP m3 eq_refl). eexists; split; [reflexivity|].
      destruct I as [I1 I2 I3 I4 I5]. constructor; simpl; auto.
      * intros _. exists m0, idx, m3. repeat split; auto. eapply samePattern_trans; eauto.
      * right; eauto.
    + rewrite preProcess_idx_none by auto. reflexivity.
Qed.

Lemma getReducedSparse_step flags els s q : Inv flags els s ->
  match redResult flags els q with
  | Some m => exists s', getReducedSparse vzero vadd flags els s q = Some (s', m) /\ Inv flags els s'
  | None => getReducedSparse vzero vadd flags els s q = None
  end.
Proof.
  intro I. unfold redResult, getReducedSparse.
  destruct (st_preRed s) eqn:P.
  - destruct (inv_red _ _ _ I P) as [m0 [idx [m [rest [E [Em [Sm Ei]]]]]]]. rewrite E, Em, Ei.
    rewrite assembleReducedSparse_ext by (eapply preProcessRed_length; eauto).
    destruct Sm as [v [-> Hv]]. cbn [svals with_vals]. rewrite Hv.
    destruct (assembleReducedSparse_loop vadd flags _ idx els q) as [c|] eqn:A; [|reflexivity].
    apply assembleReducedSparse_loop_length in A. rewrite repeat_length in A.
    eexists; split; [reflexivity|].
    destruct I as [I1 I2 I3 I4 I5]. constructor; simpl; auto.
    + intros _. exists m0, idx, (with_vals m0 c), rest. repeat split; auto. exists c; auto.
    + congruence.
  - rewrite (inv_idxRed _ _ _ I P).
    destruct (preProcessSparseReduced vzero flags els []) as [[m0 idx]|] eqn:E; [|reflexivity].
    cbn [option_map fst snd st_red st_idxRed st_preRed set_red].
    destruct (assembleReducedSparse_loop vadd flags _ idx els q) as [c|] eqn:A; [|reflexivity].
    apply assembleReducedSparse_loop_length in A. rewrite repeat_length in A.
    eexists; split; [reflexivity|].
    destruct I as [I1 I2 I3 I4 I5]. constructor; simpl; auto; try discriminate.
    intros _. exists m0, idx, (with_vals m0 c), []. repeat split; auto. + exists c; auto. + rewrite app_nil_r; auto.
Qed.

(** Result of a request, without any state. *)
Definition pureResponse flags els (r : request) : option response :=
  match r with
  | RMatrix Raw q => option_map OSparse (rawResult flags els q)
  | RMatrix Full q => option_map OSparse (fullOf flags (rawResult flags els q))
  | RMatrix Reduced q => option_map OSparse (redResult flags els q)
  | _ => denseRequest vzero vone vadd flags els r
  end.

Lemma spStep_pure flags els s r : Inv flags els s ->
  match pureResponse flags els r with
  | Some o => exists s', spStep vzero vone vadd vmul flags els s r = Some (s', o) /\ Inv flags els s'
  | None => spStep vzero vone vadd vmul flags els s r = None
  end.
Proof.
  intro I. destruct r as [q|[] q|[] q]; simpl.
  - eexists; split; [reflexivity|]. destruct I; constructor; simpl; auto.
  - destruct (getRawVector vzero vadd flags els q); simpl; auto. eexists; split; [reflexivity|]. destruct I; constructor; simpl; auto.
  - destruct (getReducedVector vzero vadd flags els q); simpl; auto. eexists; split; [reflexivity|]. destruct I; constructor; simpl; auto.
  - destruct (getVector vzero vadd flags els q); simpl; auto. eexists; split; [reflexivity|]. destruct I; constructor; simpl; auto.
  - pose proof (getRawSparse_step flags els s q I) as H. destruct (rawResult flags els q); simpl; [|rewrite H; auto].
    destruct H as [s' [-> K]]. simpl. eauto.
  - pose proof (getReducedSparse_step flags els s q I) as H. destruct (redResult flags els q); simpl; [|rewrite H; auto].
    destruct H as [s' [-> K]]. simpl. eauto.
  - pose proof (getSparse_step flags els s q I) as H. destruct (fullOf flags (rawResult flags els q)); simpl; [|rewrite H; auto].
    destruct H as [s' [-> K]]. simpl. eauto.
Qed.

Lemma spRun_Inv flags els h : forall s s', Inv flags els s -> spRun vzero vone vadd vmul flags els s h = Some s' -> Inv flags els s'.
Proof.
  induction h as [|r h IH]; intros s s' I H; unfold spRun in H; simpl in H.
  - inversion H; subst; auto.
  - pose proof (spStep_pure flags els s r I) as P. destruct (pureResponse flags els r).
    + destruct P as [s1 [E I1]]. rewrite E in H. simpl in H. eapply IH; eauto.
    + rewrite P in H. discriminate.
Qed.

Lemma history_independent flags els h s r :
  spRun vzero vone vadd vmul flags els (spInit vzero) h = Some s ->
  option_map snd (spStep vzero vone vadd vmul flags els s r) =
  option_map snd (spStep vzero vone vadd vmul flags els (spInit vzero) r).
Proof.
  intro H. apply spRun_Inv in H; [|apply Inv_init].
  pose proof (spStep_pure flags els s r H) as P1.
  pose proof (spStep_pure flags els (spInit vzero) r (Inv_init flags els)) as P2.
  destruct (pureResponse flags els r).
  - destruct P1 as [s1 [-> _]]. destruct P2 as [s2 [-> _]]. auto.
  - rewrite P1, P2; auto.
Qed.

(** * Every request succeeds on well-formed input, and the sparse results are those of the dense assembler. *)

Lemma preProcessSparse_ok flags els : wfElements (length flags) els ->
  exists m0, preProcessSparse vzero flags els [] = Some (m0, elSlots m0 els) /\ wfPattern m0 (length flags) /\
    (forall r c, (exists p, isSlot m0 r c p) <-> exists e, In e els /\ In r (dofs e) /\ In c (dofs e)).
Proof.
  intro W. destruct (createOccupationPattern_spec vzero flags els W) as [m [H1 [H2 H3]]].
  exists m. unfold preProcessSparse. rewrite H1.
  rewrite (mapM_linearDOFs m (length flags)); auto.
  intros e r c He Hr Hc. apply H3; eauto.
Qed.

Lemma rawResult_ok flags els q : wfElements (length flags) els ->
  exists m0 v, preProcessSparse vzero flags els [] = Some (m0, elSlots m0 els) /\ wfPattern m0 (length flags) /\
    (forall r c, (exists p, isSlot m0 r c p) <-> exists e, In e els /\ In r (dofs e) /\ In c (dofs e)) /\
    rawResult flags els q = Some (with_vals m0 v) /\ length v = length (svals m0) /\
    (forall r c p, isSlot m0 r c p -> r < length flags -> c < length flags ->
       nth_error v p = Some (sum vzero vadd (trips_at (r, c) (flat_map (fun e => tripsCM e q) els)))) /\
    spIs vzero (with_vals m0 v) (length flags) (fun r c => sum vzero vadd (trips_at (r, c) (flat_map (fun e => tripsCM e q) els))).
Proof.
  intro W. destruct (preProcessSparse_ok flags els W) as [m0 [H1 [H2 H3]]].
  destruct (assembleRawSparse_spec vzero vadd vmul m0 (length flags) els [] q H2 W) as [v [K1 [K2 [K3 K4]]]].
  { intros e r c He Hr Hc. apply H3; eauto. }
  rewrite app_nil_r in K1. exists m0, v. unfold rawResult. rewrite H1. repeat split; auto; try apply H2; try apply H3; try apply K4.
Qed.

(** The entry of the sparse matrix with Dirichlet treatment; [inPattern]: some element couples the two dofs. *)
Definition inPattern els (r c : nat) : Prop := exists e, In e els /\ In r (dofs e) /\ In c (dofs e).

Lemma fullResult_ok flags els q : wfElements (length flags) els -> constrainedCovered flags els ->
  exists m, fullOf flags (rawResult flags els q) = Some m /\ srows m = length flags /\ scols m = length flags /\
    forall r c, r < length flags -> c < length flags ->
      (inPattern els r c -> sget vzero m r c = Some (sparseFullEntry vzero vone vmul flags
          (fun r c => sum vzero vadd (trips_at (r, c) (flat_map (fun e => tripsCM e q) els))) r c)) /\
      (~ inPattern els r c -> sget vzero m r c = Some vzero).
Proof.
  intros W Cov. destruct (rawResult_ok flags els q W) as [m0 [v [H1 [H2 [H3 [H4 [H5 [H6 H7]]]]]]]].
  rewrite H4. simpl.
  destruct (dirichlet_loops vzero vone vadd vmul flags m0 v (fun r c => sum vzero vadd (trips_at (r, c) (flat_map (fun e => tripsCM e q) els))) H2)
    as [v1 [v2 [v3 [D1 [D2 [D3 [D4 [D5 D6]]]]]]]]; auto.
  - intros i Ci. apply H3. destruct (Cov i Ci) as [e [He Hi]]. eauto.
  - rewrite D1, D2, D3. eexists; split; [reflexivity|]. split; [apply (wf_rows _ _ H2)|]. split; [apply (wf_cols _ _ H2)|].
    intros r c Hr Hc. split; intro K.
    + apply D5; auto. apply H3; auto.
    + apply D6; auto. intros p Hp. apply K. apply H3. eauto.
Qed.

Lemma trips_nopattern els q r c : ~ inPattern els r c -> trips_at (r, c) (flat_map (fun e => tripsCM e q) els) = [].
Proof.
  intro Hp. rewrite trips_at_flat_map.
  assert (forall e, In e els -> trips_at (r, c) (tripsCM e q) = []) as Z0.
  { intros e He. destruct (trips_at (r, c) (tripsCM e q)) as [|x l] eqn:Et; auto. exfalso.
    assert (In x (trips_at (r, c) (tripsCM e q))) as Ix by (rewrite Et; simpl; auto).
    unfold trips_at in Ix. apply in_map_iff in Ix as [[k y] [_ Ix]]. apply filter_In in Ix as [Ix Ik].
    simpl in Ik. destruct (keq_spec k (r, c)); try discriminate. subst k. apply tripsCM_in in Ix as [Ir Ic]. simpl in *.
    apply Hp. exists e; auto. }
  clear -Z0. induction els as [|e els IH]; simpl; auto. rewrite Z0 by (simpl; auto). simpl. apply IH. intros; apply Z0; simpl; auto.
Qed.

Lemma inPattern_dec els r c : inPattern els r c \/ ~ inPattern els r c.
Proof.
  unfold inPattern. induction els as [|e els IH]. - right. intros [e [[] _]].
  - destruct IH as [[e' [H1 H2]]|H]. { left; exists e'; simpl; auto. }
    destruct (in_dec Nat.eq_dec r (dofs e)); destruct (in_dec Nat.eq_dec c (dofs e)).
    + left; exists e; simpl; auto.
    + right. intros [e' [[<-|K] [K1 K2]]]; eauto.
    + right. intros [e' [[<-|K] [K1 K2]]]; eauto.
    + right. intros [e' [[<-|K] [K1 K2]]]; eauto.
Qed.

Lemma redResult_ok flags els q : wfElements (length flags) els ->
  exists m, redResult flags els q = Some m /\ spRedIs vzero m flags (matEntry vzero vadd els q).
Proof.
  intro W. destruct (createReducedOccupationPattern_spec vzero flags els W) as [m0 [H1 [H2 H3]]].
  unfold redResult, preProcessSparseReduced. rewrite H1.
  rewrite (mapM_some _ (fun e => map (fun t => slotf m0 (fst t)) (tripsRed vzero flags e q))).
  2:{ intros e He. apply linearDOFsReduced_spec; auto. intros; eapply H3; eauto. }
  cbn [app]. fold (elSlotsRed vzero flags m0 els q).
  destruct (assembleReducedSparse_spec vzero vadd vmul flags m0 els [] q q W H2) as [v [K1 [K2 K3]]]. { intros; eapply H3; eauto. }
  rewrite app_nil_r in K1. rewrite K1. simpl. eauto.
Qed.


Lemma pureResponse_total flags els r : wfElements (length flags) els ->
  (forall q, r = RMatrix Full q -> constrainedCovered flags els) -> exists o, pureResponse flags els r = Some o.
Proof.
  intros W F. destruct r as [q|[] q|[] q]; simpl.
  - eauto.
  - destruct (assembleRawVector_spec vzero vadd (length flags) els q W) as [v [E _]]. unfold getRawVector, size. rewrite E; simpl; eauto.
  - destruct (getReducedVector_spec vzero vadd flags els q W) as [v [E _]]. rewrite E; simpl; eauto.
  - destruct (assembleRawVector_spec vzero vadd (length flags) els q W) as [v [E _]]. unfold getVector, size. rewrite E; simpl; eauto.
  - destruct (rawResult_ok flags els q W) as [m0 [v [_ [_ [_ [E _]]]]]]. rewrite E; simpl; eauto.
  - destruct (redResult_ok flags els q W) as [m [E _]]. rewrite E; simpl; eauto.
  - destruct (fullResult_ok flags els q W (F q eq_refl)) as [m [E _]]. rewrite E; simpl; eauto.
Qed.

Lemma history_total flags els h r : wfElements (length flags) els -> constrainedCovered flags els ->
  exists s s1 s2 o, spRun vzero vone vadd vmul flags els (spInit vzero) h = Some s /\
    spStep vzero vone vadd vmul flags els s r = Some (s1, o) /\
    spStep vzero vone vadd vmul flags els (spInit vzero) r = Some (s2, o).
Proof.
  intros W F.
  assert (forall h s, Inv flags els s -> exists s', spRun vzero vone vadd vmul flags els s h = Some s') as R.
  { induction h0 as [|r0 h0 IH]; intros s I; unfold spRun; simpl; eauto.
    pose proof (spStep_pure flags els s r0 I) as P.
    destruct (pureResponse_total flags els r0 W (fun _ _ => F)) as [o Eo]. rewrite Eo in P.
    destruct P as [s1 [E I1]]. rewrite E; simpl. apply IH; auto. }
  destruct (R h (spInit vzero) (Inv_init flags els)) as [s E].
  pose proof (spRun_Inv flags els h _ _ (Inv_init flags els) E) as I.
  destruct (pureResponse_total flags els r W (fun _ _ => F)) as [o Eo].
  pose proof (spStep_pure flags els s r I) as P1. rewrite Eo in P1. destruct P1 as [s1 [E1 _]].
  pose proof (spStep_pure flags els (spInit vzero) r (Inv_init flags els)) as P2. rewrite Eo in P2. destruct P2 as [s2 [E2 _]].
  exists s, s1, s2, o; auto.
Qed.

Lemma sparse_step_init flags els r o : pureResponse flags els r = Some o ->
  exists s, spStep vzero vone vadd vmul flags els (spInit vzero) r = Some (s, o).
Proof.
  intro E. pose proof (spStep_pure flags els (spInit vzero) r (Inv_init flags els)) as P. rewrite E in P.
  destruct P as [s [H _]]; eauto.
Qed.

(** Two matrices with the same entries. *)
Definition agree (sm : sparse) (dm : dense) : Prop :=
  srows sm = drows dm /\ scols sm = dcols dm /\
  forall r c, sget vzero sm r c = dget dm r c.

Lemma agree_of n sm dm f : spIs vzero sm n f -> denseIs dm n f -> agree sm dm.
Proof.
  intros [A [B C]] [D [E [F G]]]. split; [congruence|]. split; [congruence|]. intros r c.
  destruct (lt_dec r n) as [Lr|Lr]; [destruct (lt_dec c n) as [Lc|Lc]|].
  - rewrite C, G; auto.
  - unfold sget, dget. rewrite A, B, D, E. replace (c <? n) with false by (symmetry; apply Nat.ltb_ge; lia). rewrite andb_false_r; auto.
  - unfold sget, dget. rewrite A, B, D, E. replace (r <? n) with false by (symmetry; apply Nat.ltb_ge; lia). auto.
Qed.

Lemma spIs_ext sm n f g : spIs vzero sm n f -> (forall r c, r < n -> c < n -> f r c = g r c) -> spIs vzero sm n g.
Proof. intros [A [B C]] H. repeat split; auto. intros; rewrite C, H; auto. Qed.

Lemma sparse_dense_agree flags els q o : wfElements (length flags) els -> distinctDofs els ->
  (o = Full -> constrainedCovered flags els /\ forall x, vmul x vzero = vzero) ->
  exists s sm dm, spStep vzero vone vadd vmul flags els (spInit vzero) (RMatrix o q) = Some (s, OSparse sm) /\
    denseRequest vzero vone vadd flags els (RMatrix o q) = Some (ODense dm) /\ agree sm dm.
Proof.
  intros W N F.
  assert (forall r c, sum vzero vadd (trips_at (r, c) (flat_map (fun e => tripsCM e q) els)) = matEntry vzero vadd els q r c) as EM.
  { intros. eapply matEntry_CM; eauto. }
  destruct o.
  - destruct (rawResult_ok flags els q W) as [m0 [v [_ [_ [_ [E [_ [_ S]]]]]]]].
    destruct (sparse_step_init flags els (RMatrix Raw q) (OSparse (with_vals m0 v))) as [s Es]; [simpl; rewrite E; auto|].
    destruct (assembleRawDense_spec vzero vadd (length flags) els q W) as [dm [Ed D]].
    exists s, (with_vals m0 v), dm. split; auto. split. { simpl. unfold getRawDense, size. rewrite Ed; auto. }
    eapply agree_of; [|exact D]. eapply spIs_ext; [exact S|]. intros; apply EM.
  - destruct (redResult_ok flags els q W) as [m [E S]].
    destruct (sparse_step_init flags els (RMatrix Reduced q) (OSparse m)) as [s Es]; [simpl; rewrite E; auto|].
    destruct (getReducedDense_spec vzero vadd flags els q W) as [dm [Ed D]].
    exists s, m, dm. split; auto. split. { simpl. rewrite Ed; auto. }
    destruct S as [A [B C]]. destruct D as [D1 [D2 [D3 D4]]]. split; [congruence|]. split; [congruence|]. intros r c.
    destruct (lt_dec r (reducedSize flags)) as [Lr|Lr]; [destruct (lt_dec c (reducedSize flags)) as [Lc|Lc]|].
    + destruct (rk_surj _ _ Lr) as [r' [Fr <-]]. destruct (rk_surj _ _ Lc) as [c' [Fc <-]]. rewrite C, D4; auto.
    + unfold sget, dget. rewrite A, B, D1, D2. replace (c <? reducedSize flags) with false by (symmetry; apply Nat.ltb_ge; lia). rewrite andb_false_r; auto.
    + unfold sget, dget. rewrite A, B, D1, D2. replace (r <? reducedSize flags) with false by (symmetry; apply Nat.ltb_ge; lia). auto.
  - destruct (F eq_refl) as [Cov Z]. destruct (fullResult_ok flags els q W Cov) as [m [E [S1 [S2 S3]]]].
    destruct (sparse_step_init flags els (RMatrix Full q) (OSparse m)) as [s Es]; [simpl; rewrite E; auto|].
    destruct (getDense_spec vzero vone vadd flags els q W) as [dm [Ed D]].
    exists s, m, dm. split; auto. split. { simpl. rewrite Ed; auto. }
    eapply agree_of; [|exact D]. split; auto. split; auto. intros r c Hr Hc. destruct (S3 r c Hr Hc) as [P1 P2].
    destruct (inPattern_dec els r c) as [K|K].
    + rewrite P1 by auto. f_equal. unfold sparseFullEntry, fullEntry. rewrite EM.
      destruct (r =? c) eqn:Erc; destruct (nth r flags false) eqn:Fr; destruct (nth c flags false) eqn:Fc; simpl; rewrite ?Z; auto.
      apply Nat.eqb_eq in Erc; subst; congruence.
    + rewrite P2 by auto. f_equal. unfold fullEntry. rewrite <- EM, trips_nopattern by auto.
      destruct (Nat.eqb_spec r c) as [<-|]; [|destruct (nth r flags false || nth c flags false); auto].
      destruct (nth r flags false) eqn:Fr; simpl; auto. exfalso. apply K. destruct (Cov r) as [e [He Hi]].
      * apply nth_true_constrained; auto. * exists e; auto.
Qed.

(** * Cached slots *)

Lemma keysCM_nth ds i j : i < length ds -> j < length ds ->
  nth_error (keysCM ds) (i + j * length ds) = Some (nth i ds 0, nth j ds 0).
Proof.
  unfold keysCM. intros Hi. 
  assert (forall cs j, j < length cs -> nth_error (flat_map (fun c => map (fun r => (r, c)) ds) cs) (i + j * length ds) = Some (nth i ds 0, nth j cs 0)) as G; auto.
  induction cs as [|c cs IH]; intros [|j'] Hj; simpl in *; try lia.
  - rewrite Nat.add_0_r, nth_error_app1 by (rewrite map_length; auto).
    erewrite map_nth_error; eauto. apply nth_error_nth'; auto.
  - rewrite nth_error_app2 by (rewrite map_length; lia). rewrite map_length. rewrite <- (IH j') by lia. f_equal; lia.
Qed.

(** Slot [p] holds entry [(r, c)] of the compressed matrix. *)
Lemma raw_slots_valid flags els : wfElements (length flags) els ->
  exists m idx, preProcessSparse vzero flags els [] = Some (m, idx) /\ length idx = length els /\
    forall k e, nth_error els k = Some e -> exists sl, nth_error idx k = Some sl /\ length sl = length (dofs e) * length (dofs e) /\
      forall i j, i < length (dofs e) -> j < length (dofs e) ->
        exists p, nth_error sl (i + j * length (dofs e)) = Some p /\ p < length (svals m) /\
                  isSlot m (nth i (dofs e) 0) (nth j (dofs e) 0) p.
Proof.
  intro W. destruct (preProcessSparse_ok flags els W) as [m [H1 [H2 H3]]].
  exists m, (elSlots m els). split; auto. split. { unfold elSlots; rewrite map_length; auto. }
  intros k e Hk. exists (map (slotf m) (keysCM (dofs e))). split. { unfold elSlots. erewrite map_nth_error; eauto. }
  split. { rewrite map_length, keysCM_length; auto. }
  intros i j Hi Hj. pose proof (nth_error_In _ _ Hk) as He. destruct (W e He) as [Hd _].
  assert (exists p, isSlot m (nth i (dofs e) 0) (nth j (dofs e) 0) p) as [p Hp].
  { apply H3. exists e; repeat split; auto; apply nth_In; auto. }
  exists p. split; [|split; auto].
  - erewrite map_nth_error; [|apply keysCM_nth; auto]. f_equal. eapply slotf_slot; eauto; apply Hd, nth_In; auto.
  - eapply isSlot_range; eauto.
Qed.

Lemma flat_map_nth {A B} (F : A -> list B) l d : flat_map F l = flat_map (fun i => F (nth i l d)) (seq 0 (length l)).
Proof. rewrite <- (flat_map_map' F (fun i => nth i l d)), nth_seq_id; auto. Qed.

Lemma map_filter_nth {A B} (g : A -> B) (p : A -> bool) l d :
  map g (filter p l) = map (fun i => g (nth i l d)) (filter (fun i => p (nth i l d)) (seq 0 (length l))).
Proof. rewrite <- (map_map (fun i => nth i l d) g), <- filter_map, nth_seq_id; auto. Qed.

Lemma tripsRed_keys flags e q : map fst (tripsRed vzero flags e q) = list_prod (freeRanks flags e) (freeRanks flags e).
Proof.
  unfold tripsRed, trips. rewrite map_map. cbn [fst].
  rewrite filter_flat_map, map_flat_map.
  assert (forall l l' : list nat, list_prod l l' = flat_map (fun x => map (fun y => (x, y)) l') l) as LP.
  { induction l; intro l'; simpl; auto. rewrite IHl; auto. }
  rewrite LP. unfold freeRanks at 2. rewrite flat_map_map'. rewrite flat_map_filter.
  rewrite (flat_map_nth _ (dofs e) 0). apply flat_map_ext_in. intros i Hi.
  rewrite filter_map, map_map. cbn [fst snd]. fold (isFreeb flags (nth i (dofs e) 0)).
  destruct (isFreeb flags (nth i (dofs e) 0)); simpl.
  - unfold freeRanks. rewrite map_map. rewrite (map_filter_nth _ _ (dofs e) 0). reflexivity.
  - clear Hi. induction (seq 0 (length (dofs e))); auto.
Qed.

Lemma reduced_slots_valid flags els (q : Q) : wfElements (length flags) els ->
  exists m idx, preProcessSparseReduced vzero flags els [] = Some (m, idx) /\ length idx = length els /\
    forall k e, nth_error els k = Some e -> exists sl, nth_error idx k = Some sl /\
      Forall2 (fun rc p => p < length (svals m) /\ isSlot m (fst rc) (snd rc) p) (list_prod (freeRanks flags e) (freeRanks flags e)) sl.
Proof.
  intro W. destruct (createReducedOccupationPattern_spec vzero flags els W) as [m0 [H1 [H2 H3]]].
  exists m0, (elSlotsRed vzero flags m0 els q). unfold preProcessSparseReduced. rewrite H1.
  rewrite (mapM_some _ (fun e => map (fun t => slotf m0 (fst t)) (tripsRed vzero flags e q))).
  2:{ intros e He. apply linearDOFsReduced_spec; auto. intros; eapply H3; eauto. }
  split; auto. split. { unfold elSlotsRed; rewrite map_length; auto. }
  intros k e Hk. exists (map (fun t => slotf m0 (fst t)) (tripsRed vzero flags e q)).
  split. { unfold elSlotsRed. erewrite map_nth_error; eauto. }
  pose proof (nth_error_In _ _ Hk) as He. rewrite <- (tripsRed_keys flags e q).
  assert (forall t, In t (tripsRed vzero flags e q) -> slotf m0 (fst t) < length (svals m0) /\ isSlot m0 (fst (fst t)) (snd (fst t)) (slotf m0 (fst t))) as G.
  { intros t Ht. destruct (H3 e t q He Ht) as [p Hp]. destruct (tripsRed_range _ _ _ _ _ Ht).
    assert (slotf m0 (fst t) = p) as ->. { rewrite (surjective_pairing (fst t)). eapply slotf_slot; eauto. }
    split; auto. eapply isSlot_range; eauto. }
  induction (tripsRed vzero flags e q) as [|t l IH]; simpl; constructor.
  - apply G; simpl; auto. - apply IH. intros; apply G; simpl; auto.
Qed.

End History.
