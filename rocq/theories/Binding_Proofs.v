From Coq Require Import List Arith Bool Lia.
From Verif Require Import Assembler_Model Assembler_Spec Assembler_Proofs AssemblerSparse_Proofs AssemblerHistory_Proofs Binding_Model Binding_Spec.
Import ListNotations.

Section B.
Context {V Ref RV AF : Type} (vzero vone : V) (vadd vmul : V -> V -> V).
Notation Q := (RV * AF)%type.
Notation elt := (element (V:=V) Q).
Notation history := (history V Ref RV AF).
Notation asm := (asm V Ref RV AF).
Notation step := (step vzero vone vadd vmul).
Notation run := (run vzero vone vadd vmul).
Implicit Types (flags : list bool) (els : list elt) (s : asm) (h : history).

Lemma lastOf_app {A} (l l' : list A) : lastOf (l ++ l') = match lastOf l' with Some x => Some x | None => lastOf l end.
Proof. unfold lastOf. rewrite rev_app_distr. destruct (rev l'); auto. Qed.

(** One step's effect on the bound data and the callbacks. *)
Lemma step_effect flags els hp s o s' x : step flags els hp s o = Some (s', x) ->
  a_req s' = match lastOf (reqOf o) with Some r => Some r | None => a_req s end /\
  a_aff s' = match lastOf (affOf o) with Some r => Some r | None => a_aff s end /\
  a_opt s' = match lastOf (optOf o) with Some r => Some r | None => a_opt s end /\
  a_sfs s' = a_sfs s ++ sOf o /\ a_vfs s' = a_vfs s ++ vOf o /\ a_mfs s' = a_mfs s ++ mOf o.
Proof.
  assert (forall r s' x, request_ vzero vone vadd vmul flags els s r = Some (s', x) ->
     a_req s' = a_req s /\ a_aff s' = a_aff s /\ a_opt s' = a_opt s /\ a_sfs s' = a_sfs s /\ a_vfs s' = a_vfs s /\ a_mfs s' = a_mfs s) as R.
  { intros r t y. unfold request_. destruct (spStep _ _ _ _ _ _ _ _) as [[sp o0]|]; intro E; inversion E; repeat split. }
  destruct o; simpl; rewrite ?app_nil_r; intro E;
    repeat match type of E with context [match ?a with Some _ => _ | None => _ end] => destruct a eqn:? end;
    try (inversion E; subst; simpl; repeat split; congruence); try (apply R in E; intuition congruence).
Qed.

Lemma run_effect flags els h : forall s s', run flags els s h = Some s' ->
  a_req s' = match lastReq h with Some r => Some r | None => a_req s end /\
  a_aff s' = match lastAff h with Some r => Some r | None => a_aff s end /\
  a_opt s' = match lastOpt h with Some r => Some r | None => a_opt s end /\
  a_sfs s' = a_sfs s ++ sCalls h /\ a_vfs s' = a_vfs s ++ vCalls h /\ a_mfs s' = a_mfs s ++ mCalls h.
Proof.
  induction h as [|[hp o] h IH]; intros s s' H; unfold Binding_Model.run in H; simpl in H.
  - inversion H; subst. unfold lastReq, lastAff, lastOpt, sCalls, vCalls, mCalls; simpl. rewrite !app_nil_r. repeat split.
  - destruct (step flags els hp s o) as [[s1 x]|] eqn:E; try discriminate. simpl in H.
    apply step_effect in E as [E1 [E2 [E3 [E4 [E5 E6]]]]]. apply IH in H as [H1 [H2 [H3 [H4 [H5 H6]]]]].
    unfold lastReq, lastAff, lastOpt, sCalls, vCalls, mCalls in *. simpl. rewrite !lastOf_app.
    rewrite H1, H2, H3, H4, H5, H6, E1, E2, E3, E4, E5, E6, !app_assoc.
    split; [destruct (lastOf (flat_map (fun x => reqOf (snd x)) h)); auto|].
    split; [destruct (lastOf (flat_map (fun x => affOf (snd x)) h)); auto|].
    split; [destruct (lastOf (flat_map (fun x => optOf (snd x)) h)); auto|]. auto.
Qed.

(** Invariant: caches valid, and all matrix callbacks keep the pattern. *)
Lemma manip_pattern (s : asm) (q : Q) d m : (forall f, In f (a_mfs s) -> keepsPattern f) ->
  samePattern m (fold_left (fun m f => f q d m) (a_mfs s) m).
Proof.
  generalize (a_mfs s) as l. intro l. revert m. induction l as [|f l IH]; intros m K; simpl.
  - apply samePattern_refl.
  - eapply samePattern_trans; [|apply IH; intros; apply K; simpl; auto].
    destruct (K f (or_introl eq_refl) q d m) as [A [B [C [D E]]]]. exists (svals (f q d m)). split; auto.
    destruct (f q d m), m; unfold with_vals; simpl in *; congruence.
Qed.

(** Every matrix request leaves the member it returns. *)
Lemma store_Inv flags els (sp sp' : spState) (r : request (Q:=Q)) o (s : asm) :
  Inv vzero flags els sp -> (forall f, In f (a_mfs s) -> keepsPattern f) ->
  spStep vzero vone vadd vmul flags els sp r = Some (sp', o) -> Inv vzero flags els sp' ->
  Inv vzero flags els (store sp' r (manipulate s r o)).
Proof.
  intros I K E I'.
  destruct r as [q|d q|d q]; destruct o as [x|v|m|dm]; simpl; auto; try (destruct d; exact I').
  - destruct I'; constructor; simpl; auto.
  - destruct d; destruct I'; constructor; simpl; auto.
  - set (m' := fold_left (fun m f => f q d m) (a_mfs s) m).
    assert (samePattern m m') as P by (apply manip_pattern; auto).
    destruct d; simpl in E.
    + unfold getRawSparse in E.
      destruct (if st_preRaw sp then _ else _) as [s1|] eqn:E1; try discriminate. simpl in E.
      destruct (st_raw s1) as [m1|] eqn:E2; try discriminate. destruct (assembleRawSparse _ _ _ _ _ _) as [m2|]; try discriminate.
      inversion E; subst. destruct I' as [I1 I2 I3 I4 I5]. constructor; simpl in *; auto.
      intro T. destruct (I1 T) as [m0 [idx [mm [A [B C]]]]]. inversion B; subst mm. exists m0, idx, m'. repeat split; auto. eapply samePattern_trans; eauto.
    + unfold getReducedSparse in E.
      destruct (if st_preRed sp then _ else _) as [s1|] eqn:E1; try discriminate. simpl in E.
      destruct (st_red s1) as [m1|] eqn:E2; try discriminate. destruct (assembleReducedSparse_loop _ _ _ _ _ _) as [m2|]; try discriminate.
      inversion E; subst. destruct I' as [I1 I2 I3 I4 I5]. constructor; simpl in *; auto.
      intro T. destruct (I4 T) as [m0 [idx [mm [rest [A [B [C D]]]]]]]. inversion B; subst mm. exists m0, idx, m', rest. repeat split; auto. eapply samePattern_trans; eauto.
    + unfold getSparse in E.
      destruct (if st_preFull sp then _ else _) as [s1|] eqn:E1; try discriminate. simpl in E.
      destruct (st_full s1) as [m1|] eqn:E2; try discriminate. destruct (assembleRawSparse _ _ _ _ _ _) as [m2|]; try discriminate.
      destruct (forConstrained flags (sparse_col_zero vzero vmul) m2) as [m3|]; try discriminate.
      destruct (forConstrained flags (sparse_row_zero vzero vmul) m3) as [m4|]; try discriminate.
      destruct (forConstrained flags (sparse_diag_one vone) m4) as [m5|]; try discriminate.
      inversion E; subst. destruct I' as [I1 I2 I3 I4 I5]. constructor; simpl in *; auto.
      intro T. destruct (I2 T) as [m0 [idx [mm [A [B C]]]]]. inversion B; subst mm. exists m0, idx, m'. repeat split; auto. eapply samePattern_trans; eauto.
Qed.

Definition Ok flags els s : Prop := Inv vzero flags els (a_sp s) /\ forall f, In f (a_mfs s) -> keepsPattern f.

Lemma request_Ok flags els s r s' x : Ok flags els s -> request_ vzero vone vadd vmul flags els s r = Some (s', x) -> Ok flags els s'.
Proof.
  intros [I K] E. unfold request_ in E. destruct (spStep _ _ _ _ _ _ _ _) as [[sp o]|] eqn:S; try discriminate.
  inversion E; subst. split; auto. simpl. eapply store_Inv; eauto.
  pose proof (spStep_pure vzero vone vadd vmul flags els (a_sp s) r I) as P. destruct (pureResponse vzero vone vadd vmul flags els r).
  - destruct P as [s1 [E1 I1]]. rewrite S in E1. inversion E1; subst; auto.
  - rewrite P in S; discriminate.
Qed.

Lemma step_Ok flags els hp s o s' x : Ok flags els s -> (forall f, In f (mOf o) -> keepsPattern f) ->
  step flags els hp s o = Some (s', x) -> Ok flags els s'.
Proof.
  intros O K E. destruct o; simpl in E;
    repeat match type of E with context [match ?a with Some _ => _ | None => _ end] => destruct a eqn:? end;
    try (eapply request_Ok; eassumption);
    inversion E; subst; auto; destruct O as [I J]; split; simpl; auto.
  intros g Hg. apply in_app_iff in Hg as [Hg|Hg]; auto.
Qed.

Lemma run_Ok flags els h : forall s s', Ok flags els s -> (forall f, In f (mCalls h) -> keepsPattern f) ->
  run flags els s h = Some s' -> Ok flags els s'.
Proof.
  induction h as [|[hp o] h IH]; intros s s' O K H; unfold Binding_Model.run in H; simpl in H.
  - inversion H; subst; auto.
  - destruct (step flags els hp s o) as [[s1 x]|] eqn:E; try discriminate. simpl in H.
    apply (IH s1); auto.
    + eapply step_Ok; eauto. intros f Hf. apply K. unfold mCalls. simpl. apply in_app_iff; auto.
    + intros f Hf. apply K. unfold mCalls. simpl. apply in_app_iff; auto.
Qed.

Lemma fresh_Ok flags els : Ok flags els (freshAsm vzero).
Proof. split; [apply Inv_init|intros f []]. Qed.

Lemma manipulator_Ok flags els s : Ok flags els s -> Ok flags els (makeManipulator s).
Proof. intros [I _]; split; auto. intros f []. Qed.

(** A request: the base result of a fresh assembler, then the callbacks. *)
Lemma request_value flags els s r : Ok flags els s ->
  option_map snd (request_ vzero vone vadd vmul flags els s r) =
  option_map (fun o => Data (manipulate s r o)) (option_map snd (spStep vzero vone vadd vmul flags els (spInit vzero) r)).
Proof.
  intros [I _]. unfold request_.
  pose proof (spStep_pure vzero vone vadd vmul flags els (a_sp s) r I) as P1.
  pose proof (spStep_pure vzero vone vadd vmul flags els (spInit vzero) r (Inv_init vzero flags els)) as P2.
  destruct (pureResponse vzero vone vadd vmul flags els r).
  - destruct P1 as [s1 [-> _]]. destruct P2 as [s2 [-> _]]. auto.
  - rewrite P1, P2; auto.
Qed.

Lemma run2_orig flags els (h : list (bool * ((Ref -> RV) * op V Ref RV AF))) : forall orig man orig' man' xs,
  run2 vzero vone vadd vmul flags els orig man h = Some (orig', man', xs) ->
  outcomes vzero vone vadd vmul flags els orig (map snd (filter (fun x => negb (fst x)) h)) = Some xs /\
  run flags els orig (map snd (filter (fun x => negb (fst x)) h)) = Some orig'.
Proof.
  induction h as [|[[|] [hp o]] h IH]; intros orig man orig' man' xs H; simpl in H.
  - inversion H; subst; auto.
  - destruct (step flags els hp man o) as [[m1 x]|] eqn:E; try discriminate. apply IH in H. simpl. auto.
  - simpl. unfold Binding_Model.run. simpl. destruct (step flags els hp orig o) as [[o1 x]|] eqn:E; try discriminate. simpl.
    destruct (run2 _ _ _ _ _ _ _ _ h) as [[[o2 m2] ys]|] eqn:R; try discriminate. simpl in H. inversion H; subst.
    apply IH in R as [R1 R2]. rewrite R1. split; auto.
Qed.
End B.
