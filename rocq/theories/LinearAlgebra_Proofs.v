(** Proofs about the linear algebra helpers. *)

From Coq Require Import List Arith Reals Lra Lia Bool Sorting.Permutation Sorting.Sorted.
From Verif Require Import Tensor_Model LinearAlgebra_Model LinearAlgebra_Spec.
Import ListNotations.
Local Open Scope R_scope.

Section GramSchmidt.
Variable m : nat.
Notation dot := (dot m).
Notation veq := (veq m).
Notation inSpan := (inSpan m).
Implicit Types (v w a q : nat -> R).

Lemma dotTo_ext n v v' w w' : (forall i, (i < n)%nat -> v i = v' i) -> (forall i, (i < n)%nat -> w i = w' i) ->
  dotTo n v w = dotTo n v' w'.
Proof. induction n; intros H K; simpl; auto. rewrite IHn by auto. rewrite H, K by auto. reflexivity. Qed.
Lemma dot_ext v v' w w' : veq v v' -> veq w w' -> dot v w = dot v' w'.
Proof. intros; now apply dotTo_ext. Qed.
Lemma dot_comm v w : dot v w = dot w v.
Proof. unfold LinearAlgebra_Model.dot. induction m; simpl; auto. rewrite IHn. ring. Qed.
Lemma dot_sub v w w' : dot v (fun i => w i - w' i) = dot v w - dot v w'.
Proof. unfold LinearAlgebra_Model.dot. induction m; simpl; [ring|]. rewrite IHn. ring. Qed.
Lemma dot_add v w w' : dot v (fun i => w i + w' i) = dot v w + dot v w'.
Proof. unfold LinearAlgebra_Model.dot. induction m; simpl; [ring|]. rewrite IHn. ring. Qed.
Lemma dot_scale v w c : dot v (fun i => w i * c) = dot v w * c.
Proof. unfold LinearAlgebra_Model.dot. induction m; simpl; [ring|]. rewrite IHn. ring. Qed.
Lemma dot_zero v w : veq w (fun _ => 0) -> dot v w = 0.
Proof. intros H. rewrite (dot_ext v v w (fun _ => 0)); auto; [|intros i _; reflexivity].
  unfold LinearAlgebra_Model.dot. clear. induction m; simpl; [ring|]. rewrite IHn. ring. Qed.
Lemma dotTo_nonneg n v : 0 <= dotTo n v v.
Proof. induction n; simpl; [lra|]. assert (0 <= v n * v n) by apply Rle_0_sqr. lra. Qed.
Lemma dotTo_self_zero n v : dotTo n v v = 0 -> forall i, (i < n)%nat -> v i = 0.
Proof.
  induction n; simpl; intros H i L; [lia|]. assert (A := dotTo_nonneg n v). assert (B : 0 <= v n * v n) by apply Rle_0_sqr.
  destruct (Nat.eq_dec i n) as [->|N].
  - apply Rsqr_0_uniq. unfold Rsqr. lra.
  - apply IHn; [lra|lia].
Qed.

Lemma normalize_cases v :
  (0 < dot v v /\ (forall i, normalize m v i = v i * / sqrt (dot v v))) \/
  (veq v (fun _ => 0) /\ normalize m v = v).
Proof.
  unfold normalize. destruct (Rlt_dec 0 (dot v v)) as [L|L]; [left|right]; auto.
  split; auto. intros i Hi. apply (dotTo_self_zero m); auto.
  assert (A := dotTo_nonneg m v). unfold LinearAlgebra_Model.dot in *. lra.
Qed.

Lemma normalize_unit v : 0 < dot v v -> dot (normalize m v) (normalize m v) = 1.
Proof.
  intros L. destruct (normalize_cases v) as [[_ E]|[Z _]].
  - rewrite (dot_ext _ (fun i => v i * / sqrt (dot v v)) _ (fun i => v i * / sqrt (dot v v))) by (intros i _; apply E).
    rewrite dot_scale, dot_comm, dot_scale.
    assert (S0 : sqrt (dot v v) * sqrt (dot v v) = dot v v) by (apply sqrt_sqrt; lra).
    assert (SP : 0 < sqrt (dot v v)) by now apply sqrt_lt_R0.
    rewrite <- S0 at 1. field. lra.
  - rewrite dot_zero in L by auto. lra.
Qed.

(** Orthogonal, each of length one or zero *)
Definition ortho (qs : list (nat -> R)) : Prop :=
  ForallOrdPairs (fun q q' => dot q q' = 0) qs /\ Forall (fun q => dot q q = 1 \/ veq q (fun _ => 0)) qs.

Lemma dot_project q' qs a : Forall (fun q => dot q' q = 0) qs -> dot q' (project m qs a) = 0.
Proof.
  induction 1 as [|q qs H F IH]; simpl.
  - apply dot_zero. intros i _; reflexivity.
  - rewrite dot_add, dot_scale, IH, H. ring.
Qed.

Lemma project_in q' qs a : ForallOrdPairs (fun q q' => dot q q' = 0) qs -> In q' qs ->
  dot q' (project m qs a) = dot q' q' * dot q' a.
Proof.
  induction 1 as [|q qs F O IH]; simpl; [tauto|]. intros [->|H]; rewrite dot_add, dot_scale.
  - rewrite dot_project by auto. ring.
  - rewrite IH by auto. rewrite Forall_forall in F. rewrite (dot_comm q' q), (F q' H). ring.
Qed.

Lemma residual_orth qs a r : ortho qs -> veq r (fun i => a i - project m qs a i) -> Forall (fun q => dot q r = 0) qs.
Proof.
  intros [O F] E. apply Forall_forall. intros q Hq. rewrite Forall_forall in F.
  rewrite (dot_ext q q r (fun i => a i - project m qs a i)) by (auto; intros i _; reflexivity).
  rewrite dot_sub, project_in by auto. destruct (F q Hq) as [->|Z]; [ring|].
  rewrite (dot_comm q a), (dot_zero a q Z). ring.
Qed.

Lemma ortho_step qs a r : ortho qs -> veq r (fun i => a i - project m qs a i) -> ortho (qs ++ [normalize m r]).
Proof.
  intros O E. assert (RO := residual_orth qs a r O E). destruct O as [O F].
  assert (NO : Forall (fun q => dot q (normalize m r) = 0) qs).
  { eapply Forall_impl; [|exact RO]. simpl. intros q H. destruct (normalize_cases r) as [[_ K]|[_ ->]]; auto.
    rewrite (dot_ext q q _ (fun i => r i * / sqrt (dot r r))) by (try (intros i _; reflexivity); intros i _; apply K).
    rewrite dot_scale, H. ring. }
  split.
  - clear - O NO. induction O as [|q qs H O IH]; simpl.
    + repeat constructor.
    + inversion NO; subst. constructor; auto. apply Forall_app. split; auto.
  - apply Forall_app. split; auto. constructor; auto.
    destruct (normalize_cases r) as [[L _]|[Z K]]; [left; now apply normalize_unit|right; now rewrite K].
Qed.

(** Spans *)
Lemma combine_add c d vs i : combine (fun k => c k + d k) vs i = combine c vs i + combine d vs i.
Proof. revert c d. induction vs; intros; simpl; [ring|]. rewrite (IHvs (fun k => c (S k))). ring. Qed.
Lemma combine_scale c s vs i : combine (fun k => s * c k) vs i = s * combine c vs i.
Proof. revert c. induction vs; intros; simpl; [ring|]. rewrite (IHvs (fun k => c (S k))). ring. Qed.
Lemma combine_ext c d vs i : (forall k, (k < length vs)%nat -> c k = d k) -> combine c vs i = combine d vs i.
Proof. revert c d. induction vs; intros c d H; simpl; auto. simpl in H. rewrite H by lia.
  rewrite (IHvs (fun k => c (S k)) (fun k => d (S k))); auto. intros. apply H. lia. Qed.
Lemma combine_0 vs i : combine (fun _ => 0) vs i = 0.
Proof. induction vs; simpl; auto. rewrite IHvs. ring. Qed.
Lemma combine_app c vs ws i : combine c (vs ++ ws) i = combine c vs i + combine (fun k => c (k + length vs)%nat) ws i.
Proof.
  revert c. induction vs; intros; simpl.
  - rewrite Rplus_0_l. apply combine_ext. intros. now rewrite Nat.add_0_r.
  - rewrite IHvs. rewrite (combine_ext (fun k => c (k + S (length vs))%nat) (fun k => c (S (k + length vs)))); [ring|].
    intros. f_equal. lia.
Qed.

Lemma span_ext vs v w : veq v w -> inSpan vs v -> inSpan vs w.
Proof. intros E [c H]. exists c. intros i Hi. rewrite <- E by auto. auto. Qed.
Lemma span_add vs v w : inSpan vs v -> inSpan vs w -> inSpan vs (fun i => v i + w i).
Proof. intros [c H] [d K]. exists (fun k => c k + d k). intros i Hi. rewrite combine_add, H, K; auto. Qed.
Lemma span_scale vs v s : inSpan vs v -> inSpan vs (fun i => s * v i).
Proof. intros [c H]. exists (fun k => s * c k). intros i Hi. rewrite combine_scale, H; auto. Qed.
Lemma span_zero vs v : veq v (fun _ => 0) -> inSpan vs v.
Proof. intros H. exists (fun _ => 0). intros i Hi. rewrite combine_0. auto. Qed.
Lemma span_in vs v : In v vs -> inSpan vs v.
Proof.
  induction vs as [|w vs IH]; simpl; [tauto|]. intros [->|H].
  - exists (fun k => match k with O => 1 | _ => 0 end). intros i Hi. simpl. rewrite combine_0. ring.
  - destruct (IH H) as [c E]. exists (fun k => match k with O => 0 | S k => c k end). intros i Hi. simpl.
    rewrite E by auto. change (fun k => c k) with c; ring.
Qed.
Lemma span_sub vs ws v : Forall (inSpan ws) vs -> inSpan vs v -> inSpan ws v.
Proof.
  intros F [c H]. eapply span_ext; [intros i Hi; symmetry; apply H; auto|]. clear H. revert c.
  induction F as [|w vs K F IH]; intros c; simpl.
  - apply span_zero. intros i _. reflexivity.
  - apply span_add; [now apply span_scale|apply IH].
Qed.
Lemma span_app_l vs ws v : inSpan vs v -> inSpan (vs ++ ws) v.
Proof. apply span_sub. apply Forall_forall. intros. apply span_in, in_or_app. auto. Qed.

Lemma span_project qs a : inSpan qs (project m qs a).
Proof.
  induction qs as [|q qs IH]; simpl.
  - apply span_zero. intros i _; reflexivity.
  - apply span_add.
    + eapply span_ext; [|apply (span_scale _ q (dot q a)), span_in; now left]. intros i _. simpl. ring.
    + apply (span_app_l qs [q]) in IH. eapply span_sub; [|exact IH]. apply Forall_forall. intros x Hx.
      apply span_in. apply in_app_or in Hx. simpl in *. tauto.
Qed.

Lemma span_step pre qs a r v : (forall w, inSpan pre w <-> inSpan qs w) -> veq r (fun i => a i - project m qs a i) ->
  (inSpan (pre ++ [a]) v <-> inSpan (qs ++ [normalize m r]) v).
Proof.
  intros H E.
  assert (NR : exists s t, veq r (fun i => s * normalize m r i) /\ veq (normalize m r) (fun i => t * r i)).
  { destruct (normalize_cases r) as [[L K]|[Z K]].
    - assert (SP : 0 < sqrt (dot r r)) by now apply sqrt_lt_R0.
      exists (sqrt (dot r r)), (/ sqrt (dot r r)). split; intros i Hi; rewrite K; [field; lra|ring].
    - exists 1, 1. rewrite K. split; intros i Hi; ring. }
  destruct NR as (s & t & N1 & N2). split; apply span_sub; apply Forall_app; split.
  - apply Forall_forall. intros w Hw. apply span_app_l, H, span_in, Hw.
  - constructor; auto.
    eapply span_ext with (v := fun i => r i + project m qs a i).
    + intros i Hi. rewrite E by auto. ring.
    + apply span_add; [|apply span_app_l, span_project].
      eapply span_ext; [intros i Hi; symmetry; apply N1; auto|]. apply span_scale, span_in, in_or_app. right. now left.
  - apply Forall_forall. intros w Hw. apply span_app_l, H, span_in, Hw.
  - constructor; auto. eapply span_ext; [intros i Hi; symmetry; apply N2; auto|]. apply span_scale.
    eapply span_ext with (v := fun i => a i + (-1) * project m qs a i).
    + intros i Hi. rewrite E by auto. ring.
    + apply span_add; [apply span_in, in_or_app; right; now left|]. apply span_scale, span_app_l, H, span_project.
Qed.

Definition inv (pre done : list (nat -> R)) : Prop :=
  length pre = length done /\ ortho done /\ (forall k v, inSpan (firstn k pre) v <-> inSpan (firstn k done) v) /\
  (forall k a q, nth_error pre k = Some a -> nth_error done k = Some q -> dot q q = 1 \/ inSpan (firstn k pre) a).

Lemma inv_step pre done a r : inv pre done -> veq r (fun i => a i - project m done a i) ->
  inv (pre ++ [a]) (done ++ [normalize m r]).
Proof.
  intros (L & O & SP & U) E. split; [rewrite !app_length; simpl; lia|]. split; [eapply ortho_step; eauto|].
  assert (Full : forall v, inSpan pre v <-> inSpan done v).
  { intros v. specialize (SP (length pre) v). rewrite firstn_all in SP. rewrite L, firstn_all in SP. exact SP. }
  split.
  - intros k v. destruct (le_lt_dec k (length pre)) as [K|K].
    + rewrite !firstn_app. replace (k - length pre)%nat with 0%nat by lia. replace (k - length done)%nat with 0%nat by lia.
      simpl. rewrite !app_nil_r. apply SP.
    + rewrite !firstn_all2 by (rewrite app_length; simpl; lia). eapply span_step; eauto.
  - intros k x q Hx Hq. destruct (lt_dec k (length pre)) as [K|K].
    + rewrite nth_error_app1 in Hx by lia. rewrite nth_error_app1 in Hq by lia.
      rewrite firstn_app. replace (k - length pre)%nat with 0%nat by lia. simpl. rewrite app_nil_r. eauto.
    + rewrite nth_error_app2 in Hx by lia. rewrite nth_error_app2 in Hq by lia.
      destruct (k - length pre)%nat as [|x1] eqn:Ek; simpl in Hx; [|destruct x1; discriminate].
      replace (k - length done)%nat with 0%nat in Hq by lia. simpl in Hq. injection Hx as <-. injection Hq as <-.
      replace k with (length pre) by lia. rewrite firstn_app, Nat.sub_diag, firstn_all. simpl. rewrite app_nil_r.
      destruct (normalize_cases r) as [[P _]|[Z _]]; [left; now apply normalize_unit|right].
      apply Full. eapply span_ext; [|apply (span_project done a)]. intros i Hi. specialize (E i Hi).
      rewrite (Z i Hi) in E. lra.
Qed.

Lemma gramSchmidt_inv todo : forall pre done, inv pre done -> inv (pre ++ todo) (gramSchmidt m done todo).
Proof.
  induction todo as [|a todo IH]; intros pre done I; simpl; [now rewrite app_nil_r|].
  change (a :: todo) with ([a] ++ todo). rewrite app_assoc. apply IH. apply inv_step; auto. intros i _. reflexivity.
Qed.

Lemma inv_nil : inv [] [].
Proof. repeat split; try constructor; simpl; auto; intros; try (destruct k; discriminate); destruct k; simpl in *; auto. Qed.

Lemma orthonormalize_inv A : A <> [] -> exists Q, orthonormalizeMatrixColumns m A = Some Q /\ inv A Q.
Proof.
  destruct A as [|a A]; [congruence|]. intros _. eexists. split; [reflexivity|].
  apply (gramSchmidt_inv A [a]). apply (inv_step [] [] a a inv_nil). intros i _. simpl. ring.
Qed.

Lemma independent_not_in_span A k a : independent m A -> nth_error A k = Some a -> ~ inSpan (firstn k A) a.
Proof.
  intros I H [c E].
  assert (Hk : (k < length A)%nat) by (apply nth_error_Some; congruence).
  assert (Dec : A = firstn k A ++ a :: skipn (S k) A).
  { rewrite <- (firstn_skipn k A) at 1. f_equal. clear - H. revert k H. induction A as [|x A IH]; intros [|k] H; simpl in *;
    try discriminate; [now injection H as ->|auto]. }
  assert (LF : length (firstn k A) = k) by (rewrite firstn_length; lia).
  pose (d := fun j => if (j <? k)%nat then c j else if (j =? k)%nat then -1 else 0).
  assert (Z : d k = 0).
  { apply I; auto. intros i Hi. rewrite Dec, combine_app. simpl. rewrite LF.
    rewrite (combine_ext d c) by (intros j Hj; rewrite LF in Hj; unfold d; destruct (Nat.ltb_spec j k); [auto|lia]).
    rewrite <- E by auto.
    rewrite (combine_ext (fun x => d (S (x + k))) (fun _ => 0)).
    - rewrite combine_0. unfold d. rewrite Nat.ltb_irrefl, Nat.eqb_refl. ring.
    - intros j _. unfold d. destruct (Nat.ltb_spec (S (j + k)) k); [lia|]. destruct (Nat.eqb_spec (S (j + k)) k); [lia|auto]. }
  unfold d in Z. rewrite Nat.ltb_irrefl, Nat.eqb_refl in Z. lra.
Qed.
End GramSchmidt.

(** ** Index sets *)

Lemma set_difference_ok a : forall b, StronglySorted lt a -> StronglySorted lt b ->
  forall x, In x (set_difference a b) <-> In x a /\ ~ In x b.
Proof.
  induction a as [|x a IHa].
  - intros b _ _ x. destruct b; simpl; tauto.
  - induction b as [|y b IHb]; intros Sa Sb z.
    + simpl. tauto.
    + inversion Sa as [|? ? Sa' Fa]; subst. inversion Sb as [|? ? Sb' Fb]; subst.
      rewrite Forall_forall in Fa, Fb.
      change (set_difference (x :: a) (y :: b)) with
        (if (x <? y)%nat then x :: set_difference a (y :: b)
         else if (y <? x)%nat then set_difference (x :: a) b else set_difference a b).
      destruct (Nat.ltb_spec x y) as [L|L].
      * simpl. rewrite IHa by auto. simpl. split.
        -- intros [->|[H N]]; [|tauto]. split; auto. intros [->|K]; [lia|]. specialize (Fb z K). lia.
        -- intros [[->|H] N]; auto.
      * destruct (Nat.ltb_spec y x) as [G|G].
        -- rewrite IHb by auto. simpl. split; [|tauto]. intros [H N]. split; auto. intros [->|K]; auto.
           destruct H as [->|H]; [lia|]. specialize (Fa z H). lia.
        -- assert (x = y) by lia. subst y. rewrite IHa by auto. simpl. split; [|tauto]. intros [H N]. split; auto.
           intros [->|K]; auto. specialize (Fa z H). lia.
Qed.

Lemma set_difference_sorted a : forall b, StronglySorted lt a -> StronglySorted lt (set_difference a b) /\ incl (set_difference a b) a.
Proof.
  induction a as [|x a IHa].
  - intros b _. destruct b; split; try constructor; intros ? [].
  - induction b as [|y b IHb]; intros Sa.
    + split; [exact Sa|intros ? H; exact H].
    + inversion Sa as [|? ? Sa' Fa]; subst.
      change (set_difference (x :: a) (y :: b)) with
        (if (x <? y)%nat then x :: set_difference a (y :: b)
         else if (y <? x)%nat then set_difference (x :: a) b else set_difference a b).
      destruct (x <? y)%nat; [|destruct (y <? x)%nat].
      * destruct (IHa (y :: b) Sa') as [P Q]. split.
        -- constructor; auto. rewrite Forall_forall in *. intros z Hz. apply Fa, Q, Hz.
        -- intros z [->|H]; [now left|right; now apply Q].
      * now apply IHb.
      * destruct (IHa b Sa') as [P Q]. split; auto. intros z H. right. now apply Q.
Qed.

Lemma seq_sorted n : forall a, StronglySorted lt (seq a n).
Proof. induction n; intros a; simpl; constructor; auto. apply Forall_forall. intros x. rewrite in_seq. lia. Qed.

Lemma sorted_NoDup l : StronglySorted lt l -> NoDup l.
Proof. induction 1; constructor; auto. rewrite Forall_forall in H0. intros K. specialize (H0 _ K). lia. Qed.

Lemma remaining_ok n indices : StronglySorted lt indices -> (forall i, In i indices -> (i < n)%nat) ->
  exists rem, remainingIndices n indices = Some rem /\ length rem = (n - length indices)%nat /\
  StronglySorted lt rem /\ (forall i, In i rem <-> (i < n)%nat /\ ~ In i indices) /\ Permutation (seq 0 n) (rem ++ indices).
Proof.
  intros SI B. pose (r := set_difference (seq 0 n) indices).
  assert (R : forall i, In i r <-> (i < n)%nat /\ ~ In i indices).
  { intros i. unfold r. rewrite set_difference_ok by (auto; apply seq_sorted). rewrite in_seq. simpl. intuition lia. }
  assert (SR : StronglySorted lt r) by (apply set_difference_sorted, seq_sorted).
  assert (P : Permutation (seq 0 n) (r ++ indices)).
  { apply NoDup_Permutation.
    - apply seq_NoDup.
    - assert (N1 := sorted_NoDup _ SR). assert (N2 := sorted_NoDup _ SI). clear - N1 N2 R.
      assert (D : forall x, In x r -> ~ In x indices) by (intros x Hx; apply R in Hx; tauto). clear R.
      induction r as [|x r IH]; simpl; auto. inversion N1; subst. constructor.
      + rewrite in_app_iff. intros [K|K]; [tauto|]. apply (D x); simpl; auto.
      + apply IH; auto. intros y Hy. apply D. now right.
    - intros x. rewrite in_seq, in_app_iff, R. simpl. destruct (in_dec Nat.eq_dec x indices) as [I|I]; [|intuition lia].
      specialize (B x I). intuition lia. }
  assert (LN : (length r + length indices = n)%nat).
  { rewrite <- app_length, <- (Permutation_length P). apply seq_length. }
  exists r. unfold remainingIndices. fold r.
  destruct (Nat.ltb_spec n (length indices)); [lia|]. destruct (Nat.ltb_spec (n - length indices) (length r)); [lia|].
  replace (n - length indices - length r)%nat with 0%nat by lia. simpl. rewrite app_nil_r.
  repeat split; auto; try lia; apply R; auto.
Qed.

(** Sums *)
Lemma sumL_perm l l' f : Permutation l l' -> sumL l f = sumL l' f.
Proof. induction 1; simpl; try lra. Qed.
Lemma sumL_app l l' f : sumL (l ++ l') f = sumL l f + sumL l' f.
Proof. induction l; simpl; [ring|]. rewrite IHl. ring. Qed.
Lemma sumL_ext l f g : (forall x, In x l -> f x = g x) -> sumL l f = sumL l g.
Proof. induction l; intros H; simpl; auto. rewrite H by now left. rewrite IHl; auto. intros; apply H; now right. Qed.
Lemma sumL_add l f g : sumL l (fun x => f x + g x) = sumL l f + sumL l g.
Proof. induction l; simpl; [ring|]. rewrite IHl. ring. Qed.
Lemma sumL_sub l f g : sumL l (fun x => f x - g x) = sumL l f - sumL l g.
Proof. induction l; simpl; [ring|]. rewrite IHl. ring. Qed.
Lemma sumL_mul_l l f c : sumL l (fun x => c * f x) = c * sumL l f.
Proof. induction l; simpl; [ring|]. rewrite IHl. ring. Qed.
Lemma sumL_mul_r l f c : sumL l (fun x => f x * c) = sumL l f * c.
Proof. induction l; simpl; [ring|]. rewrite IHl. ring. Qed.
Lemma sumL_0 l : sumL l (fun _ => 0) = 0.
Proof. induction l; simpl; [ring|]. rewrite IHl. ring. Qed.
Lemma sumL_swap l l' f : sumL l (fun x => sumL l' (fun y => f x y)) = sumL l' (fun y => sumL l (fun x => f x y)).
Proof. induction l; simpl; [now rewrite sumL_0|]. rewrite IHl, sumL_add. reflexivity. Qed.
Lemma sumTo_seq n f : sumTo n f = sumL (seq 0 n) f.
Proof. induction n; simpl; auto. rewrite IHn. change (f 0%nat + sumL (seq 1 n) f) with (sumL (seq 0 (S n)) f).
  rewrite seq_S, sumL_app. simpl. ring. Qed.
Lemma sumL_map l (h : nat -> nat) f : sumL (map h l) f = sumL l (fun x => f (h x)).
Proof. induction l; simpl; auto. now rewrite IHl. Qed.
Lemma sumL_nth l f : sumL l f = sumL (seq 0 (length l)) (fun k => f (nth k l 0%nat)).
Proof.
  rewrite <- (sumL_map (seq 0 (length l)) (fun k => nth k l 0%nat)). f_equal.
  induction l; simpl; auto. f_equal. rewrite <- seq_shift, map_map. exact IHl.
Qed.

(** Elimination.  [indices] and [inv] by position *)
Lemma condensation n E indices inv x :
  StronglySorted lt indices -> (forall i, In i indices -> (i < n)%nat) ->
  (forall i j, (i < n)%nat -> (j < n)%nat -> E i j = E j i) ->
  (forall a c, (a < length indices)%nat -> (c < length indices)%nat ->
     sumL (seq 0 (length indices)) (fun b => inv a b * E (nth b indices 0%nat) (nth c indices 0%nat)) = if (a =? c)%nat then 1 else 0) ->
  (forall i, In i indices -> row n E x i = 0) ->
  exists rem K, remainingIndices n indices = Some rem /\ staticCondensation n E indices inv = Some (length rem, K) /\
  forall i, (i < length rem)%nat ->
    sumL (seq 0 (length rem)) (fun j => K i j * x (nth j rem 0%nat)) = row n E x (nth i rem 0%nat).
Proof.
  intros SI B Sy Inv Z. destruct (remaining_ok n indices SI B) as (rem & ER & LR & SR & IR & P).
  set (k := length indices) in *. set (ind := fun a => nth a indices 0%nat). set (re := fun i => nth i rem 0%nat).
  unfold staticCondensation. rewrite ER. do 2 eexists. split; [reflexivity|]. split; [reflexivity|].
  intros i Hi.
  change (sumL (seq 0 (length rem)) (fun j => (E (re i) (re j) -
      sumL (seq 0 k) (fun b => sumL (seq 0 k) (fun a => E (ind a) (re i) * inv a b) * E (ind b) (re j))) * x (re j)) = row n E x (re i)).
  assert (RowE : forall r, row n E x r = sumL (seq 0 (length rem)) (fun j => E r (re j) * x (re j)) + sumL (seq 0 k) (fun a => E r (ind a) * x (ind a))).
  { intros r. unfold row. rewrite sumTo_seq, (sumL_perm _ _ _ P), sumL_app, (sumL_nth rem), (sumL_nth indices). reflexivity. }
  assert (XA : forall a, (a < k)%nat -> x (ind a) = - sumL (seq 0 k) (fun b => inv a b * sumL (seq 0 (length rem)) (fun j => E (ind b) (re j) * x (re j)))).
  { intros a Ha.
    assert (X1 : forall b, (b < k)%nat -> sumL (seq 0 (length rem)) (fun j => E (ind b) (re j) * x (re j)) = - sumL (seq 0 k) (fun c => E (ind b) (ind c) * x (ind c))).
    { intros b Hb. assert (R := RowE (ind b)). rewrite Z in R by (apply nth_In; auto). lra. }
    rewrite (sumL_ext _ _ (fun b => (-1) * sumL (seq 0 k) (fun c => (inv a b * E (ind b) (ind c)) * x (ind c)))).
    2:{ intros b Hb. apply in_seq in Hb. rewrite X1 by lia. rewrite <- sumL_mul_l.
        replace (- sumL (seq 0 k) (fun c => E (ind b) (ind c) * x (ind c))) with ((-1) * sumL (seq 0 k) (fun c => E (ind b) (ind c) * x (ind c))) by ring.
        rewrite <- sumL_mul_l, <- sumL_mul_l. apply sumL_ext. intros. ring. }
    rewrite sumL_mul_l, sumL_swap.
    rewrite (sumL_ext _ _ (fun c => (if (a =? c)%nat then 1 else 0) * x (ind c))).
    2:{ intros c Hc. apply in_seq in Hc. rewrite sumL_mul_r. unfold ind. rewrite Inv by lia. reflexivity. }
    enough (G : forall m s, (s <= a < s + m)%nat -> sumL (seq s m) (fun c => (if (a =? c)%nat then 1 else 0) * x (ind c)) = x (ind a)).
    { rewrite G by lia. ring. }
    assert (G0 : forall m s, (a < s)%nat -> sumL (seq s m) (fun c => (if (a =? c)%nat then 1 else 0) * x (ind c)) = 0).
    { induction m; intros s Hs; simpl; auto. destruct (Nat.eqb_spec a s); [lia|]. rewrite IHm by lia. ring. }
    induction m; intros s Hs; simpl; [lia|]. destruct (Nat.eqb_spec a s) as [->|N].
    - rewrite G0 by lia. ring.
    - rewrite IHm by lia. ring. }
  rewrite RowE.
  assert (XB : sumL (seq 0 k) (fun a => E (re i) (ind a) * x (ind a)) =
    - sumL (seq 0 k) (fun a => sumL (seq 0 k) (fun b => sumL (seq 0 (length rem)) (fun j => E (ind a) (re i) * inv a b * E (ind b) (re j) * x (re j))))).
  { replace (- sumL (seq 0 k) (fun a => sumL (seq 0 k) (fun b => sumL (seq 0 (length rem)) (fun j => E (ind a) (re i) * inv a b * E (ind b) (re j) * x (re j)))))
      with (sumL (seq 0 k) (fun a => (-1) * sumL (seq 0 k) (fun b => sumL (seq 0 (length rem)) (fun j => E (ind a) (re i) * inv a b * E (ind b) (re j) * x (re j))))) by (rewrite sumL_mul_l; ring).
    apply sumL_ext. intros a Ha. apply in_seq in Ha. rewrite XA by lia.
    assert (S1 : E (re i) (ind a) = E (ind a) (re i)).
    { apply Sy; [apply IR; now apply nth_In|apply B, nth_In; unfold k in Ha; lia]. }
    rewrite S1. 
    replace (E (ind a) (re i) * - sumL (seq 0 k) (fun b => inv a b * sumL (seq 0 (length rem)) (fun j => E (ind b) (re j) * x (re j))))
      with ((-1) * (E (ind a) (re i) * sumL (seq 0 k) (fun b => inv a b * sumL (seq 0 (length rem)) (fun j => E (ind b) (re j) * x (re j))))) by ring.
    f_equal. rewrite <- sumL_mul_l. apply sumL_ext. intros b _. rewrite <- !sumL_mul_l. apply sumL_ext. intros j _. ring. }
  rewrite XB.
  rewrite (sumL_ext (seq 0 (length rem)) _ (fun j => E (re i) (re j) * x (re j) -
     sumL (seq 0 k) (fun b => sumL (seq 0 k) (fun a => E (ind a) (re i) * inv a b * E (ind b) (re j) * x (re j))))).
  2:{ intros j _. rewrite Rmult_minus_distr_r, <- sumL_mul_r. f_equal. apply sumL_ext. intros b _.
      rewrite Rmult_assoc, <- sumL_mul_r. apply sumL_ext. intros a _. ring. }
  rewrite sumL_sub. unfold Rminus. f_equal. f_equal.
  rewrite sumL_swap. rewrite (sumL_swap (seq 0 k) (seq 0 k)). apply sumL_ext. intros b _. now rewrite sumL_swap.
Qed.
