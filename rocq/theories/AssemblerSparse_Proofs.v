(** Lemmas about the sparse assembler. *)

From Coq Require Import List Arith Bool Lia Permutation Sorted.
From Verif Require Import Assembler_Model Assembler_Spec Assembler_Proofs.
Import ListNotations.

(** * Sorted rows and prefix sums *)

Lemma insert_sorted_in x l y : In y (insert_sorted x l) <-> y = x \/ In y l.
Proof.
  induction l as [|a l IH]; simpl. - split; intuition.
  - destruct (Nat.ltb_spec x a); simpl. + intuition.
    + destruct (Nat.eqb_spec x a) as [->|N]; simpl. * intuition. * rewrite IH. intuition.
Qed.

Lemma insert_sorted_sorted x l : StronglySorted lt l -> StronglySorted lt (insert_sorted x l).
Proof.
  induction l as [|a l IH]; intro H; simpl.
  - constructor; constructor.
  - inversion H; subst. destruct (Nat.ltb_spec x a).
    + constructor; auto. constructor; auto. eapply Forall_impl; [|eassumption]. simpl; intros; lia.
    + destruct (Nat.eqb_spec x a) as [->|N]; auto. constructor; auto.
      apply Forall_forall. intros y Hy. apply insert_sorted_in in Hy as [->|Hy]; try lia.
      rewrite Forall_forall in H3. auto.
Qed.

Lemma sort_rows_sorted l : StronglySorted lt (sort_rows l).
Proof. induction l; simpl. - constructor. - apply insert_sorted_sorted; auto. Qed.

Lemma sort_rows_in l x : In x (sort_rows l) <-> In x l.
Proof. induction l; simpl; [tauto|]. rewrite insert_sorted_in, IHl. intuition. Qed.

Lemma StronglySorted_nth l i j x y : StronglySorted lt l -> i < j ->
  nth_error l i = Some x -> nth_error l j = Some y -> x < y.
Proof.
  revert i j; induction l as [|a l IH]; intros i j H Hij Hx Hy. - destruct i; discriminate.
  - inversion H; subst. destruct j as [|j]; [lia|]. destruct i as [|i]; simpl in *.
    + inversion Hx; subst. rewrite Forall_forall in H3. apply H3. eapply nth_error_In; eauto.
    + apply (IH i j); auto; lia.
Qed.

Lemma column_rows_in ts c r : In r (column_rows ts c) <-> In (r, c) ts.
Proof.
  unfold column_rows. rewrite sort_rows_in, in_map_iff. split.
  - intros [[a b] [<- H]]. apply filter_In in H as [H E]. simpl in *. apply Nat.eqb_eq in E; subst; auto.
  - intro H. exists (r, c). split; auto. apply filter_In. split; auto. simpl. apply Nat.eqb_refl.
Qed.

Lemma prefix_sums_nth l s c : c <= length l -> nth_error (prefix_sums s l) c = Some (s + list_sum (firstn c l)).
Proof.
  revert s c; induction l as [|a l IH]; intros s [|c] H; simpl in *; try lia.
  - rewrite Nat.add_0_r; auto. - rewrite Nat.add_0_r; auto.
  - rewrite IH by lia. f_equal; lia.
Qed.

Lemma prefix_sums_length l s : length (prefix_sums s l) = S (length l).
Proof. revert s; induction l; simpl; auto. Qed.

Definition colStart (cols : list (list nat)) (c : nat) : nat := list_sum (map (@length nat) (firstn c cols)).

Lemma list_sum_firstn_le l c : list_sum (firstn c l) <= list_sum l.
Proof. revert c; induction l as [|a l IH]; intros [|c]; simpl; try lia. specialize (IH c); lia. Qed.

Lemma colStart_S cols c col : nth_error cols c = Some col -> colStart cols (S c) = colStart cols c + length col.
Proof.
  unfold colStart. revert c; induction cols as [|a cols IH]; intros [|c] H; try discriminate.
  - simpl in H; inversion H; subst; simpl. lia.
  - change (firstn (S (S c)) (a :: cols)) with (a :: firstn (S c) cols).
    change (firstn (S c) (a :: cols)) with (a :: firstn c cols). cbn [map list_sum fold_right].
    unfold list_sum in *. cbn [fold_right]. rewrite (IH c H). lia.
Qed.

Lemma colStart_mono cols c c' : c <= c' -> colStart cols c <= colStart cols c'.
Proof.
  unfold colStart. revert c c'; induction cols as [|a cols IH]; intros [|c] [|c'] H; simpl; try lia.
  specialize (IH c c' ltac:(lia)). unfold list_sum in *. lia.
Qed.

Lemma colStart_concat cols c col i : nth_error cols c = Some col -> i < length col ->
  nth_error (concat cols) (colStart cols c + i) = nth_error col i.
Proof.
  unfold colStart. revert c; induction cols as [|a cols IH]; intros [|c] H Hi; try discriminate.
  - simpl in *. inversion H; subst. rewrite nth_error_app1; auto.
  - simpl in *. rewrite nth_error_app2 by lia. rewrite <- (IH c H Hi). f_equal. unfold list_sum. lia.
Qed.

Lemma colStart_all cols : colStart cols (length cols) = length (concat cols).
Proof.
  unfold colStart. rewrite firstn_all. induction cols; simpl; auto. rewrite app_length. unfold list_sum in *; lia.
Qed.

(** * Compressed patterns *)

Local Arguments nth_error : simpl nomatch.

Section Sparse.
Context {V Q : Type} (vzero vone : V) (vadd vmul : V -> V -> V).
Notation elt := (element (V:=V) Q).
Notation sparse := (sparse (V:=V)).
Implicit Types (els : list elt) (e : elt) (q : Q) (flags : list bool) (m : sparse).

(** Slot [p] stores entry [(r, c)]. *)
Definition isSlot m (r c p : nat) : Prop :=
  exists s t, nth_error (souter m) c = Some s /\ nth_error (souter m) (S c) = Some t /\
    s <= p < t /\ nth_error (sinner m) p = Some r.

Record wfPattern m (n : nat) : Prop := {
  wf_rows : srows m = n;
  wf_cols : scols m = n;
  wf_vals : length (svals m) = length (sinner m);
  wf_outer : forall c, c <= n -> exists s, nth_error (souter m) c = Some s /\ s <= length (sinner m);
  wf_mono : forall c c' s s', c <= c' -> nth_error (souter m) c = Some s -> nth_error (souter m) c' = Some s' -> s <= s';
  wf_sorted : forall c s t p p' x x', nth_error (souter m) c = Some s -> nth_error (souter m) (S c) = Some t ->
     s <= p -> p < p' -> p' < t -> nth_error (sinner m) p = Some x -> nth_error (sinner m) p' = Some x' -> x < x';
}.

Lemma isSlot_fun m n r c p p' : wfPattern m n -> isSlot m r c p -> isSlot m r c p' -> p = p'.
Proof.
  intros W [s [t [H1 [H2 [H3 H4]]]]] [s' [t' [K1 [K2 [K3 K4]]]]].
  assert (s' = s) by congruence. assert (t' = t) by congruence. subst.
  destruct (lt_eq_lt_dec p p') as [[L|L]|L]; auto.
  - pose proof (wf_sorted _ _ W c s t p p' r r H1 H2 ltac:(lia) L ltac:(lia) H4 K4); lia.
  - pose proof (wf_sorted _ _ W c s t p' p r r H1 H2 ltac:(lia) L ltac:(lia) K4 H4); lia.
Qed.

Lemma isSlot_inj m n r c r' c' p : wfPattern m n -> isSlot m r c p -> isSlot m r' c' p -> r = r' /\ c = c'.
Proof.
  intros W [s [t [H1 [H2 [H3 H4]]]]] [s' [t' [K1 [K2 [K3 K4]]]]].
  split; [congruence|].
  destruct (lt_eq_lt_dec c c') as [[L|L]|L]; auto.
  - pose proof (wf_mono _ _ W (S c) c' t s' L H2 K1). lia.
  - pose proof (wf_mono _ _ W (S c') c t' s L K2 H1). lia.
Qed.

Lemma isSlot_range m n r c p : wfPattern m n -> isSlot m r c p -> p < length (svals m).
Proof. intros W [s [t [_ [_ [_ H]]]]]. rewrite (wf_vals _ _ W). eapply nth_error_lt; eauto. Qed.

Lemma searchLowerIndex_spec inner key p : forall fuel start stop,
  stop - start <= fuel -> start <= p <= stop -> 
  (forall i, start <= i < stop -> exists v, nth_error inner i = Some v /\ (i < p -> v < key) /\ (p <= i -> key <= v)) ->
  searchLowerIndex fuel inner start stop key = Some p.
Proof.
  induction fuel as [|fuel IH]; intros start stop Hf Hp H; simpl.
  - destruct (Nat.ltb_spec start stop); try lia. f_equal; lia.
  - destruct (Nat.ltb_spec start stop) as [L|L]; [|f_equal; lia].
    set (mid := Nat.div2 (start + stop)).
    assert (start <= mid < stop) as Hm.
    { unfold mid. rewrite Nat.div2_div. split.
      - apply Nat.div_le_lower_bound; lia. - apply Nat.div_lt_upper_bound; lia. }
    destruct (H mid Hm) as [v [Hv [A B]]]. rewrite Hv. destruct (Nat.ltb_spec v key).
    + apply IH; try lia. intros i Hi. apply H. lia.
    + apply IH; try lia. intros i Hi. apply H. lia.
Qed.

Lemma getLinearIndex_spec m n r c p : wfPattern m n -> r < n -> c < n -> isSlot m r c p ->
  getLinearIndex m r c = Some p.
Proof.
  intros W Hr Hc [s [t [H1 [H2 [H3 H4]]]]]. unfold getLinearIndex.
  rewrite (wf_rows _ _ W), (wf_cols _ _ W), (proj2 (Nat.ltb_lt _ _) Hr), (proj2 (Nat.ltb_lt _ _) Hc). cbn [andb].
  rewrite H1, H2.
  destruct (wf_outer _ _ W (S c) ltac:(lia)) as [t' [Ht' Hle]]. assert (t' = t) by congruence; subst t'.
  apply searchLowerIndex_spec; try lia. intros i Hi.
  destruct (nth_error_ex (sinner m) i ltac:(lia)) as [v Hv]. exists v; split; auto. split; intro L.
  - eapply (wf_sorted _ _ W c s t i p); eauto; lia.
  - destruct (Nat.eq_dec p i) as [->|N]. + assert (v = r) by congruence; lia.
    + apply Nat.lt_le_incl. eapply (wf_sorted _ _ W c s t p i); eauto; lia.
Qed.

Lemma slots_in m r c p : nth_error (sinner m) p = Some r -> In p (slots m c) <-> isSlot m r c p.
Proof.
  intro Hr. unfold slots, isSlot. destruct (nth_error (souter m) c) as [s|]; destruct (nth_error (souter m) (S c)) as [t|].
  - rewrite in_seq. split. + intro H. exists s, t. repeat split; auto; lia.
    + intros [s' [t' [A [B [C _]]]]]. inversion A; inversion B; subst; lia.
  - simpl. split; [tauto|]. intros [s' [t' [A [B _]]]]; discriminate.
  - simpl. split; [tauto|]. intros [s' [t' [A [B _]]]]; discriminate.
  - simpl. split; [tauto|]. intros [s' [t' [A [B _]]]]; discriminate.
Qed.

Lemma find_slot m n r c p : wfPattern m n -> isSlot m r c p ->
  find (fun p => match nth_error (sinner m) p with Some r' => r' =? r | None => false end) (slots m c) = Some p.
Proof.
  intros W H. destruct (find _ _) as [p'|] eqn:E.
  - apply find_some in E as [H1 H2]. destruct (nth_error (sinner m) p') as [r'|] eqn:E'; try discriminate.
    apply Nat.eqb_eq in H2; subst. f_equal. eapply isSlot_fun; eauto. apply slots_in; auto.
  - pose proof H as [s [t [_ [_ [_ Hr]]]]].
    pose proof (find_none _ _ E p) as K. rewrite (slots_in m r c p Hr) in K. specialize (K H). rewrite Hr, Nat.eqb_refl in K. discriminate.
Qed.

Lemma find_no_slot m r c : (forall p, ~ isSlot m r c p) ->
  find (fun p => match nth_error (sinner m) p with Some r' => r' =? r | None => false end) (slots m c) = None.
Proof.
  intro H. destruct (find _ _) as [p'|] eqn:E; auto. exfalso.
  apply find_some in E as [H1 H2]. destruct (nth_error (sinner m) p') as [r'|] eqn:E'; try discriminate.
  apply Nat.eqb_eq in H2; subst. apply (H p'). apply slots_in; auto.
Qed.

Lemma sget_slot m n r c p : wfPattern m n -> r < n -> c < n -> isSlot m r c p -> sget vzero m r c = nth_error (svals m) p.
Proof.
  intros W Hr Hc H. unfold sget. rewrite (wf_rows _ _ W), (wf_cols _ _ W), (proj2 (Nat.ltb_lt _ _) Hr), (proj2 (Nat.ltb_lt _ _) Hc). simpl.
  rewrite (find_slot m n r c p); auto.
Qed.

Lemma sget_no_slot m n r c : wfPattern m n -> r < n -> c < n -> (forall p, ~ isSlot m r c p) -> sget vzero m r c = Some vzero.
Proof.
  intros W Hr Hc H. unfold sget. rewrite (wf_rows _ _ W), (wf_cols _ _ W), (proj2 (Nat.ltb_lt _ _) Hr), (proj2 (Nat.ltb_lt _ _) Hc). simpl.
  rewrite find_no_slot; auto.
Qed.

(** setFromTriplets builds a well-formed pattern with exactly the given entries and zero values. *)
Lemma setFromTriplets_spec n ts : (forall t, In t ts -> fst t < n /\ snd t < n) ->
  exists m, setFromTriplets vzero n ts = Some m /\ wfPattern m n /\
    svals m = repeat vzero (length (sinner m)) /\
    forall r c, (exists p, isSlot m r c p) <-> In (r, c) ts.
Proof.
  intro H. unfold setFromTriplets.
  replace (forallb _ ts) with true.
  2:{ symmetry. apply forallb_forall. intros t Ht. destruct (H t Ht). apply andb_true_iff. split; apply Nat.ltb_lt; auto. }
  set (cols := map (column_rows ts) (seq 0 n)).
  assert (length cols = n) as Lc by (unfold cols; rewrite map_length, seq_length; auto).
  assert (forall c, c < n -> nth_error cols c = Some (column_rows ts c)) as Nc.
  { intros c Hc. unfold cols. erewrite map_nth_error; eauto.
    rewrite (nth_error_nth' _ 0) by (rewrite seq_length; auto). rewrite seq_nth; auto. }
  assert (forall c, c <= n -> nth_error (prefix_sums 0 (map (@length nat) cols)) c = Some (colStart cols c)) as Po.
  { intros c Hc. rewrite prefix_sums_nth by (rewrite map_length; lia). simpl. unfold colStart. rewrite firstn_map; auto. }
  assert (forall c s, nth_error (prefix_sums 0 (map (@length nat) cols)) c = Some s -> c <= n /\ s = colStart cols c) as Po'.
  { intros c s E. assert (c <= n). { pose proof (nth_error_lt _ _ _ E) as L. rewrite prefix_sums_length, map_length in L; lia. }
    split; auto. rewrite Po in E by auto. congruence. }
  eexists; split; [reflexivity|]. split; [|split].
  - constructor; simpl; auto.
    + apply repeat_length.
    + intros c Hc. exists (colStart cols c). split; [apply Po; auto|]. rewrite <- colStart_all. apply colStart_mono; lia.
    + intros c c' s s' Hcc E E'. apply Po' in E as [_ ->]. apply Po' in E' as [_ ->]. apply colStart_mono; auto.
    + intros c s t p p' x x' E E' H1 H2 H3 Hx Hx'. apply Po' in E as [_ ->]. apply Po' in E' as [Hc ->].
      rewrite (colStart_S _ _ _ (Nc c ltac:(lia))) in H3.
      replace p with (colStart cols c + (p - colStart cols c)) in Hx by lia.
      replace p' with (colStart cols c + (p' - colStart cols c)) in Hx' by lia.
      rewrite (colStart_concat _ _ _ _ (Nc c ltac:(lia))) in Hx by lia.
      rewrite (colStart_concat _ _ _ _ (Nc c ltac:(lia))) in Hx' by lia.
      eapply StronglySorted_nth; [apply sort_rows_sorted| |exact Hx|exact Hx']. lia.
  - reflexivity.
  - intros r c. unfold isSlot; simpl. split.
    + intros [p [s [t [E [E' [Hp Hr]]]]]]. apply Po' in E as [_ ->]. apply Po' in E' as [Hc ->].
      rewrite (colStart_S _ _ _ (Nc c ltac:(lia))) in Hp.
      replace p with (colStart cols c + (p - colStart cols c)) in Hr by lia.
      rewrite (colStart_concat _ _ _ _ (Nc c ltac:(lia))) in Hr by lia.
      apply column_rows_in. eapply nth_error_In; eauto.
    + intro Hin. destruct (H _ Hin) as [Hr Hc]; simpl in *.
      apply column_rows_in in Hin. apply In_nth_error in Hin as [i Hi].
      pose proof (nth_error_lt _ _ _ Hi) as Li.
      exists (colStart cols c + i), (colStart cols c), (colStart cols (S c)). repeat split.
      * apply Po; lia. * apply Po; lia. * lia. * rewrite (colStart_S _ _ _ (Nc c Hc)); lia.
      * rewrite (colStart_concat _ _ _ _ (Nc c Hc)); auto.
Qed.

Lemma wfPattern_with_vals m n v : wfPattern m n -> length v = length (svals m) -> wfPattern (with_vals m v) n.
Proof. intros [A B C D E F] L. constructor; simpl; auto. congruence. Qed.

Lemma isSlot_with_vals m v r c p : isSlot (with_vals m v) r c p <-> isSlot m r c p.
Proof. reflexivity. Qed.

Lemma with_vals_twice m v w : with_vals (with_vals m v) w = with_vals m w.
Proof. reflexivity. Qed.

(** * Slots of the elements *)

Definition slotf m (k : key) : nat := match getLinearIndex m (fst k) (snd k) with Some p => p | None => 0 end.

(** Column-by-column list of the index pairs of an element. *)
Definition keysCM (ds : list nat) : list key := flat_map (fun c => map (fun r => (r, c)) ds) ds.

Definition tripsCM e q : list (key * V) := combine (keysCM (dofs e)) (emat e q).

Lemma in_keysCM ds k : In k (keysCM ds) <-> In (fst k) ds /\ In (snd k) ds.
Proof.
  destruct k as [r c]; unfold keysCM. rewrite in_flat_map. simpl. split.
  - intros [c' [H1 H2]]. apply in_map_iff in H2 as [r' [E H2]]. inversion E; subst; auto.
  - intros [H1 H2]. exists c; split; auto. apply in_map_iff. exists r; auto.
Qed.

Lemma keysCM_length ds : length (keysCM ds) = length ds * length ds.
Proof.
  unfold keysCM.
  assert (forall cs : list nat, length (flat_map (fun c => map (fun r => (r, c)) ds) cs) = length cs * length ds) as G; auto.
  induction cs; simpl; auto. rewrite app_length, map_length. lia.
Qed.

Lemma combine_map_l {A B C} (f : A -> B) (l : list A) (v : list C) :
  combine (map f l) v = map (fun t => (f (fst t), snd t)) (combine l v).
Proof. revert v; induction l; intros [|x v]; simpl; auto. f_equal; auto. Qed.

Lemma scatter_accAll coeffs sl vals : length vals = length sl ->
  scatter vadd coeffs sl vals = accAll vadd coeffs (combine sl vals).
Proof.
  revert coeffs sl; induction vals as [|x vals IH]; intros coeffs [|p sl] H; simpl in *; try discriminate; auto.
  unfold accAll; simpl. destruct (acc vadd coeffs p x); auto. apply IH. lia.
Qed.

Lemma assembleRawSparse_loop_accAll coeffs m els rest q :
  (forall e, In e els -> length (emat e q) = length (dofs e) * length (dofs e)) ->
  assembleRawSparse_loop vadd coeffs (map (fun e => map (slotf m) (keysCM (dofs e))) els ++ rest) els q
  = accAll vadd coeffs (map (fun t => (slotf m (fst t), snd t)) (flat_map (fun e => tripsCM e q) els)).
Proof.
  revert coeffs; induction els as [|e els IH]; intros coeffs H; [reflexivity|].
  cbn [map app assembleRawSparse_loop flat_map].
  rewrite map_app, accAll_app. rewrite scatter_accAll.
  2:{ rewrite map_length, keysCM_length. apply H; simpl; auto. }
  unfold tripsCM at 1. rewrite <- combine_map_l.
  destruct (accAll vadd coeffs _); auto. apply IH. intros; apply H; simpl; auto.
Qed.

(** Storage order of the element matrix. *)
Lemma combine_app' {A B} (l1 l2 : list A) (v1 v2 : list B) : length l1 = length v1 ->
  combine (l1 ++ l2) (v1 ++ v2) = combine l1 v1 ++ combine l2 v2.
Proof. revert v1; induction l1; intros [|x v1] H; simpl in *; try discriminate; auto. f_equal; auto. Qed.

Lemma nth_seq_id {A} (l : list A) d : map (fun i => nth i l d) (seq 0 (length l)) = l.
Proof.
  induction l as [|a l IH]; simpl; auto. f_equal. rewrite <- seq_shift, map_map. exact IH.
Qed.

Lemma combine_maps {A B C} (f : A -> B) (g : A -> C) l : combine (map f l) (map g l) = map (fun a => (f a, g a)) l.
Proof. induction l; simpl; auto. f_equal; auto. Qed.

Lemma firstn_nth_seq {A} (l : list A) k d : k <= length l -> firstn k l = map (fun i => nth i l d) (seq 0 k).
Proof.
  revert l; induction k as [|k IH]; intros [|a l] H; simpl in *; auto; try lia.
  f_equal. rewrite IH by lia. rewrite <- seq_shift, map_map. auto.
Qed.

Lemma tripsCM_chunks (ds cs : list nat) (A : list V) : length A = length ds * length cs ->
  combine (flat_map (fun c => map (fun r => (r, c)) ds) cs) A =
  flat_map (fun j => map (fun i => ((nth i ds 0, nth j cs 0), nth (i + j * length ds) A vzero)) (seq 0 (length ds))) (seq 0 (length cs)).
Proof.
  set (k := length ds). revert A; induction cs as [|c cs IH]; intros A H; simpl in *; auto.
  rewrite <- (firstn_skipn k A) at 1. rewrite combine_app'.
  - f_equal.
    + rewrite (firstn_nth_seq A k vzero) by lia. rewrite <- (nth_seq_id ds 0) at 1. fold k.
      rewrite map_map, combine_maps. apply map_ext_in. intros i Hi. rewrite Nat.add_0_r; auto.
    + rewrite IH by (rewrite skipn_length; lia). rewrite <- seq_shift, flat_map_map'. apply flat_map_ext_in.
      intros j Hj. apply map_ext_in. intros i Hi. f_equal.
      rewrite <- (firstn_skipn k A) at 2. rewrite app_nth2; rewrite firstn_length_le by lia; [f_equal|]; simpl; lia.
  - rewrite map_length, firstn_length_le by lia. auto.
Qed.

Lemma perm_flat_map_cons {A B} (g : A -> B) (h : A -> list B) l :
  Permutation (flat_map (fun j => g j :: h j) l) (map g l ++ flat_map h l).
Proof.
  induction l as [|a l IH]; simpl; auto. constructor.
  rewrite IH. rewrite !app_assoc. apply Permutation_app_tail. apply Permutation_app_comm.
Qed.

Lemma perm_swap {A B C} (f : A -> B -> C) l1 l2 :
  Permutation (flat_map (fun i => map (fun j => f i j) l2) l1) (flat_map (fun j => map (fun i => f i j) l1) l2).
Proof.
  induction l1 as [|a l1 IH]; simpl.
  - induction l2; simpl; auto.
  - rewrite (perm_flat_map_cons (fun j => f a j) (fun j => map (fun i => f i j) l1)). apply Permutation_app_head; auto.
Qed.

Lemma tripsCM_perm e q : length (emat e q) = length (dofs e) * length (dofs e) -> Permutation (tripsCM e q) (trips vzero e q).
Proof.
  intro H. unfold tripsCM, keysCM. rewrite tripsCM_chunks by auto. unfold trips. symmetry.
  apply (perm_swap (fun i j => ((nth i (dofs e) 0, nth j (dofs e) 0), nth (i + j * length (dofs e)) (emat e q) vzero))).
Qed.

Lemma Permutation_filter' {A} (f : A -> bool) l l' : Permutation l l' -> Permutation (filter f l) (filter f l').
Proof.
  induction 1; simpl; auto.
  - destruct (f x); auto. - destruct (f x), (f y); auto. constructor. - etransitivity; eauto.
Qed.

Lemma trips_at_perm k (ts ts' : list (key * V)) : Permutation ts ts' -> Permutation (trips_at k ts) (trips_at k ts').
Proof. intro H. unfold trips_at. apply Permutation_map, Permutation_filter'; auto. Qed.

Lemma NoDup_map_inj {A B} (f : A -> B) l : (forall a b, f a = f b -> a = b) -> NoDup l -> NoDup (map f l).
Proof.
  intros H N. induction N; simpl; constructor; auto.
  rewrite in_map_iff. intros [y [E Hy]]. apply H in E; subst; auto.
Qed.

Lemma NoDup_app' {A} (l l' : list A) : NoDup l -> NoDup l' -> (forall a, In a l -> ~ In a l') -> NoDup (l ++ l').
Proof.
  intros N N' H. induction N; simpl; auto. constructor.
  - rewrite in_app_iff. intros [K|K]; auto. apply (H x); simpl; auto.
  - apply IHN. intros a Ha. apply H; simpl; auto.
Qed.

Lemma NoDup_keysCM ds : NoDup ds -> NoDup (keysCM ds).
Proof.
  intro N. unfold keysCM. assert (forall cs : list nat, NoDup cs -> NoDup (flat_map (fun c => map (fun r => (r, c)) ds) cs)) as G; auto.
  induction cs as [|c cs IH]; intro Nc; simpl; [constructor|]. inversion Nc; subst. apply NoDup_app'; auto.
  - apply NoDup_map_inj; auto. intros a b E; inversion E; auto.
  - intros k Hk Hk'. apply in_map_iff in Hk as [r [<- _]]. apply in_flat_map in Hk' as [c' [Hc' Hk']].
    apply in_map_iff in Hk' as [r' [E _]]. inversion E; subst; auto.
Qed.

Lemma filter_key_le1 k (ts : list (key * V)) : NoDup (map fst ts) -> length (trips_at k ts) <= 1.
Proof.
  unfold trips_at. rewrite map_length. induction ts as [|[k' x] ts IH]; simpl; intro N; auto.
  inversion N; subst. destruct (keq_spec k' k) as [->|]; simpl; auto.
  replace (filter (fun t => keq (fst t) k) ts) with (@nil (key * V)); auto.
  symmetry. clear -H1. induction ts as [|[k2 y] ts IH]; simpl in *; auto.
  destruct (keq_spec k2 k) as [->|]; auto. exfalso; auto.
Qed.

Lemma map_fst_combine {A B} (l : list A) (v : list B) : length v = length l -> map fst (combine l v) = l.
Proof. revert v; induction l; intros [|x v] H; simpl in *; try discriminate; auto. f_equal; auto. Qed.

Lemma trips_at_CM e q k : NoDup (dofs e) -> length (emat e q) = length (dofs e) * length (dofs e) ->
  trips_at k (tripsCM e q) = trips_at k (trips vzero e q).
Proof.
  intros N H. pose proof (trips_at_perm k _ _ (tripsCM_perm e q H)) as P.
  assert (length (trips_at k (tripsCM e q)) <= 1) as L.
  { apply filter_key_le1. unfold tripsCM. rewrite map_fst_combine by (rewrite keysCM_length; auto). apply NoDup_keysCM; auto. }
  destruct (trips_at k (tripsCM e q)) as [|x [|y l]]; simpl in L; try lia.
  - symmetry. apply Permutation_nil; auto.
  - symmetry. apply Permutation_length_1_inv; auto.
Qed.

(** * The occupation pattern *)

Lemma createOccupationPattern_spec flags els : wfElements (length flags) els ->
  exists m, createOccupationPattern vzero flags els = Some m /\ wfPattern m (length flags) /\
    (forall r c, (exists p, isSlot m r c p) <-> exists e, In e els /\ In r (dofs e) /\ In c (dofs e)).
Proof.
  intro W. unfold createOccupationPattern, size.
  destruct (setFromTriplets_spec (length flags) (flat_map (fun e => flat_map (fun i => map (fun j => (i, j)) (dofs e)) (dofs e)) els)) as [m [H1 [H2 [H3 H4]]]].
  { intros [r c] H. apply in_flat_map in H as [e [He H]]. apply in_flat_map in H as [i [Hi H]]. apply in_map_iff in H as [j [E Hj]].
    inversion E; subst. simpl. split; apply (W e He); auto. }
  exists m; split; [exact H1|]. split; [exact H2|]. intros r c; split.
  - intro H. apply H4 in H. apply in_flat_map in H as [e [He H]]. apply in_flat_map in H as [i [Hi H]]. apply in_map_iff in H as [j [E Hj]].
    inversion E; subst. eauto.
  - intros [e [He [Hr Hc]]]. apply H4. apply in_flat_map. exists e; split; auto. apply in_flat_map. exists r; split; auto.
    apply in_map_iff. exists c; auto.
Qed.

Lemma linearDOFs_element_spec m n e : wfPattern m n -> wfElement n e ->
  (forall r c, In r (dofs e) -> In c (dofs e) -> exists p, isSlot m r c p) ->
  linearDOFs_element m (dofs e) = Some (map (slotf m) (keysCM (dofs e))).
Proof.
  intros W [Hd _] H. unfold linearDOFs_element. fold (keysCM (dofs e)). apply mapM_some. intros k Hk.
  apply in_keysCM in Hk as [Hr Hc]. destruct (H _ _ Hr Hc) as [p Hp]. unfold slotf.
  rewrite (getLinearIndex_spec m n _ _ p); auto.
Qed.

Lemma slotf_slot m n r c p : wfPattern m n -> r < n -> c < n -> isSlot m r c p -> slotf m (r, c) = p.
Proof. intros. unfold slotf; simpl. rewrite (getLinearIndex_spec m n r c p); auto. Qed.

Definition elSlots m els : list (list nat) := map (fun e => map (slotf m) (keysCM (dofs e))) els.

Lemma mapM_linearDOFs m n els : wfPattern m n -> wfElements n els ->
  (forall e r c, In e els -> In r (dofs e) -> In c (dofs e) -> exists p, isSlot m r c p) ->
  mapM (fun e => linearDOFs_element m (dofs e)) els = Some (elSlots m els).
Proof.
  intros W We H. apply mapM_some. intros e He. eapply linearDOFs_element_spec; eauto. 
Qed.

Definition spIs m n (f : nat -> nat -> V) : Prop :=
  srows m = n /\ scols m = n /\ forall r c, r < n -> c < n -> sget vzero m r c = Some (f r c).

(** Accumulating triplets into the slots of a pattern that has them all. *)
Lemma sparse_assemble m n (ts : list (key * V)) : wfPattern m n ->
  (forall t, In t ts -> fst (fst t) < n /\ snd (fst t) < n /\ exists p, isSlot m (fst (fst t)) (snd (fst t)) p) ->
  exists v, accAll vadd (repeat vzero (length (svals m))) (map (fun t => (slotf m (fst t), snd t)) ts) = Some v /\
    length v = length (svals m) /\
    (forall r c p, isSlot m r c p -> r < n -> c < n -> nth_error v p = Some (sum vzero vadd (trips_at (r, c) ts))) /\
    spIs (with_vals m v) n (fun r c => sum vzero vadd (trips_at (r, c) ts)).
Proof.
  intros W H.
  destruct (accAll_zero vzero vadd (length (svals m)) (map (fun t => (slotf m (fst t), snd t)) ts)) as [v [H1 [H2 H3]]].
  { intros u Hu. apply in_map_iff in Hu as [[[r c] x] [<- Ht]]. destruct (H _ Ht) as [Hr [Hc [p Hp]]]. simpl in *.
    rewrite (slotf_slot m n r c p); auto. eapply isSlot_range; eauto. }
  assert (forall r c p, isSlot m r c p -> r < n -> c < n -> nth_error v p = Some (sum vzero vadd (trips_at (r, c) ts))) as Hs.
  { intros r c p Hp Hr Hc. rewrite H3 by (eapply isSlot_range; eauto). f_equal. f_equal.
    rewrite <- (slotf_slot m n r c p) by auto. apply updates_at_slot.
    intros [[r' c'] x] Ht E. destruct (H _ Ht) as [Hr' [Hc' [p' Hp']]]. simpl in *.
    rewrite (slotf_slot m n r' c' p'), (slotf_slot m n r c p) in E by auto. subst p'.
    destruct (isSlot_inj m n r c r' c' p W Hp Hp'); congruence. }
  exists v; split; auto. split; auto. split; auto.
  pose proof (wfPattern_with_vals m n v W H2) as W'.
  split; [apply (wf_rows _ _ W)|]. split; [apply (wf_cols _ _ W)|].
  intros r c Hr Hc.
  destruct (find (fun p => match nth_error (sinner m) p with Some r' => r' =? r | None => false end) (slots m c)) as [p|] eqn:E.
  - assert (isSlot m r c p) as Hp.
    { apply find_some in E as [K1 K2]. destruct (nth_error (sinner m) p) as [r'|] eqn:E'; try discriminate.
      apply Nat.eqb_eq in K2; subst. apply slots_in; auto. }
    rewrite (sget_slot _ n r c p); auto.
  - assert (forall p, ~ isSlot m r c p) as Hp. { intros p Hp. rewrite (find_slot m n r c p) in E; auto. discriminate. }
    rewrite (sget_no_slot _ n); auto.
    replace (trips_at (r, c) ts) with (@nil V); auto.
    unfold trips_at. symmetry. replace (filter (fun t => keq (fst t) (r, c)) ts) with (@nil (key * V)); auto.
    symmetry. clear -H Hp. induction ts as [|[k x] ts IH]; simpl; auto.
    destruct (keq_spec k (r, c)) as [->|].
    + exfalso. destruct (H ((r, c), x)) as [_ [_ [p K]]]; simpl; auto. eapply Hp; eauto.
    + apply IH. intros; apply H; simpl; auto.
Qed.

(** Raw assembly for any pattern-carrying matrix and any index cache that starts with the slots. *)
Lemma tripsCM_in e q k x : In (k, x) (tripsCM e q) -> In (fst k) (dofs e) /\ In (snd k) (dofs e).
Proof. intro H. apply in_combine_l in H. apply in_keysCM; auto. Qed.

Lemma assembleRawSparse_spec m n els rest q : wfPattern m n -> wfElements n els ->
  (forall e r c, In e els -> In r (dofs e) -> In c (dofs e) -> exists p, isSlot m r c p) ->
  exists v, assembleRawSparse vzero vadd m (elSlots m els ++ rest) els q = Some (with_vals m v) /\
    length v = length (svals m) /\
    (forall r c p, isSlot m r c p -> r < n -> c < n ->
       nth_error v p = Some (sum vzero vadd (trips_at (r, c) (flat_map (fun e => tripsCM e q) els)))) /\
    spIs (with_vals m v) n (fun r c => sum vzero vadd (trips_at (r, c) (flat_map (fun e => tripsCM e q) els))).
Proof.
  intros W We H. unfold assembleRawSparse, elSlots.
  rewrite assembleRawSparse_loop_accAll. 2:{ intros e He. apply (We e He). }
  destruct (sparse_assemble m n (flat_map (fun e => tripsCM e q) els) W) as [v [H1 [H2 [H3 H4]]]].
  { intros [k x] Ht. apply in_flat_map in Ht as [e [He Ht]]. apply tripsCM_in in Ht as [Hr Hc]. simpl.
    repeat split; eauto; apply (We e He); auto. }
  rewrite H1. exists v; split; [reflexivity|]. auto.
Qed.

(** Under distinct dofs per element the column-by-column and row-by-row sums coincide. *)
Lemma matEntry_CM els q n r c : wfElements n els -> distinctDofs els ->
  sum vzero vadd (trips_at (r, c) (flat_map (fun e => tripsCM e q) els)) = matEntry vzero vadd els q r c.
Proof.
  intros W N. unfold matEntry. f_equal. rewrite trips_at_flat_map. apply flat_map_ext_in. intros e He.
  rewrite trips_at_CM; auto. - apply trips_at_contrib. - apply (W e He).
Qed.

(** In general they add the same summands, in another order within an element. *)
Lemma summands_CM els q n r c : wfElements n els ->
  Permutation (trips_at (r, c) (flat_map (fun e => tripsCM e q) els)) (flat_map (fun e => matContrib vzero e q r c) els).
Proof.
  intros W. rewrite trips_at_flat_map. induction els as [|e els IH]; simpl; auto. apply Permutation_app.
  - rewrite <- trips_at_contrib. apply trips_at_perm, tripsCM_perm. apply (W e); simpl; auto.
  - apply IH. intros x Hx. apply W; simpl; auto.
Qed.

(** * Dirichlet treatment *)

Notation kill x := (vmul x vzero).

Lemma mul_slots_spec ps v : NoDup ps -> (forall p, In p ps -> p < length v) ->
  exists v', foldM (mul_slot vzero vmul) v ps = Some v' /\ length v' = length v /\
    (forall p, In p ps -> nth_error v' p = option_map (fun x => kill x) (nth_error v p)) /\
    (forall p, ~ In p ps -> nth_error v' p = nth_error v p).
Proof.
  revert v; induction ps as [|p ps IH]; intros v N H; simpl.
  - exists v; repeat split; auto. intros p [].
  - inversion N; subst. unfold mul_slot at 1. assert (p < length v) as Hp by (apply H; simpl; auto).
    destruct (nth_error_ex _ _ Hp) as [y Hy]. rewrite Hy.
    destruct (IH (set_nth v p (kill y))) as [v' [K1 [K2 [K3 K4]]]]; auto. { intros; rewrite set_nth_length; apply H; simpl; auto. }
    rewrite set_nth_length in K2. exists v'; repeat split; auto.
    + intros x [->|Hx].
      * rewrite K4, set_nth_same, Hy by auto. auto.
      * rewrite K3 by auto. rewrite set_nth_other; auto. intros ->; auto.
    + intros x Hx. rewrite K4 by tauto. apply set_nth_other. tauto.
Qed.

(** A loop over the constrained dofs which multiplies, for each of them, the slots [ps i] by zero. *)
Lemma forConstrained_mul flags m (f : sparse -> nat -> option sparse) (ps : nat -> list nat) v :
  (forall v' i, length v' = length (svals m) -> f (with_vals m v') i = option_map (with_vals m) (foldM (mul_slot vzero vmul) v' (ps i))) ->
  (forall i p, i < length flags -> In p (ps i) -> p < length (svals m)) ->
  (forall i, NoDup (ps i)) ->
  (forall i j p, i < length flags -> j < length flags -> In p (ps i) -> In p (ps j) -> i = j) ->
  length v = length (svals m) ->
  exists v', forConstrained flags f (with_vals m v) = Some (with_vals m v') /\ length v' = length (svals m) /\
    (forall i p, constrained flags i -> In p (ps i) -> nth_error v' p = option_map (fun x => kill x) (nth_error v p)) /\
    (forall p, (forall i, constrained flags i -> ~ In p (ps i)) -> nth_error v' p = nth_error v p).
Proof.
  intros Hf Hp Nd Dj Hv. unfold forConstrained, size.
  assert (forall l v, NoDup l -> (forall i, In i l -> i < length flags) -> length v = length (svals m) ->
     exists v', foldM (fun (m : sparse) i => match isConstrained flags i with Some true => f m i | Some false => Some m | None => None end) (with_vals m v) l = Some (with_vals m v') /\
      length v' = length (svals m) /\
      (forall i p, In i l -> constrained flags i -> In p (ps i) -> nth_error v' p = option_map (fun x => kill x) (nth_error v p)) /\
      (forall p, (forall i, In i l -> constrained flags i -> ~ In p (ps i)) -> nth_error v' p = nth_error v p)) as G.
  { clear v Hv. induction l as [|i l IH]; intros v Nl Hl Hv; simpl.
    - exists v; repeat split; auto. intros i p [].
    - inversion Nl; subst. assert (i < length flags) as Hi by (apply Hl; simpl; auto).
      unfold isConstrained at 1. destruct (nth_error_ex _ _ Hi) as [b Hb]. rewrite Hb. destruct b.
      + rewrite Hf by auto. destruct (mul_slots_spec (ps i) v (Nd i)) as [v1 [A1 [A2 [A3 A4]]]]. { intros; rewrite Hv; eauto. }
        rewrite A1. cbn [option_map]. destruct (IH v1) as [v' [B1 [B2 [B3 B4]]]]; try congruence; auto. { intros; apply Hl; simpl; auto. }
        exists v'; split; auto. split; auto. split.
        * intros j p [<-|Hj] Hc Hin.
          -- rewrite B4, A3; auto. intros k Hk Ck Ik. assert (k = i). { eapply Dj; eauto. apply Hl; simpl; auto. } subst; auto.
          -- rewrite (B3 j p) by auto. rewrite A4; auto. intro Ii. assert (i = j). { eapply Dj; eauto. apply Hl; simpl; auto. } subst; auto.
        * intros p K. rewrite B4 by (intros; apply K; simpl; auto). apply A4. apply K; simpl; auto.
      + destruct (IH v) as [v' [B1 [B2 [B3 B4]]]]; auto. { intros; apply Hl; simpl; auto. }
        exists v'; split; auto. split; auto. split.
        * intros j p [<-|Hj] Hc Hin. { unfold constrained in Hc; congruence. } eapply B3; eauto.
        * intros p K. apply B4. intros; apply K; simpl; auto. }
  destruct (G (seq 0 (length flags)) v) as [v' [B1 [B2 [B3 B4]]]]; auto. { apply seq_NoDup. } { intros i Hi; apply in_seq in Hi; lia. }
  exists v'; repeat split; auto.
  intros i p Hi Hin. apply (B3 i); auto. apply in_seq. unfold constrained in Hi. apply nth_error_lt in Hi. lia.
Qed.

(** The loop writing ones. *)
Lemma forConstrained_diag flags m n v : wfPattern m n -> n = length flags ->
  (forall i, constrained flags i -> exists p, isSlot m i i p) ->
  length v = length (svals m) ->
  exists v', forConstrained flags (sparse_diag_one vone) (with_vals m v) = Some (with_vals m v') /\ length v' = length (svals m) /\
    (forall p i, constrained flags i -> isSlot m i i p -> nth_error v' p = Some vone) /\
    (forall p, (forall i, constrained flags i -> ~ isSlot m i i p) -> nth_error v' p = nth_error v p).
Proof.
  intros W En Hc Hv. unfold forConstrained, size.
  assert (forall l v, NoDup l -> (forall i, In i l -> i < length flags) -> length v = length (svals m) ->
     exists v', foldM (fun (m : sparse) i => match isConstrained flags i with Some true => sparse_diag_one vone m i | Some false => Some m | None => None end) (with_vals m v) l = Some (with_vals m v') /\
      length v' = length (svals m) /\
      (forall p i, In i l -> constrained flags i -> isSlot m i i p -> nth_error v' p = Some vone) /\
      (forall p, (forall i, In i l -> constrained flags i -> ~ isSlot m i i p) -> nth_error v' p = nth_error v p)) as G.
  { clear v Hv. induction l as [|i l IH]; intros v Nd Hl Hv; simpl.
    - exists v; repeat split; auto. intros p i [].
    - inversion Nd; subst. assert (i < length flags) as Hi by (apply Hl; simpl; auto).
      unfold isConstrained at 1. destruct (nth_error_ex _ _ Hi) as [b Hb]. rewrite Hb. destruct b.
      + destruct (Hc i Hb) as [p0 Hp0]. unfold sparse_diag_one at 1.
        change (slots (with_vals m v) i) with (slots m i). cbn [sinner svals with_vals].
        rewrite (find_slot m (length flags) i i p0) by auto.
        assert (p0 < length v) as Lp by (rewrite Hv; eapply isSlot_range; eauto).
        rewrite put_spec by auto. cbn [option_map]. rewrite with_vals_twice.
        destruct (IH (set_nth v p0 vone)) as [v' [B1 [B2 [B3 B4]]]]; auto. { intros; apply Hl; simpl; auto. } { rewrite set_nth_length; auto. }
        exists v'; split; auto. split; auto. split.
        * intros p j [<-|Hj] Cj Sj; eauto. assert (p = p0) by (eapply isSlot_fun; eauto). subst p0. rewrite B4. { apply set_nth_same; auto. }
          intros k Hk Ck Sk. destruct (isSlot_inj _ _ _ _ _ _ _ W Sj Sk). subst; auto.
        * intros p K. rewrite B4 by (intros; apply K; simpl; auto). apply set_nth_other. intros ->. apply (K i); simpl; auto.
      + destruct (IH v) as [v' [B1 [B2 [B3 B4]]]]; auto. { intros; apply Hl; simpl; auto. }
        exists v'; split; auto. split; auto. split.
        * intros p j [<-|Hj] Cj Sj; eauto. unfold constrained in Cj; congruence.
        * intros p K. apply B4. intros; apply K; simpl; auto. }
  destruct (G (seq 0 (length flags)) v) as [v' [B1 [B2 [B3 B4]]]]; auto. { apply seq_NoDup. } { intros i Hi; apply in_seq in Hi; lia. }
  exists v'; repeat split; auto.
  intros p i Ci Si. apply (B3 p i); auto. apply in_seq. unfold constrained in Ci. apply nth_error_lt in Ci. lia.
Qed.

Lemma row_slots_in m r p : In p (row_slots m r) <-> nth_error (sinner m) p = Some r.
Proof.
  unfold row_slots. rewrite filter_In, in_seq. split.
  - intros [_ H]. destruct (nth_error (sinner m) p); try discriminate. apply Nat.eqb_eq in H; congruence.
  - intro H. rewrite H, Nat.eqb_refl. split; auto. apply nth_error_lt in H. lia.
Qed.

Lemma slots_range m n c p : wfPattern m n -> c < n -> In p (slots m c) -> p < length (svals m).
Proof.
  intros W Hc H. unfold slots in H. destruct (nth_error (souter m) c) eqn:E1; [|destruct H].
  destruct (wf_outer _ _ W (S c) ltac:(lia)) as [t [Ht Lt]]. rewrite Ht in H. apply in_seq in H. rewrite (wf_vals _ _ W). lia.
Qed.

(** The three Dirichlet loops on a matrix with values [v0]. *)
Lemma dirichlet_loops flags m v0 (f : nat -> nat -> V) : wfPattern m (length flags) ->
  (forall i, constrained flags i -> exists p, isSlot m i i p) ->
  length v0 = length (svals m) ->
  (forall r c p, isSlot m r c p -> r < length flags -> c < length flags -> nth_error v0 p = Some (f r c)) ->
  exists v1 v2 v3,
    forConstrained flags (sparse_col_zero vzero vmul) (with_vals m v0) = Some (with_vals m v1) /\
    forConstrained flags (sparse_row_zero vzero vmul) (with_vals m v1) = Some (with_vals m v2) /\
    forConstrained flags (sparse_diag_one vone) (with_vals m v2) = Some (with_vals m v3) /\
    length v3 = length (svals m) /\
    (forall r c, r < length flags -> c < length flags -> (exists p, isSlot m r c p) ->
       sget vzero (with_vals m v3) r c = Some (sparseFullEntry vzero vone vmul flags f r c)) /\
    (forall r c, r < length flags -> c < length flags -> (forall p, ~ isSlot m r c p) ->
       sget vzero (with_vals m v3) r c = Some vzero).
Proof.
  intros W Cov L0 Hf. set (n := length flags) in *.
  destruct (forConstrained_mul flags m (sparse_col_zero vzero vmul) (slots m) v0) as [v1 [A1 [A2 [A3 A4]]]]; auto.
  { intros i p Hi Hp. eapply slots_range; eauto. }
  { intro i. unfold slots. destruct (nth_error (souter m) i), (nth_error (souter m) (S i)); try constructor. apply seq_NoDup. }
  { intros i j p Hi Hj Ii Ij. pose proof (slots_range m n i p W Hi Ii) as Lp. rewrite (wf_vals _ _ W) in Lp.
    destruct (nth_error_ex _ _ Lp) as [r Hr]. apply (slots_in m r i p Hr) in Ii. apply (slots_in m r j p Hr) in Ij.
    apply (isSlot_inj _ _ _ _ _ _ _ W Ii Ij). }
  destruct (forConstrained_mul flags m (sparse_row_zero vzero vmul) (row_slots m) v1) as [v2 [B1 [B2 [B3 B4]]]]; auto.
  { intros i p Hi Hp. apply row_slots_in in Hp. rewrite (wf_vals _ _ W). eapply nth_error_lt; eauto. }
  { intro i. unfold row_slots. apply NoDup_filter, seq_NoDup. }
  { intros i j p Hi Hj Ii Ij. apply row_slots_in in Ii, Ij. congruence. }
  destruct (forConstrained_diag flags m n v2) as [v3 [C1 [C2 [C3 C4]]]]; auto.
  pose proof (wfPattern_with_vals m n v3 W C2) as W3.
  exists v1, v2, v3. split; [auto|]. split; [auto|]. split; [auto|]. split; [auto|]. split.
  - intros r c Hr Hc [p Hp].
    pose proof Hp as [_ [_ [_ [_ [_ Hin]]]]].
    rewrite (sget_slot _ n r c p); auto. cbn [svals with_vals].
    assert (nth_error v1 p = Some (if nth c flags false then kill (f r c) else f r c)) as E1.
    { destruct (nth c flags false) eqn:Fc.
      - rewrite (A3 c p); [rewrite (Hf r c p) by auto; auto| |]. + apply nth_true_constrained; auto. + apply (slots_in m r c p); auto.
      - rewrite A4; auto. intros i Ci Hi. apply (slots_in m r i p Hin) in Hi.
        destruct (isSlot_inj _ _ _ _ _ _ _ W Hp Hi) as [_ <-]. apply nth_true_constrained in Ci. congruence. }
    assert (nth_error v2 p = Some (let x := if nth c flags false then kill (f r c) else f r c in if nth r flags false then kill x else x)) as E2.
    { simpl. destruct (nth r flags false) eqn:Fr.
      - rewrite (B3 r p); [rewrite E1; auto| |]. + apply nth_true_constrained; auto. + apply row_slots_in; auto.
      - rewrite B4; auto. intros i Ci Hi. apply row_slots_in in Hi. assert (i = r) by congruence; subst. apply nth_true_constrained in Ci. congruence. }
    unfold sparseFullEntry. destruct (Nat.eqb_spec r c) as [<-|N]; simpl.
    + destruct (nth r flags false) eqn:Fr; simpl.
      * eapply C3; eauto. apply nth_true_constrained; auto.
      * rewrite C4, E2; auto. intros i Ci Si. destruct (isSlot_inj _ _ _ _ _ _ _ W Hp Si) as [<- _]. apply nth_true_constrained in Ci. congruence.
    + rewrite C4, E2; auto. intros i Ci Si. destruct (isSlot_inj _ _ _ _ _ _ _ W Hp Si). congruence.
  - intros r c Hr Hc Hp. rewrite (sget_no_slot _ n); auto.
Qed.

(** * Reduced matrix *)

Lemma createReducedOccupationPattern_spec flags els : wfElements (length flags) els ->
  exists m, createReducedOccupationPattern vzero flags els = Some m /\ wfPattern m (reducedSize flags) /\
    (forall e t q, In e els -> In t (tripsRed vzero flags e q) -> exists p, isSlot m (fst (fst t)) (snd (fst t)) p).
Proof.
  intro W. unfold createReducedOccupationPattern.
  assert (exists ts, foldM (fun l e => option_map (fun ps => l ++ map snd ps) (pairs_free flags (dofs e))) [] els = Some ts /\
     (forall k, In k ts -> fst k < reducedSize flags /\ snd k < reducedSize flags) /\
     (forall e t q, In e els -> In t (tripsRed vzero flags e q) -> In (fst t) ts)) as [ts [H1 [H2 H3]]].
  { assert (forall l0 : list key, (forall k, In k l0 -> fst k < reducedSize flags /\ snd k < reducedSize flags) ->
      exists ts, foldM (fun l e => option_map (fun ps => l ++ map snd ps) (pairs_free flags (dofs e))) l0 els = Some ts /\
       (forall k, In k ts -> fst k < reducedSize flags /\ snd k < reducedSize flags) /\
       (forall k, In k l0 -> In k ts) /\
       (forall e t q, In e els -> In t (tripsRed vzero flags e q) -> In (fst t) ts)) as G.
    { induction els as [|e els IH]; intros l0 Hl0; simpl.
      - exists l0; repeat split; auto; try apply Hl0; auto. intros e t q [].
      - destruct (pairs_free_spec vzero flags e (length flags)) as [ps [P1 [P2 P3]]]; auto. { apply W; simpl; auto. }
        rewrite P1. cbn [option_map].
        assert (forall q k, In k (map snd ps) <-> exists x, In (k, x) (tripsRed vzero flags e q)) as Pk.
        { intros q k. rewrite <- (P3 q). rewrite in_map_iff. split.
          - intros [p [<- Hp]]. eexists. apply in_map_iff. exists p; split; eauto.
          - intros [x Hx]. apply in_map_iff in Hx as [p [E Hp]]. inversion E; subst. eauto. }
        destruct (IH (fun e' He' => W e' (or_intror He')) (l0 ++ map snd ps)) as [ts [A1 [A2 [A3 A4]]]].
        { intros k Hk. apply in_app_iff in Hk as [Hk|Hk]; auto.
          apply in_map_iff in Hk as [p [<- Hp]]. 
          (* ranges of the pairs *)
          clear - P1 Hp W. destruct (W e (or_introl eq_refl)) as [Hd _].
          unfold pairs_free in P1. rewrite freeDofs_spec in P1 by auto. cbn [option_map] in P1. inversion P1; subst ps; clear P1.
          apply in_flat_map in Hp as [a [Ha Hp]]. apply in_map_iff in Hp as [b [<- Hb]].
          apply in_map_iff in Ha as [a' [<- Ha]]. apply in_map_iff in Hb as [b' [<- Hb]].
          unfold freeEnum in *. apply filter_In in Ha as [_ Ha]. apply filter_In in Hb as [_ Hb]. simpl.
          split; apply rk_lt, isFreeb_free; auto. }
        exists ts; split; auto. split; auto. split.
        + intros k Hk. apply A3, in_app_iff; auto.
        + intros e' t q [<-|He'] Ht; eauto. apply A3, in_app_iff. right. apply (Pk q). exists (snd t). destruct t; auto. }
    destruct (G []) as [ts [A1 [A2 [_ A4]]]]. { intros k []. } exists ts; auto. }
  rewrite H1. destruct (setFromTriplets_spec (reducedSize flags) ts) as [m [M1 [M2 [M3 M4]]]]; auto.
  exists m; split; [auto|]. split; [auto|]. intros e t q He Ht. apply M4. rewrite <- surjective_pairing. eauto.
Qed.

Definition elSlotsRed flags m els (q : Q) : list (list nat) :=
  map (fun e => map (fun t => slotf m (fst t)) (tripsRed vzero flags e q)) els.

Lemma linearDOFsReduced_spec flags m e q : wfElement (length flags) e -> wfPattern m (reducedSize flags) ->
  (forall t, In t (tripsRed vzero flags e q) -> exists p, isSlot m (fst (fst t)) (snd (fst t)) p) ->
  linearDOFsReduced_element flags m (dofs e) = Some (map (fun t => slotf m (fst t)) (tripsRed vzero flags e q)).
Proof.
  intros We W H. unfold linearDOFsReduced_element.
  destruct (pairs_free_spec vzero flags e (length flags) We eq_refl) as [ps [P1 [P2 P3]]]. rewrite P1.
  rewrite (mapM_some _ (fun p => slotf m (snd p))).
  - rewrite <- (P3 q), map_map. auto.
  - intros p Hp. assert (In (snd p, nth (fst (fst p) + snd (fst p) * length (dofs e)) (emat e q) vzero) (tripsRed vzero flags e q)) as Ht.
    { rewrite <- (P3 q). apply in_map_iff. exists p; auto. }
    destruct (H _ Ht) as [s Hs]. simpl in Hs. destruct (tripsRed_range _ _ _ _ _ Ht) as [Hr Hc]. simpl in *.
    unfold slotf. rewrite !(getLinearIndex_spec m (reducedSize flags) _ _ s); auto.
Qed.

Lemma assembleReducedSparse_loop_accAll flags coeffs m els rest q q' : wfElements (length flags) els ->
  assembleReducedSparse_loop vadd flags coeffs (elSlotsRed flags m els q' ++ rest) els q
  = accAll vadd coeffs (map (fun t => (slotf m (fst t), snd t)) (flat_map (fun e => tripsRed vzero flags e q) els)).
Proof.
  intro W. revert coeffs; induction els as [|e els IH]; intros coeffs; [reflexivity|].
  cbn [elSlotsRed map app assembleReducedSparse_loop flat_map].
  rewrite map_app, accAll_app. unfold reducedSparse_element.
  assert (wfElement (length flags) e) as We by (apply W; simpl; auto).
  destruct (pairs_free_spec vzero flags e (length flags) We eq_refl) as [ps [P1 [P2 P3]]]. rewrite P1.
  rewrite (mapM_local vzero). 2:{ apply We. } 2:{ auto. }
  rewrite scatter_accAll. 2:{ rewrite !map_length. rewrite <- (P3 q'), map_length. auto. }
  rewrite <- (P3 q'), <- (P3 q), !map_map. cbn [fst snd]. rewrite combine_maps.
  destruct (accAll vadd coeffs _); auto. apply IH. intros e' He'. apply W; simpl; auto.
Qed.

Definition spRedIs m flags (f : nat -> nat -> V) : Prop :=
  srows m = reducedSize flags /\ scols m = reducedSize flags /\
  forall r c, free flags r -> free flags c -> sget vzero m (rk flags r) (rk flags c) = Some (f r c).

Lemma assembleReducedSparse_spec flags m els rest q q' : wfElements (length flags) els -> wfPattern m (reducedSize flags) ->
  (forall e t q, In e els -> In t (tripsRed vzero flags e q) -> exists p, isSlot m (fst (fst t)) (snd (fst t)) p) ->
  exists v, assembleReducedSparse_loop vadd flags (repeat vzero (length (svals m))) (elSlotsRed flags m els q' ++ rest) els q = Some v /\
    length v = length (svals m) /\ spRedIs (with_vals m v) flags (matEntry vzero vadd els q).
Proof.
  intros We W H. rewrite assembleReducedSparse_loop_accAll by auto.
  destruct (sparse_assemble m (reducedSize flags) (flat_map (fun e => tripsRed vzero flags e q) els) W) as [v [H1 [H2 [H3 H4]]]].
  { intros t Ht. apply in_flat_map in Ht as [e [He Ht]]. destruct (tripsRed_range _ _ _ _ _ Ht). repeat split; eauto. }
  exists v; repeat split; auto; try apply H4.
  intros r c Hr Hc. destruct H4 as [_ [_ H4]]. rewrite H4 by (apply rk_lt; auto). f_equal. unfold matEntry. f_equal.
  rewrite trips_at_flat_map. apply flat_map_ext_in. intros e He. unfold tripsRed. rewrite trips_at_rk by auto. apply trips_at_contrib.
Qed.

End Sparse.
