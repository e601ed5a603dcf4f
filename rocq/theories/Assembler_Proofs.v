(** Lemmas about the assembler model. *)

From Coq Require Import List Arith Bool Lia Permutation Sorted.
From Verif Require Import Assembler_Model Assembler_Spec.
Import ListNotations.

(** * Lists *)

Lemma nth_error_ext {A} (l l' : list A) : (forall i, nth_error l i = nth_error l' i) -> l = l'.
Proof.
  revert l'; induction l as [|a l IH]; intros [|b l'] H; auto.
  - specialize (H 0); discriminate.
  - specialize (H 0); discriminate.
  - f_equal. + specialize (H 0); simpl in H; congruence.
    + apply IH; intro i; exact (H (S i)).
Qed.

Lemma nth_error_lt {A} (l : list A) i x : nth_error l i = Some x -> i < length l.
Proof. intro H; apply nth_error_Some; congruence. Qed.

Lemma nth_error_ex {A} (l : list A) i : i < length l -> exists x, nth_error l i = Some x.
Proof. intro H; destruct (nth_error l i) eqn:E; eauto. apply nth_error_None in E; lia. Qed.

Lemma nth_of_nth_error {A} (l : list A) i x d : nth_error l i = Some x -> nth i l d = x.
Proof. intro H. apply nth_error_nth; exact H. Qed.

Lemma nth_error_of_nth {A} (l : list A) i d : i < length l -> nth_error l i = Some (nth i l d).
Proof. intro H. apply nth_error_nth'; exact H. Qed.

Lemma set_nth_length {A} (l : list A) i x : length (set_nth l i x) = length l.
Proof. revert i; induction l as [|a l IH]; intros [|i]; simpl; auto. Qed.

Lemma set_nth_same {A} (l : list A) i x : i < length l -> nth_error (set_nth l i x) i = Some x.
Proof.
  revert i; induction l as [|a l IH]; intros [|i] H; simpl in *; try lia; auto.
  apply IH; lia.
Qed.

Lemma set_nth_other {A} (l : list A) i j x : i <> j -> nth_error (set_nth l i x) j = nth_error l j.
Proof.
  revert i j; induction l as [|a l IH]; intros [|i] [|j] H; simpl; auto; try lia.
Qed.

Lemma foldM_app {S A} (f : S -> A -> option S) l l' s :
  foldM f s (l ++ l') = match foldM f s l with Some s' => foldM f s' l' | None => None end.
Proof.
  revert s; induction l as [|a l IH]; intro s; simpl; auto.
  destruct (f s a); auto.
Qed.

Lemma foldM_ext {S A} (f g : S -> A -> option S) l s :
  (forall s a, In a l -> f s a = g s a) -> foldM f s l = foldM g s l.
Proof.
  revert s; induction l as [|a l IH]; intros s H; simpl; auto.
  rewrite (H s a (or_introl eq_refl)).
  destruct (g s a); auto. apply IH; intros; apply H; right; auto.
Qed.

Lemma foldM_map {S A B} (f : S -> B -> option S) (g : A -> B) l s :
  foldM f s (map g l) = foldM (fun s a => f s (g a)) s l.
Proof.
  revert s; induction l as [|a l IH]; intro s; simpl; auto.
  destruct (f s (g a)); auto.
Qed.

Lemma foldM_flat_map {S A B} (f : S -> B -> option S) (g : A -> list B) l s :
  foldM f s (flat_map g l) = foldM (fun s a => foldM f s (g a)) s l.
Proof.
  revert s; induction l as [|a l IH]; intro s; simpl; auto.
  rewrite foldM_app. destruct (foldM f s (g a)); auto.
Qed.

Lemma enumerate_length {A} (l : list A) i : length (enumerate i l) = length l.
Proof. revert i; induction l; simpl; auto. Qed.

Lemma enumerate_nth_error {A} (l : list A) i j :
  nth_error (enumerate i l) j = option_map (fun x => (i + j, x)) (nth_error l j).
Proof.
  revert i j; induction l as [|a l IH]; intros i [|j]; simpl; auto.
  - rewrite Nat.add_0_r; auto.
  - rewrite IH. destruct (nth_error l j); simpl; auto. do 2 f_equal; lia.
Qed.

Lemma in_enumerate {A} (l : list A) i p : In p (enumerate i l) <-> exists j, nth_error l j = Some (snd p) /\ fst p = i + j.
Proof.
  destruct p as [a b]; simpl. split.
  - intro H. apply In_nth_error in H as [j H]. rewrite enumerate_nth_error in H.
    destruct (nth_error l j) eqn:E; simpl in H; inversion H; subst. exists j; auto.
  - intros [j [H1 ->]]. apply nth_error_In with j. rewrite enumerate_nth_error, H1; auto.
Qed.

Lemma enumerate_seq {A} (l : list A) (d : A) i :
  enumerate i l = map (fun j => (j, nth (j - i) l d)) (seq i (length l)).
Proof.
  revert i; induction l as [|a l IH]; intro i; simpl; auto.
  f_equal. - rewrite Nat.sub_diag; auto.
  - rewrite IH. apply map_ext_in. intros j Hj. apply in_seq in Hj.
    destruct (j - i) eqn:E; try lia. do 2 f_equal; lia.
Qed.

Lemma flat_map_ext_in {A B} (f g : A -> list B) l :
  (forall a, In a l -> f a = g a) -> flat_map f l = flat_map g l.
Proof. intro H; induction l as [|a l IH]; simpl; auto. rewrite H, IH; auto; simpl; auto. intros; apply H; simpl; auto. Qed.

Lemma flat_map_map' {A B C} (f : B -> list C) (g : A -> B) l : flat_map f (map g l) = flat_map (fun a => f (g a)) l.
Proof. induction l; simpl; auto. rewrite IHl; auto. Qed.

Lemma map_flat_map {A B C} (f : B -> C) (g : A -> list B) l : map f (flat_map g l) = flat_map (fun a => map f (g a)) l.
Proof. induction l; simpl; auto. rewrite map_app, IHl; auto. Qed.

Lemma filter_flat_map {A B} (f : B -> bool) (g : A -> list B) l :
  filter f (flat_map g l) = flat_map (fun a => filter f (g a)) l.
Proof. induction l; simpl; auto. rewrite filter_app, IHl; auto. Qed.

Lemma filter_map {A B} (f : B -> bool) (g : A -> B) l : filter f (map g l) = map g (filter (fun a => f (g a)) l).
Proof. induction l; simpl; auto. rewrite IHl. destruct (f (g a)); auto. Qed.

Lemma filter_as_flat_map {A B} (f : A -> bool) (g : A -> B) l :
  map g (filter f l) = flat_map (fun a => if f a then [g a] else []) l.
Proof. induction l; simpl; auto. destruct (f a); simpl; rewrite IHl; auto. Qed.

Lemma mapM_length {A B} (f : A -> option B) l l' : mapM f l = Some l' -> length l' = length l.
Proof.
  revert l'; induction l as [|a l IH]; simpl; intros l' H. - inversion H; auto.
  - destruct (f a), (mapM f l); inversion H; subst; simpl; f_equal; auto.
Qed.

Lemma mapM_some {A B} (f : A -> option B) (g : A -> B) l :
  (forall a, In a l -> f a = Some (g a)) -> mapM f l = Some (map g l).
Proof.
  induction l as [|a l IH]; simpl; intro H; auto.
  rewrite H by auto. rewrite IH by auto. auto.
Qed.

Lemma mapM_exists {A B} (f : A -> option B) l :
  (forall a, In a l -> exists b, f a = Some b) -> exists l', mapM f l = Some l'.
Proof.
  induction l as [|a l IH]; simpl; intro H; eauto.
  destruct (H a) as [b Hb]; auto. rewrite Hb. destruct IH as [l' Hl']; auto. rewrite Hl'. eauto.
Qed.

Lemma mapM_nth_error {A B} (f : A -> option B) l l' i a :
  mapM f l = Some l' -> nth_error l i = Some a -> exists b, f a = Some b /\ nth_error l' i = Some b.
Proof.
  revert l' i; induction l as [|x l IH]; simpl; intros l' i H Hi. - destruct i; discriminate.
  - destruct (f x) eqn:Ef, (mapM f l) eqn:Em; inversion H; subst.
    destruct i as [|i]; simpl in *. + inversion Hi; subst; eauto. + eapply IH; eauto.
Qed.

(** * Numbering *)

Section Numbering.
Implicit Types flags : list bool.

Lemma cb_loop_nth flags c i : i < length flags ->
  nth_error (constraintsBelow_loop c flags) i = Some (c + below flags i).
Proof.
  revert c i; induction flags as [|b t IH]; intros c [|i] H; simpl in *; try lia.
  - unfold below; simpl. rewrite Nat.add_0_r; auto.
  - rewrite IH by lia. unfold below; simpl. destruct b; simpl; f_equal; lia.
Qed.

Lemma cb_loop_length flags c : length (constraintsBelow_loop c flags) = length flags.
Proof. revert c; induction flags; simpl; auto. Qed.

Lemma constraintsBelow_below flags i : i < length flags -> constraintsBelow flags i = Some (below flags i).
Proof. intro H; unfold constraintsBelow, constraintsBelow_table. rewrite cb_loop_nth; auto. Qed.

Lemma constraintsBelow_None flags i : length flags <= i -> constraintsBelow flags i = None.
Proof. intro H; unfold constraintsBelow, constraintsBelow_table. apply nth_error_None. rewrite cb_loop_length; auto. Qed.

Lemma fixedDOFsize_count flags : fixedDOFsize flags = nConstrained flags.
Proof.
  unfold nConstrained; induction flags as [|[] t IH]; simpl; auto.
Qed.

Lemma size_split flags : length flags = nFree flags + nConstrained flags.
Proof. unfold nFree, nConstrained; induction flags as [|[] t IH]; simpl; lia. Qed.

Lemma reducedSize_nFree flags : reducedSize flags = nFree flags.
Proof. unfold reducedSize, size. rewrite fixedDOFsize_count. pose proof (size_split flags). lia. Qed.

Lemma below_le flags i : below flags i <= i.
Proof.
  unfold below. revert i; induction flags as [|b t IH]; intros [|i]; simpl; try lia.
  specialize (IH i). destruct (Bool.bool_dec b true); lia.
Qed.

Lemma below_S flags i b : nth_error flags i = Some b -> below flags (S i) = below flags i + (if b then 1 else 0).
Proof.
  unfold below. revert i; induction flags as [|x t IH]; intros [|i] H; try discriminate.
  - simpl in H; inversion H; subst. simpl. destruct b; auto.
  - change (firstn (S (S i)) (x :: t)) with (x :: firstn (S i) t).
    change (firstn (S i) (x :: t)) with (x :: firstn i t). cbn [count_occ].
    rewrite IH by exact H. destruct (Bool.bool_dec x true); lia.
Qed.

Lemma below_end flags : below flags (length flags) = nConstrained flags.
Proof. unfold below; rewrite firstn_all; auto. Qed.

Lemma below_mono flags i j : i <= j -> j <= length flags -> below flags i <= below flags j /\ below flags j - below flags i <= j - i.
Proof.
  intros H1 H2. induction H1; try lia.
  assert (m < length flags) as Hm by lia. destruct (nth_error_ex _ _ Hm) as [b Hb].
  rewrite (below_S _ _ _ Hb). specialize (IHle ltac:(lia)). destruct b; lia.
Qed.

Definition rk flags i := i - below flags i.

Lemma rk_mono flags i j : free flags i -> i < j -> j <= length flags -> rk flags i < rk flags j.
Proof.
  unfold free, rk; intros Hf Hij Hj.
  pose proof (below_S _ _ _ Hf) as HS; simpl in HS.
  pose proof (below_mono flags (S i) j ltac:(lia) Hj).
  pose proof (below_le flags i). pose proof (below_le flags j). lia.
Qed.

Lemma free_lt flags i : free flags i -> i < length flags.
Proof. apply nth_error_lt. Qed.

Lemma rk_inj flags i j : free flags i -> free flags j -> rk flags i = rk flags j -> i = j.
Proof.
  intros Hi Hj E. destruct (lt_eq_lt_dec i j) as [[H|H]|H]; auto.
  - pose proof (rk_mono _ _ _ Hi H ltac:(pose proof (free_lt _ _ Hj); lia)); lia.
  - pose proof (rk_mono _ _ _ Hj H ltac:(pose proof (free_lt _ _ Hi); lia)); lia.
Qed.

Lemma rk_lt flags i : free flags i -> rk flags i < reducedSize flags.
Proof.
  intro H. pose proof (rk_mono flags i (length flags) H (free_lt _ _ H) (le_n _)) as E.
  unfold rk in E at 2. rewrite below_end in E. rewrite reducedSize_nFree.
  pose proof (size_split flags). lia.
Qed.

Lemma reducedIndex_rk flags i : i < length flags -> reducedIndex flags i = Some (rk flags i).
Proof. intro H; unfold reducedIndex. rewrite constraintsBelow_below; auto. Qed.

Lemma restrict_length {A} flags (v : list A) : length v = length flags -> length (restrict flags v) = nFree flags.
Proof.
  revert v; induction flags as [|b t IH]; intros [|x v] H; simpl in *; try discriminate; auto.
  destruct b; unfold nFree; simpl; rewrite IH by lia; auto.
Qed.

Lemma rk_cons_true b t i : rk (b :: t) (S i) = (if b then 0 else 1) + rk t i.
Proof.
  unfold rk, below. cbn [firstn count_occ]. pose proof (below_le t i) as H; unfold below in H.
  destruct b; destruct (Bool.bool_dec _ _); try discriminate; lia.
Qed.

Lemma restrict_nth {A} flags (v : list A) i : length v = length flags -> free flags i ->
  nth_error (restrict flags v) (rk flags i) = nth_error v i.
Proof.
  unfold free. revert v i; induction flags as [|b t IH]; intros [|x v] [|i] HL Hf; simpl in *; try discriminate.
  - inversion Hf; subst. reflexivity.
  - rewrite rk_cons_true. destruct b; simpl; apply IH; auto.
Qed.

Lemma rk_surj flags k : k < reducedSize flags -> exists i, free flags i /\ rk flags i = k.
Proof.
  rewrite reducedSize_nFree. unfold free. revert k; induction flags as [|b t IH]; intros k H; [unfold nFree in H; simpl in H; lia|].
  destruct b.
  - destruct (IH k) as [i [Hi Hk]]; [unfold nFree in *; simpl in H; auto|].
    exists (S i). split; [exact Hi|]. rewrite rk_cons_true; simpl; auto.
  - destruct k as [|k].
    + exists 0; split; auto.
    + destruct (IH k) as [i [Hi Hk]]; [unfold nFree in *; simpl in H; lia|].
      exists (S i). split; [exact Hi|]. rewrite rk_cons_true; simpl; auto.
Qed.

Lemma freeList_nth flags i : free flags i -> nth_error (freeList flags) (rk flags i) = Some i.
Proof.
  intro H. unfold freeList. rewrite restrict_nth; auto.
  - rewrite (nth_error_nth' _ 0); [|rewrite seq_length; apply free_lt; auto].
    rewrite seq_nth; auto. apply free_lt; auto.
  - apply seq_length.
Qed.

(** An element of the restricted list is characterised by its free dof. *)
Lemma restrict_ext {A} flags (v : list A) (w : list A) :
  length v = length flags -> length w = reducedSize flags ->
  (forall i, free flags i -> nth_error w (rk flags i) = nth_error v i) -> w = restrict flags v.
Proof.
  intros Hv Hw H. apply nth_error_ext. intro k.
  destruct (lt_dec k (reducedSize flags)) as [L|L].
  - destruct (rk_surj _ _ L) as [i [Hi <-]]. rewrite H, restrict_nth; auto.
  - rewrite (proj2 (nth_error_None _ _)) by lia. symmetry. apply nth_error_None.
    rewrite restrict_length by auto. rewrite <- reducedSize_nFree. lia.
Qed.

End Numbering.

(** * Vectors *)

Section Values.
Context {V Q : Type} (vzero vone : V) (vadd vmul : V -> V -> V).
Notation elt := (element (V:=V) Q).
Notation acc := (acc vadd).
Notation dense := (dense (V:=V)).
Implicit Types (els : list elt) (e : elt) (q : Q) (flags : list bool) (M : dense).

Definition accAll (v : list V) (us : list (nat * V)) : option (list V) :=
  foldM (fun v u => acc v (fst u) (snd u)) v us.

Definition updates_at (d : nat) (us : list (nat * V)) : list V :=
  map snd (filter (fun u => fst u =? d) us).

Lemma accAll_spec us v :
  (forall u, In u us -> fst u < length v) ->
  exists v', accAll v us = Some v' /\ length v' = length v /\
    forall d y, nth_error v d = Some y -> nth_error v' d = Some (fold_left vadd (updates_at d us) y).
Proof.
  revert v; induction us as [|[i x] us IH]; intros v H; simpl.
  - exists v; repeat split; auto.
  - unfold accAll; simpl. unfold Assembler_Model.acc at 1. assert (i < length v) as Hi by (apply (H (i, x)); simpl; auto).
    destruct (nth_error_ex _ _ Hi) as [y Hy]. rewrite Hy.
    destruct (IH (set_nth v i (vadd y x))) as [v' [H1 [H2 H3]]].
    { intros u Hu. rewrite set_nth_length. apply H; simpl; auto. }
    exists v'. split; [exact H1|]. rewrite set_nth_length in H2. split; auto.
    intros d z Hz. unfold updates_at; simpl. destruct (Nat.eqb_spec i d) as [->|N]; simpl.
    + apply H3. rewrite set_nth_same by auto. congruence.
    + apply H3. rewrite set_nth_other by auto. auto.
Qed.

Lemma accAll_app v us us' :
  accAll v (us ++ us') = match accAll v us with Some v' => accAll v' us' | None => None end.
Proof. apply foldM_app. Qed.

(** From zero, the entry is a left-to-right sum. *)
Lemma accAll_zero n us :
  (forall u, In u us -> fst u < n) ->
  exists v', accAll (repeat vzero n) us = Some v' /\ length v' = n /\
    forall d, d < n -> nth_error v' d = Some (sum vzero vadd (updates_at d us)).
Proof.
  intro H. destruct (accAll_spec us (repeat vzero n)) as [v' [H1 [H2 H3]]].
  { intros; rewrite repeat_length; auto. }
  rewrite repeat_length in H2. exists v'; repeat split; auto.
  intros d Hd. apply H3. apply nth_error_repeat; auto.
Qed.

Lemma updates_at_flat_map {A} d (f : A -> list (nat * V)) l :
  updates_at d (flat_map f l) = flat_map (fun a => updates_at d (f a)) l.
Proof. unfold updates_at. rewrite filter_flat_map, map_flat_map; auto. Qed.

(** ** createFullVector / createReducedVector *)

(** Loop invariant of createFullVector. *)
Lemma createFullVector_loop_spec pre post (red : list V) :
  length red = reducedSize (pre ++ post) ->
  exists v, createFullVector_loop vzero post red (length pre) (below (pre ++ post) (length pre)) = Some v /\
    length v = length post /\
    forall i, i < length post ->
      nth_error v i = (if nth i post true then Some vzero else nth_error red (rk (pre ++ post) (length pre + i))).
Proof.
  revert pre; induction post as [|b t IH]; intros pre HL; simpl.
  - exists []; repeat split; auto; simpl; intros; lia.
  - assert (nth_error (pre ++ b :: t) (length pre) = Some b) as Hb.
    { rewrite nth_error_app2, Nat.sub_diag by lia; auto. }
    assert (pre ++ b :: t = (pre ++ [b]) ++ t) as Ea by (rewrite <- app_assoc; auto).
    assert (length (pre ++ [b]) = S (length pre)) as El by (rewrite app_length; simpl; lia).
    pose proof (below_S _ _ _ Hb) as HS.
    destruct (IH (pre ++ [b])) as [v [H1 [H2 H3]]]; [rewrite <- Ea; auto|].
    rewrite <- Ea, El in *.
    destruct b.
    + rewrite HS, Nat.add_1_r in H1. rewrite H1. simpl. exists (vzero :: v); simpl; repeat split; auto.
      intros [|i] Hi; simpl; auto. rewrite H3 by lia. replace (S (length pre) + i) with (length pre + S i) by lia. auto.
    + rewrite HS, Nat.add_0_r in H1. rewrite H1.
      assert (length pre - below (pre ++ false :: t) (length pre) < length red) as Hr.
      { rewrite HL. apply rk_lt. exact Hb. }
      destruct (nth_error_ex _ _ Hr) as [x Hx]. rewrite Hx. simpl. exists (x :: v); simpl; repeat split; auto.
      intros [|i] Hi; simpl; auto. * rewrite Nat.add_0_r. unfold rk. rewrite Hx; auto.
      * rewrite H3 by lia. replace (S (length pre) + i) with (length pre + S i) by lia. auto.
Qed.

Lemma createFullVector_spec flags (red : list V) :
  length red = reducedSize flags ->
  exists v, createFullVector vzero flags red = Some v /\ length v = length flags /\
    (forall i, constrained flags i -> nth_error v i = Some vzero) /\
    (forall i, free flags i -> nth_error v i = nth_error red (rk flags i)).
Proof.
  intro H. unfold createFullVector. rewrite (proj2 (Nat.eqb_eq _ _) H).
  destruct (createFullVector_loop_spec [] flags red) as [v [H1 [H2 H3]]]; auto.
  simpl in *. unfold below in H1; simpl in H1. exists v; repeat split; auto.
  - intros i Hi. unfold constrained in Hi. rewrite H3 by (eapply nth_error_lt; eauto).
    rewrite (nth_of_nth_error _ _ _ _ Hi); auto.
  - intros i Hi. unfold free in Hi. rewrite H3 by (eapply nth_error_lt; eauto).
    rewrite (nth_of_nth_error _ _ _ _ Hi); auto.
Qed.

Lemma put_spec {A} (l : list A) i x : i < length l ->
  put l i x = Some (set_nth l i x).
Proof. intro H; unfold put. apply Nat.ltb_lt in H; rewrite H; auto. Qed.

(** Loop invariant of createReducedVector: the destination is a written prefix followed by unwritten entries. *)
Lemma createReducedVector_loop_spec flags (w : list V) m : forall i done,
  i + length w = length flags -> length done = rk flags i -> length done + m = reducedSize flags ->
  createReducedVector_loop flags w (map Some done ++ repeat None m) i (below flags i)
  = Some (map Some (done ++ restrict (skipn i flags) w)).
Proof.
  revert m; induction w as [|x w IH]; intros m i done HL Hd Hm; simpl.
  - simpl in HL. assert (i = length flags) by lia. subst i. rewrite skipn_all. simpl. rewrite app_nil_r.
    assert (m = 0). { unfold rk in Hd. rewrite below_end in Hd. rewrite reducedSize_nFree in Hm. pose proof (size_split flags). lia. }
    subst. simpl. rewrite app_nil_r; auto.
  - simpl in HL. destruct (nth_error_ex flags i ltac:(lia)) as [b Hb]. rewrite Hb.
    assert (skipn i flags = b :: skipn (S i) flags) as Es.
    { clear -Hb. revert flags Hb; induction i; intros [|a fl] Hb; try discriminate; simpl in *; try congruence. apply IHi; auto. }
    rewrite Es. simpl. pose proof (below_S _ _ _ Hb) as HS.
    destruct b.
    + rewrite <- Nat.add_1_r with (n := below flags i), <- HS. apply IH; auto; try lia.
      unfold rk in *. lia.
    + pose proof (rk_lt _ _ Hb) as Hr. unfold rk in Hd, Hr.
      rewrite put_spec; [|rewrite app_length, map_length, repeat_length; lia].
      destruct m as [|m]; [lia|].
      replace (set_nth (map Some done ++ repeat None (S m)) (i - below flags i) (Some x))
        with (map Some (done ++ [x]) ++ repeat None m).
      * replace (below flags i) with (below flags (S i)) by lia.
        rewrite IH; try lia. { rewrite <- app_assoc; auto. }
        -- rewrite app_length; simpl. unfold rk. pose proof (below_le flags i). lia.
        -- rewrite app_length; simpl. lia.
      * rewrite <- Hd. clear. induction done as [|a d IH]; simpl; auto. f_equal; apply IH.
Qed.

Lemma all_written_some (l : list V) : all_written (map Some l) = Some l.
Proof. induction l; simpl; auto. rewrite IHl; auto. Qed.

Lemma createReducedVector_spec flags (full : list V) :
  length full = length flags -> createReducedVector flags full = Some (restrict flags full).
Proof.
  intro H. unfold createReducedVector, size. rewrite (proj2 (Nat.eqb_eq _ _) H).
  pose proof (createReducedVector_loop_spec flags full (reducedSize flags) 0 []) as L.
  simpl in L. unfold below in L at 1. simpl in L. rewrite L; auto. simpl. apply all_written_some.
Qed.

(** ** Raw vector *)

Lemma rawVector_element_accAll v ds loc i pre : length pre = i -> 
  forall tail, loc = pre ++ tail -> length tail = length ds ->
  rawVector_element vadd v ds loc i = accAll v (combine ds tail).
Proof.
  revert v i pre; induction ds as [|d t IH]; intros v i pre Hp tail Hl Hlen; simpl.
  - reflexivity.
  - destruct tail as [|x tail]; simpl in Hlen; [discriminate|].
    subst loc. rewrite nth_error_app2, Hp, Nat.sub_diag by lia. simpl.
    unfold accAll; simpl. destruct (acc v d x); auto.
    apply (IH _ (S i) (pre ++ [x])). + rewrite app_length; simpl; lia.
    + rewrite <- app_assoc; auto. + lia.
Qed.

Lemma updates_at_combine (ds : list nat) (loc : list V) d : length loc = length ds ->
  updates_at d (combine ds loc) =
  flat_map (fun i => if nth i ds 0 =? d then [nth i loc vzero] else []) (seq 0 (length ds)).
Proof.
  revert loc; induction ds as [|a ds IH]; intros [|x loc] H; simpl in *; try discriminate; auto.
  unfold updates_at; simpl. rewrite <- seq_shift, flat_map_map'. simpl. 
  fold (updates_at d (combine ds loc)).
  destruct (a =? d); simpl. + f_equal. apply IH; lia. + apply IH; lia.
Qed.

Lemma assembleRawVector_accAll n els q : wfElements n els ->
  assembleRawVector vzero vadd n els q = accAll (repeat vzero n) (flat_map (fun e => combine (dofs e) (evec e q)) els).
Proof.
  intro W. unfold assembleRawVector, accAll. rewrite foldM_flat_map. apply foldM_ext.
  intros s e He. destruct (W e He) as [_ [Hv _]].
  apply (rawVector_element_accAll s (dofs e) (evec e q) 0 [] eq_refl (evec e q) eq_refl (Hv q)).
Qed.

Lemma assembleRawVector_spec n els q : wfElements n els ->
  exists v, assembleRawVector vzero vadd n els q = Some v /\ length v = n /\
    forall d, d < n -> nth_error v d = Some (vecEntry vzero vadd els q d).
Proof.
  intro W. rewrite assembleRawVector_accAll by auto.
  destruct (accAll_zero n (flat_map (fun e => combine (dofs e) (evec e q)) els)) as [v [H1 [H2 H3]]].
  { intros [i x] Hu. apply in_flat_map in Hu as [e [He Hu]]. apply in_combine_l in Hu.
    apply (W e He); auto. }
  exists v; repeat split; auto. intros d Hd. rewrite H3 by auto. f_equal. unfold vecEntry. f_equal.
  rewrite updates_at_flat_map. apply flat_map_ext_in. intros e He. apply updates_at_combine.
  apply (W e He).
Qed.

Lemma zeroConstrained_spec flags (v : list V) : length v = length flags ->
  length (zeroConstrained vzero flags v) = length flags /\
  (forall i, constrained flags i -> nth_error (zeroConstrained vzero flags v) i = Some vzero) /\
  (forall i, free flags i -> nth_error (zeroConstrained vzero flags v) i = nth_error v i).
Proof.
  unfold constrained, free. revert v; induction flags as [|b t IH]; intros [|x v] H; simpl in *; try discriminate.
  - repeat split; auto; intros [|i]; discriminate.
  - destruct (IH v) as [H1 [H2 H3]]; [lia|]. repeat split; auto.
    + intros [|i] Hi; simpl in *; auto. inversion Hi; subst; auto.
    + intros [|i] Hi; simpl in *; auto. inversion Hi; subst; auto.
Qed.

(** ** Free dofs of an element *)

(** Positions and dofs of the free dofs of an element. *)
Definition isFreeb (flags : list bool) (d : nat) : bool := negb (nth d flags true).

Lemma isFreeb_free flags d : isFreeb flags d = true <-> free flags d.
Proof.
  unfold isFreeb, free. rewrite negb_true_iff. destruct (lt_dec d (length flags)) as [L|L].
  - rewrite (nth_error_nth' flags true) by auto. split; congruence.
  - rewrite nth_overflow by lia. rewrite (proj2 (nth_error_None _ _)) by lia. split; congruence.
Qed.

Definition freeEnum flags ds : list (nat * nat) := filter (fun id => isFreeb flags (snd id)) (enumerate 0 ds).

Lemma freeDofs_spec flags ds : (forall d, In d ds -> d < length flags) ->
  freeDofs flags ds = Some (map (fun id => (fst id, rk flags (snd id))) (freeEnum flags ds)).
Proof.
  intro H. unfold freeDofs, freeEnum.
  assert (forall (l acc0 : list (nat * nat)), (forall id, In id l -> snd id < length flags) ->
    foldM (fun l id => match isConstrained flags (snd id) with
                     | Some true => Some l
                     | Some false => option_map (fun r => l ++ [(fst id, r)]) (reducedIndex flags (snd id))
                     | None => None
                     end) acc0 l = Some (acc0 ++ map (fun id => (fst id, rk flags (snd id))) (filter (fun id => isFreeb flags (snd id)) l))) as G.
  { induction l as [|[i d] l IH]; intros acc0 Hl; simpl. - rewrite app_nil_r; auto.
    - assert (d < length flags) as Hd by (apply (Hl (i, d)); simpl; auto).
      unfold isConstrained. destruct (nth_error_ex _ _ Hd) as [b Hb]. rewrite Hb.
      unfold isFreeb at 1. rewrite (nth_of_nth_error _ _ _ true Hb). destruct b; simpl.
      + apply IH. intros; apply Hl; simpl; auto.
      + rewrite reducedIndex_rk by auto. simpl. rewrite IH by (intros; apply Hl; simpl; auto).
        rewrite <- app_assoc; auto. }
  rewrite G; auto. intros [i d] Hid. apply in_enumerate in Hid as [j [Hj _]]. apply H. eapply nth_error_In; eauto.
Qed.

Lemma reducedVector_element_accAll flags v ds loc i pre : length pre = i ->
  (forall d, In d ds -> d < length flags) ->
  forall tail, loc = pre ++ tail -> length tail = length ds ->
  reducedVector_element vadd flags v ds loc i =
  accAll v (map (fun dx => (rk flags (fst dx), snd dx)) (filter (fun dx => isFreeb flags (fst dx)) (combine ds tail))).
Proof.
  revert v i pre; induction ds as [|d t IH]; intros v i pre Hp Hd tail Hl Hlen; simpl.
  - reflexivity.
  - destruct tail as [|x tail]; simpl in Hlen; [discriminate|].
    assert (d < length flags) as Hdd by (apply Hd; simpl; auto).
    subst loc. unfold isConstrained. destruct (nth_error_ex _ _ Hdd) as [b Hb]. rewrite Hb.
    simpl. unfold isFreeb at 1. rewrite (nth_of_nth_error _ _ _ true Hb).
    destruct b; simpl.
    + apply (IH _ (S i) (pre ++ [x])); try lia. * rewrite app_length; simpl; lia. * intros; apply Hd; simpl; auto.
      * rewrite <- app_assoc; auto.
    + rewrite reducedIndex_rk by auto. rewrite nth_error_app2, Hp, Nat.sub_diag by lia. simpl.
      unfold accAll; simpl. destruct (acc v (rk flags d) x); auto.
      apply (IH _ (S i) (pre ++ [x])); try lia. * rewrite app_length; simpl; lia. * intros; apply Hd; simpl; auto.
      * rewrite <- app_assoc; auto.
Qed.

Lemma updates_at_rk flags (us : list (nat * V)) d : free flags d ->
  updates_at (rk flags d) (map (fun dx => (rk flags (fst dx), snd dx)) (filter (fun dx => isFreeb flags (fst dx)) us))
  = updates_at d us.
Proof.
  intro Hf. unfold updates_at. induction us as [|[i x] us IH]; simpl; auto.
  destruct (isFreeb flags i) eqn:Ef; simpl.
  - apply isFreeb_free in Ef. destruct (Nat.eqb_spec i d) as [->|N].
    + rewrite Nat.eqb_refl. simpl. f_equal; auto.
    + destruct (Nat.eqb_spec (rk flags i) (rk flags d)) as [E|_]; auto. exfalso; apply N; eapply rk_inj; eauto.
  - destruct (Nat.eqb_spec i d) as [->|N]; auto. apply isFreeb_free in Hf. congruence.
Qed.

Lemma getReducedVector_spec flags els q : wfElements (length flags) els ->
  exists v, getReducedVector vzero vadd flags els q = Some v /\ length v = reducedSize flags /\
    forall i, free flags i -> nth_error v (rk flags i) = Some (vecEntry vzero vadd els q i).
Proof.
  intro W. unfold getReducedVector.
  rewrite (foldM_ext _ (fun v e => accAll v (map (fun dx => (rk flags (fst dx), snd dx))
      (filter (fun dx => isFreeb flags (fst dx)) (combine (dofs e) (evec e q)))))).
  2:{ intros s e He. destruct (W e He) as [Hd [Hv _]].
      apply (reducedVector_element_accAll flags s (dofs e) (evec e q) 0 [] eq_refl Hd (evec e q) eq_refl (Hv q)). }
  unfold accAll. rewrite <- foldM_flat_map. fold (accAll (repeat vzero (reducedSize flags))).
  match goal with |- context [foldM _ _ ?us] => destruct (accAll_zero (reducedSize flags) us) as [v [H1 [H2 H3]]] end.
  { intros [i x] Hu. apply in_flat_map in Hu as [e [He Hu]]. apply in_map_iff in Hu as [[d y] [E Hu]].
    apply filter_In in Hu as [_ Hf]. simpl in *. inversion E; subst. apply rk_lt, isFreeb_free; auto. }
  exists v; repeat split; auto. intros i Hi. rewrite H3 by (apply rk_lt; auto). f_equal. unfold vecEntry. f_equal.
  rewrite updates_at_flat_map. apply flat_map_ext_in. intros e He.
  rewrite updates_at_rk by auto. apply updates_at_combine. apply (W e He).
Qed.

Lemma getReducedVector_is_restriction flags els q v : wfElements (length flags) els ->
  getRawVector vzero vadd flags els q = Some v ->
  getReducedVector vzero vadd flags els q = createReducedVector flags v.
Proof.
  intros W Hv. unfold getRawVector, size in Hv.
  destruct (assembleRawVector_spec (length flags) els q W) as [v' [H1 [H2 H3]]].
  rewrite Hv in H1; inversion H1; subst v'. clear H1.
  destruct (getReducedVector_spec flags els q W) as [w [K1 [K2 K3]]].
  rewrite K1, createReducedVector_spec by auto. f_equal. apply restrict_ext; auto.
  intros i Hi. rewrite K3, H3; auto. apply free_lt; auto.
Qed.

(** * Matrices as accumulated triplets *)

Definition key := (nat * nat)%type.
Definition keq (k k' : key) : bool := (fst k =? fst k') && (snd k =? snd k').

Lemma keq_spec k k' : reflect (k = k') (keq k k').
Proof.
  destruct k, k'; unfold keq; simpl. destruct (Nat.eqb_spec n n1), (Nat.eqb_spec n0 n2); simpl; constructor; congruence.
Qed.

Definition trips_at (k : key) (ts : list (key * V)) : list V := map snd (filter (fun t => keq (fst t) k) ts).

(** Accumulating triplets through an injective slot map. *)
Lemma updates_at_slot (slot : key -> nat) (ts : list (key * V)) k :
  (forall t, In t ts -> slot (fst t) = slot k -> fst t = k) ->
  updates_at (slot k) (map (fun t => (slot (fst t), snd t)) ts) = trips_at k ts.
Proof.
  intro H. unfold updates_at, trips_at. induction ts as [|[k' x] ts IH]; simpl; auto.
  destruct (keq_spec k' k) as [->|N]; simpl.
  - rewrite Nat.eqb_refl. simpl. f_equal. apply IH. intros; apply H; simpl; auto.
  - destruct (Nat.eqb_spec (slot k') (slot k)) as [E|_].
    + exfalso; apply N. apply (H (k', x)); simpl; auto.
    + apply IH. intros; apply H; simpl; auto.
Qed.

Lemma trips_at_flat_map {A} k (f : A -> list (key * V)) l :
  trips_at k (flat_map f l) = flat_map (fun a => trips_at k (f a)) l.
Proof. unfold trips_at. rewrite filter_flat_map, map_flat_map; auto. Qed.

(** Column-major slot of a dense matrix with [n] rows. *)
Definition cmslot (n : nat) (k : key) : nat := fst k + snd k * n.

Lemma cmslot_inj n k k' : fst k < n -> fst k' < n -> cmslot n k = cmslot n k' -> k = k'.
Proof.
  destruct k as [r c], k' as [r' c']; unfold cmslot; simpl. intros H H' E.
  assert (c = c').
  { destruct (lt_eq_lt_dec c c') as [[L|L]|L]; auto; exfalso; nia. }
  subst. f_equal; lia.
Qed.

Lemma cmslot_lt n m k : fst k < n -> snd k < m -> cmslot n k < n * m.
Proof. destruct k as [r c]; unfold cmslot; simpl; intros. nia. Qed.

(** Triplets of one element, row by row (the dense order). *)
Definition trips (e : elt) (q : Q) : list (key * V) :=
  let k := length (dofs e) in
  flat_map (fun i => map (fun j => ((nth i (dofs e) 0, nth j (dofs e) 0), nth (i + j * k) (emat e q) vzero)) (seq 0 k)) (seq 0 k).

Lemma trips_at_contrib e q r c : trips_at (r, c) (trips e q) = matContrib vzero e q r c.
Proof.
  unfold trips. rewrite trips_at_flat_map. unfold matContrib. apply flat_map_ext_in. intros i Hi.
  unfold trips_at. rewrite filter_map, map_map. simpl. rewrite filter_as_flat_map. auto.
Qed.

Lemma pairs_rowmajor_seq ds : pairs_rowmajor ds =
  flat_map (fun i => map (fun j => ((i, j), (nth i ds 0, nth j ds 0))) (seq 0 (length ds))) (seq 0 (length ds)).
Proof.
  unfold pairs_rowmajor. rewrite (enumerate_seq ds 0 0). rewrite flat_map_map'. apply flat_map_ext_in. intros i Hi.
  rewrite map_map. apply map_ext_in. intros j Hj. simpl. rewrite !Nat.sub_0_r; auto.
Qed.

Lemma local_entry_some k (A : list V) i j : length A = k * k -> i < k -> j < k ->
  local_entry k A i j = Some (nth (i + j * k) A vzero).
Proof.
  intros HA Hi Hj. unfold local_entry. rewrite (proj2 (Nat.ltb_lt _ _) Hi), (proj2 (Nat.ltb_lt _ _) Hj). simpl.
  apply nth_error_nth'. rewrite HA. nia.
Qed.

(** Dense accumulation is accumulation on the storage. *)
Lemma dense_fold (ts : list (key * V)) n m d :
  (forall t, In t ts -> fst (fst t) < n /\ snd (fst t) < m) ->
  foldM (fun M t => dacc vadd M (fst (fst t)) (snd (fst t)) (snd t)) (mkDense n m d) ts
  = option_map (mkDense n m) (accAll d (map (fun t => (cmslot n (fst t), snd t)) ts)).
Proof.
  revert d; induction ts as [|[[r c] x] ts IH]; intros d H; simpl; auto.
  destruct (H ((r, c), x)) as [Hr Hc]; simpl; auto. simpl in Hr, Hc.
  unfold dacc at 1; simpl. rewrite (proj2 (Nat.ltb_lt _ _) Hr), (proj2 (Nat.ltb_lt _ _) Hc). simpl.
  unfold accAll; simpl. change (cmslot n (r, c)) with (r + c * n).
  destruct (acc d (r + c * n) x); simpl; auto. apply IH. intros; apply H; simpl; auto.
Qed.

Lemma nth_In_lt (l : list nat) n i : (forall d, In d l -> d < n) -> i < length l -> nth i l 0 < n.
Proof. intros H Hi. apply H, nth_In; auto. Qed.

Lemma denseRaw_element_fold q M e n : wfElement n e ->
  denseRaw_element vadd q M e = foldM (fun M t => dacc vadd M (fst (fst t)) (snd (fst t)) (snd t)) M (trips e q).
Proof.
  intros [_ [_ Hm]]. unfold denseRaw_element. rewrite pairs_rowmajor_seq.
  unfold trips. set (k := length (dofs e)).
  rewrite !foldM_flat_map. apply foldM_ext. intros s i Hi. rewrite !foldM_map. apply foldM_ext. intros s' j Hj.
  apply in_seq in Hi, Hj. simpl. rewrite local_entry_some; auto; lia.
Qed.

Lemma trips_range n e q t : wfElement n e -> In t (trips e q) -> fst (fst t) < n /\ snd (fst t) < n.
Proof.
  intros [Hd _] H. unfold trips in H. apply in_flat_map in H as [i [Hi H]]. apply in_map_iff in H as [j [<- Hj]].
  apply in_seq in Hi, Hj. simpl. split; apply nth_In_lt; auto; lia.
Qed.

(** Entry-wise description of a dense matrix. *)
Definition denseIs (M : dense) (n : nat) (f : nat -> nat -> V) : Prop :=
  drows M = n /\ dcols M = n /\ length (ddata M) = n * n /\
  forall r c, r < n -> c < n -> dget M r c = Some (f r c).

Lemma dense_assemble (ts : list (key * V)) n :
  (forall t, In t ts -> fst (fst t) < n /\ snd (fst t) < n) ->
  exists M, foldM (fun M t => dacc vadd M (fst (fst t)) (snd (fst t)) (snd t)) (dzero vzero n n) ts = Some M /\
    denseIs M n (fun r c => sum vzero vadd (trips_at (r, c) ts)).
Proof.
  intro H. unfold dzero. rewrite dense_fold by auto.
  destruct (accAll_zero (n * n) (map (fun t => (cmslot n (fst t), snd t)) ts)) as [v [H1 [H2 H3]]].
  { intros u Hu. apply in_map_iff in Hu as [t [<- Ht]]. simpl. apply cmslot_lt; apply (H t Ht). }
  rewrite H1. simpl. eexists; split; eauto. repeat split; simpl; auto.
  intros r c Hr Hc. unfold dget; simpl. rewrite (proj2 (Nat.ltb_lt _ _) Hr), (proj2 (Nat.ltb_lt _ _) Hc). simpl.
  rewrite H3. 2:{ apply (cmslot_lt n n (r, c)); auto. }
  f_equal. f_equal. change (r + c * n) with (cmslot n (r, c)). apply updates_at_slot.
  intros t Ht E. apply cmslot_inj with n; auto. apply (H t Ht).
Qed.

Lemma assembleRawDense_spec n els q : wfElements n els ->
  exists M, assembleRawDense vzero vadd n els q = Some M /\ denseIs M n (matEntry vzero vadd els q).
Proof.
  intro W. unfold assembleRawDense.
  rewrite (foldM_ext _ (fun M e => foldM (fun M t => dacc vadd M (fst (fst t)) (snd (fst t)) (snd t)) M (trips e q))).
  2:{ intros s e He. eapply denseRaw_element_fold. apply (W e He). }
  rewrite <- foldM_flat_map.
  destruct (dense_assemble (flat_map (fun e => trips e q) els) n) as [M [H1 H2]].
  { intros t Ht. apply in_flat_map in Ht as [e [He Ht]]. eapply trips_range; eauto. }
  exists M; split; auto. destruct H2 as [A [B [C D]]]. repeat split; auto.
  intros r c Hr Hc. rewrite D by auto. f_equal. unfold matEntry. f_equal.
  rewrite trips_at_flat_map. apply flat_map_ext_in. intros; apply trips_at_contrib.
Qed.

(** ** Dirichlet treatment of the dense matrix *)

Lemma dget_in M r c : r < drows M -> c < dcols M -> dget M r c = nth_error (ddata M) (cmslot (drows M) (r, c)).
Proof. intros Hr Hc. unfold dget. rewrite (proj2 (Nat.ltb_lt _ _) Hr), (proj2 (Nat.ltb_lt _ _) Hc). auto. Qed.

Lemma denseIs_ext M n f g : denseIs M n f -> (forall r c, r < n -> c < n -> f r c = g r c) -> denseIs M n g.
Proof. intros [A [B [C D]]] H. repeat split; auto. intros; rewrite D, H; auto. Qed.

Lemma dput_spec M n f r c x : denseIs M n f -> r < n -> c < n ->
  exists M', dput M r c x = Some M' /\ denseIs M' n (fun r' c' => if keq (r', c') (r, c) then x else f r' c').
Proof.
  intros [A [B [C D]]] Hr Hc. unfold dput. rewrite A, B, (proj2 (Nat.ltb_lt _ _) Hr), (proj2 (Nat.ltb_lt _ _) Hc). simpl.
  assert (r + c * n < length (ddata M)) as Hp by (rewrite C; apply (cmslot_lt n n (r, c)); auto).
  rewrite put_spec by auto. simpl. eexists; split; eauto. repeat split; simpl; auto.
  - rewrite set_nth_length; auto.
  - intros r' c' Hr' Hc'. rewrite dget_in by auto. simpl.
    destruct (keq_spec (r', c') (r, c)) as [E|N].
    + inversion E; subst. apply set_nth_same; auto.
    + rewrite set_nth_other.
      * specialize (D r' c' Hr' Hc'). rewrite dget_in in D by lia. rewrite A in D. auto.
      * intro E. apply N. symmetry. apply cmslot_inj with n; auto.
Qed.

Lemma dput_list M n f x (ks : list key) : denseIs M n f -> (forall k, In k ks -> fst k < n /\ snd k < n) ->
  exists M', foldM (fun M k => dput M (fst k) (snd k) x) M ks = Some M' /\
    denseIs M' n (fun r c => if existsb (keq (r, c)) ks then x else f r c).
Proof.
  revert M f; induction ks as [|[r c] ks IH]; intros M f HM H; simpl.
  - exists M; split; auto.
  - destruct (H (r, c)) as [Hr Hc]; simpl; auto. simpl in *.
    destruct (dput_spec M n f r c x HM Hr Hc) as [M1 [H1 H2]]. rewrite H1.
    destruct (IH _ _ H2) as [M' [K1 K2]]. { intros; apply H; auto. }
    exists M'; split; auto. eapply denseIs_ext; eauto. intros r' c' _ _. simpl.
    destruct (keq_spec (r', c') (r, c)); simpl; destruct (existsb _ ks); auto.
Qed.

Lemma forConstrained_dense flags (f : dense -> nat -> option dense) (x : V) (ks : nat -> list key) M g :
  denseIs M (length flags) g ->
  (forall M' g' i, i < length flags -> denseIs M' (length flags) g' -> f M' i = foldM (fun M k => dput M (fst k) (snd k) x) M' (ks i)) ->
  (forall i k, i < length flags -> In k (ks i) -> fst k < length flags /\ snd k < length flags) ->
  exists M', forConstrained flags f M = Some M' /\
    denseIs M' (length flags) (fun r c => if existsb (fun i => nth i flags false && existsb (keq (r, c)) (ks i)) (seq 0 (length flags)) then x else g r c).
Proof.
  intros HM Hf Hk. unfold forConstrained, size.
  assert (forall l M g, (forall i, In i l -> i < length flags) -> denseIs M (length flags) g ->
     exists M', foldM (fun (m : dense) i => match isConstrained flags i with Some true => f m i | Some false => Some m | None => None end) M l = Some M' /\
      denseIs M' (length flags) (fun r c => if existsb (fun i => nth i flags false && existsb (keq (r, c)) (ks i)) l then x else g r c)) as G.
  { clear M g HM. induction l as [|i l IH]; intros M g Hl HM; simpl.
    - exists M; split; auto.
    - assert (i < length flags) as Hi by (apply Hl; simpl; auto).
      unfold isConstrained at 1. destruct (nth_error_ex _ _ Hi) as [b Hb]. rewrite Hb.
      rewrite (nth_of_nth_error _ _ _ false Hb). destruct b; simpl.
      + rewrite (Hf _ _ i Hi HM).
        destruct (dput_list M (length flags) g x (ks i) HM (fun k => Hk i k Hi)) as [M1 [H1 H2]].
        rewrite H1. destruct (IH M1 _ (fun j Hj => Hl j (or_intror Hj)) H2) as [M' [K1 K2]].
        exists M'; split; auto. eapply denseIs_ext; eauto. intros r c _ _; simpl.
        destruct (existsb (keq (r, c)) (ks i)); simpl; auto. destruct (existsb _ l); auto.
      + apply IH; auto. intros; apply Hl; simpl; auto. }
  apply G; auto. intros i Hi; apply in_seq in Hi; lia.
Qed.

Lemma nth_true_constrained flags i : nth i flags false = true <-> constrained flags i.
Proof.
  unfold constrained. destruct (lt_dec i (length flags)) as [L|L].
  - rewrite (nth_error_nth' flags false) by auto. split; congruence.
  - rewrite nth_overflow by lia. rewrite (proj2 (nth_error_None _ _)) by lia. split; congruence.
Qed.

Lemma existsb_true {A} (f : A -> bool) l : (exists a, In a l /\ f a = true) -> existsb f l = true.
Proof. intros [a [H1 H2]]; apply existsb_exists; eauto. Qed.

Lemma existsb_iff {A} (f : A -> bool) l b : ((exists a, In a l /\ f a = true) <-> b = true) -> existsb f l = b.
Proof.
  intro H. destruct b.
  - apply existsb_exists, H; auto.
  - destruct (existsb f l) eqn:E; auto. apply existsb_exists, H in E; auto.
Qed.

Lemma foldM_seq_col M c n : drows M = n -> dense_col_zero vzero M c =
  foldM (fun M k => dput M (fst k) (snd k) vzero) M (map (fun r => (r, c)) (seq 0 n)).
Proof. intros <-. unfold dense_col_zero. rewrite foldM_map. auto. Qed.

Lemma foldM_seq_row M r n : dcols M = n -> dense_row_zero vzero M r =
  foldM (fun M k => dput M (fst k) (snd k) vzero) M (map (fun c => (r, c)) (seq 0 n)).
Proof. intros <-. unfold dense_row_zero. rewrite foldM_map. auto. Qed.

Lemma getDense_spec flags els q : wfElements (length flags) els ->
  exists M, getDense vzero vone vadd flags els q = Some M /\
    denseIs M (length flags) (fullEntry vzero vone flags (matEntry vzero vadd els q)).
Proof.
  intro W. unfold getDense, size. set (n := length flags).
  destruct (assembleRawDense_spec n els q W) as [M0 [H0 I0]]. rewrite H0.
  destruct (forConstrained_dense flags (dense_col_zero vzero) vzero (fun i => map (fun r => (r, i)) (seq 0 n)) M0 _ I0) as [M1 [H1 I1]].
  { intros M' g' i _ [A _]. apply foldM_seq_col; auto. }
  { intros i k Hi Hk. apply in_map_iff in Hk as [r [<- Hr]]. apply in_seq in Hr. simpl. unfold n in *; lia. }
  rewrite H1.
  destruct (forConstrained_dense flags (dense_row_zero vzero) vzero (fun i => map (fun c => (i, c)) (seq 0 n)) M1 _ I1) as [M2 [H2 I2]].
  { intros M' g' i _ [_ [A _]]. apply foldM_seq_row; auto. }
  { intros i k Hi Hk. apply in_map_iff in Hk as [r [<- Hr]]. apply in_seq in Hr. simpl. unfold n in *; lia. }
  rewrite H2.
  destruct (forConstrained_dense flags (fun m i => dput m i i vone) vone (fun i => [(i, i)]) M2 _ I2) as [M3 [H3 I3]].
  { intros M' g' i _ _. simpl. destruct (dput M' i i vone); auto. }
  { intros i k Hi [<-|[]]. simpl; auto. }
  exists M3; split; auto. eapply denseIs_ext; eauto. intros r c Hr Hc. simpl.
  rewrite (existsb_iff _ (seq 0 (length flags)) ((r =? c) && nth r flags false)).
  2:{ split.
      - intros [i [Hi E]]. apply andb_true_iff in E as [E1 E2]. rewrite orb_false_r in E2.
        destruct (keq_spec (r, c) (i, i)) as [K|]; try discriminate. inversion K; subst. rewrite Nat.eqb_refl, E1; auto.
      - intro E. apply andb_true_iff in E as [E1 E2]. apply Nat.eqb_eq in E1; subst c.
        exists r. split; [apply in_seq; lia|]. rewrite E2; simpl. destruct (keq_spec (r, r) (r, r)); auto. }
  rewrite (existsb_iff _ (seq 0 (length flags)) (nth r flags false)).
  2:{ split.
      - intros [i [Hi E]]. apply andb_true_iff in E as [E1 E2]. apply existsb_exists in E2 as [k [Hk E2]].
        apply in_map_iff in Hk as [c' [<- Hc']]. destruct (keq_spec (r, c) (i, c')) as [K|]; try discriminate. inversion K; subst; auto.
      - intro E. exists r. split; [apply in_seq; lia|]. rewrite E; simpl. apply existsb_true. exists (r, c). split.
        + apply in_map_iff. exists c; split; auto. apply in_seq; unfold n in *; lia.
        + destruct (keq_spec (r, c) (r, c)); auto. }
  rewrite (existsb_iff _ (seq 0 (length flags)) (nth c flags false)).
  2:{ split.
      - intros [i [Hi E]]. apply andb_true_iff in E as [E1 E2]. apply existsb_exists in E2 as [k [Hk E2]].
        apply in_map_iff in Hk as [r' [<- Hr']]. destruct (keq_spec (r, c) (r', i)) as [K|]; try discriminate. inversion K; subst; auto.
      - intro E. exists c. split; [apply in_seq; lia|]. rewrite E; simpl. apply existsb_true. exists (r, c). split.
        + apply in_map_iff. exists r; split; auto. apply in_seq; unfold n in *; lia.
        + destruct (keq_spec (r, c) (r, c)); auto. }
  unfold fullEntry. destruct (Nat.eqb_spec r c) as [<-|N]; simpl.
  - destruct (nth r flags false); auto.
  - destruct (nth r flags false), (nth c flags false); auto.
Qed.

(** ** Reduced dense matrix *)

Definition tripsRed (flags : list bool) (e : elt) (q : Q) : list (key * V) :=
  map (fun t => ((rk flags (fst (fst t)), rk flags (snd (fst t))), snd t))
    (filter (fun t => isFreeb flags (fst (fst t)) && isFreeb flags (snd (fst t))) (trips e q)).

Lemma flat_map_filter {A B} (f : A -> bool) (g : A -> list B) l :
  flat_map g (filter f l) = flat_map (fun a => if f a then g a else []) l.
Proof. induction l; simpl; auto. destruct (f a); simpl; rewrite IHl; auto. Qed.

Lemma pairs_free_spec flags e n : wfElement n e -> n = length flags ->
  exists ps, pairs_free flags (dofs e) = Some ps /\
    (forall p, In p ps -> fst (fst p) < length (dofs e) /\ snd (fst p) < length (dofs e)) /\
    (forall q, map (fun p => (snd p, nth (fst (fst p) + snd (fst p) * length (dofs e)) (emat e q) vzero)) ps = tripsRed flags e q).
Proof.
  intros [Hd _] ->. unfold pairs_free. rewrite freeDofs_spec by auto. cbn [option_map].
  eexists; split; [reflexivity|]. split.
  - intros p Hp. apply in_flat_map in Hp as [a [Ha Hp]]. apply in_map_iff in Hp as [b [<- Hb]].
    apply in_map_iff in Ha as [a' [<- Ha]]. apply in_map_iff in Hb as [b' [<- Hb]].
    unfold freeEnum in Ha, Hb. apply filter_In in Ha as [Ha _]. apply filter_In in Hb as [Hb _].
    apply in_enumerate in Ha as [i [Hi Ei]]. apply in_enumerate in Hb as [j [Hj Ej]]. simpl in *.
    apply nth_error_lt in Hi, Hj. lia.
  - intro q. unfold tripsRed, trips. rewrite filter_flat_map, !map_flat_map. rewrite flat_map_map'. unfold freeEnum.
    rewrite flat_map_filter. rewrite (enumerate_seq (dofs e) 0 0). rewrite flat_map_map'. apply flat_map_ext_in.
    intros i Hi. simpl. rewrite Nat.sub_0_r.
    destruct (isFreeb flags (nth i (dofs e) 0)) eqn:Ei.
    + rewrite !map_map. rewrite filter_map, map_map. simpl. rewrite filter_map, map_map. simpl. rewrite Ei. simpl.
      rewrite (filter_ext _ (fun a => isFreeb flags (nth a (dofs e) 0))). 2:{ intro a; rewrite Nat.sub_0_r; auto. }
      apply map_ext_in. intros j Hj. rewrite Nat.sub_0_r; auto.
    + rewrite filter_map. simpl. rewrite Ei. simpl. clear Hi. induction (seq 0 (length (dofs e))); auto.
Qed.

Lemma mapM_local e q ps : (forall q, length (emat e q) = length (dofs e) * length (dofs e)) ->
  (forall p : (nat * nat) * (nat * nat), In p ps -> fst (fst p) < length (dofs e) /\ snd (fst p) < length (dofs e)) ->
  mapM (fun p => local_entry (length (dofs e)) (emat e q) (fst (fst p)) (snd (fst p))) ps =
  Some (map (fun p => nth (fst (fst p) + snd (fst p) * length (dofs e)) (emat e q) vzero) ps).
Proof.
  intros Hm Hp. apply mapM_some. intros p Hin. destruct (Hp p Hin). apply local_entry_some; auto.
Qed.

Lemma denseReduced_element_fold flags q M e : wfElement (length flags) e ->
  denseReduced_element vadd flags q M e =
  foldM (fun M t => dacc vadd M (fst (fst t)) (snd (fst t)) (snd t)) M (tripsRed flags e q).
Proof.
  intro W. destruct (pairs_free_spec flags e _ W eq_refl) as [ps [H1 [H2 H3]]].
  unfold denseReduced_element. rewrite H1, <- (H3 q), foldM_map. apply foldM_ext.
  intros s [[i j] [r c]] Hp. destruct (H2 _ Hp) as [Hi Hj]. simpl in *.
  destruct W as [_ [_ Hm]]. rewrite local_entry_some; auto.
Qed.

Lemma tripsRed_range flags e q t : In t (tripsRed flags e q) ->
  fst (fst t) < reducedSize flags /\ snd (fst t) < reducedSize flags.
Proof.
  intro H. unfold tripsRed in H. apply in_map_iff in H as [t' [<- H]]. apply filter_In in H as [_ H].
  apply andb_true_iff in H as [A B]. apply isFreeb_free in A, B. simpl. split; apply rk_lt; auto.
Qed.

Lemma trips_at_rk flags (ts : list (key * V)) r c : free flags r -> free flags c ->
  trips_at (rk flags r, rk flags c) (map (fun t => ((rk flags (fst (fst t)), rk flags (snd (fst t))), snd t))
    (filter (fun t => isFreeb flags (fst (fst t)) && isFreeb flags (snd (fst t))) ts)) = trips_at (r, c) ts.
Proof.
  intros Hr Hc. unfold trips_at. induction ts as [|[[a b] x] ts IH]; simpl; auto.
  destruct (keq_spec (a, b) (r, c)) as [E|N].
  - inversion E; subst. rewrite (proj2 (isFreeb_free _ _) Hr), (proj2 (isFreeb_free _ _) Hc). simpl.
    destruct (keq_spec (rk flags r, rk flags c) (rk flags r, rk flags c)); [|congruence]. simpl. f_equal; auto.
  - destruct (isFreeb flags a && isFreeb flags b) eqn:F; simpl; auto.
    apply andb_true_iff in F as [Fa Fb]. apply isFreeb_free in Fa, Fb.
    destruct (keq_spec (rk flags a, rk flags b) (rk flags r, rk flags c)) as [E|_]; auto.
    exfalso. apply N. inversion E. f_equal; eapply rk_inj; eauto.
Qed.

(** A reduced matrix is given by its entries at pairs of free dofs. *)
Definition denseRedIs (M : dense) flags (f : nat -> nat -> V) : Prop :=
  drows M = reducedSize flags /\ dcols M = reducedSize flags /\ length (ddata M) = reducedSize flags * reducedSize flags /\
  forall r c, free flags r -> free flags c -> dget M (rk flags r) (rk flags c) = Some (f r c).

Lemma getReducedDense_spec flags els q : wfElements (length flags) els ->
  exists M, getReducedDense vzero vadd flags els q = Some M /\ denseRedIs M flags (matEntry vzero vadd els q).
Proof.
  intro W. unfold getReducedDense.
  rewrite (foldM_ext _ (fun M e => foldM (fun M t => dacc vadd M (fst (fst t)) (snd (fst t)) (snd t)) M (tripsRed flags e q))).
  2:{ intros s e He. apply denseReduced_element_fold. apply (W e He). }
  rewrite <- foldM_flat_map.
  destruct (dense_assemble (flat_map (fun e => tripsRed flags e q) els) (reducedSize flags)) as [M [H1 H2]].
  { intros t Ht. apply in_flat_map in Ht as [e [He Ht]]. eapply tripsRed_range; eauto. }
  exists M; split; auto. destruct H2 as [A [B [C D]]]. repeat split; auto.
  intros r c Hr Hc. rewrite D by (apply rk_lt; auto). f_equal. unfold matEntry. f_equal.
  rewrite trips_at_flat_map. apply flat_map_ext_in. intros e He. unfold tripsRed. rewrite trips_at_rk by auto. apply trips_at_contrib.
Qed.

End Values.
