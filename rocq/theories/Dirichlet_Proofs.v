From Coq Require Import List Arith Bool Lia.
From Verif Require Import Assembler_Model Assembler_Spec Assembler_Proofs Dirichlet_Model Dirichlet_Spec.
Import ListNotations.

Section D.
Context {V L : Type} (vzero : V) (vadd : V -> V -> V) (ne0 : V -> bool).
Notation bfun := (bfun (V:=V) (L:=L)).
Notation heap := (heap (V:=V) (L:=L)).
Notation dop := (dop (V:=V) (L:=L)).
Notation dstep := (dstep vzero vadd ne0).
Notation drun := (drun vzero vadd ne0).

Lemma put_Some {A} (l : list A) i x : i < length l -> put l i x = Some (set_nth l i x).
Proof. intro H. unfold put. apply Nat.ltb_lt in H. rewrite H. auto. Qed.

Lemma put_inv {A} (l : list A) i x l' : put l i x = Some l' -> i < length l /\ l' = set_nth l i x.
Proof. unfold put. destruct (Nat.ltb_spec i (length l)); intro E; inversion E; auto. Qed.

Lemma evaluate_spec n (fs : list bfun) (lam : L) : length (evaluateIDBC vzero vadd n fs lam) = n /\
  forall i, i < n -> nth i (evaluateIDBC vzero vadd n fs lam) vzero = prescribed vzero vadd fs lam i.
Proof.
  unfold evaluateIDBC, prescribed.
  assert (forall x (s : nat -> V), length x = n -> (forall i, i < n -> nth i x vzero = s i) ->
    let y := fold_left (fun x f => map (fun i => vadd (nth i x vzero) (f lam i)) (seq 0 n)) fs x in
    length y = n /\ forall i, i < n -> nth i y vzero = fold_left (fun s f => vadd s (f lam i)) fs (s i)) as G.
  { induction fs as [|f fs IH]; intros x s Lx Hx; simpl; auto.
    apply (IH _ (fun i => vadd (s i) (f lam i))).
    - rewrite map_length, seq_length; auto.
    - intros i Hi. rewrite (nth_indep _ vzero ((fun i => vadd (nth i x vzero) (f lam i)) 0)) by (rewrite map_length, seq_length; auto).
      rewrite (map_nth (fun i => vadd (nth i x vzero) (f lam i))). rewrite seq_nth by auto. simpl. rewrite Hx; auto. }
  apply (G (repeat vzero n) (fun _ => vzero)). - apply repeat_length. - intros; apply nth_repeat.
Qed.

Lemma foldM_write_length ws : forall f f', foldM write f ws = Some f' -> length f' = length f.
Proof.
  induction ws as [|w ws IH]; intros f f' H; simpl in H. - inversion H; auto.
  - unfold write at 1 in H. destruct (put f (fst w) (snd w)) eqn:E; try discriminate. apply put_inv in E as [_ ->].
    apply IH in H. rewrite set_nth_length in H. auto.
Qed.

Lemma foldM_write_nth ws : forall f f' k, foldM write f ws = Some f' ->
  nth_error f' k = match find (fun w => fst w =? k) (rev ws) with
                   | Some w => Some (snd w) | None => nth_error f k end.
Proof.
  induction ws as [|w ws IH] using rev_ind; intros f f' k H.
  - simpl in *. inversion H; auto.
  - rewrite rev_app_distr. simpl.
    assert (exists g, foldM write f ws = Some g /\ write g w = Some f') as [g [G1 G2]].
    { clear IH. revert f H. induction ws as [|a ws IH]; intros f H; simpl in *.
      - destruct (write f w) eqn:E; try discriminate. inversion H; subst. eauto.
      - destruct (write f a); try discriminate. apply IH; auto. }
    unfold write in G2. apply put_inv in G2 as [Hl ->].
    destruct (Nat.eqb_spec (fst w) k) as [<-|N].
    + rewrite set_nth_same; auto.
    + rewrite set_nth_other by auto. apply IH; auto.
Qed.

Lemma foldM_write_ok ws : forall f, (forall w, In w ws -> fst w < length f) -> exists f', foldM write f ws = Some f'.
Proof.
  induction ws as [|w ws IH]; intros f H; simpl; eauto.
  unfold write at 1. rewrite put_Some by (apply H; simpl; auto). apply IH. intros. rewrite set_nth_length. apply H; simpl; auto.
Qed.

Lemma foldM_app' {A B} (f : A -> B -> option A) l l' : forall a,
  foldM f a (l ++ l') = match foldM f a l with Some b => foldM f b l' | None => None end.
Proof. induction l as [|x l IH]; intro a; simpl; auto. destruct (f a x); auto. Qed.

Lemma nth_error_ext' {A} (l l' : list A) : (forall i, nth_error l i = nth_error l' i) -> l = l'.
Proof.
  revert l'. induction l as [|a l IH]; intros [|b l'] H; auto.
  - specialize (H 0); discriminate. - specialize (H 0); discriminate.
  - pose proof (H 0) as H0. simpl in H0. inversion H0; subst. f_equal. apply IH. intro i. apply (H (S i)).
Qed.

Lemma find_seq_map k (b : bool) l : In k l -> find (fun w => fst w =? k) (map (fun i => (i, b)) l) = Some (k, b).
Proof.
  induction l as [|a l IH]; simpl; [tauto|]. intros [<-|H]. - rewrite Nat.eqb_refl; auto.
  - destruct (Nat.eqb_spec a k); subst; auto.
Qed.

Lemma reset_writes f : foldM write f (map (fun i => (i, false)) (seq 0 (length f))) = Some (map (fun _ => false) f).
Proof.
  destruct (foldM_write_ok (map (fun i => (i, false)) (seq 0 (length f))) f) as [f' E].
  { intros w H. apply in_map_iff in H as [i [<- Hi]]. apply in_seq in Hi. simpl. lia. }
  rewrite E. f_equal. apply nth_error_ext'. intro i. pose proof (foldM_write_length _ _ _ E) as Le.
  rewrite (foldM_write_nth _ _ _ i E). destruct (lt_dec i (length f)) as [Hi|Hi].
  - rewrite <- map_rev, find_seq_map by (rewrite <- in_rev, in_seq; lia). simpl.
    destruct (nth_error_ex f i Hi) as [b Hb]. rewrite (map_nth_error (fun _ => false) i f Hb). auto.
  - assert (nth_error f i = None) as N by (apply nth_error_None; lia).
    assert (nth_error (map (fun _ : bool => false) f) i = None) as -> by (apply nth_error_None; rewrite map_length; lia).
    destruct (find _ _) as [w|] eqn:F; auto. apply find_some in F as [F1 F2]. apply Nat.eqb_eq in F2.
    apply in_rev, in_map_iff in F1 as [j [<- Hj]]. apply in_seq in Hj. simpl in *. lia.
Qed.

Lemma idbcWrites_eq n (fs : list bfun) (lam : L) :
  idbcWrites vzero vadd ne0 n fs lam = map (fun i => (i, true)) (filter (fun i => ne0 (prescribed vzero vadd fs lam i)) (seq 0 n)).
Proof.
  unfold idbcWrites. f_equal. destruct (evaluate_spec n fs lam) as [_ H].
  assert (forall i, In i (seq 0 n) -> i < n) as S by (intros i Hi; apply in_seq in Hi; lia). revert S.
  generalize (seq 0 n) as l. induction l as [|a l IH]; intro S; simpl; auto.
  rewrite H by (apply S; simpl; auto). rewrite IH by (intros; apply S; simpl; auto). auto.
Qed.

(** One operation on the single object 0. *)
Lemma step0 (x : obj (V:=V) (L:=L)) o : flagOp0 o -> o_backend x = 0 ->
  dstep [Some x] o = match foldM write (o_flags x) (writesOf vzero vadd ne0 (length (o_flags x)) (o_funs x) o) with
                     | Some f => Some [Some (mkObj f 0 (o_funs x ++ funsOf o))]
                     | None => None
                     end.
Proof.
  intros F B. destruct x as [f b fs]. simpl in B; subst b.
  destruct o; simpl in F; try tauto; subst; simpl; unfold writeBackend, writeDirect, getObj; simpl; rewrite ?app_nil_r.
  - destruct (write f (k, b)); auto.
  - destruct (write f (k, b)); auto.
  - destruct (foldM write f ws); auto.
  - rewrite reset_writes. auto.
  - rewrite idbcWrites_eq. destruct (foldM write f _); auto.
Qed.

Lemma run0 ops : forall x : obj (V:=V) (L:=L), (forall o, In o ops -> flagOp0 o) -> o_backend x = 0 ->
  drun [Some x] ops = match foldM write (o_flags x) (writes vzero vadd ne0 (length (o_flags x)) (o_funs x) ops) with
                      | Some f => Some [Some (mkObj f 0 (o_funs x ++ flat_map funsOf ops))]
                      | None => None
                      end.
Proof.
  induction ops as [|o ops IH]; intros x F B; unfold Dirichlet_Model.drun.
  - simpl. rewrite app_nil_r. destruct x; simpl in *; subst; auto.
  - simpl. rewrite step0 by (auto; apply F; simpl; auto). rewrite foldM_app'.
    destruct (foldM write (o_flags x) _) as [f|] eqn:E; auto.
    fold (drun [Some (mkObj f 0 (o_funs x ++ funsOf o))] ops). rewrite IH by (auto; intros; apply F; simpl; auto). simpl.
    rewrite (foldM_write_length _ _ _ E), app_assoc. auto.
Qed.

Lemma writesOf_none n (fs : list bfun) o : funsOf o = [] -> writesOf vzero vadd ne0 n fs o = writesOf vzero vadd ne0 n [] o.
Proof. destruct o; simpl; auto; discriminate. Qed.

(** * Copies *)

Lemma writeDirect_frame (h h' : heap) i ws j : writeDirect h i ws = Some h' -> j <> i -> getObj h' j = getObj h j.
Proof.
  unfold writeDirect. destruct (getObj h i); try discriminate. destruct (foldM _ _ _); try discriminate. intros E N.
  apply put_inv in E as [_ ->]. unfold getObj. rewrite set_nth_other by auto. auto.
Qed.

Lemma getObj_put_other (h h' : heap) i x j : putObj h i x = Some h' -> j <> i -> getObj h' j = getObj h j.
Proof. intros E N. apply put_inv in E as [_ ->]. unfold getObj. rewrite set_nth_other by auto. auto. Qed.

Lemma getObj_app (h : heap) l j x : getObj h j = Some x -> getObj (h ++ l) j = Some x.
Proof.
  unfold getObj. intro E. destruct (nth_error h j) eqn:N; try discriminate.
  rewrite nth_error_app1 by (apply nth_error_Some; congruence). rewrite N; auto.
Qed.

Lemma step_frame (h h' : heap) o j x : dstep h o = Some h' -> getObj h j = Some x ->
  target o <> Some j ->
  (~ direct o -> forall i y, target o = Some i -> getObj h i = Some y -> o_backend y <> j) ->
  getObj h' j = Some x.
Proof.
  intros E J N B. destruct o; simpl in *.
  - inversion E; subst. apply getObj_app; auto.
  - destruct (getObj h i); try discriminate. inversion E; subst. apply getObj_app; auto.
  - destruct (getObj h i); try discriminate. rewrite (getObj_put_other _ _ _ _ _ E); auto; congruence.
  - rewrite (writeDirect_frame _ _ _ _ _ E); auto; congruence.
  - unfold writeBackend in E. destruct (getObj h i) as [y|] eqn:G; try discriminate.
    rewrite (writeDirect_frame _ _ _ _ _ E); auto. intro K. apply (B (fun f => f) i y); auto.
  - unfold writeBackend in E. destruct (getObj h i) as [y|] eqn:G; try discriminate.
    rewrite (writeDirect_frame _ _ _ _ _ E); auto. intro K. apply (B (fun f => f) i y); auto.
  - destruct (getObj h i); try discriminate. rewrite (getObj_put_other _ _ _ _ _ E); auto; congruence.
  - destruct (getObj h i) as [y|] eqn:G; try discriminate. destruct (putObj h i _) as [h1|] eqn:P; try discriminate.
    rewrite (writeDirect_frame _ _ _ _ _ E) by congruence. rewrite (getObj_put_other _ _ _ _ _ P); auto; congruence.
Qed.

(** * Prescribed values *)

Lemma sync_loop (v : nat -> V) l : forall x, NoDup l -> (forall i, In i l -> i < length x) ->
  exists y, foldM (fun x i => if ne0 (v i) then put x i (v i) else Some x) x l = Some y /\ length y = length x /\
    forall i, nth_error y i = if existsb (Nat.eqb i) l && ne0 (v i) then Some (v i) else nth_error x i.
Proof.
  induction l as [|a l IH]; intros x N H; simpl.
  - exists x; auto.
  - inversion N; subst. destruct (ne0 (v a)) eqn:Z.
    + rewrite put_Some by (apply H; simpl; auto).
      destruct (IH (set_nth x a (v a))) as [y [E [Ly Hy]]]; auto. { intros; rewrite set_nth_length; apply H; simpl; auto. }
      exists y. rewrite E, Ly, set_nth_length. split; auto. split; auto. intro i. rewrite Hy.
      destruct (Nat.eqb_spec i a) as [->|Ni]; simpl.
      * rewrite Z. destruct (existsb (Nat.eqb a) l); simpl; auto. apply set_nth_same, H; simpl; auto.
      * rewrite set_nth_other by auto. auto.
    + destruct (IH x) as [y [E [Ly Hy]]]; auto. { intros; apply H; simpl; auto. }
      exists y. split; auto. split; auto. intro i. rewrite Hy. destruct (Nat.eqb_spec i a) as [->|Ni]; simpl; auto.
      rewrite Z, andb_false_r. auto.
Qed.

Lemma sync_spec n (fs : list bfun) (lam : L) x : length x = n ->
  exists y, syncSolution vzero vadd ne0 fs n lam x = Some y /\ length y = n /\
    (forall i, i < n -> ne0 (prescribed vzero vadd fs lam i) = true -> nth_error y i = Some (prescribed vzero vadd fs lam i)) /\
    (forall i, i < n -> ne0 (prescribed vzero vadd fs lam i) = false -> nth_error y i = nth_error x i).
Proof.
  intro Lx. unfold syncSolution. destruct (evaluate_spec n fs lam) as [_ Ev].
  destruct (sync_loop (fun i => nth i (evaluateIDBC vzero vadd n fs lam) vzero) (seq 0 n) x) as [y [E [Ly Hy]]].
  { apply seq_NoDup. } { intros i Hi. apply in_seq in Hi. lia. }
  assert (forall i, i < n -> existsb (Nat.eqb i) (seq 0 n) = true) as X.
  { intros i Hi. apply existsb_exists. exists i. rewrite in_seq, Nat.eqb_refl. split; auto; lia. }
  exists y. split; auto. split; [congruence|]. split; intros i Hi Z; rewrite Hy, X, Ev by auto; rewrite Z; auto.
Qed.

Lemma vplus_spec x : forall b, length b = length x ->
  exists y, vplus vadd x b = Some y /\ length y = length x /\
    forall i, nth_error y i = match nth_error x i, nth_error b i with Some p, Some q => Some (vadd p q) | _, _ => None end.
Proof.
  induction x as [|a x IH]; intros [|b0 b] H; simpl in *; try discriminate.
  - exists []. repeat split; auto. intros [|i]; auto.
  - destruct (IH b) as [y [E [Ly Hy]]]; [lia|]. exists (vadd a b0 :: y). rewrite E. simpl. repeat split; auto.
    intros [|i]; simpl; auto.
Qed.
End D.
