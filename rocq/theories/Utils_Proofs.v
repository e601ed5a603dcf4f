(** Proofs about the helpers. *)

From Coq Require Import List ZArith Bool Arith Lia Sorting.Sorted Sorting.Permutation.
From Verif Require Import Utils_Model.
Import ListNotations.

Section Sqrt.
Local Open Scope Z_scope.

Lemma fits_ok tmax x : 0 <= x <= tmax -> fits tmax x = Some x.
Proof. intros H. unfold fits. destruct (Z.leb_spec 0 x); destruct (Z.leb_spec x tmax); simpl; auto; lia. Qed.

Lemma helper_ok tmax x : 0 <= x ->
  forall fuel lo hi, 0 <= lo <= hi -> (Z.to_nat (hi - lo) < fuel)%nat ->
  lo * lo <= x < (hi + 1) * (hi + 1) ->
  (forall l, l * l <= x -> 0 <= l -> l + hi + 1 <= tmax) ->
  exists r, sqrt_helper tmax fuel x lo hi = Some r /\ 0 <= r /\ r * r <= x < (r + 1) * (r + 1).
Proof.
  intros Hx. induction fuel as [|fuel IH]; intros lo hi H F B T; [lia|]. cbn [sqrt_helper].
  destruct (Z.eqb_spec lo hi) as [->|N]; [exists hi; split; [auto|lia]|].
  rewrite fits_ok by (split; [lia|apply T; lia]).
  pose (mid := (lo + hi + 1) / 2). fold mid.
  assert (M1 : lo < mid <= hi).
  { unfold mid. assert (D := Z.div_mod (lo + hi + 1) 2). assert (E := Z.mod_pos_bound (lo + hi + 1) 2). lia. }
  destruct (Z.eqb_spec mid 0); [lia|].
  destruct (Z.ltb_spec (x / mid) mid) as [L|L].
  - assert (x < mid * mid). { assert (D : x < mid * Z.succ (x / mid)) by (apply Z.mul_succ_div_gt; lia). nia. }
    assert (mid <= tmax). { assert (K := T 0 ltac:(lia) ltac:(lia)). lia. }
    rewrite fits_ok by lia. replace (x < mid * mid) with (x < (mid - 1 + 1) * (mid - 1 + 1)) in H0 by (f_equal; ring).
    apply IH; [lia|lia|lia|]. intros l Hl Hl0. assert (K := T l Hl Hl0). lia.
  - assert (mid * mid <= x). { assert (D : mid * (x / mid) <= x) by (apply Z.mul_div_le; lia). nia. }
    apply IH; try lia. exact T.
Qed.

Lemma ct_sqrt_ok tmax x : 127 <= tmax -> 0 <= x <= tmax ->
  exists r, (forall fuel, (Z.to_nat (x / 2 + 1) < fuel)%nat -> ct_sqrt tmax fuel x = Some r) /\ 0 <= r /\ r * r <= x < (r + 1) * (r + 1).
Proof.
  intros Ht Hx.
  assert (Q : 0 <= x / 2 /\ 2 * (x / 2) <= x < 2 * (x / 2) + 2).
  { assert (D := Z.div_mod x 2). assert (E := Z.mod_pos_bound x 2). lia. }
  assert (R : forall fuel, (Z.to_nat (x / 2 + 1) < fuel)%nat ->
     exists r, ct_sqrt tmax fuel x = Some r /\ 0 <= r /\ r * r <= x < (r + 1) * (r + 1)).
  { intros fuel F. unfold ct_sqrt. rewrite fits_ok by lia. apply helper_ok; [lia|lia|lia|nia|].
    - intros l Hl Hl0. destruct (Z_le_gt_dec x 127).
      + assert (l <= 11) by nia. lia.
      + nia. }
  destruct (R (S (Z.to_nat (x / 2 + 1))) ltac:(lia)) as (r & E & P1 & P2). exists r. split; [|auto].
  intros fuel F. destruct (R fuel F) as (r' & E' & P1' & P2'). rewrite E'. f_equal. nia.
Qed.
End Sqrt.

Section Algorithms.
Context {A : Type}.
Variables (ltb eqb : A -> A -> bool).
Hypothesis eqb_spec : forall a b, eqb a b = true <-> a = b.
Hypothesis ltb_trans : forall a b c, ltb a b = true -> ltb b c = true -> ltb a c = true.
Hypothesis ltb_total : forall a b, ltb a b = true \/ a = b \/ ltb b a = true.

Definition le (a b : A) : Prop := a = b \/ ltb a b = true.

Lemma le_trans a b c : le a b -> le b c -> le a c.
Proof using ltb_trans. intros [->|H] [->|K]; unfold le; eauto. Qed.

Lemma uniqueFrom_ok l : forall last, Sorted le (last :: l) ->
  StronglySorted (fun a b => ltb a b = true) (last :: uniqueFrom eqb last l) /\
  (forall x, In x (last :: uniqueFrom eqb last l) <-> In x (last :: l)).
Proof using eqb_spec ltb_trans.
  induction l as [|y l IH]; intros last H; simpl.
  - split; [repeat constructor|tauto].
  - assert (SS : StronglySorted le (last :: y :: l)).
    { apply Sorted_StronglySorted; auto. intros a b c. apply le_trans. }
    inversion H as [|? ? S1 S2]; subst. inversion S2 as [|? ? LE]; subst.
    destruct (eqb last y) eqn:E.
    + apply eqb_spec in E. subst y.
      destruct (IH last S1) as [P Q]. split; auto. intros x. rewrite (Q x). simpl. tauto.
    + destruct (IH y S1) as [P Q].
      assert (L : ltb last y = true).
      { destruct LE as [->|]; auto. assert (eqb y y = true) by now apply eqb_spec. congruence. }
      split.
      * constructor; auto. constructor; auto. inversion P; subst.
        eapply Forall_impl; [|eassumption]. simpl. intros; eauto.
      * intros x. specialize (Q x). simpl in *. tauto.
Qed.

Lemma find_le l v : find eqb l v <= length l.
Proof using. induction l; simpl; auto. destruct (eqb a v); lia. Qed.

Lemma find_In l v : find eqb l v = length l <-> ~ In v l.
Proof using eqb_spec.
  induction l as [|x l IH]; simpl; [tauto|]. destruct (eqb x v) eqn:E.
  - apply eqb_spec in E. split; [discriminate|tauto].
  - assert (x <> v). { intros ->. assert (eqb v v = true) by now apply eqb_spec. congruence. }
    split; [intros H0; injection H0 as H0; tauto|]. intros H0. f_equal. tauto.
Qed.

Lemma find_nth l v : In v l -> nth_error l (find eqb l v) = Some v /\ forall k, k < find eqb l v -> nth_error l k <> Some v.
Proof using eqb_spec.
  induction l as [|x l IH]; simpl; [tauto|]. destruct (eqb x v) eqn:E.
  - apply eqb_spec in E. subst. intros _. split; auto. intros k. lia.
  - assert (NE : x <> v). { intros ->. assert (eqb v v = true) by now apply eqb_spec. congruence. }
    intros [->|H]; [congruence|]. destruct (IH H) as [P Q]. split; auto.
    intros [|k] Hk; simpl; [congruence|]. apply Q. lia.
Qed.
End Algorithms.

Section LineSegment.
Context {T P : Type}.
Variable ltb : T -> T -> bool.
Variable polyfit : list T -> list T -> P * T.
Hypothesis ltb_irrefl : forall a, ltb a a = false.
Hypothesis ltb_trans : forall a b c, ltb a b = true -> ltb b c = true -> ltb a c = true.
Hypothesis ltb_cotrans : forall a b c, ltb a c = true -> ltb a b = true \/ ltb b c = true.

Lemma fits_from_ok x y m count : forall i, i + count + m <= length x -> length x <= length y ->
  exists r, fits_from polyfit x y m i count = Some r /\ length r = count /\
  forall k, k < count -> nth_error r k = Some (polyfit (firstn (S m) (skipn (i + k) x)) (firstn (S m) (skipn (i + k) y))).
Proof using.
  induction count as [|c IH]; intros i H1 H2; simpl.
  - exists []. repeat split; auto. intros; lia.
  - unfold window. destruct (Nat.ltb_spec (i + m) (length x)); [|lia]. destruct (Nat.ltb_spec (i + m) (length y)); [|lia].
    destruct (IH (S i)) as (r & E & L & K); try lia. rewrite E. eexists. split; [reflexivity|]. split; [simpl; auto|].
    intros [|k] Hk; simpl.
    + rewrite Nat.add_0_r. reflexivity.
    + rewrite K by lia. now rewrite Nat.add_succ_r.
Qed.

(** The best position so far is below the end, no smaller element before the end, and it is the first such *)
Lemma minFrom_ok l : forall done best besti, nth_error done besti = Some best ->
  (forall k e, nth_error done k = Some e -> ltb e best = false) ->
  (forall k e, nth_error done k = Some e -> k < besti -> ltb best e = true) ->
  let j := minFrom ltb best besti (length done) l in
  exists b, nth_error (done ++ l) j = Some b /\ (forall k e, nth_error (done ++ l) k = Some e -> ltb e b = false) /\
            (forall k e, nth_error (done ++ l) k = Some e -> k < j -> ltb b e = true).
Proof using ltb_irrefl ltb_trans ltb_cotrans.
  induction l as [|x l IH]; intros done best besti H1 H2 H3; simpl.
  - rewrite app_nil_r. eauto.
  - assert (EQ : forall j, nth_error (done ++ x :: l) j = nth_error ((done ++ [x]) ++ l) j) by (intros; now rewrite <- app_assoc).
    assert (LN : S (length done) = length (done ++ [x])) by (rewrite app_length; simpl; lia).
    assert (BL : besti < length done) by (apply nth_error_Some; congruence).
    destruct (ltb x best) eqn:E.
    + rewrite LN. destruct (IH (done ++ [x]) x (length done)) as (b & A1 & A2 & A3).
      * rewrite nth_error_app2, Nat.sub_diag; auto.
      * intros k e Hk. destruct (lt_dec k (length done)) as [Lk|Lk].
        -- rewrite nth_error_app1 in Hk by auto. specialize (H2 _ _ Hk).
           destruct (ltb e x) eqn:F; auto. rewrite (ltb_trans _ _ _ F E) in H2. discriminate.
        -- rewrite nth_error_app2 in Hk by lia. destruct (k - length done) as [|k']; simpl in Hk.
           ++ injection Hk as <-. apply ltb_irrefl.
           ++ destruct k'; discriminate.
      * intros k e Hk Lk. rewrite nth_error_app1 in Hk by auto. specialize (H2 _ _ Hk).
        destruct (ltb_cotrans _ e _ E) as [F|F]; auto. congruence.
      * exists b. split; [now rewrite EQ|]. split; intros k e; rewrite EQ; eauto.
    + rewrite LN. destruct (IH (done ++ [x]) best besti) as (b & A1 & A2 & A3).
      * now rewrite nth_error_app1.
      * intros k e Hk. destruct (lt_dec k (length done)) as [Lk|Lk].
        -- rewrite nth_error_app1 in Hk by auto. eauto.
        -- rewrite nth_error_app2 in Hk by lia. destruct (k - length done) as [|k']; simpl in Hk.
           ++ now injection Hk as <-.
           ++ destruct k'; discriminate.
      * intros k e Hk Lk. rewrite nth_error_app1 in Hk by lia. eauto.
      * exists b. split; [now rewrite EQ|]. split; intros k e; rewrite EQ; eauto.
Qed.

Lemma min_element_ok l : l <> [] ->
  exists b, nth_error l (min_element ltb l) = Some b /\ (forall k e, nth_error l k = Some e -> ltb e b = false) /\
            (forall k e, nth_error l k = Some e -> k < min_element ltb l -> ltb b e = true).
Proof using ltb_irrefl ltb_trans ltb_cotrans.
  destruct l as [|e l]; [congruence|]. intros _. apply (minFrom_ok l [e] e 0); auto.
  - intros [|[|k]] x; simpl; try discriminate. injection 1 as <-. apply ltb_irrefl.
  - intros; lia.
Qed.
End LineSegment.
