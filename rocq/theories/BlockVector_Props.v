(** Property C169: corrections and views of vectors of manifold points. *)

From Coq Require Import List Arith Bool ZArith Lia.
From Verif Require Import BlockVector_Model.
Import ListNotations.

(** ** Specification *)

(** What one point of a vector becomes: its own segment of the correction is added *)
Definition ownSegment {K} (size : nat) (b : list K) (i : nat) : list K := firstn size (skipn (i * size) b).
Definition corrected {P K} (size : nat) (plus : P -> list K -> P) (a : list P) (b : list K) (a' : list P) : Prop :=
  length a' = length a /\ forall i p, nth_error a i = Some p -> nth_error a' i = Some (plus p (ownSegment size b i)).

(** The part of the correction of a tuple vector that belongs to member k *)
Definition memberSize {P K} (m : member P K) : nat := length (m_points m) * m_size m.
Definition before {P K} (a : list (member P K)) (k : nat) : nat := list_sum (map memberSize (firstn k a)).
Definition ownPart {P K} (a : list (member P K)) (b : list K) (k : nat) (m : member P K) : list K := firstn (memberSize m) (skipn (before a k) b).

(** Coordinate j of block i *)
Definition coordinate {K} (a : list (list K)) (i j : nat) : option K := match nth_error a i with Some p => nth_error p j | None => None end.
(** The block and the coordinate an entry of a view shows, for points with m coordinates *)
Definition shows (v : view) (m i j : nat) : nat * nat := match v with Flat => (i / m, i mod m) | DynFixed => (i, j) | FixedDyn => (j, i) end.

(** ** Proofs *)
Section Add.
  Context {P K : Type}.

  Lemma segment_in (b : list K) s n : s + n <= length b -> segment b s n = Returns (firstn n (skipn s b)).
  Proof. intros H. unfold segment. now rewrite (proj2 (Nat.leb_le _ _) H). Qed.

  Lemma addFrom_spec size (plus : P -> list K -> P) b a : forall i, (i + length a) * size <= length b ->
    exists a', addFrom size plus b i a = Returns a' /\ length a' = length a /\
      forall j p, nth_error a j = Some p -> nth_error a' j = Some (plus p (ownSegment size b (i + j))).
  Proof.
    induction a as [|p a IH]; intros i H; cbn [addFrom].
    - exists []. split; [reflexivity|]. split; [reflexivity|]. intros [|j] p Hj; discriminate.
    - cbn [length] in H. rewrite segment_in by nia. destruct (IH (S i) ltac:(nia)) as (a' & E & L & N). cbn [bind]. rewrite E. cbn [bind].
      exists (plus p (ownSegment size b i) :: a'). split; [reflexivity|]. split; [cbn; congruence|].
      intros [|j] q Hj; cbn in *; [injection Hj as <-; rewrite Nat.add_0_r; reflexivity|]. rewrite (N j q Hj). now rewrite Nat.add_succ_r.
  Qed.

  (** C169: a correction of the right size corrects every point by its own segment; any other size is refused *)
  Theorem C169_blocks size (plus : P -> list K -> P) a b :
    (length b = length a * size -> exists a', addBlocks size plus a b = Returns a' /\ corrected size plus a b a') /\
    (length b <> length a * size -> addBlocks size plus a b = AssertionFails).
  Proof.
    unfold addBlocks, totalSize. split.
    - intros H. rewrite (proj2 (Nat.eqb_eq _ _) (eq_sym H)). destruct (addFrom_spec size plus b a 0 ltac:(cbn; lia)) as (a' & E & L & N).
      exists a'. split; [exact E|]. split; [exact L|exact N].
    - intros H. destruct (Nat.eqb_spec (length a * size) (length b)); [congruence|reflexivity].
  Qed.

  (** C169: adding and subtracting the same correction restores the vector if that holds for points *)
  Theorem C169_subtract size (plus : P -> list K -> P) opp a b : length b = length a * size ->
    (forall p s, In p a -> length s = size -> plus (plus p s) (map opp s) = p) ->
    exists a', addBlocks size plus a b = Returns a' /\ subtractBlocks opp size plus a' b = Returns a.
  Proof.
    intros H R. destruct (proj1 (C169_blocks size plus a b) H) as (a' & E & L & N). exists a'. split; [exact E|]. unfold subtractBlocks.
    destruct (proj1 (C169_blocks size plus a' (map opp b)) ltac:(rewrite map_length; congruence)) as (a2 & E2 & L2 & N2). rewrite E2. f_equal.
    assert (X : forall i, nth_error a2 i = nth_error a i).
    { intros i. destruct (nth_error a i) as [p|] eqn:Ea.
      - rewrite (N2 i _ (N i p Ea)). f_equal. unfold ownSegment. rewrite skipn_map, firstn_map. apply R; [apply (nth_error_In _ _ Ea)|]. rewrite firstn_length, skipn_length.
        assert (i < length a) by (apply nth_error_Some; congruence). nia.
      - apply nth_error_None. apply nth_error_None in Ea. lia. }
    clear -X. revert a X. induction a2 as [|x l IH]; intros [|y a] X; try reflexivity; try (specialize (X 0); discriminate X).
    f_equal; [specialize (X 0); cbn in X; congruence|]. apply IH. intros i. apply (X (S i)).
  Qed.

  Lemma addTuple_spec b (a : list (member P K)) : forall pos, pos + list_sum (map memberSize a) <= length b ->
    exists a', addTupleFrom b pos a = Returns a' /\ length a' = length a /\
      forall k m, nth_error a k = Some m -> exists m', nth_error a' k = Some m' /\ m_size m' = m_size m /\ m_plus m' = m_plus m /\
        corrected (m_size m) (m_plus m) (m_points m) (firstn (memberSize m) (skipn (pos + before a k) b)) (m_points m').
  Proof.
    induction a as [|m a IH]; intros pos H; cbn [addTupleFrom].
    - exists []. split; [reflexivity|]. split; [reflexivity|]. intros [|k] m Hk; discriminate.
    - cbn [map list_sum fold_right] in H. change (fold_right plus 0 (map memberSize a)) with (list_sum (map memberSize a)) in H.
      change (totalSize (m_size m) (m_points m)) with (memberSize m). rewrite segment_in by lia. cbn [bind].
      destruct (proj1 (C169_blocks (m_size m) (m_plus m) (m_points m) (firstn (memberSize m) (skipn pos b)))) as (ps & E & C).
      { rewrite firstn_length, skipn_length. unfold memberSize in *. lia. }
      rewrite E. cbn [bind]. destruct (IH (pos + memberSize m) ltac:(lia)) as (a' & E' & L & N). rewrite E'. cbn [bind].
      eexists. split; [reflexivity|]. split; [cbn; congruence|].
      intros [|k] q Hk; cbn in Hk.
      + injection Hk as <-. eexists. split; [reflexivity|]. split; [reflexivity|]. split; [reflexivity|]. cbn. rewrite Nat.add_0_r. exact C.
      + destruct (N k q Hk) as (m' & E1 & E2 & E3 & E4). exists m'. split; [exact E1|]. split; [exact E2|]. split; [exact E3|].
        unfold before in *. cbn [firstn map list_sum fold_right]. change (fold_right plus 0 (map memberSize (firstn k a))) with (list_sum (map memberSize (firstn k a))).
        rewrite Nat.add_assoc. exact E4.
  Qed.

  Lemma addTuple_short b (a : list (member P K)) : forall pos, length b < pos + list_sum (map memberSize a) -> (pos <= length b) ->
    addTupleFrom b pos a = AssertionFails.
  Proof.
    induction a as [|m a IH]; intros pos H Hp; [cbn in H; lia|].
    cbn [map list_sum fold_right] in H. change (fold_right plus 0 (map memberSize a)) with (list_sum (map memberSize a)) in H. cbn [addTupleFrom].
    change (totalSize (m_size m) (m_points m)) with (memberSize m). unfold segment. destruct (Nat.leb_spec (pos + memberSize m) (length b)); [|reflexivity]. cbn [bind].
    destruct (proj1 (C169_blocks (m_size m) (m_plus m) (m_points m) (firstn (memberSize m) (skipn pos b)))) as (ps & E & _).
    { rewrite firstn_length, skipn_length. unfold memberSize in *. lia. }
    rewrite E. cbn [bind]. now rewrite IH by lia.
  Qed.

  (** C169: every member of a tuple vector is corrected by its own part; too short corrections are refused *)
  Theorem C169_tuple (a : list (member P K)) b :
    (list_sum (map memberSize a) <= length b -> exists a', addTuple a b = Returns a' /\ length a' = length a /\
       forall k m, nth_error a k = Some m -> exists m', nth_error a' k = Some m' /\ m_size m' = m_size m /\ m_plus m' = m_plus m /\
         corrected (m_size m) (m_plus m) (m_points m) (ownPart a b k m) (m_points m')) /\
    (length b < list_sum (map memberSize a) -> addTuple a b = AssertionFails).
  Proof. split; intros H; [apply (addTuple_spec b a 0 H)|apply addTuple_short; lia]. Qed.
End Add.
Print Assumptions C169_blocks.
Print Assumptions C169_subtract.
Print Assumptions C169_tuple.

(** ** Views *)
Section Views.
  Context {K : Type}.
  Variables (m : nat) (a : list (list K)).
  Hypothesis blocks : forall p, In p a -> length p = m.

  Lemma concat_length l : (forall p : list K, In p l -> length p = m) -> length (concat l) = length l * m.
  Proof. induction l as [|p l IH]; intros H; [reflexivity|]. cbn. rewrite app_length, IH, H; [lia|now left|intros; apply H; now right]. Qed.

  Lemma memory l i j : (forall p : list K, In p l -> length p = m) -> j < m -> nth_error (concat l) (i * m + j) = coordinate l i j.
  Proof.
    intros H Hj. revert i. induction l as [|p l IH]; intros i.
    - unfold coordinate. cbn. destruct i; cbn; [destruct j|destruct (m + i * m + j)]; reflexivity.
    - cbn [concat]. assert (Lp := H p (or_introl eq_refl)). destruct i as [|i].
      + rewrite nth_error_app1 by lia. reflexivity.
      + rewrite nth_error_app2 by lia. replace (S i * m + j - length p) with (i * m + j) by lia. apply IH. intros; apply H; now right.
  Qed.

  Lemma replace_nth (l : list K) k x j : nth_error (replace l k x) j = if (k =? j) && (j <? length l) then Some x else nth_error l j.
  Proof.
    revert k j. induction l as [|y l IH]; intros k j; cbn [replace].
    - now rewrite andb_false_r.
    - destruct k as [|k], j as [|j]; cbn; try reflexivity. rewrite IH. reflexivity.
  Qed.
  Lemma replace_length (l : list K) k x : length (replace l k x) = length l.
  Proof. revert k. induction l as [|y l IH]; intros [|k]; cbn; auto. Qed.

  Lemma write_spec l i j x : (forall p : list K, In p l -> length p = m) -> i < length l -> j < m ->
    length (write l (i * m + j) x) = length l /\ (forall p, In p (write l (i * m + j) x) -> length p = m) /\
    forall r c, coordinate (write l (i * m + j) x) r c = if (i =? r) && (j =? c) then Some x else coordinate l r c.
  Proof.
    intros H. revert i. induction l as [|p l IH]; intros i Hi Hj; cbn [length] in Hi; [lia|]. cbn [write].
    assert (Lp := H p (or_introl eq_refl)). assert (Hl : forall p, In p l -> length p = m) by (intros; apply H; now right).
    destruct i as [|i].
    - destruct (Nat.ltb_spec (0 * m + j) (length p)); [|lia]. cbn [Nat.mul Nat.add]. split; [reflexivity|]. split.
      + intros q [<-|Hq]; [rewrite replace_length; exact Lp|apply Hl, Hq].
      + intros [|r] c; unfold coordinate; cbn [nth_error Nat.eqb andb]; [|reflexivity]. rewrite replace_nth.
        destruct (Nat.eqb_spec j c) as [<-|]; [|reflexivity]. cbn [andb]. destruct (Nat.ltb_spec j (length p)); [reflexivity|lia].
    - destruct (Nat.ltb_spec (S i * m + j) (length p)); [lia|]. replace (S i * m + j - length p) with (i * m + j) by lia.
      destruct (IH Hl i ltac:(lia) Hj) as (I1 & I2 & I3). split; [cbn; congruence|]. split.
      + intros q [<-|Hq]; [exact Lp|apply I2, Hq].
      + intros [|r] c; unfold coordinate in *; cbn [nth_error Nat.eqb andb]; [reflexivity|]. apply I3.
  Qed.

  Lemma address_shows v rows cols i j : a <> [] -> extent v a = Returns (rows, cols) -> i < rows -> j < cols ->
    let (r, c) := shows v m i j in r < length a /\ c < m /\ address v rows cols i j = r * m + c.
  Proof.
    intros Ne E Hi Hj. destruct a as [|p l]; [contradiction|]. assert (Lp := blocks p (or_introl eq_refl)). cbn [extent] in E. rewrite Lp in E.
    destruct v; injection E as <- <-; unfold shows, address.
    - assert (j = 0) by lia. subst j. assert (m <> 0) by (intros ->; rewrite Nat.mul_0_r in Hi; lia). split; [apply Nat.div_lt_upper_bound; [assumption|]; rewrite Nat.mul_comm; exact Hi|]. split; [apply Nat.mod_upper_bound; assumption|].
      cbn. rewrite Nat.mul_comm. apply Nat.div_mod. assumption.
    - split; [exact Hi|]. split; [exact Hj|reflexivity].
    - split; [exact Hj|]. split; [exact Hi|reflexivity].
  Qed.

  Lemma coordinate_some l r c : (forall p : list K, In p l -> length p = m) -> r < length l -> c < m -> exists x, coordinate l r c = Some x.
  Proof.
    intros H Hr Hc. unfold coordinate. destruct (nth_error l r) as [p|] eqn:E; [|apply nth_error_None in E; lia].
    assert (Lp := H p (nth_error_In _ _ E)). destruct (nth_error p c) as [x|] eqn:E2; [eauto|]. apply nth_error_None in E2. lia.
  Qed.

  (** C169: every entry of the three views of a non-empty vector is one coordinate of one block, reading and writing it reads and writes this coordinate only *)
  Theorem C169_views v : a <> [] ->
    extent v a = Returns match v with Flat => (length a * m, 1) | DynFixed => (length a, m) | FixedDyn => (m, length a) end /\
    forall rows cols, extent v a = Returns (rows, cols) -> forall i j,
      (i < rows /\ j < cols -> let (r, c) := shows v m i j in
         (exists x, readView v a i j = Returns x /\ coordinate a r c = Some x) /\
         forall x, exists a', writeView v a i j x = Returns a' /\ length a' = length a /\ (forall p, In p a' -> length p = m) /\
           forall r' c', coordinate a' r' c' = if (r =? r') && (c =? c') then Some x else coordinate a r' c') /\
      (~ (i < rows /\ j < cols) -> readView v a i j = AssertionFails /\ forall x, writeView v a i j x = AssertionFails).
  Proof.
    intros Ne. split.
    - destruct a as [|p l]; [contradiction|]. cbn [extent]. rewrite (blocks p (or_introl eq_refl)). reflexivity.
    - intros rows cols E i j. unfold readView, writeView. rewrite E. cbn [bind]. split.
      + intros [Hi Hj]. assert (A := address_shows v rows cols i j Ne E Hi Hj). destruct (shows v m i j) as (r, c). destruct A as (Hr & Hc & Ad).
        rewrite (proj2 (Nat.ltb_lt _ _) Hi), (proj2 (Nat.ltb_lt _ _) Hj). cbn [andb]. rewrite Ad. split.
        * rewrite (memory a r c blocks Hc). destruct (coordinate_some a r c blocks Hr Hc) as (x & ->). exists x. split; reflexivity.
        * intros x. eexists. split; [reflexivity|]. apply write_spec; assumption.
      + intros N. destruct (Nat.ltb_spec i rows), (Nat.ltb_spec j cols); cbn [andb]; try (split; reflexivity). exfalso. apply N. split; assumption.
  Qed.
End Views.
Print Assumptions C169_views.

(** C169, false: a tuple vector takes corrections that are too long, and an empty block vector has no views *)
Theorem C169_too_long_refuted :
  ~ (forall (P K : Type) (a : list (member P K)) (b : list K), length b <> list_sum (map memberSize a) -> addTuple a b = AssertionFails).
Proof.
  intros H. specialize (H Z Z [mkMember 1 (fun p s => p + nth 0 s 0)%Z [5%Z]] [1; 2]%Z ltac:(cbn; lia)). discriminate H.
Qed.
Print Assumptions C169_too_long_refuted.
Theorem C169_empty_refuted : ~ (forall (K : Type) (v : view) (a : list (list K)), extent v a <> Undefined).
Proof. intros H. apply (H Z Flat []). reflexivity. Qed.
Print Assumptions C169_empty_refuted.

(** Points of a plane: two of them, and a tuple of one point and two numbers *)
Definition planePlus (p s : list Z) : list Z := map (fun '(x, y) => (x + y)%Z) (combine p s).
Example C169_applies :
  addBlocks 2 planePlus [[1; 2]; [3; 4]]%Z [10; 20; 30; 40]%Z = Returns [[11; 22]; [33; 44]]%Z /\
  subtractBlocks Z.opp 2 planePlus [[11; 22]; [33; 44]]%Z [10; 20; 30; 40]%Z = Returns [[1; 2]; [3; 4]]%Z /\
  (forall p s : list Z, length p = 2 -> length s = 2 -> planePlus (planePlus p s) (map Z.opp s) = p) /\
  (exists a', addTuple [mkMember 2 planePlus [[1; 2]]%Z; mkMember 1 planePlus [[5]; [6]]%Z] [1; 1; 2; 3]%Z = Returns a' /\ map m_points a' = [[[2; 3]]; [[7]; [9]]]%Z) /\
  readView Flat [[1; 2]; [3; 4]]%Z 2 0 = Returns 3%Z /\ readView DynFixed [[1; 2]; [3; 4]]%Z 1 0 = Returns 3%Z /\
  readView FixedDyn [[1; 2]; [3; 4]]%Z 0 1 = Returns 3%Z /\ writeView FixedDyn [[1; 2]; [3; 4]]%Z 1 0 9%Z = Returns [[1; 9]; [3; 4]]%Z.
Proof.
  split; [reflexivity|]. split; [reflexivity|]. split.
  { intros p s Lp Ls. destruct p as [|p0 [|p1 [|]]]; try discriminate. destruct s as [|s0 [|s1 [|]]]; try discriminate. cbn. f_equal; [lia|]. f_equal. lia. }
  split; [eexists; split; reflexivity|]. repeat split.
Qed.
