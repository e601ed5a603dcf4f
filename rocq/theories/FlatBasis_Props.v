(** Property C128: the flat basis numbers the degrees of freedom consecutively. *)

From Coq Require Import List Arith Lia Permutation.
From Verif Require Import FlatBasis_Model.
Import ListNotations.

(** Nested induction *)
Fixpoint preBasis_nested (P : preBasis -> Prop) (L : forall n, P (LeafB n)) (W : forall s k b, P b -> P (PowerB s k b))
  (C : forall s l, Forall P l -> P (CompositeB s l)) (b : preBasis) : P b :=
  match b with
  | LeafB n => L n
  | PowerB s k b => W s k b (preBasis_nested P L W C b)
  | CompositeB s l => C s l ((fix all l : Forall P l := match l with [] => Forall_nil P | b :: l => Forall_cons b (preBasis_nested P L W C b) (all l) end) l)
  end.

(** The degrees of freedom: a leaf has [n], a power basis those of its child for every copy, a composite basis those of its children. *)
Fixpoint isDof (b : preBasis) (p : list nat) : Prop :=
  match b, p with
  | LeafB n, [i] => i < n
  | PowerB _ k sub, c :: p => c < k /\ isDof sub p
  | CompositeB _ subs, c :: p => (fix at_ l n := match l, n with [], _ => False | b :: _, O => isDof b p | _ :: l, S n => at_ l n end) subs c
  | _, _ => False
  end.

(** Composite bases are not interleaved (a static assertion of dune-functions). *)
Fixpoint allowed (b : preBasis) : Prop :=
  match b with
  | LeafB _ => True
  | PowerB _ _ sub => allowed sub
  | CompositeB s subs => s <> BlockedInterleaved /\ s <> FlatInterleaved /\ (fix all l := match l with [] => True | b :: l => allowed b /\ all l end) subs
  end.

Lemma list_sum_cons : forall a l, list_sum (a :: l) = a + list_sum l.
Proof. reflexivity. Qed.

Lemma euclid_unique : forall k j c j' c', c < k -> c' < k -> j * k + c = j' * k + c' -> j = j' /\ c = c'.
Proof.
  intros k j c j' c' H H' E. assert (j = j') by (destruct (Nat.lt_trichotomy j j') as [L|[L|L]]; auto; exfalso; nia). subst. lia.
Qed.

Lemma size_flatten : forall b, allowed b -> size (flatten b) = dimension b.
Proof.
  apply (preBasis_nested (fun b => allowed b -> size (flatten b) = dimension b)); cbn [allowed flatten size dimension]; auto.
  - intros s k b IH A. destruct s; cbn [flatStrategy size]; rewrite IH; auto.
  - intros s l F [N1 [N2 A]]. assert (list_sum (map size (map flatten l)) = list_sum (map dimension l)) as E.
    { clear N1 N2. induction F as [|b l H F IH]; auto. destruct A as [A1 A2]. cbn [map]. rewrite !list_sum_cons, H, IH; auto. }
    destruct s; cbn [flatStrategy size]; auto; contradiction.
Qed.

(** The flat index of a degree of freedom is a single number below the dimension, and different degrees of freedom have different ones. *)
Lemma flat_index : forall b, allowed b ->
  (forall p, isDof b p -> exists k, index (flatten b) p = [k] /\ k < dimension b) /\
  (forall p q, isDof b p -> isDof b q -> index (flatten b) p = index (flatten b) q -> p = q).
Proof.
  apply (preBasis_nested (fun b => allowed b -> (forall p, isDof b p -> exists k, index (flatten b) p = [k] /\ k < dimension b) /\
    (forall p q, isDof b p -> isDof b q -> index (flatten b) p = index (flatten b) q -> p = q))).
  - intros n _. split.
    + intros [|i [|? ?]]; cbn; try tauto. intro H. exists i. auto.
    + intros p q _ _. cbn. auto.
  - intros s k b IH A. cbn [allowed] in A. destruct (IH A) as [B Inj]. pose proof (size_flatten b A) as Sz.
    assert (flatStrategy s = FlatInterleaved \/ flatStrategy s = FlatLexicographic) as Fs by (destruct s; auto).
    split.
    + intros [|c p]; cbn [isDof]; [tauto|]. intros [Hc Hp]. destruct (B p Hp) as [j [Ej Hj]]. cbn [flatten index dimension]. rewrite Ej, Sz.
      destruct Fs as [-> | ->]; cbn [merge onFirst]; eexists; (split; [reflexivity|]); nia.
    + intros [|c p] [|c' q]; cbn [isDof]; try tauto. intros [Hc Hp] [Hc' Hq]. destruct (B p Hp) as [j [Ej Hj]], (B q Hq) as [j' [Ej' Hj']].
      cbn [flatten index]. rewrite Ej, Ej', Sz. intro E.
      assert (c = c' /\ j = j') as [-> ->].
      { destruct Fs as [Fs | Fs]; rewrite Fs in E; cbn [merge onFirst] in E; inversion E.
        - destruct (euclid_unique k j c j' c'); auto.
        - destruct (euclid_unique (dimension b) c j c' j'); auto; lia. }
      f_equal. apply Inj; auto. congruence.
  - intros s l F [N1 [N2 A]]. assert (flatStrategy s = FlatLexicographic) as Fs by (destruct s; auto; contradiction).
    cbn [flatten isDof index dimension]. rewrite Fs, map_length.
    (* generalised to a suffix of the children *)
    assert (forall l m off c p, Forall (fun b => allowed b -> (forall p, isDof b p -> exists k, index (flatten b) p = [k] /\ k < dimension b) /\
        (forall p q, isDof b p -> isDof b q -> index (flatten b) p = index (flatten b) q -> p = q)) l ->
      (fix all l := match l with [] => True | b :: l => allowed b /\ all l end) l ->
      (fix at_ l n := match l, n with [], _ => False | b :: _, O => isDof b p | _ :: l, S n => at_ l n end) l c ->
      exists b k, nth_error l c = Some b /\ allowed b /\ isDof b p /\ index (flatten b) p = [k] /\ k < dimension b /\
        (fix at_ (l : list preBasis) (n offset : nat) : list nat :=
          match l, n with
          | [], _ => []
          | b :: _, O => merge FlatLexicographic m (c + m) offset (index b p)
          | b :: l, S n => at_ l n (offset + size b)
          end) (map flatten l) c off = [off + list_sum (map dimension (firstn c l)) + k] /\
        list_sum (map dimension (firstn c l)) + dimension b <= list_sum (map dimension l)) as G.
    { clear. intros l m off c p. revert off. assert (forall cc off, Forall (fun b => allowed b -> (forall p, isDof b p -> exists k, index (flatten b) p = [k] /\ k < dimension b) /\
        (forall p q, isDof b p -> isDof b q -> index (flatten b) p = index (flatten b) q -> p = q)) l ->
      (fix all l := match l with [] => True | b :: l => allowed b /\ all l end) l ->
      (fix at_ l n := match l, n with [], _ => False | b :: _, O => isDof b p | _ :: l, S n => at_ l n end) l c ->
      exists b k, nth_error l c = Some b /\ allowed b /\ isDof b p /\ index (flatten b) p = [k] /\ k < dimension b /\
        (fix at_ (l : list preBasis) (n offset : nat) : list nat :=
          match l, n with
          | [], _ => []
          | b :: _, O => merge FlatLexicographic m cc offset (index b p)
          | b :: l, S n => at_ l n (offset + size b)
          end) (map flatten l) c off = [off + list_sum (map dimension (firstn c l)) + k] /\
        list_sum (map dimension (firstn c l)) + dimension b <= list_sum (map dimension l)) as G.
      { intro cc. revert c. induction l as [|b l IH]; intros c off F A D; [destruct c; contradiction|]. inversion F as [|? ? Hb Fl]; subst. destruct A as [Ab Al].
        destruct c as [|c].
        - destruct (proj1 (Hb Ab) p D) as [k [Ek Hk]]. exists b, k. cbn [nth_error map firstn list_sum fold_right]. rewrite Ek. cbn [merge onFirst].
          repeat split; auto. + f_equal. lia. + cbn. lia.
        - destruct (IH c (off + size (flatten b)) Fl Al D) as [b' [k [H1 [H2 [H3 [H4 [H5 [H6 H7]]]]]]]]. exists b', k. cbn [nth_error map firstn].
          split; auto. split; auto. split; auto. split; auto. split; auto. split.
          + rewrite H6. rewrite (size_flatten b Ab), list_sum_cons. f_equal. lia.
          + rewrite !list_sum_cons. lia. }
      intros off. apply G. }
    assert (forall c p, (fix at_ l n := match l, n with [], _ => False | b :: _, O => isDof b p | _ :: l, S n => at_ l n end) l c ->
      exists b k, nth_error l c = Some b /\ allowed b /\ isDof b p /\ index (flatten b) p = [k] /\ k < dimension b /\
        (fix at_ (l : list preBasis) (n offset : nat) : list nat :=
          match l, n with
          | [], _ => []
          | b :: _, O => merge FlatLexicographic (length l) c offset (index b p)
          | b :: l, S n => at_ l n (offset + size b)
          end) (map flatten l) c 0 = [list_sum (map dimension (firstn c l)) + k] /\
        list_sum (map dimension (firstn c l)) + dimension b <= list_sum (map dimension l)) as G'.
    { intros c p D. exact (G l (length l) 0 c p F A D). }
    split.
    + intros [|c p] D; [contradiction|]. destruct (G' c p D) as [b [k [H1 [H2 [H3 [H4 [H5 [H6 H7]]]]]]]]. eexists. split; [exact H6|lia].
    + intros [|c p] [|c' q] D D'; try contradiction. intro E.
      destruct (G' c p D) as [b [k [H1 [H2 [H3 [H4 [H5 [H6 H7]]]]]]]], (G' c' q D') as [b' [k' [K1 [K2 [K3 [K4 [K5 [K6 K7]]]]]]]].
      cbn [merge] in *. rewrite H6, K6 in E. inversion E as [E'].
      assert (forall c c' b, nth_error l c = Some b -> c < c' -> list_sum (map dimension (firstn c l)) + dimension b <= list_sum (map dimension (firstn c' l))) as Mono.
      { clear. induction l as [|a l IH]; intros c c' b N Lt; [destruct c; discriminate|]. destruct c as [|c], c' as [|c']; try lia.
        - cbn in N. inversion N; subst. cbn. lia.
        - cbn in N. cbn [firstn map]. rewrite !list_sum_cons. specialize (IH c c' b N ltac:(lia)). lia. }
      assert (c = c') as ->.
      { destruct (Nat.lt_trichotomy c c') as [Q|[Q|Q]]; auto; exfalso.
        - specialize (Mono _ _ _ H1 Q). lia.
        - specialize (Mono _ _ _ K1 Q). lia. }
      f_equal. rewrite H1 in K1. inversion K1; subst b'.
      assert (k = k') by lia. subst.
      rewrite Forall_forall in F. apply (proj2 (F b (nth_error_In _ _ H1) H2)); auto. congruence.
Qed.

(** All degrees of freedom, listed once *)
Theorem C128_bijection : forall b dofs, allowed b -> NoDup dofs -> (forall p, In p dofs <-> isDof b p) -> length dofs = dimension b ->
  Permutation (map (index (flatten b)) dofs) (map (fun k => [k]) (seq 0 (dimension b))).
Proof.
  intros b dofs A Nd Al Ln. destruct (flat_index b A) as [B Inj].
  apply NoDup_Permutation_bis.
  - clear Ln. assert (forall l, NoDup l -> (forall p, In p l -> isDof b p) -> NoDup (map (index (flatten b)) l)) as H.
    { induction 1 as [|p l Ni Nd' IH]; intro Hl; cbn [map]; constructor.
      - intro K. apply in_map_iff in K as [q [E K]]. apply Inj in E; [|apply Hl; right; auto|apply Hl; left; auto]. subst. contradiction.
      - apply IH. intros; apply Hl; right; auto. }
    apply H; auto. intros; apply Al; auto.
  - rewrite !map_length, seq_length. lia.
  - intros mi H. apply in_map_iff in H as [p [<- H]]. destruct (B p (proj1 (Al p) H)) as [k [-> Hk]]. apply in_map_iff. exists k. split; auto. apply in_seq. lia.
Qed.

(** There are as many degrees of freedom as the dimension says: such a list exists. *)
Lemma dofs_exist : forall b, exists dofs, NoDup dofs /\ (forall p, In p dofs <-> isDof b p) /\ length dofs = dimension b.
Proof.
  apply (preBasis_nested (fun b => exists dofs, NoDup dofs /\ (forall p, In p dofs <-> isDof b p) /\ length dofs = dimension b)).
  - intro n. exists (map (fun i => [i]) (seq 0 n)). split; [|split].
    + apply FinFun.Injective_map_NoDup; [intros x y E; congruence|apply seq_NoDup].
    + intro p. rewrite in_map_iff. split.
      * intros [i [<- H]]. apply in_seq in H. cbn. lia.
      * destruct p as [|i [|? ?]]; cbn; try tauto. intro H. exists i. split; auto. apply in_seq. lia.
    + rewrite map_length, seq_length. reflexivity.
  - intros s k b [d [N [I L]]].
    assert (forall m, exists dofs, NoDup dofs /\ (forall p, In p dofs <-> match p with [] => False | c :: p => c < m /\ isDof b p end) /\ length dofs = m * dimension b) as H.
    { induction m as [|m [dm [Nm [Im Lm]]]].
      - exists []. split; [constructor|]. split; [|reflexivity]. intros [|c p]; cbn; [tauto|]. lia.
      - exists (dm ++ map (cons m) d). split; [|split].
        + assert (forall dm : list (list nat), NoDup dm -> (forall p, In p dm -> match p with [] => False | c :: _ => c < m end) -> NoDup (dm ++ map (cons m) d)) as G.
          { clear - N. induction dm as [|q dm IH]; intros N2 H; cbn [app].
              - apply FinFun.Injective_map_NoDup; [intros x y E; congruence|auto].
              - inversion N2; subst. constructor.
                + intro K. apply in_app_iff in K as [K|K]; [contradiction|]. apply in_map_iff in K as [r [E K]]. subst. specialize (H (m :: r) ltac:(left; auto)). cbn in H. lia.
                + apply IH; auto. intros; apply H; right; auto. }
          apply G; auto. intros p Hp. generalize (proj1 (Im p) Hp). destruct p; tauto.
        + intro p. rewrite in_app_iff, Im, in_map_iff. destruct p as [|c p].
          * split; [intros [K|[r [K _]]]; [tauto|discriminate]|tauto].
          * split.
            -- intros [[K1 K2]|[r [E K]]]; [split; [lia|auto]|]. inversion E; subst. split; [lia|apply I; auto].
            -- intros [K1 K2]. destruct (Nat.eq_dec c m) as [->|Ne]; [right; exists p; split; auto; apply I; auto|left; split; [lia|auto]].
        + rewrite app_length, map_length. lia. }
    destruct (H k) as [dofs K]. exists dofs. cbn [isDof dimension]. destruct K as [K1 [K2 K3]]. repeat split; auto; apply K2.
  - intros s l F.
    assert (exists dofs, NoDup dofs /\ (forall p, In p dofs <-> match p with [] => False | c :: p => (fix at_ l n := match l, n with [], _ => False | b :: _, O => isDof b p | _ :: l, S n => at_ l n end) l c end) /\
      length dofs = list_sum (map dimension l)) as [dofs [K1 [K2 K3]]].
    { induction F as [|b l [d [N [I L]]] F [dl [Nl [Il Ll]]]].
      - exists []. split; [constructor|]. split; [|reflexivity]. intros [|[|c] p]; cbn; tauto.
      - exists (map (cons 0) d ++ map (fun p => match p with [] => [] | c :: p => S c :: p end) dl).
        assert (forall p, In p dl -> p <> []) as Ne by (intros [|c p] K; [apply Il in K; contradiction|discriminate]).
        split; [|split].
        + assert (NoDup (map (fun p => match p with [] => [] | c :: p => S c :: p end) dl)) as N2.
          { clear - Nl Ne. induction dl as [|p dl IH]; cbn [map]; [constructor|]. inversion Nl; subst. constructor.
            - intro K. apply in_map_iff in K as [q [E K]]. destruct p as [|c p]; [exfalso; apply (Ne []); [left; auto|auto]|]. destruct q as [|c' q]; [discriminate|]. inversion E; subst. contradiction.
            - apply IH; auto. intros; apply Ne; right; auto. }
          clear - N N2. induction d as [|q d IH]; cbn [map app]; auto. inversion N; subst. constructor; auto.
          intro K. apply in_app_iff in K as [K|K]; apply in_map_iff in K as [r [E K]]; [inversion E; subst; contradiction|]. destruct r; inversion E.
        + intro p. rewrite in_app_iff, !in_map_iff. split.
          * intros [[r [<- K]]|[[|c r] [<- K]]]; [apply I; auto|exfalso; apply (Ne [] K); auto|]. apply Il in K. exact K.
          * destruct p as [|[|c] p]; [tauto| |].
            -- intro K. left. exists p. split; auto. apply I. auto.
            -- intro K. right. exists (c :: p). split; auto. apply Il. exact K.
        + rewrite app_length, !map_length, L, Ll. reflexivity. }
    exists dofs. split; [exact K1|]. split; [|exact K3]. intro p. rewrite K2. destruct p; cbn; tauto.
Qed.

(** Hence the flat basis numbers exactly 0, ..., dimension-1, and as many as its size says; it has the degrees of freedom of the given basis. *)
Theorem C128_numbers : forall b, allowed b ->
  (forall p, isDof b p <-> isDof (flatten b) p) /\ dimension (flatten b) = dimension b /\ size (flatten b) = dimension b /\
  (forall k, k < dimension b <-> exists p, isDof b p /\ index (flatten b) p = [k]) /\
  (forall p q, isDof b p -> isDof b q -> index (flatten b) p = index (flatten b) q -> p = q).
Proof.
  intros b A. split; [|split; [|split; [|split]]].
  - clear A. revert b. apply (preBasis_nested (fun b => forall p, isDof b p <-> isDof (flatten b) p)).
    + reflexivity.
    + intros s k b IH [|c p]; cbn [isDof flatten]; [tauto|]. rewrite (IH p). tauto.
    + intros s l F [|c p]; cbn [isDof flatten]; [tauto|]. revert c. induction F as [|b l H F IH]; intro c; cbn [map]; [destruct c; tauto|]. destruct c; [apply H|apply IH].
  - clear A. revert b. apply (preBasis_nested (fun b => dimension (flatten b) = dimension b)); cbn [flatten dimension]; auto.
    intros s l F. induction F as [|b l H F IH]; cbn [map]; auto. rewrite !list_sum_cons, H, IH. reflexivity.
  - apply size_flatten; auto.
  - destruct (dofs_exist b) as [dofs [N [I L]]]. pose proof (C128_bijection b dofs A N I L) as P. intro k. split.
    + intro Hk. assert (In [k] (map (index (flatten b)) dofs)) as K.
      { apply (Permutation_in _ (Permutation_sym P)). apply in_map_iff. exists k. split; auto. apply in_seq. lia. }
      apply in_map_iff in K as [p [E K]]. exists p. split; [apply I; auto|auto].
    + intros [p [D E]]. destruct (proj1 (flat_index b A) p D) as [k' [E' K]]. congruence.
  - apply (flat_index b A).
Qed.

(** A basis that is flat already is left as it is. *)
Theorem C128_flat_unchanged : forall b, flatten (flatten b) = flatten b.
Proof.
  apply (preBasis_nested (fun b => flatten (flatten b) = flatten b)); cbn [flatten]; auto.
  - intros s k b ->. destruct s; reflexivity.
  - intros s l F. f_equal; [destruct s; reflexivity|]. rewrite map_map. apply map_ext_Forall. exact F.
Qed.

(** Displacements (blocked interleaved) and pressure (blocked lexicographic): displacement [c] of node [i] gets 2 i + c, pressures follow. *)
Example C128_example : let b := CompositeB BlockedLexicographic [PowerB BlockedInterleaved 2 (LeafB 4); LeafB 3] in
  allowed b /\ isDof b [0; 1; 3] /\ index b [0; 1; 3] = [0; 3; 1] /\ index (flatten b) [0; 1; 3] = [7] /\ index (flatten b) [1; 2] = [10] /\ dimension b = 11.
Proof. cbn. repeat split; auto; discriminate. Qed.
Print Assumptions C128_bijection.
Print Assumptions C128_numbers.
Print Assumptions C128_flat_unchanged.

(** ** The order of the flat numbers

    A basis whose strategies are all blocked has hierarchical indices.  The flat numbers follow their lexicographic order. *)
Fixpoint blocked (b : preBasis) : Prop :=
  match b with
  | LeafB _ => True
  | PowerB s _ sub => (s = BlockedInterleaved \/ s = BlockedLexicographic) /\ blocked sub
  | CompositeB s subs => s = BlockedLexicographic /\ (fix all l := match l with [] => True | b :: l => blocked b /\ all l end) subs
  end.

(** [a] comes before [b]: the first digits in which they differ are in this order *)
Definition before (a b : list nat) : Prop := exists p x y s t, a = p ++ x :: s /\ b = p ++ y :: t /\ x < y.

Lemma before_irrefl : forall a, ~ before a a.
Proof. intros a (p & x & y & s & t & E & E' & H). rewrite E in E'. apply app_inv_head in E'. injection E' as E' _. lia. Qed.

Lemma before_asym : forall a b, before a b -> ~ before b a.
Proof.
  intros a b (p & x & y & s & t & -> & -> & H) (q & x' & y' & s' & t' & E & E' & H').
  revert q E E'. induction p as [|d p IH]; intros [|d' q] E E'; cbn in E, E'; injection E as E1 E2; injection E' as E1' E2'; try lia.
  apply (IH q E2 E2').
Qed.

Lemma before_app : forall a b u v, before a b -> before (a ++ u) (b ++ v).
Proof.
  intros a b u v (p & x & y & s & t & -> & -> & H). exists p, x, y, (s ++ u), (t ++ v). rewrite <- !app_assoc. cbn. auto.
Qed.
Lemma before_cons : forall c a b, before a b -> before (c :: a) (c :: b).
Proof. intros c a b (p & x & y & s & t & -> & -> & H). exists (c :: p), x, y, s, t. cbn. auto. Qed.
Lemma before_last : forall a c c', c < c' -> before (a ++ [c]) (a ++ [c']).
Proof. intros a c c' H. exists a, c, c', [], []. auto. Qed.
Lemma before_first : forall a b c c', c < c' -> before (c :: a) (c' :: b).
Proof. intros a b c c' H. exists [], c, c', a, b. auto. Qed.

Lemma composite_flat : forall l m cc off c p, (fix all l := match l with [] => True | b :: l => allowed b /\ all l end) l ->
  (fix at_ l n := match l, n with [], _ => False | b :: _, O => isDof b p | _ :: l, S n => at_ l n end) l c ->
  exists b k, nth_error l c = Some b /\ allowed b /\ isDof b p /\ index (flatten b) p = [k] /\ k < dimension b /\
    (fix at_ (l : list preBasis) (n offset : nat) : list nat :=
      match l, n with
      | [], _ => []
      | b :: _, O => merge FlatLexicographic m cc offset (index b p)
      | b :: l, S n => at_ l n (offset + size b)
      end) (map flatten l) c off = [off + list_sum (map dimension (firstn c l)) + k].
Proof.
  induction l as [|b l IH]; intros m cc off c p A D; [destruct c; contradiction|]. destruct A as [Ab Al]. destruct c as [|c].
  - destruct (proj1 (flat_index b Ab) p D) as [k [Ek Hk]]. exists b, k. cbn [nth_error map firstn list_sum fold_right]. rewrite Ek. cbn [merge onFirst].
    repeat split; auto. f_equal. lia.
  - destruct (IH m cc (off + size (flatten b)) c p Al D) as (b' & k & H1 & H2 & H3 & H4 & H5 & H6). exists b', k. cbn [nth_error map firstn].
    split; [auto|]. split; [auto|]. split; [auto|]. split; [auto|]. split; [auto|].
    rewrite H6, (size_flatten b Ab), list_sum_cons. f_equal. lia.
Qed.

Lemma composite_blocked : forall l m cc off c p b, nth_error l c = Some b ->
    (fix at_ (l : list preBasis) (n offset : nat) : list nat :=
      match l, n with
      | [], _ => []
      | b :: _, O => merge BlockedLexicographic m cc offset (index b p)
      | b :: l, S n => at_ l n (offset + size b)
      end) l c off = cc :: index b p.
Proof.
  induction l as [|a l IH]; intros m cc off c p b E; [destruct c; discriminate|]. destruct c as [|c]; cbn in E.
  - injection E as ->. reflexivity.
  - apply (IH m cc (off + size a) c p b E).
Qed.

Lemma flat_before : forall b, allowed b -> blocked b -> forall p q i j, isDof b p -> isDof b q ->
  index (flatten b) p = [i] -> index (flatten b) q = [j] -> i < j -> before (index b p) (index b q).
Proof.
  apply (preBasis_nested (fun b => allowed b -> blocked b -> forall p q i j, isDof b p -> isDof b q ->
    index (flatten b) p = [i] -> index (flatten b) q = [j] -> i < j -> before (index b p) (index b q))).
  - intros n _ _ p q i j _ _ Ei Ej H. cbn in *. subst. apply before_first. exact H.
  - intros s k b IH A [Bs Bb] [|c p] [|c' q] i j Dp Dq Ei Ej H; cbn [isDof] in Dp, Dq; try contradiction. cbn [allowed] in A.
    destruct Dp as [Hc Hp], Dq as [Hc' Hq]. destruct (flat_index b A) as [B Inj]. destruct (B p Hp) as [u [Eu Hu]], (B q Hq) as [v [Ev Hv]].
    cbn [flatten index] in Ei, Ej. rewrite Eu, (size_flatten b A) in Ei. rewrite Ev, (size_flatten b A) in Ej. cbn [index].
    destruct Bs as [-> | ->]; cbn [flatStrategy merge onFirst] in Ei, Ej |- *; injection Ei as Ei; injection Ej as Ej.
    + destruct (Nat.lt_trichotomy u v) as [L|[L|L]].
      * apply before_app. apply (IH A Bb p q u v); auto.
      * subst v. assert (p = q) by (apply Inj; auto; congruence). subst q. apply before_last. lia.
      * exfalso. nia.
    + destruct (Nat.lt_trichotomy c c') as [L|[L|L]].
      * apply before_first. exact L.
      * subst c'. apply before_cons. apply (IH A Bb p q u v); auto. lia.
      * exfalso. nia.
  - intros s l F [_ [_ A]] [-> Bl] [|c p] [|c' q] i j Dp Dq Ei Ej H; cbn [isDof] in Dp, Dq; try contradiction.
    cbn [flatten index flatStrategy] in Ei, Ej. rewrite map_length in Ei, Ej.
    destruct (composite_flat l (length l) c 0 c p A Dp) as (b & u & N & Ab & Db & Eu & Hu & E1).
    destruct (composite_flat l (length l) c' 0 c' q A Dq) as (b' & v & N' & Ab' & Db' & Ev & Hv & E2).
    rewrite E1 in Ei. rewrite E2 in Ej. injection Ei as Ei. injection Ej as Ej.
    cbn [index]. rewrite (composite_blocked l _ c 0 c p b N), (composite_blocked l _ c' 0 c' q b' N').
    assert (Mono : forall c c' b, nth_error l c = Some b -> c < c' -> list_sum (map dimension (firstn c l)) + dimension b <= list_sum (map dimension (firstn c' l))).
    { clear. induction l as [|a l IH]; intros c c' b N Lt; [destruct c; discriminate|]. destruct c as [|c], c' as [|c']; try lia.
      - cbn in N. inversion N; subst. cbn. lia.
      - cbn in N. cbn [firstn map]. rewrite !list_sum_cons. specialize (IH c c' b N ltac:(lia)). lia. }
    destruct (Nat.lt_trichotomy c c') as [L|[L|L]].
    + apply before_first. exact L.
    + subst c'. rewrite N in N'. injection N' as <-. apply before_cons.
      assert (Bb : blocked b). { clear - Bl N. revert c N Bl. induction l as [|a l IH]; intros [|c] N Bl; cbn in N; try discriminate; destruct Bl as [B1 B2]; [congruence|eauto]. }
      rewrite Forall_forall in F. apply (F b (nth_error_In _ _ N) Ab Bb p q u v); auto. lia.
    + exfalso. specialize (Mono _ _ _ N' L). lia.
Qed.

Theorem C128_order : forall b, allowed b -> blocked b -> forall p q i j, isDof b p -> isDof b q ->
  index (flatten b) p = [i] -> index (flatten b) q = [j] -> (i < j <-> before (index b p) (index b q)).
Proof.
  intros b A B p q i j Dp Dq Ei Ej. split; [apply flat_before; auto|]. intro L.
  destruct (Nat.lt_trichotomy i j) as [H|[H|H]]; [exact H|exfalso|exfalso].
  - subst j. assert (p = q) by (apply (proj2 (flat_index b A)); auto; congruence). subst q. exact (before_irrefl _ L).
  - apply (before_asym _ _ L). apply (flat_before b A B q p j i); auto.
Qed.
Print Assumptions C128_order.

(** three nodes with two interleaved displacements each, and a pressure *)
Example C128_order_applies : let b := CompositeB BlockedLexicographic [PowerB BlockedInterleaved 2 (LeafB 3); LeafB 2] in
  allowed b /\ blocked b /\ isDof b [0; 1; 0] /\ isDof b [0; 0; 1] /\ index (flatten b) [0; 1; 0] = [1] /\ index (flatten b) [0; 0; 1] = [2] /\
  index b [0; 1; 0] = [0; 0; 1] /\ index b [0; 0; 1] = [0; 1; 0].
Proof. cbn. repeat split; auto; try lia; discriminate. Qed.

(** A basis with flat strategies only stays the same. *)
Fixpoint flat (b : preBasis) : Prop :=
  match b with
  | LeafB _ => True
  | PowerB s _ sub => (s = FlatInterleaved \/ s = FlatLexicographic) /\ flat sub
  | CompositeB s subs => (s = FlatInterleaved \/ s = FlatLexicographic) /\ (fix all l := match l with [] => True | b :: l => flat b /\ all l end) subs
  end.
Theorem C128_flat_same : forall b, flat b -> flatten b = b.
Proof.
  apply (preBasis_nested (fun b => flat b -> flatten b = b)); cbn [flatten flat]; auto.
  - intros s k b IH [Hs Hb]. rewrite (IH Hb). destruct Hs as [-> | ->]; reflexivity.
  - intros s l F [Hs Hl]. f_equal; [destruct Hs as [-> | ->]; reflexivity|]. clear Hs. induction F as [|b l H F IH]; cbn [map]; auto. destruct Hl as [H1 H2]. rewrite H, IH; auto.
Qed.
Print Assumptions C128_flat_same.
