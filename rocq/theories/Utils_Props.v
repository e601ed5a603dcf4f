(** C41, C58, C59: helpers. *)

From Coq Require Import List ZArith Bool Arith Lia Sorting.Sorted Sorting.Permutation Floats.
From Verif Require Import Utils_Model Utils_Proofs.
Import ListNotations.

(** C41: the integer square root, without overflow, for every type with at least 7 value bits. *)
Theorem C41_ct_sqrt : forall tmax x : Z, (127 <= tmax)%Z -> (0 <= x <= tmax)%Z ->
  exists r, (forall fuel, (Z.to_nat (x / 2 + 1) < fuel)%nat -> ct_sqrt tmax fuel x = Some r) /\
            (0 <= r)%Z /\ (r * r <= x < (r + 1) * (r + 1))%Z.
Proof. exact ct_sqrt_ok. Qed.
Print Assumptions C41_ct_sqrt.

Example C41_example : ct_sqrt 127 100 49 = Some 7%Z /\ ct_sqrt 127 100 48 = Some 6%Z /\ ct_sqrt 127 100 127 = Some 11%Z.
Proof. vm_compute. auto. Qed.

(** C58 *)
Theorem C58_unique_sort : forall (A : Type) (ltb eqb : A -> A -> bool) (sort : list A -> list A),
  (forall a b, eqb a b = true <-> a = b) ->
  (forall a b c, ltb a b = true -> ltb b c = true -> ltb a c = true) ->
  (forall l, Permutation l (sort l)) ->
  (forall l, Sorted (fun a b => a = b \/ ltb a b = true) (sort l)) ->
  forall r, let res := makeUniqueAndSort eqb sort r in
  StronglySorted (fun a b => ltb a b = true) res /\ forall x, In x res <-> In x r.
Proof.
  intros A ltb eqb sort E T P S r. unfold makeUniqueAndSort. simpl.
  assert (PI : forall x, In x (sort r) <-> In x r).
  { intros x. split; apply Permutation_in; [symmetry|]; apply P. }
  specialize (S r). destruct (sort r) as [|y l]; simpl.
  - split; [constructor|]. intros x. rewrite <- PI. reflexivity.
  - destruct (uniqueFrom_ok ltb eqb E T l y S) as [Q W]. split; auto. intros x. rewrite <- PI. apply W.
Qed.
Print Assumptions C58_unique_sort.

Fixpoint insert (x : nat) (l : list nat) : list nat :=
  match l with [] => [x] | y :: l' => if y <? x then y :: insert x l' else x :: l end.
Definition insertionSort (l : list nat) : list nat := fold_right insert [] l.

Example C58_sort_exists : (forall l, Permutation l (insertionSort l)) /\
  (forall l, Sorted (fun a b => a = b \/ (a <? b) = true) (insertionSort l)).
Proof.
  assert (I : forall x l, Permutation (x :: l) (insert x l)).
  { intros x l. induction l as [|y l IH]; simpl; auto. destruct (y <? x); auto.
    rewrite perm_swap. now constructor. }
  split.
  - induction l as [|x l IH]; simpl; auto. rewrite <- I. now constructor.
  - assert (Q : forall x l, Sorted (fun a b => a = b \/ (a <? b) = true) l ->
      Sorted (fun a b => a = b \/ (a <? b) = true) (insert x l)).
    { intros x l. induction 1 as [|y l H IH Hd]; simpl; auto.
      destruct (Nat.ltb_spec y x) as [L|L].
      - constructor; auto. destruct l as [|z l]; simpl; [constructor; right; apply Nat.ltb_lt; auto|].
        destruct (z <? x); constructor; [now inversion Hd|right; apply Nat.ltb_lt; auto].
      - constructor; [constructor; auto|]. constructor.
        destruct (Nat.eq_dec x y); auto. right. apply Nat.ltb_lt. lia. }
    induction l; simpl; auto.
Qed.

Example C58_example : makeUniqueAndSort Nat.eqb insertionSort [3; 1; 3; 2; 1] = [1; 2; 3].
Proof. reflexivity. Qed.

Theorem C58_append : forall (A : Type) (eqb : A -> A -> bool), (forall a b, eqb a b = true <-> a = b) ->
  forall (r : list A) (v : A), let (r', index) := appendUnique eqb r v in
  nth_error r' index = Some v /\
  (In v r -> r' = r) /\ (~ In v r -> r' = r ++ [v]) /\ (NoDup r -> NoDup r').
Proof.
  intros A eqb E r v. unfold appendUnique.
  destruct (Nat.eqb_spec (find eqb r v) (length r)) as [L|L].
  - assert (N : ~ In v r) by (eapply find_In; eauto). rewrite L. repeat split; try tauto.
    + now rewrite nth_error_app2, Nat.sub_diag.
    + intros D. apply NoDup_rev in D. rewrite <- (rev_involutive (r ++ [v])). apply NoDup_rev.
      rewrite rev_app_distr. simpl. constructor; auto. now rewrite <- in_rev.
  - assert (I : ~ ~ In v r). { intros N. apply L. now apply (find_In eqb E). }
    assert (D : In v r \/ ~ In v r).
    { destruct (le_lt_dec (length r) (find eqb r v)) as [G|G].
      - exfalso. assert (K := find_le eqb r v). lia.
      - left. clear - E G. induction r as [|x r IH]; simpl in *; [lia|]. destruct (eqb x v) eqn:F.
        + left. now apply E.
        + right. apply IH. lia. }
    destruct D as [D|D]; [|tauto]. destruct (find_nth eqb E r v D) as [P _]. repeat split; tauto.
Qed.
Print Assumptions C58_append.

Example C58_append_example : appendUnique Nat.eqb [3; 1] 1 = ([3; 1], 1) /\ appendUnique Nat.eqb [3; 1] 2 = ([3; 1; 2], 2).
Proof. split; reflexivity. Qed.

(** C59: on totally ordered residuals the result is the first window with the least residual.  The windows have
    segmentSize + 1 points, and there must be more points than segmentSize. *)
Theorem C59_straightest_partial : forall (T P : Type) (ltb : T -> T -> bool) (polyfit : list T -> list T -> P * T),
  (forall a, ltb a a = false) -> (forall a b c, ltb a b = true -> ltb b c = true -> ltb a c = true) ->
  (forall a b c, ltb a c = true -> ltb a b = true \/ ltb b c = true) ->
  forall (x y : list T) (m : nat), m < length x -> length x <= length y ->
  let fit i := polyfit (firstn (S m) (skipn i x)) (firstn (S m) (skipn i y)) in
  exists index, findLineSegment ltb polyfit x y (Z.of_nat m) = Some (fst (fit index), index, index + m) /\
    index + m < length x /\
    (forall i, i + m < length x -> ltb (snd (fit i)) (snd (fit index)) = false) /\
    (forall i, i < index -> ltb (snd (fit index)) (snd (fit i)) = true).
Proof.
  intros T P ltb polyfit H1 H2 H3 x y m Lx Ly fit. unfold findLineSegment.
  destruct (Z.ltb_spec (Z.of_nat (length x)) (Z.of_nat m)); [lia|].
  destruct (Z.ltb_spec (Z.of_nat m) 0); [lia|]. simpl. rewrite Nat2Z.id.
  destruct (fits_from_ok polyfit x y m (length x - m) 0) as (r & E & L & K); try lia. rewrite E.
  destruct (min_element_ok ltb H1 H2 H3 (map snd r)) as (b & A1 & A2 & A3).
  { destruct r; simpl in *; [lia|discriminate]. }
  set (index := min_element ltb (map snd r)) in *.
  assert (Li : index < length x - m).
  { rewrite <- L, <- (map_length snd). apply nth_error_Some. congruence. }
  assert (EB : snd (fit index) = b).
  { rewrite (map_nth_error snd index r (K index Li)) in A1. injection A1 as <-. reflexivity. }
  exists index. rewrite (K index Li). split.
  { unfold fit. simpl. destruct (polyfit _ _) eqn:F. reflexivity. }
  split; [lia|]. rewrite EB. split.
  - intros i Hi. apply (A2 i). assert (Lt : i < length x - m) by lia.
    rewrite (map_nth_error snd i r (K i Lt)). reflexivity.
  - intros i Hi. apply (A3 i); auto. assert (Lt : i < length x - m) by lia.
    rewrite (map_nth_error snd i r (K i Lt)). reflexivity.
Qed.
Print Assumptions C59_straightest_partial.

(** A stand-in for the fit: the residual is the spread of the three values *)
Definition spread (l : list nat) : nat := match l with [a; b; c] => (Nat.max (Nat.max a b) c) - (Nat.min (Nat.min a b) c) | _ => 0 end.
Example C59_example : findLineSegment Nat.ltb (fun _ y => (tt, spread y)) [1; 2; 3; 4; 5; 6] [1; 9; 2; 3; 2; 9] 2 = Some (tt, 2, 4).
Proof. reflexivity. Qed.

(** The window has one point more than asked for. *)
Theorem C59_window_size_refuted : exists x y first last,
  findLineSegment Nat.ltb (fun _ y => (tt, spread y)) x y 2 = Some (tt, first, last) /\ last + 1 - first = 3.
Proof. exists [1; 2; 3; 4; 5; 6], [1; 9; 2; 3; 2; 9], 2, 4. split; reflexivity. Qed.
Print Assumptions C59_window_size_refuted.

(** A window as long as the series: the list of lines is empty and its first element is read.  Longer and negative windows are not
    answered either. *)
Theorem C59_whole_series_refuted : forall (T P : Type) (ltb : T -> T -> bool) (polyfit : list T -> list T -> P * T) x y m,
  (Z.of_nat (length x) <= m \/ m < 0)%Z -> findLineSegment ltb polyfit x y m = None.
Proof.
  intros T P ltb polyfit x y m H. unfold findLineSegment. destruct (Z.ltb_spec (Z.of_nat (length x)) m); [reflexivity|].
  destruct (Z.ltb_spec m 0); [reflexivity|]. replace m with (Z.of_nat (length x)) by lia. simpl. now rewrite Nat2Z.id, Nat.sub_diag.
Qed.
Print Assumptions C59_whole_series_refuted.

(** The line through two points meets them exactly: the residual is the norm of y - y, which is not a number when a
    value is infinite, as log10(0) is. *)
Definition interpolate (x y : list float) : unit * float :=
  (tt, match y with
       | [a; b] => PrimFloat.sqrt (PrimFloat.add (PrimFloat.mul (a - a) (a - a)) (PrimFloat.mul (b - b) (b - b)))
       | _ => 0
       end)%float.

(** A residual that is not a number in the first window hides every other window. *)
Theorem C59_nan_refuted : exists x y,
  findLineSegment PrimFloat.ltb interpolate x y 1 = Some (tt, 0, 1) /\
  PrimFloat.is_nan (snd (interpolate (firstn 2 x) (firstn 2 y))) = true /\
  PrimFloat.eqb (snd (interpolate (firstn 2 (skipn 1 x)) (firstn 2 (skipn 1 y)))) 0 = true.
Proof.
  exists [1%float; 2%float; 3%float], [PrimFloat.neg_infinity; 1%float; 2%float].
  split; [vm_compute; reflexivity|]. split; vm_compute; reflexivity.
Qed.
Print Assumptions C59_nan_refuted.
