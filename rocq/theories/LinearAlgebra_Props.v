(** C39, C40, C68, C69: linear algebra helpers. *)

From Coq Require Import List Arith Reals Lra Lia Bool Sorting.Permutation Sorting.Sorted.
From Verif Require Import Tensor_Model Tensor_Spec LinearAlgebra_Model LinearAlgebra_Spec LinearAlgebra_Proofs Utils_Props.
Import ListNotations.
Local Open Scope R_scope.

(** C39: for every matrix with columns; the columns of the result are orthonormal if those of the argument are linearly
    independent, and each leading group of columns spans the same space. *)
Theorem C39_orthonormal : forall (m : nat) (A : list (nat -> R)), A <> [] -> independent m A ->
  exists Q, orthonormalizeMatrixColumns m A = Some Q /\ length Q = length A /\
  (forall i j q q', nth_error Q i = Some q -> nth_error Q j = Some q' -> sumTo m (fun k => q k * q' k) = if (i =? j)%nat then 1 else 0) /\
  (forall k v, inSpan m (firstn k A) v <-> inSpan m (firstn k Q) v).
Proof.
  intros m A N I. destruct (orthonormalize_inv m A N) as (Q & E & L & O & SP & U). exists Q. split; auto. split; auto.
  split; auto.
  assert (D : forall n v w, sumTo n (fun k => v k * w k) = dotTo n v w).
  { induction n; intros; simpl; auto. now rewrite IHn. }
  intros i j q q' Hi Hj. rewrite D. fold (dot m q q'). destruct (Nat.eqb_spec i j) as [->|NE].
  - assert (q' = q) by congruence. subst q'.
    destruct (nth_error A j) as [a|] eqn:Ea.
    + destruct (U j a q Ea Hi) as [H|H]; auto. exfalso. eapply independent_not_in_span; eauto.
    + exfalso. apply nth_error_None in Ea. assert ((j < length Q)%nat) by (apply nth_error_Some; congruence). unfold column in *. lia.
  - destruct O as [O _].
    assert (G : forall (Q : list (nat -> R)) i j q q', ForallOrdPairs (fun q q' => dot m q q' = 0) Q -> (i < j)%nat ->
      nth_error Q i = Some q -> nth_error Q j = Some q' -> dot m q q' = 0).
    { clear. induction Q as [|x Q IH]; intros i j q q' F L Hi Hj; [destruct i; discriminate|].
      inversion F; subst. destruct j as [|j]; [lia|]. destruct i as [|i]; simpl in *.
      - injection Hi as <-. rewrite Forall_forall in H1. apply H1. eapply nth_error_In; eauto.
      - eapply IH with (i := i) (j := j); eauto. lia. }
    destruct (le_lt_dec i j); [eapply G with (i := i) (j := j); eauto; lia|].
    rewrite dot_comm. eapply G with (i := j) (j := i); eauto.
Qed.
Print Assumptions C39_orthonormal.

Example C39_example : independent 2 [fun i => if (i =? 0)%nat then 3 else 4; fun i => if (i =? 0)%nat then 1 else 0].
Proof.
  intros c H k Hk. assert (H0 := H 0%nat ltac:(lia)). assert (H1 := H 1%nat ltac:(lia)). simpl in *.
  destruct k as [|[|k]]; [lra|lra|lia].
Qed.

(** Without linear independence: orthogonal columns, each of length one or zero, same spans *)
Theorem C39_dependent : forall (m : nat) (A : list (nat -> R)), A <> [] ->
  exists Q, orthonormalizeMatrixColumns m A = Some Q /\ length Q = length A /\
  ForallOrdPairs (fun q q' => sumTo m (fun k => q k * q' k) = 0) Q /\
  Forall (fun q => sumTo m (fun k => q k * q k) = 1 \/ veq m q (fun _ => 0)) Q /\
  (forall k v, inSpan m (firstn k A) v <-> inSpan m (firstn k Q) v).
Proof.
  intros m A N. destruct (orthonormalize_inv m A N) as (Q & E & L & [O F] & SP & U). exists Q. split; auto. split; auto.
  assert (D : forall n v w, sumTo n (fun k => v k * w k) = dotTo n v w).
  { induction n; intros; simpl; auto. now rewrite IHn. }
  split; [|split; auto].
  - clear - O D. induction O; constructor; auto. eapply Forall_impl; [|eassumption]. simpl. intros. now rewrite D.
  - eapply Forall_impl; [|exact F]. simpl. intros. now rewrite D.
Qed.
Print Assumptions C39_dependent.

(** The inverse of the condensed block *)
Definition blockInverse (E : rmat) (indices : list nat) (inv : rmat) : Prop :=
  forall a c, (a < length indices)%nat -> (c < length indices)%nat ->
  sumTo (length indices) (fun b => inv a b * E (nth b indices 0%nat) (nth c indices 0%nat)) = if (a =? c)%nat then 1 else 0.

(** C40: for increasing indices, the condensed matrix applied to the retained unknowns gives the retained rows of E x for
    every x that makes the condensed rows vanish. *)
Theorem C40_condensation_partial : forall n E indices inv x,
  StronglySorted lt indices -> (forall i, In i indices -> (i < n)%nat) -> Tensor_Spec.symmetric n E ->
  blockInverse E indices inv ->
  (forall i, In i indices -> row n E x i = 0) ->
  exists rem K, staticCondensation n E indices inv = Some (length rem, K) /\
  StronglySorted lt rem /\ (forall i, In i rem <-> (i < n)%nat /\ ~ In i indices) /\
  forall i, (i < length rem)%nat -> row (length rem) K (fun j => x (nth j rem 0%nat)) i = row n E x (nth i rem 0%nat).
Proof.
  intros n E indices inv x SI B Sy Inv Z.
  destruct (condensation n E indices inv x SI B Sy) as (rem & K & ER & EK & H); auto.
  { intros a c Ha Hc. rewrite <- sumTo_seq. now apply Inv. }
  destruct (remaining_ok n indices SI B) as (rem' & ER' & _ & SR & IR & _). rewrite ER in ER'. injection ER' as <-.
  exists rem, K. repeat split; auto; try (now apply IR). intros i Hi. unfold row at 1. rewrite sumTo_seq. now apply H.
Qed.
Print Assumptions C40_condensation_partial.

Definition exampleMatrix : rmat := entries [[2; 1; 0]; [1; 4; 2]; [0; 2; 5]].
Example C40_example : Tensor_Spec.symmetric 3 exampleMatrix /\ blockInverse exampleMatrix [1%nat] (fun _ _ => / 4) /\
  (forall i, In i [1%nat] -> row 3 exampleMatrix (fun k => if (k =? 0)%nat then 2 else if (k =? 1)%nat then - 3 / 2 else 2) i = 0).
Proof.
  split; [|split].
  - intros i j Hi Hj. destruct i as [|[|[|i]]]; [| | |lia]; destruct j as [|[|[|j]]]; try lia; reflexivity.
  - intros a c Ha Hc. simpl in *. destruct a; [|lia]. destruct c; [|lia]. cbn. field.
  - intros i [<-|[]]. unfold row. cbn. field.
Qed.

(** Unsorted indices: more remaining indices are written than the array holds. *)
Theorem C40_unsorted_refuted : exists (n : nat) (indices : list nat), NoDup indices /\ (forall i, In i indices -> (i < n)%nat) /\
  forall E inv, staticCondensation n E indices inv = None.
Proof.
  exists 5%nat, [4%nat; 2%nat]. split; [repeat constructor; simpl; intuition lia|]. split; [simpl; intuition lia|].
  intros E inv. reflexivity.
Qed.
Print Assumptions C40_unsorted_refuted.

(** The transposed block is used instead of the other off-diagonal one: symmetry is needed. *)
Theorem C40_nonsymmetric_refuted : exists (E : rmat) x K, blockInverse E [1%nat] (fun _ _ => 1) /\ row 2 E x 1 = 0 /\
  staticCondensation 2 E [1%nat] (fun _ _ => 1) = Some (1%nat, K) /\ row 1 K (fun _ => x 0%nat) 0 <> row 2 E x 0.
Proof.
  exists (entries [[1; 2]; [1; 1]]), (fun k => if (k =? 0)%nat then 1 else -1). eexists.
  split; [intros a c Ha Hc; simpl in *; destruct a; [|lia]; destruct c; [|lia]; cbn; ring|].
  split; [unfold row; cbn; ring|]. split; [reflexivity|]. unfold row. cbn. lra.
Qed.
Print Assumptions C40_nonsymmetric_refuted.

(** C69: the retained block of the inverse is the inverse of the condensed matrix. *)
Theorem C69_inverse : forall n E D indices inv,
  StronglySorted lt indices -> (forall i, In i indices -> (i < n)%nat) -> Tensor_Spec.symmetric n E ->
  blockInverse E indices inv ->
  (forall i j, (i < n)%nat -> (j < n)%nat -> sumTo n (fun k => E i k * D k j) = if (i =? j)%nat then 1 else 0) ->
  exists r K Dred, staticCondensation n E indices inv = Some (r, K) /\ reduceMatrix n D indices = Some (r, Dred) /\
  forall i j, (i < r)%nat -> (j < r)%nat -> sumTo r (fun k => K i k * Dred k j) = if (i =? j)%nat then 1 else 0.
Proof.
  intros n E D indices inv SI B Sy Inv ED.
  destruct (remaining_ok n indices SI B) as (rem & ER & LR & SR & IR & P).
  assert (EK : exists K, staticCondensation n E indices inv = Some (length rem, K)).
  { unfold staticCondensation. rewrite ER. eauto. }
  destruct EK as [K EK]. exists (length rem), K. unfold reduceMatrix. rewrite ER. eexists. split; [exact EK|].
  split; [reflexivity|]. intros i j Hi Hj.
  assert (Lj : (nth j rem 0 < n)%nat /\ ~ In (nth j rem 0%nat) indices) by (apply IR; now apply nth_In).
  assert (Li : (nth i rem 0 < n)%nat) by (apply IR; now apply nth_In).
  destruct (condensation n E indices inv (fun k => D k (nth j rem 0%nat)) SI B Sy) as (rem' & K' & ER' & EK' & H).
  - intros a c Ha Hc. rewrite <- sumTo_seq. now apply Inv.
  - intros a Ha. unfold row. rewrite ED by (auto; apply Lj). destruct (Nat.eqb_spec a (nth j rem 0%nat)); auto.
    subst. tauto.
  - rewrite ER in ER'. injection ER' as <-. rewrite EK in EK'. injection EK' as <-.
    rewrite sumTo_seq. rewrite (H i Hi). unfold row. rewrite ED by (auto; apply Lj).
    assert (ND := sorted_NoDup _ SR). destruct (Nat.eqb_spec i j) as [->|NE]; [now rewrite Nat.eqb_refl|].
    destruct (Nat.eqb_spec (nth i rem 0%nat) (nth j rem 0%nat)) as [EQ|]; auto.
    exfalso. apply NE. eapply NoDup_nth; eauto.
Qed.
Print Assumptions C69_inverse.

(** C68: fixed and free Voigt indices of a list of components. *)
Definition sortContract (sort : list nat -> list nat) : Prop :=
  (forall l, Permutation l (sort l)) /\ forall l, Sorted le (sort l).

Example C68_sort_exists : sortContract insertionSort.
Proof.
  destruct C58_sort_exists as [P S]. split; auto. intros l. specialize (S l). clear - S.
  induction S as [|x l' H IH Hd]; constructor; auto. destruct Hd; constructor. destruct H0 as [->|H0]; auto.
  apply Nat.ltb_lt in H0. lia.
Qed.

Lemma voigtIndices_In fixed ks : voigtIndices fixed = Some ks ->
  (forall p, In p fixed -> (fst p < 3 /\ snd p < 3)%nat) -> forall k, In k ks -> (k < 6)%nat.
Proof.
  revert ks. induction fixed as [|[i j] fixed IH]; simpl; intros ks E H k.
  - injection E as <-. intros [].
  - destruct (toVoigtIndex 3 i j) as [a|] eqn:Ea; [|discriminate]. destruct (voigtIndices fixed) as [l|]; [|discriminate].
    injection E as <-. intros [<-|Hk].
    + destruct (H (i, j) (or_introl eq_refl)) as [H1 H2]. simpl in *. clear - Ea H1 H2.
      destruct i as [|[|[|i]]]; try lia; destruct j as [|[|[|j]]]; try lia; cbn in Ea; injection Ea as <-; lia.
    + eapply IH; eauto.
Qed.

Lemma sorted_strict l : Sorted le l -> NoDup l -> StronglySorted lt l.
Proof.
  intros S N. apply Sorted_StronglySorted in S; [|intros a b c; lia].
  induction S as [|x l S IH F]; constructor.
  - apply IH. now inversion N.
  - inversion N; subst. rewrite Forall_forall in *. intros y Hy. specialize (F y Hy).
    destruct (Nat.eq_dec x y); [subst; tauto|lia].
Qed.

Theorem C68_indices : forall sort fixed ks, sortContract sort ->
  (forall p, In p fixed -> (fst p < 3 /\ snd p < 3)%nat) -> voigtIndices fixed = Some ks -> NoDup ks ->
  exists fx fr, createFixedVoigtIndices sort fixed = Some fx /\ createfreeVoigtIndices sort fixed = Some fr /\
  StronglySorted lt fx /\ StronglySorted lt fr /\ Permutation ks fx /\
  (forall k, In k fr <-> (k < 6)%nat /\ ~ In k ks) /\ Permutation (seq 0 6) (fr ++ fx).
Proof.
  intros sort fixed ks [P S] H E N. unfold createFixedVoigtIndices, createfreeVoigtIndices. rewrite E.
  assert (SS : StronglySorted lt (sort ks)).
  { apply sorted_strict; auto. eapply Permutation_NoDup; eauto. }
  assert (B : forall i, In i (sort ks) -> (i < 6)%nat).
  { intros i Hi. eapply voigtIndices_In; eauto. eapply Permutation_in; [symmetry; apply P|exact Hi]. }
  destruct (remaining_ok 6 (sort ks) SS B) as (rem & ER & LR & SR & IR & PR). rewrite ER.
  do 2 eexists. split; [reflexivity|]. split; [reflexivity|]. split; auto. split.
  { apply sorted_strict; auto. eapply Permutation_NoDup; [apply P|]. now apply sorted_NoDup. }
  split; auto. split.
  - intros k. split.
    + intros Hk. assert (K : In k rem) by (eapply Permutation_in; [symmetry; apply P|exact Hk]). apply IR in K.
      split; [tauto|]. intros HK. apply K. eapply Permutation_in; [apply P|exact HK].
    + intros [Hk Nk]. eapply Permutation_in; [apply P|]. apply IR. split; auto. intros HK. apply Nk.
      eapply Permutation_in; [symmetry; apply P|exact HK].
  - rewrite PR. apply Permutation_app_tail. apply P.
Qed.
Print Assumptions C68_indices.

(** Plane stress *)
Example C68_example : voigtIndices [(2, 1); (2, 0); (2, 2)]%nat = Some [3; 4; 2]%nat /\
  createFixedVoigtIndices insertionSort [(2, 1); (2, 0); (2, 2)]%nat = Some [2; 3; 4]%nat /\
  createfreeVoigtIndices insertionSort [(2, 1); (2, 0); (2, 2)]%nat = Some [0; 1; 5]%nat.
Proof. repeat split. Qed.

(** Removing the fixed components and enlarging again restores the free components and puts zero at the fixed ones;
    enlarging and removing restores everything. *)
Lemma enlargeFrom_out free : forall ri v res k, ~ In k free -> enlargeFrom free ri v res k = res k.
Proof.
  induction free as [|i free IH]; intros ri v res k H; simpl; auto. rewrite IH by (intros K; apply H; now right).
  destruct (Nat.eqb_spec k i); auto. subst. exfalso. apply H. now left.
Qed.
Lemma enlargeFrom_in free : NoDup free -> forall ri v res j, (j < length free)%nat ->
  enlargeFrom free ri v res (nth j free 0%nat) = v (ri + j)%nat.
Proof.
  induction 1 as [|i free N ND IH]; intros ri v res j Hj; simpl in *; [lia|]. destruct j as [|j].
  - rewrite enlargeFrom_out by auto. rewrite Nat.eqb_refl. f_equal. lia.
  - rewrite IH by lia. f_equal. lia.
Qed.

Theorem C68_enlarge_vector : forall fixed free v,
  StronglySorted lt fixed -> (forall i, In i fixed -> (i < 6)%nat) -> remainingIndices 6 fixed = Some free ->
  (forall w, removeCol 6 v fixed = Some (length free, w) ->
     forall k, (k < 6)%nat -> enlargeVector free w k = if in_dec Nat.eq_dec k fixed then 0 else v k) /\
  (exists w, removeCol 6 (enlargeVector free v) fixed = Some (length free, w) /\ forall j, (j < length free)%nat -> w j = v j).
Proof.
  intros fixed free v S B E. destruct (remaining_ok 6 fixed S B) as (rem & ER & LR & SR & IR & PR).
  rewrite E in ER. injection ER as <-. assert (ND := sorted_NoDup _ SR). unfold removeCol. rewrite E. split.
  - intros w Ew k Hk. injection Ew as <-. unfold enlargeVector. destruct (in_dec Nat.eq_dec k fixed) as [I|I].
    + rewrite enlargeFrom_out; auto. intros K. apply IR in K. tauto.
    + assert (K : In k free) by (apply IR; tauto). destruct (In_nth free k 0%nat K) as (j & Hj & <-).
      now rewrite enlargeFrom_in.
  - eexists. split; [reflexivity|]. intros j Hj. cbv beta. unfold enlargeVector. now rewrite enlargeFrom_in.
Qed.
Print Assumptions C68_enlarge_vector.

Lemma enlargeRow_out free : forall i ri rj E res a b, a <> i \/ ~ In b free -> enlargeRowFrom free i ri rj E res a b = res a b.
Proof.
  induction free as [|j free IH]; intros i ri rj E res a b H; simpl; auto.
  rewrite IH by (simpl in H; tauto). destruct (Nat.eqb_spec a i); destruct (Nat.eqb_spec b j); simpl; auto.
  subst. simpl in H. tauto.
Qed.
Lemma enlargeRow_in free : NoDup free -> forall i ri rj E res k, (k < length free)%nat ->
  enlargeRowFrom free i ri rj E res i (nth k free 0%nat) = E ri (rj + k)%nat.
Proof.
  induction 1 as [|j free N ND IH]; intros i ri rj E res k Hk; simpl in *; [lia|]. destruct k as [|k].
  - rewrite enlargeRow_out by auto. rewrite !Nat.eqb_refl. simpl. f_equal. lia.
  - rewrite IH by lia. f_equal. lia.
Qed.
Lemma enlargeMat_out all free : forall ri E res a b, ~ In a free \/ ~ In b all -> enlargeMatFrom all free ri E res a b = res a b.
Proof.
  induction free as [|i free IH]; intros ri E res a b H; simpl; auto. simpl in H. rewrite IH by tauto.
  apply enlargeRow_out. destruct (Nat.eq_dec a i); [subst; tauto|auto].
Qed.
Lemma enlargeMat_in all free : NoDup all -> NoDup free -> forall ri E res k l, (k < length free)%nat -> (l < length all)%nat ->
  enlargeMatFrom all free ri E res (nth k free 0%nat) (nth l all 0%nat) = E (ri + k)%nat l.
Proof.
  intros NA. induction 1 as [|i free N ND IH]; intros ri E res k l Hk Hl; simpl in *; [lia|]. destruct k as [|k].
  - rewrite enlargeMat_out by auto. rewrite enlargeRow_in by auto. f_equal. lia.
  - rewrite IH by lia. f_equal. lia.
Qed.

Theorem C68_enlarge_matrix : forall fixed free E,
  StronglySorted lt fixed -> (forall i, In i fixed -> (i < 6)%nat) -> remainingIndices 6 fixed = Some free ->
  (forall w, reduceMatrix 6 E fixed = Some (length free, w) -> forall a b, (a < 6)%nat -> (b < 6)%nat ->
     enlargeMatrix free w a b = if in_dec Nat.eq_dec a fixed then 0 else if in_dec Nat.eq_dec b fixed then 0 else E a b) /\
  (exists w, reduceMatrix 6 (enlargeMatrix free E) fixed = Some (length free, w) /\
     forall i j, (i < length free)%nat -> (j < length free)%nat -> w i j = E i j).
Proof.
  intros fixed free E S B H. destruct (remaining_ok 6 fixed S B) as (rem & ER & LR & SR & IR & PR).
  rewrite H in ER. injection ER as <-. assert (ND := sorted_NoDup _ SR). unfold reduceMatrix. rewrite H. split.
  - intros w Ew a b Ha Hb. injection Ew as <-. unfold enlargeMatrix.
    destruct (in_dec Nat.eq_dec a fixed) as [I|I].
    { rewrite enlargeMat_out; auto. left. intros K. apply IR in K. tauto. }
    destruct (in_dec Nat.eq_dec b fixed) as [J|J].
    { rewrite enlargeMat_out; auto. right. intros K. apply IR in K. tauto. }
    assert (Ka : In a free) by (apply IR; tauto). destruct (In_nth free a 0%nat Ka) as (k & Hk & <-).
    assert (Kb : In b free) by (apply IR; tauto). destruct (In_nth free b 0%nat Kb) as (l & Hl & <-).
    now rewrite enlargeMat_in.
  - eexists. split; [reflexivity|]. intros i j Hi Hj. cbv beta. unfold enlargeMatrix. now rewrite enlargeMat_in.
Qed.
Print Assumptions C68_enlarge_matrix.

Example C68_enlarge_example : remainingIndices 6 [2; 3; 4]%nat = Some [0; 1; 5]%nat.
Proof. reflexivity. Qed.
