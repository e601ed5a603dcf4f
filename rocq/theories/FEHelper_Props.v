(** Properties C57 and C84: global indices and local solutions of elements. *)

From Coq Require Import List Arith Bool Lia Permutation.
From Verif Require Import FEHelper_Model.
Import ListNotations.

(** All local indices of a tree, in depth-first order *)
Fixpoint allIndices (t : tree) : list nat :=
  match t with Leaf l => l | Power cs => flat_map allIndices cs | Composite cs => flat_map allIndices cs end.

(** Bases whose power nodes have children of the same kind with the same number of shape functions *)
Inductive regular : tree -> Prop :=
| regular_leaf l : regular (Leaf l)
| regular_power_leaves n ls : (forall l, In l ls -> length l = n) -> regular (Power (map Leaf ls))
| regular_power cs : (forall c, In c cs -> regular c /\ forall l, c <> Leaf l) -> regular (Power cs)
| regular_composite cs : (forall c, In c cs -> regular c) -> regular (Composite cs).

Section TreeInduction.
  Variable P : tree -> Prop.
  Hypothesis Hleaf : forall l, P (Leaf l).
  Hypothesis Hpower : forall cs, (forall c, In c cs -> P c) -> P (Power cs).
  Hypothesis Hcomposite : forall cs, (forall c, In c cs -> P c) -> P (Composite cs).
  Fixpoint tree_induction (t : tree) : P t :=
    match t with
    | Leaf l => Hleaf l
    | Power cs => Hpower cs ((fix go l : forall c, In c l -> P c := match l with
        | [] => fun c (H : In c []) => match H with end
        | x :: l => fun c H => match H with or_introl E => eq_ind x P (tree_induction x) c E | or_intror H => go l c H end end) cs)
    | Composite cs => Hcomposite cs ((fix go l : forall c, In c l -> P c := match l with
        | [] => fun c (H : In c []) => match H with end
        | x :: l => fun c H => match H with or_introl E => eq_ind x P (tree_induction x) c E | or_intror H => go l c H end end) cs)
    end.
End TreeInduction.

Lemma flat_map_permutation {A B} (f g : A -> list B) l : (forall a, In a l -> Permutation (f a) (g a)) -> Permutation (flat_map f l) (flat_map g l).
Proof.
  induction l as [|a l IH]; intros H; cbn; [constructor|]. apply Permutation_app; [apply H; now left|]. apply IH. intros. apply H. now right.
Qed.

Lemma flat_map_map {A B C} (f : B -> C) (g : A -> list B) l : flat_map (fun a => map f (g a)) l = map f (flat_map g l).
Proof. induction l as [|a l IH]; cbn; [reflexivity|]. now rewrite map_app, IH. Qed.

Lemma flat_map_app {A B} (f : A -> list B) l m : flat_map f (l ++ m) = flat_map f l ++ flat_map f m.
Proof. induction l; cbn; [reflexivity|]. now rewrite IHl, app_assoc. Qed.

Lemma flat_map_cons {A B} (f : A -> B) (g : A -> list B) l : Permutation (flat_map (fun a => f a :: g a) l) (map f l ++ flat_map g l).
Proof.
  induction l as [|a l IH]; cbn; [constructor|]. apply perm_skip. rewrite IH, !app_assoc. apply Permutation_app_tail, Permutation_app_comm.
Qed.

(** Reading a table by rows or by columns *)
Lemma interleave_permutation (ls : list (list nat)) n : (forall l, In l ls -> length l = n) ->
  Permutation (flat_map (fun i => map (fun l => nth i l 0) ls) (seq 0 n)) (concat ls).
Proof.
  induction ls as [|l ls IH]; intros H.
  - cbn. induction (seq 0 n); cbn; [constructor|assumption].
  - cbn [concat map]. rewrite <- (IH ltac:(intros; apply H; now right)).
    assert (L : l = map (fun i => nth i l 0) (seq 0 n)).
    { rewrite <- (H l (or_introl eq_refl)). clear. induction l as [|a l IH]; cbn; [reflexivity|]. f_equal. rewrite <- seq_shift, map_map. exact IH. }
    transitivity (map (fun i => nth i l 0) (seq 0 n) ++ flat_map (fun i => map (fun l => nth i l 0) ls) (seq 0 n)); [|now rewrite <- L].
    apply flat_map_cons.
Qed.

(** C84: the global indices of an element are those of all its local indices, each one as often as it occurs *)
Theorem C84_global_indices : forall G (index : nat -> G) t, regular t -> Permutation (globalIndices index t) (map index (allIndices t)).
Proof.
  intros G index t. induction t as [l|cs IH|cs IH] using tree_induction; intros R.
  - reflexivity.
  - cbn [allIndices]. inversion R as [|n ls H|cs' H|]; subst.
    + destruct ls as [|l ls]; [constructor|]. cbn [globalIndices map isLeaf]. unfold powerNodeIndices. cbn [leafIndices].
      assert (E : length l = n) by (apply H; now left). rewrite E.
      change (Leaf l :: map Leaf ls) with (map Leaf (l :: ls)).
      erewrite flat_map_ext with (g := fun i => map index (map (fun l => nth i l 0) (l :: ls))).
      * rewrite flat_map_map. apply Permutation_map.
        rewrite (interleave_permutation (l :: ls) n H). clear. induction (l :: ls) as [|a m IH]; cbn; [constructor|]. now apply Permutation_app_head.
      * intros i. rewrite map_map, map_map. reflexivity.
    + destruct cs as [|c cs]; [constructor|]. cbn [globalIndices].
      destruct (H c (or_introl eq_refl)) as [_ F]. replace (isLeaf c) with false by (destruct c; [destruct (F localIndex eq_refl)| |]; reflexivity). rewrite <- flat_map_map.
      apply flat_map_permutation. intros a Ha. apply IH; [assumption|]. now apply H.
  - cbn [globalIndices allIndices]. rewrite <- flat_map_map. apply flat_map_permutation. intros a Ha. apply IH; [assumption|].
    inversion R; subst. auto.
Qed.
Print Assumptions C84_global_indices.

(** Displacements of a triangle and a constant pressure *)
Definition displacementPressure : tree := Composite [Power [Leaf [0; 1; 2]; Leaf [3; 4; 5]]; Leaf [6]].
Example C84_applies : regular displacementPressure /\ globalIndices (fun i => i) displacementPressure = [0; 3; 1; 4; 2; 5; 6].
Proof.
  split; [|reflexivity]. constructor. intros c [<-|[<-|[]]]; [|constructor].
  change (regular (Power (map Leaf [[0; 1; 2]; [3; 4; 5]]))). apply regular_power_leaves with (n := 3). intros l [<-|[<-|[]]]; reflexivity.
Qed.

(** C57: the entry of the increment that belongs to a position of the vector of global indices *)
Definition incremented {V} (add : V -> V -> V) (x dx : list V) (indices : list nat) (position : nat) : option V :=
  match nth_error indices position with
  | Some g => match nth_error x g, nth_error dx position with Some v, Some w => Some (add w v) | _, _ => None end
  | None => None
  end.

Lemma interleaved_position {A} (f : nat -> list A) d n i j : (forall i, length (f i) = d) -> i < n -> j < d ->
  nth_error (flat_map f (seq 0 n)) (i * d + j) = nth_error (f i) j.
Proof.
  intros L. enough (H : forall m s, s + m = n + s -> forall i, i < m -> j < d -> nth_error (flat_map f (seq s m)) (i * d + j) = nth_error (f (s + i)) j).
  { intros Hi Hj. apply (H n 0); [lia|assumption|assumption]. }
  clear i. intros m. induction m as [|m IH]; intros s E i Hi Hj; [lia|]. cbn [seq flat_map].
  destruct i as [|i].
  - rewrite nth_error_app1 by (rewrite L; lia). now rewrite Nat.add_0_r.
  - rewrite nth_error_app2 by (rewrite L; nia). rewrite L. replace (S i * d + j - d) with (i * d + j) by nia.
    clear E. enough (G : nth_error (flat_map f (seq (S s) m)) (i * d + j) = nth_error (f (S s + i)) j) by (rewrite G; f_equal; f_equal; lia).
    clear IH. revert s i Hi. induction m as [|m IH]; intros s i Hi; [lia|]. cbn [seq flat_map]. destruct i as [|i].
    + rewrite nth_error_app1 by (rewrite L; lia). now rewrite Nat.add_0_r.
    + rewrite nth_error_app2 by (rewrite L; nia). rewrite L. replace (S i * d + j - d) with (i * d + j) by nia.
      rewrite IH by lia. f_equal. f_equal. lia.
Qed.

(** C57: for bases that are powers of a scalar basis, position node * dimension + direction is meant *)
Theorem C57_power_partial : forall V (add : V -> V -> V) (index : nat -> nat) x dx ls n i j,
  (forall l, In l ls -> length l = n) -> i < n -> j < length ls ->
  localSolution add index x (map Leaf ls) (Some dx) i j = incremented add x dx (globalIndices index (Power (map Leaf ls))) (i * length ls + j) /\
  localSolution add index x (map Leaf ls) None i j = nth_error x (index (nth i (nth j ls []) 0)).
Proof.
  intros V add index x dx ls n i j H Hi Hj. split.
  - unfold incremented. destruct ls as [|l ls]; [cbn in Hj; lia|].
    change (globalIndices index (Power (map Leaf (l :: ls)))) with (powerNodeIndices index (map Leaf (l :: ls))).
    assert (E : powerNodeIndices index (map Leaf (l :: ls)) = flat_map (fun i => map (fun l => index (nth i l 0)) (l :: ls)) (seq 0 n)).
    { unfold powerNodeIndices. cbn [map leafIndices]. rewrite (H l (or_introl eq_refl)). apply flat_map_ext. intros k. now rewrite map_map. }
    rewrite E, interleaved_position; [|intros; now rewrite map_length|assumption|assumption].
    rewrite (nth_error_nth' _ (index (nth i [] 0))) by now rewrite map_length.
    rewrite (map_nth (fun l => index (nth i l 0)) (l :: ls) []).
    unfold localSolution, entry. rewrite map_length, (map_nth Leaf (l :: ls) []). cbn [leafIndices]. reflexivity.
  - unfold localSolution, entry. rewrite (map_nth Leaf ls []). cbn [leafIndices]. destruct nth_error; reflexivity.
Qed.
Print Assumptions C57_power_partial.

(** The first element of a mesh with four nodes in two directions, global numbering by nodes *)
Example C57_applies :
  localSolution Nat.add (fun l => nth l [0; 2; 6; 1; 3; 7] 0) [10; 11; 12; 13; 14; 15; 16; 17] (map Leaf [[0; 1; 2]; [3; 4; 5]]) (Some [0; 100; 200; 300; 400; 500]) 2 1 = Some 517.
Proof. reflexivity. Qed.

(** C57, full claim: the same for every node of every tree. False for scalar and composite bases: the increment is accessed with the
    global index. The increment of another degree of freedom is used, or an entry outside of the increment. *)
Theorem C57_scalar_refuted :
  (exists (index : nat -> nat) l x dx i, i < length l /\ length dx = length l /\
    incremented Nat.add x dx (globalIndices index (Leaf l)) i <> None /\
    localSolutionScalar Nat.add index x l (Some dx) i = None) /\
  (exists (index : nat -> nat) l x dx i, i < length l /\ length dx = length l /\
    incremented Nat.add x dx (globalIndices index (Leaf l)) i <> None /\
    localSolutionScalar Nat.add index x l (Some dx) i <> None /\
    localSolutionScalar Nat.add index x l (Some dx) i <> incremented Nat.add x dx (globalIndices index (Leaf l)) i).
Proof.
  split.
  - exists (fun i => 5 + i), [0; 1], [0; 0; 0; 0; 0; 0; 0], [0; 0], 0. repeat split; try (cbn; lia); try discriminate.
  - exists (fun i => 1 - i), [0; 1], [0; 0], [7; 8], 0. repeat split; try (cbn; lia); discriminate.
Qed.
Print Assumptions C57_scalar_refuted.

(** For the displacements of a composite basis; the position in the vector of global indices is that of C57_power_partial, since the
    displacements come first *)
Theorem C57_composite_refuted : exists (index : nat -> nat) x dx i j,
  i < 3 /\ j < 2 /\ length dx = length (allIndices displacementPressure) /\
  incremented Nat.add x dx (globalIndices index displacementPressure) (i * 2 + j) <> None /\
  localSolutionComposite Nat.add index x [Leaf [0; 1; 2]; Leaf [3; 4; 5]] (Some dx) i j = None.
Proof.
  exists (fun i => 7 + i), (repeat 0 14), (repeat 0 7), 0, 0. repeat split; try (cbn; lia). discriminate.
Qed.
Print Assumptions C57_composite_refuted.

(** C57: without increment, and for numberings whose global indices of the element are its positions, they agree *)
Theorem C57_scalar_partial : forall V (add : V -> V -> V) (index : nat -> nat) x dx l i, i < length l ->
  localSolutionScalar add index x l None i = nth_error x (index (nth i l 0)) /\
  (index (nth i l 0) = i -> localSolutionScalar add index x l (Some dx) i = incremented add x dx (globalIndices index (Leaf l)) i).
Proof.
  intros V add index x dx l i Hi. split.
  - unfold localSolutionScalar, entry. destruct nth_error; reflexivity.
  - intros E. unfold localSolutionScalar, entry, incremented. cbn [globalIndices]. unfold leafNodeIndices.
    rewrite (nth_error_nth' _ (index 0)) by now rewrite map_length. rewrite map_nth, E. reflexivity.
Qed.
Print Assumptions C57_scalar_partial.

Theorem C57_composite_partial : forall V (add : V -> V -> V) (index : nat -> nat) x ls i j, j < length ls ->
  localSolutionComposite add index x (map Leaf ls) None i j = nth_error x (index (nth i (nth j ls []) 0)).
Proof.
  intros V add index x ls i j Hj. unfold localSolutionComposite, entry. rewrite (map_nth Leaf ls []). cbn [leafIndices]. destruct nth_error; reflexivity.
Qed.
Print Assumptions C57_composite_partial.
