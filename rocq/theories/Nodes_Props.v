(** Property C127: nodes and indices found by position. *)

From Coq Require Import List Reals Bool Arith Lia Lra.
From Verif Require Import Nodes_Model.
Import ListNotations.
Local Open Scope R_scope.

(** The nodes of a Lagrange element, and the contract of its interpolation: the coefficients are the values at the nodes. *)
Definition lagrange {I} (e : element I) (nodes : list point) : Prop :=
  length nodes = el_size e /\ (forall f, el_interpolate e f = map f nodes) /\ Forall (fun x => length x = el_dim e) nodes.

(** Coordinates differ by at most the tolerance *)
Definition near (a b : point) : Prop := length a = length b /\ forall i, (i < length a)%nat -> Rabs (nth i a 0 - nth i b 0) <= 1 / 10 ^ 8.

Lemma tol_value : 1 / 10 ^ 8 = tol.
Proof. unfold tol. lra. Qed.

Lemma eqAbs_near : forall a b, eqAbs tol a b = true <-> near a b.
Proof.
  induction a as [|x a IH]; intros [|y b]; cbn [eqAbs]; unfold near; cbn [length]; try (split; intro H; [discriminate|destruct H as [H _]; discriminate]).
  - split; auto. intros _. split; auto. intros i Hi. lia.
  - rewrite andb_true_iff, IH. unfold near, within. split.
    + rewrite tol_value. intros [H1 [H2 H3]]. split; [lia|]. intros [|i] Hi; cbn [nth]; [destruct (Rle_dec (Rabs (x - y)) tol); [auto|discriminate]|apply H3; lia].
    + rewrite tol_value. intros [H1 H2]. split; [|split].
      * specialize (H2 0%nat ltac:(lia)). cbn in H2. destruct (Rle_dec (Rabs (x - y)) tol); [auto|contradiction].
      * lia.
      * intros i Hi. apply (H2 (S i)). lia.
Qed.

Lemma list_of_nth : forall (l : list R), map (fun i => nth i l 0) (seq 0 (length l)) = l.
Proof.
  intro l. apply nth_ext with 0 0; rewrite map_length, seq_length; auto. intros n Hn.
  rewrite (nth_indep (map _ _) 0 (nth 0 l 0)) by (rewrite map_length, seq_length; auto).
  rewrite (map_nth (fun i => nth i l 0) (seq 0 (length l)) 0%nat n), seq_nth by auto. reflexivity.
Qed.

Lemma nodeCoords_nodes {I} (e : element I) nodes : lagrange e nodes -> nodeCoords (el_dim e) (el_interpolate e) (el_size e) = nodes.
Proof.
  intros [L [H F]]. unfold nodeCoords. rewrite <- L. apply nth_ext with [] []; rewrite map_length, seq_length; auto.
  intros n Hn. rewrite (nth_indep _ [] (map (fun i => nth 0 (el_interpolate e (fun x => nth i x 0)) 0) (seq 0 (el_dim e)))) by (rewrite map_length, seq_length; auto).
  rewrite (map_nth (fun j => map (fun i => nth j (el_interpolate e (fun x => nth i x 0)) 0) (seq 0 (el_dim e))) (seq 0 (length nodes)) 0%nat n), seq_nth by auto. cbn [plus].
  rewrite Forall_forall in F. rewrite <- (F (nth n nodes [])) by (apply nth_In; auto).
  rewrite <- (list_of_nth (nth n nodes [])) at 2. apply map_ext. intro i. rewrite H.
  rewrite (nth_indep _ 0 ((fun x => nth i x 0) [])) by (rewrite map_length; auto). rewrite (map_nth (fun x => nth i x 0)). reflexivity.
Qed.

(** Every node is visited once, in order and with its number, up to and including the first for which the function asks to stop. *)
Theorem C127_visits : forall {I} (e : element I) nodes (stop : nat -> point -> bool), lagrange e nodes ->
  let visited := forEachNode (el_dim e) (el_interpolate e) (el_size e) (fun n x s => (s ++ [(n, x)], stop n x)) [] in
  exists rest, combine (seq 0 (length nodes)) nodes = visited ++ rest /\
  match rev visited with
  | [] => nodes = []
  | (n, x) :: before => (rest = [] \/ stop n x = true) /\ Forall (fun ny => stop (fst ny) (snd ny) = false) before
  end.
Proof.
  intros I e nodes stop L visited. subst visited. unfold forEachNode. rewrite (nodeCoords_nodes e nodes L). clear L.
  assert (forall nodes n acc, Forall (fun ny => stop (fst ny) (snd ny) = false) acc -> nodes <> [] ->
    exists l1 nx l2, forEachFrom (fun n x s => (s ++ [(n, x)], stop n x)) n nodes acc = acc ++ l1 ++ [nx] /\
      combine (seq n (length nodes)) nodes = l1 ++ nx :: l2 /\ (l2 = [] \/ stop (fst nx) (snd nx) = true) /\
      Forall (fun ny => stop (fst ny) (snd ny) = false) (acc ++ l1)) as H.
  { clear nodes. induction nodes as [|x nodes IH]; intros n acc Fa Ne; [contradiction|]. cbn [forEachFrom length seq combine].
    destruct (stop n x) eqn:E.
    - exists [], (n, x), (combine (seq (S n) (length nodes)) nodes). rewrite app_nil_r. cbn. auto.
    - destruct nodes as [|y nodes].
      + exists [], (n, x), []. rewrite app_nil_r. cbn. auto.
      + destruct (IH (S n) (acc ++ [(n, x)])) as [l1 [nx [l2 [H1 [H2 [H3 H4]]]]]]; [apply Forall_app; auto|discriminate|].
        exists ((n, x) :: l1), nx, l2. rewrite H1, H2. rewrite <- !app_assoc in *. cbn [app] in *. auto. }
  destruct nodes as [|x nodes]; [exists []; cbn; auto|].
  destruct (H (x :: nodes) 0%nat []) as [l1 [nx [l2 [H1 [H2 [H3 H4]]]]]]; [constructor|discriminate|].
  exists l2. rewrite H1, H2. cbn [app] in *. rewrite <- app_assoc. split; [reflexivity|]. rewrite rev_app_distr. cbn [rev app].
  destruct nx as [n y]. split; [exact H3|]. apply Forall_rev. exact H4.
Qed.

(** The positions of all nodes are appended in order. *)
Theorem C127_positions : forall {I} (e : element I) nodes coords, lagrange e nodes -> globalNodePositions e coords = coords ++ map (el_global e) nodes.
Proof.
  intros I e nodes coords L. unfold globalNodePositions, forEachNode. rewrite (nodeCoords_nodes e nodes L). clear L. generalize 0%nat. revert coords.
  induction nodes as [|x nodes IH]; intros coords n; cbn [forEachFrom map]; [rewrite app_nil_r; reflexivity|]. rewrite IH, <- app_assoc. reflexivity.
Qed.

(** The search by position: it fails outside the grid; otherwise the first node of the found element within the tolerance gives the indices, and
    it fails exactly if there is none. *)
Theorem C127_search : forall {I} k (e : element I) nodes pos, lagrange e nodes ->
  globalIndex k (@None (element I)) pos = NotInGrid /\
  (forall l, globalIndex k (Some e) pos = Found l <->
     exists n, (n < length nodes)%nat /\ near (el_global e (nth n nodes [])) pos /\ (forall m, (m < n)%nat -> ~ near (el_global e (nth m nodes [])) pos) /\
               l = map (el_index e n) (seq 0 k)) /\
  (globalIndex k (Some e) pos = NoNode <-> forall n, (n < length nodes)%nat -> ~ near (el_global e (nth n nodes [])) pos).
Proof.
  intros I k e nodes pos L. split; [reflexivity|]. unfold globalIndex, forEachNode. rewrite (nodeCoords_nodes e nodes L). clear L.
  assert (forall nodes n0, let r := forEachFrom (fun n x s => if eqAbs tol (el_global e x) pos then (Some (map (el_index e n) (seq 0 k)), true) else (s, false)) n0 nodes None in
    (exists n, (n < length nodes)%nat /\ near (el_global e (nth n nodes [])) pos /\ (forall m, (m < n)%nat -> ~ near (el_global e (nth m nodes [])) pos) /\
       r = Some (map (el_index e (n0 + n)%nat) (seq 0 k))) \/
    ((forall n, (n < length nodes)%nat -> ~ near (el_global e (nth n nodes [])) pos) /\ r = None)) as H.
  { clear nodes. induction nodes as [|x nodes IH]; intro n0; cbn [forEachFrom].
    - right. split; auto. cbn. intros; lia.
    - destruct (eqAbs tol (el_global e x) pos) eqn:E.
      + left. exists 0%nat. apply eqAbs_near in E. rewrite Nat.add_0_r. cbn. repeat split; auto; try lia; try apply E; intros; lia.
      + assert (~ near (el_global e x) pos) as Nx by (intro K; apply eqAbs_near in K; congruence).
        destruct (IH (S n0)) as [[n [H1 [H2 [H3 H4]]]]|[H1 H2]].
        * left. exists (S n). cbn [length nth]. split; [lia|]. split; [exact H2|]. split; [intros [|m] Hm; cbn [nth]; [exact Nx|apply H3; lia]|].
          cbv zeta in H4. rewrite H4. do 3 f_equal. lia.
        * right. split; [|exact H2]. intros [|n] Hn; cbn [nth length] in *; [exact Nx|apply H1; lia]. }
  specialize (H nodes 0%nat). cbv zeta in H. cbn [plus] in H. destruct H as [[n [H1 [H2 [H3 H4]]]]|[H1 H2]].
  - rewrite H4. split.
    + intro l. split.
      * intro E. inversion E; subst. exists n. auto.
      * intros [n' [K1 [K2 [K3 K4]]]]. subst l. do 2 f_equal. assert (n = n') as ->; [|reflexivity].
        destruct (Nat.lt_trichotomy n n') as [Q|[Q|Q]]; auto; exfalso; [exact (K3 _ Q H2)|exact (H3 _ Q K2)].
    + split; [discriminate|]. intro K. exfalso. exact (K n H1 H2).
  - rewrite H2. split.
    + intro l. split; [discriminate|]. intros [n [K1 [K2 _]]]. exfalso. exact (H1 n K1 K2).
    + tauto.
Qed.

(** Asked for the position of a node, the search returns the indices of that node in every element that can be found, provided that the nodes of the
    element are further apart than the tolerance. *)
Theorem C127_node_partial : forall {I} k (e : element I) nodes n, lagrange e nodes -> (n < length nodes)%nat ->
  (forall m, (m < length nodes)%nat -> m <> n -> ~ near (el_global e (nth m nodes [])) (el_global e (nth n nodes []))) ->
  globalIndex k (Some e) (el_global e (nth n nodes [])) = Found (map (el_index e n) (seq 0 k)).
Proof.
  intros I k e nodes n L Hn Apart. apply (C127_search k e nodes _ L). exists n. split; auto. split; [|split; auto].
  - split; auto. intros i Hi. rewrite Rminus_diag_eq by reflexivity. rewrite Rabs_R0. unfold tol. lra.
  - intros m Hm. apply Apart; lia.
Qed.

(** The unit interval scaled to length [h], two nodes with indices 10 and 20 *)
Definition interval (h : R) : element nat := mkElement 1 (fun f => [f [0]; f [1]]) 2 (fun x => map (Rmult h) x) (fun n _ => (10 * (n + 1))%nat).
Lemma interval_lagrange h : lagrange (interval h) [[0]; [1]].
Proof. repeat split; auto. Qed.

Example C127_example : globalIndex 1 (Some (interval 2)) [2] = Found [20%nat] /\ globalIndex 1 (Some (interval 2)) [1] = NoNode.
Proof.
  split.
  - pose proof (C127_node_partial 1 (interval 2) [[0]; [1]] 1 (interval_lagrange 2)) as H. cbn [nth interval el_global map] in H. rewrite Rmult_1_r in H.
    apply H; [cbn; lia|]. intros m Hm Ne [_ K]. assert (m = 0%nat) by (cbn in Hm; lia). subst. specialize (K 0%nat ltac:(cbn; lia)). cbn in K.
    unfold tol in K. revert K. unfold Rabs. destruct (Rcase_abs _); lra.
  - apply (C127_search 1 (interval 2) _ [1] (interval_lagrange 2)). intros n Hn [_ K]. specialize (K 0%nat). revert K. unfold tol.
    destruct n as [|[|n]]; cbn in *; [| |lia]; intro K; specialize (K ltac:(lia)); revert K; unfold Rabs; destruct (Rcase_abs _); lra.
Qed.

(** The tolerance is absolute: in an element smaller than 1e-8 the position of the second node gives the indices of the first. *)
Theorem C127_small_refuted : exists (e : element nat) nodes n, lagrange e nodes /\ (n < length nodes)%nat /\
  (forall m, (m < length nodes)%nat -> m <> n -> el_global e (nth m nodes []) <> el_global e (nth n nodes [])) /\
  globalIndex 1 (Some e) (el_global e (nth n nodes [])) = Found [el_index e 0 0] /\ el_index e 0 0 <> el_index e n 0.
Proof.
  exists (interval (1 / 1000000000)), [[0]; [1]], 1%nat. split; [apply interval_lagrange|]. split; [cbn; lia|]. split; [|split].
  - intros [|[|m]] Hm Ne; cbn in *; try lia. intro K. inversion K. lra.
  - apply (C127_search 1 _ _ _ (interval_lagrange _)). exists 0%nat. split; [cbn; lia|]. split; [|split; [intros; lia|reflexivity]].
    split; [reflexivity|]. intros [|i] Hi; cbn in *; [|lia]. unfold tol, Rabs. destruct (Rcase_abs _); lra.
  - cbn. lia.
Qed.
Print Assumptions C127_visits.
Print Assumptions C127_positions.
Print Assumptions C127_search.
Print Assumptions C127_node_partial.
Print Assumptions C127_small_refuted.
