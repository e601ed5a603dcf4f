(** Property C147: assembled forces and matrices derive from the assembled energy. *)

From Coq Require Import List Arith Bool Reals Lia Lra.
From Coquelicot Require Import Coquelicot.
From Verif Require Import FEHelper_Model FEHelper_Props Assembler_Model Assembler_Spec Assembler_Proofs Assembler_Props.
From Verif Require Import Tensor_Spec Conversions_Props Element_Spec Element_Model Element_Proofs Element_Props Truss_Model Truss_Props TrussSkill_Props AssemblyMesh_Model.
Import ListNotations.
Local Open Scope R_scope.

(** ** Specification *)

(** An element whose power basis has as many shape functions in every direction and whose indices are dofs of the structure; at the
    displacements U of its dofs the forces and the matrix of its skills are those of their energy *)
Definition goodAt (n : nat) (U : nat -> R) (e : meshElement) : Prop :=
  (exists m ls, me_children e = map Leaf ls /\ ls <> [] /\ forall l, In l ls -> length l = m) /\
  (forall i, In i (me_dofs e) -> (i < n)%nat) /\
  exists D : (nat -> R) -> Prop,
    consistentSkill (length (me_dofs e)) D (me_skill e) /\
    (forall u v, (forall k, (k < length (me_dofs e))%nat -> u k = v k) -> D u -> D v) /\
    D (fun k => U (nth k (me_dofs e) 0%nat)).

(** The entries of what the assembler answers *)
Definition vectorEntries (r : option (response (V := R))) (i : nat) : R :=
  match r with Some (OVector v) => nth i v 0 | _ => 0 end.
Definition matrixEntries (r : option (response (V := R))) (i j : nat) : R :=
  match r with
  | Some (ODense M) => match dget M i j with Some x => x | None => 0 end
  | Some (OSparse M) => match sget 0 M i j with Some x => x | None => 0 end
  | _ => 0
  end.
Definition scalarEntry (r : option (response (V := R))) : R := match r with Some (OScalar x) => x | _ => 0 end.

(** The displacements U + createFullVector(w) *)
Definition moveFree (flags : list bool) (U w : nat -> R) (i : nat) : R :=
  U i + match createFullVector 0 flags (map w (seq 0 (reducedSize flags))) with Some v => nth i v 0 | None => 0 end.

(** ** Localisation *)
Lemma power_dofs (index : nat -> nat) ls m : ls <> [] -> (forall l, In l ls -> length l = m) ->
  globalIndices index (Power (map Leaf ls)) = flat_map (fun i => map (fun l => index (nth i l 0%nat)) ls) (seq 0 m).
Proof.
  intros N H. destruct ls as [|l ls]; [contradiction|].
  change (globalIndices index (Power (map Leaf (l :: ls)))) with (powerNodeIndices index (map Leaf (l :: ls))).
  unfold powerNodeIndices. cbn [map leafIndices]. rewrite (H l (or_introl eq_refl)). apply flat_map_ext. intros i.
  cbn [map leafIndices]. f_equal. rewrite map_map. reflexivity.
Qed.

Lemma flat_map_const_length {A B} (f : A -> list B) d l : (forall a, length (f a) = d) -> length (flat_map f l) = (length l * d)%nat.
Proof. intros H. induction l as [|a l IH]; cbn; [reflexivity|]. rewrite app_length, H, IH. reflexivity. Qed.

Lemma flat_map_nth {A B} (f : A -> list B) d (l : list A) i j a0 b0 : (forall a, length (f a) = d) -> (i < length l)%nat -> (j < d)%nat ->
  nth (i * d + j) (flat_map f l) b0 = nth j (f (nth i l a0)) b0.
Proof.
  intros H. revert i. induction l as [|a l IH]; intros i Hi Hj; [cbn in Hi; lia|]. cbn [flat_map].
  destruct i as [|i].
  - rewrite app_nth1 by (rewrite H; lia). reflexivity.
  - rewrite app_nth2 by (rewrite H; lia). rewrite H. replace (S i * d + j - d)%nat with (i * d + j)%nat by lia.
    apply IH; [cbn in Hi; lia|assumption].
Qed.

Lemma localOf_dofs n e U k : (exists m ls, me_children e = map Leaf ls /\ ls <> [] /\ forall l, In l ls -> length l = m) ->
  (forall i, In i (me_dofs e) -> (i < n)%nat) -> (k < length (me_dofs e))%nat ->
  localOf n e U k = U (nth k (me_dofs e) 0%nat).
Proof.
  intros (m & ls & E & Nz & H) R Hk. unfold localOf. assert (R' := R (nth k (me_dofs e) 0%nat) (nth_In _ _ Hk)).
  unfold me_dofs in *. rewrite E in *. rewrite (power_dofs _ _ m Nz H) in *. rewrite map_length.
  set (d := length ls) in *. assert (dpos : (0 < d)%nat) by (unfold d; destruct ls; [contradiction|cbn; lia]).
  rewrite (flat_map_const_length _ d) in Hk by (intros; now rewrite map_length). rewrite seq_length in Hk.
  assert (Hi : (k / d < m)%nat) by (apply Nat.div_lt_upper_bound; lia).
  assert (Hj : (k mod d < d)%nat) by (apply Nat.mod_upper_bound; lia).
  assert (Ek : k = (k / d * d + k mod d)%nat) by (rewrite Nat.mul_comm; apply Nat.div_mod; lia).
  assert (V : nth k (flat_map (fun i => map (fun l => me_index e (nth i l 0%nat)) ls) (seq 0 m)) 0%nat =
              me_index e (nth (k / d) (nth (k mod d) ls []) 0%nat)).
  { rewrite Ek at 1. rewrite (flat_map_nth _ d _ _ _ 0%nat) by (try (intros; now rewrite map_length); rewrite ?seq_length; assumption).
    rewrite seq_nth by assumption. cbn [Nat.add].
    rewrite (nth_indep _ 0%nat (me_index e (nth (k / d) [] 0%nat))) by (rewrite map_length; assumption).
    now rewrite (map_nth (fun l => me_index e (nth (k / d) l 0%nat))). }
  rewrite V in *.
  destruct (C57_power_partial _ Rplus (me_index e) (map U (seq 0 n)) [] ls m (k / d) (k mod d) H Hi Hj) as [_ ->].
  rewrite (nth_error_nth' _ (U 0%nat)) by (rewrite map_length, seq_length; assumption).
  rewrite map_nth, seq_nth by assumption. reflexivity.
Qed.

(** ** Sums *)
Lemma fold_plus (l : list R) a : fold_left Rplus l a = a + sumP l (fun x => x).
Proof. revert a. induction l as [|x l IH]; intros a; cbn; [ring|]. rewrite IH. ring. Qed.
Lemma sumP_app {A} (l l' : list A) f : sumP (l ++ l') f = sumP l f + sumP l' f.
Proof. induction l as [|a l IH]; cbn; [ring|]. rewrite IH. ring. Qed.
Lemma sumP_flat_map {A B} (l : list A) (g : A -> list B) f : sumP (flat_map g l) f = sumP l (fun a => sumP (g a) f).
Proof. induction l as [|a l IH]; cbn; [reflexivity|]. rewrite sumP_app, IH. reflexivity. Qed.
Lemma sumP_map {A B} (l : list A) (g : A -> B) f : sumP (map g l) f = sumP l (fun a => f (g a)).
Proof. induction l as [|a l IH]; cbn; [reflexivity|]. now rewrite IH. Qed.
Lemma sumP_seq k f : sumP (seq 0 k) f = sum k f.
Proof.
  induction k as [|k IH]; [reflexivity|]. rewrite seq_S, sumP_app. cbn [sumP sum]. rewrite IH. cbn. ring.
Qed.

Lemma sum_indicator n i (v : nat -> R) : (i < n)%nat -> sum n (fun d => if (i =? d)%nat then v d else 0) = v i.
Proof.
  intros H. rewrite (sum_pick n i); [now rewrite Nat.eqb_refl|assumption|]. intros k _ N. destruct (Nat.eqb_spec i k); [lia|reflexivity].
Qed.

Section Mesh.
  Variables (n : nat) (mesh : list meshElement) (U : nat -> R).
  Hypothesis good : forall e, In e mesh -> goodAt n U e.
  Let els := toElements n mesh.

  Lemma mesh_wf : wfElements n els.
  Proof.
    intros e He. apply in_map_iff in He as (m & <- & Hm). destruct (good m Hm) as (_ & R & _).
    split; [exact R|]. split; intros q; cbn; rewrite map_length, seq_length; reflexivity.
  Qed.

  (** One element *)
  Definition dofOf (e : meshElement) (k : nat) : nat := nth k (me_dofs e) 0%nat.
  Definition forceOf (e : meshElement) (y : nat -> R) (k : nat) : R := skillVector (me_skill e) (localOf n e y) zeroVector k.
  Definition matrixOf (e : meshElement) (y : nat -> R) (k l : nat) : R := skillMatrix (me_skill e) (localOf n e y) zeroMatrix k l.

  Lemma scalar_sum y : getScalar 0 Rplus els y = sumP mesh (fun e => skillScalar (me_skill e) (localOf n e y)).
  Proof.
    rewrite C03_scalar. unfold Assembler_Spec.sum. rewrite fold_plus. unfold els, toElements. rewrite map_map, sumP_map. cbn. ring.
  Qed.

  Lemma vecEntry_sum y d : vecEntry 0 Rplus els y d =
    sumP mesh (fun e => sum (length (me_dofs e)) (fun k => if (dofOf e k =? d)%nat then forceOf e y k else 0)).
  Proof.
    unfold vecEntry, Assembler_Spec.sum. rewrite fold_plus, sumP_flat_map. unfold els, toElements. rewrite sumP_map, Rplus_0_l.
    apply sumP_ext. intros e _. unfold vecContrib. rewrite sumP_flat_map, sumP_seq. cbn [toElement dofs evec].
    apply sum_ext. intros k Hk. unfold dofOf. destruct (_ =? d)%nat; [|reflexivity]. cbn [sumP].
    rewrite (nth_indep _ 0 (forceOf e y 0%nat)) by (rewrite map_length, seq_length; assumption).
    unfold forceOf, zeroVector. rewrite (map_nth (skillVector (me_skill e) (localOf n e y) (fun _ => 0))).
    rewrite seq_nth by assumption. cbn. ring.
  Qed.

  Lemma matEntry_sum y r c : matEntry 0 Rplus els y r c =
    sumP mesh (fun e => sum (length (me_dofs e)) (fun k => sum (length (me_dofs e)) (fun l =>
      if (dofOf e k =? r)%nat && (dofOf e l =? c)%nat then matrixOf e y k l else 0))).
  Proof.
    unfold matEntry, Assembler_Spec.sum. rewrite fold_plus, sumP_flat_map. unfold els, toElements. rewrite sumP_map, Rplus_0_l.
    apply sumP_ext. intros e _. unfold matContrib. cbn [toElement dofs emat]. set (N := length (me_dofs e)).
    rewrite sumP_flat_map, sumP_seq. apply sum_ext. intros k Hk. rewrite sumP_flat_map, sumP_seq. apply sum_ext. intros l Hl.
    unfold dofOf. destruct (_ && _); [|reflexivity]. cbn [sumP].
    assert (B : (k + l * N < N * N)%nat) by nia.
    set (F := fun p => skillMatrix (me_skill e) (localOf n e y) (fun _ _ => 0) (p mod N) (p / N)).
    rewrite (nth_indep _ 0 (F 0%nat)) by (rewrite map_length, seq_length; assumption).
    rewrite (map_nth F), seq_nth by assumption. cbn [Nat.add]. unfold F, matrixOf, zeroMatrix.
    rewrite Nat.mod_add, Nat.div_add by lia. rewrite Nat.mod_small, Nat.div_small by assumption. cbn [Nat.add]. ring.
  Qed.

  (** A function of the local displacements has as gradient the scattered local gradient *)
  Lemma gradient_scatter e f g : In e mesh -> isGradient (length (me_dofs e)) f g (localOf n e U) ->
    isGradient n (fun y => f (localOf n e y)) (fun d => sum (length (me_dofs e)) (fun k => if (dofOf e k =? d)%nat then g k else 0)) U.
  Proof.
    intros He G c v P. destruct (good e He) as (B & R & _).
    apply (derive_eq _ (dot (length (me_dofs e)) g (fun k => v (dofOf e k)))).
    - apply (G (fun t => localOf n e (c t))). intros k Hk. destruct (P (dofOf e k)) as [P1 P2]; [apply R, nth_In, Hk|]. split.
      + rewrite !localOf_dofs by assumption. exact P1.
      + apply (is_derive_ext (fun t => c t (dofOf e k))); [|exact P2]. intros t. rewrite localOf_dofs by assumption. reflexivity.
    - unfold dot. transitivity (sum n (fun d => sum (length (me_dofs e)) (fun k => if (dofOf e k =? d)%nat then g k * v d else 0))).
      + rewrite sum_swap. apply sum_ext. intros k Hk. rewrite (sum_indicator n (dofOf e k) (fun d => g k * v d)); [reflexivity|].
        apply R, nth_In, Hk.
      + apply sum_ext. intros d _. rewrite <- sum_mul_r. apply sum_ext. intros k _. destruct (_ =? d)%nat; ring.
  Qed.

  Lemma consistent_here e : In e mesh -> exists D, consistentSkill (length (me_dofs e)) D (me_skill e) /\ D (localOf n e U).
  Proof.
    intros He. destruct (good e He) as (B & R & D & C & X & HD). exists D. split; [exact C|].
    apply (X (fun k => U (nth k (me_dofs e) 0%nat))); [|exact HD]. intros k Hk. rewrite localOf_dofs by assumption. reflexivity.
  Qed.

  Lemma energy_gradient : isGradient n (getScalar 0 Rplus els) (vecEntry 0 Rplus els U) U.
  Proof.
    eapply gradient_ext; [apply (gradient_sumP n mesh (fun e y => skillScalar (me_skill e) (localOf n e y))
      (fun e d => sum (length (me_dofs e)) (fun k => if (dofOf e k =? d)%nat then forceOf e U k else 0)) U)|..].
    - intros e He. apply gradient_scatter; [assumption|]. destruct (consistent_here e He) as (D & C & HD). apply C, HD.
    - intros y. symmetry. apply scalar_sum.
    - intros d _. symmetry. apply vecEntry_sum.
  Qed.

  Lemma vector_jacobian r : (r < n)%nat -> isGradient n (fun y => vecEntry 0 Rplus els y r) (matEntry 0 Rplus els U r) U.
  Proof.
    intros Hr.
    eapply gradient_ext; [apply (gradient_sumP n mesh
      (fun e y => sum (length (me_dofs e)) (fun k => if (dofOf e k =? r)%nat then forceOf e y k else 0))
      (fun e d => sum (length (me_dofs e)) (fun k => if (dofOf e k =? r)%nat
          then sum (length (me_dofs e)) (fun l => if (dofOf e l =? d)%nat then matrixOf e U k l else 0) else 0)) U)|..].
    - intros e He. destruct (consistent_here e He) as (D & C & HD).
      apply (gradient_sum n (length (me_dofs e)) (fun k y => if (dofOf e k =? r)%nat then forceOf e y k else 0)
        (fun k d => if (dofOf e k =? r)%nat then sum (length (me_dofs e)) (fun l => if (dofOf e l =? d)%nat then matrixOf e U k l else 0) else 0)).
      intros k Hk. destruct (dofOf e k =? r)%nat; [|apply gradient_const].
      apply (gradient_scatter e (fun y => skillVector (me_skill e) y zeroVector k) (matrixOf e U k)); [assumption|].
      apply C; assumption.
    - intros y. cbv beta. symmetry. apply vecEntry_sum.
    - intros c _. cbv beta. rewrite matEntry_sum. apply sumP_ext. intros e _. apply sum_ext. intros k _.
      destruct (dofOf e k =? r)%nat; cbn [andb]; [reflexivity|]. symmetry. apply sum_zero. reflexivity.
  Qed.

  Lemma matEntry_symmetric r c : matEntry 0 Rplus els U r c = matEntry 0 Rplus els U c r.
  Proof.
    rewrite !matEntry_sum. apply sumP_ext. intros e He. rewrite sum_swap. apply sum_ext. intros k Hk. apply sum_ext. intros l Hl.
    rewrite andb_comm. destruct (_ && _); [|reflexivity]. destruct (consistent_here e He) as (D & C & HD). apply C; assumption.
  Qed.
End Mesh.

(** ** The theorems *)
Section Theorems.
  Variables (flags : list bool) (mesh : list meshElement).
  Let n := length flags.
  Let els := toElements n mesh.
  Let ask (r : request) := denseRequest 0 1 Rplus flags els r.

  Lemma ask_raw_vector y : wfElements n els -> forall d, (d < n)%nat -> vectorEntries (ask (RVector Raw y)) d = vecEntry 0 Rplus els y d.
  Proof.
    intros W d Hd. destruct (C03_vector _ _ 0 Rplus flags els y W) as (v & E & L & V). unfold ask. cbn [denseRequest]. rewrite E. cbn.
    apply nth_error_nth. apply V, Hd.
  Qed.

  Lemma wf_any : (forall e, In e mesh -> (forall i, In i (me_dofs e) -> (i < n)%nat)) -> wfElements n els.
  Proof.
    intros R e He. apply in_map_iff in He as (m & <- & Hm). split; [exact (R m Hm)|]. split; intros q; cbn; rewrite map_length, seq_length; reflexivity.
  Qed.

  (** C147: all dofs *)
  Theorem C147_raw U : (forall e, In e mesh -> goodAt n U e) ->
    (exists v, ask (RVector Raw U) = Some (OVector v) /\ length v = n) /\
    (exists M, ask (RMatrix Raw U) = Some (ODense M) /\ drows M = n /\ dcols M = n) /\
    isGradient n (fun y => scalarEntry (ask (RScalar y))) (vectorEntries (ask (RVector Raw U))) U /\
    isJacobian n n (fun y => vectorEntries (ask (RVector Raw y))) (matrixEntries (ask (RMatrix Raw U))) U /\
    symmetric n (matrixEntries (ask (RMatrix Raw U))).
  Proof.
    intros G. assert (W : wfElements n els) by (apply (mesh_wf n mesh U G)).
    destruct (C03_vector _ _ 0 Rplus flags els U W) as (v & E & L & V).
    destruct (C03_matrix_dense _ _ 0 1 Rplus flags els U W) as (M & E' & R & C & V').
    assert (EM : forall r c, (r < n)%nat -> (c < n)%nat -> matrixEntries (ask (RMatrix Raw U)) r c = matEntry 0 Rplus els U r c).
    { intros r c Hr Hc. unfold ask. rewrite E'. cbn. rewrite V' by assumption. reflexivity. }
    split; [exists v; unfold ask; cbn [denseRequest]; rewrite E; split; [reflexivity|exact L]|].
    split; [exists M; unfold ask; rewrite E'; auto|]. split; [|split].
    - eapply gradient_ext; [apply (energy_gradient n mesh U G)|reflexivity|]. intros k Hk. symmetry. apply ask_raw_vector; assumption.
    - intros r Hr. eapply gradient_ext; [apply (vector_jacobian n mesh U G r Hr)|..].
      + intros y. symmetry. apply ask_raw_vector; assumption.
      + intros c Hc. symmetry. apply EM; assumption.
    - intros r c Hr Hc. rewrite !EM by assumption. apply (matEntry_symmetric n mesh U G).
  Qed.

  (** The expansion of a reduced vector *)
  Lemma moveFree_free U w i : free flags i -> moveFree flags U w i = U i + w (rank flags i).
  Proof.
    intros F. unfold moveFree.
    destruct (createFullVector_spec 0 flags (map w (seq 0 (reducedSize flags)))) as (v & E & L & K & Fr); [now rewrite map_length, seq_length|].
    rewrite E. f_equal. apply nth_error_nth. rewrite Fr by assumption. change (rk flags i) with (rank flags i).
    rewrite (nth_error_nth' _ (w 0%nat)) by (rewrite map_length, seq_length; apply rk_lt; assumption).
    rewrite map_nth, seq_nth by (apply rk_lt; assumption). reflexivity.
  Qed.
  Lemma moveFree_constrained U w i : constrained flags i -> moveFree flags U w i = U i.
  Proof.
    intros F. unfold moveFree.
    destruct (createFullVector_spec 0 flags (map w (seq 0 (reducedSize flags)))) as (v & E & L & K & Fr); [now rewrite map_length, seq_length|].
    rewrite E, (nth_error_nth v i 0 (K i F)). ring.
  Qed.

  Lemma free_or_constrained i : (i < n)%nat -> free flags i \/ constrained flags i.
  Proof.
    intros H. unfold free, constrained. destruct (nth_error flags i) as [[]|] eqn:E; auto. apply nth_error_None in E. unfold n in H. lia.
  Qed.

  (** Sums over the free dofs *)
  Lemma sum_free (a : nat -> R) (b : nat -> R) (w : nat -> R) : (forall i, free flags i -> b (rank flags i) = a i) ->
    sum n (fun i => a i * (if nth i flags true then 0 else w (rank flags i))) = sum (reducedSize flags) (fun k => b k * w k).
  Proof.
    intros H.
    transitivity (sum n (fun i => sum (reducedSize flags) (fun k => if negb (nth i flags true) && (rank flags i =? k)%nat then a i * w k else 0))).
    - apply sum_ext. intros i Hi. destruct (free_or_constrained i Hi) as [F|C].
      + rewrite (nth_error_nth flags i true F). cbn [negb andb]. rewrite (sum_indicator _ (rank flags i) (fun k => a i * w k)); [reflexivity|].
        apply rk_lt; assumption.
      + rewrite (nth_error_nth flags i true C). cbn [negb andb]. rewrite sum_zero by reflexivity. ring.
    - rewrite sum_swap. apply sum_ext. intros k Hk. destruct (rk_surj flags k Hk) as (i & F & <-). change (rk flags i) with (rank flags i) in *.
      rewrite (sum_pick n i).
      + rewrite (nth_error_nth flags i true F), Nat.eqb_refl. cbn. rewrite H by assumption. reflexivity.
      + apply nth_error_Some. unfold free in F. congruence.
      + intros j Hj N. destruct (free_or_constrained j Hj) as [F'|C].
        * destruct (Nat.eqb_spec (rank flags j) (rank flags i)) as [E|]; [|now rewrite andb_false_r].
          exfalso. assert (Li : (i < n)%nat) by (apply nth_error_Some; unfold free in F; congruence).
          destruct (Nat.lt_trichotomy i j) as [L|[L|L]]; [|congruence|].
          -- assert (rank flags i < rank flags j)%nat by (apply (C01_reduced_numbering flags); assumption). lia.
          -- assert (rank flags j < rank flags i)%nat by (apply (C01_reduced_numbering flags); assumption). lia.
        * now rewrite (nth_error_nth flags j true C).
  Qed.

  (** A gradient with respect to all dofs, restricted to the free ones *)
  Lemma gradient_free f g g' U w : isGradient n f g (moveFree flags U w) -> (forall i, free flags i -> g' (rank flags i) = g i) ->
    isGradient (reducedSize flags) (fun z => f (moveFree flags U z)) g' w.
  Proof.
    intros G H c v P.
    apply (derive_eq _ (dot n g (fun i => if nth i flags true then 0 else v (rank flags i)))).
    - apply (G (fun t => moveFree flags U (c t))). intros i Hi. destruct (free_or_constrained i Hi) as [F|C].
      + rewrite (nth_error_nth flags i true F). destruct (P (rank flags i)) as [P1 P2]; [apply rk_lt; assumption|]. split.
        * rewrite !moveFree_free by assumption. now rewrite P1.
        * apply (is_derive_ext (fun t => U i + c t (rank flags i))); [intros t; rewrite moveFree_free by assumption; reflexivity|].
          apply (derive_eq _ (0 + v (rank flags i))); [|ring]. apply @is_derive_plus; [apply @is_derive_const|exact P2].
      + rewrite (nth_error_nth flags i true C). split; [rewrite !moveFree_constrained by assumption; reflexivity|].
        apply (is_derive_ext (fun _ => U i)); [intros t; rewrite moveFree_constrained by assumption; reflexivity|]. apply @is_derive_const.
    - unfold dot. apply (sum_free g g' v H).
  Qed.

  Lemma ask_reduced_vector y i : wfElements n els -> free flags i ->
    vectorEntries (ask (RVector Reduced y)) (rank flags i) = vectorEntries (ask (RVector Raw y)) i.
  Proof.
    intros W F. destruct (C04_reduced_vector _ _ 0 Rplus flags els y W) as (raw & v & E & E' & _ & ->).
    unfold ask. cbn [denseRequest]. rewrite E, E'. cbn.
    destruct (C03_vector _ _ 0 Rplus flags els y W) as (raw' & E2 & L & _). rewrite E in E2. injection E2 as <-.
    assert (Li : (i < length flags)%nat) by (apply nth_error_Some; unfold free in F; congruence).
    assert (X : nth_error (restrict flags raw) (rank flags i) = nth_error raw i) by (apply restrict_nth; assumption).
    rewrite (nth_error_nth' raw 0) in X by (unfold size in L; lia). apply nth_error_nth, X.
  Qed.

  (** C147: the free dofs; the structure is displaced by U, the free dofs in addition by w *)
  Theorem C147_reduced U w : (forall e, In e mesh -> goodAt n (moveFree flags U w) e) ->
    (exists v, ask (RVector Reduced (moveFree flags U w)) = Some (OVector v) /\ length v = reducedSize flags) /\
    (exists M, ask (RMatrix Reduced (moveFree flags U w)) = Some (ODense M) /\ drows M = reducedSize flags /\ dcols M = reducedSize flags) /\
    isGradient (reducedSize flags) (fun z => scalarEntry (ask (RScalar (moveFree flags U z))))
      (vectorEntries (ask (RVector Reduced (moveFree flags U w)))) w /\
    isJacobian (reducedSize flags) (reducedSize flags) (fun z => vectorEntries (ask (RVector Reduced (moveFree flags U z))))
      (matrixEntries (ask (RMatrix Reduced (moveFree flags U w)))) w /\
    symmetric (reducedSize flags) (matrixEntries (ask (RMatrix Reduced (moveFree flags U w)))).
  Proof.
    intros G. set (X := moveFree flags U w) in *. assert (W : wfElements n els) by (apply (mesh_wf n mesh X G)).
    destruct (C147_raw X G) as (_ & _ & G1 & G2 & G3).
    destruct (C04_reduced_vector _ _ 0 Rplus flags els X W) as (raw & v & E & E' & E2 & Ev).
    destruct (C05_reduced_dense _ _ 0 Rplus flags els X W) as (rawM & M & Em & Em' & R & C & V).
    assert (EM : forall r c, free flags r -> free flags c ->
      matrixEntries (ask (RMatrix Reduced X)) (rank flags r) (rank flags c) = matrixEntries (ask (RMatrix Raw X)) r c).
    { intros r c Fr Fc. unfold ask. cbn [denseRequest]. rewrite Em, Em'. cbn. rewrite V by assumption. reflexivity. }
    split; [|split; [|split; [|split]]].
    - exists v. unfold ask. cbn [denseRequest]. rewrite E'. split; [reflexivity|]. subst v.
      destruct (C03_vector _ _ 0 Rplus flags els X W) as (raw' & E3 & L & _). rewrite E in E3. injection E3 as <-.
      rewrite restrict_length by exact L. now rewrite reducedSize_nFree.
    - exists M. unfold ask. cbn [denseRequest]. rewrite Em'. auto.
    - apply (gradient_free _ (vectorEntries (ask (RVector Raw X)))); [exact G1|]. intros i F. apply ask_reduced_vector; assumption.
    - intros r Hr. destruct (rk_surj flags r Hr) as (i & F & <-). change (rk flags i) with (rank flags i) in *.
      assert (Li : (i < n)%nat) by (apply nth_error_Some; unfold free in F; congruence).
      eapply gradient_ext.
      + apply (gradient_free (fun y => vectorEntries (ask (RVector Raw y)) i) _ (matrixEntries (ask (RMatrix Reduced X)) (rank flags i)) U w (G2 i Li)).
        intros j Fj. apply EM; assumption.
      + intros y. cbv beta. symmetry. apply ask_reduced_vector; assumption.
      + reflexivity.
    - intros r c Hr Hc. destruct (rk_surj flags r Hr) as (i & F & <-). destruct (rk_surj flags c Hc) as (j & F' & <-).
      change (rk flags ?i) with (rank flags i). 
      assert (Li : (i < n)%nat) by (apply nth_error_Some; unfold free in F; congruence).
      assert (Lj : (j < n)%nat) by (apply nth_error_Some; unfold free in F'; congruence).
      change (matrixEntries (ask (RMatrix Reduced X)) (rank flags i) (rank flags j) = matrixEntries (ask (RMatrix Reduced X)) (rank flags j) (rank flags i)).
      rewrite !EM by assumption. apply G3; assumption.
  Qed.

  (** C147: with constrained dofs kept.  Along motions that leave the constrained dofs at rest, the vector is the gradient of the energy and
      the matrix is the derivative of the vector *)
  Theorem C147_full U : (forall e, In e mesh -> goodAt n U e) ->
    (exists v, ask (RVector Full U) = Some (OVector v) /\ length v = n) /\
    (exists M, ask (RMatrix Full U) = Some (ODense M) /\ drows M = n /\ dcols M = n) /\
    forall c v, passes n c U v -> (forall i, constrained flags i -> v i = 0) ->
      is_derive (fun t => scalarEntry (ask (RScalar (c t)))) 0 (dot n (vectorEntries (ask (RVector Full U))) v) /\
      forall r, (r < n)%nat -> is_derive (fun t => vectorEntries (ask (RVector Full (c t))) r) 0
                                         (dot n (matrixEntries (ask (RMatrix Full U)) r) v).
  Proof.
    intros G. assert (W : wfElements n els) by (apply (mesh_wf n mesh U G)).
    destruct (C147_raw U G) as (_ & _ & G1 & G2 & G3).
    assert (EV : forall y, (forall i, constrained flags i -> vectorEntries (ask (RVector Full y)) i = 0) /\
                           (forall i, free flags i -> vectorEntries (ask (RVector Full y)) i = vectorEntries (ask (RVector Raw y)) i)).
    { intros y. destruct (C04_full_vector _ _ 0 Rplus flags els y W) as (raw & v & E & E' & L & K & F).
      unfold ask. cbn [denseRequest]. rewrite E, E'. cbn. split; intros i Hi.
      - apply nth_error_nth, K, Hi.
      - specialize (F i Hi). assert (i < length flags)%nat by (apply nth_error_Some; unfold free in Hi; congruence).
        rewrite (nth_error_nth' v 0) in F by (unfold size in L; lia). symmetry in F. rewrite (nth_error_nth raw i 0 F). reflexivity. }
    destruct (C04_full_vector _ _ 0 Rplus flags els U W) as (raw & v & E & E' & L & K & F).
    destruct (C05_full_dense _ _ 0 1 Rplus flags els U W) as (rawM & M & Em & Em' & R & C & VF & VD & VC).
    split; [exists v; unfold ask; cbn [denseRequest]; rewrite E'; split; [reflexivity|exact L]|].
    split; [exists M; unfold ask; cbn [denseRequest]; rewrite Em'; auto|].
    intros c w P Z. split.
    - apply (derive_eq _ _ _ (G1 c w P)). apply sum_ext. intros i Hi. destruct (free_or_constrained i Hi) as [Fi|Ci].
      + rewrite (proj2 (EV U) i Fi). reflexivity.
      + rewrite (Z i Ci). ring.
    - intros r Hr. destruct (free_or_constrained r Hr) as [Fr|Cr].
      + apply (is_derive_ext (fun t => vectorEntries (ask (RVector Raw (c t))) r)); [intros t; symmetry; apply EV, Fr|].
        apply (derive_eq _ _ _ (G2 r Hr c w P)). apply sum_ext. intros i Hi. destruct (free_or_constrained i Hi) as [Fi|Ci].
        * f_equal. unfold ask. cbn [denseRequest]. rewrite Em, Em'. cbn. now rewrite VF.
        * rewrite (Z i Ci). ring.
      + apply (is_derive_ext (fun _ => 0)); [intros t; symmetry; apply EV, Cr|].
        apply (derive_eq _ 0); [apply @is_derive_const|]. symmetry. apply sum_zero. intros i Hi.
        destruct (Nat.eq_dec r i) as [<-|N]; [rewrite (Z r Cr); ring|].
        unfold ask. cbn [denseRequest]. rewrite Em'. cbn. rewrite VC by auto. ring.
  Qed.

  (** C147: a sparse assembler answers the same, whatever it was asked before *)
  Theorem C147_sparse U o h s : (forall e, In e mesh -> goodAt n U e) -> (forall e, In e mesh -> NoDup (me_dofs e)) ->
    (o = Full -> forall i, constrained flags i -> exists e, In e mesh /\ In i (me_dofs e)) ->
    spRun 0 1 Rplus Rmult flags els (spInit 0) h = Some s ->
    exists M, option_map snd (spStep 0 1 Rplus Rmult flags els s (RMatrix o U)) = Some (OSparse M) /\
      forall i j, matrixEntries (Some (OSparse M)) i j = matrixEntries (ask (RMatrix o U)) i j.
  Proof.
    intros G Nd Cov H. assert (W : wfElements n els) by (apply (mesh_wf n mesh U G)).
    rewrite (C07_history_independent _ _ 0 1 Rplus Rmult flags els h s (RMatrix o U) H).
    destruct (C06_sparse_dense_agree _ _ 0 1 Rplus Rmult flags els U o W) as (s' & sm & dm & E1 & E2 & _ & _ & E5).
    - intros e He. apply in_map_iff in He as (m & <- & Hm). apply Nd, Hm.
    - intros Ho. split; [|intros; ring]. intros i Hi. destruct (Cov Ho i Hi) as (e & He & Hd). exists (toElement n e). split; [apply in_map, He|exact Hd].
    - exists sm. rewrite E1. split; [reflexivity|]. intros i j. unfold ask. rewrite E2. cbn. now rewrite E5.
  Qed.
End Theorems.
Print Assumptions C147_raw.
Print Assumptions C147_reduced.
Print Assumptions C147_full.
Print Assumptions C147_sparse.

(** Two bars from a support each to a common free node.  Dofs 0 to 3 are those of the supports *)
Definition barChildren : list tree := [Leaf [0; 1]; Leaf [2; 3]]%nat.
Definition bars : list meshElement :=
  [mkMeshElement barChildren (fun k => nth k [0; 4; 1; 5] 0)%nat (trussSkill 2 210 1 (fun _ => 0) (fun k => match k with O => 3 | _ => 4 end));
   mkMeshElement barChildren (fun k => nth k [2; 4; 3; 5] 0)%nat
     (trussSkill 2 70 2 (fun k => match k with O => 6 | _ => 0 end) (fun k => match k with O => 3 | _ => 4 end))].

Example C147_applies U e : In e bars -> goodAt 6 U e.
Proof.
  intros [<-|[<-|[]]]; (split; [exists 2%nat, [[0; 1]; [2; 3]]%nat; split; [reflexivity|split; [discriminate|intros l [<-|[<-|[]]]; reflexivity]]|]);
    (split; [cbn; intros i Hi; intuition lia|]); exists (fun _ => True);
    (split; [apply (C54_skill 2); exists 1%nat; split; [lia|cbn; lra]|split; auto]).
Qed.

(** The indices of the elements, and the displacements an element sees *)
Example C147_localised : map me_dofs bars = [[0; 1; 4; 5]; [2; 3; 4; 5]]%nat /\ reducedSize [true; true; true; true; false; false] = 2%nat.
Proof. split; reflexivity. Qed.
