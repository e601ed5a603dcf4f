(** Properties C01-C08 of the flat assemblers. *)

From Coq Require Import List Arith Bool Lia Permutation Floats.
From Verif Require Import Assembler_Model Assembler_Spec Assembler_Proofs AssemblerSparse_Proofs AssemblerHistory_Proofs.
Import ListNotations.
Local Open Scope nat_scope.

(** * C01 *)

Theorem C01_constraintsBelow : forall flags i, i < length flags ->
  constraintsBelow flags i = Some (below flags i) /\ below flags i <= i.
Proof. intros; split; [apply constraintsBelow_below; auto | apply below_le]. Qed.

Theorem C01_sizes : forall flags,
  size flags = length flags /\
  fixedDOFsize flags = nConstrained flags /\
  reducedSize flags = nFree flags /\
  size flags = reducedSize flags + nConstrained flags.
Proof.
  intros; repeat split; auto using fixedDOFsize_count, reducedSize_nFree.
  rewrite reducedSize_nFree. apply size_split.
Qed.

Theorem C01_reduced_numbering : forall flags,
  (forall i, free flags i -> reducedIndex flags i = Some (rank flags i) /\ rank flags i < reducedSize flags) /\
  (forall i j, free flags i -> free flags j -> i < j -> rank flags i < rank flags j) /\
  (forall k, k < reducedSize flags -> exists i, free flags i /\ rank flags i = k).
Proof.
  intros; split; [|split].
  - intros i H; split; [apply reducedIndex_rk, free_lt; auto | apply rk_lt; auto].
  - intros i j Hi Hj L. apply rk_mono; auto. apply Nat.lt_le_incl, free_lt; auto.
  - apply rk_surj.
Qed.
Print Assumptions C01_reduced_numbering.

Example C01_example :
  let flags := [true; false; true; false; false] in
  map (constraintsBelow flags) [0; 1; 2; 3; 4; 5] = [Some 0; Some 1; Some 1; Some 2; Some 2; None] /\
  reducedSize flags = 3 /\ map (reducedIndex flags) [1; 3; 4] = [Some 0; Some 1; Some 2].
Proof. repeat split. Qed.

(** * C02 *)

Theorem C02_reduced_of_full : forall (V : Type) (vzero : V) flags (r : list V),
  length r = reducedSize flags ->
  exists v, createFullVector vzero flags r = Some v /\ length v = length flags /\ createReducedVector flags v = Some r.
Proof.
  intros V vzero flags r H. destruct (createFullVector_spec vzero flags r H) as [v [H1 [H2 [H3 H4]]]].
  exists v; repeat split; auto. rewrite createReducedVector_spec by auto. f_equal. symmetry.
  apply restrict_ext; auto. intros; symmetry; auto.
Qed.

Theorem C02_full_of_reduced : forall (V : Type) (vzero : V) flags (v : list V),
  length v = length flags ->
  exists r w, createReducedVector flags v = Some r /\ length r = reducedSize flags /\
    createFullVector vzero flags r = Some w /\ length w = length flags /\
    (forall i, free flags i -> nth_error w i = nth_error v i) /\
    (forall i, constrained flags i -> nth_error w i = Some vzero).
Proof.
  intros V vzero flags v H. exists (restrict flags v).
  assert (length (restrict flags v) = reducedSize flags) as L by (rewrite restrict_length, reducedSize_nFree; auto).
  destruct (createFullVector_spec vzero flags _ L) as [w [H1 [H2 [H3 H4]]]].
  exists w. rewrite createReducedVector_spec by auto. repeat split; auto.
  intros i Hi. rewrite H4, restrict_nth; auto.
Qed.

(** The reduced vector lists the free entries in increasing order of their dof. *)
Theorem C02_reduced_is_restriction : forall (V : Type) flags (v : list V),
  length v = length flags -> createReducedVector flags v = Some (restrict flags v).
Proof. intros; apply createReducedVector_spec; auto. Qed.
Print Assumptions C02_full_of_reduced.

Example C02_example :
  let flags := [true; false; true; false] in
  createFullVector 0 flags [7; 8] = Some [0; 7; 0; 8] /\
  createReducedVector flags [1; 2; 3; 4] = Some [2; 4].
Proof. repeat split. Qed.

(** * Concrete mesh used in the examples: two bar-like elements on three dofs, dof 0 fixed, plus an
    element that repeats a dof. *)

Definition bar (a b k : nat) : element (V:=nat) nat :=
  {| dofs := [a; b]; escal := fun q => q + k; evec := fun q => [q; k]; emat := fun q => [k; q; 5; k] |}.
Definition mesh := [bar 0 1 2; bar 1 2 3].
Definition meshFlags := [true; false; false].

Lemma mesh_wf : wfElements (length meshFlags) mesh.
Proof.
  intros e He. simpl in He. destruct He as [<-|[<-|[]]]; repeat split; simpl; auto; intros d Hd; lia.
Qed.
Lemma mesh_distinct : distinctDofs mesh.
Proof.
  intros e He. simpl in He. destruct He as [<-|[<-|[]]]; simpl; repeat constructor; simpl; lia.
Qed.
Lemma mesh_covered : constrainedCovered meshFlags mesh.
Proof.
  intros [|[|[|i]]] H; unfold constrained in H; simpl in H; try discriminate.
  - exists (bar 0 1 2); simpl; auto. - destruct i; discriminate.
Qed.

(** * C03 *)

Theorem C03_scalar : forall (V Q : Type) (vzero : V) (vadd : V -> V -> V) (els : list (element Q)) q,
  getScalar vzero vadd els q = sum vzero vadd (map (fun e => escal e q) els).
Proof.
  intros. unfold getScalar, sum. generalize vzero as a. induction els; intro a0; simpl; auto.
Qed.

Theorem C03_vector : forall (V Q : Type) (vzero : V) (vadd : V -> V -> V) flags (els : list (element Q)) q,
  wfElements (length flags) els ->
  exists v, getRawVector vzero vadd flags els q = Some v /\ length v = size flags /\
    forall d, d < length flags -> nth_error v d = Some (vecEntry vzero vadd els q d).
Proof. intros. apply assembleRawVector_spec; auto. Qed.

Theorem C03_matrix_dense : forall (V Q : Type) (vzero vone : V) (vadd : V -> V -> V) flags (els : list (element Q)) q,
  wfElements (length flags) els ->
  exists M, denseRequest vzero vone vadd flags els (RMatrix Raw q) = Some (ODense M) /\
    drows M = length flags /\ dcols M = length flags /\
    forall r c, r < length flags -> c < length flags -> dget M r c = Some (matEntry vzero vadd els q r c).
Proof.
  intros V Q vzero vone vadd flags els q W. destruct (assembleRawDense_spec vzero vadd (length flags) els q W) as [M [E [A [B [_ D]]]]].
  exists M. simpl. unfold getRawDense, size. rewrite E. auto.
Qed.

Theorem C03_matrix_sparse : forall (V Q : Type) (vzero vone : V) (vadd vmul : V -> V -> V) flags (els : list (element Q)) q,
  wfElements (length flags) els -> distinctDofs els ->
  exists s M, spStep vzero vone vadd vmul flags els (spInit vzero) (RMatrix Raw q) = Some (s, OSparse M) /\
    srows M = length flags /\ scols M = length flags /\
    forall r c, r < length flags -> c < length flags -> sget vzero M r c = Some (matEntry vzero vadd els q r c).
Proof.
  intros V Q vzero vone vadd vmul flags els q W N.
  destruct (sparse_dense_agree vzero vone vadd vmul flags els q Raw W N) as [s [sm [dm [H1 [H2 [H3 [H4 H5]]]]]]]; [discriminate|].
  destruct (C03_matrix_dense V Q vzero vone vadd flags els q W) as [M [K1 [K2 [K3 K4]]]].
  rewrite H2 in K1; inversion K1; subst M. exists s, sm. repeat split; auto; try congruence.
  intros; rewrite H5; auto.
Qed.

(** Elements that repeat a dof: the entry is the sum of exactly the matching element entries, each once;
    within an element the sparse assembler visits them column by column. *)
Theorem C03_matrix_sparse_repeated : forall (V Q : Type) (vzero vone : V) (vadd vmul : V -> V -> V) flags (els : list (element Q)) q,
  wfElements (length flags) els ->
  exists s M, spStep vzero vone vadd vmul flags els (spInit vzero) (RMatrix Raw q) = Some (s, OSparse M) /\
    srows M = length flags /\ scols M = length flags /\
    forall r c, r < length flags -> c < length flags ->
      exists l, Permutation l (flat_map (fun e => matContrib vzero e q r c) els) /\ sget vzero M r c = Some (sum vzero vadd l).
Proof.
  intros V Q vzero vone vadd vmul flags els q W.
  destruct (rawResult_ok vzero vadd vmul flags els q W) as [m0 [v [_ [_ [_ [E [_ [_ [S1 [S2 S3]]]]]]]]]].
  destruct (sparse_step_init vzero vone vadd vmul flags els (RMatrix Raw q) (OSparse (with_vals m0 v))) as [s Es]; [simpl; rewrite E; auto|].
  exists s, (with_vals m0 v). split; [auto|]. split; [auto|]. split; [auto|]. intros r c Hr Hc.
  eexists; split; [|apply S3; auto]. eapply summands_CM; eauto.
Qed.
Print Assumptions C03_matrix_sparse.

Example C03_repeated_example :
  match spStep 0 1 Nat.add Nat.mul meshFlags (bar 1 1 4 :: mesh) (spInit 0) (RMatrix Raw 10) with
  | Some (_, OSparse M) => sget 0 M 1 1 = Some 28
  | _ => False
  end.
Proof. vm_compute. reflexivity. Qed.

(** The element repeating dof 1 contributes twice. *)
Example C03_example :
  getScalar 0 Nat.add mesh 10 = 25 /\
  getRawVector 0 Nat.add meshFlags (bar 1 1 4 :: mesh) 10 = Some [10; 26; 3] /\
  vecEntry 0 Nat.add (bar 1 1 4 :: mesh) 10 1 = 26 /\
  option_map ddata (getRawDense 0 Nat.add meshFlags mesh 10) = Some [2; 10; 0; 5; 5; 10; 0; 5; 3].
Proof. repeat split. Qed.

(** * C04 *)

Theorem C04_full_vector : forall (V Q : Type) (vzero : V) (vadd : V -> V -> V) flags (els : list (element Q)) q,
  wfElements (length flags) els ->
  exists raw v, getRawVector vzero vadd flags els q = Some raw /\ getVector vzero vadd flags els q = Some v /\
    length v = size flags /\
    (forall i, constrained flags i -> nth_error v i = Some vzero) /\
    (forall i, free flags i -> nth_error v i = nth_error raw i).
Proof.
  intros V Q vzero vadd flags els q W. destruct (assembleRawVector_spec vzero vadd (length flags) els q W) as [v [E [L _]]].
  exists v, (zeroConstrained vzero flags v). unfold getRawVector, getVector, size. rewrite E.
  destruct (zeroConstrained_spec vzero flags v L) as [A [B C]]. repeat split; auto.
Qed.

Theorem C04_reduced_vector : forall (V Q : Type) (vzero : V) (vadd : V -> V -> V) flags (els : list (element Q)) q,
  wfElements (length flags) els ->
  exists raw v, getRawVector vzero vadd flags els q = Some raw /\ getReducedVector vzero vadd flags els q = Some v /\
    createReducedVector flags raw = Some v /\ v = restrict flags raw.
Proof.
  intros V Q vzero vadd flags els q W. destruct (assembleRawVector_spec vzero vadd (length flags) els q W) as [v [E [L _]]].
  exists v, (restrict flags v). unfold getRawVector, size. rewrite E.
  rewrite (getReducedVector_is_restriction vzero vadd flags els q v W E), createReducedVector_spec by auto. auto.
Qed.
Print Assumptions C04_reduced_vector.

Example C04_example :
  getVector 0 Nat.add meshFlags mesh 10 = Some [0; 12; 3] /\ getReducedVector 0 Nat.add meshFlags mesh 10 = Some [12; 3].
Proof. repeat split. Qed.

(** * C05 *)

Theorem C05_full_dense : forall (V Q : Type) (vzero vone : V) (vadd : V -> V -> V) flags (els : list (element Q)) q,
  wfElements (length flags) els ->
  exists raw M, getRawDense vzero vadd flags els q = Some raw /\ getDense vzero vone vadd flags els q = Some M /\
    drows M = length flags /\ dcols M = length flags /\
    (forall r c, free flags r -> free flags c -> dget M r c = dget raw r c) /\
    (forall i, constrained flags i -> dget M i i = Some vone) /\
    (forall r c, r < length flags -> c < length flags -> r <> c -> constrained flags r \/ constrained flags c -> dget M r c = Some vzero).
Proof.
  intros V Q vzero vone vadd flags els q W.
  destruct (assembleRawDense_spec vzero vadd (length flags) els q W) as [raw [E [A [B [_ D]]]]].
  destruct (getDense_spec vzero vone vadd flags els q W) as [M [E' [A' [B' [_ D']]]]].
  exists raw, M. unfold getRawDense, size. repeat split; auto.
  - intros r c Hr Hc. rewrite D, D' by (apply free_lt; auto). f_equal. unfold fullEntry.
    unfold free in *. rewrite (nth_of_nth_error _ _ _ false Hr), (nth_of_nth_error _ _ _ false Hc). auto.
  - intros i Hi. unfold constrained in Hi. rewrite D' by (eapply nth_error_lt; eauto). f_equal. unfold fullEntry.
    rewrite (nth_of_nth_error _ _ _ false Hi), Nat.eqb_refl. auto.
  - intros r c Hr Hc N K. rewrite D' by auto. f_equal. unfold fullEntry.
    rewrite (proj2 (Nat.eqb_neq _ _) N). unfold constrained in K. destruct K as [K|K]; rewrite (nth_of_nth_error _ _ _ false K); auto.
    rewrite orb_true_r; auto.
Qed.

Theorem C05_reduced_dense : forall (V Q : Type) (vzero : V) (vadd : V -> V -> V) flags (els : list (element Q)) q,
  wfElements (length flags) els ->
  exists raw M, getRawDense vzero vadd flags els q = Some raw /\ getReducedDense vzero vadd flags els q = Some M /\
    drows M = reducedSize flags /\ dcols M = reducedSize flags /\
    (forall r c, free flags r -> free flags c -> dget M (rank flags r) (rank flags c) = dget raw r c).
Proof.
  intros V Q vzero vadd flags els q W.
  destruct (assembleRawDense_spec vzero vadd (length flags) els q W) as [raw [E [A [B [_ D]]]]].
  destruct (getReducedDense_spec vzero vadd flags els q W) as [M [E' [A' [B' [_ D']]]]].
  exists raw, M. unfold getRawDense, size. repeat split; auto.
  intros r c Hr Hc. rewrite D by (apply free_lt; auto). apply D'; auto.
Qed.
Print Assumptions C05_full_dense.

Example C05_example :
  option_map ddata (getDense 0 1 Nat.add meshFlags mesh 10) = Some [1; 0; 0; 0; 5; 10; 0; 5; 3] /\
  option_map ddata (getReducedDense 0 Nat.add meshFlags mesh 10) = Some [5; 10; 5; 3].
Proof. repeat split. Qed.

(** * C06 *)

(** Raw and Reduced: for every number type and addition. Full: needs [x * 0 = 0] for the numbers in use
    and that every constrained dof belongs to an element. *)
Theorem C06_sparse_dense_agree : forall (V Q : Type) (vzero vone : V) (vadd vmul : V -> V -> V) flags (els : list (element Q)) q o,
  wfElements (length flags) els -> distinctDofs els ->
  (o = Full -> constrainedCovered flags els /\ forall x, vmul x vzero = vzero) ->
  exists s sm dm, spStep vzero vone vadd vmul flags els (spInit vzero) (RMatrix o q) = Some (s, OSparse sm) /\
    denseRequest vzero vone vadd flags els (RMatrix o q) = Some (ODense dm) /\
    srows sm = drows dm /\ scols sm = dcols dm /\ forall r c, sget vzero sm r c = dget dm r c.
Proof. intros. apply sparse_dense_agree; auto. Qed.

(** What matrix(Full) of the sparse assembler contains, without any law on the multiplication. *)
Theorem C06_sparse_full_exact : forall (V Q : Type) (vzero vone : V) (vadd vmul : V -> V -> V) flags (els : list (element Q)) q,
  wfElements (length flags) els -> distinctDofs els -> constrainedCovered flags els ->
  exists s sm, spStep vzero vone vadd vmul flags els (spInit vzero) (RMatrix Full q) = Some (s, OSparse sm) /\
    forall r c, r < length flags -> c < length flags ->
      ((exists e, In e els /\ In r (dofs e) /\ In c (dofs e)) ->
          sget vzero sm r c = Some (sparseFullEntry vzero vone vmul flags (matEntry vzero vadd els q) r c)) /\
      (~ (exists e, In e els /\ In r (dofs e) /\ In c (dofs e)) -> sget vzero sm r c = Some vzero).
Proof.
  intros V Q vzero vone vadd vmul flags els q W N Cov.
  destruct (fullResult_ok vzero vone vadd vmul flags els q W Cov) as [m [E [_ [_ S]]]].
  destruct (sparse_step_init vzero vone vadd vmul flags els (RMatrix Full q) (OSparse m)) as [s Es]; [simpl; rewrite E; auto|].
  exists s, m. split; auto. intros r c Hr Hc. destruct (S r c Hr Hc) as [S1 S2]. split; auto.
  intro P. rewrite (S1 P). f_equal. unfold sparseFullEntry. erewrite matEntry_CM by eauto. auto.
Qed.

(** With an infinite or NaN stiffness at a constrained dof the two assemblers differ: 0 * inf = NaN. *)
Definition badBar : element (V:=float) unit :=
  {| dofs := [0; 1]; escal := fun _ => PrimFloat.zero; evec := fun _ => [PrimFloat.zero; PrimFloat.zero];
     emat := fun _ => [PrimFloat.infinity; PrimFloat.infinity; PrimFloat.infinity; PrimFloat.one] |}.

Theorem C06_nonfinite_refuted : exists s sm dm,
  wfElements 2 [badBar] /\ distinctDofs [badBar] /\ constrainedCovered [true; false] [badBar] /\
  spStep PrimFloat.zero PrimFloat.one PrimFloat.add PrimFloat.mul [true; false] [badBar] (spInit PrimFloat.zero) (RMatrix Full tt) = Some (s, OSparse sm) /\
  denseRequest PrimFloat.zero PrimFloat.one PrimFloat.add [true; false] [badBar] (RMatrix Full tt) = Some (ODense dm) /\
  (exists x, sget PrimFloat.zero sm 1 0 = Some x /\ PrimFloat.is_nan x = true) /\
  (exists x, dget dm 1 0 = Some x /\ PrimFloat.is_zero x = true).
Proof.
  eexists _, _, _. split; [|split; [|split; [|split; [|split; [|split]]]]].
  - intros e [<-|[]]; repeat split; simpl; auto; intros d Hd; lia.
  - intros e [<-|[]]; simpl; repeat constructor; simpl; lia.
  - intros [|[|i]] H; unfold constrained in H; simpl in H; try discriminate. + exists badBar; simpl; auto. + destruct i; discriminate.
  - vm_compute. reflexivity.
  - vm_compute. reflexivity.
  - eexists; split; vm_compute; reflexivity.
  - eexists; split; vm_compute; reflexivity.
Qed.

(** With a constrained dof that belongs to no element the dense assembler works and the sparse one writes to an entry that does not exist *)
Theorem C06_unattached_refuted : exists (flags : list bool) (els : list (element (V:=nat) nat)) dm,
  wfElements (length flags) els /\ distinctDofs els /\ ~ constrainedCovered flags els /\
  denseRequest 0 1 Nat.add flags els (RMatrix Full 1) = Some (ODense dm) /\
  spStep 0 1 Nat.add Nat.mul flags els (spInit 0) (RMatrix Full 1) = None.
Proof.
  exists (meshFlags ++ [true]), mesh. eexists. split; [|split; [|split; [|split]]].
  - intros e He. destruct (mesh_wf e He) as (A & B & C). split; [|split; assumption]. intros d Hd. specialize (A d Hd). rewrite app_length. cbn in *. lia.
  - apply mesh_distinct.
  - intros H. destruct (H 3 eq_refl) as (e & He & Hd). destruct (mesh_wf e He) as (A & _). specialize (A 3 Hd). cbn in A. lia.
  - vm_compute. reflexivity.
  - vm_compute. reflexivity.
Qed.
Print Assumptions C06_unattached_refuted.
Print Assumptions C06_sparse_dense_agree.
Print Assumptions C06_nonfinite_refuted.

Example C06_example :
  option_map (fun p => match snd p with OSparse m => (souter m, sinner m, svals m) | _ => ([], [], []) end)
     (spStep 0 1 Nat.add Nat.mul meshFlags mesh (spInit 0) (RMatrix Full 10))
  = Some ([0; 2; 5; 7], [0; 1; 0; 1; 2; 1; 2], [1; 0; 0; 5; 10; 5; 3]).
Proof. reflexivity. Qed.

Example C06_applies : exists s sm dm,
  spStep 0 1 Nat.add Nat.mul meshFlags mesh (spInit 0) (RMatrix Full 10) = Some (s, OSparse sm) /\
  denseRequest 0 1 Nat.add meshFlags mesh (RMatrix Full 10) = Some (ODense dm) /\
  srows sm = drows dm /\ scols sm = dcols dm /\ forall r c, sget 0 sm r c = dget dm r c.
Proof.
  apply C06_sparse_dense_agree; auto using mesh_wf, mesh_distinct. intros _. split; [apply mesh_covered|]. intro; lia.
Qed.

(** * C07 *)

Theorem C07_history_independent : forall (V Q : Type) (vzero vone : V) (vadd vmul : V -> V -> V) flags (els : list (element Q)) h s r,
  spRun vzero vone vadd vmul flags els (spInit vzero) h = Some s ->
  option_map snd (spStep vzero vone vadd vmul flags els s r) =
  option_map snd (spStep vzero vone vadd vmul flags els (spInit vzero) r).
Proof. intros. eapply history_independent; eauto. Qed.

(** On well-formed input no history fails. *)
Theorem C07_every_history_succeeds : forall (V Q : Type) (vzero vone : V) (vadd vmul : V -> V -> V) flags (els : list (element Q)) h r,
  wfElements (length flags) els -> constrainedCovered flags els ->
  exists s s1 s2 o, spRun vzero vone vadd vmul flags els (spInit vzero) h = Some s /\
    spStep vzero vone vadd vmul flags els s r = Some (s1, o) /\
    spStep vzero vone vadd vmul flags els (spInit vzero) r = Some (s2, o).
Proof. intros. apply history_total; auto. Qed.
Print Assumptions C07_every_history_succeeds.

Example C07_example :
  match spRun 0 1 Nat.add Nat.mul meshFlags mesh (spInit 0)
    [RMatrix Reduced 1; RMatrix Full 2; RVector Full 4; RMatrix Raw 3; RMatrix Full 7; RScalar 1] with
  | Some s =>
      option_map snd (spStep 0 1 Nat.add Nat.mul meshFlags mesh s (RMatrix Full 10)) =
      option_map snd (spStep 0 1 Nat.add Nat.mul meshFlags mesh (spInit 0) (RMatrix Full 10))
  | None => False
  end.
Proof. vm_compute. reflexivity. Qed.

(** * C08 *)

Theorem C08_raw_slots : forall (V Q : Type) (vzero : V) flags (els : list (element (V:=V) Q)),
  wfElements (length flags) els ->
  exists m idx, preProcessSparse vzero flags els [] = Some (m, idx) /\ length idx = length els /\
    forall k e, nth_error els k = Some e -> exists sl, nth_error idx k = Some sl /\ length sl = length (dofs e) * length (dofs e) /\
      forall i j, i < length (dofs e) -> j < length (dofs e) ->
        exists p, nth_error sl (i + j * length (dofs e)) = Some p /\ p < length (svals m) /\
                  holds m (nth i (dofs e) 0) (nth j (dofs e) 0) p.
Proof. intros. apply raw_slots_valid; auto. Qed.

Theorem C08_reduced_slots : forall (V Q : Type) (vzero : V) flags (els : list (element (V:=V) Q)) (q : Q),
  wfElements (length flags) els ->
  exists m idx, preProcessSparseReduced vzero flags els [] = Some (m, idx) /\ length idx = length els /\
    forall k e, nth_error els k = Some e -> exists sl, nth_error idx k = Some sl /\
      Forall2 (fun rc p => p < length (svals m) /\ holds m (fst rc) (snd rc) p) (list_prod (freeRanks flags e) (freeRanks flags e)) sl.
Proof. intros. eapply reduced_slots_valid; eauto. Qed.

(** A slot holds at most one entry and an entry has at most one slot. *)
Theorem C08_slots_unique : forall (V Q : Type) (vzero : V) flags (els : list (element (V:=V) Q)) m idx,
  wfElements (length flags) els -> preProcessSparse vzero flags els [] = Some (m, idx) ->
  (forall r c r' c' p, holds m r c p -> holds m r' c' p -> r = r' /\ c = c') /\
  (forall r c p p', holds m r c p -> holds m r c p' -> p = p').
Proof.
  intros V Q vzero flags els m idx W E. destruct (preProcessSparse_ok vzero flags els W) as [m0 [H1 [H2 _]]].
  rewrite H1 in E; inversion E; subst m0. split; intros.
  - eapply isSlot_inj; eauto. - eapply isSlot_fun; eauto.
Qed.
Print Assumptions C08_reduced_slots.

Example C08_example :
  option_map snd (preProcessSparse 0 meshFlags mesh []) = Some [[0; 1; 2; 3]; [3; 4; 5; 6]] /\
  option_map snd (preProcessSparseReduced 0 meshFlags mesh []) = Some [[0]; [0; 2; 1; 3]].
Proof. repeat split. Qed.
