(** Property C167: results do not depend on the order of the elements, and renumbering the degrees of freedom renumbers the results. *)

From Coq Require Import List Arith ZArith Bool Reals Lia Lra FunctionalExtensionality Permutation.
From Verif Require Import FEHelper_Model FEHelper_Props Assembler_Model Assembler_Spec Assembler_Proofs Assembler_Props Newton_Model.
From Verif Require Import Tensor_Spec Conversions_Props Element_Spec Element_Model Element_Proofs Element_Props Truss_Model Truss_Props TrussSkill_Props
  AssemblyMesh_Model AssemblyMesh_Props StructureNewton_Model StructureNewton_Props.
Import ListNotations.
Local Open Scope R_scope.

(** ** Specification *)

(** Every element has a power basis whose children have equally many shape functions, and indices of the structure *)
Definition placed (n : nat) (mesh : list meshElement) : Prop := forall e, In e mesh ->
  (exists m ls, me_children e = map Leaf ls /\ ls <> [] /\ forall l, In l ls -> length l = m) /\ forall i, In i (me_dofs e) -> (i < n)%nat.

(** The same structure with dof i called p i *)
Definition renumbered (p : nat -> nat) (e : meshElement) : meshElement := mkMeshElement (me_children e) (fun i => p (me_index e i)) (me_skill e).
Record renumbering (n : nat) (p : nat -> nat) (flags flags' : list bool) (U U' : nat -> R) : Prop := {
  rn_size : length flags = n /\ length flags' = n;
  rn_range : forall i, (p i < n)%nat <-> (i < n)%nat;
  rn_distinct : forall i j, (i < n)%nat -> (j < n)%nat -> p i = p j -> i = j;
  rn_flags : forall i, (i < n)%nat -> nth_error flags' (p i) = nth_error flags i;
  rn_values : forall i, (i < n)%nat -> U' (p i) = U i }.

(** ** Proofs: entries determine the answers *)
Lemma nth_error_ext {A} (l l' : list A) : length l = length l' -> (forall i, (i < length l)%nat -> nth_error l i = nth_error l' i) -> l = l'.
Proof.
  revert l'. induction l as [|x l IH]; intros [|y l'] L H; try discriminate; [reflexivity|].
  assert (E := H 0%nat ltac:(cbn; lia)). cbn in E. injection E as ->. f_equal. apply IH; [now injection L|]. intros i Hi. exact (H (S i) ltac:(cbn; lia)).
Qed.

Lemma dense_unique {V} (M M' : dense (V := V)) k (f : nat -> nat -> V) :
  drows M = k -> dcols M = k -> length (ddata M) = (k * k)%nat -> (forall r c, (r < k)%nat -> (c < k)%nat -> dget M r c = Some (f r c)) ->
  drows M' = k -> dcols M' = k -> length (ddata M') = (k * k)%nat -> (forall r c, (r < k)%nat -> (c < k)%nat -> dget M' r c = Some (f r c)) -> M = M'.
Proof.
  destruct M as [a b l], M' as [a' b' l']. cbn. intros -> -> L H -> -> L' H'. f_equal. apply nth_error_ext; [congruence|]. intros i Hi.
  destruct (Nat.eq_dec k 0) as [->|N]; [cbn in L; lia|].
  assert (Hr : (i mod k < k)%nat) by (apply Nat.mod_upper_bound, N). assert (Hc : (i / k < k)%nat) by (apply Nat.div_lt_upper_bound; lia).
  assert (E := H _ _ Hr Hc). rewrite <- (H' _ _ Hr Hc) in E. unfold dget in E. cbn [drows dcols ddata] in E.
  apply Nat.ltb_lt in Hr, Hc. rewrite Hr, Hc in E. cbn [andb] in E. replace (i mod k + i / k * k)%nat with i in E; [exact E|].
  rewrite (Nat.div_mod i k N) at 1. lia.
Qed.

Section Order.
  Variables (flags : list bool) (mesh mesh' : list meshElement).
  Let n := length flags.
  Hypothesis pl : placed n mesh.
  Hypothesis perm : Permutation mesh mesh'.

  Lemma sumP_perm {A} (l l' : list A) f : Permutation l l' -> sumP l f = sumP l' f.
  Proof. induction 1; cbn; lra. Qed.

  (** C167: for every request the assembler answers the same whatever the order of the elements *)
  Theorem C167_order (r : request) : answer flags mesh r = answer flags mesh' r.
  Proof.
    assert (W : wfElements n (toElements n mesh)) by (apply wf_any; intros e He; apply (pl e He)).
    assert (W' : wfElements n (toElements n mesh')) by (apply wf_any; intros e He; apply (pl e (Permutation_in _ (Permutation_sym perm) He))).
    assert (EV : forall y i, vecEntry 0 Rplus (toElements n mesh) y i = vecEntry 0 Rplus (toElements n mesh') y i) by (intros y i; rewrite !vecEntry_sum; apply sumP_perm, perm).
    assert (EM : forall y i j, matEntry 0 Rplus (toElements n mesh) y i j = matEntry 0 Rplus (toElements n mesh') y i j) by (intros y i j; rewrite !matEntry_sum; apply sumP_perm, perm).
    assert (RV : forall y, getRawVector 0 Rplus flags (toElements n mesh) y = getRawVector 0 Rplus flags (toElements n mesh') y).
    { intros y. destruct (C03_vector _ _ 0 Rplus flags _ y W) as (v & E & L & K). destruct (C03_vector _ _ 0 Rplus flags _ y W') as (v' & E' & L' & K').
      rewrite E, E'. f_equal. apply nth_error_ext; [congruence|]. intros i Hi. rewrite L in Hi. rewrite K, K' by exact Hi. now rewrite EV. }
    unfold answer. destruct r as [y|[] y|[] y]; cbn [denseRequest]; fold n.
    - do 2 f_equal. rewrite !scalar_sum. apply sumP_perm, perm.
    - now rewrite RV.
    - f_equal. destruct (C04_reduced_vector _ _ 0 Rplus flags _ y W) as (v & u & E & E' & _ & ->). destruct (C04_reduced_vector _ _ 0 Rplus flags _ y W') as (v2 & u2 & E2 & E2' & _ & ->).
      rewrite E', E2'. rewrite RV in E. congruence.
    - f_equal. specialize (RV y). unfold getRawVector in RV. unfold getVector. now rewrite RV.
    - f_equal. destruct (assembleRawDense_spec 0 Rplus n _ y W) as (M & E & A & B & L & F). destruct (assembleRawDense_spec 0 Rplus n _ y W') as (M' & E' & A' & B' & L' & F').
      unfold getRawDense, size. fold n. rewrite E, E'. f_equal. eapply (dense_unique M M' n); eauto. intros r c Hr Hc. rewrite F' by assumption. now rewrite EM.
    - f_equal. destruct (getReducedDense_spec 0 Rplus flags _ y W) as (M & E & A & B & L & F). destruct (getReducedDense_spec 0 Rplus flags _ y W') as (M' & E' & A' & B' & L' & F').
      rewrite E, E'. f_equal. apply (dense_unique M M' (reducedSize flags) (fun r c => match dget M r c with Some x => x | None => 0 end)); auto.
      + intros r c Hr Hc. destruct (rk_surj flags r Hr) as (i & Fi & <-). destruct (rk_surj flags c Hc) as (j & Fj & <-). now rewrite F.
      + intros r c Hr Hc. destruct (rk_surj flags r Hr) as (i & Fi & <-). destruct (rk_surj flags c Hc) as (j & Fj & <-). rewrite F, F' by assumption. now rewrite EM.
    - f_equal. destruct (getDense_spec 0 1 Rplus flags _ y W) as (M & E & A & B & L & F). destruct (getDense_spec 0 1 Rplus flags _ y W') as (M' & E' & A' & B' & L' & F').
      rewrite E, E'. f_equal. eapply (dense_unique M M' n); eauto. intros r c Hr Hc. rewrite F' by assumption. unfold fullEntry. now rewrite EM.
  Qed.

  (** C167: and a Newton solver made for the structure runs the same *)
  Theorem C167_solver {W} o inf lsolve (listen : nlmsg -> nlinfo R -> list R -> (nat -> R) -> W -> W) st x c w :
    structureSolve flags mesh o inf lsolve listen st x c w = structureSolve flags mesh' o inf lsolve listen st x c w.
  Proof.
    unfold structureSolve.
    replace (residualFunction flags mesh' o) with (residualFunction flags mesh o) by (apply functional_extensionality; intros y; unfold residualFunction; now rewrite C167_order).
    replace (KFunction flags mesh' o) with (KFunction flags mesh o) by (apply functional_extensionality; intros y; unfold KFunction; now rewrite C167_order).
    reflexivity.
  Qed.
End Order.

Section Renumbering.
  Variables (n : nat) (p : nat -> nat) (flags flags' : list bool) (U U' : nat -> R) (mesh : list meshElement).
  Hypothesis rn : renumbering n p flags flags' U U'.
  Hypothesis pl : placed n mesh.
  Let mesh' := map (renumbered p) mesh.

  Lemma renumbered_dofs e : In e mesh -> me_dofs (renumbered p e) = map p (me_dofs e).
  Proof.
    intros He. destruct (pl e He) as ((m & ls & E & N & L) & _). unfold me_dofs, renumbered. cbn [me_children me_index]. rewrite E, !(power_dofs _ _ m) by assumption.
    rewrite flat_map_concat_map, (flat_map_concat_map _ (seq 0 m)), concat_map, map_map. f_equal. apply map_ext. intros i. now rewrite map_map.
  Qed.

  Lemma renumbered_placed : placed n mesh'.
  Proof.
    intros e He. apply in_map_iff in He as (e0 & <- & H0). split; [apply (pl e0 H0)|]. rewrite renumbered_dofs by exact H0. intros i Hi.
    apply in_map_iff in Hi as (j & <- & Hj). apply (proj2 (rn_range _ _ _ _ _ _ rn j)), (proj2 (pl e0 H0)), Hj.
  Qed.

  Lemma renumbered_local e : localOf n (renumbered p e) U' = localOf n e U.
  Proof.
    apply functional_extensionality. intros k. unfold localOf, localSolution, entry, renumbered. cbn [me_children me_index].
    set (i := me_index e _). destruct (Nat.lt_ge_cases i n) as [Hi|Hi].
    - assert (Hp := proj2 (rn_range _ _ _ _ _ _ rn i) Hi).
      rewrite (nth_error_nth' _ (U' 0%nat)) by (rewrite map_length, seq_length; exact Hp). rewrite (nth_error_nth' _ (U 0%nat)) by (rewrite map_length, seq_length; exact Hi).
      rewrite !map_nth, !seq_nth by assumption. cbn. apply (rn_values _ _ _ _ _ _ rn), Hi.
    - assert (Hp : (n <= p i)%nat) by (apply Nat.le_ngt; intros Q; apply (proj1 (rn_range _ _ _ _ _ _ rn i)) in Q; lia).
      rewrite !(proj2 (nth_error_None _ _)) by (rewrite map_length, seq_length; assumption). reflexivity.
  Qed.

  Lemma p_eqb i j : (i < n)%nat -> (j < n)%nat -> (p i =? p j)%nat = (i =? j)%nat.
  Proof. intros Hi Hj. destruct (Nat.eqb_spec i j) as [->|N]; [apply Nat.eqb_refl|]. apply Nat.eqb_neq. intros E. apply N, (rn_distinct _ _ _ _ _ _ rn); assumption. Qed.

  Lemma renumbered_dof e k : In e mesh -> (k < length (me_dofs e))%nat -> dofOf (renumbered p e) k = p (dofOf e k) /\ (dofOf e k < n)%nat.
  Proof.
    intros He Hk. unfold dofOf. rewrite renumbered_dofs by exact He. split; [|apply (proj2 (pl e He)), nth_In, Hk].
    rewrite (nth_indep _ 0%nat (p 0%nat)) by (rewrite map_length; exact Hk). apply map_nth.
  Qed.

  Lemma renumbered_vector i : (i < n)%nat -> vecEntry 0 Rplus (toElements n mesh') U' (p i) = vecEntry 0 Rplus (toElements n mesh) U i.
  Proof.
    intros Hi. rewrite !vecEntry_sum. unfold mesh'. rewrite sumP_map. apply sumP_ext. intros e He. rewrite renumbered_dofs, map_length by exact He.
    apply sum_ext. intros k Hk. destruct (renumbered_dof e k He Hk) as [-> Lk]. rewrite p_eqb by assumption. unfold forceOf. rewrite renumbered_local. reflexivity.
  Qed.
  Lemma renumbered_matrix i j : (i < n)%nat -> (j < n)%nat -> matEntry 0 Rplus (toElements n mesh') U' (p i) (p j) = matEntry 0 Rplus (toElements n mesh) U i j.
  Proof.
    intros Hi Hj. rewrite !matEntry_sum. unfold mesh'. rewrite sumP_map. apply sumP_ext. intros e He. rewrite renumbered_dofs, map_length by exact He.
    apply sum_ext. intros k Hk. apply sum_ext. intros l Hl. destruct (renumbered_dof e k He Hk) as [-> Lk]. destruct (renumbered_dof e l He Hl) as [-> Ll].
    rewrite !p_eqb by assumption. unfold matrixOf. rewrite renumbered_local. reflexivity.
  Qed.

  Lemma flags_size : length flags = n. Proof. apply rn. Qed.
  Lemma flags_size' : length flags' = n. Proof. apply rn. Qed.

  (** Where dof i is found in vectors and matrices with the Dirichlet option o *)
  Definition slot (flags : list bool) (o : dbc) (i : nat) : nat := match o with Reduced => rank flags i | _ => i end.
  Definition present (o : dbc) (i : nat) : Prop := match o with Reduced => free flags i | _ => (i < n)%nat end.

  (** C167: the energy stays the same, forces and matrices are found at the new numbers, for every Dirichlet option *)
  Theorem C167_numbering o :
    scalarEntry (answer flags' mesh' (RScalar U')) = scalarEntry (answer flags mesh (RScalar U)) /\
    (forall i, present o i -> vectorEntries (answer flags' mesh' (RVector o U')) (slot flags' o (p i)) = vectorEntries (answer flags mesh (RVector o U)) (slot flags o i)) /\
    (forall i j, present o i -> present o j ->
      matrixEntries (answer flags' mesh' (RMatrix o U')) (slot flags' o (p i)) (slot flags' o (p j)) = matrixEntries (answer flags mesh (RMatrix o U)) (slot flags o i) (slot flags o j)).
  Proof.
    assert (Z := flags_size). assert (Z' := flags_size').
    assert (W : wfElements (length flags) (toElements n mesh)) by (rewrite <- Z; apply wf_any; intros e He; rewrite Z; apply (pl e He)).
    assert (W' : wfElements (length flags') (toElements n mesh')) by (rewrite <- Z'; apply wf_any; intros e He; rewrite Z'; apply (renumbered_placed e He)).
    unfold answer. rewrite Z, Z'.
    assert (Free : forall i, free flags i -> free flags' (p i)) by (intros i Fi; unfold free; rewrite (rn_flags _ _ _ _ _ _ rn); [exact Fi|rewrite <- Z; apply free_lt, Fi]).
    assert (Cons : forall i, constrained flags i -> constrained flags' (p i)).
    { intros i Ci. unfold constrained. rewrite (rn_flags _ _ _ _ _ _ rn); [exact Ci|]. rewrite <- Z. apply nth_error_Some. unfold constrained in Ci. congruence. }
    assert (FL : forall i, free flags i -> (i < n)%nat) by (intros i Fi; rewrite <- Z; apply free_lt, Fi).
    assert (PL : forall i, (i < n)%nat -> (p i < n)%nat) by (intros i Hi; apply (rn_range _ _ _ _ _ _ rn), Hi).
    split; [|split].
    - cbn [denseRequest scalarEntry]. rewrite !scalar_sum. unfold mesh'. rewrite sumP_map. apply sumP_ext. intros e He. rewrite renumbered_local. reflexivity.
    - destruct (C03_vector _ _ 0 Rplus flags _ U W) as (v & E & L & K). destruct (C03_vector _ _ 0 Rplus flags' _ U' W') as (v' & E' & L' & K').
      assert (Raws : forall i, (i < n)%nat -> nth (p i) v' 0 = nth i v 0).
      { intros i Hi. rewrite (nth_error_nth _ _ 0 (K i ltac:(rewrite Z; exact Hi))), (nth_error_nth _ _ 0 (K' (p i) ltac:(rewrite Z'; apply PL, Hi))). apply renumbered_vector, Hi. }
      destruct o; cbn [denseRequest slot present].
      + intros i Hi. rewrite E, E'. cbn [option_map vectorEntries]. apply Raws, Hi.
      + intros i Fi. destruct (C04_reduced_vector _ _ 0 Rplus flags _ U W) as (w & u & Ew & Eu & _ & ->). destruct (C04_reduced_vector _ _ 0 Rplus flags' _ U' W') as (w' & u' & Ew' & Eu' & _ & ->).
        rewrite E in Ew. injection Ew as <-. rewrite E' in Ew'. injection Ew' as <-. rewrite Eu, Eu'. cbn [option_map vectorEntries].
        assert (X : nth_error (restrict flags v) (rank flags i) = nth_error v i) by (apply restrict_nth; [exact L|exact Fi]).
        assert (X' : nth_error (restrict flags' v') (rank flags' (p i)) = nth_error v' (p i)) by (apply restrict_nth; [exact L'|apply Free, Fi]).
        rewrite (nth_error_nth' v 0) in X by (unfold size in L; rewrite L, Z; apply FL, Fi). rewrite (nth_error_nth' v' 0) in X' by (unfold size in L'; rewrite L', Z'; apply PL, FL, Fi).
        rewrite (nth_error_nth _ _ 0 X), (nth_error_nth _ _ 0 X'). apply Raws, FL, Fi.
      + intros i Hi. destruct (C04_full_vector _ _ 0 Rplus flags _ U W) as (w & u & Ew & Eu & Lu & Cu & Fu). destruct (C04_full_vector _ _ 0 Rplus flags' _ U' W') as (w' & u' & Ew' & Eu' & Lu' & Cu' & Fu').
        rewrite E in Ew. injection Ew as <-. rewrite E' in Ew'. injection Ew' as <-. rewrite Eu, Eu'. cbn [option_map vectorEntries].
        destruct (free_or_constrained flags i ltac:(rewrite Z; exact Hi)) as [Fi|Ci].
        * assert (X := Fu i Fi). assert (X' := Fu' _ (Free i Fi)).
          rewrite (nth_error_nth' v 0) in X by (unfold size in L; rewrite L, Z; exact Hi). rewrite (nth_error_nth' v' 0) in X' by (unfold size in L'; rewrite L', Z'; apply PL, Hi).
          rewrite (nth_error_nth _ _ 0 X), (nth_error_nth _ _ 0 X'). apply Raws, Hi.
        * rewrite (nth_error_nth _ _ 0 (Cu i Ci)), (nth_error_nth _ _ 0 (Cu' _ (Cons i Ci))). reflexivity.
    - destruct o; cbn [denseRequest slot present].
      + intros i j Hi Hj. unfold getRawDense, size. rewrite Z, Z'. rewrite Z in W. rewrite Z' in W'.
        destruct (assembleRawDense_spec 0 Rplus n _ U W) as (M & E & A & B & L & F). destruct (assembleRawDense_spec 0 Rplus n _ U' W') as (M' & E' & A' & B' & L' & F').
        rewrite E, E'. cbn [option_map matrixEntries]. rewrite F, F' by (try apply PL; assumption). apply renumbered_matrix; assumption.
      + intros i j Fi Fj. destruct (getReducedDense_spec 0 Rplus flags _ U W) as (M & E & A & B & L & F). destruct (getReducedDense_spec 0 Rplus flags' _ U' W') as (M' & E' & A' & B' & L' & F').
        rewrite E, E'. cbn [option_map matrixEntries]. change (rank flags) with (rk flags). change (rank flags') with (rk flags'). rewrite F, F' by (try apply Free; assumption). apply renumbered_matrix; apply FL; assumption.
      + intros i j Hi Hj. destruct (getDense_spec 0 1 Rplus flags _ U W) as (M & E & A & B & L & F). destruct (getDense_spec 0 1 Rplus flags' _ U' W') as (M' & E' & A' & B' & L' & F').
        rewrite E, E'. cbn [option_map matrixEntries]. rewrite Z in F. rewrite Z' in F'. rewrite F, F' by (try apply PL; assumption). unfold fullEntry.
        assert (NF : forall k, (k < n)%nat -> nth (p k) flags' false = nth k flags false).
        { intros k Hk. assert (X := rn_flags _ _ _ _ _ _ rn k Hk). rewrite (nth_error_nth' flags false) in X by (rewrite Z; exact Hk). exact (nth_error_nth _ _ _ X). }
        rewrite !NF, p_eqb, renumbered_matrix by assumption. reflexivity.
  Qed.
End Renumbering.
Print Assumptions C167_order.
Print Assumptions C167_solver.
Print Assumptions C167_numbering.

(** Two springs in a row, given in either order, and with the names of the first two nodes exchanged *)
Definition chain : list meshElement := [mkMeshElement [Leaf [0; 1]%nat] (fun i => i) springSkill; mkMeshElement [Leaf [0; 1]%nat] S springSkill].
Definition chainOther : list meshElement := [mkMeshElement [Leaf [0; 1]%nat] S springSkill; mkMeshElement [Leaf [0; 1]%nat] (fun i => i) springSkill].
Definition exchange (i : nat) : nat := match i with 0 => 1 | 1 => 0 | _ => i end%nat.
Example C167_applies : placed 3 chain /\ Permutation chain chainOther /\
  renumbering 3 exchange [true; false; false] [false; true; false] (fun i => INR i) (fun i => match i with 0 => 1 | 1 => 0 | _ => INR i end) /\
  residualFunction [true; false; false] chain Reduced (fun i => INR i) = [0 + (0 + (2 * (INR 1 - INR 0) - 3)) + (0 + -2 * (INR 2 - INR 1)); 0 + (0 + (2 * (INR 2 - INR 1) - 3))].
Proof.
  split; [|split; [|split]].
  - intros e [<-|[<-|[]]]; (split; [exists 2%nat, [[0; 1]]%nat; split; [reflexivity|split; [discriminate|intros l [<-|[]]; reflexivity]]|cbn; intros i Hi; intuition lia]).
  - apply perm_swap.
  - split; [split; reflexivity|..].
    + intros [|[|[|i]]]; cbn; lia.
    + intros [|[|[|i]]] [|[|[|j]]]; cbn; lia.
    + intros [|[|[|i]]] Hi; (reflexivity || lia).
    + intros [|[|[|i]]] Hi; (reflexivity || lia).
  - reflexivity.
Qed.
