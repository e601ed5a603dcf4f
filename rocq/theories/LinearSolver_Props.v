(** Properties C103, C104 and C105: the type-erased linear solver. *)

From Coq Require Import List Arith Bool Lia.
From Verif Require Import LinearSolver_Model.
Import ListNotations.

Section Spec.
  Context {M B X : Type}.
  Notation op := (@op M B).

  (** The matrix that the last factorisation of a history was asked for, as it was then; [memory] is the memory before the history.
      A solver takes sparse matrices iff [sparse]. *)
  Fixpoint requested (sparse : bool) (memory : nat -> M) (given : option M) (h : list op) : option M :=
    match h with
    | [] => given
    | o :: h =>
        match o with
        | OFactorize a | OCompute a => requested sparse memory (if Bool.eqb (g_sparse a) sparse then Some (memory (g_cell a)) else given) h
        | OWrite c m => requested sparse (write memory c m) given h
        | OSelfAssign => requested sparse memory None h
        | _ => requested sparse memory given h
        end
    end.
  (** Nobody changes a matrix *)
  Definition unchanged (h : list op) : Prop := forall o, In o h -> match o with OWrite _ _ => False | _ => True end.
End Spec.

Definition takesSparse (k : kind) : bool := match k with DenseDirect => false | _ => true end.

Section Props.
  Context {M B X : Type}.
  Variable eigenSolve : M -> B -> X.
  Notation solver := (@solver M).
  Notation op := (@op M B).
  Notation run := (run eigenSolve).
  Notation solve := (solve eigenSolve).

  Definition holds (memory : nat -> M) (given : option M) (i : @impl M) : Prop :=
    match i_factor i, given with
    | None, None => True
    | Some (Owned m), Some m' => i_kind i <> Iterative /\ m = m'
    | Some (Refers c), Some m' => i_kind i = Iterative /\ memory c = m'
    | _, _ => False
    end.

  Lemma run_holds k t (made_k : makes t = Made k) (h : list op) : k <> Iterative \/ unchanged h ->
    forall s memory given i s' memory', o_impl s = Some i -> o_tag s = t -> i_kind i = k -> holds memory given i -> run (s, memory) h = Some (s', memory') ->
    exists i', o_impl s' = Some i' /\ i_kind i' = k /\ o_tag s' = t /\ holds memory' (requested (takesSparse k) memory given h) i'.
  Proof.
    induction h as [|o h IH]; intros U s memory given i s' memory' E Et Ek Hh R.
    - inversion R; subst. exists i. auto.
    - assert (U' : k <> Iterative \/ unchanged h) by (destruct U as [U|U]; [left; exact U|right; intros x Hx; apply U; right; exact Hx]).
      cbn [LinearSolver_Model.run] in R. destruct o as [a|a|a|b|c m|]; cbn [step] in R.
      + unfold analyzePattern in R. rewrite E in R. cbn [requested].
        destruct (g_sparse a); [destruct (i_kind i) eqn:Ki|]; cbn in R; subst k;
          try (eapply IH; [exact U'| | | | |exact R]; [exact E|exact Et|congruence|exact Hh]);
          (eapply IH; [exact U'| | | | |exact R]; [reflexivity|exact Et|cbn; congruence| ]; unfold holds in *; cbn; rewrite ?Ki in *; exact Hh).
      + unfold factorize in R. rewrite E in R. cbn [requested].
        destruct (g_sparse a) eqn:Sa, (i_kind i) eqn:Ki; subst k; cbn [takesSparse eqb] in *;
          try (destruct (i_analysed i); [|discriminate R]);
          try (eapply IH; [exact U'| | | | |exact R]; [exact E|exact Et|congruence|exact Hh]);
          (eapply IH; [exact U'| | | | |exact R]; [reflexivity|exact Et|reflexivity| ]; unfold holds; cbn; split; congruence).
      + unfold compute in R. rewrite E in R. cbn [requested].
        destruct (g_sparse a) eqn:Sa, (i_kind i) eqn:Ki; subst k; cbn [takesSparse eqb] in *;
          try (eapply IH; [exact U'| | | | |exact R]; [exact E|exact Et|congruence|exact Hh]);
          (eapply IH; [exact U'| | | | |exact R]; [reflexivity|exact Et|reflexivity| ]; unfold holds; cbn; split; congruence).
      + unfold LinearSolver_Model.solve in R. rewrite E in R. cbn [requested].
        destruct (i_factor i) as [[m|c]|] eqn:F; [| |discriminate R]; eapply IH; eauto.
      + cbn [requested]. eapply IH; [exact U'| | | | |exact R]; [exact E|exact Et|exact Ek| ].
        destruct U as [U|U]; [|destruct (U _ (or_introl eq_refl))].
        unfold holds in *. destruct (i_factor i) as [[m'|c']|]; auto. destruct given; auto. destruct Hh as (Hi & _). congruence.
      + unfold copyAssign, copy, construct in R. rewrite Et, made_k in R. cbn in R. cbn [requested].
        eapply IH; [exact U'| | | | |exact R]; [reflexivity|reflexivity|reflexivity|exact I].
  Qed.

  (** C104: what a solve returns, after any history, is the solution for the last matrix of its kind that the solver was given, as it was
      when it was given; for iterative solvers provided that the matrices are not changed *)
  Theorem C104_last_matrix_partial t k memory s0 h s memory' b x : makes t = Made k -> construct t = Done s0 ->
    k <> Iterative \/ unchanged h ->
    run (s0, memory) h = Some (s, memory') -> solve memory' s b = Done x ->
    exists m, requested (takesSparse k) memory None h = Some m /\ x = eigenSolve m b.
  Proof.
    intros Mk C U R S. unfold construct in C. rewrite Mk in C. inversion C; subst s0; clear C.
    destruct (run_holds k t Mk h U (mkSolver (Some (mkImpl k false None)) t) memory None (mkImpl k false None) s memory' eq_refl eq_refl eq_refl I R) as (i & E & K & _ & Hh).
    unfold LinearSolver_Model.solve in S. rewrite E in S. unfold holds in Hh.
    destruct (i_factor i) as [[m|c]|]; [..|discriminate S]; destruct (requested _ _ _ _) as [m'|]; try contradiction; destruct Hh as (_ & Hm);
      inversion S; subst; eauto.
  Qed.

  (** C104: a matrix of the other kind makes compute throw, and the factorisation stays *)
  Theorem C104_compute_throws t k (s : solver) memory i a : makes t = Made k -> o_impl s = Some i -> i_kind i = k ->
    g_sparse a <> takesSparse k -> compute memory s a = Throws.
  Proof. intros _ E K N. unfold compute. rewrite E, K. destruct (g_sparse a), k; cbn in N; congruence. Qed.

  (** ... but factorize ignores it: the solve after it uses an older matrix *)
  Theorem C104_factorize_ignored t k (s : solver) memory i a : makes t = Made k -> o_impl s = Some i -> i_kind i = k ->
    g_sparse a <> takesSparse k -> factorize memory s a = Done s.
  Proof. intros _ E K N. unfold factorize. rewrite E, K. destruct (g_sparse a), k; cbn in N; congruence. Qed.

  Lemma step_kind t k s memory o s' memory' r i : makes t = Made k -> o_impl s = Some i -> i_kind i = k -> o_tag s = t ->
    step eigenSolve (s, memory) o = Some ((s', memory'), r) -> exists i', o_impl s' = Some i' /\ i_kind i' = k /\ o_tag s' = t.
  Proof.
    intros Mk E Ek Et R. subst k t.
    destruct o as [a|a|a|b|c m|]; cbn [step] in R; unfold analyzePattern, factorize, compute, LinearSolver_Model.solve, copyAssign, copy, construct in R;
      rewrite ?E, ?Mk in R; try destruct (g_sparse a); destruct (i_kind i) eqn:Ki; try destruct (i_analysed i); try destruct (i_factor i) as [[?|?]|]; cbn in R;
      try discriminate R; inversion R; subst; eexists; (split; [reflexivity || exact E|split; [reflexivity || exact Ki|reflexivity]]).
  Qed.
  Lemma run_kind t k h : makes t = Made k -> forall s memory s' memory' i, o_impl s = Some i -> i_kind i = k -> o_tag s = t ->
    run (s, memory) h = Some (s', memory') -> exists i', o_impl s' = Some i' /\ i_kind i' = k /\ o_tag s' = t.
  Proof.
    intros Mk. induction h as [|o h IH]; intros s m s' m' i E Ek Et R; [inversion R; subst; eauto|].
    cbn [LinearSolver_Model.run] in R. destruct (step eigenSolve (s, m) o) as [[[s1 m1] r]|] eqn:St; [|discriminate].
    destruct (step_kind t k s m o s1 m1 r i Mk E Ek Et St) as (i1 & E1 & K1 & T1). eapply IH; eauto.
  Qed.
  Lemma run_none t h : makes t = Nothing -> forall s memory s' memory', o_impl s = None -> o_tag s = t ->
    run (s, memory) h = Some (s', memory') -> o_impl s' = None /\ o_tag s' = t.
  Proof.
    intros Mk. induction h as [|o h IH]; intros s m s' m' E Et R; [inversion R; subst; auto|].
    cbn [LinearSolver_Model.run] in R. destruct (step eigenSolve (s, m) o) as [[[s1 m1] r]|] eqn:St; [|discriminate].
    assert (G : o_impl s1 = None /\ o_tag s1 = t).
    { destruct o; cbn [step] in St; unfold analyzePattern, factorize, compute, LinearSolver_Model.solve, copyAssign, copy, construct in St; rewrite ?E, ?Et, ?Mk in St; cbn in St; try discriminate St; inversion St; subst; auto. }
    destruct G. eapply IH; eauto.
  Qed.

  (** C103: a copy is a new solver of the same type; the original is not touched by it *)
  Theorem C103_copy_is_new t (s : solver) : construct t = Done s -> forall h memory s' memory', run (s, memory) h = Some (s', memory') -> copy s' = construct t.
  Proof.
    intros C h memory s' memory' R. unfold copy. f_equal. unfold construct in C.
    destruct (makes t) as [|k|] eqn:Mk; inversion C; subst s; clear C.
    - exact (proj2 (run_none t h Mk (mkSolver None t) memory s' memory' eq_refl eq_refl R)).
    - destruct (run_kind t k h Mk (mkSolver (Some (mkImpl k false None)) t) memory s' memory' (mkImpl k false None) eq_refl eq_refl eq_refl R) as (i & _ & _ & T). exact T.
  Qed.

  (** C103: once both are given the same matrix, original and copy return the same *)
  Theorem C103_copy_partial t k s0 h s memory memory' c a s1 c1 b : makes t = Made k -> construct t = Done s0 ->
    run (s0, memory) h = Some (s, memory') -> copy s = Done c ->
    compute memory' s a = Done s1 -> compute memory' c a = Done c1 -> solve memory' s1 b = solve memory' c1 b.
  Proof.
    intros Mk C0 R C S1 C1. rewrite (C103_copy_is_new t s0 C0 h memory s memory' R), C0 in C. inversion C; subst c; clear C.
    unfold construct in C0. rewrite Mk in C0. inversion C0; subst s0; clear C0.
    destruct (run_kind t k h Mk (mkSolver (Some (mkImpl k false None)) t) memory s memory' (mkImpl k false None) eq_refl eq_refl eq_refl R) as (i & E & Ek & _).
    unfold compute in S1, C1. rewrite E in S1. cbn in C1. rewrite Ek in S1.
    destruct (g_sparse a), k; inversion S1; inversion C1; subst; reflexivity.
  Qed.

  (** C103: moving hands over everything, swapping exchanges everything *)
  Theorem C103_move (s : solver) memory b : solve memory (fst (move s)) b = solve memory s b /\ fst (move s) = s /\ o_impl (snd (move s)) = None.
  Proof. repeat split. Qed.
  Theorem C103_swap (a b : solver) : swap a b = (b, a).
  Proof. destruct a, b. reflexivity. Qed.
End Props.

(** C103: a copy of a factorised solver cannot solve, and assigning a solver to itself destroys its factorisation *)
Theorem C103_copy_refuted : exists (s c s' : @solver nat) memory b x,
  solve Nat.mul memory s b = Done x /\ copy s = Done c /\ solve Nat.mul memory c b = NotReady /\
  copyAssign s s = Done s' /\ solve Nat.mul memory s' b = NotReady.
Proof.
  exists (mkSolver (Some (mkImpl SparseDirect true (Some (Owned 3)))) sd_SparseLU). do 2 eexists. exists (fun _ => 3), 5. eexists.
  repeat split.
Qed.

(** C104: with a matrix of the other kind factorize succeeds and the solver goes on with the old matrix *)
Theorem C104_last_matrix_refuted : exists (s0 s : @solver nat) memory,
  construct d_LLT = Done s0 /\
  LinearSolver_Model.run Nat.mul (s0, memory) [OCompute (mkArg false 0); OFactorize (mkArg true 1)] = Some (s, memory) /\
  memory 0 = 2 /\ memory 1 = 7 /\ solve Nat.mul memory s 10 = Done (2 * 10).
Proof. do 2 eexists. exists (fun c => if c =? 0 then 2 else 7). repeat split. Qed.

(** C105: an iterative solver solves with the matrix as it is at the time of the solve *)
Theorem C105_changed_matrix_refuted : exists (s0 s : @solver nat) memory memory',
  construct si_ConjugateGradient = Done s0 /\
  LinearSolver_Model.run Nat.mul (s0, memory) [OCompute (mkArg true 0); OWrite 0 7] = Some (s, memory') /\
  memory 0 = 2 /\ solve Nat.mul memory' s 10 = Done (7 * 10).
Proof. do 2 eexists. exists (fun _ => 2). eexists. repeat split. Qed.

(** C105: all the others with the matrix that they were given *)
Theorem C105_direct_partial {M B X} (eigenSolve : M -> B -> X) t k memory s0 h a s memory' w s'' memory'' b :
  makes t = Made k -> k <> Iterative -> construct t = Done s0 ->
  run eigenSolve (s0, memory) (h ++ [OCompute a]) = Some (s, memory') -> g_sparse a = takesSparse k ->
  (forall o, In o w -> match o with OWrite _ _ => True | _ => False end) -> run eigenSolve (s, memory') w = Some (s'', memory'') ->
  solve eigenSolve memory'' s'' b = Done (eigenSolve (memory' (g_cell a)) b).
Proof.
  intros Mk Nk C R Sa Hw R'.
  assert (Ra : forall h1 h2 st st1 st2, run eigenSolve st h1 = Some st1 -> run eigenSolve st1 h2 = st2 -> run eigenSolve st (h1 ++ h2) = st2).
  { induction h1 as [|o h1 IH]; intros h2 st st1 st2 E1 E2; [inversion E1; subst; reflexivity|]. cbn in *. destruct (step eigenSolve st o) as [(st', ?)|]; [|discriminate]. eapply IH; eauto. }
  assert (Rs : exists st1, run eigenSolve (s0, memory) h = Some st1 /\ run eigenSolve st1 [OCompute a] = Some (s, memory')).
  { clear - R. revert R. generalize (s0, memory). induction h as [|o h IH]; intros st R; [exists st; split; [reflexivity|exact R]|].
    cbn in R. cbn. destruct (step eigenSolve st o) as [(st', ?)|]; [|discriminate]. apply IH, R. }
  destruct Rs as ((s1, m1) & R1 & R2).
  unfold construct in C. rewrite Mk in C. inversion C; subst s0; clear C.
  destruct (run_holds eigenSolve k t Mk h (or_introl Nk) (mkSolver (Some (mkImpl k false None)) t) memory None (mkImpl k false None) s1 m1 eq_refl eq_refl eq_refl I R1) as (i & E & K & Et & _).
  cbn in R2. unfold compute in R2. rewrite E, K, Sa in R2.
  assert (F : exists i', o_impl s = Some i' /\ i_factor i' = Some (Owned (memory' (g_cell a)))).
  { destruct k; [congruence|..]; cbn in R2; inversion R2; subst; eexists; split; reflexivity. }
  destruct F as (i' & E' & F').
  assert (S : s'' = s).
  { clear - Hw R'. revert memory' R'. induction w as [|o w IH]; intros m R'; [inversion R'; reflexivity|].
    assert (Ho := Hw o (or_introl eq_refl)). destruct o; try contradiction. cbn in R'. eapply IH; [|exact R']. intros. apply Hw. right. assumption. }
  subst s''. unfold solve. rewrite E', F'. reflexivity.
Qed.

(** The hypotheses are met: a direct sparse solver that is given two matrices, one of them overwritten later *)
Example C104_case : exists (s0 s : @solver nat) memory memory',
  construct sd_SparseLU = Done s0 /\
  LinearSolver_Model.run Nat.mul (s0, memory) [OCompute (mkArg true 0); OSolve 4; OAnalyze (mkArg true 1); OFactorize (mkArg true 1); OWrite 1 9; OCompute (mkArg false 0)] = Some (s, memory') /\
  memory 1 = 7 /\ solve Nat.mul memory' s 10 = Done (7 * 10) /\
  requested (B := nat) true memory None [OCompute (mkArg true 0); OSolve 4; OAnalyze (mkArg true 1); OFactorize (mkArg true 1); OWrite 1 9; OCompute (mkArg false 0)] = Some 7.
Proof. do 2 eexists. exists (fun c => if c =? 0 then 2 else 7). eexists. repeat split. Qed.

(** C106: the solvers whose names begin with d_ take dense matrices, the others sparse ones *)
Definition namedDense (t : solverTag) : bool :=
  match t with
  | d_PartialPivLU | d_FullPivLU | d_HouseholderQR | d_ColPivHouseholderQR | d_FullPivHouseholderQR
  | d_CompleteOrthogonalDecomposition | d_LLT | d_LDLT => true
  | _ => false
  end.
(** A solver of any type but none: either the constructor throws, which it does for SuperLU only, or compute followed by solve works *)
Theorem C106_usable_partial {M B X} (eigenSolve : M -> B -> X) t memory cell b : t <> none ->
  (t = sd_SuperLU /\ construct (M := M) t = Throws) \/
  (t <> sd_SuperLU /\ exists s s', construct t = Done s /\ compute memory s (mkArg (negb (namedDense t)) cell) = Done s' /\ solve eigenSolve memory s' b = Done (eigenSolve (memory cell) b)).
Proof.
  intros N. destruct t; try congruence; try (left; split; reflexivity); right; (split; [discriminate|]); do 2 eexists; repeat split.
Qed.
(** C106: a solver of type none (also a default constructed or a moved-from one) is accepted, and every use of it dereferences a null pointer *)
Theorem C106_usable_refuted : exists s : @solver nat, construct none = Done s /\ s = default /\
  (forall memory a, compute memory s a = NullDereference) /\ (forall memory b, solve Nat.mul memory s b = NullDereference) /\
  (forall s0, o_impl (snd (move s0)) = o_impl s).
Proof. eexists. repeat split. Qed.
(** C106: without a factorisation a solve violates a precondition of Eigen *)
Theorem C106_before_compute {M B X} (eigenSolve : M -> B -> X) t s memory b : makes t <> Nothing -> construct t = Done s -> solve eigenSolve memory s b = NotReady.
Proof. intros N C. unfold construct in C. destruct (makes t); [congruence| |discriminate]. inversion C. reflexivity. Qed.

(** C106: the order of calls that Eigen demands suffices: the pattern is analysed once, then any number of matrices are factorised and
    any number of systems are solved; nothing fails *)
Section Orderly.
  Context {M B X : Type}.
  Variables (eigenSolve : M -> B -> X) (k : kind).
  Fixpoint orderly (analysed factorised : bool) (h : list (@op M B)) : Prop :=
    match h with
    | [] => True
    | OAnalyze a :: h => g_sparse a = takesSparse k /\ orderly true factorised h
    | OFactorize a :: h => g_sparse a = takesSparse k /\ (takesSparse k = true -> analysed = true) /\ orderly analysed true h
    | OCompute a :: h => g_sparse a = takesSparse k /\ orderly true true h
    | OSolve _ :: h => factorised = true /\ orderly analysed factorised h
    | OWrite _ _ :: h => orderly analysed factorised h
    | OSelfAssign :: h => orderly false false h
    end.

  Lemma run_orderly t h : makes t = Made k -> forall an fa s memory i, o_impl s = Some i -> o_tag s = t -> i_kind i = k ->
    (takesSparse k = true -> an = true -> i_analysed i = true) -> (fa = true -> i_factor i <> None) -> orderly an fa h -> run eigenSolve (s, memory) h <> None.
  Proof.
    intros Mk. induction h as [|o h IH]; intros an fa s memory i E Et Ek Ha Hf Or; [discriminate|]. cbn [run].
    destruct o as [a|a|a|b|c m|]; cbn [step orderly] in *.
    - destruct Or as (Sa & Or). unfold analyzePattern. rewrite E, Sa.
      destruct k eqn:Kk; cbn [takesSparse]; rewrite ?Ek; eapply IH; try exact Or; try exact E; try reflexivity; auto; try discriminate.
    - destruct Or as (Sa & An & Or). unfold factorize. rewrite E, Sa.
      destruct k eqn:Kk; cbn [takesSparse] in *; rewrite ?Ek, ?(Ha eq_refl (An eq_refl)); eapply IH; try exact Or; try exact E; try reflexivity; auto; try discriminate; cbn; discriminate.
    - destruct Or as (Sa & Or). unfold compute. rewrite E, Sa.
      destruct k eqn:Kk; cbn [takesSparse] in *; rewrite ?Ek; eapply IH; try exact Or; try exact E; try reflexivity; auto; try discriminate; cbn; discriminate.
    - destruct Or as (F & Or). unfold solve. rewrite E. specialize (Hf F). destruct (i_factor i) as [[m|c]|] eqn:Fi; [..|congruence];
        eapply IH; try exact Or; try exact E; auto; rewrite Fi; discriminate.
    - eapply IH; try exact Or; try exact E; auto.
    - unfold copyAssign, copy, construct. rewrite Et, Mk. cbn. eapply IH; try exact Or; try reflexivity; cbn; discriminate.
  Qed.

  Theorem C106_orderly t memory s0 h : makes t = Made k -> construct t = Done s0 -> orderly false false h -> run eigenSolve (s0, memory) h <> None.
  Proof.
    intros Mk C Or. unfold construct in C. rewrite Mk in C. injection C as <-.
    eapply run_orderly; [exact Mk|reflexivity|reflexivity|reflexivity| | |exact Or]; discriminate.
  Qed.
End Orderly.

(** as the Newton-Raphson solver does *)
Example C106_orderly_applies : orderly SparseDirect false false
  [OAnalyze (mkArg true 0); OFactorize (mkArg true 0); OSolve 3; OWrite 0 7; OFactorize (mkArg true 0); OSolve 4; OFactorize (mkArg true 1); OSolve 5].
Proof. cbn. auto 20. Qed.

Print Assumptions C104_last_matrix_partial.
Print Assumptions C104_compute_throws.
Print Assumptions C104_factorize_ignored.
Print Assumptions C104_last_matrix_refuted.
Print Assumptions C103_copy_is_new.
Print Assumptions C103_copy_partial.
Print Assumptions C103_copy_refuted.
Print Assumptions C103_move.
Print Assumptions C103_swap.
Print Assumptions C105_direct_partial.
Print Assumptions C105_changed_matrix_refuted.
Print Assumptions C106_usable_partial.
Print Assumptions C106_usable_refuted.
Print Assumptions C106_before_compute.
Print Assumptions C106_orderly.
