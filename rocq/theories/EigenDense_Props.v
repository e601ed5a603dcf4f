(** Property C152: the solver for dense generalised eigenvalue problems. *)

From Coq Require Import List Arith Bool Lia.
From Verif Require Import EigenSolver_Model EigenSolver_Props EigenDense_Model.
Import ListNotations.

(** ** Construction *)

(** Matrices of dynamic size passed by reference (and of fixed size one): the solver is built exactly for square matrices of the same size *)
Theorem C152_construct_partial : forall assertions A B, (dynamic A && temporary A = false) -> (dynamic B && temporary B = false) ->
  (dynamic A = true \/ rows A = 1 /\ cols A = 1 \/ assertions = false) ->
  ((exists k, constructDense assertions A B = Built k) <-> compatible A B) /\ (constructDense assertions A B = Refused <-> ~ compatible A B).
Proof.
  intros a A B HA HB H. destruct (C83_partial A B HA HB) as [E1 E2].
  assert (N : a && negb (dynamic A) && negb (fst (forwarded A) * snd (forwarded A) =? rows A) = false).
  { destruct H as [->|[[R C]| ->]]; [now rewrite andb_false_r| |reflexivity].
    unfold forwarded. rewrite HA. cbn [fst snd]. rewrite R, C. cbn. now rewrite andb_false_r. }
  assert (Q : constructEigen A B = Answer tt \/ constructEigen A B = InvalidState).
  { unfold constructEigen. destruct mismatch; auto. }
  unfold constructDense. rewrite N. destruct Q as [Q|Q]; rewrite Q in *; split; split; intros X.
  - apply E1. reflexivity.
  - eexists. reflexivity.
  - discriminate.
  - exfalso. apply X, E1. reflexivity.
  - destruct X; discriminate.
  - apply E1 in X. discriminate.
  - apply E2. reflexivity.
  - reflexivity.
Qed.

(** False: the memory reserved grows with the fourth power of the number of unknowns, the matrices themselves need the second power *)
Theorem C152_storage_refuted : (forall assertions n, let A := {| rows := n; cols := n; dynamic := true; temporary := false |} in
    constructDense assertions A A = Built (n * n * (n * n))) /\
  forall c, exists n, 0 < n /\ c * (n * n) < n * n * (n * n).
Proof.
  split.
  - intros a n. unfold constructDense, constructEigen, mismatch, forwarded. cbn. rewrite !Nat.eqb_refl, andb_false_r. reflexivity.
  - intros c. exists (S c). split; [lia|]. nia.
Qed.

(** False: with assertions no solver can be built for matrices of fixed size, except with one unknown *)
Theorem C152_fixed_refuted : forall n B, n <> 1 -> n <> 0 ->
  constructDense true {| rows := n; cols := n; dynamic := false; temporary := false |} B = AssertionFails.
Proof.
  intros n B N1 N0. unfold constructDense, forwarded. cbn [dynamic temporary rows cols andb negb fst snd].
  destruct (Nat.eqb_spec (n * n) n) as [E|E]; [nia|reflexivity].
Qed.

(** ** Computation *)
Section Dense.
Context {V W : Type}.

(** Results are handed out after a computation only, and are those of the latest computation *)
Theorem C152_results_partial : forall (runs : list (@solved V W)) d b, denseRun newDense None runs = (d, b) ->
  match rev runs with
  | [] => b = None /\ denseValues d = InvalidState /\ denseVectors d = InvalidState
  | r :: _ => b = Some true /\ denseValues d = Answer (values r) /\ denseVectors d = Answer (vectors r)
  end.
Proof.
  intros runs. induction runs as [|r runs IH] using rev_ind; intros d b H; [cbn in H; injection H as <- <-; cbn; auto|].
  rewrite rev_unit. assert (G : forall (l1 : list solved) (e : @dense V W) c l2, denseRun e c (l1 ++ l2) = let '(d, b) := denseRun e c l1 in denseRun d b l2).
  { induction l1 as [|x l1 IH']; intros e c l2; [reflexivity|]. cbn. apply IH'. }
  rewrite G in H. destruct (denseRun newDense None runs) as [d1 b1]. cbn in H. injection H as <- <-. cbn. auto.
Qed.

(** False: a computation of Eigen without success is reported as success *)
Theorem C152_success_refuted : forall (v : list V) (w : option W), let r := mkSolved v w false in
  snd (denseCompute newDense r) = true /\ denseValues (fst (denseCompute newDense r)) = Answer v.
Proof. intros. split; reflexivity. Qed.

(** What holds: success is reported whenever Eigen succeeded *)
Theorem C152_success_partial : forall d (r : @solved V W), success r = true -> snd (denseCompute d r) = true.
Proof. reflexivity. Qed.
End Dense.
Print Assumptions C152_construct_partial.
Print Assumptions C152_storage_refuted.
Print Assumptions C152_fixed_refuted.
Print Assumptions C152_results_partial.
Print Assumptions C152_success_refuted.
Print Assumptions C152_success_partial.

Example C152_applies : let A := {| rows := 3; cols := 3; dynamic := true; temporary := false |} in
  compatible A A /\ constructDense true A A = Built 81 /\
  fst (denseRun newDense None [mkSolved [1; 2] (Some 7) true; mkSolved [3; 4] None true]) = mkDense (Some (mkSolved [3; 4] None true)) true.
Proof. repeat split. Qed.
