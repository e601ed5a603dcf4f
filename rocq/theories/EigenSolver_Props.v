(** Properties C56, C82 and C83: the generalised eigenvalue solvers. *)

From Coq Require Import List Arith Bool Lia Sorting.Sorted Permutation.
From Verif Require Import EigenSolver_Model.
Import ListNotations.

Lemma partition_sizes n : fst (nevsPartition n) + snd (nevsPartition n) = n /\ snd (nevsPartition n) <= fst (nevsPartition n) <= snd (nevsPartition n) + 1.
Proof.
  unfold nevsPartition; cbn [fst snd]. assert (H := Nat.div_mod n 2 ltac:(lia)). assert (B := Nat.mod_upper_bound n 2 ltac:(lia)). lia.
Qed.

Lemma accepted_spec n r : accepted n r = true <-> 1 <= nev r <= n - 1 /\ nev r < ncv r <= n.
Proof.
  unfold accepted. rewrite !andb_true_iff, Nat.ltb_lt, !Nat.leb_le. lia.
Qed.

(** C56, full claim: for every n >= 2 the solver can be constructed. False for n = 3. *)
Theorem C56_refuted : exists n, 2 <= n /\ forall V (x : V), construct x n = InvalidArgument.
Proof. exists 3. split; [lia|reflexivity]. Qed.
Print Assumptions C56_refuted.

(** C56: for all other sizes the construction succeeds, and a computation in which both solvers succeed yields the whole spectrum in
    ascending order. The solvers meet their contract: they return the requested number of smallest respectively greatest
    eigenvalues, in ascending order. *)
Theorem C56_partial : forall n, 2 <= n -> n <> 3 ->
  forall V (x : V) (spectrum : list V), length spectrum = n ->
  exists s, construct x n = Answer s /\ eigenvalues s = InvalidState /\
    forall s' smallest greatest,
      size s' = n -> length (eigenvalues_ s') = n ->
      successful smallest = true -> successful greatest = true ->
      found smallest = firstn (nev (requestSmallest n)) spectrum ->
      found greatest = skipn (n - nev (requestGreatest n)) spectrum ->
      snd (compute smallest greatest s') = true /\ eigenvalues (fst (compute smallest greatest s')) = Answer spectrum.
Proof.
  intros n N1 N2 V x spectrum L. destruct (partition_sizes n) as [P Q].
  eexists. split; [|split].
  - unfold construct. replace (accepted n (requestSmallest n) && _) with true; [reflexivity|]. symmetry. apply andb_true_iff.
    rewrite !accepted_spec. cbn [requestSmallest requestGreatest nev ncv]. lia.
  - reflexivity.
  - intros s' sm gr Hn Hl A B C D. unfold compute. rewrite A, B. cbn [andb snd fst]. split; [reflexivity|].
    unfold eigenvalues; cbn [computed_ eigenvalues_]. f_equal. rewrite Hn, C, D. cbn [requestSmallest requestGreatest nev ncv].
    set (a := fst (nevsPartition n)) in *. set (b := snd (nevsPartition n)) in *.
    unfold setTail, setHead. rewrite firstn_firstn, Nat.min_id. rewrite app_length, firstn_length, skipn_length, L, Hl.
    replace (Nat.min a n + (n - a) - b) with a by lia.
    rewrite firstn_app, firstn_firstn, firstn_length, L. replace (Nat.min a a) with a by lia. replace (a - Nat.min a n) with 0 by lia.
    cbn [firstn]. rewrite app_nil_r. rewrite (firstn_all2 (skipn (n - b) spectrum)) by (rewrite skipn_length, L; lia).
    replace (n - b) with a by lia. apply firstn_skipn.
Qed.
Print Assumptions C56_partial.

(** The contract of the two solvers for a spectrum of five eigenvalues *)
Example C56_applies : eigenvalues (fst (compute {| successful := true; found := [1; 2; 3] |} {| successful := true; found := [4; 5] |}
  {| size := 5; eigenvalues_ := repeat 0 5; computed_ := false |})) = Answer [1; 2; 3; 4; 5].
Proof. reflexivity. Qed.

(** C82: eigenvalues are handed out exactly if the latest computation succeeded *)
Theorem C82_computed : forall V (s : solver V) smallest greatest,
  let s' := fst (compute smallest greatest s) in
  (snd (compute smallest greatest s) = true <-> successful smallest = true /\ successful greatest = true) /\
  (snd (compute smallest greatest s) = true <-> exists v, eigenvalues s' = Answer v) /\
  (snd (compute smallest greatest s) = false <-> eigenvalues s' = InvalidState).
Proof.
  intros V s sm gr. unfold compute, eigenvalues. destruct (successful sm), (successful gr); cbn; intuition (try discriminate; eauto);
    match goal with H : exists _, _ |- _ => destruct H; discriminate | _ => idtac end.
Qed.
Print Assumptions C82_computed.

(** C82: the selective solver accepts each number of eigenvalues from 1 to n - 1, and no other *)
Theorem C82_partial_range : forall n k, accepted n (requestPartial n k) = true <-> 1 <= k <= n - 1.
Proof. intros n k. rewrite accepted_spec. cbn [requestPartial nev ncv]. destruct (Nat.leb_spec (2 * k) n); lia. Qed.
Print Assumptions C82_partial_range.

(** C82: as many eigenvectors as asked for, at most as many as were computed *)
Theorem C82_vectors : forall V total computed (vectors : list V) wanted, length vectors = total ->
  (forall k, wanted = Some k -> (computed = true /\ k <= total -> partialVectors total computed vectors wanted = Answer (firstn k vectors)) /\
     (computed = false \/ total < k -> partialVectors total computed vectors wanted = InvalidState)) /\
  (wanted = None -> partialVectors total computed vectors wanted = if computed then Answer vectors else InvalidState).
Proof.
  intros V total computed vectors wanted L. split.
  - intros k ->. cbn [partialVectors]. destruct (Nat.ltb_spec total k), computed; split; intros H1; try reflexivity;
      try lia; destruct H1; try discriminate; lia.
  - intros ->. cbn. destruct computed; [|reflexivity]. now rewrite firstn_all2 by lia.
Qed.
Print Assumptions C82_vectors.

(** C83, full claim: the constructor of the solver for Eigen refuses exactly the pairs of matrices that are not square of the same size.
    False if a matrix is passed as a temporary. *)
Definition compatible (A B : argument) : Prop := rows A = cols A /\ rows A = rows B /\ cols A = cols B.

Theorem C83_refuted :
  (exists A B, compatible A B /\ constructEigen A B = InvalidState) /\ (exists A B, ~ compatible A B /\ constructEigen A B = Answer tt).
Proof.
  split.
  - exists {| rows := 2; cols := 2; dynamic := true; temporary := true |}, {| rows := 2; cols := 2; dynamic := true; temporary := false |}.
    split; [repeat split|reflexivity].
  - exists {| rows := 2; cols := 2; dynamic := true; temporary := true |}, {| rows := 3; cols := 3; dynamic := true; temporary := true |}.
    split; [intros (_ & H & _); discriminate|reflexivity].
Qed.
Print Assumptions C83_refuted.

(** C83: in particular, no solver is made for a temporary matrix and the identity *)
Theorem C83_identity_refuted : forall A, dynamic A = true -> temporary A = true -> 0 < rows A -> rows A = cols A -> makeIdentityEigen A = InvalidState.
Proof.
  intros A D T P S. unfold makeIdentityEigen, constructEigen, forwarded. rewrite D, T. cbn. unfold mismatch; cbn.
  destruct (rows A); [lia|]. rewrite <- S. reflexivity.
Qed.
Print Assumptions C83_identity_refuted.

Theorem C83_partial : forall A B, (dynamic A && temporary A = false) -> (dynamic B && temporary B = false) ->
  (constructEigen A B = Answer tt <-> compatible A B) /\ (constructEigen A B = InvalidState <-> ~ compatible A B).
Proof.
  intros A B HA HB. unfold constructEigen, forwarded. rewrite HA, HB. unfold mismatch, compatible; cbn [fst snd].
  destruct (Nat.eqb_spec (cols A) (cols B)), (Nat.eqb_spec (rows A) (rows B)), (Nat.eqb_spec (cols A) (rows A)); cbn; intuition (try discriminate; try lia).
Qed.
Print Assumptions C83_partial.

Example C83_applies : compatible {| rows := 2; cols := 2; dynamic := true; temporary := false |} {| rows := 2; cols := 2; dynamic := false; temporary := true |}.
Proof. repeat split. Qed.
