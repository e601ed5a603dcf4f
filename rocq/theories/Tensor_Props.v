(** C35 - C38, C67: tensors and Voigt notation. *)

From Coq Require Import List Arith ZArith Reals Lra Lia Bool.
From Verif Require Import Tensor_Model Tensor_Spec.
Import ListNotations.
Local Open Scope R_scope.

(** All cases of an index below a numeral *)
Ltac cases i := first [exfalso; lia | destruct i as [|i]; [|cases i]].
Ltac dims d := match goal with
  | H : (1 <= d <= 3)%nat |- _ => let Q := fresh in assert (Q : d = 1%nat \/ d = 2%nat \/ d = 3%nat) by lia;
      clear H; destruct Q as [->|[->| ->]]
  end.

Lemma size1 : matrixSize 1 = Some 1%nat. Proof. vm_compute. reflexivity. Qed.
Lemma size3 : matrixSize 3 = Some 2%nat. Proof. vm_compute. reflexivity. Qed.
Lemma size6 : matrixSize 6 = Some 3%nat. Proof. vm_compute. reflexivity. Qed.

(** C35: the Voigt vector of a matrix has the specified components, every entry is written. *)
Theorem C35_to : forall d E isStrain k, (1 <= d <= 3)%nat -> (k < voigtLength d)%nat ->
  toVoigt d E isStrain k = Some (voigtVector d isStrain E k).
Proof.
  intros d E isStrain k D K. dims d; unfold voigtLength in K; simpl in K; cases k; destruct isStrain; cbn;
  unfold factorTo; f_equal; ring.
Qed.
Print Assumptions C35_to.

(** The matrix of the Voigt vector of a symmetric matrix is that matrix. *)
Theorem C35_from_to : forall d E isStrain, (1 <= d <= 3)%nat -> symmetric d E ->
  exists m, fromVoigt (voigtLength d) (voigtVector d isStrain E) isStrain = Some (d, m) /\
  forall i j, (i < d)%nat -> (j < d)%nat -> m i j = Some (E i j).
Proof.
  intros d E isStrain D Sy. dims d; unfold fromVoigt, voigtLength.
  - change (1 * (1 + 1) / 2)%nat with 1%nat. rewrite size1. eexists. split; [reflexivity|].
    intros i j Hi Hj. cases i; cases j; destruct isStrain; reflexivity.
  - change (2 * (2 + 1) / 2)%nat with 3%nat. rewrite size3. eexists. split; [reflexivity|].
    intros i j Hi Hj. cases i; cases j; destruct isStrain; cbn; unfold factorFrom; f_equal; try field;
    rewrite (Sy 1%nat 0%nat) by lia; try field; reflexivity.
  - change (3 * (3 + 1) / 2)%nat with 6%nat. rewrite size6. eexists. split; [reflexivity|].
    assert (S1 := Sy 1%nat 0%nat). assert (S2 := Sy 2%nat 0%nat). assert (S3 := Sy 2%nat 1%nat).
    intros i j Hi Hj. cases i; cases j; destruct isStrain; cbn; unfold factorFrom; f_equal; try field;
    rewrite ?S1, ?S2, ?S3 by lia; try field; reflexivity.
Qed.
Print Assumptions C35_from_to.

(** The Voigt vector of the matrix of a vector is that vector, and the matrix is symmetric. *)
Theorem C35_to_from : forall d v isStrain, (1 <= d <= 3)%nat ->
  exists m E, fromVoigt (voigtLength d) v isStrain = Some (d, m) /\
  (forall i j, (i < d)%nat -> (j < d)%nat -> m i j = Some (E i j)) /\ symmetric d E /\
  forall k, (k < voigtLength d)%nat -> toVoigt d E isStrain k = Some (v k).
Proof.
  intros d v isStrain D.
  dims d; unfold fromVoigt, voigtLength.
  - change (1 * (1 + 1) / 2)%nat with 1%nat. rewrite size1.
    exists (setM noMat 0 0 (v 0%nat)), (fun _ _ => v 0%nat). split; [reflexivity|].
    split; [intros i j Hi Hj; cases i; cases j; reflexivity|]. split; [intros i j _ _; reflexivity|].
    intros k Hk. cases k. reflexivity.
  - change (2 * (2 + 1) / 2)%nat with 3%nat. rewrite size3. eexists.
    exists (entries [[v 0%nat; v 2%nat * factorFrom isStrain]; [v 2%nat * factorFrom isStrain; v 1%nat]]).
    split; [reflexivity|]. split; [intros i j Hi Hj; cases i; cases j; reflexivity|].
    split; [intros i j Hi Hj; cases i; cases j; reflexivity|].
    intros k Hk. cases k; destruct isStrain; cbn; unfold factorFrom, factorTo; f_equal; field.
  - change (3 * (3 + 1) / 2)%nat with 6%nat. rewrite size6. eexists.
    exists (entries [[v 0%nat; v 5%nat * factorFrom isStrain; v 4%nat * factorFrom isStrain];
                     [v 5%nat * factorFrom isStrain; v 1%nat; v 3%nat * factorFrom isStrain];
                     [v 4%nat * factorFrom isStrain; v 3%nat * factorFrom isStrain; v 2%nat]]).
    split; [reflexivity|]. split; [intros i j Hi Hj; cases i; cases j; reflexivity|].
    split; [intros i j Hi Hj; cases i; cases j; reflexivity|].
    intros k Hk. cases k; destruct isStrain; cbn; unfold factorFrom, factorTo; f_equal; field.
Qed.
Print Assumptions C35_to_from.

(** The index maps are the specified order and inverse to each other. *)
Theorem C35_indices : forall d, (2 <= d <= 3)%nat ->
  (forall k, (k < voigtLength d)%nat -> fromVoigtIndex d k = Some (component d k) /\
     let (i, j) := component d k in toVoigtIndex d i j = Some k /\ toVoigtIndex d j i = Some k) /\
  (forall i j, (i < d)%nat -> (j < d)%nat -> exists k, toVoigtIndex d i j = Some k /\ (k < voigtLength d)%nat /\
     (fromVoigtIndex d k = Some (i, j) \/ fromVoigtIndex d k = Some (j, i))).
Proof.
  intros d D. assert (Q : d = 2%nat \/ d = 3%nat) by lia. clear D. destruct Q as [->| ->]; unfold voigtLength; split.
  - intros k K. simpl in K. cases k; cbn; auto.
  - intros i j Hi Hj. cases i; cases j; eexists; (split; [reflexivity|split; [simpl; lia|cbn; auto]]).
  - intros k K. simpl in K. cases k; cbn; auto.
  - intros i j Hi Hj. cases i; cases j; eexists; (split; [reflexivity|split; [simpl; lia|cbn; auto]]).
Qed.
Print Assumptions C35_indices.

Example C35_example : symmetric 3 (entries [[1; 2; 3]; [2; 4; 5]; [3; 5; 6]]).
Proof. intros i j Hi Hj. cases i; cases j; reflexivity. Qed.

(** C36: products *)
Theorem C36_dot : forall d S E, (1 <= d <= 3)%nat -> symmetric d S -> symmetric d E ->
  contract d S E = dot (voigtLength d) (stressVector d S) (strainVector d E).
Proof.
  intros d S E D H1 H2. dims d; unfold contract, dot, voigtLength; cbn.
  - ring.
  - rewrite (H1 1%nat 0%nat), (H2 1%nat 0%nat) by lia. ring.
  - rewrite (H1 1%nat 0%nat), (H2 1%nat 0%nat), (H1 2%nat 0%nat), (H2 2%nat 0%nat), (H1 2%nat 1%nat), (H2 2%nat 1%nat) by lia.
    ring.
Qed.
Print Assumptions C36_dot.

(** The Voigt matrix of a tensor: every entry is written *)
Definition voigtMatrix (C : rtensor4) (a b : nat) : R :=
  let (i, j) := component 3 a in let (k, l) := component 3 b in C i j k l.

Theorem C36_matrix : forall C, minorSymmetric 3 C ->
  forall a b, (a < 6)%nat -> (b < 6)%nat -> toVoigtTensor C a b = Some (voigtMatrix C a b).
Proof.
  intros C M a b Ha Hb.
  cases a; cases b; cbn -[Rmult]; f_equal; try reflexivity;
  repeat match goal with
  | |- C ?i ?j ?k ?l = _ => first [reflexivity | rewrite (proj1 (M i j k l ltac:(lia) ltac:(lia) ltac:(lia) ltac:(lia))); reflexivity
     | rewrite (proj2 (M i j k l ltac:(lia) ltac:(lia) ltac:(lia) ltac:(lia))); reflexivity
     | rewrite (proj1 (M i j k l ltac:(lia) ltac:(lia) ltac:(lia) ltac:(lia)));
       rewrite (proj2 (M j i k l ltac:(lia) ltac:(lia) ltac:(lia) ltac:(lia))); reflexivity]
  end.
Qed.
Print Assumptions C36_matrix.

Theorem C36_product : forall C E, minorSymmetric 3 C -> symmetric 3 E ->
  forall a, (a < 6)%nat ->
  apply 6 (voigtMatrix C) (strainVector 3 E) a = stressVector 3 (apply4 3 C E) a.
Proof.
  intros C E M Sy a Ha. unfold apply, apply4, stressVector, strainVector, voigtMatrix.
  cases a; cbn;
  rewrite (Sy 1%nat 0%nat), (Sy 2%nat 0%nat), (Sy 2%nat 1%nat) by lia;
  repeat match goal with
  | |- context [C ?i ?j 1%nat 0%nat] => rewrite (proj2 (M i j 1%nat 0%nat ltac:(lia) ltac:(lia) ltac:(lia) ltac:(lia)))
  | |- context [C ?i ?j 2%nat 0%nat] => rewrite (proj2 (M i j 2%nat 0%nat ltac:(lia) ltac:(lia) ltac:(lia) ltac:(lia)))
  | |- context [C ?i ?j 2%nat 1%nat] => rewrite (proj2 (M i j 2%nat 1%nat ltac:(lia) ltac:(lia) ltac:(lia) ltac:(lia)))
  end; ring.
Qed.
Print Assumptions C36_product.

Example C36_example : minorSymmetric 3 symmetricIdentityFourthOrder.
Proof. intros i j k l _ _ _ _. unfold symmetricIdentityFourthOrder. split; ring. Qed.

(** C37: false, the entries with a second index below the first are never written. *)
Theorem C37_uninitialised_refuted : exists C : rmat,
  (forall i j, (i < 6)%nat -> (j < 6)%nat -> C i j = C j i) /\
  exists t, fromVoigtMatrix 6 C = Some (3%nat, t) /\ t 1%nat 0%nat 0%nat 1%nat = None /\ t 0%nat 1%nat 0%nat 1%nat = Some 1.
Proof.
  exists identity. split; [intros i j _ _; unfold identity; now rewrite Nat.eqb_sym|].
  unfold fromVoigtMatrix. rewrite size6. eexists. split; [reflexivity|]. split; reflexivity.
Qed.
Print Assumptions C37_uninitialised_refuted.

(** The entries that are written are the right ones, and these are exactly the entries i <= j, k <= l. *)
Theorem C37_written_partial : forall d C, (2 <= d <= 3)%nat ->
  exists t, fromVoigtMatrix (voigtLength d) C = Some (d, t) /\
  (forall a b, (a < voigtLength d)%nat -> (b < voigtLength d)%nat ->
     let (i, j) := component d a in let (k, l) := component d b in t i j k l = Some (C a b)) /\
  (forall i j k l, (i < d)%nat -> (j < d)%nat -> (k < d)%nat -> (l < d)%nat -> (j < i \/ l < k)%nat -> t i j k l = None).
Proof.
  intros d C D. assert (Q : d = 2%nat \/ d = 3%nat) by lia. clear D. unfold fromVoigtMatrix, voigtLength.
  destruct Q as [->| ->].
  - change (2 * (2 + 1) / 2)%nat with 3%nat. rewrite size3. eexists. split; [reflexivity|]. split.
    + intros a b Ha Hb. cases a; cases b; reflexivity.
    + intros i j k l Hi Hj Hk Hl Hd. cases i; cases j; cases k; cases l; first [reflexivity | exfalso; lia].
  - change (3 * (3 + 1) / 2)%nat with 6%nat. rewrite size6. eexists. split; [reflexivity|]. split.
    + intros a b Ha Hb. cases a; cases b; reflexivity.
    + intros i j k l Hi Hj Hk Hl Hd. cases i; cases j; cases k; cases l; first [reflexivity | exfalso; lia].
Qed.
Print Assumptions C37_written_partial.

(** C38: the transformation matrix of J maps the strain vector of E to that of J E J^T. *)
Theorem C38_transform2 : forall J E, symmetric 2 E -> forall a, (a < 3)%nat ->
  apply 3 (transformationMatrix2 J) (strainVector 2 E) a = strainVector 2 (mul 2 J (mul 2 E (transpose J))) a.
Proof.
  intros J E Sy a Ha. assert (S1 := Sy 1%nat 0%nat). cases a; unfold apply, mul, transpose, transformationMatrix2; cbn;
  rewrite S1 by lia; ring.
Qed.
Print Assumptions C38_transform2.

Theorem C38_transform3 : forall J E, symmetric 3 E -> forall a, (a < 6)%nat ->
  apply 6 (transformationMatrix3 J) (strainVector 3 E) a = strainVector 3 (mul 3 J (mul 3 E (transpose J))) a.
Proof.
  intros J E Sy a Ha. assert (S1 := Sy 1%nat 0%nat). assert (S2 := Sy 2%nat 0%nat). assert (S3 := Sy 2%nat 1%nat).
  cases a; unfold apply, mul, transpose, transformationMatrix3; cbn; rewrite S1, S2, S3 by lia; ring.
Qed.
Print Assumptions C38_transform3.

(** Multiplicative, identity to identity *)
Theorem C38_multiplicative2 : forall J K a b, (a < 3)%nat -> (b < 3)%nat ->
  transformationMatrix2 (mul 2 J K) a b = mul 3 (transformationMatrix2 J) (transformationMatrix2 K) a b /\
  transformationMatrix2 identity a b = identity a b.
Proof.
  intros J K a b Ha Hb. cases a; cases b; unfold mul, transformationMatrix2; cbn; split; ring.
Qed.
Print Assumptions C38_multiplicative2.

Theorem C38_multiplicative3 : forall J K a b, (a < 6)%nat -> (b < 6)%nat ->
  transformationMatrix3 (mul 3 J K) a b = mul 6 (transformationMatrix3 J) (transformationMatrix3 K) a b /\
  transformationMatrix3 identity a b = identity a b.
Proof.
  intros J K a b Ha Hb. cases a; cases b; unfold mul, transformationMatrix3; cbn; split; ring.
Qed.
Print Assumptions C38_multiplicative3.

Example C38_example : symmetric 2 (entries [[1; 2]; [2; 3]]) /\
  apply 3 (transformationMatrix2 (entries [[1; 1]; [0; 2]])) (strainVector 2 (entries [[1; 2]; [2; 3]])) 2 = 20.
Proof. split; [intros i j Hi Hj; cases i; cases j; reflexivity|]. unfold apply, transformationMatrix2; cbn. ring. Qed.

(** C67: fourth-order products act on second-order tensors as documented. *)
Theorem C67_dyadic : forall d A B E i j, (i < d)%nat -> (j < d)%nat -> (1 <= d <= 3)%nat ->
  apply4 d (dyadic A B) E i j = A i j * contract d B E.
Proof. intros d A B E i j _ _ D. dims d; unfold apply4, contract, dyadic; cbn; ring. Qed.
Print Assumptions C67_dyadic.

Theorem C67_symmetric_identity : forall d E i j, (1 <= d <= 3)%nat -> (i < d)%nat -> (j < d)%nat ->
  apply4 d symmetricIdentityFourthOrder E i j = (E i j + E j i) / 2.
Proof.
  intros d E i j D Hi Hj. dims d; cases i; cases j; unfold apply4, symmetricIdentityFourthOrder; cbn; field.
Qed.
Print Assumptions C67_symmetric_identity.

Theorem C67_symmetric : forall d A B E i j, (1 <= d <= 3)%nat -> (i < d)%nat -> (j < d)%nat ->
  apply4 d (symmetricFourthOrder A B) E i j =
  (mul d A (mul d E (transpose B)) i j + mul d A (mul d (transpose E) (transpose B)) i j) / 2.
Proof.
  intros d A B E i j D Hi Hj. dims d; unfold apply4, symmetricFourthOrder, mul, transpose; cbn; field.
Qed.
Print Assumptions C67_symmetric.

Theorem C67_identity : forall d E i j, (1 <= d <= 3)%nat -> (i < d)%nat -> (j < d)%nat ->
  apply4 d (identityFourthOrder d) E i j = identity i j * sum d (fun k => E k k).
Proof.
  intros d E i j D Hi Hj. dims d; cases i; cases j; unfold apply4, identityFourthOrder, identity; cbn; ring.
Qed.
Print Assumptions C67_identity.

Theorem C67_ikjl : forall d A B E i j, (1 <= d <= 3)%nat ->
  apply4 d (fourthOrderIKJL A B) E i j = mul d A (mul d E (transpose B)) i j.
Proof. intros d A B E i j D. dims d; unfold apply4, fourthOrderIKJL, mul, transpose; cbn; ring. Qed.
Print Assumptions C67_ikjl.

(** symTwoSlots averages over the exchange of the two slots, for all slots, and leaves a tensor that is symmetric in them *)
Definition exchange (p q : nat) (idx : list nat) : list nat := map (fun n => nth (if n =? p then q else if n =? q then p else n)%nat idx 0%nat) [0%nat; 1%nat; 2%nat; 3%nat].
Definition at4 (t : rtensor4) (idx : list nat) : R := match idx with [i; j; k; l] => t i j k l | _ => 0 end.

Theorem C67_two_slots : forall t p q i j k l, (p < 4)%nat -> (q < 4)%nat ->
  symTwoSlots t p q i j k l = (t i j k l + at4 t (exchange p q [i; j; k; l])) / 2 /\
  at4 (symTwoSlots t p q) (exchange p q [i; j; k; l]) = symTwoSlots t p q i j k l.
Proof.
  intros t p q i j k l Hp Hq. cases p; cases q; unfold symTwoSlots, shuffled, exchange, at4; cbn; split; field.
Qed.
Print Assumptions C67_two_slots.
