(** C144: vector and matrix form of element results. *)

From Coq Require Import List Arith ZArith Reals Lra Lia Bool.
From Verif Require Import Tensor_Model Tensor_Spec Tensor_Props SVK_Model Result_Model.
Import ListNotations.
Local Open Scope R_scope.

(** ** Specification: a vector lists a matrix, in Voigt notation or column by column *)
Definition lists (t : resultType) (m : matrixValue) (v : vectorValue) : Prop :=
  match t with
  | Symmetric n strainlike => m_rows m = n /\ m_cols m = n /\ v_size v = voigtLength n /\
      forall k, (k < voigtLength n)%nat -> v_entry v k = voigtVector n strainlike (m_entry m) k
  | General _ _ => v_size v = (m_rows m * m_cols m)%nat /\
      forall i j, (i < m_rows m)%nat -> (j < m_cols m)%nat -> v_entry v (j * m_rows m + i)%nat = m_entry m i j
  end.

Definition sameMatrix (a b : matrixValue) : Prop :=
  m_rows a = m_rows b /\ m_cols a = m_cols b /\
  forall i j, (i < m_rows a)%nat -> (j < m_cols a)%nat -> m_entry a i j = m_entry b i j.
Definition sameVector (a b : vectorValue) : Prop :=
  v_size a = v_size b /\ forall k, (k < v_size a)%nat -> v_entry a k = v_entry b k.

(** Values of a type *)
Definition goodDimension (t : resultType) : Prop := match t with Symmetric n _ => (1 <= n <= 3)%nat | General _ _ => True end.
Definition fits (t : resultType) (m : matrixValue) : Prop :=
  match t with
  | Symmetric n _ => m_rows m = n /\ m_cols m = n /\ symmetric n (m_entry m)
  | General r c => (r = Some (m_rows m) \/ r = None) /\ (c = Some (m_cols m) \/ c = None)
  end.
Definition fitsVector (t : resultType) (rows cols : nat) (v : vectorValue) : Prop :=
  match t with
  | Symmetric n _ => rows = n /\ cols = n /\ v_size v = voigtLength n
  | General r c => (r = Some rows \/ r = None) /\ (c = Some cols \/ c = None) /\ v_size v = (rows * cols)%nat
  end.

(** Listing determines each form from the other *)
Lemma voigt_injective n s A B : (1 <= n <= 3)%nat -> symmetric n A -> symmetric n B ->
  (forall k, (k < voigtLength n)%nat -> voigtVector n s A k = voigtVector n s B k) ->
  forall i j, (i < n)%nat -> (j < n)%nat -> A i j = B i j.
Proof.
  intros D SA SB H. 
  destruct (C35_from_to n A s D SA) as (m & E & HA). destruct (C35_from_to n B s D SB) as (m' & E' & HB).
  assert (Q : forall i j, (i < n)%nat -> (j < n)%nat -> m i j = m' i j).
  { dims n; unfold fromVoigt, voigtLength in E, E', H; cbn [Nat.mul Nat.add Nat.div Nat.divmod fst] in E, E', H.
    - change (1 * (1 + 1) / 2)%nat with 1%nat in *. rewrite size1 in E, E'. injection E as <-. injection E' as <-. intros i j Hi Hj. cases i; cases j. cbn.
      rewrite (H 0%nat) by (cbn; lia). reflexivity.
    - change (2 * (2 + 1) / 2)%nat with 3%nat in *. rewrite size3 in E, E'. injection E as <-. injection E' as <-. intros i j Hi Hj.
      assert (H0 := H 0%nat). assert (H1 := H 1%nat). assert (H2 := H 2%nat).
      cases i; cases j; cbn -[voigtVector]; rewrite ?H0, ?H1, ?H2 by lia; reflexivity.
    - change (3 * (3 + 1) / 2)%nat with 6%nat in *. rewrite size6 in E, E'. injection E as <-. injection E' as <-. intros i j Hi Hj.
      assert (H0 := H 0%nat). assert (H1 := H 1%nat). assert (H2 := H 2%nat). assert (H3 := H 3%nat). assert (H4 := H 4%nat). assert (H5 := H 5%nat).
      cases i; cases j; cbn -[voigtVector]; rewrite ?H0, ?H1, ?H2, ?H3, ?H4, ?H5 by lia; reflexivity. }
  intros i j Hi Hj. specialize (HA i j Hi Hj). specialize (HB i j Hi Hj). rewrite (Q i j Hi Hj), HB in HA. congruence.
Qed.

Lemma readM_all n m E : (forall i j, (i < n)%nat -> (j < n)%nat -> m i j = Some (E i j)) ->
  exists e, readM n m = Some e /\ forall i j, (i < n)%nat -> (j < n)%nat -> e i j = E i j.
Proof.
  intros H. unfold readM.
  assert (F : forallb (fun i => forallb (fun j => match m i j with Some _ => true | None => false end) (seq 0 n)) (seq 0 n) = true).
  { apply forallb_forall. intros i Hi. apply forallb_forall. intros j Hj. apply in_seq in Hi. apply in_seq in Hj. rewrite H by lia. reflexivity. }
  rewrite F. eexists. split; [reflexivity|]. intros i j Hi Hj. cbv beta. now rewrite H.
Qed.
Lemma readVec_all n v e : (forall k, (k < n)%nat -> v k = Some (e k)) ->
  exists w, readVec n v = Some w /\ forall k, (k < n)%nat -> w k = e k.
Proof.
  intros H. unfold readVec.
  assert (F : forallb (fun i => match v i with Some _ => true | None => false end) (seq 0 n) = true).
  { apply forallb_forall. intros i Hi. apply in_seq in Hi. rewrite H by lia. reflexivity. }
  rewrite F. eexists. split; [reflexivity|]. intros k Hk. cbv beta. now rewrite H.
Qed.

(** C144: a stored matrix as a vector lists the matrix, and as a matrix it is itself *)
Theorem C144_from_matrix : forall t m rows cols, goodDimension t -> fits t m ->
  (exists v, asVec t (AsMatrix m) = Returns v /\ lists t m v) /\ asMat t (AsMatrix m) rows cols = Returns m.
Proof.
  intros t m rows cols G F. split; [|reflexivity]. destruct t as [n s|r c]; cbn [asVec vectorize].
  - destruct F as (R & C & Sy).
    destruct (readVec_all (voigtLength n) (toVoigt n (m_entry m) s) (voigtVector n s (m_entry m))) as (w & E & W).
    { intros k Hk. now apply C35_to. }
    unfold voigtLength in E. rewrite E. eexists. split; [reflexivity|]. cbn. repeat split; auto.
  - eexists. split; [reflexivity|]. cbn. split; auto. intros i j Hi Hj. f_equal.
    + rewrite Nat.add_comm, Nat.mod_add by lia. now apply Nat.mod_small.
    + rewrite Nat.div_add_l by lia. rewrite Nat.div_small by auto. lia.
Qed.
Print Assumptions C144_from_matrix.

(** Which arguments of asMat name a shape: both, or none for what is fixed *)
Definition names (t : resultType) (given : option nat) (fixed : option nat) (n : nat) : Prop :=
  given = Some n \/ given = None /\ fixed = Some n.

(** C144: a stored vector as a matrix is the matrix it lists, symmetric for symmetric types; as a vector it is itself *)
Theorem C144_from_vector : forall t v rows cols r c, goodDimension t -> fitsVector t r c v ->
  names t rows (rowsAtCompileTime t) r -> names t cols (colsAtCompileTime t) c ->
  (exists m, asMat t (AsVector v) rows cols = Returns m /\ m_rows m = r /\ m_cols m = c /\ lists t m v /\ fits t m) /\
  asVec t (AsVector v) = Returns v.
Proof.
  intros t v rows cols r c G F Nr Nc. split; [|reflexivity].
  assert (Ar : argumentOr rows (rowsAtCompileTime t) = Some r) by (destruct Nr as [->|[-> ->]]; reflexivity).
  assert (Ac : argumentOr cols (colsAtCompileTime t) = Some c) by (destruct Nc as [->|[-> ->]]; reflexivity).
  cbn [asMat]. rewrite Ar, Ac.
  destruct t as [n s|tr tc].
  - destruct F as (-> & -> & S). cbn [rowsAtCompileTime colsAtCompileTime agrees matricize]. rewrite Nat.eqb_refl. cbn [andb].
    destruct (C35_to_from n (v_entry v) s G) as (m & E & Q & HE & Sy & T). rewrite S, Q.
    destruct (readM_all n m E HE) as (e & Re & He). rewrite Re. eexists. split; [reflexivity|]. cbn.
    repeat split; auto.
    + intros k Hk. assert (T' := T k Hk). rewrite C35_to in T' by auto. injection T' as T'. rewrite <- T'.
      (* the components are inside *)
      assert (K : forall k, (k < voigtLength n)%nat -> voigtVector n s E k = voigtVector n s e k).
      { clear -G He. cbn in G. intros k Hk. assert (P : (fst (component n k) < n)%nat /\ (snd (component n k) < n)%nat).
        { dims n; unfold voigtLength in Hk; cbn in Hk; cases k; cbn; lia. }
        unfold voigtVector, strainVector, stressVector. destruct s; destruct (component n k) as [i j]; cbn in P; rewrite He by tauto; reflexivity. }
      now apply K.
    + intros i j Hi Hj. rewrite !He by auto. now apply Sy.
  - destruct F as (Fr & Fc & S). cbn [rowsAtCompileTime colsAtCompileTime matricize].
    assert (Br : agrees tr (Some r) = true) by (destruct Fr as [->| ->]; cbn; auto using Nat.eqb_refl).
    assert (Bc : agrees tc (Some c) = true) by (destruct Fc as [->| ->]; cbn; auto using Nat.eqb_refl).
    rewrite Br, Bc. cbn [andb]. rewrite S, Nat.eqb_refl. eexists. split; [reflexivity|]. cbn. repeat split; auto.
Qed.
Print Assumptions C144_from_vector.

(** C144: going through the other form changes nothing *)
Theorem C144_matrix_roundtrip : forall t m v m', goodDimension t -> fits t m ->
  asVec t (AsMatrix m) = Returns v ->
  asMat t (AsVector v) (Some (m_rows m)) (Some (m_cols m)) = Returns m' -> sameMatrix m' m.
Proof.
  intros t m v m' G F A B. destruct (C144_from_matrix t m None None G F) as ((v' & A' & L) & _). rewrite A in A'. injection A' as <-.
  assert (FV : fitsVector t (m_rows m) (m_cols m) v).
  { destruct t as [n s|r c]; cbn in *; [|tauto]. destruct F as (R & C & _). destruct L as (_ & _ & S & _). auto. }
  destruct (C144_from_vector t v (Some (m_rows m)) (Some (m_cols m)) (m_rows m) (m_cols m) G FV (or_introl eq_refl) (or_introl eq_refl))
    as ((m2 & B' & R2 & C2 & L2 & F2) & _). rewrite B in B'. injection B' as <-.
  split; [exact R2|]. split; [exact C2|].
  destruct t as [n s|r c]; cbn in *.
  - destruct F as (R & C & Sy). destruct F2 as (R' & C' & Sy'). destruct L as (_ & _ & _ & L). destruct L2 as (_ & _ & _ & L2).
    rewrite R', C'. apply (voigt_injective n s); auto. intros k Hk. now rewrite <- L2, L.
  - destruct L as [_ L]. destruct L2 as [_ L2]. intros i j Hi Hj. rewrite <- L2 by auto. rewrite R2. apply L; lia.
Qed.
Print Assumptions C144_matrix_roundtrip.

Theorem C144_vector_roundtrip : forall t v r c m v', goodDimension t -> fitsVector t r c v ->
  asMat t (AsVector v) (Some r) (Some c) = Returns m -> asVec t (AsMatrix m) = Returns v' -> sameVector v' v.
Proof.
  intros t v r c m v' G F A B.
  destruct (C144_from_vector t v (Some r) (Some c) r c G F (or_introl eq_refl) (or_introl eq_refl)) as ((m2 & A' & R2 & C2 & L2 & F2) & _).
  rewrite A in A'. injection A' as <-.
  destruct (C144_from_matrix t m None None G F2) as ((v2 & B' & L) & _). rewrite B in B'. injection B' as <-.
  destruct t as [n s|tr tc]; cbn in *.
  - destruct L as (_ & _ & S & L). destruct L2 as (_ & _ & S2 & L2). split; [congruence|]. rewrite S. intros k Hk. now rewrite L, L2.
  - destruct L as [S L]. destruct L2 as [S2 L2]. split; [congruence|]. intros k Hk. rewrite S, R2, C2 in Hk.
    assert (r0 : (0 < r)%nat) by (destruct r; cbn in Hk; lia).
    assert (Hi : (k mod r < r)%nat) by (apply Nat.mod_upper_bound; lia).
    assert (Hj : (k / r < c)%nat) by (apply Nat.div_lt_upper_bound; lia).
    assert (E : k = (k / r * r + k mod r)%nat) by (rewrite Nat.mul_comm; apply Nat.div_mod; lia).
    rewrite R2, C2 in *. specialize (L _ _ Hi Hj). specialize (L2 _ _ Hi Hj). rewrite <- E in L, L2. congruence.
Qed.
Print Assumptions C144_vector_roundtrip.

(** C144: no other shape is given: without the sizes of a dynamic type, or with sizes that do not fit, an assertion fails *)
Theorem C144_misuse : forall t v rows cols m, goodDimension t -> (match t with Symmetric n _ => v_size v = voigtLength n | _ => True end) ->
  asMat t (AsVector v) rows cols = Returns m ->
  names t rows (rowsAtCompileTime t) (m_rows m) /\ names t cols (colsAtCompileTime t) (m_cols m) /\ fitsVector t (m_rows m) (m_cols m) v.
Proof.
  intros t v rows cols m G S H. cbn [asMat] in H.
  destruct (agrees (rowsAtCompileTime t) (argumentOr rows (rowsAtCompileTime t)) && agrees (colsAtCompileTime t) (argumentOr cols (colsAtCompileTime t)))%bool eqn:A; [|discriminate].
  apply andb_true_iff in A. destruct A as [A1 A2].
  destruct t as [n s|r c]; cbn [matricize rowsAtCompileTime colsAtCompileTime] in *.
  - destruct (argumentOr rows (Some n)) as [a|] eqn:E1; [|discriminate]. destruct (argumentOr cols (Some n)) as [b|] eqn:E2; [|discriminate].
    destruct ((a =? n) && (b =? n))%nat eqn:E; [|discriminate]. apply andb_true_iff in E. destruct E as [Ea Eb]. apply Nat.eqb_eq in Ea, Eb. subst a b.
    destruct (C35_to_from n (v_entry v) s G) as (m0 & E0 & Q & _). rewrite S, Q in H. destruct (readM n m0); [|discriminate]. injection H as <-. cbn.
    split; [|split]; auto.
    + destruct rows; cbn in E1; [left|right]; auto.
    + destruct cols; cbn in E2; [left|right]; auto.
  - destruct (argumentOr rows r) as [a|] eqn:E1; [|discriminate]. destruct (argumentOr cols c) as [b|] eqn:E2; [|discriminate].
    destruct (a * b =? v_size v)%nat eqn:E; [|discriminate]. apply Nat.eqb_eq in E. injection H as <-. cbn.
    split; [|split; [|split; [|split]]]; auto.
    + destruct rows; cbn in E1; [left|right]; auto.
    + destruct cols; cbn in E2; [left|right]; auto.
    + destruct r as [r|]; [|auto]. cbn in A1. apply Nat.eqb_eq in A1. subst. auto.
    + destruct c as [c|]; [|auto]. cbn in A2. apply Nat.eqb_eq in A2. subst. auto.
Qed.
Print Assumptions C144_misuse.

(** C144: the registered types.  Stresses are listed without doubled shear components, in the dimension of the world or in three dimensions; fields have one
    entry per direction; axial forces and other scalars have one. *)
Theorem C144_types : forall d, (1 <= d <= 3)%nat ->
  (forall t m, In t [linearStress d; PK2Stress d; kirchhoffStress d; cauchyStress d] -> m_rows m = d -> m_cols m = d -> symmetric d (m_entry m) ->
     exists v, asVec t (AsMatrix m) = Returns v /\ v_size v = voigtLength d /\
       forall k, (k < voigtLength d)%nat -> v_entry v k = voigtVector d false (m_entry m) k) /\
  (forall t m, In t [linearStressFull; PK2StressFull; cauchyStressFull] -> m_rows m = 3%nat -> m_cols m = 3%nat -> symmetric 3 (m_entry m) ->
     exists v, asVec t (AsMatrix m) = Returns v /\ v_size v = 6%nat /\
       forall k, (k < 6)%nat -> v_entry v k = voigtVector 3 false (m_entry m) k) /\
  (forall t v, In t [director d; magnetization d; vectorPotential d; BField d; HField d] -> v_size v = d ->
     exists m, asMat t (AsVector v) None None = Returns m /\ m_rows m = d /\ m_cols m = 1%nat /\ forall i, (i < d)%nat -> m_entry m i 0%nat = v_entry v i) /\
  (forall t v, In t [gradientNormOfMagnetization; divergenceOfVectorPotential; cauchyAxialForce; PK2AxialForce; linearAxialForce] -> v_size v = 1%nat ->
     exists m, asMat t (AsVector v) None None = Returns m /\ m_rows m = 1%nat /\ m_cols m = 1%nat /\ m_entry m 0%nat 0%nat = v_entry v 0%nat).
Proof.
  intros d Hd. split; [|split; [|split]].
  - intros t m Ht R C Sy. assert (E : t = Symmetric d false) by (repeat (destruct Ht as [<-|Ht]; [reflexivity|]); destruct Ht). subst t.
    destruct (C144_from_matrix (Symmetric d false) m None None Hd (conj R (conj C Sy))) as [(v & E & _ & _ & S & V) _]. exists v. auto.
  - intros t m Ht R C Sy. assert (E : t = Symmetric 3 false) by (repeat (destruct Ht as [<-|Ht]; [reflexivity|]); destruct Ht). subst t.
    destruct (C144_from_matrix (Symmetric 3 false) m None None ltac:(cbn; lia) (conj R (conj C Sy))) as [(v & E & _ & _ & S & V) _]. exists v. auto.
  - intros t v Ht S. assert (E : t = General (Some d) (Some 1%nat)) by (repeat (destruct Ht as [<-|Ht]; [reflexivity|]); destruct Ht). subst t.
    unfold asMat. cbn [rowsAtCompileTime colsAtCompileTime argumentOr agrees matricize]. rewrite !Nat.eqb_refl. cbn [andb]. rewrite S, Nat.mul_1_r, Nat.eqb_refl.
    eexists. split; [reflexivity|]. cbn. auto.
  - intros t v Ht S. assert (E : t = General (Some 1%nat) (Some 1%nat)) by (repeat (destruct Ht as [<-|Ht]; [reflexivity|]); destruct Ht). subst t.
    unfold asMat. cbn [rowsAtCompileTime colsAtCompileTime argumentOr agrees matricize]. rewrite !Nat.eqb_refl. cbn [andb]. rewrite S, Nat.mul_1_r, Nat.eqb_refl.
    eexists. split; [reflexivity|]. cbn. auto.
Qed.
Print Assumptions C144_types.

Example C144_applies :
  goodDimension (linearStress 3) /\
  fits (linearStress 3) {| m_rows := 3; m_cols := 3; m_entry := entries [[1; 6; 5]; [6; 2; 4]; [5; 4; 3]] |} /\
  fitsVector customType 2 3 {| v_size := 6; v_entry := fun k => INR k |} /\
  asMat customType (AsVector {| v_size := 6; v_entry := fun k => INR k |}) None None = AssertionFails.
Proof.
  split; [cbn; lia|]. split; [cbn; repeat split; auto|split; [cbn; auto|reflexivity]].
  intros i j Hi Hj. cases i; cases j; reflexivity.
Qed.
