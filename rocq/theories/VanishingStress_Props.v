(** C44, C70, C71: materials with vanishing stress or strain components. *)

From Coq Require Import List Arith ZArith Reals Lra Lia Bool Sorted.
From Coquelicot Require Import Coquelicot.
From Verif Require Import Tensor_Model Tensor_Spec Tensor_Props LinearAlgebra_Model LinearAlgebra_Spec LinearAlgebra_Proofs LinearAlgebra_Props.
From Verif Require Import Newton_Model Newton_Spec Newton_Proofs Newton_Props SVK_Model SVK_Spec SVK_Props VanishingStress_Model VanishingStress_Spec.
Import ListNotations.
Local Open Scope R_scope.

Lemma rgt_false a b : rgt a b = false -> a <= b.
Proof. unfold rgt. destruct (Rlt_dec b a); [discriminate|lra]. Qed.
Lemma rgt_spec a b : rgt a b = true <-> b < a.
Proof. unfold rgt. destruct (Rlt_dec b a); split; auto; try discriminate; lra. Qed.

Lemma sumL_sq_le l (f : nat -> R) : (forall a, In a l -> 0 <= f a) -> forall a, In a l -> f a <= sumL l f.
Proof.
  induction l as [|x l IH]; intros P a H; simpl in *; [tauto|].
  assert (Q : 0 <= sumL l f).
  { clear - P. induction l as [|y l IH]; simpl; [lra|]. assert (0 <= f y) by (apply P; simpl; auto).
    assert (0 <= sumL l f); [|lra]. apply IH. intros. apply P. simpl in *. tauto. }
  destruct H as [->|H]; [assert (0 <= f a) by auto; lra|].
  assert (f a <= sumL l f) by (apply IH; auto). assert (0 <= f x) by auto. lra.
Qed.

Lemma diagonal_lt i : isDiagonalIndex i = true <-> (i < 3)%nat.
Proof.
  destruct i as [|[|[|[|[|[|i]]]]]]; cbv; split; intros; try lia; try discriminate; auto.
Qed.

Lemma norm_bound fx tol r : normOf fx r <= tol -> forall a, (a < length (fixedDiagonal fx))%nat -> Rabs (r a) <= tol.
Proof.
  intros H a Ha. eapply Rle_trans; [|exact H]. unfold normOf. rewrite <- sqrt_Rsqr_abs. apply sqrt_le_1_alt. unfold Rsqr.
  apply (sumL_sq_le (seq 0 (length (fixedDiagonal fx))) (fun a => r a * r a)); [intros; nra|]. apply in_seq. lia.
Qed.

Ltac eqs := repeat match goal with |- context[(?x =? ?y)%nat] => destruct (Nat.eqb_spec x y) end; cbn [andb].

Lemma init_free unitStart : forall l E a b, ~ In (a, b) l -> ~ In (b, a) l ->
  fold_left (fun E p => setE (setE E (snd p) (fst p) (initialValue unitStart E p)) (fst p) (snd p) (initialValue unitStart E p)) l E a b = E a b.
Proof.
  induction l as [|[r c] l IH]; intros E a b H1 H2; simpl; auto. simpl in *. rewrite IH by tauto. cbv [setE].
  eqs; auto; exfalso; first [apply H1; left; congruence | apply H2; left; congruence].
Qed.

Lemma init_off unitStart : forall l E a b, a <> b -> E a b = 0 \/ In (a, b) l \/ In (b, a) l ->
  fold_left (fun E p => setE (setE E (snd p) (fst p) (initialValue unitStart E p)) (fst p) (snd p) (initialValue unitStart E p)) l E a b = 0.
Proof.
  induction l as [|[r c] l IH]; intros E a b N H; simpl in *; [tauto|]. apply IH; auto. cbv [setE].
  eqs; subst; try congruence; auto;
  destruct H as [H|[[H|H]|[H|H]]]; try (injection H; intros; congruence); auto.
Qed.

Lemma update_other : forall idx ri c E a b, (forall i, In i idx -> (i < 3)%nat) -> ~ (a = b /\ In a idx) ->
  updateFrom idx ri c E a b = E a b.
Proof.
  induction idx as [|i idx IH]; intros ri c E a b B H; cbn [updateFrom]; auto. cbn [In] in *. rewrite IH; auto; [|tauto].
  assert (Q : fromVoigtIndex 3 i = Some (i, i)).
  { assert (i < 3)%nat by auto. cases i; reflexivity. }
  rewrite Q. cbv [setE].
  destruct (Nat.eqb_spec a i); destruct (Nat.eqb_spec b i); subst; simpl; auto. tauto.
Qed.

Section General.
Variable stress : rmat -> nat -> R.
Variable moduli : rmat -> rmat.
Variable factor : R.
Variable unitStart : bool.
Variable inverse : nat -> rmat -> rmat.
Variable fixed : list (nat * nat).
Variable fx : list nat.
Variable tol : R.

(** C70, part that holds for every material: the result of the stress reduction satisfies the tolerance for the fixed diagonal
    stresses, its fixed shear strains are zero and the components that are not fixed are those given. *)
Theorem C70_reduction_partial : forall E E',
  (forall k, In k fx -> (k < 3)%nat -> In (k, k) fixed) ->
  reduceStress stress moduli factor unitStart inverse fixed fx tol E = Some E' ->
  (forall k, In k fx -> (k < 3)%nat -> Rabs (stress E' k) <= tol) /\
  (forall r c, In (r, c) fixed -> r <> c -> E' r c = 0 /\ E' c r = 0) /\
  (forall a b, ~ In (a, b) fixed -> ~ In (b, a) fixed -> E' a b = E a b).
Proof.
  intros E E' HF H. unfold reduceStress in H.
  match type of H with (match ?t with _ => _ end) = _ => destruct t as [s|] eqn:K; [|discriminate] end.
  destruct (i_success (s_info s)) eqn:Su; [|discriminate]. injection H as <-.
  eapply (C17_success_converged_partial _ _ _ _ _ _ _ _ _ _ (mkNRSettings tol 100 0)) in K; [|reflexivity|simpl; lia|auto|auto].
  destruct K as (G & (w & Hw & _) & _ & F). rewrite Hw in G. apply rgt_false in G. simpl in G.
  assert (B : forall i, In i (fixedDiagonal fx) -> (i < 3)%nat).
  { intros i Hi. apply filter_In in Hi. now apply diagonal_lt. }
  assert (O : forall a b, ~ (a = b /\ In a (fixedDiagonal fx)) -> s_d s a b = initUnknownStrains unitStart fixed E a b).
  { intros a b N. rewrite F. clear F. generalize (initUnknownStrains unitStart fixed E).
    induction (corrections (s_trace s)) as [|c l IH]; intros e; simpl; auto. rewrite IH. unfold updateOf. now apply update_other. }
  split; [|split].
  - intros k Hk K3. assert (I : In k (fixedDiagonal fx)) by (apply filter_In; split; auto; now apply diagonal_lt).
    destruct (In_nth _ _ 0%nat I) as (a & Ha & <-). exact (norm_bound _ _ _ G a Ha).
  - intros r c Hi N. assert (Z : forall x y, x <> y -> In (x, y) fixed \/ In (y, x) fixed -> s_d s x y = 0).
    { intros x y Nxy Hxy. rewrite O by tauto. unfold initUnknownStrains. apply init_off; auto. }
    split; apply Z; auto.
  - intros a b N1 N2. rewrite O.
    + unfold initUnknownStrains. now apply init_free.
    + intros [<- I]. apply filter_In in I. apply N1. apply HF; [tauto|]. now apply diagonal_lt.
Qed.
End General.
Print Assumptions C70_reduction_partial.

(** ** St. Venant-Kirchhoff *)
Section SVKvanishing.
Variables lambda mu tol : R.
Variable inverse : nat -> rmat -> rmat.
Hypothesis Hmu : 0 < mu.
Hypothesis Hla : 0 < 3 * lambda + 2 * mu.
Hypothesis Htol : 0 <= tol.
Hypothesis Hinv : inverts inverse.
Variable fixed : list (nat * nat).
Variable fx : list nat.
Hypothesis Hsort : StronglySorted lt fx.
Hypothesis Hfx6 : forall k, In k fx -> (k < 6)%nat.
(** the Voigt indices of the fixed components *)
Hypothesis Hfix : forall k, In k fx -> let (i, j) := component 3 k in In (i, j) fixed \/ In (j, i) fixed.
Hypothesis Hfix' : forall i j, In (i, j) fixed -> exists k, In k fx /\ (component 3 k = (i, j) \/ component 3 k = (j, i)).

Definition svkStress (E : rmat) : nat -> R := stressesImplVoigt lambda mu (Matrix33 E).
Definition svkModuli (E : rmat) : rmat := tangentModuliImplVoigt lambda mu.


Lemma sumL_delta l : forall a f, NoDup l -> In a l -> (forall b, In b l -> b <> a -> f b = 0) -> sumL l f = f a.
Proof.
  induction l as [|x l IH]; intros a f N I Z; simpl in *; [tauto|]. inversion N; subst.
  assert (Q : ~ In a l -> sumL l f = 0).
  { intros NI. rewrite <- (sumL_0 l). apply sumL_ext. intros y Hy. apply Z; auto. congruence. }
  destruct I as [->|I]; [rewrite Q by auto; ring|]. rewrite (IH a) by auto. rewrite Z; auto; [ring|]. intros ->. auto.
Qed.

Lemma sum_seq n f : sum n f = sumL (seq 0 n) f.
Proof. induction n as [|n IH]; [reflexivity|]. rewrite seq_S, sumL_app. simpl. rewrite IH. ring. Qed.

Lemma filter_sorted f l : StronglySorted lt l -> StronglySorted lt (filter f l).
Proof.
  induction 1 as [|a l S IH F]; simpl; [constructor|]. destruct (f a); auto. constructor; auto.
  apply Forall_forall. intros x Hx. apply filter_In in Hx. rewrite Forall_forall in F. apply F. tauto.
Qed.

Lemma diag_NoDup : NoDup (fixedDiagonal fx).
Proof. apply sorted_NoDup. now apply filter_sorted. Qed.
Lemma diag_lt3 i : In i (fixedDiagonal fx) -> (i < 3)%nat.
Proof. intros H. apply filter_In in H. now apply diagonal_lt. Qed.

Lemma voigtDiag i : (i < 3)%nat -> fromVoigtIndex 3 i = Some (i, i).
Proof. intros H. cases i; reflexivity. Qed.

Lemma update_diag c : forall idx ri E k, NoDup idx -> (forall i, In i idx -> (i < 3)%nat) -> (k < length idx)%nat ->
  updateFrom idx ri c E (nth k idx 0%nat) (nth k idx 0%nat) = E (nth k idx 0%nat) (nth k idx 0%nat) + c (ri + k)%nat.
Proof.
  induction idx as [|i idx IH]; intros ri E k N B Hk; cbn [updateFrom In length nth] in *; [lia|]. inversion N; subst.
  assert (V : fromVoigtIndex 3 i = Some (i, i)) by (apply voigtDiag; auto).
  destruct k as [|k].
  - rewrite update_other; [|auto|tauto]. rewrite V. unfold setE. rewrite Nat.eqb_refl. simpl. do 2 f_equal. lia.
  - rewrite IH; [|auto|auto|lia]. rewrite V. f_equal; [|f_equal; lia]. unfold setE.
    destruct (Nat.eqb_spec (nth k idx 0%nat) i) as [Q|Q]; auto. exfalso. apply H1. rewrite <- Q. apply nth_In. lia.
Qed.

Lemma update_trace c : forall idx ri E, NoDup idx -> (forall i, In i idx -> (i < 3)%nat) ->
  trace (updateFrom idx ri c E) = trace E + sumL (seq ri (length idx)) c.
Proof.
  induction idx as [|i idx IH]; intros ri E N B; cbn [updateFrom In length seq sumL] in *; [ring|]. inversion N; subst. rewrite IH by auto.
  assert (V : fromVoigtIndex 3 i = Some (i, i)) by (apply voigtDiag; auto). rewrite V.
  assert (i < 3)%nat by auto. unfold trace, setE. cases i; cbn; ring.
Qed.

Lemma svk_diag E k : (k < 3)%nat -> svkStress E k = lambda * trace E + 2 * mu * E k k.
Proof. intros H. unfold svkStress. cases k; cbn; ring. Qed.
Lemma svkModuli_diag E i j : (i < 3)%nat -> (j < 3)%nat -> svkModuli E i j = lambda + 2 * mu * identity i j.
Proof. intros Hi Hj. unfold svkModuli, identity. cases i; cases j; cbn; ring. Qed.

(** The fixed block is invertible *)
Lemma svk_block E n idx : NoDup idx -> (forall i, In i idx -> (i < 3)%nat) -> n = length idx ->
  isInverse n (fun a b => svkModuli E (nth a idx 0%nat) (nth b idx 0%nat) / 1)
   (inverse n (fun a b => svkModuli E (nth a idx 0%nat) (nth b idx 0%nat) / 1)).
Proof.
  intros N B ->. apply Hinv. set (n := length idx). set (d := 2 * mu + INR n * lambda).
  assert (n <= 3)%nat.
  { unfold n. change 3%nat with (length (seq 0 3)). apply NoDup_incl_length; auto. intros i Hi. apply in_seq. assert (H := B i Hi). lia. }
  exists (fun a b => identity a b / (2 * mu) - lambda / (2 * mu * d)).
  assert (M : forall a b, (a < n)%nat -> (b < n)%nat -> svkModuli E (nth a idx 0%nat) (nth b idx 0%nat) / 1 = lambda + 2 * mu * identity a b).
  { intros a b Ha Hb. rewrite svkModuli_diag by (apply B; apply nth_In; auto). unfold Rdiv. rewrite Rinv_1, Rmult_1_r. f_equal. f_equal.
    unfold identity. destruct (Nat.eqb_spec a b) as [->|Q].
    - now rewrite Nat.eqb_refl.
    - destruct (Nat.eqb_spec (nth a idx 0%nat) (nth b idx 0%nat)) as [R|R]; auto. exfalso. apply Q.
      apply (proj1 (NoDup_nth idx 0%nat) N); auto. }
  intros i j Hi Hj. unfold mul.
  assert (X : forall f g, (forall k, (k < n)%nat -> f k = g k) -> sum n f = sum n g).
  { clear. induction n as [|n IH]; intros f g H; simpl; auto. rewrite (IH f g) by (intros; apply H; lia). now rewrite H by lia. }
  split; (erewrite X; [|intros k Hk; rewrite M by auto; reflexivity]); clear M X; unfold d; clearbody n;
  assert (Q : n = 1%nat \/ n = 2%nat \/ n = 3%nat) by lia; destruct Q as [->|[->| ->]]; cases i; cases j; unfold identity; cbn; field; lra.
Qed.

(** One Newton step makes the fixed normal stresses zero *)
Lemma svk_step E a : (a < length (fixedDiagonal fx))%nat ->
  residualOf svkStress fx (updateOf fx E (correctionOf inverse fx (jacobianOf svkModuli 1 fx E) (residualOf svkStress fx E))) a = 0.
Proof.
  intros Ha. assert (N := diag_NoDup). assert (B := diag_lt3). set (idx := fixedDiagonal fx) in *.
  assert (I := svk_block E (length idx) idx N B eq_refl).
  unfold residualOf at 1. fold idx. rewrite svk_diag by (apply B; now apply nth_In). unfold updateOf. fold idx.
  set (c := correctionOf _ _ _ _). rewrite update_trace, update_diag by auto. rewrite Nat.add_0_l.
  transitivity (residualOf svkStress fx E a + sumL (seq 0 (length idx)) (fun b => (svkModuli E (nth a idx 0%nat) (nth b idx 0%nat) / 1) * c b)).
  { unfold residualOf. fold idx. rewrite svk_diag by (apply B; now apply nth_In).
    erewrite (sumL_ext _ (fun b => svkModuli E (nth a idx 0%nat) (nth b idx 0%nat) / 1 * c b) (fun b => lambda * c b + 2 * mu * (identity a b * c b))).
    - rewrite sumL_add. rewrite !sumL_mul_l. rewrite (sumL_delta _ a (fun b => identity a b * c b)).
      + unfold identity. rewrite Nat.eqb_refl. ring.
      + apply seq_NoDup.
      + apply in_seq. lia.
      + intros b _ Q. unfold identity. destruct (Nat.eqb_spec a b); [congruence|ring].
    - intros b Hb. apply in_seq in Hb. rewrite svkModuli_diag by (apply B; apply nth_In; lia). unfold identity.
      destruct (Nat.eqb_spec a b) as [->|Q].
      + rewrite Nat.eqb_refl. field.
      + destruct (Nat.eqb_spec (nth a idx 0%nat) (nth b idx 0%nat)) as [R|R]; [|field]. exfalso. apply Q.
        apply (proj1 (NoDup_nth idx 0%nat) N); auto; lia. }
  rewrite (sumL_ext _ _ (fun b => - sumL (seq 0 (length idx)) (fun d => svkModuli E (nth a idx 0%nat) (nth b idx 0%nat) / 1 *
     inverse (length idx) (fun a b => svkModuli E (nth a idx 0%nat) (nth b idx 0%nat) / 1) b d * residualOf svkStress fx E d))).
  2:{ intros b _. unfold c, correctionOf, jacobianOf. fold idx. rewrite Ropp_mult_distr_r_reverse. f_equal. rewrite <- sumL_mul_l.
      apply sumL_ext. intros d _. ring. }
  rewrite (sumL_ext _ _ (fun b => (-1) * sumL (seq 0 (length idx)) (fun d => svkModuli E (nth a idx 0%nat) (nth b idx 0%nat) / 1 *
     inverse (length idx) (fun a b => svkModuli E (nth a idx 0%nat) (nth b idx 0%nat) / 1) b d * residualOf svkStress fx E d))) by (intros; ring).
  rewrite sumL_mul_l, sumL_swap.
  rewrite (sumL_ext _ _ (fun d => identity a d * residualOf svkStress fx E d)).
  - rewrite (sumL_delta _ a).
    + unfold identity. rewrite Nat.eqb_refl. ring.
    + apply seq_NoDup.
    + apply in_seq. lia.
    + intros b _ Q. unfold identity. destruct (Nat.eqb_spec a b); [congruence|ring].
  - intros d Hd. apply in_seq in Hd. rewrite sumL_mul_r. f_equal. rewrite <- (proj1 (I a d Ha ltac:(lia))). unfold mul.
    rewrite sum_seq. reflexivity.
Qed.

Notation reduce := (reduceStress svkStress svkModuli 1 false inverse fixed fx tol).

(** No iteration is made when the norm is within the tolerance *)
Lemma reduce_zero E : normOf fx (residualOf svkStress fx (initUnknownStrains false fixed E)) <= tol ->
  reduce E = Some (initUnknownStrains false fixed E).
Proof.
  intros H. unfold reduceStress, nrSolve, nrStart. cbv zeta.
  change (Z.to_nat (Z.max (nr_maxIter (mkNRSettings tol 100 0)) (nr_minIter (mkNRSettings tol 100 0)))) with (Datatypes.S 99).
  cbn [nrLoop]. unfold nrCond. cbn [nr_tol nr_maxIter nr_minIter emit s_d s_w].
  destruct (rgt _ tol) eqn:G; [apply rgt_spec in G; lra|]. reflexivity.
Qed.

Lemma reduce_one E : tol < normOf fx (residualOf svkStress fx (initUnknownStrains false fixed E)) ->
  exists E', reduce E = Some E' /\ forall a, (a < length (fixedDiagonal fx))%nat -> residualOf svkStress fx E' a = 0.
Proof.
  intros H. set (x := initUnknownStrains false fixed E) in *.
  set (E' := updateOf fx x (correctionOf inverse fx (jacobianOf svkModuli 1 fx x) (residualOf svkStress fx x))).
  assert (Z : forall a, (a < length (fixedDiagonal fx))%nat -> residualOf svkStress fx E' a = 0) by (intros; now apply svk_step).
  exists E'. split; auto. unfold reduceStress. fold x.
  destruct (nrSolve_one (W := unit) rgt 0 (fun _ => residualOf svkStress fx) (fun _ => jacobianOf svkModuli 1 fx) (normOf fx) (normOf fx)
     (correctionOf inverse fx) (updateOf fx) None (fun _ _ _ _ w => w) (mkNRSettings tol 100 0) x (fun _ => 0) tt) as (s & w1 & Hs & _ & Su & Sd); auto.
  - intros _. unfold nrCond. cbn [nr_tol nr_maxIter nr_minIter]. rewrite (proj2 (rgt_spec _ tol)) by auto. reflexivity.
  - intros _ _ _. unfold nrCond. cbn [nr_tol nr_maxIter nr_minIter]. fold E'.
    destruct (rgt _ tol) eqn:G; auto. apply rgt_spec in G. exfalso.
    assert (N : normOf fx (residualOf svkStress fx E') = 0); [|lra].
    unfold normOf. rewrite (sumL_ext _ _ (fun _ => 0)).
    + rewrite sumL_0. apply sqrt_0.
    + intros a Ha. apply in_seq in Ha. rewrite Z by lia. ring.
  - simpl. lia.
  - rewrite Hs, Su, Sd. reflexivity.
Qed.

(** C44: for every set of fixed components the reduction succeeds, the fixed stresses are within the tolerance, and they vanish
    if an iteration was necessary. *)
Theorem C44_reduction : forall E, symmetric 3 E ->
  exists E', reduce E = Some E' /\ symmetric 3 E' /\
  (forall k, (k < 6)%nat -> ~ In k fx -> strainVector 3 E' k = strainVector 3 E k) /\
  (forall k, In k fx -> (3 <= k)%nat -> svkStress E' k = 0) /\
  (forall k, In k fx -> Rabs (svkStress E' k) <= tol) /\
  (tol < normOf fx (residualOf svkStress fx (initUnknownStrains false fixed E)) -> forall k, In k fx -> svkStress E' k = 0).
Proof.
  intros E Sy.
  assert (R : exists E', reduce E = Some E' /\ (tol < normOf fx (residualOf svkStress fx (initUnknownStrains false fixed E)) ->
     forall a, (a < length (fixedDiagonal fx))%nat -> residualOf svkStress fx E' a = 0)).
  { destruct (Rlt_dec tol (normOf fx (residualOf svkStress fx (initUnknownStrains false fixed E)))) as [L|L].
    - destruct (reduce_one E L) as (E' & H1 & H2). eauto.
    - exists (initUnknownStrains false fixed E). split; [apply reduce_zero; lra|tauto]. }
  destruct R as (E' & HE & HZ). exists E'. split; auto.
  destruct (C70_reduction_partial svkStress svkModuli 1 false inverse fixed fx tol E E') as (T & O & F); auto.
  { intros k Hk K3. assert (Q := Hfix k Hk). cases k; cbn in Q; tauto. }
  assert (dec : forall p, {In p fixed} + {~ In p fixed}).
  { intros p. apply in_dec. intros [a b] [c d]. destruct (Nat.eq_dec a c); [destruct (Nat.eq_dec b d); [left|right]|right]; congruence. }
  assert (S' : symmetric 3 E').
  { intros i j Hi Hj. destruct (Nat.eq_dec i j) as [->|N]; auto.
    destruct (dec (i, j)) as [I|I]; [destruct (O i j I N); lra|].
    destruct (dec (j, i)) as [J|J]; [destruct (O j i J); auto; lra|]. rewrite !F by auto. auto. }
  assert (Sh : forall k, In k fx -> (3 <= k)%nat -> svkStress E' k = 0).
  { intros k Hk K3. assert (K6 := Hfx6 k Hk). assert (Q := Hfix k Hk).
    cases k; try lia; cbn in Q; unfold svkStress; cbn; (destruct Q as [Q|Q]; apply O in Q as [Z1 Z2]; [rewrite ?Z1, ?Z2; ring|lia|rewrite ?Z1, ?Z2; ring|lia]). }
  split; auto. split; [|split; [|split]]; auto.
  - intros k Hk N. unfold strainVector. destruct (component 3 k) as [i j] eqn:C.
    assert (M : forall a b, (component 3 k = (a, b) \/ component 3 k = (b, a)) -> ~ In (a, b) fixed).
    { intros a b Hc I. destruct (Hfix' a b I) as (k' & I' & C'). assert (K6 := Hfx6 k' I').
      assert (k = k'); [|congruence]. clear - Hc C' Hk K6. cases k; cases k'; cbn in *; auto; exfalso;
      destruct Hc as [Hc|Hc]; destruct C' as [C'|C']; injection Hc; injection C'; intros; subst; discriminate. }
    rewrite !(F i j) by (apply M; auto). reflexivity.
  - intros k Hk. destruct (lt_dec k 3) as [K3|K3]; auto. rewrite Sh by (auto; lia). rewrite Rabs_R0. exact Htol.
  - intros L k Hk. destruct (lt_dec k 3) as [K3|K3]; [|apply Sh; auto; lia].
    assert (I : In k (fixedDiagonal fx)) by (apply filter_In; split; auto; now apply diagonal_lt).
    destruct (In_nth _ _ 0%nat I) as (a & Ha & <-). now apply HZ.
Qed.

(** The fixed block of the moduli is invertible *)
Lemma block_invertible E : blockInverse (svkModuli E) fx (inverse (length fx) (positions fx (svkModuli E))).
Proof.
  assert (ND := sorted_NoDup _ Hsort). set (n := length fx).
  set (m := sumL fx (fun k => if (k <? 3)%nat then 1 else 0)). set (d := 2 * mu + m * lambda).
  assert (Hm : 0 <= m <= 3).
  { split.
    - unfold m. clear. induction fx; simpl; [lra|]. destruct (a <? 3)%nat; lra.
    - unfold m. assert (P : forall l, NoDup l -> sumL l (fun k => if (k <? 3)%nat then 1 else 0) = INR (length (filter (fun k => k <? 3)%nat l))).
      { clear. induction 1 as [|x l N ND IH]; simpl; auto. destruct (x <? 3)%nat; [rewrite IH; simpl length; rewrite S_INR; ring|rewrite IH; ring]. }
      rewrite P by auto. replace 3 with (INR 3) by (simpl; ring). apply le_INR. change 3%nat with (length (seq 0 3)).
      apply NoDup_incl_length; [now apply NoDup_filter|]. intros x Hx. apply filter_In in Hx as [_ Hx]. apply Nat.ltb_lt in Hx.
      rewrite seq_length in Hx. apply in_seq. lia. }
  assert (Hd : 0 < d).
  { unfold d. destruct (Rle_dec 0 lambda); [assert (0 <= m * lambda) by (apply Rmult_le_pos; lra); lra|]. nra. }
  set (D' := fun k l : nat => if (k <? 3)%nat then (if (l <? 3)%nat then identity k l / (2 * mu) - lambda / (2 * mu * d) else 0)
                             else (if (l <? 3)%nat then 0 else identity k l / mu)).
  set (C' := fun k l : nat => if (k <? 3)%nat then (if (l <? 3)%nat then lambda + 2 * mu * identity k l else 0)
                             else (if (l <? 3)%nat then 0 else mu * identity k l)).
  assert (HC : forall k l, In k fx -> In l fx -> svkModuli E k l = C' k l).
  { intros k l Hk Hl. apply Hfx6 in Hk, Hl. unfold svkModuli, C'. cases k; cases l; cbn; unfold identity; cbn; ring. }
  assert (J : forall i j, In i fx -> In j fx -> sumL fx (fun k => C' i k * D' k j) = identity i j).
  { intros i j Hi Hj. unfold C', D'. destruct (Nat.ltb_spec i 3) as [Li|Li]; destruct (Nat.ltb_spec j 3) as [Lj|Lj].
    - rewrite (sumL_ext _ _ (fun k => (- (lambda * (lambda / (2 * mu * d)))) * (if (k <? 3)%nat then 1 else 0)
         + lambda / (2 * mu) * identity k j - 2 * mu * (lambda / (2 * mu * d)) * identity i k + identity i k * identity k j)).
      + rewrite !sumL_add, sumL_sub, sumL_add, !sumL_mul_l. fold m.
        rewrite (sumL_delta fx j (fun k => identity k j)); auto; [|intros b _ Nb; unfold identity; eqs; congruence].
        rewrite (sumL_delta fx i (identity i)); auto; [|intros b _ Nb; unfold identity; eqs; congruence].
        rewrite (sumL_delta fx i (fun k => identity i k * identity k j)); auto; [|intros b _ Nb; unfold identity; eqs; try congruence; ring].
        unfold identity. rewrite !Nat.eqb_refl. unfold d. destruct (i =? j)%nat; field; unfold d in Hd; lra.
      + intros k Hk. unfold identity. destruct (Nat.ltb_spec k 3) as [Lk|Lk].
        * eqs; subst; try congruence; field; lra.
        * eqs; subst; try lia; try congruence; ring.
    - rewrite (sumL_ext _ _ (fun _ => 0)); [rewrite sumL_0; unfold identity; eqs; [lia|ring]|].
      intros k Hk. destruct (k <? 3)%nat; ring.
    - rewrite (sumL_ext _ _ (fun _ => 0)); [rewrite sumL_0; unfold identity; eqs; [lia|ring]|].
      intros k Hk. destruct (k <? 3)%nat; ring.
    - rewrite (sumL_delta fx i); auto.
      + destruct (Nat.ltb_spec i 3); [lia|]. unfold identity. rewrite Nat.eqb_refl. destruct (i =? j)%nat; field; lra.
      + intros b Hb Nb. destruct (Nat.ltb_spec b 3); [ring|]. unfold identity at 1. eqs; [congruence|ring]. }
  assert (J' : forall i j, In i fx -> In j fx -> sumL fx (fun k => D' i k * C' k j) = identity i j).
  { intros i j Hi Hj. assert (sC : forall k l, C' k l = C' l k).
    { intros. unfold C', identity. rewrite (Nat.eqb_sym k l). destruct (k <? 3)%nat; destruct (l <? 3)%nat; ring. }
    assert (sD : forall k l, D' k l = D' l k).
    { intros. unfold D', identity. rewrite (Nat.eqb_sym k l). destruct (k <? 3)%nat; destruct (l <? 3)%nat; auto. }
    replace (identity i j) with (identity j i) by (unfold identity; now rewrite Nat.eqb_sym). rewrite <- J by auto.
    apply sumL_ext. intros k Hk. rewrite (sC k j), (sD i k). ring. }
  assert (Inv : isInverse n (positions fx (svkModuli E)) (inverse n (positions fx (svkModuli E)))).
  { apply Hinv. exists (positions fx D'). intros i j Hi Hj.
    assert (K : identity i j = identity (nth i fx 0%nat) (nth j fx 0%nat)).
    { unfold identity. destruct (Nat.eqb_spec i j) as [->|Q]; [now rewrite Nat.eqb_refl|].
      destruct (Nat.eqb_spec (nth i fx 0%nat) (nth j fx 0%nat)) as [Q'|Q']; auto. exfalso. apply Q.
      apply (proj1 (NoDup_nth fx 0%nat) ND); auto. }
    rewrite K. rewrite <- (J (nth i fx 0%nat) (nth j fx 0%nat)) at 1 by now apply nth_In.
    rewrite <- (J' (nth i fx 0%nat) (nth j fx 0%nat)) by now apply nth_In.
    unfold mul. rewrite !sum_seq. rewrite (sumL_nth fx), (sumL_nth fx (fun k => D' _ _ * C' _ _)). fold n. unfold positions.
    split; apply sumL_ext; intros k Hk; apply in_seq in Hk; rewrite HC; auto; apply nth_In; lia. }
  intros a c Ha Hc. rewrite sumTo_seq, <- sum_seq. exact (proj2 (Inv a c Ha Hc)).
Qed.

(** The returned stress is the returned tangent applied to the given strain, if an iteration was necessary. *)
Theorem C44_stress_is_tangent_strain : forall E, symmetric 3 E ->
  tol < normOf fx (residualOf svkStress fx (initUnknownStrains false fixed E)) ->
  exists rem s K,
    vsStressesVoigt svkStress svkModuli 1 false inverse fixed fx tol E = Some (length rem, s) /\
    vsModuliVoigt svkStress svkModuli 1 false inverse fixed fx tol E = Some (length rem, K) /\
    StronglySorted lt rem /\ (forall i, In i rem <-> (i < 6)%nat /\ ~ In i fx) /\
    forall i, (i < length rem)%nat -> s i = row (length rem) K (fun j => strainVector 3 E (nth j rem 0%nat)) i.
Proof.
  intros E Sy L. destruct (C44_reduction E Sy) as (E' & HE & S' & F & _ & _ & Z). specialize (Z L).
  assert (RowS : forall k, (k < 6)%nat -> row 6 (svkModuli E') (strainVector 3 E') k = svkStress E' k).
  { intros k Hk. unfold row, svkModuli, svkStress. cases k; cbn; unfold trace; ring. }
  assert (SyM : Tensor_Spec.symmetric 6 (svkModuli E')).
  { intros i j Hi Hj. unfold svkModuli. cases i; cases j; reflexivity. }
  destruct (C40_condensation_partial 6 (svkModuli E') fx (inverse (length fx) (positions fx (svkModuli E'))) (strainVector 3 E') Hsort Hfx6 SyM
    (block_invertible E')) as (rem & K & EK & SR & IR & HK).
  { intros i Hi. rewrite RowS by auto. now apply Z. }
  destruct (remaining_ok 6 fx Hsort Hfx6) as (rem' & ER & LR & SR' & IR' & PR).
  assert (rem' = rem).
  { clear - SR SR' IR IR'. revert rem' SR' IR'. assert (U : forall l l' : list nat, StronglySorted lt l -> StronglySorted lt l' -> (forall x, In x l <-> In x l') -> l' = l).
    { clear. induction l as [|x l IH]; intros [|y l'] S1 S2 H; auto.
      - exfalso. apply (H y). simpl; auto.
      - exfalso. apply (H x). simpl; auto.
      - inversion S1 as [|? ? S1' F1]; subst. inversion S2 as [|? ? S2' F2]; subst. rewrite Forall_forall in F1, F2.
        assert (x = y).
        { destruct (proj1 (H x)) as [Q|Q]; [simpl; auto|auto|]. destruct (proj2 (H y)) as [Q'|Q']; [simpl; auto|auto|].
          apply F2 in Q. apply F1 in Q'. lia. }
        subst y. f_equal. apply IH; auto. intros z. split; intros Hz.
        + destruct (proj1 (H z)) as [Q|Q]; [simpl; auto| |auto]. subst z. apply F1 in Hz. lia.
        + destruct (proj2 (H z)) as [Q|Q]; [simpl; auto| |auto]. subst z. apply F2 in Hz. lia. }
    intros rem' S3 I3. apply U; auto. intros x. rewrite IR, I3. tauto. }
  subst rem'. unfold vsStressesVoigt, vsModuliVoigt, removeCol. rewrite HE, ER. do 3 eexists. split; [reflexivity|].
  split; [exact EK|]. split; auto. split; auto. intros i Hi. cbv beta.
  assert (I6 : (nth i rem 0 < 6)%nat) by (apply IR; now apply nth_In).
  rewrite <- RowS by auto. rewrite <- HK by auto. unfold row. rewrite !sumTo_seq. apply sumL_ext. intros j Hj. apply in_seq in Hj.
  assert (Hr : In (nth j rem 0%nat) rem) by (apply nth_In; lia). apply IR in Hr as [Hr1 Hr2]. now rewrite F.
Qed.
End SVKvanishing.
Print Assumptions C44_reduction.
Print Assumptions C44_stress_is_tangent_strain.

(** Plane stress: the tangent is the classical matrix and the returned stress is the matrix times the in-plane strain up to the
    tolerance. *)
Theorem C44_plane_stress : forall lambda mu tol inverse, 0 < mu -> 0 < 3 * lambda + 2 * mu -> 0 <= tol -> inverts inverse ->
  forall E, symmetric 3 E ->
  exists s K,
    vsStressesVoigt (svkStress lambda mu) (svkModuli lambda mu) 1 false inverse planeStressPairs planeStressIndices tol E = Some (3%nat, s) /\
    vsModuliVoigt (svkStress lambda mu) (svkModuli lambda mu) 1 false inverse planeStressPairs planeStressIndices tol E = Some (3%nat, K) /\
    (forall i j, (i < 3)%nat -> (j < 3)%nat -> K i j = planeStressMatrix (youngsModulus lambda mu) (poissonsRatio lambda mu) i j) /\
    forall i, (i < 3)%nat ->
      let e := fun j => match j with 0%nat => E 0%nat 0%nat | 1%nat => E 1%nat 1%nat | _ => 2 * E 0%nat 1%nat end in
      let classical := sum 3 (fun j => planeStressMatrix (youngsModulus lambda mu) (poissonsRatio lambda mu) i j * e j) in
      Rabs (s i - classical) <= Rabs (lambda / (lambda + 2 * mu)) * tol /\
      (tol < Rabs (lambda * tr E + 2 * mu * E 2%nat 2%nat) -> s i = classical).
Proof.
  intros lambda mu tol inverse Hmu Hla Htol Hinv E Sy.
  assert (A1 : StronglySorted lt planeStressIndices) by (repeat constructor).
  assert (A2 : forall k, In k planeStressIndices -> (k < 6)%nat) by (simpl; intuition lia).
  assert (A3 : forall k, In k planeStressIndices -> let (i, j) := component 3 k in In (i, j) planeStressPairs \/ In (j, i) planeStressPairs).
  { simpl. intuition; subst; cbn; auto. }
  assert (A4 : forall i j, In (i, j) planeStressPairs -> exists k, In k planeStressIndices /\ (component 3 k = (i, j) \/ component 3 k = (j, i))).
  { simpl. intros i j [H|[H|[H|[]]]]; injection H as <- <-.
    - exists 3%nat; cbn; auto. - exists 4%nat; cbn; auto. - exists 2%nat; cbn; auto. }
  destruct (C44_reduction lambda mu tol inverse Hmu Hla Htol Hinv planeStressPairs planeStressIndices A1 A2 A3 A4 E Sy)
    as (E' & HE & S' & F & Sh & T & Z).
  assert (B := block_invertible lambda mu inverse Hmu Hla Hinv planeStressIndices A1 A2 E').
  set (inv := inverse (length planeStressIndices) (positions planeStressIndices (svkModuli lambda mu E'))) in *.
  unfold vsStressesVoigt, vsModuliVoigt. rewrite HE. fold inv.
  do 2 eexists. split; [reflexivity|]. split; [reflexivity|].
  assert (I00 : inv 0%nat 0%nat = / (lambda + 2 * mu)).
  { assert (K := B 0%nat 0%nat ltac:(simpl; lia) ltac:(simpl; lia)). cbn in K. apply (Rmult_eq_reg_l (lambda + 2 * mu)); [|lra].
    rewrite Rinv_r by lra. lra. }
  assert (NP : 1 - poissonsRatio lambda mu ^ 2 <> 0).
  { unfold poissonsRatio. replace (1 - (lambda / (2 * (lambda + mu))) ^ 2) with ((3 * lambda + 2 * mu) * (lambda + 2 * mu) / (2 * (lambda + mu)) ^ 2) by (field; lra).
    apply Rgt_not_eq. apply Rdiv_lt_0_compat; [apply Rmult_lt_0_compat; lra|]. apply pow_lt. lra. }
  assert (P : youngsModulus lambda mu / (1 - poissonsRatio lambda mu ^ 2) = 4 * mu * (lambda + mu) / (lambda + 2 * mu)).
  { unfold youngsModulus. apply (Rmult_eq_reg_r (1 - poissonsRatio lambda mu ^ 2)); auto. unfold Rdiv at 1. rewrite Rmult_assoc, Rinv_l, Rmult_1_r by auto.
    unfold poissonsRatio. field. lra. }
  split.
  - intros i j Hi Hj. unfold planeStressMatrix. rewrite P. unfold poissonsRatio.
    cases i; cases j; cbn; rewrite ?I00; field; lra.
  - intros i Hi. cbv zeta.
    assert (F0 := F 0%nat ltac:(lia) ltac:(simpl; intuition lia)). assert (F1 := F 1%nat ltac:(lia) ltac:(simpl; intuition lia)).
    assert (F5 := F 5%nat ltac:(lia) ltac:(simpl; intuition lia)). cbn in F0, F1, F5.
    set (r := svkStress lambda mu E' 2%nat).
    assert (R33 : E' 2%nat 2%nat = (r - lambda * (E 0%nat 0%nat + E 1%nat 1%nat)) / (lambda + 2 * mu)).
    { unfold r, svkStress. cbn. unfold trace. rewrite F0, F1. field. lra. }
    assert (D : svkStress lambda mu E' (nth i [0%nat; 1%nat; 5%nat] 0%nat) -
       sum 3 (fun j => planeStressMatrix (youngsModulus lambda mu) (poissonsRatio lambda mu) i j *
          match j with 0%nat => E 0%nat 0%nat | 1%nat => E 1%nat 1%nat | _ => 2 * E 0%nat 1%nat end)
       = (if (i <? 2)%nat then lambda / (lambda + 2 * mu) else 0) * r).
    { unfold planeStressMatrix. rewrite P. unfold svkStress, poissonsRatio. cases i; cbn; unfold trace; rewrite ?R33, ?F0, ?F1.
      - field. lra.
      - field. lra.
      - replace (E' 0%nat 1%nat) with (E 0%nat 1%nat) by lra. field. lra. }
    change (svkStress lambda mu E' (nth i [0%nat; 1%nat; 5%nat] 0%nat)) with (stressesImplVoigt lambda mu (Matrix33 E') (nth i [0%nat; 1%nat; 5%nat] 0%nat)) in D.
    split.
    + match goal with |- Rabs (?a - _) <= _ => change a with (svkStress lambda mu E' (nth i [0%nat; 1%nat; 5%nat] 0%nat)) end.
      unfold svkStress at 1. rewrite D, Rabs_mult. assert (Tr := T 2%nat ltac:(simpl; auto)). fold r in Tr.
      apply Rmult_le_compat; try apply Rabs_pos; auto. destruct (i <? 2)%nat; [lra|]. rewrite Rabs_R0. apply Rabs_pos.
    + intros L. assert (r = 0).
      { apply Z; [|simpl; auto]. unfold normOf, residualOf. cbn. unfold trace, setE. cbn. rewrite Rplus_0_r.
        change (sqrt (Rsqr ((E 0%nat 0%nat + E 1%nat 1%nat + E 2%nat 2%nat) * lambda + 2 * mu * E 2%nat 2%nat)) > tol).
        rewrite sqrt_Rsqr_abs. unfold tr in L. cbn in L. replace ((E 0%nat 0%nat + E 1%nat 1%nat + E 2%nat 2%nat) * lambda + 2 * mu * E 2%nat 2%nat)
          with (lambda * (0 + E 0%nat 0%nat + E 1%nat 1%nat + E 2%nat 2%nat) + 2 * mu * E 2%nat 2%nat) by ring. exact L. }
      rewrite H in D. rewrite Rmult_0_r in D.
      match goal with |- ?a = _ => change a with (stressesImplVoigt lambda mu (Matrix33 E') (nth i [0%nat; 1%nat; 5%nat] 0%nat)) end. lra.
Qed.
Print Assumptions C44_plane_stress.

(** Steel-like parameters and a strain with in-plane components *)
Example C44_example : 0 < 1 /\ 0 < 3 * 2 + 2 * 1 /\ symmetric 3 (entries [[1; 2; 0]; [2; 4; 0]; [0; 0; 0]]) /\
  1 < Rabs (2 * tr (entries [[1; 2; 0]; [2; 4; 0]; [0; 0; 0]]) + 2 * 1 * 0) /\
  youngsModulus 2 1 = 8 / 3 /\ poissonsRatio 2 1 = 1 / 3.
Proof.
  split; [lra|]. split; [lra|]. split; [intros i j Hi Hj; cases i; cases j; reflexivity|].
  split; [unfold tr; cbn; rewrite Rabs_right; lra|]. unfold youngsModulus, poissonsRatio. split; field.
Qed.

(** ** C71: materials with vanishing strains *)
Section VanishingStrain.
Variable fixed : list (nat * nat).
Variable fx : list nat.
Hypothesis Hsort : StronglySorted lt fx.
Hypothesis Hfx6 : forall k, In k fx -> (k < 6)%nat.
Hypothesis Hfix : forall k, In k fx -> let (i, j) := component 3 k in In (i, j) fixed \/ In (j, i) fixed.
Hypothesis Hfix' : forall i j, In (i, j) fixed -> exists k, In k fx /\ (component 3 k = (i, j) \/ component 3 k = (j, i)).

Lemma zero_in : forall l E a b, E a b = 0 \/ In (a, b) l \/ In (b, a) l ->
  fold_left (fun E p => setE (setE E (fst p) (snd p) 0) (snd p) (fst p) 0) l E a b = 0.
Proof.
  induction l as [|[r c] l IH]; intros E a b H; simpl in *; [tauto|]. apply IH. cbv [setE].
  eqs; subst; auto; destruct H as [H|[[H|H]|[H|H]]]; try (injection H; intros; congruence); auto.
Qed.
Lemma zero_out : forall l E a b, ~ In (a, b) l -> ~ In (b, a) l ->
  fold_left (fun E p => setE (setE E (fst p) (snd p) 0) (snd p) (fst p) 0) l E a b = E a b.
Proof.
  induction l as [|[r c] l IH]; intros E a b H1 H2; simpl in *; auto. rewrite IH by tauto. cbv [setE].
  eqs; auto; exfalso; first [apply H1; left; congruence | apply H2; left; congruence].
Qed.

Lemma pair_dec (p : nat * nat) : {In p fixed} + {~ In p fixed}.
Proof. apply in_dec. intros [a b] [c d]. destruct (Nat.eq_dec a c); [destruct (Nat.eq_dec b d); [left|right]|right]; congruence. Qed.

Lemma zero_strain H k : symmetric 3 H -> (k < 6)%nat ->
  strainVector 3 (setStrainsToZero fixed H) k = if in_dec Nat.eq_dec k fx then 0 else strainVector 3 H k.
Proof.
  intros Sy Hk. unfold strainVector, setStrainsToZero. destruct (component 3 k) as [i j] eqn:C. destruct (in_dec Nat.eq_dec k fx) as [I|I].
  - assert (Q := Hfix k I). rewrite C in Q. rewrite zero_in by tauto. destruct (i =? j)%nat; ring.
  - assert (M : forall a b, (component 3 k = (a, b) \/ component 3 k = (b, a)) -> ~ In (a, b) fixed).
    { intros a b Hc J. destruct (Hfix' a b J) as (k' & I' & C'). assert (K6 := Hfx6 k' I').
      assert (k = k'); [|congruence]. clear - Hc C' Hk K6. cases k; cases k'; cbn in *; auto; exfalso;
      destruct Hc as [Hc|Hc]; destruct C' as [C'|C']; injection Hc; injection C'; intros; subst; discriminate. }
    rewrite zero_out; auto.
Qed.

Lemma zero_sym H : symmetric 3 H -> symmetric 3 (setStrainsToZero fixed H).
Proof.
  intros Sy i j Hi Hj. unfold setStrainsToZero. destruct (pair_dec (i, j)) as [I|I]; [rewrite !zero_in by auto; auto|].
  destruct (pair_dec (j, i)) as [J|J]; [rewrite !zero_in by auto; auto|]. rewrite !zero_out by auto. auto.
Qed.

Lemma zero_shift E H t : eq3 (setStrainsToZero fixed (shift E H t)) (shift (setStrainsToZero fixed E) (setStrainsToZero fixed H) t).
Proof.
  intros i j _ _. unfold setStrainsToZero, shift. destruct (pair_dec (i, j)) as [I|I]; [rewrite !zero_in by auto; ring|].
  destruct (pair_dec (j, i)) as [J|J]; [rewrite !zero_in by auto; ring|]. now rewrite !zero_out by auto.
Qed.

(** Energy, stress and tangent of the restricted material: the derivative of the energy with respect to the free strains is the
    returned stress, the derivative of the stress the returned tangent, for every wrapped material for which this holds. *)
Theorem C71_vanishing_strain : forall energy stress moduli E, symmetric 3 E ->
  (forall A B, eq3 A B -> energy A = energy B) -> (forall A B k, eq3 A B -> stress A k = stress B k) ->
  (forall E H, symmetric 3 E -> symmetric 3 H -> is_derive (fun t => energy (shift E H t)) 0 (dot 6 (stress E) (strainVector 3 H))) ->
  (forall E H k, (k < 6)%nat -> symmetric 3 E -> symmetric 3 H -> is_derive (fun t => stress (shift E H t) k) 0 (apply 6 (moduli E) (strainVector 3 H) k)) ->
  exists rem s K, vsnStressesVoigt fixed stress fx E = Some (length rem, s) /\ vsnModuliVoigt fixed moduli fx E = Some (length rem, K) /\
  StronglySorted lt rem /\ (forall i, In i rem <-> (i < 6)%nat /\ ~ In i fx) /\
  forall H, symmetric 3 H ->
  is_derive (fun t => vsnEnergy fixed energy (shift E H t)) 0 (sumTo (length rem) (fun i => s i * strainVector 3 H (nth i rem 0%nat))) /\
  (forall i st, (i < length rem)%nat -> (forall t, vsnStressesVoigt fixed stress fx (shift E H t) = Some (length rem, st t)) ->
     is_derive (fun t => st t i) 0 (row (length rem) K (fun j => strainVector 3 H (nth j rem 0%nat)) i)).
Proof.
  intros energy stress moduli E SyE XE XS DE DS.
  destruct (remaining_ok 6 fx Hsort Hfx6) as (rem & ER & LR & SR & IR & PR).
  unfold vsnStressesVoigt, vsnModuliVoigt, removeCol, reduceMatrix. rewrite ER.
  do 3 eexists. split; [reflexivity|]. split; [reflexivity|]. split; auto. split; auto. intros H Sy.
  assert (Sum : forall f : nat -> R, sum 6 (fun k => f k * strainVector 3 (setStrainsToZero fixed H) k) =
     sumL (seq 0 (length rem)) (fun i => f (nth i rem 0%nat) * strainVector 3 H (nth i rem 0%nat))).
  { intros f. rewrite sum_seq. rewrite (sumL_perm _ _ _ PR), sumL_app. rewrite (sumL_ext fx _ (fun _ => 0)), sumL_0, Rplus_0_r.
    - rewrite <- (sumL_nth rem (fun k => f k * strainVector 3 H k)). apply sumL_ext. intros k Hk. apply IR in Hk as [K6 N].
      rewrite zero_strain by auto. destruct (in_dec Nat.eq_dec k fx); [tauto|reflexivity].
    - intros k Hk. rewrite zero_strain by auto. destruct (in_dec Nat.eq_dec k fx); [ring|tauto]. }
  split.
  - unfold vsnEnergy. eapply is_derive_ext; [intros t; symmetry; apply XE, zero_shift|].
    rewrite sumTo_seq. rewrite <- (Sum (stress (setStrainsToZero fixed E))). apply DE; now apply zero_sym.
  - intros i st Hi Hst. apply (is_derive_ext (fun t => stress (shift (setStrainsToZero fixed E) (setStrainsToZero fixed H) t) (nth i rem 0%nat))).
    { intros t. specialize (Hst t). injection Hst as <-. symmetry. apply XS, zero_shift. }
    unfold row. rewrite sumTo_seq. rewrite <- (Sum (moduli (setStrainsToZero fixed E) (nth i rem 0%nat))).
    apply DS; [|now apply zero_sym|now apply zero_sym]. apply IR. now apply nth_In.
Qed.
End VanishingStrain.
Print Assumptions C71_vanishing_strain.

(** The hypotheses hold for SVK *)
Example C71_svk : forall lambda mu,
  (forall A B, eq3 A B -> storedEnergyImpl lambda mu (Matrix33 A) = storedEnergyImpl lambda mu (Matrix33 B)) /\
  (forall A B k, eq3 A B -> svkStress lambda mu A k = svkStress lambda mu B k) /\
  (forall E H, symmetric 3 E -> symmetric 3 H ->
     is_derive (fun t => storedEnergyImpl lambda mu (Matrix33 (shift E H t))) 0 (dot 6 (svkStress lambda mu E) (strainVector 3 H))) /\
  (forall E H k, (k < 6)%nat -> symmetric 3 H ->
     is_derive (fun t => svkStress lambda mu (shift E H t) k) 0 (apply 6 (svkModuli lambda mu E) (strainVector 3 H) k)).
Proof.
  intros lambda mu. split; [|split; [|split]].
  - intros A B H. cbn. unfold trace, squaredNorm. rew3 H. reflexivity.
  - intros A B k H. unfold svkStress, stressesImplVoigt, trace. rew3 H. reflexivity.
  - intros E H SE SH. replace (dot 6 (svkStress lambda mu E) (strainVector 3 H)) with (contract 3 (stressesImplMatrix lambda mu (Matrix33 E)) H).
    + apply C42_derivatives. auto.
    + unfold contract, dot, svkStress. cbn. unfold trace, kron. cbn.
      rewrite (SH 1%nat 0%nat), (SH 2%nat 0%nat), (SH 2%nat 1%nat), (SE 1%nat 0%nat), (SE 2%nat 0%nat), (SE 2%nat 1%nat) by lia. ring.
  - intros E H k Hk SH. unfold svkStress, stressesImplVoigt, trace, shift, apply, svkModuli.
    cases k; cbn; auto_derive; auto; cbn; ring.
Qed.
