(** Perturbation of the eigenvalues and eigenvectors of symmetric 3 x 3 matrices, to first order and for repeated eigenvalues too. *)

From Coq Require Import Reals Lra Lia List Arith.
From Coquelicot Require Import Coquelicot.
From Verif Require Import Tensor_Model Tensor_Spec Tensor_Props SVK_Spec Conversions_Model Conversions_Spec Conversions_Props Hyperelastic_Spec.
Local Open Scope R_scope.

(** ** Orders of magnitude as t tends to 0 *)

Definition Oh (f : R -> R) : Prop := exists K, 0 <= K /\ locally 0 (fun t => Rabs (f t) <= K * Rabs t).
Definition oh (f : R -> R) : Prop := forall eps, 0 < eps -> locally 0 (fun t => Rabs (f t) <= eps * Rabs t).
Definition vanishing (f : R -> R) : Prop := forall eps, 0 < eps -> locally 0 (fun t => Rabs (f t) <= eps).
Definition bounded (f : R -> R) : Prop := exists K, 0 <= K /\ locally 0 (fun t => Rabs (f t) <= K).

Lemma near0 d : 0 < d -> locally 0 (fun t => Rabs t <= d).
Proof.
  intros D. exists (mkposreal d D). intros t B. change (Rabs (t - 0) < d) in B. rewrite Rminus_0_r in B. lra.
Qed.

Lemma oh_ext f g : (forall t, f t = g t) -> oh f -> oh g.
Proof. intros E H eps P. eapply filter_imp; [|apply (H eps P)]. intros t B. rewrite <- E. exact B. Qed.
Lemma oh_ext_loc f g : locally 0 (fun t => f t = g t) -> oh f -> oh g.
Proof. intros E H eps P. eapply filter_imp; [|apply filter_and; [exact E|apply (H eps P)]]. intros t [<- ?]. assumption. Qed.

Lemma oh_plus f g : oh f -> oh g -> oh (fun t => f t + g t).
Proof.
  intros F G eps P. eapply filter_imp; [|apply filter_and; [apply (F (eps / 2)); lra|apply (G (eps / 2)); lra]].
  intros t [A B]. eapply Rle_trans; [apply Rabs_triang|]. lra.
Qed.
Lemma oh_zero : oh (fun _ => 0).
Proof. intros eps P. apply filter_forall. intros t. rewrite Rabs_R0. apply Rmult_le_pos; [lra|apply Rabs_pos]. Qed.
Lemma oh_sum n (f : R -> nat -> R) : (forall k, (k < n)%nat -> oh (fun t => f t k)) -> oh (fun t => sum n (f t)).
Proof.
  intros H. induction n as [|n IH]; cbn [sum]; [apply oh_zero|].
  apply oh_plus; [apply IH; auto|apply H; auto].
Qed.

Lemma mult_oh f g : bounded f -> oh g -> oh (fun t => f t * g t).
Proof.
  intros (K & KP & F) G eps P. assert (Q : 0 < eps / (K + 1)) by (apply Rdiv_lt_0_compat; lra).
  eapply filter_imp; [|apply filter_and; [exact F|apply (G _ Q)]].
  intros t [A B]. rewrite Rabs_mult.
  apply Rle_trans with (K * (eps / (K + 1) * Rabs t)).
  - apply Rmult_le_compat; auto using Rabs_pos.
  - rewrite <- Rmult_assoc. apply Rmult_le_compat_r; [apply Rabs_pos|].
    unfold Rdiv. rewrite (Rmult_comm eps), <- Rmult_assoc. rewrite <- (Rmult_1_l eps) at 2. apply Rmult_le_compat_r; [lra|].
    apply Rmult_le_reg_r with (K + 1); [lra|]. rewrite Rmult_assoc, Rinv_l by lra. lra.
Qed.
Lemma Oh_vanishing f : Oh f -> vanishing f.
Proof.
  intros (K & KP & F) eps P. assert (Q : 0 < eps / (K + 1)) by (apply Rdiv_lt_0_compat; lra).
  eapply filter_imp; [|apply filter_and; [exact F|apply (near0 _ Q)]].
  intros t [A B]. eapply Rle_trans; [exact A|].
  apply Rle_trans with (K * (eps / (K + 1))); [now apply Rmult_le_compat_l|].
  unfold Rdiv. rewrite (Rmult_comm eps), <- Rmult_assoc. rewrite <- (Rmult_1_l eps) at 2. apply Rmult_le_compat_r; [lra|].
  apply Rmult_le_reg_r with (K + 1); [lra|]. rewrite Rmult_assoc, Rinv_l by lra. lra.
Qed.
Lemma vanishing_bounded f : vanishing f -> bounded f.
Proof. intros H. exists 1. split; [lra|]. apply (H 1). lra. Qed.
Lemma oh_Oh f : oh f -> Oh f.
Proof. intros H. exists 1. split; [lra|]. apply (H 1). lra. Qed.
Lemma Oh_mult f g : Oh f -> vanishing g -> oh (fun t => f t * g t).
Proof.
  intros (K & KP & F) G eps P. assert (Q : 0 < eps / (K + 1)) by (apply Rdiv_lt_0_compat; lra).
  eapply filter_imp; [|apply filter_and; [exact F|apply (G _ Q)]].
  intros t [A B]. rewrite Rabs_mult.
  apply Rle_trans with (K * Rabs t * (eps / (K + 1))).
  - apply Rmult_le_compat; auto using Rabs_pos.
  - replace (K * Rabs t * (eps / (K + 1))) with (K * / (K + 1) * (eps * Rabs t)) by (unfold Rdiv; ring).
    rewrite <- (Rmult_1_l (eps * Rabs t)) at 2. apply Rmult_le_compat_r; [apply Rmult_le_pos; [lra|apply Rabs_pos]|].
    apply Rmult_le_reg_r with (K + 1); [lra|]. rewrite Rmult_assoc, Rinv_l by lra. lra.
Qed.
Lemma bounded_const c : bounded (fun _ => c).
Proof. exists (Rabs c). split; [apply Rabs_pos|]. apply filter_forall. intros; lra. Qed.
Lemma bounded_plus f g : bounded f -> bounded g -> bounded (fun t => f t + g t).
Proof.
  intros (K & KP & F) (L & LP & G). exists (K + L). split; [lra|].
  eapply filter_imp; [|apply filter_and; [exact F|exact G]]. intros t [A B]. eapply Rle_trans; [apply Rabs_triang|]. lra.
Qed.
Lemma bounded_mult f g : bounded f -> bounded g -> bounded (fun t => f t * g t).
Proof.
  intros (K & KP & F) (L & LP & G). exists (K * L). split; [now apply Rmult_le_pos|].
  eapply filter_imp; [|apply filter_and; [exact F|exact G]]. intros t [A B]. rewrite Rabs_mult. apply Rmult_le_compat; auto using Rabs_pos.
Qed.
Lemma vanishing_plus f g : vanishing f -> vanishing g -> vanishing (fun t => f t + g t).
Proof.
  intros F G eps P. eapply filter_imp; [|apply filter_and; [apply (F (eps / 2)); lra|apply (G (eps / 2)); lra]].
  intros t [A B]. eapply Rle_trans; [apply Rabs_triang|]. lra.
Qed.
Lemma vanishing_ext f g : (forall t, f t = g t) -> vanishing f -> vanishing g.
Proof. intros E H eps P. eapply filter_imp; [|apply (H eps P)]. intros t B. rewrite <- E. exact B. Qed.
Lemma bounded_ext f g : (forall t, f t = g t) -> bounded f -> bounded g.
Proof. intros E (K & KP & H). exists K. split; auto. eapply filter_imp; [|exact H]. intros t B. rewrite <- E. exact B. Qed.
Lemma vanishing_scale c f : vanishing f -> vanishing (fun t => c * f t).
Proof.
  intros F eps P. assert (Q := Rabs_pos c). assert (Q' : 0 < eps / (Rabs c + 1)) by (apply Rdiv_lt_0_compat; lra).
  eapply filter_imp; [|apply (F _ Q')]. intros t A. rewrite Rabs_mult.
  apply Rle_trans with (Rabs c * (eps / (Rabs c + 1))); [now apply Rmult_le_compat_l|].
  unfold Rdiv. rewrite (Rmult_comm eps), <- Rmult_assoc. rewrite <- (Rmult_1_l eps) at 2. apply Rmult_le_compat_r; [lra|].
  apply Rmult_le_reg_r with (Rabs c + 1); [lra|]. rewrite Rmult_assoc, Rinv_l by lra. lra.
Qed.
Lemma Oh_t : Oh (fun t => t).
Proof. exists 1. split; [lra|]. apply filter_forall. intros; lra. Qed.
Lemma vanishing_sum n (f : R -> nat -> R) : (forall k, (k < n)%nat -> vanishing (fun t => f t k)) -> vanishing (fun t => sum n (f t)).
Proof.
  intros H. induction n as [|n IH]; cbn [sum].
  - intros eps P. apply filter_forall. intros _. rewrite Rabs_R0. lra.
  - apply vanishing_plus; [apply IH; auto|apply H; auto].
Qed.

(** A function with a linear expansion is differentiable *)
Lemma oh_derive f d : oh (fun t => f t - f 0 - t * d) -> is_derive f 0 d.
Proof.
  intros H. split; [apply (is_linear_scal_l (K := R_AbsRing) (V := R_NormedModule))|].
  intros x Hx. assert (E : x = 0).
  { symmetry. now apply (is_filter_lim_locally_unique (K := R_AbsRing) (V := R_NormedModule)). }
  subst x. intros eps. eapply filter_imp; [|apply (H eps (cond_pos eps))].
  intros t B. change (Rabs ((f t + - f 0) + - ((t + - 0) * d)) <= eps * Rabs (t + - 0)).
  replace ((f t + - f 0) + - ((t + - 0) * d)) with (f t - f 0 - t * d) by ring. rewrite Ropp_0, Rplus_0_r. exact B.
Qed.

(** ** Two decompositions *)

Lemma sum_3 f : sum 3 f = f 0%nat + f 1%nat + f 2%nat.
Proof. cbn. ring. Qed.

Definition overlap (N M : nat -> nat -> R) (i j : nat) : R := sum 3 (fun k => N k i * M k j).

Lemma overlap_rows N M i k : orthogonalMatrix N -> orthogonalMatrix M -> (i < 3)%nat -> (k < 3)%nat ->
  sum 3 (fun j => overlap N M i j * overlap N M k j) = identity i k.
Proof.
  intros [N1 N2] [M1 M2] Hi Hk. rewrite <- (N1 i k Hi Hk). unfold mul, transpose.
  transitivity (sum 3 (fun p => sum 3 (fun q => N p i * N q k * mul 3 M (transpose M) p q))).
  { unfold overlap, mul, transpose. cbn [sum]. ring. }
  apply sum_ext. intros p Hp.
  rewrite (sum_ext 3 _ (fun q => identity p q * (N p i * N q k))); [now rewrite sum_id_l|].
  intros q Hq. rewrite (M2 p q Hp Hq). ring.
Qed.

Lemma overlap_transpose N M i j : overlap N M i j = overlap M N j i.
Proof. unfold overlap. apply sum_ext. intros; ring. Qed.

Lemma overlap_columns N M i k : orthogonalMatrix N -> orthogonalMatrix M -> (i < 3)%nat -> (k < 3)%nat ->
  sum 3 (fun j => overlap N M j i * overlap N M j k) = identity i k.
Proof.
  intros HN HM Hi Hk. rewrite <- (overlap_rows M N i k HM HN Hi Hk). apply sum_ext. intros j Hj.
  now rewrite !(overlap_transpose M N).
Qed.

Lemma identity_same i : identity i i = 1.
Proof. unfold identity. now rewrite Nat.eqb_refl. Qed.
Lemma identity_other i j : i <> j -> identity i j = 0.
Proof. intros H. unfold identity. apply Nat.eqb_neq in H. now rewrite H. Qed.

Lemma overlap_bound N M i j : orthogonalMatrix N -> orthogonalMatrix M -> (i < 3)%nat -> (j < 3)%nat -> Rabs (overlap N M i j) <= 1.
Proof.
  intros HN HM Hi Hj. assert (E := overlap_rows N M i i HN HM Hi Hi). rewrite identity_same, sum_3 in E.
  apply Rabs_le. assert (S : overlap N M i j * overlap N M i j <= 1).
  { assert (A := Rle_0_sqr (overlap N M i 0)). assert (B := Rle_0_sqr (overlap N M i 1)). assert (C := Rle_0_sqr (overlap N M i 2)).
    unfold Rsqr in *. cases j; lra. }
  split; nra.
Qed.

(** N^T B M for B = M diag(b) M^T, and N^T B N *)
Definition inBases (N B M : nat -> nat -> R) (i j : nat) : R := sum 3 (fun k => sum 3 (fun l => N k i * B k l * M l j)).

Lemma inBases_ext N B B' M i j : eqm 3 B B' -> inBases N B M i j = inBases N B' M i j.
Proof. intros E. unfold inBases. apply sum_ext. intros k Hk. apply sum_ext. intros l Hl. now rewrite E. Qed.

Lemma inBases_right N B b M i j : decomposition B b M -> (i < 3)%nat -> (j < 3)%nat -> inBases N B M i j = b j * overlap N M i j.
Proof.
  intros (_ & [M1 M2] & E) Hi Hj. rewrite (inBases_ext _ _ _ _ _ _ E).
  transitivity (sum 3 (fun p => mul 3 (transpose M) M p j * (b p * overlap N M i p))).
  { unfold inBases, overlap, mul, transpose. cbn [sum]. ring. }
  rewrite (sum_ext 3 _ (fun p => identity j p * (b p * overlap N M i p))); [now rewrite sum_id_l|].
  intros p Hp. rewrite (M1 p j Hp Hj). f_equal. unfold identity. now rewrite Nat.eqb_sym.
Qed.

Lemma inBases_left N A a M i j : decomposition A a N -> (i < 3)%nat -> (j < 3)%nat -> inBases N A M i j = a i * overlap N M i j.
Proof.
  intros (_ & [N1 N2] & E) Hi Hj. rewrite (inBases_ext _ _ _ _ _ _ E).
  transitivity (sum 3 (fun p => mul 3 (transpose N) N i p * (a p * overlap N M p j))).
  { unfold inBases, overlap, mul, transpose. cbn [sum]. ring. }
  rewrite (sum_ext 3 _ (fun p => identity i p * (a p * overlap N M p j))); [now rewrite sum_id_l|].
  intros p Hp. rewrite (N1 i p Hi Hp). reflexivity.
Qed.

Lemma inBases_both N s M i k : inBases N (fun i j => sum 3 (fun p => M i p * s p * M j p)) N i k =
  sum 3 (fun j => s j * overlap N M i j * overlap N M k j).
Proof. unfold inBases, overlap. cbn [sum]. ring. Qed.

Lemma inBases_shift N A H M t i j : inBases N (shift A H t) M i j = inBases N A M i j + t * inBases N H M i j.
Proof. unfold inBases, shift. cbn [sum]. ring. Qed.

(** An orthogonal matrix has entries of absolute value at most one *)
Lemma entry_bound N i j : orthogonalMatrix N -> (i < 3)%nat -> (j < 3)%nat -> Rabs (N i j) <= 1.
Proof.
  intros [N1 N2] Hi Hj. assert (E := N2 i i Hi Hi). rewrite identity_same in E. unfold mul, transpose in E. rewrite sum_3 in E.
  apply Rabs_le. assert (S : N i j * N i j <= 1).
  { assert (A := Rle_0_sqr (N i 0%nat)). assert (B := Rle_0_sqr (N i 1%nat)). assert (C := Rle_0_sqr (N i 2%nat)).
    unfold Rsqr in *. cases j; lra. }
  split; nra.
Qed.

Definition size (H : nat -> nat -> R) : R := sum 3 (fun k => sum 3 (fun l => Rabs (H k l))).

Lemma sum_abs n f : Rabs (sum n f) <= sum n (fun k => Rabs (f k)).
Proof.
  induction n as [|n IH]; cbn [sum]; [rewrite Rabs_R0; lra|].
  eapply Rle_trans; [apply Rabs_triang|]. lra.
Qed.

Lemma sum_mono n f g : (forall k, (k < n)%nat -> f k <= g k) -> sum n f <= sum n g.
Proof. intros H. induction n as [|n IH]; cbn [sum]; [lra|]. assert (f n <= g n) by (apply H; lia). assert (sum n f <= sum n g) by (apply IH; intros; apply H; lia). lra. Qed.

Lemma size_nonneg H : 0 <= size H.
Proof. unfold size. apply sum_nonneg. intros. apply sum_nonneg. intros. apply Rabs_pos. Qed.

Lemma inBases_bound N H M i j : orthogonalMatrix N -> orthogonalMatrix M -> (i < 3)%nat -> (j < 3)%nat ->
  Rabs (inBases N H M i j) <= size H.
Proof.
  intros HN HM Hi Hj. unfold inBases, size. eapply Rle_trans; [apply sum_abs|]. apply sum_mono. intros k Hk.
  eapply Rle_trans; [apply sum_abs|]. apply sum_mono. intros l Hl.
  rewrite !Rabs_mult. assert (A := entry_bound N k i HN Hk Hi). assert (B := entry_bound M l j HM Hl Hj).
  assert (P := Rabs_pos (H k l)). assert (P1 := Rabs_pos (N k i)). assert (P2 := Rabs_pos (M l j)). 
  apply Rle_trans with (1 * Rabs (H k l) * 1); [|lra].
  apply Rmult_le_compat; auto; [apply Rmult_le_pos; auto|]. apply Rmult_le_compat_r; auto.
Qed.

(** The difference of two matrices in the two bases *)
Lemma overlap_difference A H t a N b M i j : decomposition A a N -> decomposition (shift A H t) b M -> (i < 3)%nat -> (j < 3)%nat ->
  (b j - a i) * overlap N M i j = t * inBases N H M i j.
Proof.
  intros DA DB Hi Hj. assert (E1 := inBases_right N _ _ _ i j DB Hi Hj). assert (E2 := inBases_left _ _ _ M i j DA Hi Hj).
  rewrite inBases_shift, E2 in E1. lra.
Qed.

Lemma overlap_sum A H t a N b M i k : decomposition A a N -> decomposition (shift A H t) b M -> (i < 3)%nat -> (k < 3)%nat ->
  sum 3 (fun j => (b j - a i) * (overlap N M i j * overlap N M k j)) = t * inBases N H N i k.
Proof.
  intros DA DB Hi Hk.
  assert (HN : orthogonalMatrix N) by apply DA. assert (HM : orthogonalMatrix M) by apply DB.
  assert (E : inBases N (shift A H t) N i k = sum 3 (fun j => b j * overlap N M i j * overlap N M k j)).
  { rewrite <- inBases_both. apply inBases_ext. apply DB. }
  rewrite inBases_shift, (inBases_left _ _ _ N i k DA Hi Hk) in E.
  assert (I : overlap N N i k = identity i k) by (apply (proj1 HN); auto).
  rewrite I in E. assert (O := overlap_rows N M i k HN HM Hi Hk).
  rewrite sum_3 in E, O |- *. nra.
Qed.

(** ** Sorted eigenvalues move by at most the size of the perturbation (Hoffman and Wielandt) *)
Lemma rearrangement (a b : nat -> R) (P : nat -> nat -> R) :
  a 0%nat <= a 1%nat -> a 1%nat <= a 2%nat -> b 0%nat <= b 1%nat -> b 1%nat <= b 2%nat ->
  (forall i j, (i < 3)%nat -> (j < 3)%nat -> 0 <= P i j) ->
  (forall i, (i < 3)%nat -> sum 3 (P i) = 1) -> (forall j, (j < 3)%nat -> sum 3 (fun i => P i j) = 1) ->
  sum 3 (fun i => (a i - b i) ^ 2) <= sum 3 (fun i => sum 3 (fun j => P i j * (a i - b j) ^ 2)).
Proof.
  intros A1 A2 B1 B2 Pos R C.
  assert (R0 := R 0%nat ltac:(lia)). assert (R1 := R 1%nat ltac:(lia)). assert (R2 := R 2%nat ltac:(lia)).
  assert (C0 := C 0%nat ltac:(lia)). assert (C1 := C 1%nat ltac:(lia)). assert (C2 := C 2%nat ltac:(lia)).
  assert (P01 := Pos 0%nat 1%nat ltac:(lia) ltac:(lia)). assert (P02 := Pos 0%nat 2%nat ltac:(lia) ltac:(lia)).
  assert (P10 := Pos 1%nat 0%nat ltac:(lia) ltac:(lia)). assert (P12 := Pos 1%nat 2%nat ltac:(lia) ltac:(lia)).
  assert (P20 := Pos 2%nat 0%nat ltac:(lia) ltac:(lia)). assert (P21 := Pos 2%nat 1%nat ltac:(lia) ltac:(lia)).
  rewrite sum_3 in R0, R1, R2, C0, C1, C2.
  cbn [sum].
  set (x1 := a 1%nat - a 0%nat). set (x2 := a 2%nat - a 1%nat). set (y1 := b 1%nat - b 0%nat). set (y2 := b 2%nat - b 1%nat).
  replace (P 0%nat 0%nat) with (1 - P 0%nat 1%nat - P 0%nat 2%nat) by lra.
  replace (P 1%nat 1%nat) with (1 - P 1%nat 0%nat - P 1%nat 2%nat) by lra.
  replace (P 2%nat 2%nat) with (1 - P 2%nat 0%nat - P 2%nat 1%nat) by lra.
  assert (K1 : P 0%nat 1%nat + P 0%nat 2%nat = P 1%nat 0%nat + P 2%nat 0%nat) by lra.
  assert (K2 : P 2%nat 0%nat + P 2%nat 1%nat = P 0%nat 2%nat + P 1%nat 2%nat) by lra.
  assert (X1 : 0 <= x1) by (unfold x1; lra). assert (X2 : 0 <= x2) by (unfold x2; lra).
  assert (Y1 : 0 <= y1) by (unfold y1; lra). assert (Y2 : 0 <= y2) by (unfold y2; lra).
  assert (G : forall x y p, 0 <= x -> 0 <= y -> 0 <= p -> 0 <= x * y * p) by (intros; repeat apply Rmult_le_pos; auto).
  assert (S : sum 3 (fun i => sum 3 (fun j => P i j)) = sum 3 (fun i => sum 3 (fun j => P i j))) by reflexivity.
  replace (a 1%nat) with (a 0%nat + x1) by (unfold x1; ring). replace (a 2%nat) with (a 0%nat + x1 + x2) by (unfold x1, x2; ring).
  replace (b 1%nat) with (b 0%nat + y1) by (unfold y1; ring). replace (b 2%nat) with (b 0%nat + y1 + y2) by (unfold y1, y2; ring).
  clearbody x1 x2 y1 y2.
  assert (E10 : P 1%nat 0%nat = P 0%nat 1%nat + P 0%nat 2%nat - P 2%nat 0%nat) by lra.
  assert (E12 : P 1%nat 2%nat = P 2%nat 0%nat + P 2%nat 1%nat - P 0%nat 2%nat) by lra.
  assert (Z1 := G x1 y1 _ X1 Y1 P01). assert (Z2 := G x1 y1 _ X1 Y1 P02). assert (Z3 := G x2 y2 _ X2 Y2 P20). assert (Z4 := G x2 y2 _ X2 Y2 P21).
  assert (Z5 := G x1 y2 _ X1 Y2 P02). assert (Z6 := G x2 y1 _ X2 Y1 P20).
  rewrite E10, E12.
  match goal with |- ?l <= ?r => enough (0 <= r - l) by lra end.
  match goal with |- 0 <= ?e => replace e with (2 * (x1 * y1 * (P 0%nat 1%nat + P 0%nat 2%nat) + x2 * y2 * (P 2%nat 0%nat + P 2%nat 1%nat) + x1 * y2 * P 0%nat 2%nat + x2 * y1 * P 2%nat 0%nat)) by ring end.
  lra.
Qed.

Lemma eigenvalues_move A H t a N b M i : decomposition A a N -> decomposition (shift A H t) b M -> (i < 3)%nat ->
  Rabs (b i - a i) <= 3 * size H * Rabs t.
Proof.
  intros DA DB Hi. assert (HN : orthogonalMatrix N) by apply DA. assert (HM : orthogonalMatrix M) by apply DB.
  destruct DA as [[A1 A2] DA'] eqn:ED. destruct DB as [[B1 B2] DB'] eqn:EB.
  assert (R := rearrangement a b (fun i j => overlap N M i j ^ 2) A1 A2 B1 B2).
  assert (L : sum 3 (fun i => (a i - b i) ^ 2) <= sum 3 (fun i => sum 3 (fun j => overlap N M i j ^ 2 * (a i - b j) ^ 2))).
  { apply R.
    - intros; apply pow2_ge_0.
    - intros k Hk. rewrite <- (identity_same k), <- (overlap_rows N M k k HN HM Hk Hk). apply sum_ext. intros; ring.
    - intros k Hk. rewrite <- (identity_same k), <- (overlap_columns N M k k HN HM Hk Hk). apply sum_ext. intros; ring. }
  assert (U : sum 3 (fun i => sum 3 (fun j => overlap N M i j ^ 2 * (a i - b j) ^ 2)) <= sum 3 (fun i => sum 3 (fun j => (size H * Rabs t) ^ 2))).
  { apply sum_mono. intros p Hp. apply sum_mono. intros q Hq.
    replace (overlap N M p q ^ 2 * (a p - b q) ^ 2) with (((b q - a p) * overlap N M p q) ^ 2) by ring.
    rewrite (overlap_difference A H t a N b M p q) by (auto; now rewrite <- ?ED, <- ?EB).
    assert (B := inBases_bound N H M p q HN HM Hp Hq).
    rewrite <- (pow2_abs (t * _)). apply pow_incr. split; [apply Rabs_pos|]. rewrite Rabs_mult, Rmult_comm.
    apply Rmult_le_compat_r; auto using Rabs_pos. }
  assert (F : (b i - a i) ^ 2 <= (3 * size H * Rabs t) ^ 2).
  { eapply Rle_trans; [|eapply Rle_trans; [exact L|eapply Rle_trans; [exact U|]]].
    - replace ((b i - a i) ^ 2) with ((a i - b i) ^ 2) by ring. rewrite sum_3.
      assert (Q0 := pow2_ge_0 (a 0%nat - b 0%nat)). assert (Q1 := pow2_ge_0 (a 1%nat - b 1%nat)). assert (Q2 := pow2_ge_0 (a 2%nat - b 2%nat)).
      cases i; lra.
    - apply Req_le. cbn [sum]. ring. }
  apply Rsqr_incr_0_var; [|assert (P := size_nonneg H); assert (P' := Rabs_pos t); apply Rmult_le_pos; [lra|auto]].
  rewrite <- Rsqr_abs. unfold Rsqr. lra.
Qed.

(** ** First order expansions along A + t H *)
Section Path.
Variables (A H : nat -> nat -> R) (a : nat -> R) (N : nat -> nat -> R) (b : R -> nat -> R) (M : R -> nat -> nat -> R).
Hypothesis DA : decomposition A a N.
Hypothesis DB : forall t, decomposition (shift A H t) (b t) (M t).

Let HN : orthogonalMatrix N. Proof. apply DA. Qed.
Let HM t : orthogonalMatrix (M t). Proof. apply DB. Qed.
Let q t i j := overlap N (M t) i j.
Let Hn i k := inBases N H N i k.

Lemma values_Oh i : (i < 3)%nat -> Oh (fun t => b t i - a i).
Proof.
  intros Hi. exists (3 * size H). split; [assert (P := size_nonneg H); lra|]. apply filter_forall. intros t.
  exact (eigenvalues_move _ _ _ _ _ _ _ i DA (DB t) Hi).
Qed.

Lemma q_bounded i j : (i < 3)%nat -> (j < 3)%nat -> bounded (fun t => q t i j).
Proof. intros Hi Hj. exists 1. split; [lra|]. apply filter_forall. intros t. apply overlap_bound; auto. Qed.

(** Overlaps of different eigenspaces are small *)
Lemma q_Oh i j : (i < 3)%nat -> (j < 3)%nat -> a i <> a j -> Oh (fun t => q t i j).
Proof.
  intros Hi Hj D. assert (P : 0 < Rabs (a j - a i)) by (apply Rabs_pos_lt; lra).
  exists (2 * size H / Rabs (a j - a i)). assert (S := size_nonneg H).
  split; [apply Rmult_le_pos; [lra|]; apply Rlt_le, Rinv_0_lt_compat; auto|].
  assert (V := Oh_vanishing _ (values_Oh j Hj) (Rabs (a j - a i) / 2) ltac:(lra)).
  eapply filter_imp; [|exact V]. intros t B.
  assert (G : Rabs (a j - a i) / 2 <= Rabs (b t j - a i)).
  { assert (T := Rabs_triang_inv (a j - a i) (a j - b t j)). replace (a j - a i - (a j - b t j)) with (b t j - a i) in T by ring.
    rewrite (Rabs_minus_sym (a j) (b t j)) in T. cbn beta in B. lra. }
  assert (E := overlap_difference _ _ _ _ _ _ _ i j DA (DB t) Hi Hj). assert (B2 := inBases_bound N H (M t) i j HN (HM t) Hi Hj).
  assert (E' : Rabs (b t j - a i) * Rabs (q t i j) <= size H * Rabs t).
  { rewrite <- Rabs_mult. unfold q. rewrite E, Rabs_mult, Rmult_comm. apply Rmult_le_compat_r; auto using Rabs_pos. }
  apply Rmult_le_reg_l with (Rabs (a j - a i) / 2); [lra|].
  replace (Rabs (a j - a i) / 2 * (2 * size H / Rabs (a j - a i) * Rabs t)) with (size H * Rabs t) by (field; lra).
  eapply Rle_trans; [|exact E']. apply Rmult_le_compat_r; auto using Rabs_pos.
Qed.

Lemma q_product_oh i j k : (i < 3)%nat -> (j < 3)%nat -> (k < 3)%nat -> a i <> a j -> a k <> a j -> oh (fun t => q t i j * q t k j).
Proof. intros. apply Oh_mult; [now apply q_Oh|]. apply Oh_vanishing. now apply q_Oh. Qed.

(** Weights that agree on equal eigenvalues see the diagonal of the perturbation only *)
Lemma weighted c : (forall i j, (i < 3)%nat -> (j < 3)%nat -> a i = a j -> c i = c j) ->
  oh (fun t => sum 3 (fun i => c i * (b t i - a i)) - t * sum 3 (fun i => c i * Hn i i)).
Proof.
  intros C.
  apply (oh_ext (fun t => sum 3 (fun i => sum 3 (fun j => (c j * (b t j - a j) - c i * (b t j - a i)) * (q t i j * q t i j))))).
  { intros t.
    transitivity (sum 3 (fun j => c j * (b t j - a j) * sum 3 (fun i => q t i j * q t i j)) -
                  sum 3 (fun i => c i * sum 3 (fun j => (b t j - a i) * (q t i j * q t i j)))); [cbn [sum]; ring|].
    f_equal.
    - apply sum_ext. intros j Hj. unfold q. rewrite overlap_columns, identity_same by auto. ring.
    - rewrite <- Ropp_mult_distr_r_reverse || idtac. f_equal. rewrite <- sum_mul_l. apply sum_ext. intros i Hi.
      unfold q. rewrite (overlap_sum _ _ _ _ _ _ _ i i DA (DB t) Hi Hi). unfold Hn. ring. }
  apply oh_sum. intros i Hi. apply oh_sum. intros j Hj.
  destruct (Req_dec (a i) (a j)) as [E|E].
  - apply (oh_ext (fun _ => 0)); [|apply oh_zero]. intros t. rewrite (C i j Hi Hj E), E. ring.
  - apply mult_oh; [|now apply q_product_oh].
    assert (V := vanishing_bounded _ (Oh_vanishing _ (values_Oh j Hj))).
    apply (bounded_plus (fun t => c j * (b t j - a j)) (fun t => - (c i * (b t j - a i)))); [apply bounded_mult; [apply bounded_const|exact V]|].
    destruct V as (K & KP & V). exists (Rabs (c i) * (K + Rabs (a j - a i))). split; [apply Rmult_le_pos; auto using Rabs_pos; assert (Z := Rabs_pos (a j - a i)); lra|].
    eapply filter_imp; [|exact V]. intros t B. rewrite Rabs_Ropp, Rabs_mult. apply Rmult_le_compat_l; auto using Rabs_pos.
    replace (b t j - a i) with ((b t j - a j) + (a j - a i)) by ring. eapply Rle_trans; [apply Rabs_triang|]. lra.
Qed.

(** Isotropic tensor functions: sum_j s_j M_j M_j^T, where s depends on the eigenvalues with derivatives
    d + diag(c) at a (d and c agree on equal eigenvalues) *)
Variables (s : R -> nat -> R) (s0 c : nat -> R) (d : nat -> nat -> R).
Hypothesis s0_equal : forall i j, (i < 3)%nat -> (j < 3)%nat -> a i = a j -> s0 i = s0 j.
Hypothesis c_equal : forall i j, (i < 3)%nat -> (j < 3)%nat -> a i = a j -> c i = c j.
Hypothesis d_equal : forall i j k l, (i < 3)%nat -> (j < 3)%nat -> (k < 3)%nat -> (l < 3)%nat -> a i = a j -> a k = a l -> d i k = d j l.
Hypothesis expansion : forall j, (j < 3)%nat ->
  oh (fun t => s t j - s0 j - c j * (b t j - a j) - sum 3 (fun m => d j m * (b t m - a m))).

Definition gamma (i k : nat) : R := if Req_EM_T (a i) (a k) then c i else (s0 i - s0 k) / (a i - a k).

Lemma s_vanishing j : (j < 3)%nat -> vanishing (fun t => s t j - s0 j).
Proof.
  intros Hj.
  apply (vanishing_ext (fun t => (s t j - s0 j - c j * (b t j - a j) - sum 3 (fun m => d j m * (b t m - a m))) + (c j * (b t j - a j) + sum 3 (fun m => d j m * (b t m - a m))))); [intros; ring|].
  apply vanishing_plus; [apply Oh_vanishing, oh_Oh, expansion; auto|].
  apply vanishing_plus; [apply vanishing_scale, Oh_vanishing, values_Oh; auto|].
  apply vanishing_sum. intros m Hm. apply vanishing_scale, Oh_vanishing, values_Oh; auto.
Qed.

Lemma tensor_expansion i k : (i < 3)%nat -> (k < 3)%nat ->
  oh (fun t => sum 3 (fun j => s t j * q t i j * q t k j) - identity i k * s0 i -
    t * (gamma i k * Hn i k + identity i k * sum 3 (fun m => d i m * Hn m m))).
Proof.
  intros Hi Hk. unfold gamma. destruct (Req_EM_T (a i) (a k)) as [E|E].
  - set (D := sum 3 (fun m => d i m * Hn m m)).
    apply (oh_ext (fun t => sum 3 (fun j => (s t j - s0 i - c i * (b t j - a i) - t * D) * (q t i j * q t k j)))).
    { intros t. assert (O := overlap_rows N (M t) i k HN (HM t) Hi Hk). assert (S := overlap_sum _ _ _ _ _ _ _ i k DA (DB t) Hi Hk).
      fold (Hn i k) in S. rewrite <- O.
      transitivity (sum 3 (fun j => s t j * q t i j * q t k j) - sum 3 (fun j => q t i j * q t k j) * s0 i -
        (c i * sum 3 (fun j => (b t j - a i) * (q t i j * q t k j)) + t * (sum 3 (fun j => q t i j * q t k j) * D))); [cbn [sum]; ring|].
      unfold q. rewrite S. ring. }
    apply oh_sum. intros j Hj. destruct (Req_dec (a i) (a j)) as [F|F].
    + apply (oh_ext (fun t => (q t i j * q t k j) * (s t j - s0 i - c i * (b t j - a i) - t * D))); [intros; ring|].
      apply mult_oh; [apply bounded_mult; now apply q_bounded|].
      apply (oh_ext (fun t => (s t j - s0 j - c j * (b t j - a j) - sum 3 (fun m => d j m * (b t m - a m))) +
        (sum 3 (fun m => d i m * (b t m - a m)) - t * D))).
      { intros t. rewrite (s0_equal i j), (c_equal i j), F by auto.
        rewrite (sum_ext 3 (fun m => d i m * _) (fun m => d j m * (b t m - a m))); [ring|].
        intros m Hm. rewrite (d_equal i j m m) by auto. reflexivity. }
      apply oh_plus; [now apply expansion|]. apply weighted. intros m m' Hm Hm' Em. apply d_equal; auto.
    + apply mult_oh.
      * assert (V := s_vanishing j Hj). assert (W := Oh_vanishing _ (values_Oh j Hj)).
        apply (bounded_plus (fun t => s t j - s0 i - c i * (b t j - a i)) (fun t => - (t * D))).
        -- apply (bounded_plus (fun t => s t j - s0 i) (fun t => - (c i * (b t j - a i)))).
           ++ refine (bounded_ext _ _ _ (bounded_plus _ _ (vanishing_bounded _ V) (bounded_const (s0 j - s0 i)))). intros t; cbn beta; ring.
           ++ refine (bounded_ext _ _ _ (bounded_mult _ _ (bounded_const (- c i)) (bounded_plus _ _ (vanishing_bounded _ W) (bounded_const (a j - a i))))). intros t; cbn beta; ring.
        -- refine (bounded_ext _ _ _ (bounded_mult _ _ (bounded_const (- D)) (vanishing_bounded _ (Oh_vanishing _ Oh_t)))). intros t; cbn beta; ring.
      * apply q_product_oh; auto. now rewrite <- E.
  - assert (Nik : i <> k) by (intros ->; now apply E).
    set (g := (s0 i - s0 k) / (a i - a k)).
    assert (Eg : g * (a k - a i) = s0 k - s0 i) by (unfold g; field; intros Z; apply E; lra).
    apply (oh_ext (fun t => sum 3 (fun j => (s t j - s0 i - g * (b t j - a i)) * (q t i j * q t k j)))).
    { intros t. assert (O := overlap_rows N (M t) i k HN (HM t) Hi Hk). assert (S := overlap_sum _ _ _ _ _ _ _ i k DA (DB t) Hi Hk).
      fold (Hn i k) in S. rewrite (identity_other i k Nik) in *.
      transitivity (sum 3 (fun j => s t j * q t i j * q t k j) - sum 3 (fun j => q t i j * q t k j) * s0 i -
        g * sum 3 (fun j => (b t j - a i) * (q t i j * q t k j))); [cbn [sum]; ring|].
      unfold q in *. rewrite S, O. ring. }
    apply oh_sum. intros j Hj.
    assert (V : vanishing (fun t => s t j - s0 j - g * (b t j - a j))).
    { apply (vanishing_plus (fun t => s t j - s0 j) (fun t => - (g * (b t j - a j)))); [now apply s_vanishing|].
      apply (vanishing_ext (fun t => - g * (b t j - a j))); [intros; ring|]. apply vanishing_scale, Oh_vanishing, values_Oh; auto. }
    assert (X : a j = a i \/ a j = a k \/ (a i <> a j /\ a k <> a j)).
    { destruct (Req_dec (a j) (a i)); auto. destruct (Req_dec (a j) (a k)); auto. }
    destruct X as [X|[X|[X Y]]].
    + apply (oh_ext (fun t => q t i j * (q t k j * (s t j - s0 j - g * (b t j - a j))))).
      { intros t. rewrite (s0_equal j i), X by auto. ring. }
      apply mult_oh; [now apply q_bounded|]. apply Oh_mult; auto. apply q_Oh; auto. rewrite X. auto.
    + apply (oh_ext (fun t => q t k j * (q t i j * (s t j - s0 j - g * (b t j - a j))))).
      { intros t. rewrite (s0_equal j k), X by auto. replace (s0 k) with (s0 i + g * (a k - a i)) by lra. ring. }
      apply mult_oh; [now apply q_bounded|]. apply Oh_mult; auto. apply q_Oh; auto. rewrite X. auto.
    + apply mult_oh; [|now apply q_product_oh].
      refine (bounded_ext _ _ _ (bounded_plus _ _ (vanishing_bounded _ V) (bounded_const (s0 j - s0 i - g * (a j - a i))))). intros t; cbn beta; ring.
Qed.
End Path.
