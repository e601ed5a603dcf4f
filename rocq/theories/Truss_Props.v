(** Properties C54 and C79: the truss element. *)

From Coq Require Import Reals Arith Bool Lia Lra.
From Coquelicot Require Import Coquelicot.
From Verif Require Import Tensor_Spec Conversions_Spec Conversions_Props Truss_Model.
Local Open Scope R_scope.

Definition nothing (k : nat) : R := 0.
Definition nothing2 (i j : nat) : R := 0.

(** Corners that do not coincide *)
Definition proper (d : nat) (X1 X2 : nat -> R) : Prop := exists k, (k < d)%nat /\ X1 k <> X2 k.

Lemma proper_length d X1 X2 : proper d X1 X2 -> 0 < sum d (fun k => (X2 k - X1 k) * (X2 k - X1 k)).
Proof.
  intros (k & Hk & N). apply (sum_pos d _ k); [|assumption|].
  - intros. apply Rle_0_sqr.
  - apply Rsqr_pos_lt. lra.
Qed.

Lemma sum_app d e f : sum (d + e) f = sum d f + sum e (fun k => f (d + k)%nat).
Proof. induction e as [|e IH]; [rewrite Nat.add_0_r; cbn; ring|]. rewrite Nat.add_succ_r. cbn [sum]. rewrite IH. ring. Qed.

Lemma sum_two d f g : sum (d + d) (fun k => if (k <? d)%nat then f k else g (k - d)%nat) = sum d f + sum d g.
Proof.
  rewrite sum_app. f_equal; apply sum_ext; intros k Hk.
  - destruct (Nat.ltb_spec k d); [reflexivity|lia].
  - destruct (Nat.ltb_spec (d + k) d); [lia|]. f_equal. lia.
Qed.

(** The span of the deformed bar and of a variation *)
Definition span (d : nat) (X1 X2 u : nat -> R) (k : nat) : R := X2 k - X1 k + (u (d + k)%nat - u k).
Definition rel (d : nat) (v : nat -> R) (k : nat) : R := v (d + k)%nat - v k.

Section Kinematics.
  Variables (d : nat) (X1 X2 : nat -> R).
  Let Lsq := sum d (fun k => (X2 k - X1 k) * (X2 k - X1 k)).

  Lemma Egl_span u : Egl (computeStrain d X1 X2 u) = 1 / 2 * (sum d (fun k => span d X1 X2 u k * span d X1 X2 u k) - Lsq) / Lsq.
  Proof.
    cbn [computeStrain dEdu Egl ddEddu]. fold Lsq. do 3 f_equal. apply sum_ext. intros k _. unfold span. ring.
  Qed.

  Lemma dEdu_dot u v : sum (d + d) (fun k => dEdu (computeStrain d X1 X2 u) k * v k) = sum d (fun k => span d X1 X2 u k * rel d v k) / Lsq.
  Proof.
    transitivity (sum (d + d) (fun k => if (k <? d)%nat then - span d X1 X2 u k * v k / Lsq else span d X1 X2 u (k - d) * v (d + (k - d))%nat / Lsq)).
    - apply sum_ext. intros k Hk. cbn [computeStrain dEdu Egl ddEddu]. fold Lsq. destruct (Nat.ltb_spec k d); unfold span, Rdiv; [ring|].
      replace (d + (k - d))%nat with k by lia. ring.
    - rewrite (sum_two d (fun k => - span d X1 X2 u k * v k / Lsq) (fun k => span d X1 X2 u k * v (d + k)%nat / Lsq)).
      rewrite <- sum_add. unfold Rdiv at 3. rewrite <- sum_mul_r. apply sum_ext. intros k _. unfold rel, Rdiv. ring.
  Qed.

  Lemma ddEddu_apply u v i : (i < d + d)%nat ->
    sum (d + d) (fun j => ddEddu (computeStrain d X1 X2 u) i j * v j) = (if (i <? d)%nat then - rel d v i else rel d v (i - d)) / Lsq.
  Proof.
    intros Hi. rewrite sum_app. cbn [computeStrain dEdu Egl ddEddu]. fold Lsq. destruct (Nat.ltb_spec i d) as [L|L]; cbn [andb negb].
    - rewrite (sum_pick d i); [|assumption|].
      + rewrite (sum_pick d i); [|assumption|].
        * destruct (Nat.ltb_spec i d); [|lia]. destruct (Nat.ltb_spec (d + i) d); [lia|]. cbn [andb negb].
          rewrite Nat.eqb_refl. destruct (Nat.eqb_spec i (d + i - d)); [|lia]. unfold rel, Rdiv. ring.
        * intros k Hk N. destruct (Nat.ltb_spec (d + k) d); [lia|]. cbn [andb negb].
          destruct (Nat.eqb_spec i (d + k - d)); [lia|]. unfold Rdiv. ring.
      + intros k Hk N. destruct (Nat.ltb_spec k d); [|lia]. cbn [andb negb]. destruct (Nat.eqb_spec i k); [lia|]. unfold Rdiv. ring.
    - rewrite (sum_pick d (i - d)); [|lia|].
      + rewrite (sum_pick d (i - d)); [|lia|].
        * destruct (Nat.ltb_spec (i - d) d); [|lia]. destruct (Nat.ltb_spec (d + (i - d)) d); [lia|]. cbn [andb negb].
          rewrite Nat.eqb_refl. destruct (Nat.eqb_spec i (d + (i - d))); [|lia]. unfold rel, Rdiv. ring.
        * intros k Hk N. destruct (Nat.ltb_spec (d + k) d); [lia|]. cbn [andb negb].
          destruct (Nat.eqb_spec i (d + k)); [lia|]. unfold Rdiv. ring.
      + intros k Hk N. destruct (Nat.ltb_spec k d); [|lia]. cbn [andb negb]. destruct (Nat.eqb_spec (i - d) k); [lia|]. unfold Rdiv. ring.
  Qed.

  Lemma span_line u v t k : span d X1 X2 (fun k => u k + t * v k) k = span d X1 X2 u k + t * rel d v k.
  Proof. unfold span, rel. ring. Qed.

  Lemma Egl_line u v t : 0 < Lsq ->
    Egl (computeStrain d X1 X2 (fun k => u k + t * v k)) =
    Egl (computeStrain d X1 X2 u) + t * (sum d (fun k => span d X1 X2 u k * rel d v k) / Lsq) + t * t * (sum d (fun k => rel d v k * rel d v k) / (2 * Lsq)).
  Proof.
    intros P. rewrite !Egl_span.
    replace (sum d (fun k => span d X1 X2 (fun k => u k + t * v k) k * span d X1 X2 (fun k => u k + t * v k) k)) with
      (sum d (fun k => span d X1 X2 u k * span d X1 X2 u k) + 2 * t * sum d (fun k => span d X1 X2 u k * rel d v k) +
       t * t * sum d (fun k => rel d v k * rel d v k)); [field; lra|].
    rewrite <- !sum_mul_l, <- !sum_add. apply sum_ext. intros k _. rewrite span_line. ring.
  Qed.
End Kinematics.

Lemma refLength_line d X1 X2 u u' : refLength (computeStrain d X1 X2 u) = refLength (computeStrain d X1 X2 u').
Proof. reflexivity. Qed.

(** C54: the force is the gradient of the energy *)
Theorem C54_force d E A X1 X2 u v :
  proper d X1 X2 ->
  is_derive (fun t => trussEnergy d E A X1 X2 (fun k => u k + t * v k)) 0
    (dot (d + d) (trussForce d E A X1 X2 u nothing) v).
Proof.
  intros P. assert (Q := proper_length _ _ _ P).
  set (L := refLength (computeStrain d X1 X2 u)). set (e := Egl (computeStrain d X1 X2 u)).
  set (Lsq := sum d (fun k => (X2 k - X1 k) * (X2 k - X1 k))) in *.
  apply (is_derive_ext (fun t => 1 / 2 * E * A * L *
    (e + t * (sum d (fun k => span d X1 X2 u k * rel d v k) / Lsq) + t * t * (sum d (fun k => rel d v k * rel d v k) / (2 * Lsq))) *
    (e + t * (sum d (fun k => span d X1 X2 u k * rel d v k) / Lsq) + t * t * (sum d (fun k => rel d v k * rel d v k) / (2 * Lsq))))).
  { intros t. unfold trussEnergy. rewrite (Egl_line d X1 X2 u v t Q). reflexivity. }
  replace (dot (d + d) (trussForce d E A X1 X2 u nothing) v) with (E * A * e * L * (sum d (fun k => span d X1 X2 u k * rel d v k) / Lsq)).
  - auto_derive; [exact I|]. field.
    lra.
  - unfold dot, trussForce. unfold Lsq. rewrite <- dEdu_dot, <- sum_mul_l. apply sum_ext. intros k _. unfold nothing. fold L e. ring.
Qed.
Print Assumptions C54_force.

Lemma is_derive_sum n (f : nat -> R -> R) g : (forall k, (k < n)%nat -> is_derive (f k) 0 (g k)) ->
  is_derive (fun t => sum n (fun k => f k t)) 0 (sum n g).
Proof.
  induction n as [|n IH]; intros H; cbn [sum]; [apply @is_derive_const|].
  apply @is_derive_plus; [apply IH; intros; apply H; lia|apply H; lia].
Qed.

(** C54: the stiffness matrix is the gradient of the force *)
Theorem C54_stiffness d E A X1 X2 u v i :
  proper d X1 X2 -> (i < d + d)%nat ->
  is_derive (fun t => trussForce d E A X1 X2 (fun k => u k + t * v k) nothing i) 0
    (apply (d + d) (trussMatrix d E A X1 X2 u nothing2) v i).
Proof.
  intros P Hi. assert (Q := proper_length _ _ _ P).
  set (L := refLength (computeStrain d X1 X2 u)). set (e := Egl (computeStrain d X1 X2 u)).
  set (Lsq := sum d (fun k => (X2 k - X1 k) * (X2 k - X1 k))) in *.
  set (a := sum d (fun k => span d X1 X2 u k * rel d v k) / Lsq).
  set (b := sum d (fun k => rel d v k * rel d v k) / (2 * Lsq)).
  set (D := dEdu (computeStrain d X1 X2 u) i).
  set (r := (if (i <? d)%nat then - rel d v i else rel d v (i - d)) / Lsq).
  apply (is_derive_ext (fun t => E * A * (e + t * a + t * t * b) * L * (D + t * r))).
  { intros t. unfold trussForce, nothing. rewrite (Egl_line d X1 X2 u v t Q). fold Lsq a b e.
    change (refLength (computeStrain d X1 X2 (fun k => u k + t * v k))) with L. unfold D, r. cbn [computeStrain dEdu]. fold Lsq.
    match goal with |- ?a = ?b => change (@eq R a b) end. change R in t. destruct (Nat.ltb_spec i d); unfold rel, Rdiv; [ring|]. replace (d + (i - d))%nat with i by lia. ring. }
  replace (apply _ _ v i) with (E * A * L * (D * a + r * e)).
  - auto_derive; [exact I|]. ring.
  - unfold apply, trussMatrix. unfold a, r, Lsq. rewrite <- dEdu_dot with (u := u), <- ddEddu_apply with (u := u) by assumption.
    fold L e D. rewrite <- (sum_mul_r _ e), <- sum_mul_l, <- sum_add, <- sum_mul_l.
    apply sum_ext. intros k _. unfold nothing2. ring.
Qed.
Print Assumptions C54_stiffness.

(** The hypothesis is met by a bar along the diagonal of the plane *)
Example C54_applies : proper 2 (fun _ => 0) (fun _ => 1).
Proof. exists 0%nat. split; [lia|lra]. Qed.

(** C54: the matrix is symmetric, the forces of the two nodes are opposite and a rigid translation changes nothing *)
Theorem C54_symmetric d E A X1 X2 u i j : trussMatrix d E A X1 X2 u nothing2 i j = trussMatrix d E A X1 X2 u nothing2 j i.
Proof.
  unfold trussMatrix, nothing2. cbn [computeStrain dEdu ddEddu]. rewrite (Nat.eqb_sym j i).
  destruct (i <? d)%nat, (j <? d)%nat; cbn [andb negb]; try ring;
    rewrite ?(Nat.eqb_sym j), ?(Nat.eqb_sym (j - d)); unfold Rdiv; ring.
Qed.
Print Assumptions C54_symmetric.

Theorem C54_equilibrium d E A X1 X2 u k :
  (k < d)%nat -> trussForce d E A X1 X2 u nothing k = - trussForce d E A X1 X2 u nothing (d + k).
Proof.
  intros Hk. unfold trussForce, nothing. cbn [computeStrain dEdu].
  destruct (Nat.ltb_spec k d); [|lia]. destruct (Nat.ltb_spec (d + k) d); [lia|].
  replace (d + k - d)%nat with k by lia. unfold Rdiv. ring.
Qed.
Print Assumptions C54_equilibrium.

(** C79: the energy of a truss is objective *)
Definition orthogonal (d : nat) (Q : nat -> nat -> R) : Prop := eqm d (mul d (transpose Q) Q) identity.

(** The displacement of the nodes that results from rotating the deformed bar by Q and moving it by c *)
Definition moved (d : nat) (X1 X2 u : nat -> R) (Q : nat -> nat -> R) (c : nat -> R) (k : nat) : R :=
  if (k <? d)%nat then apply d Q (fun m => X1 m + u m) k + c k - X1 k
  else apply d Q (fun m => X2 m + u (d + m)%nat) (k - d) + c (k - d)%nat - X2 (k - d)%nat.

Lemma isometry d Q x : orthogonal d Q -> sum d (fun k => apply d Q x k * apply d Q x k) = sum d (fun k => x k * x k).
Proof.
  intros O. unfold apply.
  transitivity (sum d (fun i => x i * sum d (fun j => mul d (transpose Q) Q i j * x j))).
  - transitivity (sum d (fun k => sum d (fun i => sum d (fun j => x i * (Q k i * Q k j * x j))))).
    + apply sum_ext. intros k _. rewrite <- sum_mul_r. apply sum_ext. intros i _. rewrite <- sum_mul_l. apply sum_ext. intros j _. ring.
    + rewrite sum_swap. apply sum_ext. intros i _. rewrite sum_swap, <- sum_mul_l. apply sum_ext. intros j _.
      unfold mul, transpose. rewrite <- sum_mul_r, <- sum_mul_l. reflexivity.
  - apply sum_ext. intros i Hi. f_equal. rewrite <- (sum_id_l d i x Hi). apply sum_ext. intros j Hj. now rewrite (O i j Hi Hj).
Qed.

Lemma span_moved d X1 X2 u Q c k : (k < d)%nat -> span d X1 X2 (moved d X1 X2 u Q c) k = apply d Q (span d X1 X2 u) k.
Proof.
  intros Hk. unfold span, moved. destruct (Nat.ltb_spec k d); [|lia]. destruct (Nat.ltb_spec (d + k) d); [lia|].
  replace (d + k - d)%nat with k by lia. unfold apply.
  transitivity (sum d (fun m => Q k m * (X2 m + u (d + m)%nat)) - sum d (fun m => Q k m * (X1 m + u m))); [ring|].
  replace (- sum d (fun m => Q k m * (X1 m + u m))) with (-1 * sum d (fun m => Q k m * (X1 m + u m))) by ring.
  unfold Rminus. replace (- sum d (fun m => Q k m * (X1 m + u m))) with (-1 * sum d (fun m => Q k m * (X1 m + u m))) by ring.
  rewrite <- sum_mul_l, <- sum_add. apply sum_ext. intros m _. ring.
Qed.

Theorem C79_objectivity d E A X1 X2 u Q c :
  orthogonal d Q ->
  trussEnergy d E A X1 X2 (moved d X1 X2 u Q c) = trussEnergy d E A X1 X2 u /\
  (forall k, (k < d)%nat ->
    trussForce d E A X1 X2 (moved d X1 X2 u Q c) nothing k = apply d Q (trussForce d E A X1 X2 u nothing) k) /\
  forall r, trussResult d E A X1 X2 (moved d X1 X2 u Q c) r = trussResult d E A X1 X2 u r.
Proof.
  intros O.
  assert (S : sum d (fun k => span d X1 X2 (moved d X1 X2 u Q c) k * span d X1 X2 (moved d X1 X2 u Q c) k) =
              sum d (fun k => span d X1 X2 u k * span d X1 X2 u k)).
  { rewrite <- (isometry d Q (span d X1 X2 u) O). apply sum_ext. intros k Hk. now rewrite span_moved. }
  assert (G : Egl (computeStrain d X1 X2 (moved d X1 X2 u Q c)) = Egl (computeStrain d X1 X2 u)) by (rewrite !Egl_span; now rewrite S).
  assert (Len : length_ (computeStrain d X1 X2 (moved d X1 X2 u Q c)) = length_ (computeStrain d X1 X2 u)).
  { cbn [computeStrain length_]. f_equal. transitivity (sum d (fun k => span d X1 X2 (moved d X1 X2 u Q c) k * span d X1 X2 (moved d X1 X2 u Q c) k));
      [apply sum_ext; intros; unfold span; ring|]. rewrite S. apply sum_ext. intros; unfold span; ring. }
  split; [|split].
  - unfold trussEnergy. now rewrite G.
  - assert (F : forall u k, (k < d)%nat -> trussForce d E A X1 X2 u nothing k =
      - (E * A * Egl (computeStrain d X1 X2 u) * sqrt (sum d (fun k => (X2 k - X1 k) * (X2 k - X1 k))) /
         sum d (fun k => (X2 k - X1 k) * (X2 k - X1 k))) * span d X1 X2 u k).
    { intros w k Hk. unfold trussForce, nothing. cbn [computeStrain dEdu refLength]. destruct (Nat.ltb_spec k d); [|lia].
      unfold span, Rdiv. ring. }
    intros k Hk. rewrite F by assumption. rewrite G, span_moved by assumption. unfold apply. rewrite <- sum_mul_l.
    apply sum_ext. intros m Hm. rewrite (F u m Hm). ring.
  - intros [| |]; unfold trussResult; rewrite ?G, ?Len; [reflexivity|reflexivity|].
    cbn [computeStrain Elin]. cbn [computeStrain length_] in Len. now rewrite Len.
Qed.
Print Assumptions C79_objectivity.

Lemma identity_orthogonal d : orthogonal d identity.
Proof.
  intros i j Hi Hj. unfold mul, transpose. rewrite (sum_pick d i); [|assumption|].
  - unfold identity. rewrite Nat.eqb_refl. ring.
  - intros k Hk N. unfold identity. destruct (Nat.eqb_spec k i); [contradiction|]. ring.
Qed.

Example C79_applies : orthogonal 2 (fun i j => match i, j with 0%nat, 1%nat => -1 | 1%nat, 0%nat => 1 | _, _ => 0 end).
Proof. intros [|[|i]] [|[|j]] Hi Hj; try lia; cbn; ring. Qed.

(** C79: the force on the second node is the axial force in the deformed bar, directed along the deformed bar *)
Theorem C79_axial_force d E A X1 X2 u k :
  proper d X1 X2 -> (k < d)%nat ->
  trussForce d E A X1 X2 u nothing (d + k) * sqrt (sum d (fun m => (X2 m + u (d + m)%nat - (X1 m + u m)) * (X2 m + u (d + m)%nat - (X1 m + u m)))) =
  trussResult d E A X1 X2 u cauchyAxialForce * (X2 k + u (d + k)%nat - (X1 k + u k)).
Proof.
  intros P Hk. assert (Q := proper_length _ _ _ P). unfold trussForce, trussResult, nothing.
  cbn [computeStrain length_ refLength dEdu]. destruct (Nat.ltb_spec (d + k) d); [lia|].
  replace (d + k - d)%nat with k by lia.
  set (Lsq := sum d (fun k => (X2 k - X1 k) * (X2 k - X1 k))) in *.
  assert (T : sqrt Lsq * sqrt Lsq = Lsq) by (apply sqrt_sqrt; lra).
  assert (0 < sqrt Lsq) by now apply sqrt_lt_R0.
  set (e := Egl _). set (l := sqrt (sum d _)). rewrite <- T at 2. field. lra.
Qed.
Print Assumptions C79_axial_force.

(** C54: no force, no energy, and an elastic stiffness without negative direction in the undeformed bar and under tension *)
Theorem C54_reference d E A X1 X2 u Q c :
  orthogonal d Q -> proper d X1 X2 ->
  (forall k, u k = moved d X1 X2 (fun _ => 0) Q c k) ->
  trussEnergy d E A X1 X2 u = 0 /\ (forall k, trussForce d E A X1 X2 u nothing k = 0) /\ (forall r, trussResult d E A X1 X2 u r = 0).
Proof.
  intros O P H. assert (Pos := proper_length _ _ _ P).
  assert (S : forall w, (forall k, w k = moved d X1 X2 (fun _ => 0) Q c k) ->
    sum d (fun k => span d X1 X2 w k * span d X1 X2 w k) = sum d (fun k => (X2 k - X1 k) * (X2 k - X1 k))).
  { intros w Hw. transitivity (sum d (fun k => span d X1 X2 (fun _ => 0) k * span d X1 X2 (fun _ => 0) k)).
    - rewrite <- (isometry d Q (span d X1 X2 (fun _ => 0)) O). apply sum_ext. intros k Hk. rewrite <- (span_moved d X1 X2 (fun _ => 0) Q c k) by assumption.
      unfold span. pose proof (Hw k) as H1. pose proof (Hw (d + k)%nat) as H2. cbv beta in *. rewrite H1, H2. reflexivity.
    - apply sum_ext. intros k _. unfold span. ring. }
  assert (G : Egl (computeStrain d X1 X2 u) = 0) by (rewrite Egl_span, (S u H); field; lra).
  assert (Len : length_ (computeStrain d X1 X2 u) = refLength (computeStrain d X1 X2 u)).
  { cbn [computeStrain length_ refLength]. f_equal. rewrite <- (S u H). apply sum_ext. intros; unfold span; ring. }
  split; [|split].
  - unfold trussEnergy. rewrite G. ring.
  - intros k. unfold trussForce, nothing. rewrite G. ring.
  - intros [| |]; unfold trussResult; [rewrite G|rewrite G|]; [unfold Rdiv; ring|ring|].
    change (Elin (computeStrain d X1 X2 u)) with ((length_ (computeStrain d X1 X2 u) - refLength (computeStrain d X1 X2 u)) / refLength (computeStrain d X1 X2 u)).
    rewrite Len. unfold Rdiv. ring.
Qed.
Print Assumptions C54_reference.

Theorem C54_tension d E A X1 X2 u v :
  proper d X1 X2 -> 0 <= E * A -> 0 <= trussResult d E A X1 X2 u PK2AxialForce ->
  0 <= dot (d + d) v (apply (d + d) (trussMatrix d E A X1 X2 u nothing2) v).
Proof.
  intros P EA T. assert (Q := proper_length _ _ _ P).
  set (Lsq := sum d (fun k => (X2 k - X1 k) * (X2 k - X1 k))) in *.
  cbn [trussResult] in T. set (e := Egl (computeStrain d X1 X2 u)) in *. set (L := refLength (computeStrain d X1 X2 u)).
  assert (HL : 0 <= L) by apply sqrt_pos.
  set (a := sum d (fun k => span d X1 X2 u k * rel d v k) / Lsq).
  replace (dot _ _ _) with (L * (E * A * (a * a)) + L * (E * A * e * (sum d (fun k => rel d v k * rel d v k) / Lsq))).
  - apply Rplus_le_le_0_compat; apply Rmult_le_pos; try assumption; apply Rmult_le_pos; try assumption.
    + apply Rle_0_sqr.
    + apply Rle_mult_inv_pos; [|assumption]. apply sum_nonneg. intros. apply Rle_0_sqr.
  - unfold dot, apply.
    assert (Row : forall i, (i < d + d)%nat -> v i * sum (d + d) (fun j => trussMatrix d E A X1 X2 u nothing2 i j * v j) =
      E * A * L * a * (dEdu (computeStrain d X1 X2 u) i * v i) +
      E * A * L * e / Lsq * (if (i <? d)%nat then - rel d v i * v i else rel d v (i - d) * v (d + (i - d))%nat)).
    { intros i Hi.
      transitivity (v i * (E * A * L * (dEdu (computeStrain d X1 X2 u) i * sum (d + d) (fun j => dEdu (computeStrain d X1 X2 u) j * v j) +
                                 e * sum (d + d) (fun j => ddEddu (computeStrain d X1 X2 u) i j * v j)))).
      - f_equal. rewrite <- !sum_mul_l, <- sum_add, <- sum_mul_l. apply sum_ext. intros j _. unfold trussMatrix, nothing2. fold e L. ring.
      - rewrite dEdu_dot, ddEddu_apply by assumption. fold Lsq a.
        destruct (Nat.ltb_spec i d); [unfold Rdiv; ring|]. replace (d + (i - d))%nat with i by lia. unfold Rdiv. ring. }
    rewrite (sum_ext _ _ _ Row), sum_add, !sum_mul_l, dEdu_dot. fold Lsq a.
    rewrite (sum_two d (fun i => - rel d v i * v i) (fun i => rel d v i * v (d + i)%nat)), <- sum_add.
    rewrite (sum_ext d (fun k => rel d v k * rel d v k) (fun k => - rel d v k * v k + rel d v k * v (d + k)%nat)).
    + unfold Rdiv. ring.
    + intros k _. unfold rel. ring.
Qed.
Print Assumptions C54_tension.

Example C54_tension_applies : 0 <= trussResult 1 1 1 (fun _ => 0) (fun _ => 1) (fun k => match k with 1%nat => 1 | _ => 0 end) PK2AxialForce.
Proof. cbn. lra. Qed.
