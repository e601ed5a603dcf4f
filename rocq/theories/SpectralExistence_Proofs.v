(** Every symmetric 3 x 3 matrix has a decomposition: the contract for the eigenvalue solver can be met. *)

From Coq Require Import Reals Ranalysis Lra Lia List Arith FunctionalExtensionality.
From Verif Require Import Tensor_Model Tensor_Spec Tensor_Props Conversions_Spec Conversions_Props NeoHooke_Model Hyperelastic_Spec.
Local Open Scope R_scope.

(** ** Real roots of cubic polynomials *)
Lemma cubic_root a b c : {x : R | x ^ 3 + a * x ^ 2 + b * x + c = 0}.
Proof.
  set (f := fun x => x ^ 3 + a * x ^ 2 + b * x + c).
  set (K := Rabs a + Rabs b + Rabs c). set (B := 1 + K).
  assert (Pa := Rabs_pos a). assert (Pb := Rabs_pos b). assert (Pc := Rabs_pos c).
  assert (Ka := Rle_abs a). assert (Kb := Rle_abs b). assert (Kc := Rle_abs c).
  assert (Na := Rle_abs (- a)). assert (Nb := Rle_abs (- b)). assert (Nc := Rle_abs (- c)). rewrite Rabs_Ropp in Na, Nb, Nc.
  assert (HB : 1 <= B) by (unfold B, K; lra).
  assert (B2 : B <= B ^ 2) by (simpl; nra).
  assert (Q : forall x, x * x = B ^ 2 -> Rabs a * B ^ 2 + Rabs b * B + Rabs c <= K * B ^ 2).
  { intros _ _. unfold K. nra. }
  assert (Up : 0 <= f B).
  { unfold f. specialize (Q B ltac:(ring)). assert (B ^ 3 = B ^ 2 + K * B ^ 2) by (unfold B; ring).
    assert (- (Rabs a * B ^ 2) <= a * B ^ 2) by nra. assert (- (Rabs b * B) <= b * B) by nra. assert (0 <= B ^ 2) by nra. lra. }
  assert (Lo : f (- B) <= 0).
  { unfold f. specialize (Q B ltac:(ring)). assert (B ^ 3 = B ^ 2 + K * B ^ 2) by (unfold B; ring).
    replace ((- B) ^ 3) with (- B ^ 3) by ring. replace ((- B) ^ 2) with (B ^ 2) by ring.
    assert (a * B ^ 2 <= Rabs a * B ^ 2) by nra. assert (b * - B <= Rabs b * B) by nra. assert (0 <= B ^ 2) by nra. lra. }
  assert (Cf : continuity f) by (unfold f; reg).
  destruct (IVT_cor f (- B) B Cf ltac:(lra)) as (x & _ & E); [|exists x; exact E].
  rewrite Rmult_comm. rewrite <- (Rmult_0_r (f B)). apply Rmult_le_compat_l; assumption.
Qed.

(** ** Kernel vectors *)
Definition dot (u v : nat -> R) : R := u 0%nat * v 0%nat + u 1%nat * v 1%nat + u 2%nat * v 2%nat.
Definition vec3 (x y z : R) (i : nat) : R := match i with 0%nat => x | 1%nat => y | _ => z end.
Definition cross (u v : nat -> R) : nat -> R :=
  vec3 (u 1%nat * v 2%nat - u 2%nat * v 1%nat) (u 2%nat * v 0%nat - u 0%nat * v 2%nat) (u 0%nat * v 1%nat - u 1%nat * v 0%nat).

Lemma dot_zero u : dot u u = 0 -> u 0%nat = 0 /\ u 1%nat = 0 /\ u 2%nat = 0.
Proof. unfold dot. intros. repeat split; nra. Qed.
Lemma dot_nonneg u : 0 <= dot u u.
Proof. unfold dot. nra. Qed.

Lemma kernel A : det3 A = 0 -> {v : nat -> R | dot v v <> 0 /\ forall i, (i < 3)%nat -> dot (A i) v = 0}.
Proof.
  intros D.
  pose (r0 := A 0%nat). pose (r1 := A 1%nat). pose (r2 := A 2%nat).
  assert (G : forall v, dot r0 v = 0 -> dot r1 v = 0 -> dot r2 v = 0 -> forall i, (i < 3)%nat -> dot (A i) v = 0).
  { intros v E0 E1 E2 i Hi. cases i; assumption. }
  assert (T : forall v, dot r0 v = 0 -> dot r1 v = 0 -> dot r2 v = 0 -> dot v v <> 0 -> {v : nat -> R | dot v v <> 0 /\ forall i, (i < 3)%nat -> dot (A i) v = 0}).
  { intros v E0 E1 E2 N. exists v. split; auto. }
  assert (D' : forall v, v = cross r0 r1 \/ v = cross r0 r2 \/ v = cross r1 r2 -> dot r0 v = 0 /\ dot r1 v = 0 /\ dot r2 v = 0).
  { unfold det3 in D. intros v [->|[->| ->]]; unfold dot, cross, vec3, r0, r1, r2; repeat split; nra. }
  destruct (Req_EM_T (dot (cross r0 r1) (cross r0 r1)) 0) as [Z1|N]; [|destruct (D' (cross r0 r1)) as (? & ? & ?); [auto|now apply (T (cross r0 r1))]].
  destruct (Req_EM_T (dot (cross r0 r2) (cross r0 r2)) 0) as [Z2|N]; [|destruct (D' (cross r0 r2)) as (? & ? & ?); [auto|now apply (T (cross r0 r2))]].
  destruct (Req_EM_T (dot (cross r1 r2) (cross r1 r2)) 0) as [Z3|N]; [|destruct (D' (cross r1 r2)) as (? & ? & ?); [auto|now apply (T (cross r1 r2))]].
  clear D' G. apply dot_zero in Z1, Z2, Z3. cbn in Z1, Z2, Z3. destruct Z1 as (a1 & a2 & a3). destruct Z2 as (b1 & b2 & b3). destruct Z3 as (c1 & c2 & c3).
  (* rows are parallel: vectors perpendicular to one row *)
  assert (P : forall r, (r = r0 \/ r = r1 \/ r = r2) -> forall v, v = vec3 (- r 1%nat) (r 0%nat) 0 \/ v = vec3 (- r 2%nat) 0 (r 0%nat) ->
    dot r0 v = 0 /\ dot r1 v = 0 /\ dot r2 v = 0).
  { intros r [->|[->| ->]] v [->| ->]; unfold dot, vec3; repeat split; lra. }
  destruct (Req_EM_T (dot (vec3 (- r0 1%nat) (r0 0%nat) 0) (vec3 (- r0 1%nat) (r0 0%nat) 0)) 0) as [Z|N]; [|edestruct (P r0) as (? & ? & ?); [auto|left; reflexivity|now apply (T _ H H0 H1)]].
  apply dot_zero in Z. cbn in Z. destruct Z as (z1 & z2 & _).
  destruct (Req_EM_T (dot (vec3 (- r1 1%nat) (r1 0%nat) 0) (vec3 (- r1 1%nat) (r1 0%nat) 0)) 0) as [Z|N]; [|edestruct (P r1) as (? & ? & ?); [auto|left; reflexivity|now apply (T _ H H0 H1)]].
  apply dot_zero in Z. cbn in Z. destruct Z as (y1 & y2 & _).
  destruct (Req_EM_T (dot (vec3 (- r2 1%nat) (r2 0%nat) 0) (vec3 (- r2 1%nat) (r2 0%nat) 0)) 0) as [Z|N]; [|edestruct (P r2) as (? & ? & ?); [auto|left; reflexivity|now apply (T _ H H0 H1)]].
  apply dot_zero in Z. cbn in Z. destruct Z as (x1 & x2 & _).
  (* only the last column is left *)
  apply (T (vec3 1 0 0)); unfold dot, vec3; lra.
Qed.

(** ** Orthonormal bases *)
Lemma normalised v : dot v v <> 0 -> {n : nat -> R & {k : R | dot n n = 1 /\ forall i, n i = k * v i}}.
Proof.
  intros N. assert (P : 0 < dot v v) by (assert (Q := dot_nonneg v); lra).
  assert (S := sqrt_lt_R0 _ P). assert (E : sqrt (dot v v) * sqrt (dot v v) = dot v v) by (apply sqrt_sqrt; lra).
  exists (fun i => / sqrt (dot v v) * v i), (/ sqrt (dot v v)). split; [|reflexivity].
  transitivity (dot v v / (sqrt (dot v v) * sqrt (dot v v))); [unfold dot at 1 4; field; lra|]. rewrite E. field. lra.
Qed.

Definition columns (n u v : nat -> R) : rmat := fun i j => match j with 0%nat => n i | 1%nat => u i | _ => v i end.

Lemma orthogonal_columns n u v : dot n n = 1 -> dot u u = 1 -> dot v v = 1 -> dot n u = 0 -> dot n v = 0 -> dot u v = 0 ->
  (forall i j, (i < 3)%nat -> (j < 3)%nat -> n i * n j + u i * u j + v i * v j = identity i j) -> orthogonalMatrix (columns n u v).
Proof.
  intros Nn Nu Nv Nnu Nnv Nuv Row. split; intros i j Hi Hj.
  - unfold mul, transpose, columns, identity. unfold dot in *. cases i; cases j; cbn; lra.
  - rewrite <- (Row i j Hi Hj). unfold mul, transpose, columns. cbn. ring.
Qed.

Lemma basis n : dot n n = 1 -> {u : nat -> R & {v : nat -> R | orthogonalMatrix (columns n u v)}}.
Proof.
  intros E.
  assert (G : forall u, dot u u = 1 -> dot n u = 0 -> orthogonalMatrix (columns n u (cross n u))).
  { intros u U V. unfold dot in *. apply orthogonal_columns; unfold dot; auto.
    - transitivity ((n 0%nat * n 0%nat + n 1%nat * n 1%nat + n 2%nat * n 2%nat) * (u 0%nat * u 0%nat + u 1%nat * u 1%nat + u 2%nat * u 2%nat) -
        (n 0%nat * u 0%nat + n 1%nat * u 1%nat + n 2%nat * u 2%nat) ^ 2); [unfold cross, vec3; ring|]. rewrite E, U, V. ring.
    - unfold cross, vec3; ring.
    - unfold cross, vec3; ring.
    - intros i j Hi Hj. assert (K : forall a b c x y z, a * a + b * b + c * c = 1 -> x * x + y * y + z * z = 1 -> a * x + b * y + c * z = 0 ->
        a * a + x * x + (b * z - c * y) * (b * z - c * y) = 1 /\ a * b + x * y + (b * z - c * y) * (c * x - a * z) = 0).
      { clear. intros a b c x y z H1 H2 H3. split.
        - replace ((b * z - c * y) * (b * z - c * y)) with ((b * b + c * c) * (y * y + z * z) - (b * y + c * z) * (b * y + c * z)) by ring.
          replace (b * b + c * c) with (1 - a * a) by lra. replace (y * y + z * z) with (1 - x * x) by lra. replace (b * y + c * z) with (- (a * x)) by lra. ring.
        - replace ((b * z - c * y) * (c * x - a * z)) with ((b * y + c * z + a * x) * (a * y + b * x) - a * b * (x * x + y * y + z * z) - x * y * (a * a + b * b + c * c)
            + 0) by ring. rewrite H1, H2. replace (b * y + c * z + a * x) with 0 by lra. ring. }
      unfold identity, cross, vec3.
      cases i; cases j; cbn.
      + destruct (K (n 0%nat) (n 1%nat) (n 2%nat) (u 0%nat) (u 1%nat) (u 2%nat)); lra.
      + destruct (K (n 0%nat) (n 1%nat) (n 2%nat) (u 0%nat) (u 1%nat) (u 2%nat)); lra.
      + destruct (K (n 2%nat) (n 0%nat) (n 1%nat) (u 2%nat) (u 0%nat) (u 1%nat)); lra.
      + destruct (K (n 0%nat) (n 1%nat) (n 2%nat) (u 0%nat) (u 1%nat) (u 2%nat)); lra.
      + destruct (K (n 1%nat) (n 2%nat) (n 0%nat) (u 1%nat) (u 2%nat) (u 0%nat)); lra.
      + destruct (K (n 1%nat) (n 2%nat) (n 0%nat) (u 1%nat) (u 2%nat) (u 0%nat)); lra.
      + destruct (K (n 2%nat) (n 0%nat) (n 1%nat) (u 2%nat) (u 0%nat) (u 1%nat)); lra.
      + destruct (K (n 1%nat) (n 2%nat) (n 0%nat) (u 1%nat) (u 2%nat) (u 0%nat)); lra.
      + destruct (K (n 2%nat) (n 0%nat) (n 1%nat) (u 2%nat) (u 0%nat) (u 1%nat)); lra. }
  destruct (Req_EM_T (dot (vec3 (- n 1%nat) (n 0%nat) 0) (vec3 (- n 1%nat) (n 0%nat) 0)) 0) as [Z|N].
  - exists (vec3 1 0 0). exists (cross n (vec3 1 0 0)). apply dot_zero in Z. cbn in Z. apply G; unfold dot, vec3; lra.
  - destruct (normalised _ N) as (u & k & U & V). exists u, (cross n u). apply G; [exact U|].
    unfold dot. rewrite !V. unfold vec3. ring.
Qed.

(** ** Rotation of a symmetric 2 x 2 matrix to diagonal form *)
Lemma rotation2 al be ga : {c : R & {s : R | c * c + s * s = 1 /\ be * (c * c - s * s) + (ga - al) * (s * c) = 0}}.
Proof.
  destruct (Req_EM_T be 0) as [->|N]; [exists 1, 0; split; ring|].
  set (D := ((al - ga) / 2) ^ 2 + be ^ 2). assert (PD : 0 <= D) by (unfold D; apply Rplus_le_le_0_compat; apply pow2_ge_0). assert (S := sqrt_sqrt _ PD).
  set (mu := (al + ga) / 2 + sqrt D).
  assert (E : (mu - al) * (mu - ga) = be * be).
  { unfold mu. replace (be * be) with (sqrt D * sqrt D - ((al - ga) / 2) ^ 2) by (rewrite S; unfold D; ring). field. }
  set (Q := be * be + (mu - al) * (mu - al)). assert (PQ : 0 < Q) by (unfold Q; apply Rplus_lt_le_0_compat; [exact (Rsqr_pos_lt be N)|apply Rle_0_sqr]).
  assert (R0 := sqrt_lt_R0 _ PQ). assert (RR : sqrt Q * sqrt Q = Q) by (apply sqrt_sqrt; lra).
  exists (be / sqrt Q), ((mu - al) / sqrt Q). split.
  - transitivity (Q / (sqrt Q * sqrt Q)); [unfold Q at 5; field; lra|]. rewrite RR. field. lra.
  - transitivity ((be * (be * be - (mu - al) * (mu - al)) + (ga - al) * ((mu - al) * be)) / (sqrt Q * sqrt Q)); [field; lra|].
    replace (be * (be * be - (mu - al) * (mu - al)) + (ga - al) * ((mu - al) * be)) with (be * (be * be - (mu - al) * (mu - ga))) by ring.
    rewrite E. unfold Rdiv. ring.
Qed.

(** ** The decomposition *)
Definition diagonalises (C : rmat) (e : nat -> R) (N : rmat) : Prop :=
  orthogonalMatrix N /\ eqm 3 C (fun i j => sum 3 (fun k => N i k * e k * N j k)).

Lemma swap_columns C e N (f : nat -> nat) : diagonalises C e N -> (f = (fun i => match i with 0%nat => 1%nat | 1%nat => 0%nat | k => k end) \/
  f = (fun i => match i with 1%nat => 2%nat | 2%nat => 1%nat | k => k end)) -> diagonalises C (fun i => e (f i)) (fun i j => N i (f j)).
Proof.
  intros ([O1 O2] & E) F. split; [split|].
  - intros i j Hi Hj. assert (X : forall i, (i < 3)%nat -> (f i < 3)%nat) by (destruct F as [-> | ->]; intros k Hk; cases k; lia).
    transitivity (identity (f i) (f j)); [exact (O1 (f i) (f j) (X i Hi) (X j Hj))|].
    destruct F as [-> | ->]; unfold identity; cases i; cases j; reflexivity.
  - intros i j Hi Hj. rewrite <- (O2 i j Hi Hj). unfold mul, transpose. cbn [sum]. destruct F as [-> | ->]; ring.
  - intros i j Hi Hj. rewrite (E i j Hi Hj). cbn [sum]. destruct F as [-> | ->]; ring.
Qed.

Definition swap01 (i : nat) : nat := match i with 0%nat => 1%nat | 1%nat => 0%nat | k => k end.
Definition swap12 (i : nat) : nat := match i with 1%nat => 2%nat | 2%nat => 1%nat | k => k end.

Lemma sorted C e N : diagonalises C e N -> {e' : nat -> R & {N' : rmat | decomposition C e' N'}}.
Proof.
  intros D.
  assert (A : {e' : nat -> R & {N' : rmat | diagonalises C e' N' /\ e' 0%nat <= e' 1%nat}}).
  { destruct (Rle_dec (e 0%nat) (e 1%nat)) as [L|L]; [exists e, N; auto|].
    exists (fun i => e (swap01 i)), (fun i j => N i (swap01 j)). split; [apply swap_columns; auto|cbn; lra]. }
  clear D e N. destruct A as (e & N & D & L1).
  destruct (Rle_dec (e 1%nat) (e 2%nat)) as [L|L].
  { exists e, N. destruct D. split; [auto|split; auto]. }
  assert (D1 : diagonalises C (fun i => e (swap12 i)) (fun i j => N i (swap12 j))) by (apply swap_columns; auto).
  destruct (Rle_dec (e 0%nat) (e 2%nat)) as [L2|L2].
  { exists (fun i => e (swap12 i)), (fun i j => N i (swap12 j)). destruct D1. split; [cbn; lra|split; auto]. }
  assert (D2 := swap_columns C _ _ swap01 D1 ltac:(auto)).
  exists (fun i => e (swap12 (swap01 i))), (fun i j => N i (swap12 (swap01 j))). destruct D2. split; [cbn; lra|split; auto].
Qed.

Theorem spectral C : symmetric 3 C -> {e : nat -> R & {N : rmat | decomposition C e N}}.
Proof.
  intros SC.
  destruct (cubic_root (- (C 0%nat 0%nat + C 1%nat 1%nat + C 2%nat 2%nat))
    (C 0%nat 0%nat * C 1%nat 1%nat - C 0%nat 1%nat * C 1%nat 0%nat + (C 0%nat 0%nat * C 2%nat 2%nat - C 0%nat 2%nat * C 2%nat 0%nat) + (C 1%nat 1%nat * C 2%nat 2%nat - C 1%nat 2%nat * C 2%nat 1%nat))
    (- det3 C)) as (x & Ex).
  destruct (kernel (fun i j => C i j - x * identity i j)) as (w & Nw & Kw).
  { unfold det3, identity in *. cbn [Nat.eqb]. nra. }
  destruct (normalised w Nw) as (n & k & Nn & En).
  assert (Kn : forall i, (i < 3)%nat -> dot (C i) n = x * n i).
  { intros i Hi. assert (Q := Kw i Hi). unfold dot in *. rewrite !En. unfold identity in Q. apply (f_equal (Rmult k)) in Q. rewrite Rmult_0_r in Q. cases i; cbn [Nat.eqb] in Q; lra. }
  destruct (basis n Nn) as (u & v & O).
  set (form := fun p q : nat -> R => dot p (fun i => dot (C i) q)).
  destruct (rotation2 (form u u) (form u v) (form v v)) as (c & s & Ecs & Er).
  set (u' := fun i => c * u i + s * v i). set (v' := fun i => - s * u i + c * v i).
  assert (O' : orthogonalMatrix (columns n u' v')).
  { destruct O as [O1 O2]. split; intros i j Hi Hj.
    - assert (Q : forall a b, (a < 3)%nat -> (b < 3)%nat -> mul 3 (transpose (columns n u v)) (columns n u v) a b = identity a b) by exact O1.
      assert (Q00 := Q 0%nat 0%nat ltac:(lia) ltac:(lia)). assert (Q01 := Q 0%nat 1%nat ltac:(lia) ltac:(lia)). assert (Q02 := Q 0%nat 2%nat ltac:(lia) ltac:(lia)).
      assert (Q11 := Q 1%nat 1%nat ltac:(lia) ltac:(lia)). assert (Q12 := Q 1%nat 2%nat ltac:(lia) ltac:(lia)). assert (Q22 := Q 2%nat 2%nat ltac:(lia) ltac:(lia)).
      unfold mul, transpose, columns, identity in *. cbn in *. clear -Ecs Q00 Q01 Q02 Q11 Q12 Q22 Hi Hj. unfold u', v'.
      set (uu := 0 + u 0%nat * u 0%nat + u 1%nat * u 1%nat + u 2%nat * u 2%nat) in *.
      set (uv := 0 + u 0%nat * v 0%nat + u 1%nat * v 1%nat + u 2%nat * v 2%nat) in *.
      set (vv := 0 + v 0%nat * v 0%nat + v 1%nat * v 1%nat + v 2%nat * v 2%nat) in *.
      set (nu := 0 + n 0%nat * u 0%nat + n 1%nat * u 1%nat + n 2%nat * u 2%nat) in *.
      set (nv := 0 + n 0%nat * v 0%nat + n 1%nat * v 1%nat + n 2%nat * v 2%nat) in *.
      cases i; cases j; cbn.
      + exact Q00.
      + transitivity (c * nu + s * nv); [unfold nu, nv; ring|]. rewrite Q01, Q02. ring.
      + transitivity (- s * nu + c * nv); [unfold nu, nv; ring|]. rewrite Q01, Q02. ring.
      + transitivity (c * nu + s * nv); [unfold nu, nv; ring|]. rewrite Q01, Q02. ring.
      + transitivity (c * c * uu + 2 * (c * s * uv) + s * s * vv); [unfold uu, uv, vv; ring|]. rewrite Q11, Q12, Q22. lra.
      + transitivity (- (c * s * uu) + (c * c - s * s) * uv + s * c * vv); [unfold uu, uv, vv; ring|]. rewrite Q11, Q12, Q22. ring.
      + transitivity (- s * nu + c * nv); [unfold nu, nv; ring|]. rewrite Q01, Q02. ring.
      + transitivity (- (c * s * uu) + (c * c - s * s) * uv + s * c * vv); [unfold uu, uv, vv; ring|]. rewrite Q11, Q12, Q22. ring.
      + transitivity (s * s * uu - 2 * (c * s * uv) + c * c * vv); [unfold uu, uv, vv; ring|]. rewrite Q11, Q12, Q22. lra.
    - rewrite <- (O2 i j Hi Hj). unfold mul, transpose, columns, u', v'. cbn.
      transitivity (n i * n j + (c * c + s * s) * (u i * u j + v i * v j)); [ring|]. rewrite Ecs. ring. }
  apply (sorted C (vec3 x (form u' u') (form v' v')) (columns n u' v')). split; [exact O'|].
  (* the matrix in the new basis *)
  assert (F0 : forall p, form p n = x * dot p n).
  { intros p. unfold form. unfold dot at 1. rewrite !Kn by lia. unfold dot. ring. }
  assert (Fs : forall p q, form p q = form q p).
  { intros p q. unfold form, dot. rewrite (SC 1%nat 0%nat), (SC 2%nat 0%nat), (SC 2%nat 1%nat) by lia. ring. }
  assert (Fuv : form u' v' = 0).
  { transitivity (form u v * (c * c - s * s) + (form v v - form u u) * (s * c)); [|exact Er].
    transitivity (- (c * s) * form u u + c * c * form u v - s * s * form v u + s * c * form v v); [unfold form, dot, u', v'; ring|]. rewrite (Fs v u). ring. }
  assert (Z : forall a b, (a < 3)%nat -> (b < 3)%nat -> form (fun i => columns n u' v' i a) (fun i => columns n u' v' i b) = if Nat.eqb a b then vec3 x (form u' u') (form v' v') a else 0).
  { destruct O' as [O1 _].
    assert (Q0 : forall a, (a < 3)%nat -> dot (fun i => columns n u' v' i a) n = identity a 0%nat).
    { intros a Ha. rewrite <- (O1 a 0%nat Ha ltac:(lia)). unfold mul, transpose, dot. cbn [sum]. unfold columns. ring. }
    intros a b Ha Hb. cases b; cases a; cbn [Nat.eqb vec3].
    - etransitivity; [apply (F0 (fun i => columns n u' v' i 0%nat))|]. rewrite (Q0 0%nat) by lia. unfold identity. cbn. ring.
    - etransitivity; [apply (F0 (fun i => columns n u' v' i 1%nat))|]. rewrite (Q0 1%nat) by lia. unfold identity. cbn. ring.
    - etransitivity; [apply (F0 (fun i => columns n u' v' i 2%nat))|]. rewrite (Q0 2%nat) by lia. unfold identity. cbn. ring.
    - rewrite Fs. etransitivity; [apply (F0 (fun i => columns n u' v' i 1%nat))|]. rewrite (Q0 1%nat) by lia. unfold identity. cbn. ring.
    - reflexivity.
    - rewrite Fs. exact Fuv.
    - rewrite Fs. etransitivity; [apply (F0 (fun i => columns n u' v' i 2%nat))|]. rewrite (Q0 2%nat) by lia. unfold identity. cbn. ring.
    - exact Fuv.
    - reflexivity. }
  set (Nn' := columns n u' v') in *. set (ee := vec3 x (form u' u') (form v' v')) in *. clearbody Nn' ee. destruct O' as [O1 O2].
  intros p q Hp Hq.
  transitivity (sum 3 (fun a => mul 3 Nn' (transpose Nn') p a * sum 3 (fun b => mul 3 Nn' (transpose Nn') q b * C a b))).
  - rewrite (sum_ext 3 _ (fun a => identity p a * C a q)); [now rewrite (sum_id_l 3 p (fun a => C a q))|].
    intros a Ha. rewrite (O2 p a Hp Ha). f_equal. rewrite (sum_ext 3 _ (fun b => identity q b * C a b)); [now rewrite (sum_id_l 3 q (fun b => C a b))|].
    intros b Hb. now rewrite (O2 q b Hq Hb).
  - transitivity (sum 3 (fun a => sum 3 (fun b => Nn' p a * Nn' q b * form (fun i => Nn' i a) (fun i => Nn' i b)))).
    { unfold form, dot, mul, transpose. cbn [sum]. ring. }
    transitivity (sum 3 (fun a => sum 3 (fun b => Nn' p a * Nn' q b * (if Nat.eqb a b then ee a else 0)))).
    { apply sum_ext. intros a Ha. apply sum_ext. intros b Hb. now rewrite Z. }
    cbn [sum Nat.eqb]. ring.
Qed.

(** A solver that meets the contract *)
Definition symmetric_dec (C : rmat) : {symmetric 3 C} + {~ symmetric 3 C}.
Proof.
  destruct (Req_EM_T (C 0%nat 1%nat) (C 1%nat 0%nat)) as [E1|N]; [|right; intros S; apply N, S; lia].
  destruct (Req_EM_T (C 0%nat 2%nat) (C 2%nat 0%nat)) as [E2|N]; [|right; intros S; apply N, S; lia].
  destruct (Req_EM_T (C 1%nat 2%nat) (C 2%nat 1%nat)) as [E3|N]; [|right; intros S; apply N, S; lia].
  left. intros i j Hi Hj. cases i; cases j; auto.
Defined.

Definition exactSolver (C : rmat) : option ((nat -> R) * rmat) :=
  match symmetric_dec C with left Sym => let (e, n) := spectral C Sym in let (N, _) := n in Some (e, N) | right _ => None end.

Theorem exactSolver_solves : solvesSymmetric exactSolver.
Proof.
  intros C S. unfold exactSolver. destruct symmetric_dec as [S'|]; [|contradiction]. destruct (spectral C S') as (e & N & D). exists e, N. auto.
Qed.
