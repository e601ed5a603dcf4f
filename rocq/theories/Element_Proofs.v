(** Lemmas about Element_Model. *)

From Coq Require Import Reals Arith Bool List Lia Lra.
From Coquelicot Require Import Coquelicot.
From Verif Require Import Tensor_Spec Conversions_Spec Conversions_Props Tensor_Model Element_Spec Element_Model.
Import ListNotations.
Local Open Scope R_scope.

Lemma loop_S {S} n (body : nat -> S -> S) s : loop (Datatypes.S n) body s = body n (loop n body s).
Proof. reflexivity. Qed.

Lemma loop_ext {S} n (f g : nat -> S -> S) s : (forall i x, (i < n)%nat -> f i x = g i x) -> loop n f s = loop n g s.
Proof.
  induction n as [|n IH]; intros H; [reflexivity|]. rewrite !loop_S, IH; [apply H; lia|]. intros. apply H. lia.
Qed.

(** Where an entry of the local vector belongs *)
Lemma in_segment d i k : (0 < d)%nat -> ((d * i <=? k) && (k <? d * i + d))%nat = (k / d =? i)%nat.
Proof.
  intros P. destruct (Nat.eqb_spec (k / d) i) as [E|E].
  - assert (H := Nat.mul_div_le k d ltac:(lia)). assert (H' := Nat.mul_succ_div_gt k d ltac:(lia)).
    rewrite E in *. apply andb_true_intro. split; [apply Nat.leb_le; lia|apply Nat.ltb_lt; lia].
  - apply andb_false_iff. destruct (Nat.leb_spec (d * i) k) as [H1|H1]; [|left; reflexivity]. right.
    apply Nat.ltb_ge. assert (Q : (i <= k / d)%nat) by (apply Nat.div_le_lower_bound; lia).
    assert (Q' : (d * S i <= d * (k / d))%nat) by (apply Nat.mul_le_mono_l; lia).
    assert (H := Nat.mul_div_le k d ltac:(lia)). lia.
Qed.

Lemma addSegment_at d i v f k : (0 < d)%nat -> addSegment d i v f k = if (k / d =? i)%nat then f k + v (k mod d) else f k.
Proof.
  intros P. unfold addSegment. rewrite in_segment by assumption. destruct (Nat.eqb_spec (k / d) i) as [E|E]; [|reflexivity].
  do 2 f_equal. rewrite Nat.mod_eq by lia. subst i. reflexivity.
Qed.

Lemma addBlock_at d i j B K k l : (0 < d)%nat ->
  addBlock d i j B K k l = if ((k / d =? i) && (l / d =? j))%nat then K k l + B (k mod d) (l mod d) else K k l.
Proof.
  intros P. unfold addBlock. rewrite !(Nat.mul_comm _ d), !in_segment by assumption.
  destruct (Nat.eqb_spec (k / d) i) as [E|E]; [|reflexivity]. destruct (Nat.eqb_spec (l / d) j) as [F|F]; [|reflexivity].
  cbn [andb]. do 2 f_equal; rewrite Nat.mod_eq by lia; subst; reflexivity.
Qed.

Lemma div_small d n k : (0 < d)%nat -> (k < d * n)%nat <-> (k / d < n)%nat.
Proof.
  intros P. split; intros H; [apply Nat.div_lt_upper_bound; lia|].
  assert (H' := Nat.mul_succ_div_gt k d ltac:(lia)). assert (d * S (k / d) <= d * n)%nat by (apply Nat.mul_le_mono_l; lia). lia.
Qed.

Lemma loop_segments d n v f k : (0 < d)%nat ->
  loop n (fun i f => addSegment d i (v i) f) f k = if (k / d <? n)%nat then f k + v (k / d)%nat (k mod d) else f k.
Proof.
  intros P. induction n as [|n IH]; [reflexivity|]. rewrite loop_S, addSegment_at, IH by assumption.
  destruct (Nat.eqb_spec (k / d) n) as [E|E], (Nat.ltb_spec (k / d) n) as [L|L], (Nat.ltb_spec (k / d) (S n)) as [L'|L']; try lia; try reflexivity.
  rewrite E. reflexivity.
Qed.

Lemma loop_row d m i B K k l : (0 < d)%nat ->
  loop m (fun j K => addBlock d i j (B j) K) K k l =
  if ((k / d =? i) && (l / d <? m))%nat then K k l + B (l / d)%nat (k mod d) (l mod d) else K k l.
Proof.
  intros P. induction m as [|m IH]; [cbn; rewrite andb_false_r; reflexivity|]. rewrite loop_S, addBlock_at, IH by assumption.
  destruct (Nat.eqb_spec (k / d) i) as [E|E]; [|reflexivity]. cbn [andb].
  destruct (Nat.eqb_spec (l / d) m) as [F|F], (Nat.ltb_spec (l / d) m) as [L|L], (Nat.ltb_spec (l / d) (S m)) as [L'|L']; try lia; try reflexivity.
  rewrite F. reflexivity.
Qed.

Lemma loop_blocks d m n B K k l : (0 < d)%nat ->
  loop n (fun i K => loop m (fun j K => addBlock d i j (B i j) K) K) K k l =
  if ((k / d <? n) && (l / d <? m))%nat then K k l + B (k / d)%nat (l / d)%nat (k mod d) (l mod d) else K k l.
Proof.
  intros P. induction n as [|n IH]; [reflexivity|]. rewrite loop_S, loop_row, IH by assumption.
  destruct (Nat.eqb_spec (k / d) n) as [E|E], (Nat.ltb_spec (k / d) n) as [L|L], (Nat.ltb_spec (k / d) (S n)) as [L'|L']; try lia; try reflexivity.
  cbn [andb]. rewrite E. reflexivity.
Qed.

Lemma sum_from b m f : sum (b + m) f = sum b f + sum m (fun a => f (b + a)%nat).
Proof. induction m as [|m IH]; [rewrite Nat.add_0_r; cbn; ring|]. rewrite Nat.add_succ_r. cbn [sum]. rewrite IH. ring. Qed.

Lemma sum_blocks d n f : sum (d * n) f = sum n (fun i => sum d (fun a => f (d * i + a)%nat)).
Proof.
  induction n as [|n IH]; [rewrite Nat.mul_0_r; reflexivity|].
  cbn [sum]. rewrite <- IH. replace (d * S n)%nat with (d * n + d)%nat by lia. apply sum_from.
Qed.

(** Sums over the integration points *)
Fixpoint sumP {A} (l : list A) (f : A -> R) : R := match l with [] => 0 | x :: l => f x + sumP l f end.

Lemma sumP_ext {A} (l : list A) f g : (forall x, In x l -> f x = g x) -> sumP l f = sumP l g.
Proof. induction l as [|x l IH]; intros H; [reflexivity|]. cbn. rewrite H, IH; auto with datatypes. Qed.
Lemma sumP_swap {A} (l : list A) n f : sumP l (fun x => sum n (fun k => f x k)) = sum n (fun k => sumP l (fun x => f x k)).
Proof. induction l as [|x l IH]; [symmetry; apply sum_zero; reflexivity|]. cbn. rewrite IH, <- sum_add. reflexivity. Qed.
Lemma sumP_mul_r {A} (l : list A) c f : sumP l (fun x => f x * c) = sumP l f * c.
Proof. induction l as [|x l IH]; cbn; [ring|]. rewrite IH. ring. Qed.
Lemma sumP_opp {A} (l : list A) f : sumP l (fun x => - f x) = - sumP l f.
Proof. induction l as [|x l IH]; cbn; [ring|]. rewrite IH. ring. Qed.

Lemma fold_scalar {A} (l : list A) f e : fold_left (fun e x => e + f x) l e = e + sumP l f.
Proof. revert e. induction l as [|x l IH]; intros e; cbn; [ring|]. rewrite IH. ring. Qed.
Lemma fold_vector {A} (l : list A) (step : (nat -> R) -> A -> nat -> R) f v k :
  (forall x f, In x l -> step f x k = f k + v x k) -> fold_left step l f k = f k + sumP l (fun x => v x k).
Proof.
  revert f. induction l as [|x l IH]; intros f H; cbn; [ring|]. rewrite IH, H by auto with datatypes. ring.
Qed.
Lemma fold_matrix {A} (l : list A) (step : (nat -> nat -> R) -> A -> nat -> nat -> R) K B k m :
  (forall x K, In x l -> step K x k m = K k m + B x k m) -> fold_left step l K k m = K k m + sumP l (fun x => B x k m).
Proof.
  revert K. induction l as [|x l IH]; intros K H; cbn; [ring|]. rewrite IH, H by auto with datatypes. ring.
Qed.

(** Derivatives *)
Lemma derive_sum n (f : nat -> R -> R) g : (forall k, (k < n)%nat -> is_derive (f k) 0 (g k)) ->
  is_derive (fun t => sum n (fun k => f k t)) 0 (sum n g).
Proof.
  induction n as [|n IH]; intros H; cbn [sum]; [apply @is_derive_const|].
  apply @is_derive_plus; [apply IH; intros; apply H; lia|apply H; lia].
Qed.
Lemma derive_sumP {A} (l : list A) (f : A -> R -> R) g : (forall x, In x l -> is_derive (f x) 0 (g x)) ->
  is_derive (fun t => sumP l (fun x => f x t)) 0 (sumP l g).
Proof.
  induction l as [|x l IH]; intros H; cbn [sumP]; [apply @is_derive_const|].
  apply @is_derive_plus; [apply H; auto with datatypes|apply IH; auto with datatypes].
Qed.
Lemma derive_mult (f g : R -> R) df dg : is_derive f 0 df -> is_derive g 0 dg ->
  is_derive (fun t => f t * g t) 0 (df * g 0 + f 0 * dg).
Proof. intros Hf Hg. apply @is_derive_mult with (f := f) (g := g); [assumption..|intros; apply Rmult_comm]. Qed.
Lemma derive_scale (f : R -> R) c df : is_derive f 0 df -> is_derive (fun t => f t * c) 0 (df * c).
Proof.
  intros H. replace (df * c) with (df * c + f 0 * 0) by ring. apply (derive_mult f (fun _ => c)); [assumption|apply @is_derive_const].
Qed.
Lemma derive_eq (f : R -> R) (d d' : R) : is_derive f 0 d -> d = d' -> is_derive f 0 d'.
Proof. intros H <-. assumption. Qed.
Lemma derive_uniq (f : R -> R) a b : is_derive f 0 a -> is_derive f 0 b -> a = b.
Proof. intros Ha Hb. apply is_derive_unique in Ha. apply is_derive_unique in Hb. congruence. Qed.

(** There is a curve through every point with every velocity: a line *)
Lemma passes_line n x v : passes n (fun t => along x v t) x v.
Proof.
  intros k _. unfold along. split; [ring|]. auto_derive; [exact I|]. ring.
Qed.

Lemma gradient_ext n f f' g g' x : isGradient n f g x -> (forall y, f y = f' y) -> (forall k, (k < n)%nat -> g k = g' k) -> isGradient n f' g' x.
Proof.
  intros H E E' c v P. apply (is_derive_ext (fun t => f (c t))); [intros; apply E|].
  replace (dot n g' v) with (dot n g v); [apply H; assumption|]. apply sum_ext. intros k Hk. rewrite E' by assumption. reflexivity.
Qed.

Lemma gradient_sumP {A} n (l : list A) f g x : (forall a, In a l -> isGradient n (f a) (g a) x) ->
  isGradient n (fun y => sumP l (fun a => f a y)) (fun k => sumP l (fun a => g a k)) x.
Proof.
  intros H c v P. apply (derive_eq _ (sumP l (fun a => dot n (g a) v))).
  - apply (derive_sumP l (fun a t => f a (c t))). intros a Ha. apply H; assumption.
  - unfold dot. rewrite sumP_swap. apply sum_ext. intros k _. apply sumP_mul_r.
Qed.

Lemma gradient_scale n f g x c : isGradient n f g x -> isGradient n (fun y => f y * c) (fun k => g k * c) x.
Proof.
  intros H d v P. apply (derive_eq _ (dot n g v * c)); [apply (derive_scale (fun t => f (d t))), H, P|].
  unfold dot. rewrite <- sum_mul_r. apply sum_ext. intros. ring.
Qed.

Lemma gradient_plus n f f' g g' x : isGradient n f g x -> isGradient n f' g' x -> isGradient n (fun y => f y + f' y) (fun k => g k + g' k) x.
Proof.
  intros H H' c v P. apply (derive_eq _ (dot n g v + dot n g' v)); [apply @is_derive_plus; [apply H|apply H']; assumption|].
  unfold dot. rewrite <- sum_add. apply sum_ext. intros. ring.
Qed.

Lemma gradient_const n a x : isGradient n (fun _ => a) (fun _ => 0) x.
Proof.
  intros c v P. apply (derive_eq _ 0); [apply @is_derive_const|]. symmetry. apply sum_zero. intros. ring.
Qed.

(** A function with a gradient at x depends there on the first n entries only *)
Lemma jump_derive (a b l : R) : is_derive (fun t : R => if Req_EM_T t 0 then a else b) 0 l -> a = b.
Proof.
  intros H. destruct (Req_EM_T a b) as [E|E]; [assumption|exfalso].
  assert (C : continuous (fun t : R => if Req_EM_T t 0 then a else b) 0) by (apply @ex_derive_continuous; exists l; exact H).
  assert (Pos : 0 < Rabs (b - a)) by (apply Rabs_pos_lt; lra).
  destruct (C (ball a (mkposreal _ Pos))) as [delta D].
  { cbv beta. destruct (Req_EM_T 0 0) as [_|N]; [|lra]. exists (mkposreal _ Pos). intros y B. exact B. }
  specialize (D (delta / 2)). assert (P := cond_pos delta).
  assert (B : ball 0 delta (delta / 2)).
  { unfold ball. cbn. unfold AbsRing_ball, abs, minus, plus, opp. cbn. rewrite Rabs_pos_eq; lra. }
  specialize (D B). cbv beta in D. destruct (Req_EM_T (delta / 2) 0) as [F|_]; [lra|].
  unfold ball in D. cbn in D. unfold AbsRing_ball, abs, minus, plus, opp in D. cbn in D. unfold Rminus in D. lra.
Qed.

Lemma gradient_value n f g x y : isGradient n f g x -> (forall k, (k < n)%nat -> y k = x k) -> f y = f x.
Proof.
  intros H E. symmetry. 
  set (c := fun t : R => if Req_EM_T t 0 then x else y).
  assert (P : passes n c x (fun _ => 0)).
  { intros k Hk. unfold c. split; [destruct (Req_EM_T 0 0); [reflexivity|lra]|].
    apply (is_derive_ext (fun _ => x k)); [|apply @is_derive_const].
    intros t. destruct (Req_EM_T t 0); [reflexivity|]. symmetry. apply E, Hk. }
  specialize (H c _ P). eapply jump_derive.
  eapply is_derive_ext; [|exact H]. intros t. unfold c. cbv beta. destruct (Req_EM_T t 0); reflexivity.
Qed.

Section Solid.
  Variables (d n s : nat) (points : list point).
  Hypothesis dpos : (0 < d)%nat.
  Variable eps : point -> (nat -> R) -> nat -> R.
  Variable bop : point -> (nat -> R) -> nat -> nat -> nat -> R.
  Variable kg : point -> (nat -> R) -> (nat -> R) -> nat -> nat -> nat -> nat -> R.
  Variables (psi : (nat -> R) -> R) (stress : (nat -> R) -> nat -> R) (tangent : (nat -> R) -> nat -> nat -> R).
  Let N := (d * n)%nat.

  Definition vol (gp : point) : R := integrationElement gp * weight gp.

  Lemma energy_sum u : energyFunction points eps psi u = sumP points (fun gp => psi (eps gp u) * vol gp).
  Proof.
    unfold energyFunction.
    transitivity (fold_left (fun e gp => e + (fun gp => psi (eps gp u) * vol gp) gp) points 0).
    - generalize 0. induction points as [|x l IH]; intros e; [reflexivity|]. cbn.
      replace (e + psi (eps x u) * integrationElement x * weight x) with (e + psi (eps x u) * vol x) by (unfold vol; ring).
      apply IH.
    - rewrite fold_scalar. ring.
  Qed.

  Definition pointVector (S : nat -> R) (gp : point) (u : nat -> R) (k : nat) : R :=
    sum s (fun m => bop gp u (k / d) m (k mod d) * S m) * vol gp.

  Lemma vector_sum u f k : (k < N)%nat ->
    solidVector d n s points eps bop stress u f k = f k + sumP points (fun gp => pointVector (stress (eps gp u)) gp u k).
  Proof.
    intros Hk. unfold solidVector. apply (fold_vector points _ f (fun gp k => pointVector (stress (eps gp u)) gp u k)). intros gp g _. cbv zeta. unfold internalForces.
    rewrite (loop_segments d n (fun i a => sum s (fun m => bop gp u i m a * stress (eps gp u) m) * (integrationElement gp * weight gp)) g k dpos).
    destruct (Nat.ltb_spec (k / d) n) as [L|L]; [reflexivity|]. apply div_small in Hk; [lia|assumption].
  Qed.

  Definition pointMatrix (S : nat -> R) (C : nat -> nat -> R) (gp : point) (u : nat -> R) (k l : nat) : R :=
    (sum s (fun p => sum s (fun q => bop gp u (k / d) p (k mod d) * C p q * bop gp u (l / d) q (l mod d))) +
     kg gp u S (k / d) (l / d) (k mod d) (l mod d)) * vol gp.

  Lemma matrix_sum u K k l : (k < N)%nat -> (l < N)%nat ->
    nonlinearMatrix d n s points eps bop kg stress tangent false u K k l =
    K k l + sumP points (fun gp => pointMatrix (stress (eps gp u)) (tangent (eps gp u)) gp u k l).
  Proof.
    intros Hk Hl. unfold nonlinearMatrix.
    apply (fold_matrix points _ K (fun gp k l => pointMatrix (stress (eps gp u)) (tangent (eps gp u)) gp u k l)). intros gp M _. cbv zeta. unfold geometricStiffness, materialStiffness.
    set (S := stress (eps gp u)). set (C := tangent (eps gp u)). cbv zeta.
    set (B i j a b := sum s (fun p => sum s (fun q => bop gp u i p a * C p q * bop gp u j q b)) * vol gp).
    set (G i j a b := kg gp u S i j a b * vol gp).
    assert (E : forall n' m' M, loop n' (fun i K => loop m' (fun j K => addBlock d i j (G i j) (addBlock d i j (B i j) K)) K) M k l =
      if ((k / d <? n') && (l / d <? m'))%nat then M k l + (B (k / d)%nat (l / d)%nat (k mod d) (l mod d) + G (k / d)%nat (l / d)%nat (k mod d) (l mod d)) else M k l).
    { intros n' m' M'. 
      assert (R1 : forall i M', loop m' (fun j K => addBlock d i j (G i j) (addBlock d i j (B i j) K)) M' k l =
        if ((k / d =? i) && (l / d <? m'))%nat then M' k l + (B i (l / d)%nat (k mod d) (l mod d) + G i (l / d)%nat (k mod d) (l mod d)) else M' k l).
      { intros i. clear M'. induction m' as [|m IH]; intros M'; [cbn; rewrite andb_false_r; reflexivity|].
        rewrite loop_S, !addBlock_at, IH by assumption. destruct (Nat.eqb_spec (k / d) i) as [E|E]; [|reflexivity]. cbn [andb].
        destruct (Nat.eqb_spec (l / d) m) as [F|F], (Nat.ltb_spec (l / d) m) as [L|L], (Nat.ltb_spec (l / d) (Datatypes.S m)) as [L'|L']; try lia; try reflexivity.
        rewrite F. ring. }
      induction n' as [|n' IH]; [reflexivity|]. rewrite loop_S, R1, IH.
      destruct (Nat.eqb_spec (k / d) n') as [E|E], (Nat.ltb_spec (k / d) n') as [L|L], (Nat.ltb_spec (k / d) (Datatypes.S n')) as [L'|L']; try lia; try reflexivity.
      cbn [andb]. rewrite E. reflexivity. }
    change (loop n (fun i K => loop n (fun j K => addBlock d i j (G i j) (addBlock d i j (B i j) K)) K) M k l = M k l + pointMatrix S C gp u k l).
    rewrite E. apply div_small in Hk; [|assumption]. apply div_small in Hl; [|assumption].
    destruct (Nat.ltb_spec (k / d) n); [|lia]. destruct (Nat.ltb_spec (l / d) n); [|lia]. cbn [andb].
    unfold pointMatrix, B, G. ring.
  Qed.

  Lemma linear_matrix_sum u K k l : (k < N)%nat -> (l < N)%nat ->
    linearMatrix d n s points eps bop tangent false u K k l =
    K k l + sumP points (fun gp => sum s (fun p => sum s (fun q => bop gp u (k / d) p (k mod d) * tangent (eps gp u) p q * bop gp u (l / d) q (l mod d))) * vol gp).
  Proof.
    intros Hk Hl. unfold linearMatrix.
    apply (fold_matrix points _ K (fun gp k l => sum s (fun p => sum s (fun q => bop gp u (k / d) p (k mod d) * tangent (eps gp u) p q * bop gp u (l / d) q (l mod d))) * vol gp)).
    intros gp M _. cbv zeta. unfold materialStiffness.
    rewrite (loop_blocks d n n (fun i j a b => sum s (fun p => sum s (fun q => bop gp u i p a * tangent (eps gp u) p q * bop gp u j q b)) * (integrationElement gp * weight gp)) M k l dpos).
    apply div_small in Hk; [|assumption]. apply div_small in Hl; [|assumption].
    destruct (Nat.ltb_spec (k / d) n); [|lia]. destruct (Nat.ltb_spec (l / d) n); [|lia]. reflexivity.
  Qed.

  Section Point.
    Variables (gp : point) (u : nat -> R).
    (** What the expression of the strain provides *)
    Hypothesis strainDerivative : forall m, (m < s)%nat -> isGradient N (fun y => eps gp y m) (fun k => bop gp u (k / d) m (k mod d)) u.
    Hypothesis strainSecond : forall (S : nat -> R) k, (k < N)%nat ->
      isGradient N (fun y => sum s (fun m => S m * bop gp y (k / d) m (k mod d))) (fun l => kg gp u S (k / d) (l / d) (k mod d) (l mod d)) u.
    Hypothesis isStress : isGradient s psi (stress (eps gp u)) (eps gp u).
    Hypothesis isTangent : isJacobian s s stress (tangent (eps gp u)) (eps gp u).

    Lemma strainValue c v : passes N c u v -> forall m, (m < s)%nat -> eps gp (c 0) m = eps gp u m.
    Proof. intros P m Hm. apply (gradient_value N (fun y => eps gp y m) _ u (c 0) (strainDerivative m Hm)). intros k Hk. apply P, Hk. Qed.

    Lemma bopValue c v : passes N c u v -> forall k m, (m < s)%nat -> (k < N)%nat ->
      bop gp (c 0) (k / d) m (k mod d) = bop gp u (k / d) m (k mod d).
    Proof.
      intros P k m Hm Hk. set (e := fun j : nat => if (j =? m)%nat then 1 else 0).
      assert (Q : forall y, sum s (fun j => e j * bop gp y (k / d) j (k mod d)) = bop gp y (k / d) m (k mod d)).
      { intros y. rewrite (sum_pick s m); [unfold e; rewrite Nat.eqb_refl; apply Rmult_1_l|assumption|].
        intros j _ Hj. unfold e. destruct (Nat.eqb_spec j m); [contradiction|ring]. }
      rewrite <- !Q. apply (gradient_value N (fun y => sum s (fun j => e j * bop gp y (k / d) j (k mod d))) _ u (c 0) (strainSecond e k Hk)).
      intros j Hj. apply P, Hj.
    Qed.

    Lemma stressValue e : (forall m, (m < s)%nat -> e m = eps gp u m) -> forall m, (m < s)%nat -> stress e m = stress (eps gp u) m.
    Proof. intros E m Hm. apply (gradient_value s (fun y => stress y m) _ (eps gp u) e (isTangent m Hm)), E. Qed.

    Lemma passes_strain c v : passes N c u v ->
      passes s (fun t => eps gp (c t)) (eps gp u) (fun m => dot N (fun k => bop gp u (k / d) m (k mod d)) v).
    Proof.
      intros P m Hm. split; [apply (strainValue c v); assumption|]. apply strainDerivative; assumption.
    Qed.

    Lemma point_energy : isGradient N (fun y => psi (eps gp y) * vol gp) (fun k => pointVector (stress (eps gp u)) gp u k) u.
    Proof.
      intros c v P. eapply derive_eq; [apply derive_scale, isStress, passes_strain, P|].
      unfold dot, pointVector. rewrite <- sum_mul_r.
      transitivity (sum s (fun m => sum N (fun k => bop gp u (k / d) m (k mod d) * stress (eps gp u) m * vol gp * v k))).
      - apply sum_ext. intros m _. rewrite <- sum_mul_l, <- sum_mul_r. apply sum_ext. intros. ring.
      - rewrite sum_swap. apply sum_ext. intros k _. rewrite <- !sum_mul_r. reflexivity.
    Qed.

    Lemma point_forces k : (k < N)%nat ->
      isGradient N (fun y => pointVector (stress (eps gp y)) gp y k) (fun l => pointMatrix (stress (eps gp u)) (tangent (eps gp u)) gp u k l) u.
    Proof.
      intros Hk c v P. unfold pointVector.
      set (e m := fun j : nat => if (j =? m)%nat then 1 else 0).
      assert (Hb : forall m, (m < s)%nat -> is_derive (fun t => bop gp (c t) (k / d) m (k mod d)) 0
                     (dot N (fun l => kg gp u (e m) (k / d) (l / d) (k mod d) (l mod d)) v)).
      { intros m Hm. eapply is_derive_ext; [|apply (strainSecond (e m) k Hk c v P)].
        intros t. cbv beta. rewrite (sum_pick s m); [unfold e; rewrite Nat.eqb_refl; apply Rmult_1_l|assumption|].
        intros j _ Hj. unfold e. destruct (Nat.eqb_spec j m); [contradiction|ring]. }
      assert (Hs : forall m, (m < s)%nat -> is_derive (fun t => stress (eps gp (c t)) m) 0
                     (dot s (tangent (eps gp u) m) (fun q => dot N (fun l => bop gp u (l / d) q (l mod d)) v))).
      { intros m Hm. apply (isTangent m Hm (fun t => eps gp (c t))). apply passes_strain. assumption. }
      assert (Hlin : dot N (fun l => kg gp u (stress (eps gp u)) (k / d) (l / d) (k mod d) (l mod d)) v =
        sum s (fun m => stress (eps gp u) m * dot N (fun l => kg gp u (e m) (k / d) (l / d) (k mod d) (l mod d)) v)).
      { apply (derive_uniq (fun t => sum s (fun m => stress (eps gp u) m * bop gp (c t) (k / d) m (k mod d)))).
        - apply (strainSecond (stress (eps gp u)) k Hk c v P).
        - apply (derive_sum s (fun m t => stress (eps gp u) m * bop gp (c t) (k / d) m (k mod d))). intros m Hm.
          apply (is_derive_ext (fun t => bop gp (c t) (k / d) m (k mod d) * stress (eps gp u) m)); [intros; apply Rmult_comm|].
          rewrite Rmult_comm. apply derive_scale, Hb, Hm. }
      eapply derive_eq.
      { apply derive_scale.
        apply (derive_sum s (fun m t => bop gp (c t) (k / d) m (k mod d) * stress (eps gp (c t)) m)
           (fun m => dot N (fun l => kg gp u (e m) (k / d) (l / d) (k mod d) (l mod d)) v * stress (eps gp u) m +
                     bop gp u (k / d) m (k mod d) * dot s (tangent (eps gp u) m) (fun q => dot N (fun l => bop gp u (l / d) q (l mod d)) v))).
        intros m Hm. eapply derive_eq;
          [apply (derive_mult (fun t => bop gp (c t) (k / d) m (k mod d)) (fun t => stress (eps gp (c t)) m)); [apply Hb|apply Hs]; assumption|].
        cbv beta.
        rewrite (bopValue c v P k m Hm Hk). f_equal. f_equal.
        apply stressValue; [|assumption]. apply (strainValue c v P). }
      rewrite sum_add.
      rewrite (sum_ext s (fun m => dot N (fun l => kg gp u (e m) (k / d) (l / d) (k mod d) (l mod d)) v * stress (eps gp u) m)
                 (fun m => stress (eps gp u) m * dot N (fun l => kg gp u (e m) (k / d) (l / d) (k mod d) (l mod d)) v)) by (intros; ring).
      rewrite <- Hlin.
      assert (Hm : sum s (fun m => bop gp u (k / d) m (k mod d) * dot s (tangent (eps gp u) m) (fun q => dot N (fun l => bop gp u (l / d) q (l mod d)) v)) =
        dot N (fun l => sum s (fun p => sum s (fun q => bop gp u (k / d) p (k mod d) * tangent (eps gp u) p q * bop gp u (l / d) q (l mod d)))) v).
      { unfold dot.
        transitivity (sum s (fun p => sum s (fun q => sum N (fun l => bop gp u (k / d) p (k mod d) * tangent (eps gp u) p q * bop gp u (l / d) q (l mod d) * v l)))).
        - apply sum_ext. intros p _. rewrite <- sum_mul_l. apply sum_ext. intros q _. rewrite <- !sum_mul_l. apply sum_ext. intros. ring.
        - transitivity (sum s (fun p => sum N (fun l => sum s (fun q => bop gp u (k / d) p (k mod d) * tangent (eps gp u) p q * bop gp u (l / d) q (l mod d) * v l)))).
          + apply sum_ext. intros p _. apply sum_swap.
          + rewrite sum_swap. apply sum_ext. intros l _. rewrite <- sum_mul_r. apply sum_ext. intros p _. rewrite <- sum_mul_r. reflexivity. }
      rewrite Hm. unfold dot. rewrite <- sum_add, <- sum_mul_r. apply sum_ext. intros l _. unfold pointMatrix. ring.
    Qed.
  End Point.
End Solid.

(** Products, and functions that are linear in the entries *)
Lemma gradient_mult n f f' g g' x : isGradient n f g x -> isGradient n f' g' x ->
  isGradient n (fun y => f y * f' y) (fun k => g k * f' x + f x * g' k) x.
Proof.
  intros H H' c v P.
  eapply derive_eq; [apply (derive_mult (fun t => f (c t)) (fun t => f' (c t))); [apply H|apply H']; exact P|]. cbv beta.
  rewrite (gradient_value n f g x (c 0) H), (gradient_value n f' g' x (c 0) H') by (intros; apply P; assumption).
  unfold dot. rewrite <- sum_mul_r, <- sum_mul_l, <- sum_add. apply sum_ext. intros. ring.
Qed.

Lemma gradient_sum n m f g x : (forall a, (a < m)%nat -> isGradient n (f a) (g a) x) ->
  isGradient n (fun y => sum m (fun a => f a y)) (fun k => sum m (fun a => g a k)) x.
Proof.
  intros H c v P. apply (derive_eq _ (sum m (fun a => dot n (g a) v))).
  - apply (derive_sum m (fun a t => f a (c t))). intros a Ha. apply H; assumption.
  - unfold dot. rewrite sum_swap. apply sum_ext. intros k _. apply sum_mul_r.
Qed.

Lemma block_index d i a : (a < d)%nat -> ((d * i + a) / d = i /\ (d * i + a) mod d = a)%nat.
Proof.
  intros H. split.
  - rewrite Nat.mul_comm, Nat.div_add_l by lia. rewrite Nat.div_small by lia. lia.
  - rewrite Nat.add_comm, Nat.mul_comm, Nat.mod_add by lia. apply Nat.mod_small. lia.
Qed.

Lemma gradient_interpolation d n q a x : (a < d)%nat ->
  isGradient (d * n) (fun y => sum n (fun i => y (d * i + a)%nat * q i)) (fun l => identity (l mod d) a * q (l / d)%nat) x.
Proof.
  intros Ha c v P. apply (derive_eq _ (sum n (fun i => v (d * i + a)%nat * q i))).
  - apply (derive_sum n (fun i t => c t (d * i + a)%nat * q i)). intros i Hi. apply derive_scale. apply P.
    assert (d * S i <= d * n)%nat by (apply Nat.mul_le_mono_l; lia). lia.
  - unfold dot. rewrite sum_blocks. apply sum_ext. intros i Hi. rewrite (sum_pick d a); [|assumption|].
    + destruct (block_index d i a Ha) as (-> & ->). unfold identity. rewrite Nat.eqb_refl. ring.
    + intros b Hb Nb. destruct (block_index d i b Hb) as (_ & ->). unfold identity. destruct (Nat.eqb_spec b a); [contradiction|ring].
Qed.
