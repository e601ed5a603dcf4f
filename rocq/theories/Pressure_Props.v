(** Property C112: displacement-pressure elements are consistent. *)

From Coq Require Import Reals Arith Bool List Lia Lra FunctionalExtensionality.
From Coquelicot Require Import Coquelicot.
From Verif Require Import Tensor_Spec Conversions_Spec Conversions_Props Tensor_Model Element_Spec Element_Model Element_Proofs Element_Props.
From Verif Require Import Pressure_Model.
Import ListNotations.
Local Open Scope R_scope.

(** ** Loops that add to entries *)
Lemma loop_observed {A} (o : A -> R) n (step : nat -> A -> A) c K : (forall i K, (i < n)%nat -> o (step i K) = o K + c i) -> o (loop n step K) = o K + sum n c.
Proof.
  induction n as [|n IH]; intros H; [cbn; ring|]. rewrite loop_S, H by lia. rewrite IH by (intros; apply H; lia). cbn [sum]. ring.
Qed.

Lemma gradient_coordinate n j x : (j < n)%nat -> isGradient n (fun y => y j) (fun k => if (k =? j)%nat then 1 else 0) x.
Proof.
  intros Hj c v P. eapply derive_eq; [apply P, Hj|]. symmetry. unfold dot. rewrite (sum_pick n j); [rewrite Nat.eqb_refl; ring|assumption|].
  intros k _ H. destruct (Nat.eqb_spec k j); [contradiction|ring].
Qed.
Lemma gradient_widen n m f g x : isGradient n f g x -> isGradient (n + m) f (fun k => if (k <? n)%nat then g k else 0) x.
Proof.
  intros H c v P. eapply derive_eq; [apply (H c v); intros k Hk; apply P; lia|]. unfold dot. rewrite sum_from.
  rewrite (sum_zero m); [rewrite Rplus_0_r; apply sum_ext; intros k Hk; destruct (Nat.ltb_spec k n); [reflexivity|lia]|].
  intros a _. destruct (Nat.ltb_spec (n + a) n); [lia|ring].
Qed.
Lemma gradient_minus n f f' g g' x : isGradient n f g x -> isGradient n f' g' x -> isGradient n (fun y => f y - f' y) (fun k => g k - g' k) x.
Proof.
  intros H H'. apply (gradient_ext n (fun y => f y + f' y * -1) _ (fun k => g k + g' k * -1)).
  - apply gradient_plus; [exact H|apply gradient_scale, H'].
  - intros. ring.
  - intros. ring.
Qed.

Section Pressure.
  Variables (d n s m : nat) (points : list point).
  Hypothesis dpos : (0 < d)%nat.
  Variable eps : point -> (nat -> R) -> nat -> R.
  Variable bop : point -> (nat -> R) -> nat -> nat -> nat -> R.
  Variable kg : point -> (nat -> R) -> (nat -> R) -> nat -> nat -> nat -> nat -> R.
  Variable Np : point -> nat -> R.
  Variables (devE : (nat -> R) -> R) (devS : (nat -> R) -> nat -> R) (devC : (nat -> R) -> nat -> nat -> R).
  Variables (volE : (nat -> R) -> R) (volS : (nat -> R) -> nat -> R) (volC : (nat -> R) -> nat -> nat -> R).
  Variable kappa : R.
  Hypothesis kappa_nonzero : kappa <> 0.
  Let N := (d * n)%nat.
  Let T := (N + m)%nat.
  Let p := pressure d n m Np.
  Let Energy := dpScalar d n m points eps Np devE volE kappa.
  Let Vector := dpVector d n s m points eps bop Np devS volE volS kappa.
  Let Matrix := dpMatrix d n s m points eps bop kg Np devS devC volS volC kappa.

  (** The strain and the pressure together, as an expression with s + 1 components and unknowns of one direction *)
  Definition both (gp : point) (x : nat -> R) (c : nat) : R := if (c <? s)%nat then eps gp x c else p gp x.
  Definition bothBop (gp : point) (x : nat -> R) (k c a : nat) : R :=
    if (k <? N)%nat then (if (c <? s)%nat then bop gp x (k / d) c (k mod d) else 0) else (if (c <? s)%nat then 0 else Np gp (k - N)).
  Definition bothKg (gp : point) (x S : nat -> R) (k l a b : nat) : R :=
    if ((k <? N) && (l <? N))%nat then kg gp x S (k / d) (l / d) (k mod d) (l mod d) else 0.
  Definition bothEnergy (e : nat -> R) : R := driverEnergy devE volE kappa e (e s).
  Definition bothStress (e : nat -> R) (c : nat) : R := if (c <? s)%nat then driverStress devS volS e (e s) c else volE e - e s / kappa.
  Definition bothModuli (e : nat -> R) (b c : nat) : R :=
    if (b <? s)%nat then (if (c <? s)%nat then driverModuli devC volC e (e s) b c else volS e b)
    else (if (c <? s)%nat then volS e c else - (1 / kappa)).

  Lemma both_expression gp x : strainExpression d n s eps bop kg gp x -> strainExpression 1 T (s + 1) both bothBop bothKg gp x.
  Proof.
    intros (H1 & H2). split.
    - intros c Hc. rewrite Nat.mul_1_l. unfold both. destruct (Nat.ltb_spec c s) as [L|L].
      + eapply gradient_ext; [exact (gradient_widen N m _ _ x (H1 c L))|reflexivity|].
        intros k _. cbv beta. rewrite Nat.div_1_r. unfold bothBop. destruct (Nat.ltb_spec k N), (Nat.ltb_spec c s); try lia; reflexivity.
      + eapply gradient_ext.
        * apply (gradient_sum T m (fun j y => y (pressureIndex d n j) * Np gp j) (fun j k => (if (k =? N + j)%nat then 1 else 0) * Np gp j)).
          intros j Hj. apply gradient_scale. apply gradient_coordinate. unfold T, pressureIndex, N in *. lia.
        * intros y. unfold p, pressure. apply sum_ext. intros. ring.
        * intros k Hk. cbv beta. rewrite Nat.div_1_r. unfold bothBop. destruct (Nat.ltb_spec c s); [lia|].
          destruct (Nat.ltb_spec k N) as [K|K].
          -- apply sum_zero. intros j Hj. destruct (Nat.eqb_spec k (N + j)); [lia|ring].
          -- rewrite (sum_pick m (k - N)); [|unfold T in Hk; lia|].
             ++ destruct (Nat.eqb_spec k (N + (k - N))); [ring|lia].
             ++ intros j Hj Hne. destruct (Nat.eqb_spec k (N + j)); [lia|ring].
    - intros S k Hk. rewrite Nat.mul_1_l in *. rewrite Nat.div_1_r.
      destruct (Nat.ltb_spec k N) as [K|K].
      + eapply gradient_ext; [exact (gradient_widen N m _ _ x (H2 S k K))| |].
        * intros y. rewrite Nat.add_1_r. cbn [sum]. unfold bothBop. destruct (Nat.ltb_spec k N); [|lia]. rewrite Nat.ltb_irrefl, Rmult_0_r, Rplus_0_r.
          apply sum_ext. intros c Hc. destruct (Nat.ltb_spec c s); [reflexivity|lia].
        * intros l Hl. cbv beta. rewrite Nat.div_1_r. unfold bothKg. destruct (Nat.ltb_spec k N); [|lia]. cbn [andb]. reflexivity.
      + eapply gradient_ext; [exact (gradient_const T (S s * Np gp (k - N)) x)| |].
        * intros y. rewrite Nat.add_1_r. cbn [sum]. unfold bothBop. destruct (Nat.ltb_spec k N); [lia|]. rewrite Nat.ltb_irrefl.
          rewrite sum_zero; [ring|]. intros c Hc. destruct (Nat.ltb_spec c s); [ring|lia].
        * intros l Hl. cbv beta. rewrite Nat.div_1_r. unfold bothKg. destruct (Nat.ltb_spec k N); [lia|reflexivity].
  Qed.

  Lemma both_hyperelastic e : hyperelastic s devE devS devC e -> hyperelastic s volE volS volC e ->
    hyperelastic (s + 1) bothEnergy bothStress bothModuli e.
  Proof.
    intros (D1 & D2) (V1 & V2).
    assert (Last : isGradient (s + 1) (fun y => y s) (fun k => if (k =? s)%nat then 1 else 0) e) by (apply gradient_coordinate; lia).
    assert (W1 := gradient_widen s 1 _ _ e D1). assert (W2 := gradient_widen s 1 _ _ e V1).
    split.
    - eapply gradient_ext.
      + apply gradient_minus; [apply gradient_plus; [exact W1|exact (gradient_mult _ _ _ _ _ _ Last W2)]|].
        apply gradient_scale. exact (gradient_mult _ _ _ _ _ _ Last Last).
      + intros y. cbv beta. unfold bothEnergy, driverEnergy, Uhat. instantiate (1 := 1 / (2 * kappa)). ring.
      + intros k Hk. cbv beta. unfold bothStress, driverStress.
        destruct (Nat.ltb_spec k s), (Nat.eqb_spec k s); try lia; field; assumption.
    - intros k Hk. unfold bothStress. destruct (Nat.ltb_spec k s) as [L|L].
      + eapply gradient_ext.
        * apply gradient_plus; [exact (gradient_widen s 1 _ _ e (D2 k L))|exact (gradient_mult _ _ _ _ _ _ Last (gradient_widen s 1 _ _ e (V2 k L)))].
        * intros y. reflexivity.
        * intros l Hl. cbv beta. unfold bothModuli, driverModuli. destruct (Nat.ltb_spec k s); [|lia].
          destruct (Nat.ltb_spec l s), (Nat.eqb_spec l s); try lia; ring.
      + eapply gradient_ext.
        * apply gradient_minus; [exact W2|exact (gradient_scale _ _ _ _ (/ kappa) Last)].
        * intros y. reflexivity.
        * intros l Hl. cbv beta. unfold bothModuli. destruct (Nat.ltb_spec k s); [lia|].
          destruct (Nat.ltb_spec l s), (Nat.eqb_spec l s); try lia; unfold Rdiv; ring.
  Qed.
  (** The materials depend on the s components of the strain *)
  Definition componentsOnly {B : Type} (f : (nat -> R) -> B) : Prop := forall e e', (forall c, (c < s)%nat -> e c = e' c) -> f e = f e'.
  Hypothesis devE_only : componentsOnly devE.
  Hypothesis devS_only : componentsOnly devS.
  Hypothesis devC_only : componentsOnly devC.
  Hypothesis volE_only : componentsOnly volE.
  Hypothesis volS_only : componentsOnly volS.
  Hypothesis volC_only : componentsOnly volC.
  Hypothesis kg_only : forall gp x, componentsOnly (kg gp x).

  Lemma both_eps gp x c : (c < s)%nat -> eps gp x c = both gp x c.
  Proof. intros H. unfold both. destruct (Nat.ltb_spec c s); [reflexivity|lia]. Qed.
  Lemma both_p gp x : both gp x s = p gp x.
  Proof. unfold both. rewrite Nat.ltb_irrefl. reflexivity. Qed.

  Lemma energy_both x : Energy x = nonlinearScalar points both bothEnergy false x.
  Proof.
    unfold Energy, dpScalar, nonlinearScalar, energyFunction. generalize 0. induction points as [|gp l IH]; intros e; [reflexivity|]. cbn [fold_left].
    rewrite <- IH. f_equal. f_equal. f_equal. f_equal. unfold bothEnergy, driverEnergy, Uhat. fold p.
    rewrite both_p, (devE_only (eps gp x) (both gp x)), (volE_only (eps gp x) (both gp x)) by apply both_eps. reflexivity.
  Qed.

  Lemma vector_both x f k : (k < T)%nat -> Vector x f k = nonlinearVector 1 T (s + 1) points both bothBop bothStress false x f k.
  Proof.
    intros Hk. unfold nonlinearVector. rewrite (vector_sum 1 T (s + 1) points Nat.lt_0_1) by lia.
    unfold Vector, dpVector.
    apply (fold_vector points _ f (fun gp k => pointVector 1 (s + 1) bothBop (bothStress (both gp x)) gp x k)). intros gp g _. cbv zeta. fold p.
    set (S := driverStress devS volS (eps gp x) (p gp x)).
    set (v i := Np gp i * (Uhat volE (eps gp x) - p gp x / kappa) * integrationElement gp * weight gp).
    rewrite (loop_observed (fun f => f k) m _ (fun i => if (k =? N + i)%nat then v i else 0)).
    2:{ intros i K _. unfold addEntry, pressureIndex. fold N. destruct (Nat.eqb_spec k (N + i)); [reflexivity|ring]. }
    unfold internalForces. cbv zeta.
    rewrite (loop_segments d n (fun i a => sum s (fun c => bop gp x i c a * S c) * (integrationElement gp * weight gp)) g k dpos).
    unfold pointVector. rewrite Nat.div_1_r, Nat.add_1_r. cbn [sum]. unfold bothBop, bothStress. rewrite Nat.ltb_irrefl, both_p.
    rewrite <- (volE_only (eps gp x) (both gp x)) by apply both_eps.
    destruct (Nat.ltb_spec (k / d) n) as [L|L], (Nat.ltb_spec k N) as [K|K]; try (apply div_small in L; [|assumption]; fold N in L; lia);
      try (apply div_small in K; [|assumption]; lia).
    - rewrite (sum_zero m); [|intros i Hi; destruct (Nat.eqb_spec k (N + i)); [lia|reflexivity]].
      rewrite Rplus_0_r, Rmult_0_l, Rplus_0_r. f_equal. unfold vol. f_equal. apply sum_ext. intros c Hc. destruct (Nat.ltb_spec c s); [|lia].
      unfold S, driverStress. rewrite (devS_only (eps gp x) (both gp x)), (volS_only (eps gp x) (both gp x)) by apply both_eps. reflexivity.
    - rewrite (sum_zero s); [|intros c Hc; destruct (Nat.ltb_spec c s); [ring|lia]].
      rewrite (sum_pick m (k - N)); [|unfold T in Hk; lia|intros i Hi Hne; destruct (Nat.eqb_spec k (N + i)); [lia|reflexivity]].
      destruct (Nat.eqb_spec k (N + (k - N))); [|lia]. unfold v, vol, Uhat. ring.
  Qed.

  Lemma addColumn_at i j v K k l : addColumn d i j v K k l = K k l + (if ((k / d =? i) && (l =? j))%nat then v (k mod d) else 0).
  Proof.
    unfold addColumn. rewrite (Nat.mul_comm i d), in_segment by assumption. destruct (Nat.eqb_spec (k / d) i) as [E|E]; cbn [andb]; [|ring].
    destruct (l =? j)%nat; [|ring]. subst i. rewrite <- Nat.mod_eq by lia. reflexivity.
  Qed.
  Lemma addRow_at i j v K k l : addRow d i j v K k l = K k l + (if ((k =? i) && (l / d =? j))%nat then v (l mod d) else 0).
  Proof.
    unfold addRow. rewrite (Nat.mul_comm j d), in_segment by assumption. destruct (k =? i)%nat; cbn [andb]; [|ring].
    destruct (Nat.eqb_spec (l / d) j) as [E|E]; [|ring]. subst j. rewrite <- Nat.mod_eq by lia. reflexivity.
  Qed.
  Lemma subtractAt_at i j v K k l : subtractAt i j v K k l = K k l + (if ((k =? i) && (l =? j))%nat then - v else 0).
  Proof. unfold subtractAt. destruct ((k =? i) && (l =? j))%nat; ring. Qed.
  Lemma addBlock_plus i j B K k l : addBlock d i j B K k l = K k l + (if ((k / d =? i) && (l / d =? j))%nat then B (k mod d) (l mod d) else 0).
  Proof. rewrite addBlock_at by assumption. destruct ((k / d =? i) && (l / d =? j))%nat; ring. Qed.

  Lemma double_pick a b (k l : nat) (i j : nat -> nat) (v : nat -> nat -> R) :
    (forall x y, (x < a)%nat -> (y < a)%nat -> i x = i y -> x = y) -> (forall x y, (x < b)%nat -> (y < b)%nat -> j x = j y -> x = y) ->
    forall x y, (x < a)%nat -> (y < b)%nat -> k = i x -> l = j y ->
    sum a (fun x => sum b (fun y => if ((k =? i x) && (l =? j y))%nat then v x y else 0)) = v x y.
  Proof.
    intros Hi Hj x y Hx Hy Ek El. rewrite (sum_pick a x); [|assumption|].
    - rewrite (sum_pick b y); [|assumption|].
      + subst. rewrite !Nat.eqb_refl. reflexivity.
      + intros y' Hy' Ne. destruct (Nat.eqb_spec l (j y')) as [E|E]; [|rewrite andb_false_r; reflexivity]. exfalso. apply Ne, Hj; [assumption..|congruence].
    - intros x' Hx' Ne. apply sum_zero. intros y' _. destruct (Nat.eqb_spec k (i x')) as [E|E]; [|reflexivity]. exfalso. apply Ne, Hi; [assumption..|congruence].
  Qed.
  Lemma double_zero a b (k l : nat) (i j : nat -> nat) (v : nat -> nat -> R) :
    (forall x, (x < a)%nat -> k <> i x) \/ (forall y, (y < b)%nat -> l <> j y) ->
    sum a (fun x => sum b (fun y => if ((k =? i x) && (l =? j y))%nat then v x y else 0)) = 0.
  Proof.
    intros H. apply sum_zero. intros x Hx. apply sum_zero. intros y Hy.
    destruct (Nat.eqb_spec k (i x)) as [E|E], (Nat.eqb_spec l (j y)) as [F|F]; try reflexivity.
    exfalso. destruct H as [H|H]; [apply (H x Hx E)|apply (H y Hy F)].
  Qed.

  Lemma matrix_both x K k l : (k < T)%nat -> (l < T)%nat ->
    Matrix x K k l = nonlinearMatrix 1 T (s + 1) points both bothBop bothKg bothStress bothModuli false x K k l.
  Proof.
    intros Hk Hl. rewrite (matrix_sum 1 T (s + 1) points Nat.lt_0_1) by lia. unfold Matrix, dpMatrix.
    apply (fold_matrix points _ K (fun gp k l => pointMatrix 1 (s + 1) bothBop bothKg (bothStress (both gp x)) (bothModuli (both gp x)) gp x k l)). intros gp M _.
    cbv zeta. fold p. set (S := driverStress devS volS (eps gp x) (p gp x)). set (C := driverModuli devC volC (eps gp x) (p gp x)).
    set (cc i := sum m (fun j => if ((k =? N + i) && (l =? N + j))%nat then - (Np gp i * (1 / kappa) * Np gp j * (integrationElement gp * weight gp)) else 0)).
    rewrite (loop_observed (fun K => K k l) m _ cc).
    2:{ intros i K' _. apply (loop_observed (fun K => K k l)). intros j K'' _. apply subtractAt_at. }
    rewrite (loop_observed (fun K => K k l) m _ (fun i => sum n (fun j => if ((k =? N + i) && (l / d =? j))%nat then
      sum s (fun c => bop gp x j c (l mod d) * volS (eps gp x) c) * Np gp i * (integrationElement gp * weight gp) else 0))).
    2:{ intros i K' _. apply (loop_observed (fun K => K k l)). intros j K'' _. apply addRow_at. }
    rewrite (loop_observed (fun K => K k l) n _ (fun i => sum m (fun j => if ((k / d =? i) && (l =? N + j))%nat then
      sum s (fun c => bop gp x i c (k mod d) * volS (eps gp x) c) * Np gp j * (integrationElement gp * weight gp) else 0))).
    2:{ intros i K' _. apply (loop_observed (fun K => K k l)). intros j K'' _. apply addColumn_at. }
    rewrite (loop_observed (fun K => K k l) n _ (fun i => sum n (fun j => if ((k / d =? i) && (l / d =? j))%nat then
      sum s (fun a => sum s (fun b => bop gp x i a (k mod d) * C a b * bop gp x j b (l mod d))) * (integrationElement gp * weight gp) +
      kg gp x S i j (k mod d) (l mod d) * (integrationElement gp * weight gp) else 0))).
    2:{ intros i K' _. apply (loop_observed (fun K => K k l)). intros j K'' _. unfold geometricStiffness, materialStiffness. cbv zeta.
        rewrite !addBlock_plus. destruct ((k / d =? i) && (l / d =? j))%nat; ring. }
    assert (Only1 := devS_only (eps gp x) (both gp x) (both_eps gp x)). assert (Only2 := devC_only (eps gp x) (both gp x) (both_eps gp x)).
    assert (Only3 := volS_only (eps gp x) (both gp x) (both_eps gp x)). assert (Only4 := volC_only (eps gp x) (both gp x) (both_eps gp x)).
    unfold pointMatrix. rewrite !Nat.div_1_r, Nat.add_1_r. cbn [sum]. unfold bothBop, bothKg, bothModuli. rewrite !Nat.ltb_irrefl.
    unfold cc. clear cc.
    destruct (Nat.ltb_spec k N) as [K1|K1], (Nat.ltb_spec l N) as [L1|L1]; cbn [andb].
    - assert (Hkd : (k / d < n)%nat) by (apply div_small; assumption). assert (Hld : (l / d < n)%nat) by (apply div_small; assumption).
      rewrite (double_zero m m k l (fun i => N + i)%nat (fun j => N + j)%nat) by (left; intros; lia).
      rewrite (double_zero m n k (l / d) (fun i => N + i)%nat (fun j => j)) by (left; intros; lia).
      rewrite (double_zero n m (k / d) l (fun i => i) (fun j => N + j)%nat) by (right; intros; lia).
      rewrite (double_pick n n (k / d) (l / d) (fun i => i) (fun j => j)
        (fun i j => sum s (fun a => sum s (fun b => bop gp x i a (k mod d) * C a b * bop gp x j b (l mod d))) * (integrationElement gp * weight gp) +
          kg gp x S i j (k mod d) (l mod d) * (integrationElement gp * weight gp)) ltac:(auto) ltac:(auto) (k / d) (l / d)) by auto.
      rewrite (kg_only gp x S (bothStress (both gp x))).
      2:{ intros c Hc. unfold S, bothStress, driverStress. destruct (Nat.ltb_spec c s); [|lia]. rewrite both_p, Only1, Only3. reflexivity. }
      rewrite (sum_ext s (fun p0 => sum s _ + _)
        (fun a => sum s (fun b => bop gp x (k / d) a (k mod d) * C a b * bop gp x (l / d) b (l mod d)))).
      2:{ intros a Ha. destruct (Nat.ltb_spec a s); [|lia]. rewrite Rmult_0_r, Rplus_0_r. apply sum_ext. intros b Hb. destruct (Nat.ltb_spec b s); [|lia].
          unfold C, driverModuli. rewrite both_p, Only2, Only4. reflexivity. }
      rewrite (sum_zero s (fun q => 0 * _ * _)) by (intros; ring). unfold vol. ring.
    - assert (Hkd : (k / d < n)%nat) by (apply div_small; assumption).
      assert (Hld : ~ (l / d < n)%nat) by (intros H; apply div_small in H; [fold N in H; lia|assumption]).
      rewrite (double_zero m m k l (fun i => N + i)%nat (fun j => N + j)%nat) by (left; intros; lia).
      rewrite (double_zero m n k (l / d) (fun i => N + i)%nat (fun j => j)) by (left; intros; lia).
      rewrite (double_zero n n (k / d) (l / d) (fun i => i) (fun j => j)) by (right; intros; lia).
      rewrite (double_pick n m (k / d) l (fun i => i) (fun j => N + j)%nat
        (fun i j => sum s (fun c => bop gp x i c (k mod d) * volS (eps gp x) c) * Np gp j * (integrationElement gp * weight gp))
        ltac:(auto) ltac:(cbv beta; intros; lia) (k / d) (l - N)%nat) by (auto; try reflexivity; try assumption; unfold T, N in *; lia).
      rewrite (sum_ext s (fun p0 => sum s _ + _) (fun a => bop gp x (k / d) a (k mod d) * volS (eps gp x) a * Np gp (l - N))).
      2:{ intros a Ha. destruct (Nat.ltb_spec a s); [|lia]. rewrite sum_zero; [rewrite Only3; ring|]. intros b Hb. destruct (Nat.ltb_spec b s); [ring|lia]. }
      rewrite (sum_zero s (fun q => 0 * _ * _)) by (intros; ring). rewrite sum_mul_r. unfold vol. ring.
    - assert (Hld : (l / d < n)%nat) by (apply div_small; assumption).
      assert (Hkd : ~ (k / d < n)%nat) by (intros H; apply div_small in H; [fold N in H; lia|assumption]).
      rewrite (double_zero m m k l (fun i => N + i)%nat (fun j => N + j)%nat) by (right; intros; lia).
      rewrite (double_zero n m (k / d) l (fun i => i) (fun j => N + j)%nat) by (right; intros; lia).
      rewrite (double_zero n n (k / d) (l / d) (fun i => i) (fun j => j)) by (left; intros; lia).
      rewrite (double_pick m n k (l / d) (fun i => N + i)%nat (fun j => j)
        (fun i j => sum s (fun c => bop gp x j c (l mod d) * volS (eps gp x) c) * Np gp i * (integrationElement gp * weight gp))
        ltac:(cbv beta; intros; lia) ltac:(auto) (k - N)%nat (l / d)) by (auto; unfold T in Hk; lia).
      rewrite (sum_zero s (fun p0 => sum s _ + _)).
      2:{ intros a Ha. destruct (Nat.ltb_spec a s); [|lia]. rewrite sum_zero by (intros; ring). ring. }
      rewrite (sum_ext s (fun q => Np gp (k - N) * _ * _) (fun q => Np gp (k - N) * (bop gp x (l / d) q (l mod d) * volS (eps gp x) q))).
      2:{ intros a Ha. destruct (Nat.ltb_spec a s); [|lia]. rewrite Only3. ring. }
      rewrite sum_mul_l. unfold vol. ring.
    - assert (Hkd : ~ (k / d < n)%nat) by (intros H; apply div_small in H; [fold N in H; lia|assumption]).
      assert (Hld : ~ (l / d < n)%nat) by (intros H; apply div_small in H; [fold N in H; lia|assumption]).
      rewrite (double_zero n m (k / d) l (fun i => i) (fun j => N + j)%nat) by (left; intros; lia).
      rewrite (double_zero n n (k / d) (l / d) (fun i => i) (fun j => j)) by (left; intros; lia).
      rewrite (double_zero m n k (l / d) (fun i => N + i)%nat (fun j => j)) by (right; intros; lia).
      rewrite (double_pick m m k l (fun i => N + i)%nat (fun j => N + j)%nat
        (fun i j => - (Np gp i * (1 / kappa) * Np gp j * (integrationElement gp * weight gp))) ltac:(cbv beta; intros; lia) ltac:(cbv beta; intros; lia) (k - N)%nat (l - N)%nat)
        by (unfold T in Hk, Hl; lia).
      rewrite (sum_zero s (fun p0 => sum s _ + _)).
      2:{ intros a Ha. destruct (Nat.ltb_spec a s); [|lia]. rewrite sum_zero by (intros; ring). ring. }
      rewrite (sum_zero s (fun q => Np gp (k - N) * _ * _)).
      2:{ intros a Ha. destruct (Nat.ltb_spec a s); [ring|lia]. }
      unfold vol. ring.
  Qed.

  Definition mixedState (x : nat -> R) : Prop := forall gp, In gp points ->
    strainExpression d n s eps bop kg gp x /\ hyperelastic s devE devS devC (eps gp x) /\ hyperelastic s volE volS volC (eps gp x).

  Lemma transfer psi S C gp x : componentsOnly S -> componentsOnly C -> hyperelastic s psi S C (eps gp x) -> hyperelastic s psi S C (both gp x).
  Proof.
    intros OS OC (H1 & H2).
    assert (P : forall c v, passes s c (both gp x) v -> passes s c (eps gp x) v).
    { intros c v P k Hk. rewrite both_eps by assumption. apply P, Hk. }
    split; [rewrite <- (OS (eps gp x) (both gp x) (both_eps gp x))|rewrite <- (OC (eps gp x) (both gp x) (both_eps gp x))].
    - intros c v Pc. apply H1, P, Pc.
    - intros i Hi c v Pc. apply (H2 i Hi), P, Pc.
  Qed.

  Lemma mixed x : mixedState x -> forall gp, In gp points ->
    strainExpression 1 T (s + 1) both bothBop bothKg gp x /\ hyperelastic (s + 1) bothEnergy bothStress bothModuli (both gp x).
  Proof.
    intros H gp Hgp. destruct (H gp Hgp) as (He & Hd & Hv). split; [apply both_expression, He|].
    apply both_hyperelastic; apply transfer; assumption.
  Qed.

  (** C112: the forces and the residual of the pressure are the gradient of the energy *)
  Theorem C112_forces x : mixedState x -> isGradient T Energy (Vector x zeroVector) x.
  Proof.
    intros H.
    assert (G := C96_nonlinear_forces 1 T (s + 1) points Nat.lt_0_1 both bothBop bothKg bothEnergy bothStress bothModuli x (mixed x H)).
    rewrite Nat.mul_1_l in G. eapply gradient_ext; [exact G|intros y; symmetry; apply energy_both|].
    intros k Hk. symmetry. apply vector_both, Hk.
  Qed.

  (** C112: the matrix is the derivative of the forces *)
  Theorem C112_stiffness x : mixedState x -> isJacobian T T (fun y => Vector y zeroVector) (Matrix x zeroMatrix) x.
  Proof.
    intros H.
    assert (G := C96_nonlinear_stiffness 1 T (s + 1) points Nat.lt_0_1 both bothBop bothKg bothEnergy bothStress bothModuli x (mixed x H)).
    rewrite Nat.mul_1_l in G. intros k Hk. eapply gradient_ext; [exact (G k Hk)|intros y; symmetry; apply vector_both, Hk|].
    intros l Hl. symmetry. apply matrix_both; assumption.
  Qed.

  (** C112: the matrix is symmetric, and both are added to what was there *)
  Theorem C112_symmetric x :
    (forall gp, In gp points -> symmetric s (devC (eps gp x)) /\ symmetric s (volC (eps gp x)) /\
       (forall S i j a b, kg gp x S i j a b = kg gp x S j i b a)) ->
    symmetric T (Matrix x zeroMatrix).
  Proof.
    intros H k l Hk Hl. rewrite !matrix_both by assumption.
    assert (G := C96_nonlinear_symmetric 1 T (s + 1) points Nat.lt_0_1 both bothBop bothKg bothStress bothModuli x).
    rewrite Nat.mul_1_l in G. apply G; [|assumption..]. clear k l Hk Hl G.
    intros gp Hgp. destruct (H gp Hgp) as (Sd & Sv & Sk). split.
    - intros i j Hi Hj. unfold bothModuli, driverModuli.
      rewrite <- (devC_only (eps gp x) (both gp x) (both_eps gp x)), <- (volC_only (eps gp x) (both gp x) (both_eps gp x)).
      destruct (Nat.ltb_spec i s), (Nat.ltb_spec j s); [rewrite (Sd i j), (Sv i j) by assumption|..]; reflexivity.
    - intros S i j a b. unfold bothKg. rewrite (andb_comm (i <? N)%nat). destruct ((j <? N) && (i <? N))%nat; [apply Sk|reflexivity].
  Qed.
  Theorem C112_adds x f K k l : (k < T)%nat -> (l < T)%nat ->
    Vector x f k = f k + Vector x zeroVector k /\ Matrix x K k l = K k l + Matrix x zeroMatrix k l.
  Proof.
    intros Hk Hl. rewrite !vector_both, !matrix_both by assumption.
    apply (C96_nonlinear_adds 1 T (s + 1) points Nat.lt_0_1); lia.
  Qed.
End Pressure.
Print Assumptions C112_forces.
Print Assumptions C112_stiffness.
Print Assumptions C112_symmetric.
Print Assumptions C112_adds.

(** The hypotheses are met by Green-Lagrange strains and materials with quadratic energies *)
Example C112_example d n m points dN Np C U kappa x : (0 < d <= 3)%nat -> kappa <> 0 ->
  symmetric (voigtLength d) C -> symmetric (voigtLength d) U ->
  let s := voigtLength d in
  let energy A := linearEnergy s (fun _ => A) in
  let stress A := linearStress_ s (fun _ => A) in
  isGradient (d * n + m) (dpScalar d n m points (glStrain d n dN) Np (energy C) (energy U) kappa)
    (dpVector d n s m points (glStrain d n dN) (glBop d n dN) Np (stress C) (energy U) (stress U) kappa x zeroVector) x /\
  symmetric (d * n + m) (dpMatrix d n s m points (glStrain d n dN) (glBop d n dN) (glKg d dN) Np (stress C) (fun _ => C) (stress U) (fun _ => U) kappa x zeroMatrix).
Proof.
  intros (P & H3) Hk SC SU s energy stress.
  assert (OE : forall A, componentsOnly s (energy A)).
  { intros A e e' H. unfold energy, linearEnergy. f_equal. unfold dot. apply sum_ext. intros i Hi. rewrite (H i Hi). f_equal.
    unfold apply. apply sum_ext. intros j Hj. rewrite (H j Hj). reflexivity. }
  assert (OS : forall A, componentsOnly s (stress A)).
  { intros A e e' H. unfold stress, linearStress_. apply functional_extensionality. intros i. unfold apply. apply sum_ext. intros j Hj. rewrite (H j Hj). reflexivity. }
  assert (OK : forall gp y, componentsOnly s (glKg d dN gp y)).
  { intros gp y e e' H. apply functional_extensionality. intros i. apply functional_extensionality. intros j. apply functional_extensionality. intros a.
    apply functional_extensionality. intros b. unfold glKg. apply sum_ext. intros c Hc. rewrite (H c Hc). reflexivity. }
  split.
  - eapply (C112_forces d n s m points P _ _ (glKg d dN) Np _ _ (fun _ => C) _ _ (fun _ => U)); try assumption; try apply OE; try apply OS.
    + intros e e' _. reflexivity.
    + intros e e' _. reflexivity.
    + intros gp _. split; [apply C96_green_lagrange; assumption|]. split; apply quadratic_hyperelastic; assumption.
  - apply C112_symmetric; try assumption; try apply OS; try (intros e e' _; reflexivity); [exact (energy U)|].
    intros gp _. split; [assumption|split; [assumption|]]. apply (C96_green_lagrange d n P dN gp x H3).
Qed.
