(** Properties C99, C100 and C102: the Kirchhoff-Love shell. *)

From Coq Require Import Reals Arith Bool List Lia Lra.
From Coquelicot Require Import Coquelicot.
From Verif Require Import Tensor_Spec Tensor_Model Tensor_Props Conversions_Spec Conversions_Props Element_Spec Element_Model Element_Proofs Element_Props
  Shell_Model Shell_Proofs.
Import ListNotations.
Local Open Scope R_scope.

(** B is the inverse of A *)
Definition isInverse (n : nat) (A B : nat -> nat -> R) : Prop :=
  forall i j, (i < n)%nat -> (j < n)%nat -> mul n A B i j = identity i j /\ mul n B A i j = identity i j.

Lemma inverse_symmetric n A B : symmetric n A -> isInverse n A B -> symmetric n B.
Proof.
  intros S I i j Hi Hj.
  set (X := sum n (fun k => sum n (fun l => B i k * A k l * B j l))).
  assert (E1 : X = B j i).
  { unfold X. rewrite sum_swap.
    rewrite (sum_ext n _ (fun l => identity i l * B j l)); [apply sum_id_l, Hi|].
    intros l Hl. rewrite <- (proj2 (I i l Hi Hl)). unfold mul. rewrite <- sum_mul_r. reflexivity. }
  assert (E2 : X = B i j).
  { unfold X. rewrite (sum_ext n _ (fun k => identity j k * B i k)); [apply sum_id_l, Hj|].
    intros k Hk. rewrite <- (proj2 (I j k Hj Hk)). unfold mul. rewrite <- sum_mul_r. apply sum_ext. intros l Hl. rewrite (S k l) by assumption. ring. }
  congruence.
Qed.

Lemma shellTangent_value E nu A k l : symmetric 3 A -> (k < 3)%nat -> (l < 3)%nat ->
  let lambda := E * nu / ((1 + nu) * (1 - 2 * nu)) in
  let mu := E / (2 * (1 + nu)) in
  let first m := nth m [0; 1; 0]%nat 0%nat in
  let second m := nth m [0; 1; 1]%nat 0%nat in
  shellTangent E nu A k l =
    2 * lambda * mu / (lambda + 2 * mu) * (A (first k) (second k) * A (first l) (second l)) +
    mu * (A (first k) (first l) * A (second k) (second l) + A (first k) (second l) * A (second k) (first l)).
Proof.
  intros S Hk Hl lambda mu first second. unfold shellTangent. fold lambda mu. cbv zeta. generalize (2 * lambda * mu / (lambda + 2 * mu)). intros c.
  set (moduli := fun i j k l => c * dyadic A A i j k l + 2 * mu * symmetricFourthOrder A A i j k l).
  assert (M : minorSymmetric 3 moduli).
  { intros i j p q Hi Hj Hp Hq. unfold moduli, dyadic, symmetricFourthOrder. split.
    - rewrite (S j i) by assumption. ring.
    - rewrite (S q p) by assumption. ring. }
  assert (V := C36_matrix moduli M).
  cases3 k; cases3 l; cbn [nth]; rewrite V by lia; unfold voigtMatrix, moduli, dyadic, symmetricFourthOrder; cbn; field.
Qed.

Lemma shellTangent_symmetric E nu A : symmetric 3 A -> symmetric 3 (shellTangent E nu A).
Proof.
  intros S k l Hk Hl. rewrite !shellTangent_value by assumption. cases3 k; cases3 l; cbn [nth]; rewrite ?(S 1%nat 0%nat) by lia; ring.
Qed.

Section Shell.
  Variables (n : nat) (points : list point) (emodul nu thickness : R).
  Variables J H B dN ddN : point -> nat -> nat -> R.
  Variable inverse : (nat -> nat -> R) -> nat -> nat -> R.
  Let N := (3 * n)%nat.

  (** The current surface has a normal at every integration point, the metric of the initial surface is inverted there *)
  Definition immersed (u : nat -> R) : Prop :=
    forall gp, In gp points -> 0 < squaredNorm (cross (jcur n J dN gp u 0) (jcur n J dN gp u 1)).
  Definition inverted : Prop := forall gp, In gp points -> isInverse 3 (fullMetric J gp) (inverse (fullMetric J gp)).

  Let C gp := pointTangent emodul nu J inverse gp.
  Let C6 gp m l := if ((m <? 3) && (l <? 3))%nat then thickness * C gp m l
    else if ((3 <=? m) && (3 <=? l))%nat then thickness ^ 3 / 12 * C gp (m - 3)%nat (l - 3)%nat else 0.

  Lemma fullMetric_sym gp : symmetric 3 (fullMetric J gp).
  Proof.
    intros i j Hi Hj. cases3 i; cases3 j; cbn [fullMetric]; try reflexivity; unfold metric; apply sum_ext; intros; ring.
  Qed.

  Lemma C_sym : inverted -> forall gp, In gp points -> symmetric 3 (C gp).
  Proof.
    intros I gp Hgp. exact (shellTangent_symmetric _ _ _ (inverse_symmetric 3 (fullMetric J gp) _ (fullMetric_sym gp) (I gp Hgp))).
  Qed.
  Lemma C6_sym : inverted -> forall gp, In gp points -> symmetric 6 (C6 gp).
  Proof.
    intros I gp Hgp m l Hm Hl. unfold C6. assert (S := C_sym I gp Hgp).
    destruct (Nat.ltb_spec m 3), (Nat.ltb_spec l 3), (Nat.leb_spec 3 m), (Nat.leb_spec 3 l); cbn [andb]; try lia; try reflexivity;
      rewrite S by lia; reflexivity.
  Qed.

  Lemma C6_low gp m e : (m < 3)%nat -> apply 6 (C6 gp) e m = thickness * apply 3 (C gp) e m.
  Proof.
    intros Hm. unfold apply. rewrite sum_6.
    rewrite (sum_zero 3 (fun l => C6 gp m (3 + l)%nat * e (3 + l)%nat)).
    - rewrite Rplus_0_r, <- sum_mul_l. apply sum_ext. intros l Hl. unfold C6.
      destruct (Nat.ltb_spec m 3), (Nat.ltb_spec l 3); try lia. cbn [andb]. ring.
    - intros l Hl. unfold C6. destruct (Nat.ltb_spec m 3), (Nat.ltb_spec (3 + l) 3), (Nat.leb_spec 3 m); try lia. cbn [andb]. ring.
  Qed.

  Lemma C6_high gp m e : (m < 3)%nat -> apply 6 (C6 gp) e (3 + m)%nat = thickness ^ 3 / 12 * apply 3 (C gp) (fun l => e (3 + l)%nat) m.
  Proof.
    intros Hm. unfold apply. rewrite sum_6.
    rewrite (sum_zero 3 (fun l => C6 gp (3 + m)%nat l * e l)).
    - rewrite Rplus_0_l, <- sum_mul_l. apply sum_ext. intros l Hl. unfold C6.
      destruct (Nat.ltb_spec (3 + m) 3), (Nat.ltb_spec (3 + l) 3), (Nat.leb_spec 3 (3 + m)), (Nat.leb_spec 3 (3 + l)); try lia. cbn [andb].
      replace (3 + m - 3)%nat with m by lia. replace (3 + l - 3)%nat with l by lia. ring.
    - intros l Hl. unfold C6. destruct (Nat.ltb_spec (3 + m) 3), (Nat.ltb_spec l 3), (Nat.leb_spec 3 l); try lia. rewrite andb_false_r. cbn [andb]. ring.
  Qed.

  Let eps := eps6 n J H B dN ddN.
  Let bop := bop6 n J H dN ddN.
  Let kg := kg6 n J H dN ddN.
  Let psi gp := linearEnergy 6 (fun _ => C6 gp).
  Let stress gp := linearStress_ 6 (fun _ => C6 gp).

  Lemma eps_low gp u m : (m < 3)%nat -> eps gp u m = epsV n J dN gp u m.
  Proof. intros Hm. unfold eps, eps6. destruct (Nat.ltb_spec m 3); [reflexivity|lia]. Qed.
  Lemma eps_high gp u m : eps gp u (3 + m)%nat = kappaV n J H B dN ddN gp u m.
  Proof. unfold eps, eps6. destruct (Nat.ltb_spec (3 + m) 3); [lia|]. f_equal. lia. Qed.
  Lemma stress_low gp u m : (m < 3)%nat -> stress gp (eps gp u) m = membraneForces n emodul nu thickness J dN inverse gp u m.
  Proof.
    intros Hm. unfold stress, linearStress_. rewrite C6_low by assumption. reflexivity.
  Qed.
  Lemma stress_high gp u m : (m < 3)%nat -> stress gp (eps gp u) (3 + m)%nat = moments n emodul nu thickness J H B dN ddN inverse gp u m.
  Proof.
    intros Hm. unfold stress, linearStress_. rewrite C6_high by assumption. reflexivity.
  Qed.

  Lemma scalar_sum u : shellScalar n points emodul nu thickness J H B dN ddN inverse u = sumP points (fun gp => psi gp (eps gp u) * vol gp).
  Proof.
    unfold shellScalar. rewrite <- (Rplus_0_l (sumP _ _)), <- fold_scalar. generalize 0.
    induction points as [|gp l IH]; intros e; [reflexivity|]. cbn [fold_left]. rewrite IH. f_equal. f_equal. unfold vol.
    rewrite Rmult_assoc. f_equal. unfold psi, linearEnergy. unfold dot at 3. rewrite sum_6.
    rewrite (sum_ext 3 _ (fun m => thickness * (epsV n J dN gp u m * apply 3 (C gp) (epsV n J dN gp u) m))).
    - rewrite (sum_ext 3 (fun m => eps gp u (3 + m)%nat * _) (fun m => thickness ^ 3 / 12 * (kappaV n J H B dN ddN gp u m * apply 3 (C gp) (kappaV n J H B dN ddN gp u) m))).
      + rewrite !sum_mul_l. unfold dot, C. field.
      + intros m Hm. rewrite eps_high, C6_high by assumption.
        replace (apply 3 (C gp) (fun l0 => eps gp u (3 + l0)%nat) m) with (apply 3 (C gp) (kappaV n J H B dN ddN gp u) m); [ring|].
        unfold apply. apply sum_ext. intros. rewrite eps_high. reflexivity.
    - intros m Hm. rewrite eps_low, C6_low by assumption.
      replace (apply 3 (C gp) (eps gp u) m) with (apply 3 (C gp) (epsV n J dN gp u) m); [ring|].
      unfold apply. apply sum_ext. intros. rewrite eps_low by assumption. reflexivity.
  Qed.

  Lemma loop_two_segments d m (v w : nat -> nat -> R) f k : (0 < d)%nat ->
    loop m (fun i f => addSegment d i (w i) (addSegment d i (v i) f)) f k =
    if (k / d <? m)%nat then f k + (v (k / d)%nat (k mod d) + w (k / d)%nat (k mod d)) else f k.
  Proof.
    intros P. induction m as [|m IH]; [reflexivity|]. rewrite loop_S, !addSegment_at, IH by assumption.
    destruct (Nat.eqb_spec (k / d) m) as [E|E], (Nat.ltb_spec (k / d) m) as [L|L], (Nat.ltb_spec (k / d) (S m)) as [L'|L']; try lia; try reflexivity.
    rewrite E. ring.
  Qed.

  Lemma shell_vector_sum u f k : (k < N)%nat ->
    shellVector n points emodul nu thickness J H B dN ddN inverse u f k = f k + sumP points (fun gp => pointVector 3 6 bop (stress gp (eps gp u)) gp u k).
  Proof.
    intros Hk. unfold shellVector.
    apply (fold_vector points (fun force gp => loop n (fun i force =>
        addSegment 3 i (fun k => sum 3 (fun m => bopBending n J H dN ddN gp u i m k * moments n emodul nu thickness J H B dN ddN inverse gp u m) * integrationElement gp * weight gp)
          (addSegment 3 i (fun k => sum 3 (fun m => bopMembrane n J dN gp u i m k * membraneForces n emodul nu thickness J dN inverse gp u m) * integrationElement gp * weight gp) force))
        force) f (fun gp k => pointVector 3 6 bop (stress gp (eps gp u)) gp u k)).
    intros gp g _.
    rewrite (loop_two_segments 3 n
      (fun i k => sum 3 (fun m => bopMembrane n J dN gp u i m k * membraneForces n emodul nu thickness J dN inverse gp u m) * integrationElement gp * weight gp)
      (fun i k => sum 3 (fun m => bopBending n J H dN ddN gp u i m k * moments n emodul nu thickness J H B dN ddN inverse gp u m) * integrationElement gp * weight gp)) by lia.
    destruct (Nat.ltb_spec (k / 3) n) as [L|L]; [|apply div_small in Hk; lia]. f_equal.
    unfold pointVector, vol. rewrite sum_6, Rmult_plus_distr_r, !Rmult_assoc. f_equal; f_equal; apply sum_ext; intros m Hm.
    - rewrite stress_low by assumption. unfold bop, bop6. destruct (Nat.ltb_spec m 3); [reflexivity|lia].
    - rewrite stress_high by assumption. unfold bop, bop6. destruct (Nat.ltb_spec (3 + m) 3); [lia|]. replace (3 + m - 3)%nat with m by lia. reflexivity.
  Qed.

  (** the blocks above the diagonal *)
  Lemma loop_upper d m p (X : nat -> nat -> nat -> nat -> R) (step : nat -> nat -> (nat -> nat -> R) -> nat -> nat -> R) K k l :
    (0 < d)%nat ->
    (forall i j M, step i j M k l = if ((k / d =? i) && (l / d =? j))%nat then M k l + X i j (k mod d) (l mod d) else M k l) ->
    loop m (fun i K => loop p (fun j K => if (j <? i)%nat then K else step i j K) K) K k l =
    if ((k / d <? m) && ((l / d <? p) && (k / d <=? l / d)))%nat then K k l + X (k / d)%nat (l / d)%nat (k mod d) (l mod d) else K k l.
  Proof.
    intros P Hs.
    assert (R1 : forall i M, loop p (fun j K => if (j <? i)%nat then K else step i j K) M k l =
      if ((k / d =? i) && ((l / d <? p) && (i <=? l / d)))%nat then M k l + X i (l / d)%nat (k mod d) (l mod d) else M k l).
    { intros i M. induction p as [|q IH]; [cbn; rewrite andb_false_r; reflexivity|]. rewrite loop_S.
      destruct (Nat.ltb_spec q i).
      - rewrite IH. destruct (Nat.eqb_spec (k / d) i), (Nat.ltb_spec (l / d) q), (Nat.ltb_spec (l / d) (S q)), (Nat.leb_spec i (l / d)); cbn [andb]; try lia; reflexivity.
      - rewrite Hs, IH.
        destruct (Nat.eqb_spec (k / d) i), (Nat.eqb_spec (l / d) q) as [F|F], (Nat.ltb_spec (l / d) q), (Nat.ltb_spec (l / d) (S q)), (Nat.leb_spec i (l / d));
          cbn [andb]; try lia; try reflexivity. rewrite F. reflexivity. }
    induction m as [|m IH]; [reflexivity|]. rewrite loop_S, R1, IH.
    destruct (Nat.eqb_spec (k / d) m) as [E|E], (Nat.ltb_spec (k / d) m), (Nat.ltb_spec (k / d) (S m)); cbn [andb]; try lia; try reflexivity.
    rewrite E. reflexivity.
  Qed.

  Lemma shell_matrix_upper u K k l : inverted -> (k < N)%nat -> (l < N)%nat ->
    shellMatrix n points emodul nu thickness J H B dN ddN inverse u K k l =
    mirror K k l + sumP points (fun gp => pointMatrix 3 6 bop kg (stress gp (eps gp u)) (C6 gp) gp u k l).
  Proof.
    intros I.
    assert (U : forall K k l, (k <= l)%nat -> (k < N)%nat -> (l < N)%nat -> fold_left (fun K gp =>
      let intElement := integrationElement gp * weight gp in
      let C := pointTangent emodul nu J inverse gp in
      loop n (fun i K => loop n (fun j K =>
        if (j <? i)%nat then K else
        let K := addBlock 3 i j (fun a b => thickness * sum 3 (fun m => sum 3 (fun l => bopMembrane n J dN gp u i m a * C m l * bopMembrane n J dN gp u j l b)) * intElement) K in
        let K := addBlock 3 i j (fun a b => thickness ^ 3 / 12 * sum 3 (fun m => sum 3 (fun l => bopBending n J H dN ddN gp u i m a * C m l * bopBending n J H dN ddN gp u j l b)) * intElement) K in
        let K := addBlock 3 i j (fun a b => kgMembrane dN gp (membraneForces n emodul nu thickness J dN inverse gp u) i j a b * intElement) K in
        addBlock 3 i j (fun a b => kgBending n J H dN ddN gp u (moments n emodul nu thickness J H B dN ddN inverse gp u) i j a b * intElement) K) K) K) points K k l =
      K k l + sumP points (fun gp => pointMatrix 3 6 bop kg (stress gp (eps gp u)) (C6 gp) gp u k l)).
    { clear K k l. intros K k l Hkl Hk Hl.
      match goal with |- fold_left ?F _ _ _ _ = _ => apply (fold_matrix points F K (fun gp k l => pointMatrix 3 6 bop kg (stress gp (eps gp u)) (C6 gp) gp u k l)) end.
      intros gp M _. cbv zeta.
      set (B1 i j a b := thickness * sum 3 (fun m => sum 3 (fun l => bopMembrane n J dN gp u i m a * pointTangent emodul nu J inverse gp m l * bopMembrane n J dN gp u j l b)) * (integrationElement gp * weight gp)).
      set (B2 i j a b := thickness ^ 3 / 12 * sum 3 (fun m => sum 3 (fun l => bopBending n J H dN ddN gp u i m a * pointTangent emodul nu J inverse gp m l * bopBending n J H dN ddN gp u j l b)) * (integrationElement gp * weight gp)).
      set (B3 i j a b := kgMembrane dN gp (membraneForces n emodul nu thickness J dN inverse gp u) i j a b * (integrationElement gp * weight gp)).
      set (B4 i j a b := kgBending n J H dN ddN gp u (moments n emodul nu thickness J H B dN ddN inverse gp u) i j a b * (integrationElement gp * weight gp)).
      change (loop n (fun i K => loop n (fun j K => if (j <? i)%nat then K else
        addBlock 3 i j (B4 i j) (addBlock 3 i j (B3 i j) (addBlock 3 i j (B2 i j) (addBlock 3 i j (B1 i j) K)))) K) M k l =
        M k l + pointMatrix 3 6 bop kg (stress gp (eps gp u)) (C6 gp) gp u k l).
      rewrite (loop_upper 3 n n (fun i j a b => B1 i j a b + B2 i j a b + B3 i j a b + B4 i j a b)); [|lia|].
      - apply div_small in Hk; [|lia]. apply div_small in Hl; [|lia]. assert (D := Nat.div_le_mono k l 3 ltac:(lia) Hkl).
        destruct (Nat.ltb_spec (k / 3) n); [|lia]. destruct (Nat.ltb_spec (l / 3) n); [|lia]. destruct (Nat.leb_spec (k / 3) (l / 3)); [|lia]. cbn [andb].
        f_equal. unfold pointMatrix, B1, B2, B3, B4. fold (vol gp).
        set (i := (k / 3)%nat). set (j := (l / 3)%nat). set (a := (k mod 3)%nat). set (b := (l mod 3)%nat).
        assert (Ea : sum 6 (fun p => sum 6 (fun q => bop gp u i p a * C6 gp p q * bop gp u j q b)) =
          thickness * sum 3 (fun m => sum 3 (fun l0 => bopMembrane n J dN gp u i m a * pointTangent emodul nu J inverse gp m l0 * bopMembrane n J dN gp u j l0 b)) +
          thickness ^ 3 / 12 * sum 3 (fun m => sum 3 (fun l0 => bopBending n J H dN ddN gp u i m a * pointTangent emodul nu J inverse gp m l0 * bopBending n J H dN ddN gp u j l0 b))).
        { rewrite sum_6, <- !sum_mul_l. f_equal; apply sum_ext; intros m Hm.
          - transitivity (bop gp u i m a * apply 6 (C6 gp) (fun q => bop gp u j q b) m).
            + unfold apply. rewrite <- sum_mul_l. apply sum_ext. intros. ring.
            + rewrite C6_low by assumption. unfold apply, C. rewrite <- !sum_mul_l. apply sum_ext. intros q Hq.
              unfold bop, bop6. destruct (Nat.ltb_spec m 3); [|lia]. destruct (Nat.ltb_spec q 3); [|lia]. ring.
          - transitivity (bop gp u i (3 + m)%nat a * apply 6 (C6 gp) (fun q => bop gp u j q b) (3 + m)%nat).
            + unfold apply. rewrite <- sum_mul_l. apply sum_ext. intros. ring.
            + rewrite C6_high by assumption. unfold apply, C. rewrite <- !sum_mul_l. apply sum_ext. intros q Hq.
              unfold bop, bop6. destruct (Nat.ltb_spec (3 + m) 3); [lia|]. destruct (Nat.ltb_spec (3 + q) 3); [lia|].
              replace (3 + m - 3)%nat with m by lia. replace (3 + q - 3)%nat with q by lia. ring. }
        rewrite Ea. unfold kg, kg6. rewrite !kgMembrane_sum, !kgBending_sum by (apply Nat.mod_upper_bound; lia).
        rewrite (sum_ext 3 (fun m => stress gp (eps gp u) m * _) (fun m => membraneForces n emodul nu thickness J dN inverse gp u m * kgMembraneTerm dN gp m i j a b))
          by (intros; rewrite stress_low by assumption; reflexivity).
        rewrite (sum_ext 3 (fun m => stress gp (eps gp u) (3 + m)%nat * _) (fun m => moments n emodul nu thickness J H B dN ddN inverse gp u m * kgTerm n J H dN ddN gp u m i j a b))
          by (intros; rewrite stress_high by assumption; reflexivity).
        ring.
      - intros i j M'. rewrite !addBlock_at by lia. destruct ((k / 3 =? i) && (l / 3 =? j))%nat; ring. }
    intros Hk Hl. unfold shellMatrix, mirror at 1. destruct (Nat.ltb_spec l k) as [L|L].
    - rewrite U by (try assumption; lia). unfold mirror. destruct (Nat.ltb_spec l k); [|lia]. f_equal. apply sumP_ext. intros gp Hgp.
      unfold pointMatrix. f_equal. f_equal.
      + rewrite sum_swap. apply sum_ext. intros p Hp. apply sum_ext. intros q Hq. rewrite (C6_sym I gp Hgp q p) by assumption. ring.
      + apply kg6_sym; apply Nat.mod_upper_bound; lia.
    - rewrite U by (try assumption; lia). unfold mirror. destruct (Nat.ltb_spec l k); [lia|]. reflexivity.
  Qed.

  Let scalar := shellScalar n points emodul nu thickness J H B dN ddN inverse.
  Let vector := shellVector n points emodul nu thickness J H B dN ddN inverse.
  Let matrix := shellMatrix n points emodul nu thickness J H B dN ddN inverse.

  (** C99: the moduli at a point are those of plane stress with respect to the metric of the initial surface; a is the inverse of that metric *)
  Theorem C99_tangent gp (a : nat -> nat -> R) k l : (k < 3)%nat -> (l < 3)%nat ->
    isInverse 3 (fullMetric J gp) (inverse (fullMetric J gp)) ->
    (forall p q, (p < 2)%nat -> (q < 2)%nat ->
      a p 0%nat * (J gp 0%nat 0%nat * J gp q 0%nat + J gp 0%nat 1%nat * J gp q 1%nat + J gp 0%nat 2%nat * J gp q 2%nat) +
      a p 1%nat * (J gp 1%nat 0%nat * J gp q 0%nat + J gp 1%nat 1%nat * J gp q 1%nat + J gp 1%nat 2%nat * J gp q 2%nat) = identity p q) ->
    let first m := nth m [0; 1; 0]%nat 0%nat in
    let second m := nth m [0; 1; 1]%nat 0%nat in
    let lambda := emodul * nu / ((1 + nu) * (1 - 2 * nu)) in
    let mu := emodul / (2 * (1 + nu)) in
    pointTangent emodul nu J inverse gp k l =
      2 * lambda * mu / (lambda + 2 * mu) * (a (first k) (second k) * a (first l) (second l)) +
      mu * (a (first k) (first l) * a (second k) (second l) + a (first k) (second l) * a (second k) (first l)).
  Proof.
    intros Hk Hl Inv Ia first second lambda mu. unfold pointTangent.
    set (M := fullMetric J gp) in *. set (A := inverse M) in *.
    assert (Sy : symmetric 3 A) by exact (inverse_symmetric 3 M _ (fullMetric_sym gp) Inv).
    (* a agrees with the inverse of the matrix with a third row and column *)
    assert (Ea : forall p q, (p < 2)%nat -> (q < 2)%nat -> A p q = a p q).
    { intros p q Hp Hq.
      set (b := fun i j => if (j <? 2)%nat then a i j else 0).
      assert (Eb : forall j, (j < 3)%nat -> sum 3 (fun r => b p r * M r j) = identity p j).
      { intros j Hj. unfold b, M. destruct j as [|[|[|j]]]; [..|lia].
        - rewrite <- (Ia p 0%nat Hp ltac:(lia)). cbn. unfold metric. cbn. ring.
        - rewrite <- (Ia p 1%nat Hp ltac:(lia)). cbn. unfold metric. cbn. ring.
        - cbn. unfold identity. destruct (Nat.eqb_spec p 2); [lia|]. ring. }
      replace (a p q) with (b p q) by (unfold b; destruct (Nat.ltb_spec q 2); [reflexivity|lia]).
      rewrite <- (sum_id_l 3 p (fun r => A r q)) by lia.
      rewrite (sum_ext 3 _ (fun r => sum 3 (fun t => b p t * M t r) * A r q)) by (intros; now rewrite Eb).
      rewrite (sum_ext 3 _ (fun r => sum 3 (fun t => b p t * M t r * A r q))) by (intros; now rewrite sum_mul_r).
      rewrite sum_swap. rewrite (sum_ext 3 _ (fun t => identity q t * b p t)); [apply sum_id_l; lia|].
      intros t Ht. rewrite (sum_ext 3 _ (fun r => b p t * (M t r * A r q))) by (intros; ring). rewrite sum_mul_l.
      assert (X := proj1 (Inv t q Ht ltac:(lia))). unfold mul in X. fold A in X. rewrite X. unfold identity. rewrite (Nat.eqb_sym q t). ring. }
    rewrite shellTangent_value by assumption. fold lambda mu. fold first second.
    assert (F : forall m, (m < 3)%nat -> (first m < 2)%nat /\ (second m < 2)%nat) by (intros m Hm; unfold first, second; destruct m as [|[|[|m]]]; cbn; lia).
    destruct (F k Hk), (F l Hl). rewrite !Ea by assumption. reflexivity.
  Qed.

  (** C99: the internal forces of the shell are the gradient of its energy *)
  Theorem C99_forces u : inverted -> immersed u -> isGradient N scalar (vector u zeroVector) u.
  Proof.
    intros I R.
    apply (gradient_ext N (fun y => sumP points (fun gp => psi gp (eps gp y) * vol gp)) _
             (fun k => sumP points (fun gp => pointVector 3 6 bop (stress gp (eps gp u)) gp u k))).
    - apply (gradient_sumP N points (fun gp y => psi gp (eps gp y) * vol gp) (fun gp k => pointVector 3 6 bop (stress gp (eps gp u)) gp u k)).
      intros gp Hgp. destruct (shell_expression n J H B dN ddN gp u (R gp Hgp)) as (Hd & Hs).
      apply (point_energy 3 n 6 eps bop (psi gp) (stress gp) gp u Hd). apply quadratic_gradient, C6_sym; assumption.
    - intros y. symmetry. apply scalar_sum.
    - intros k Hk. unfold vector. rewrite shell_vector_sum by assumption. unfold zeroVector. ring.
  Qed.

  (** C99: its stiffness matrix is the Jacobian of the internal forces, and symmetric *)
  Theorem C99_stiffness u : inverted -> immersed u -> isJacobian N N (fun y => vector y zeroVector) (matrix u zeroMatrix) u.
  Proof.
    intros I R k Hk.
    apply (gradient_ext N (fun y => sumP points (fun gp => pointVector 3 6 bop (stress gp (eps gp y)) gp y k)) _
             (fun l => sumP points (fun gp => pointMatrix 3 6 bop kg (stress gp (eps gp u)) (C6 gp) gp u k l))).
    - apply (gradient_sumP N points (fun gp y => pointVector 3 6 bop (stress gp (eps gp y)) gp y k)
               (fun gp l => pointMatrix 3 6 bop kg (stress gp (eps gp u)) (C6 gp) gp u k l)).
      intros gp Hgp. destruct (shell_expression n J H B dN ddN gp u (R gp Hgp)) as (Hd & Hs).
      apply (point_forces 3 n 6 eps bop kg (stress gp) (fun _ => C6 gp) gp u Hd Hs); [|exact Hk]. apply quadratic_jacobian.
    - intros y. unfold vector. rewrite shell_vector_sum by assumption. unfold zeroVector. ring.
    - intros l Hl. unfold matrix. rewrite shell_matrix_upper by assumption. unfold mirror, zeroMatrix. destruct (l <? k)%nat; ring.
  Qed.

  Theorem C99_symmetric u : symmetric N (matrix u zeroMatrix).
  Proof.
    intros k l Hk Hl. unfold matrix, shellMatrix, mirror.
    destruct (Nat.ltb_spec l k), (Nat.ltb_spec k l); try lia; try reflexivity. replace l with k by lia. reflexivity.
  Qed.

  (** C99, C102: the forces are added to the vector, the matrix to a symmetric one; of another one the lower triangle is lost *)
  Theorem C99_adds u force k : (k < N)%nat -> vector u force k = force k + vector u zeroVector k.
  Proof. intros Hk. unfold vector. rewrite !shell_vector_sum by assumption. unfold zeroVector. ring. Qed.

  Theorem C102_adds_partial u K k l : inverted -> symmetric N K -> (k < N)%nat -> (l < N)%nat -> matrix u K k l = K k l + matrix u zeroMatrix k l.
  Proof.
    intros I S Hk Hl. unfold matrix. rewrite !shell_matrix_upper by assumption. unfold mirror, zeroMatrix.
    destruct (l <? k)%nat; [rewrite (S l k) by assumption|]; ring.
  Qed.

  Theorem C102_overwrites u K k l : inverted -> (k < N)%nat -> (l < N)%nat ->
    matrix u K k l = (if (l <? k)%nat then K l k else K k l) + matrix u zeroMatrix k l.
  Proof.
    intros I Hk Hl. unfold matrix. rewrite !shell_matrix_upper by assumption. unfold mirror, zeroMatrix. destruct (l <? k)%nat; ring.
  Qed.

  Definition shellSkill : skill := {| skillScalar := scalar; skillVector := vector; skillMatrix := matrix |}.

  (** C101 for the shell *)
  Theorem C101_shell : inverted -> consistentSkill N immersed shellSkill.
  Proof.
    intros I. split; [|split; [|split; [|split]]]; cbn [shellSkill skillScalar skillVector skillMatrix].
    - intros u R. apply C99_forces; assumption.
    - intros u R. apply C99_stiffness; assumption.
    - intros u f k Hk. apply C99_adds, Hk.
    - intros u K k l _ S Hk Hl. apply C102_adds_partial; assumption.
    - intros u _. apply C99_symmetric.
  Qed.
End Shell.
Print Assumptions C99_tangent.
Print Assumptions C99_forces.
Print Assumptions C99_stiffness.
Print Assumptions C99_symmetric.
Print Assumptions C99_adds.
Print Assumptions C102_adds_partial.
Print Assumptions C102_overwrites.
Print Assumptions C101_shell.

(** A flat shell with one node that stretches it in the first direction *)
Definition exPoint : point := {| position := fun _ => 0; integrationElement := 1; weight := 1 |}.
Definition exJ (gp : point) (a k : nat) : R := identity a k.
Definition exZero (gp : point) (a k : nat) : R := 0.
Definition exdN (gp : point) (i a : nat) : R := identity 0 a.
Definition exInverse (M : nat -> nat -> R) : nat -> nat -> R := identity.

Lemma exInverted : inverted [exPoint] exJ exInverse.
Proof.
  intros gp _ i j Hi Hj. unfold mul, fullMetric, metric, exInverse, exJ.
  cases3 i; cases3 j; cbn; unfold identity; cbn; split; ring.
Qed.

Example C99_applies :
  let u k := identity 0 k in
  inverted [exPoint] exJ exInverse /\ immersed 1 [exPoint] exJ exdN u /\
  shellVector 1 [exPoint] 1 0 1 exJ exZero exZero exdN exZero exInverse u zeroVector 0%nat = 3.
Proof.
  intros u. split; [exact exInverted|split].
  - intros gp _. unfold squaredNorm, dot, jcur, gradu, exJ, exdN, u. cbn. unfold identity; cbn. lra.
  - assert (Z : forall gp m, kappaV 1 exJ exZero exZero exdN exZero gp u m = 0).
    { intros gp m. unfold kappaV, bV, BV, hcur, hessianu, exZero. destruct m as [|[|[|m]]]; cbn; ring. }
    assert (Zm : forall gp m, moments 1 1 0 1 exJ exZero exZero exdN exZero exInverse gp u m = 0).
    { intros gp m. unfold moments, apply. cbn [sum]. rewrite !Z. ring. }
    unfold shellVector. cbn [fold_left loop]. rewrite !addSegment_at by lia. cbn [Nat.div Nat.modulo Nat.divmod fst snd Nat.sub Nat.eqb sum].
    rewrite !Zm. unfold membraneForces, pointTangent, apply. cbn [sum].
    assert (S : symmetric 3 identity) by (intros i j _ _; unfold identity; rewrite Nat.eqb_sym; reflexivity).
    unfold exInverse. rewrite !shellTangent_value by (try exact S; lia). cbn [nth].
    unfold bopMembrane, epsV, jcur, gradu, exJ, exdN, dot, u, zeroVector. cbn. unfold identity. cbn. field.
Qed.

(** C102: a matrix that is not symmetric, as the one of a follower load, is not added to but changed *)
Theorem C102_adds_refuted :
  exists n points emodul nu thickness J H B dN ddN inverse u K k l,
    inverted points J inverse /\ immersed n points J dN u /\ (k < 3 * n)%nat /\ (l < 3 * n)%nat /\
    shellMatrix n points emodul nu thickness J H B dN ddN inverse u K k l <>
    K k l + shellMatrix n points emodul nu thickness J H B dN ddN inverse u zeroMatrix k l.
Proof.
  exists 1%nat, [exPoint], 1, 0, 1, exJ, exZero, exZero, exdN, exZero, exInverse, zeroVector, (fun k l => if (l <? k)%nat then 1 else 0), 1%nat, 0%nat.
  split; [exact exInverted|]. split; [|split; [lia|split; [lia|]]].
  - intros gp _. unfold squaredNorm, dot, jcur, gradu, exJ, exdN, zeroVector. cbn. unfold identity; cbn. lra.
  - rewrite C102_overwrites by (try exact exInverted; lia). cbn [Nat.ltb Nat.leb]. lra.
Qed.
Print Assumptions C102_adds_refuted.
