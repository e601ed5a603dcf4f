(** Property C111 for elements with enhanced displacement gradients: the matrix that the condensation inverts is positive definite in every
    uniformly deformed state without compressive stresses, in particular in the undeformed state. *)

From Coq Require Import Reals Arith Bool List Lia Lra.
From Coquelicot Require Import Coquelicot.
From Verif Require Import Tensor_Spec Conversions_Spec Conversions_Props Tensor_Model Element_Spec Element_Model Element_Proofs Element_Props.
From Verif Require Import Eas_Spec Eas_Model Eas_Proofs Eas_Props EasStrains_Props EasModes_Props EasInvertible_Props.
Import ListNotations.
Local Open Scope R_scope.

(** A stress tensor without compression in any direction; [v] are its Voigt components *)
Definition noCompression (d : nat) (v : nat -> R) : Prop :=
  exists S, (forall m, (m < voigtLength d)%nat -> v m = stressVector d S m) /\ symmetric d S /\
  forall x, 0 <= sum d (fun i => sum d (fun j => x i * S i j * x j)).

Section Gradient.
  Variables (d n : nat) (points : list point).
  Hypothesis dim : d = 2%nat \/ d = 3%nat.
  Let s := voigtLength d.
  Let p := (d * d)%nat.

  (** The number [c * d + l] belongs to the mode with the coordinate of direction l in row c and column l *)
  Lemma modesH_value gp b c l : (c < d)%nat -> (l < d)%nat ->
    sum p (fun q => modesH d gp q c l * b q) = (2 * position gp l - 1) * b (c * d + l)%nat.
  Proof.
    intros Hc Hl. unfold p, modesH. destruct dim as [-> | ->].
    - destruct c as [|[|c]]; [..|lia]; (destruct l as [|[|l]]; [..|lia]);
      cbn [Nat.eqb Nat.mul Nat.add sum]; cbv [H4modes entries nth]; ring.
    - destruct c as [|[|[|c]]]; [..|lia]; (destruct l as [|[|[|l]]]; [..|lia]);
      cbn [Nat.eqb Nat.mul Nat.add sum]; cbv [H9modes entries nth]; ring.
  Qed.

  Lemma moments b c : exactOnCube d 2 points position weight -> (b < d)%nat -> (c < d)%nat ->
    sumP points (fun gp => weight gp * ((2 * position gp b - 1) * (2 * position gp c - 1))) = if (b =? c)%nat then / 3 else 0.
  Proof.
    intros Ex Hb Hc. destruct dim as [D | D]; rewrite D in *.
    - destruct b as [|[|b]]; [..|lia]; (destruct c as [|[|c]]; [..|lia]); cbn [Nat.eqb].
      + poly Ex [(1, (2, 0, 0)%nat)].
      + poly Ex [(1, (1, 1, 0)%nat)].
      + poly Ex [(1, (1, 1, 0)%nat)].
      + poly Ex [(1, (0, 2, 0)%nat)].
    - destruct b as [|[|[|b]]]; [..|lia]; (destruct c as [|[|[|c]]]; [..|lia]); cbn [Nat.eqb].
      + poly Ex [(1, (2, 0, 0)%nat)].
      + poly Ex [(1, (1, 1, 0)%nat)].
      + poly Ex [(1, (1, 0, 1)%nat)].
      + poly Ex [(1, (1, 1, 0)%nat)].
      + poly Ex [(1, (0, 2, 0)%nat)].
      + poly Ex [(1, (0, 1, 1)%nat)].
      + poly Ex [(1, (1, 0, 1)%nat)].
      + poly Ex [(1, (0, 1, 1)%nat)].
      + poly Ex [(1, (0, 0, 2)%nat)].
  Qed.

  Lemma columns_combination r (G : nat -> nat -> nat -> R) b F m :
    voigtColumns d (fun k l => sum r (fun q => G q k l * b q)) F m = sum r (fun q => voigtColumns d (G q) F m * b q).
  Proof.
    assert (C : forall i j, sum d (fun k => sum r (fun q => G q k i * b q) * F k j) = sum r (fun q => sum d (fun k => G q k i * F k j) * b q)).
    { intros i j. rewrite (sum_ext d _ (fun k => sum r (fun q => G q k i * F k j * b q))).
      - rewrite sum_swap. apply sum_ext. intros q _. rewrite <- sum_mul_r. reflexivity.
      - intros k _. rewrite <- sum_mul_r. apply sum_ext. intros. ring. }
    assert (C2 : forall i j i' j', sum d (fun k => sum r (fun q => G q k i * b q) * F k j) + sum d (fun k => sum r (fun q => G q k i' * b q) * F k j') =
      sum r (fun q => (sum d (fun k => G q k i * F k j) + sum d (fun k => G q k i' * F k j')) * b q)).
    { intros. rewrite !C, <- sum_add. apply sum_ext. intros. ring. }
    unfold voigtColumns. cbv zeta. destruct (d =? 2)%nat; destruct m as [|[|[|[|[|m]]]]]; first [apply C|apply C2].
  Qed.

  Lemma columns_zero_entries X F : (forall m, (m < s)%nat -> voigtColumns d X F m = 0) -> forall i j, (i < d)%nat -> (j < d)%nat ->
    sum d (fun k => X k i * F k j) + sum d (fun k => X k j * F k i) = 0.
  Proof.
    intros Z i j Hi Hj. unfold s in Z. destruct dim as [D | D]; rewrite D in *.
    - change (voigtLength 2) with 3%nat in Z. assert (Z0 := Z 0%nat ltac:(lia)). assert (Z1 := Z 1%nat ltac:(lia)). assert (Z2 := Z 2%nat ltac:(lia)).
      unfold voigtColumns in *. cbn [Nat.eqb sum] in *. destruct i as [|[|i]]; [..|lia]; (destruct j as [|[|j]]; [..|lia]); lra.
    - change (voigtLength 3) with 6%nat in Z. assert (Z0 := Z 0%nat ltac:(lia)). assert (Z1 := Z 1%nat ltac:(lia)). assert (Z2 := Z 2%nat ltac:(lia)).
      assert (Z3 := Z 3%nat ltac:(lia)). assert (Z4 := Z 4%nat ltac:(lia)). assert (Z5 := Z 5%nat ltac:(lia)).
      unfold voigtColumns in *. cbn [Nat.eqb sum] in *. destruct i as [|[|[|i]]]; [..|lia]; (destruct j as [|[|[|j]]]; [..|lia]); lra.
  Qed.

  Lemma stress_nonnegative v X : noCompression d v -> 0 <= stressColumns d v X X.
  Proof.
    intros (S & E & Sy & P). rewrite <- (columns_contract d n dim).
    rewrite (sum_ext _ _ (fun m => stressVector d S m * voigtColumns d X X m)) by (intros m Hm; rewrite (E m Hm); reflexivity).
    assert (P0 := P (X 0%nat)). assert (P1 := P (X 1%nat)). assert (P2 := P (X 2%nat)). destruct dim as [D | D]; rewrite D in *.
    - change (voigtLength 2) with 3%nat. assert (S01 := Sy 0%nat 1%nat ltac:(lia) ltac:(lia)).
      unfold stressVector, component, voigtColumns. cbn [Nat.eqb sum] in *. rewrite <- S01 in *. lra.
    - change (voigtLength 3) with 6%nat.
      assert (S01 := Sy 0%nat 1%nat ltac:(lia) ltac:(lia)). assert (S02 := Sy 0%nat 2%nat ltac:(lia) ltac:(lia)). assert (S12 := Sy 1%nat 2%nat ltac:(lia) ltac:(lia)).
      unfold stressVector, component, voigtColumns. cbn [Nat.eqb sum] in *. rewrite <- S01, <- S02, <- S12 in *. lra.
  Qed.

  Variables (stress : (nat -> R) -> nat -> R) (tangent : (nat -> R) -> nat -> nat -> R).
  Variable E : point -> (nat -> R) -> (nat -> R) -> nat -> R.

  Lemma gradient_form E_a E_aa (G : point -> nat -> nat -> nat -> R) (F : point -> nat -> nat -> R) u a b :
    (forall gp m q, E_a gp u a m q = voigtColumns d (G gp q) (F gp) m) ->
    (forall gp S q r, E_aa gp u a S q r = stressColumns d S (G gp q) (G gp r)) ->
    let X gp k l := sum p (fun q => G gp q k l * b q) in
    sum p (fun q => sum p (fun r => b q * easD s points stress tangent E E_a E_aa u a q r * b r)) =
    sumP points (fun gp => (sum s (fun i => sum s (fun j => voigtColumns d (X gp) (F gp) i * tangent (E gp u a) i j * voigtColumns d (X gp) (F gp) j)) +
      stressColumns d (stress (E gp u a)) (X gp) (X gp)) * vol gp).
  Proof.
    intros H1 H2 X.
    transitivity (sum p (fun q => sum p (fun r => sumP points (fun gp =>
      b q * ((sum s (fun i => sum s (fun j => voigtColumns d (G gp q) (F gp) i * tangent (E gp u a) i j * voigtColumns d (G gp r) (F gp) j)) +
        sum s (fun m => stress (E gp u a) m * voigtColumns d (G gp q) (G gp r) m)) * vol gp) * b r)))).
    { apply sum_ext. intros q _. apply sum_ext. intros r _. rewrite d_sum, (Rmult_comm (b q)), <- !sumP_mul_r. apply sumP_ext. intros gp _.
      rewrite H2, <- (columns_contract d n dim). fold s.
      rewrite (sum_ext s _ (fun i => sum s (fun j => voigtColumns d (G gp q) (F gp) i * tangent (E gp u a) i j * voigtColumns d (G gp r) (F gp) j))).
      - ring.
      - intros i _. apply sum_ext. intros j _. rewrite !H1. reflexivity. }
    rewrite (sum_ext p _ (fun q => sumP points (fun gp => sum p (fun r =>
      b q * ((sum s (fun i => sum s (fun j => voigtColumns d (G gp q) (F gp) i * tangent (E gp u a) i j * voigtColumns d (G gp r) (F gp) j)) +
        sum s (fun m => stress (E gp u a) m * voigtColumns d (G gp q) (G gp r) m)) * vol gp) * b r)))) by (intros; rewrite sumP_swap; reflexivity).
    rewrite <- sumP_swap. apply sumP_ext. intros gp _. rewrite <- (columns_contract d n dim). fold s.
    assert (Xs : forall Y m, voigtColumns d (X gp) Y m = sum p (fun q => voigtColumns d (G gp q) Y m * b q)) by (intros; apply columns_combination).
    transitivity (sum p (fun q => sum p (fun r => sum s (fun i => sum s (fun j =>
        (voigtColumns d (G gp q) (F gp) i * b q) * tangent (E gp u a) i j * (voigtColumns d (G gp r) (F gp) j * b r))) * vol gp)) +
      sum p (fun q => sum p (fun r => sum s (fun m => stress (E gp u a) m * (voigtColumns d (G gp q) (G gp r) m * b q * b r)) * vol gp))).
    { rewrite <- sum_add. apply sum_ext. intros q _. rewrite <- sum_add. apply sum_ext. intros r _.
      rewrite (sum_ext s (fun i => sum s (fun j => voigtColumns d (G gp q) (F gp) i * b q * tangent (E gp u a) i j * (voigtColumns d (G gp r) (F gp) j * b r)))
        (fun i => sum s (fun j => voigtColumns d (G gp q) (F gp) i * tangent (E gp u a) i j * voigtColumns d (G gp r) (F gp) j) * (b q * b r)))
        by (intros i _; rewrite <- sum_mul_r; apply sum_ext; intros; ring).
      rewrite (sum_ext s (fun m => stress (E gp u a) m * (voigtColumns d (G gp q) (G gp r) m * b q * b r))
        (fun m => stress (E gp u a) m * voigtColumns d (G gp q) (G gp r) m * (b q * b r))) by (intros; ring).
      rewrite !sum_mul_r. ring. }
    rewrite Rmult_plus_distr_r. f_equal.
    - rewrite (sum_ext p _ (fun q => sum p (fun r => sum s (fun i => sum s (fun j =>
        (voigtColumns d (G gp q) (F gp) i * b q) * tangent (E gp u a) i j * (voigtColumns d (G gp r) (F gp) j * b r)))) * vol gp)) by (intros; rewrite sum_mul_r; reflexivity).
      rewrite sum_mul_r. f_equal.
      rewrite (sum_ext p _ (fun q => sum s (fun i => sum s (fun j => (voigtColumns d (G gp q) (F gp) i * b q) * tangent (E gp u a) i j * voigtColumns d (X gp) (F gp) j)))).
      + rewrite sum_swap. apply sum_ext. intros i _. rewrite sum_swap. apply sum_ext. intros j _. rewrite sum_mul_r. f_equal. rewrite sum_mul_r. f_equal.
        symmetry. apply Xs.
      + intros q _. rewrite sum_swap. apply sum_ext. intros i _. rewrite sum_swap. apply sum_ext. intros j _. rewrite sum_mul_l. f_equal. symmetry. apply Xs.
    - rewrite (sum_ext p _ (fun q => sum p (fun r => sum s (fun m => stress (E gp u a) m * (voigtColumns d (G gp q) (G gp r) m * b q * b r))) * vol gp))
        by (intros; rewrite sum_mul_r; reflexivity).
      rewrite sum_mul_r. f_equal.
      rewrite (sum_ext p _ (fun q => sum s (fun m => stress (E gp u a) m * (voigtColumns d (G gp q) (X gp) m * b q)))).
      + rewrite sum_swap. apply sum_ext. intros m _. rewrite sum_mul_l. f_equal. symmetry. apply Xs.
      + intros q _. rewrite sum_swap. apply sum_ext. intros m _. rewrite sum_mul_l. f_equal.
        rewrite (columns_symmetric d n dim), Xs, <- sum_mul_r. apply sum_ext. intros r _. rewrite (columns_symmetric d n dim). ring.
  Qed.

  (** Modes that are products of the coordinate of a direction with a matrix of rank one *)
  Lemma rank_one_zero (detJ0 : R) (A B F : nat -> nat -> R) (X : point -> nat -> nat -> R) :
    exactOnCube d 2 points position weight -> (forall gp, In gp points -> 0 < weight gp /\ 0 < integrationElement gp) -> detJ0 <> 0 ->
    (forall gp k l, In gp points -> (k < d)%nat -> (l < d)%nat ->
       X gp k l = detJ0 / integrationElement gp * sum d (fun b => (2 * position gp b - 1) * (A b k * B b l))) ->
    (forall gp i j, In gp points -> (i < d)%nat -> (j < d)%nat -> sum d (fun k => X gp k i * F k j) + sum d (fun k => X gp k j * F k i) = 0) ->
    forall b, (b < d)%nat -> let h j := sum d (fun k => A b k * F k j) in forall i j, (i < d)%nat -> (j < d)%nat -> B b i * h j + B b j * h i = 0.
  Proof.
    intros Ex Hw Hdet HX HZ b Hb h i j Hi Hj.
    set (Q c := B c i * sum d (fun k => A c k * F k j) + B c j * sum d (fun k => A c k * F k i)). change (Q b = 0).
    assert (Zero : forall gp, In gp points -> sum d (fun c => (2 * position gp c - 1) * Q c) = 0).
    { intros gp Hgp. assert (Z := HZ gp i j Hgp Hi Hj).
      assert (C : forall i j, (i < d)%nat -> (j < d)%nat -> sum d (fun k => X gp k i * F k j) =
        detJ0 / integrationElement gp * sum d (fun c => (2 * position gp c - 1) * (B c i * sum d (fun k => A c k * F k j)))).
      { clear - HX Hgp. intros i j Hi Hj. rewrite <- sum_mul_l.
        rewrite (sum_ext d _ (fun k => sum d (fun c => detJ0 / integrationElement gp * ((2 * position gp c - 1) * (B c i * (A c k * F k j)))))).
        - rewrite sum_swap. apply sum_ext. intros c _. rewrite sum_mul_l, sum_mul_l, sum_mul_l. reflexivity.
        - intros k Hk. rewrite (HX gp k i Hgp Hk Hi), <- sum_mul_l, <- sum_mul_r. apply sum_ext. intros. ring. }
      rewrite (C i j Hi Hj), (C j i Hj Hi), <- Rmult_plus_distr_l, <- sum_add in Z. destruct (Hw gp Hgp) as (_ & I).
      assert (D : detJ0 / integrationElement gp <> 0) by (apply Rmult_integral_contrapositive_currified; [assumption|apply Rinv_neq_0_compat, Rgt_not_eq; assumption]).
      apply Rmult_integral in Z. destruct Z as [Z|Z]; [contradiction|]. rewrite <- Z. apply sum_ext. intros. unfold Q. ring. }
    assert (I : sumP points (fun gp => sum d (fun c => weight gp * ((2 * position gp b - 1) * (2 * position gp c - 1)) * Q c)) = 0).
    { apply sumP_zero. intros gp Hgp. transitivity (weight gp * (2 * position gp b - 1) * sum d (fun c => (2 * position gp c - 1) * Q c)).
      - rewrite <- sum_mul_l. apply sum_ext. intros. ring.
      - rewrite (Zero gp Hgp). ring. }
    rewrite sumP_swap, (sum_pick d b) in I.
    - rewrite sumP_mul_r, moments, Nat.eqb_refl in I by assumption. lra.
    - assumption.
    - intros c Hc N. rewrite sumP_mul_r, moments by assumption. destruct (Nat.eqb_spec b c) as [->|]; [congruence|ring].
  Qed.

  Lemma rank_one (g h : nat -> R) : (forall i j, (i < d)%nat -> (j < d)%nat -> g i * h j + g j * h i = 0) ->
    (exists i, (i < d)%nat /\ g i <> 0) -> forall j, (j < d)%nat -> h j = 0.
  Proof.
    intros Z (i & Hi & N) j Hj. assert (Zi := Z i i Hi Hi). assert (Hh : h i = 0).
    { assert (g i * h i = 0) as P by lra. apply Rmult_integral in P. tauto. }
    assert (Zj := Z i j Hi Hj). rewrite Hh, Rmult_0_r, Rplus_0_r in Zj. apply Rmult_integral in Zj. tauto.
  Qed.

  (** An invertible matrix takes only zero to zero, and its columns are not zero *)
  Lemma inverse_kernel M Z x : isInverse d M Z -> (forall i, (i < d)%nat -> sum d (fun k => M i k * x k) = 0) -> forall i, (i < d)%nat -> x i = 0.
  Proof.
    intros (_ & I) H i Hi. transitivity (sum d (fun k => identity i k * x k)); [symmetry; apply sum_id_l; assumption|].
    transitivity (sum d (fun m => Z i m * sum d (fun k => M m k * x k))).
    - rewrite (sum_ext d (fun m => Z i m * _) (fun m => sum d (fun k => Z i m * M m k * x k))) by (intros; rewrite <- sum_mul_l; apply sum_ext; intros; ring).
      rewrite sum_swap. apply sum_ext. intros k Hk. rewrite <- (I i k Hi Hk). unfold mul. rewrite sum_mul_r. reflexivity.
    - apply sum_zero. intros m Hm. rewrite (H m Hm). ring.
  Qed.
  Lemma inverse_kernel_left M Z x : isInverse d M Z -> (forall j, (j < d)%nat -> sum d (fun k => x k * M k j) = 0) -> forall i, (i < d)%nat -> x i = 0.
  Proof.
    intros (I & I') H. apply (inverse_kernel (fun i j => M j i) (fun i j => Z j i)).
    - assert (Id : forall i j, @identity i j = identity j i) by (intros; unfold identity; rewrite Nat.eqb_sym; reflexivity).
      split; intros i j Hi Hj; [rewrite Id, <- (I' j i Hj Hi)|rewrite Id, <- (I j i Hj Hi)]; unfold mul; apply sum_ext; intros; ring.
    - intros j Hj. rewrite <- (H j Hj). apply sum_ext. intros. ring.
  Qed.
  Lemma inverse_column M Z b : isInverse d M Z -> (b < d)%nat -> exists i, (i < d)%nat /\ M i b <> 0.
  Proof.
    intros (_ & I) Hb. destruct (vanishes (fun i => M i b) d) as [V|V]; [|exact V]. exfalso. specialize (I b b Hb Hb). unfold mul in I.
    rewrite sum_zero in I; [unfold identity in I; rewrite Nat.eqb_refl in I; lra|]. intros k Hk. rewrite (V k Hk). ring.
  Qed.

  Variables (J0 JInv : nat -> nat -> R) (detJ0 : R).
  Variables (dN : point -> nat -> nat -> R) (dN0 : nat -> nat -> R).
  Let H := easFunctionH d detJ0 JInv.

  (** The vector of the parameters of direction [c] *)
  Definition transformedParameters (b : nat -> R) (c k : nat) : R := sum d (fun r => JInv k r * b (r * d + c)%nat).
  Lemma combination gp b k l : (k < d)%nat -> (l < d)%nat -> sum p (fun q => H gp q k l * b q) =
    detJ0 / integrationElement gp * sum d (fun c => (2 * position gp c - 1) * (transformedParameters b c k * JInv l c)).
  Proof.
    intros Hk Hl. unfold H, easFunctionH.
    rewrite (sum_ext p _ (fun q => sum d (fun c => sum d (fun r => detJ0 / integrationElement gp * JInv k r * JInv l c * (modesH d gp q r c * b q))))).
    - rewrite sum_swap, <- sum_mul_l. apply sum_ext. intros c Hc. rewrite sum_swap.
      rewrite (sum_ext d _ (fun r => detJ0 / integrationElement gp * JInv k r * JInv l c * ((2 * position gp c - 1) * b (r * d + c)%nat))).
      + unfold transformedParameters.
        transitivity (detJ0 / integrationElement gp * (2 * position gp c - 1) * JInv l c * sum d (fun r => JInv k r * b (r * d + c)%nat)); [|ring].
        rewrite <- sum_mul_l. apply sum_ext. intros. ring.
      + intros r Hr. rewrite sum_mul_l, modesH_value by assumption. reflexivity.
    - intros q _. rewrite <- sum_mul_r. apply sum_ext. intros c _. rewrite <- !sum_mul_r. apply sum_ext. intros. ring.
  Qed.

  Lemma parameters_zero b : isInverse d J0 JInv -> (forall c k, (c < d)%nat -> (k < d)%nat -> transformedParameters b c k = 0) ->
    forall q, (q < p)%nat -> b q = 0.
  Proof.
    intros (I1 & I2) Z q Hq. assert (D : d <> 0%nat) by lia. rewrite (Nat.div_mod q d D).
    assert (Hc : (q mod d < d)%nat) by (apply Nat.mod_upper_bound; exact D).
    assert (Hr : (q / d < d)%nat) by (apply Nat.div_lt_upper_bound; [exact D|exact Hq]).
    rewrite (Nat.mul_comm d). apply (inverse_kernel JInv J0 (fun r => b (r * d + q mod d)%nat)); [split; assumption| |exact Hr].
    intros k Hk. apply (Z _ k Hc Hk).
  Qed.

  Lemma positive_of_zero u a E_a E_aa (G : point -> nat -> nat -> nat -> R) (F : point -> nat -> nat -> R) :
    (forall gp m q, E_a gp u a m q = voigtColumns d (G gp q) (F gp) m) ->
    (forall gp S q r, E_aa gp u a S q r = stressColumns d S (G gp q) (G gp r)) ->
    (forall gp, In gp points -> 0 < weight gp /\ 0 < integrationElement gp) ->
    (forall gp, In gp points -> positive s (tangent (E gp u a))) ->
    (forall gp, In gp points -> noCompression d (stress (E gp u a))) ->
    (forall b, (forall gp i j, In gp points -> (i < d)%nat -> (j < d)%nat ->
       sum d (fun k => sum p (fun q => G gp q k i * b q) * F gp k j) + sum d (fun k => sum p (fun q => G gp q k j * b q) * F gp k i) = 0) ->
       forall q, (q < p)%nat -> b q = 0) ->
    positive p (easD s points stress tangent E E_a E_aa u a).
  Proof.
    intros H1 H2 Hw HC HS HZ b Hb. rewrite (gradient_form E_a E_aa G F u a b H1 H2). cbv zeta.
    set (X gp k l := sum p (fun q => G gp q k l * b q)).
    set (e gp := voigtColumns d (X gp) (F gp)).
    assert (Nonneg : forall gp, In gp points -> 0 <= sum s (fun i => sum s (fun j => e gp i * tangent (E gp u a) i j * e gp j)) /\
      (sum s (fun i => sum s (fun j => e gp i * tangent (E gp u a) i j * e gp j)) = 0 -> forall m, (m < s)%nat -> e gp m = 0)).
    { intros gp Hgp. destruct (vanishes (e gp) s) as [Z|Z].
      - rewrite sum_zero; [split; [apply Rle_refl|intros _; exact Z]|]. intros i Hi. apply sum_zero. intros j Hj. rewrite (Z i Hi). ring.
      - assert (P := HC gp Hgp (e gp) Z). cbv beta in P. split; [lra|intros; lra]. }
    assert (Vol : forall gp, In gp points -> 0 < vol gp) by (intros gp Hgp; destruct (Hw gp Hgp); apply Rmult_lt_0_compat; assumption).
    assert (All : forall gp, In gp points -> 0 <= (sum s (fun i => sum s (fun j => e gp i * tangent (E gp u a) i j * e gp j)) +
      stressColumns d (stress (E gp u a)) (X gp) (X gp)) * vol gp).
    { intros gp Hgp. assert (V := Vol gp Hgp). assert (N := proj1 (Nonneg gp Hgp)). assert (K := stress_nonnegative _ (X gp) (HS gp Hgp)).
      apply Rmult_le_pos; lra. }
    destruct (sumP_nonneg points _ All) as [L|L]; [exact L|exfalso]. destruct Hb as (q & Hq & Hbq). apply Hbq, HZ; [|exact Hq].
    intros gp i j Hgp Hi Hj. apply (columns_zero_entries (X gp) (F gp)); [|assumption|assumption].
    assert (Zero := sumP_nonneg_zero points _ All (eq_sym L) gp Hgp). cbv beta in Zero.
    assert (V := Vol gp Hgp). assert (K := stress_nonnegative _ (X gp) (HS gp Hgp)). destruct (Nonneg gp Hgp) as (N & N0).
    apply N0. apply Rmult_integral in Zero. lra.
  Qed.

  (** C111 for both kinds of enhanced displacement gradients, any geometry, material and uniform deformation without compression *)
  Theorem C111_gradients_partial u a F : exactOnCube d 2 points position weight ->
    (forall gp, In gp points -> 0 < weight gp /\ 0 < integrationElement gp) -> detJ0 <> 0 -> isInverse d J0 JInv ->
    (exists Z, isInverse d F Z) ->
    (forall gp, In gp points -> positive s (tangent (E gp u a))) ->
    (forall gp, In gp points -> noCompression d (stress (E gp u a))) ->
    ((forall gp k l, In gp points -> (k < d)%nat -> (l < d)%nat -> dgF d n p dN H gp u a k l = F k l) ->
       positive p (easD s points stress tangent E (dg_a d n p dN H) (dg_aa d H) u a)) /\
    ((forall gp k l, In gp points -> (k < d)%nat -> (l < d)%nat -> dgtF d n p dN H dN0 gp u a k l = F k l) ->
     (exists Z, isInverse d (centerF d n dN0 u) Z) ->
       positive p (easD s points stress tangent E (dgt_a d n p dN H dN0) (dgt_aa d n H dN0) u a)).
  Proof.
    intros Ex Hw Hdet HJ (Z & HF) HC HS. split; [intros Uni|intros Uni (Z0 & HF0)].
    - apply (positive_of_zero u a _ _ H (fun gp => dgF d n p dN H gp u a)); [reflexivity|reflexivity|assumption..|].
      intros b Hb. apply (parameters_zero b HJ). intros c k Hc Hk.
      assert (P := rank_one_zero detJ0 (transformedParameters b) (fun c l => JInv l c) F (fun gp k l => sum p (fun q => H gp q k l * b q)) Ex Hw Hdet
        ltac:(intros; apply combination; assumption)).
      specialize (P ltac:(intros gp i j Hgp Hi Hj; rewrite <- (Hb gp i j Hgp Hi Hj); f_equal; apply sum_ext; intros; rewrite Uni by assumption; reflexivity) c Hc).
      cbv zeta in P.
      assert (Hh := rank_one (fun i => JInv i c) (fun j => sum d (fun k => transformedParameters b c k * F k j)) P (inverse_column JInv J0 c (conj (proj2 HJ) (proj1 HJ)) Hc)).
      apply (inverse_kernel_left F Z _ HF Hh k Hk).
    - apply (positive_of_zero u a _ _ (timesTransposed d H (centerF d n dN0 u)) (fun gp => dgtF d n p dN H dN0 gp u a)); [reflexivity|reflexivity|assumption..|].
      intros b Hb. apply (parameters_zero b HJ). intros c k Hc Hk.
      set (A c k := sum d (fun m => centerF d n dN0 u k m * JInv m c)).
      assert (P := rank_one_zero detJ0 A (transformedParameters b) F
        (fun gp k l => sum p (fun q => timesTransposed d H (centerF d n dN0 u) gp q k l * b q)) Ex Hw Hdet).
      assert (HX : forall gp k l, In gp points -> (k < d)%nat -> (l < d)%nat -> sum p (fun q => timesTransposed d H (centerF d n dN0 u) gp q k l * b q) =
        detJ0 / integrationElement gp * sum d (fun b0 => (2 * position gp b0 - 1) * (A b0 k * transformedParameters b b0 l))).
      { clear - dim. intros gp k l _ Hk Hl. unfold timesTransposed.
        rewrite (sum_ext p _ (fun q => sum d (fun m => centerF d n dN0 u k m * (H gp q l m * b q)))) by (intros; rewrite <- sum_mul_r; apply sum_ext; intros; ring).
        rewrite sum_swap, <- sum_mul_l.
        rewrite (sum_ext d _ (fun m => sum d (fun c => detJ0 / integrationElement gp * ((2 * position gp c - 1) * (centerF d n dN0 u k m * JInv m c * transformedParameters b c l))))).
        - rewrite sum_swap. apply sum_ext. intros c _. rewrite sum_mul_l, sum_mul_l, sum_mul_r. reflexivity.
        - intros m Hm. rewrite sum_mul_l, combination by assumption. rewrite <- !sum_mul_l. apply sum_ext. intros. ring. }
      specialize (P HX ltac:(intros gp i j Hgp Hi Hj; rewrite <- (Hb gp i j Hgp Hi Hj); f_equal; apply sum_ext; intros; rewrite Uni by assumption; reflexivity) c Hc).
      cbv zeta in P.
      apply (rank_one (fun j => sum d (fun k => A c k * F k j)) (fun i => transformedParameters b c i)); [|..|exact Hk].
      + intros i j Hi Hj. rewrite <- (P i j Hi Hj). ring.
      + destruct (vanishes (fun j => sum d (fun k => A c k * F k j)) d) as [V|V]; [|exact V]. exfalso.
        assert (A0 := inverse_kernel_left F Z _ HF V).
        destruct (inverse_column JInv J0 c (conj (proj2 HJ) (proj1 HJ)) Hc) as (i & Hi & N). apply N.
        apply (inverse_kernel (centerF d n dN0 u) Z0 (fun m => JInv m c) HF0 A0 i Hi).
  Qed.
End Gradient.
Print Assumptions C111_gradients_partial.

(** In the undeformed state all conditions on the state hold *)
Corollary C111_undeformed_partial d n points stress tangent E J0 JInv detJ0 dN dN0 u a : d = 2%nat \/ d = 3%nat ->
  exactOnCube d 2 points position weight -> (forall gp, In gp points -> 0 < weight gp /\ 0 < integrationElement gp) -> detJ0 <> 0 -> isInverse d J0 JInv ->
  (forall j, u j = 0) -> (forall q, a q = 0) ->
  (forall gp, In gp points -> positive (voigtLength d) (tangent (E gp u a))) -> (forall gp m, In gp points -> stress (E gp u a) m = 0) ->
  let H := easFunctionH d detJ0 JInv in let p := (d * d)%nat in let s := voigtLength d in
  positive p (easD s points stress tangent E (dg_a d n p dN H) (dg_aa d H) u a) /\
  positive p (easD s points stress tangent E (dgt_a d n p dN H dN0) (dgt_aa d n H dN0) u a).
Proof.
  intros dim Ex Hw Hdet HJ Hu Ha HC HS H p s.
  assert (U : forall D k l, displacementGradientOf d n D u k l = 0) by (intros; apply sum_zero; intros; rewrite Hu; ring).
  assert (Hz : forall gp k l, Htilde p H gp a k l = 0) by (intros; apply sum_zero; intros; rewrite Ha; ring).
  assert (I : isInverse d identity identity).
  { split; intros i j Hi Hj; unfold mul; apply (sum_id_l d i (fun k => identity k j) Hi). }
  destruct (C111_gradients_partial d n points dim stress tangent E J0 JInv detJ0 dN dN0 u a identity Ex Hw Hdet HJ (ex_intro _ identity I) HC) as (G1 & G2).
  - intros gp Hgp. exists (fun _ _ => 0). split; [intros m _; rewrite (HS gp m Hgp); unfold stressVector; destruct (component d m); reflexivity|].
    split; [intros i j _ _; reflexivity|]. intros x. rewrite sum_zero; [apply Rle_refl|]. intros i _. apply sum_zero. intros. ring.
  - split; [apply G1|apply G2].
    + intros gp k l _ _ _. fold H p. unfold dgF, dgGradient. rewrite U, Hz. ring.
    + intros gp k l _ _ _. fold H p. unfold dgtF, dgtGradient, dgtEnhanced. rewrite U, sum_zero; [ring|]. intros. rewrite Hz. ring.
    + exists identity. destruct I as (I1 & I2). split; intros i j Hi Hj.
      * rewrite <- (I1 i j Hi Hj). unfold mul. apply sum_ext. intros. unfold centerF. rewrite U. ring.
      * rewrite <- (I2 i j Hi Hj). unfold mul. apply sum_ext. intros. unfold centerF. rewrite U. ring.
Qed.
Print Assumptions C111_undeformed_partial.

(** C111 is false for compressed elements with enhanced displacement gradients: a square of a St. Venant-Kirchhoff material (Lame constants
    0 and 1), compressed uniformly to a side length of 1 / sqrt 3.  The tangent is positive definite, the first row of the matrix vanishes *)
Definition squareStress (e : nat -> R) (m : nat) : R := match m with 0 => 2 * e 0%nat | 1 => 2 * e 1%nat | _ => e 2%nat end.
Definition squareTangent (e : nat -> R) (k l : nat) : R := if (k =? l)%nat then (if (k =? 2)%nat then 1 else 2) else 0.
Definition squareDerivatives (gp : point) (i l : nat) : R :=
  let x := position gp 0%nat in let y := position gp 1%nat in
  nth l (nth i [[- (1 - y); - (1 - x)]; [1 - y; - x]; [- y; 1 - x]; [y; x]] []) 0.
(** The nodes of the unit square, multiplied with [c] *)
Definition squareDisplacements (c : R) (j : nat) : R := nth j [0; 0; c; 0; 0; c; c; c] 0.

Theorem C111_compressed_refuted : exists u a,
  let points := gauss2 (fun _ => 1) in let H := easFunctionH 2 1 identity in let E := dgValue 2 4 4 squareDerivatives H in
  makeH 2 4 = Some 4%nat /\ exactOnCube 2 3 points position weight /\
  (forall e, positive 3 (squareTangent e)) /\
  (forall e k l, (k < 3)%nat -> (l < 3)%nat -> is_derive (fun t => squareStress (fun m => e m + t * identity m l) k) 0 (squareTangent e k l)) /\
  let F := dgF 2 4 4 squareDerivatives H in
  (exists c, 0 < c /\ forall gp k l, (k < 2)%nat -> (l < 2)%nat -> F gp u a k l = c * identity k l) /\
  let D := easD 3 points squareStress squareTangent E (dg_a 2 4 4 squareDerivatives H) (dg_aa 2 H) u a in
  (forall r, (r < 4)%nat -> D 0%nat r = 0) /\ ~ exists Z, isInverse 4 D Z.
Proof.
  set (c := / sqrt 3). assert (C2 : c * c = / 3) by exact gauss_square.
  assert (Cp : 0 < c) by (apply Rinv_0_lt_compat, sqrt_lt_R0; lra).
  exists (squareDisplacements (c - 1)), (fun _ => 0). intros points H E. split; [reflexivity|split; [apply gauss2_exact|split; [|split]]].
  - intros e x (i & Hi & N). unfold squareTangent. cbn [sum Nat.eqb].
    assert (S0 := Rle_0_sqr (x 0%nat)). assert (S1 := Rle_0_sqr (x 1%nat)). assert (S2 := Rle_0_sqr (x 2%nat)).
    assert (S : 0 < Rsqr (x i)) by (apply Rsqr_pos_lt; assumption). unfold Rsqr in *. destruct i as [|[|[|i]]]; [..|lia]; lra.
  - intros e k l Hk Hl. unfold squareTangent, squareStress, identity.
    destruct k as [|[|[|k]]]; [..|lia]; (destruct l as [|[|[|l]]]; [..|lia]); cbn [Nat.eqb]; auto_derive; auto; ring.
  - assert (U : forall gp k l, (k < 2)%nat -> (l < 2)%nat ->
      displacementGradientOf 2 4 (squareDerivatives gp) (squareDisplacements (c - 1)) k l = (c - 1) * identity k l).
    { intros gp k l Hk Hl. unfold displacementGradientOf, squareDerivatives, squareDisplacements, identity.
      destruct k as [|[|k]]; [..|lia]; (destruct l as [|[|l]]; [..|lia]); cbn [sum nth Nat.eqb Nat.mul Nat.add]; ring. }
    intros F. set (u := squareDisplacements (c - 1)) in *. set (a := fun _ : nat => 0).
    assert (HF : forall gp k l, (k < 2)%nat -> (l < 2)%nat -> F gp u a k l = c * identity k l).
    { intros gp k l Hk Hl. unfold F, dgF, dgGradient. rewrite (U gp k l Hk Hl). unfold Htilde. rewrite sum_zero; [ring|]. intros. unfold a. ring. }
    split; [exists c; split; [exact Cp|exact HF]|]. intros D.
    assert (HE : forall gp m, (m < 3)%nat -> E gp u a m = match m with 2 => 0 | _ => - / 3 end).
    { intros gp m Hm. unfold E, dgValue, strainOfGradient.
      assert (G : forall k l, (k < 2)%nat -> (l < 2)%nat -> dgGradient 2 4 4 squareDerivatives H gp u a k l = (c - 1) * identity k l).
      { intros k l Hk Hl. assert (X := HF gp k l Hk Hl). unfold F, dgF in X. lra. }
      destruct m as [|[|[|m]]]; [..|lia]; unfold toVoigt, factorTo, setV; cbn [Nat.eqb loop sum]; rewrite !G by lia; unfold identity; cbn [Nat.eqb].
      - transitivity (/ 2 * (c * c - 1)); [field|rewrite C2; field].
      - transitivity (/ 2 * (c * c - 1)); [field|rewrite C2; field].
      - ring. }
    assert (Zero : forall r, (r < 4)%nat -> D 0%nat r = 0).
    { intros r Hr. unfold D. rewrite d_sum. unfold points.
      assert (Hx : forall gp q k l, (k < 2)%nat -> (l < 2)%nat -> H gp q k l = / integrationElement gp * modesH 2 gp q k l).
      { intros gp q k l Hk Hl. unfold H, easFunctionH, identity.
        destruct k as [|[|k]]; [..|lia]; (destruct l as [|[|l]]; [..|lia]); cbn [sum Nat.eqb]; unfold Rdiv; ring. }
      transitivity (sumP (gauss2 (fun _ => 1)) (fun gp => weight gp * 0)); [|apply sumP_zero; intros; ring].
      apply sumP_ext. intros gp Hgp.
      assert (Ie : integrationElement gp = 1).
      { cbn [gauss2 In] in Hgp. repeat (destruct Hgp as [<-|Hgp]; [reflexivity|]). contradiction. }
      assert (Co : forall q m, (m < 3)%nat -> dg_a 2 4 4 squareDerivatives H gp u a m q =
        c * match m with 0 => modesH 2 gp q 0%nat 0%nat | 1 => modesH 2 gp q 1%nat 1%nat | _ => modesH 2 gp q 0%nat 1%nat + modesH 2 gp q 1%nat 0%nat end).
      { intros q m Hm. unfold dg_a, voigtColumns. fold F. cbv zeta. cbn [Nat.eqb sum].
        destruct m as [|[|[|m]]]; [..|lia]; rewrite !HF, !Hx, Ie by lia; unfold identity; cbn [Nat.eqb]; field. }
      unfold squareTangent. cbn [sum Nat.eqb]. rewrite !Co by lia.
      unfold dg_aa, stressColumns, atVoigt, squareStress. cbn [loop toVoigtIndex Nat.eqb andb orb sum]. rewrite !HE, !Hx, Ie by lia.
      unfold modesH. cbn [Nat.eqb]. destruct r as [|[|[|[|r]]]]; [..|lia]; cbv [H4modes entries nth].
      all: match goal with |- ?x = _ => ring_simplify x end; try (replace (c ^ 2) with (/ 3) by (rewrite <- C2; ring)); unfold vol; try rewrite Ie; field. }
    split; [exact Zero|]. intros (Z & I & _). specialize (I 0%nat 0%nat ltac:(lia) ltac:(lia)). unfold mul in I.
    rewrite sum_zero in I; [unfold identity in I; cbn in I; lra|]. intros k Hk. rewrite (Zero k Hk). ring.
Qed.
Print Assumptions C111_compressed_refuted.

(** The hypotheses are met by the undeformed square *)
Example C111_undeformed_applies :
  let H := easFunctionH 2 1 identity in let E := dgValue 2 4 4 squareDerivatives H in
  positive 4 (easD 3 (gauss2 (fun _ => 1)) squareStress squareTangent E (dg_a 2 4 4 squareDerivatives H) (dg_aa 2 H) (fun _ => 0) (fun _ => 0)).
Proof.
  intros H E.
  assert (I : isInverse 2 identity identity) by (split; intros i j Hi Hj; unfold mul; apply (sum_id_l 2 i (fun k => identity k j) Hi)).
  refine (proj1 (C111_undeformed_partial 2 4 (gauss2 (fun _ => 1)) squareStress squareTangent E identity identity 1 squareDerivatives (fun _ _ => 0)
    (fun _ => 0) (fun _ => 0) _ _ _ _ I _ _ _ _)); try reflexivity.
  - left. reflexivity.
  - intros i j k Hi Hj Hk. apply gauss2_exact; lia.
  - intros gp Hgp. cbn [gauss2 In] in Hgp. repeat (destruct Hgp as [<-|Hgp]; [cbn; lra|]). contradiction.
  - lra.
  - intros gp _ x (i & Hi & N). change (voigtLength 2) with 3%nat in *. unfold squareTangent. cbn [sum Nat.eqb].
    assert (S0 := Rle_0_sqr (x 0%nat)). assert (S1 := Rle_0_sqr (x 1%nat)). assert (S2 := Rle_0_sqr (x 2%nat)).
    assert (S : 0 < Rsqr (x i)) by (apply Rsqr_pos_lt; assumption). unfold Rsqr in *. destruct i as [|[|[|i]]]; [..|lia]; lra.
  - intros gp m _. assert (Z : forall m, E gp (fun _ => 0) (fun _ => 0) m = 0).
    { intros o. unfold E, dgValue, strainOfGradient.
      assert (G : forall k l, dgGradient 2 4 4 squareDerivatives H gp (fun _ => 0) (fun _ => 0) k l = 0).
      { intros. unfold dgGradient, displacementGradientOf, Htilde. rewrite !sum_zero by (intros; ring). ring. }
      destruct o as [|[|[|o]]]; unfold toVoigt, factorTo, setV, noVec; cbn [Nat.eqb loop sum]; rewrite ?G; try ring. }
    unfold squareStress. destruct m as [|[|m]]; rewrite Z; ring.
Qed.
