(** Properties C110 and C111: the modes of enhanced assumed strain elements. *)

From Coq Require Import Reals Arith Bool List Lia Lra.
From Coquelicot Require Import Coquelicot.
From Verif Require Import Tensor_Spec Conversions_Spec Conversions_Props Tensor_Model Element_Spec Element_Model Element_Proofs Element_Props.
From Verif Require Import Eas_Spec Eas_Model Eas_Proofs Eas_Props EasStrains_Props.
Import ListNotations.
Local Open Scope R_scope.

(** Quadrature of polynomials *)
Section Quadrature.
  Variables (d e : nat) (points : list point).
  Hypothesis exact_ : exactOnCube d e points position weight.

  Lemma quadrature_sumP f : quadrature points weight f = sumP points (fun gp => weight gp * f gp).
  Proof. unfold quadrature. clear. induction points as [|x l IH]; [reflexivity|]. cbn. rewrite IH. reflexivity. Qed.

  Definition monomial := (R * (nat * nat * nat))%type.
  Definition evaluate (l : list monomial) (gp : point) : R :=
    fold_right (fun (t : monomial) acc => let '(c, (i, j, k)) := t in
      c * ((2 * position gp 0%nat - 1) ^ i * (2 * position gp 1%nat - 1) ^ j * (2 * position gp 2%nat - 1) ^ k) + acc) 0 l.
  Definition integral (l : list monomial) : R :=
    fold_right (fun (t : monomial) acc => let '(c, (i, j, k)) := t in c * (mean i * mean j * mean k) + acc) 0 l.
  Definition small (t : monomial) : bool := let '(_, (i, j, k)) := t in ((i <=? e) && (j <=? e) && (k <=? e) && ((negb (d <=? 2)) || (k =? 0)))%nat.

  Lemma quadrature_polynomial l (f : point -> R) : forallb small l = true -> (forall gp, f gp = evaluate l gp) ->
    sumP points (fun gp => weight gp * f gp) = integral l.
  Proof.
    intros Hl Hf. rewrite (sumP_ext points _ (fun gp => weight gp * evaluate l gp)) by (intros; rewrite Hf; reflexivity). clear f Hf.
    induction l as [|(c, ((i, j), k)) l IH]; cbn [evaluate integral fold_right].
    - clear. induction points as [|x l IH]; [reflexivity|]. cbn. rewrite IH. ring.
    - cbn [forallb] in Hl. apply andb_true_iff in Hl. destruct Hl as (H1 & H2). fold (integral l). rewrite <- (IH H2).
      unfold small in H1. rewrite !andb_true_iff, orb_true_iff, negb_true_iff, !Nat.leb_le, Nat.leb_gt, Nat.eqb_eq in H1.
      rewrite <- (exact_ i j k) by lia. rewrite quadrature_sumP.
      transitivity (sumP points (fun gp => weight gp * ((2 * position gp 0%nat - 1) ^ i * (2 * position gp 1%nat - 1) ^ j * (2 * position gp 2%nat - 1) ^ k) * c) +
        sumP points (fun gp => weight gp * evaluate l gp)).
      + rewrite <- sumP_add. apply sumP_ext. intros gp _. cbn [evaluate fold_right]. fold (evaluate l gp). ring.
      + rewrite sumP_mul_r. ring.
  Qed.
End Quadrature.

Definition dimensionOf (v : variantE) : nat := match v with V9 | V21 => 3 | _ => 2 end%nat.
(** The degree up to which the rule must be exact *)
Definition modeDegree (v : variantE) : nat := match v with V11 => 2 | _ => 1 end%nat.

Ltac poly E l :=
  eapply eq_trans;
  [apply (quadrature_polynomial _ _ _ E l); [reflexivity|intros; unfold evaluate; cbn [fold_right pow]; ring]
  |unfold integral, mean; cbn [fold_right Nat.even Nat.add INR]; field].

Lemma modes_integrate d v points k q : d = dimensionOf v -> exactOnCube d (modeDegree v) points position weight ->
  (k < voigtLength d)%nat -> (q < sizeE v)%nat -> sumP points (fun gp => weight gp * modesE v gp k q) = 0.
Proof.
  intros Hd E Hk Hq. subst d.
  assert (Z : sumP points (fun gp => weight gp * 0) = 0).
  { clear. induction points as [|x l IH]; [reflexivity|]. cbn. rewrite IH. ring. }
  destruct v; cbn [sizeE dimensionOf modeDegree] in *.
  - lia.
  - change (voigtLength 2) with 3%nat in Hk. 
    destruct k as [|[|[|k]]]; [..|lia]; (destruct q as [|[|[|[|q]]]]; [..|lia]); cbv [modesE E4modes entries nth]; try exact Z;
    first [poly E [(1, (1, 0, 0)%nat)]|poly E [(1, (0, 1, 0)%nat)]].
  - change (voigtLength 2) with 3%nat in Hk. 
    destruct k as [|[|[|k]]]; [..|lia]; (destruct q as [|[|[|[|[|q]]]]]; [..|lia]); cbv [modesE E5modes entries nth]; try exact Z;
    first [poly E [(1, (1, 0, 0)%nat)]|poly E [(1, (0, 1, 0)%nat)]|poly E [(1, (1, 1, 0)%nat)]].
  - change (voigtLength 2) with 3%nat in Hk. 
    destruct k as [|[|[|k]]]; [..|lia]; (destruct q as [|[|[|[|[|[|[|q]]]]]]]; [..|lia]); cbv [modesE E7modes entries nth]; try exact Z;
    first [poly E [(1, (1, 0, 0)%nat)]|poly E [(1, (0, 1, 0)%nat)]|poly E [(1, (1, 1, 0)%nat)]].
  - change (voigtLength 2) with 3%nat in Hk. 
    destruct k as [|[|[|k]]]; [..|lia]; (destruct q as [|[|[|[|[|[|[|[|[|[|[|q]]]]]]]]]]]; [..|lia]); cbv [modesE E11modes entries nth]; try exact Z;
    first [poly E [(1, (0, 0, 0)%nat); (-3, (2, 0, 0)%nat)]|poly E [(1, (0, 0, 0)%nat); (-3, (0, 2, 0)%nat)]
          |poly E [(1, (0, 1, 0)%nat); (-3, (2, 1, 0)%nat)]|poly E [(1, (1, 0, 0)%nat); (-3, (1, 2, 0)%nat)]
          |poly E [(1, (0, 2, 0)%nat); (-3, (2, 2, 0)%nat)]|poly E [(1, (2, 0, 0)%nat); (-3, (2, 2, 0)%nat)]
          |poly E [(1, (0, 0, 0)%nat); (-3, (2, 0, 0)%nat); (-3, (0, 2, 0)%nat); (9, (2, 2, 0)%nat)]].
  - change (voigtLength 3) with 6%nat in Hk. 
    do 6 (destruct k as [|k]; [do 9 (destruct q as [|q]; [cbv [modesE E9modes entries nth];
      first [exact Z|poly E [(1, (1, 0, 0)%nat)]|poly E [(1, (0, 1, 0)%nat)]|poly E [(1, (0, 0, 1)%nat)]]|]); lia|]); lia.
  - change (voigtLength 3) with 6%nat in Hk. 
    do 6 (destruct k as [|k]; [do 21 (destruct q as [|q]; [cbv [modesE E21modes entries nth];
      first [exact Z|poly E [(1, (1, 0, 0)%nat)]|poly E [(1, (0, 1, 0)%nat)]|poly E [(1, (0, 0, 1)%nat)]
            |poly E [(1, (1, 1, 0)%nat)]|poly E [(1, (1, 0, 1)%nat)]|poly E [(1, (0, 1, 1)%nat)]]|]); lia|]); lia.
Qed.

Lemma modesH_integrate d points q k l : d = 2%nat \/ d = 3%nat -> exactOnCube d 1 points position weight ->
  (q < d * d)%nat -> (k < d)%nat -> (l < d)%nat -> sumP points (fun gp => weight gp * modesH d gp q k l) = 0.
Proof.
  intros dim E Hq Hk Hl.
  assert (Z : sumP points (fun gp => weight gp * 0) = 0).
  { clear. induction points as [|x l IH]; [reflexivity|]. cbn. rewrite IH. ring. }
  destruct dim as [->| ->]; unfold modesH; cbn [Nat.eqb].
  - do 2 (destruct k as [|k]; [do 2 (destruct l as [|l]; [do 4 (destruct q as [|q]; [cbv [H4modes entries nth];
      first [exact Z|poly E [(1, (1, 0, 0)%nat)]|poly E [(1, (0, 1, 0)%nat)]]|]); lia|]); lia|]); lia.
  - do 3 (destruct k as [|k]; [do 3 (destruct l as [|l]; [do 9 (destruct q as [|q]; [cbv [H9modes entries nth];
      first [exact Z|poly E [(1, (1, 0, 0)%nat)]|poly E [(1, (0, 1, 0)%nat)]|poly E [(1, (0, 0, 1)%nat)]]|]); lia|]); lia|]); lia.
Qed.

Section Patch.
  Variables (d n : nat) (points : list point).
  Let s := voigtLength d.
  Variables (stress : (nat -> R) -> nat -> R) (tangent : (nat -> R) -> nat -> nat -> R).
  Variable inverse : (nat -> nat -> R) -> nat -> nat -> R.
  Variables (J0 : nat -> nat -> R) (detJ0 : R).
  Hypothesis regular : forall gp, In gp points -> integrationElement gp <> 0.

  (** C110: modes of linear and Green-Lagrange strains do no work with a constant stress *)
  Theorem C110_constant_stress v E u a sigma q : d = dimensionOf v -> exactOnCube d (modeDegree v) points position weight ->
    (forall gp m, In gp points -> (m < s)%nat -> stress (E gp u a) m = sigma m) -> (q < sizeE v)%nat ->
    easRtilde s points stress E (additive_a (easFunctionE inverse d J0 detJ0 v)) u a q = 0.
  Proof.
    intros Hd Ex Hs Hq. rewrite rtilde_sum. unfold additive_a, easFunctionE. fold s.
    rewrite (sumP_ext points _ (fun gp => sum s (fun m => sum s (fun k =>
      weight gp * modesE v gp k q * (T0InverseTransformed inverse d J0 detJ0 m k * sigma m))))).
    - rewrite sumP_swap. apply sum_zero. intros m Hm. rewrite sumP_swap. apply sum_zero. intros k Hk.
      rewrite sumP_mul_r, (modes_integrate d v points k q) by assumption. ring.
    - intros gp Hgp. rewrite <- sum_mul_r. apply sum_ext. intros m Hm. rewrite (Hs gp m Hgp Hm), <- !sum_mul_r. apply sum_ext. intros k Hk.
      unfold vol. field. apply regular, Hgp.
  Qed.

  Variable JInv : nat -> nat -> R.
  Let H := easFunctionH d detJ0 JInv.
  Let p := (d * d)%nat.
  Hypothesis dim : d = 2%nat \/ d = 3%nat.

  Lemma H_integrates q k l : exactOnCube d 1 points position weight -> (q < p)%nat -> (k < d)%nat -> (l < d)%nat ->
    sumP points (fun gp => H gp q k l * vol gp) = 0.
  Proof.
    intros Ex Hq Hk Hl. unfold H, easFunctionH.
    rewrite (sumP_ext points _ (fun gp => sum d (fun b => sum d (fun c => weight gp * modesH d gp q c b * (detJ0 * JInv k c * JInv l b))))).
    - rewrite sumP_swap. apply sum_zero. intros b Hb. rewrite sumP_swap. apply sum_zero. intros c Hc.
      rewrite sumP_mul_r, (modesH_integrate d points q c b dim Ex) by assumption. ring.
    - intros gp Hgp. rewrite <- sum_mul_r. apply sum_ext. intros b _. rewrite <- !sum_mul_r. apply sum_ext. intros c _.
      unfold vol. field. apply regular, Hgp.
  Qed.

  Lemma columns_sumP (X : point -> nat -> nat -> R) (Y F : nat -> nat -> R) (w : point -> R) m :
    (forall k l, (k < d)%nat -> (l < d)%nat -> sumP points (fun gp => X gp k l * w gp) = Y k l) ->
    sumP points (fun gp => voigtColumns d (X gp) F m * w gp) = voigtColumns d Y F m.
  Proof.
    intros HX.
    assert (C : forall b c, (b < d)%nat -> sumP points (fun gp => sum d (fun k => X gp k b * F k c) * w gp) = sum d (fun k => Y k b * F k c)).
    { intros b c Hb. rewrite (sumP_ext points _ (fun gp => sum d (fun k => X gp k b * w gp * F k c))).
      - rewrite sumP_swap. apply sum_ext. intros k Hk. rewrite sumP_mul_r, HX by assumption. reflexivity.
      - intros gp _. rewrite <- sum_mul_r. apply sum_ext. intros. ring. }
    assert (C2 : forall b c b' c', (b < d)%nat -> (b' < d)%nat ->
      sumP points (fun gp => (sum d (fun k => X gp k b * F k c) + sum d (fun k => X gp k b' * F k c')) * w gp) =
      sum d (fun k => Y k b * F k c) + sum d (fun k => Y k b' * F k c')).
    { intros b c b' c' Hb Hb'. rewrite <- (C b c Hb), <- (C b' c' Hb'), <- sumP_add. apply sumP_ext. intros. ring. }
    unfold voigtColumns. cbv zeta. destruct dim as [E|E]; rewrite E in *; cbn [Nat.eqb]; destruct m as [|[|[|[|[|m]]]]]; first [apply C; lia|apply C2; lia].
  Qed.

  Lemma columns_zero (F : nat -> nat -> R) m : voigtColumns d (fun _ _ => 0) F m = 0.
  Proof.
    unfold voigtColumns. cbv zeta. destruct (d =? 2)%nat; destruct m as [|[|[|[|[|m]]]]]; rewrite !sum_zero by (intros; ring); ring.
  Qed.

  (** ... and so do the modes of the displacement gradients, if the deformation and the stress are constant *)
  Theorem C110_constant_gradient dN dN0 E u a sigma F q : exactOnCube d 1 points position weight -> (q < p)%nat ->
    (forall gp m, In gp points -> (m < s)%nat -> stress (E gp u a) m = sigma m) ->
    ((forall gp k l, In gp points -> (k < d)%nat -> (l < d)%nat -> dgF d n p dN H gp u a k l = F k l) ->
       easRtilde s points stress E (dg_a d n p dN H) u a q = 0) /\
    ((forall gp k l, In gp points -> (k < d)%nat -> (l < d)%nat -> dgtF d n p dN H dN0 gp u a k l = F k l) ->
       easRtilde s points stress E (dgt_a d n p dN H dN0) u a q = 0).
  Proof.
    intros Ex Hq Hs.
    assert (FE : forall X F F' m, (forall k l, (k < d)%nat -> (l < d)%nat -> F k l = F' k l) -> voigtColumns d X F m = voigtColumns d X F' m).
    { intros X F1 F2 m HF. unfold voigtColumns. cbv zeta.
      assert (C : forall b c, (c < d)%nat -> sum d (fun k => X k b * F1 k c) = sum d (fun k => X k b * F2 k c)).
      { intros b c Hc. apply sum_ext. intros k Hk. rewrite HF by assumption. reflexivity. }
      destruct dim as [E1|E1]; rewrite E1 in *; cbn [Nat.eqb]; destruct m as [|[|[|[|[|m]]]]]; rewrite !C by lia; reflexivity. }
    assert (Main : forall X : point -> nat -> nat -> R,
      (forall k l, (k < d)%nat -> (l < d)%nat -> sumP points (fun gp => X gp k l * vol gp) = 0) ->
      sumP points (fun gp => sum s (fun m => voigtColumns d (X gp) F m * sigma m) * vol gp) = 0).
    { intros X HX. rewrite (sumP_ext points _ (fun gp => sum s (fun m => voigtColumns d (X gp) F m * vol gp * sigma m))).
      - rewrite sumP_swap. apply sum_zero. intros m _. rewrite sumP_mul_r, (columns_sumP X (fun _ _ => 0) F vol m HX), columns_zero. ring.
      - intros gp _. rewrite <- sum_mul_r. apply sum_ext. intros. ring. }
    split; intros HF; rewrite rtilde_sum.
    - rewrite (sumP_ext points _ (fun gp => sum s (fun m => voigtColumns d (H gp q) F m * sigma m) * vol gp)).
      + apply Main. intros. apply H_integrates; assumption.
      + intros gp Hgp. f_equal. apply sum_ext. intros m Hm. rewrite (Hs gp m Hgp Hm). unfold dg_a. f_equal. apply FE. intros. apply HF; assumption.
    - rewrite (sumP_ext points _ (fun gp => sum s (fun m => voigtColumns d (timesTransposed d H (centerF d n dN0 u) gp q) F m * sigma m) * vol gp)).
      + apply Main. intros k l Hk Hl. unfold timesTransposed.
        rewrite (sumP_ext points _ (fun gp => sum d (fun b => H gp q l b * vol gp * centerF d n dN0 u k b))).
        * rewrite sumP_swap. apply sum_zero. intros b Hb. rewrite sumP_mul_r, H_integrates by assumption. ring.
        * intros gp _. rewrite <- sum_mul_r. apply sum_ext. intros. ring.
      + intros gp Hgp. f_equal. apply sum_ext. intros m Hm. rewrite (Hs gp m Hgp Hm). unfold dgt_a. f_equal. apply FE. intros. apply HF; assumption.
  Qed.
End Patch.
Print Assumptions C110_constant_stress.
Print Assumptions C110_constant_gradient.

(** C110, the patch test: with vanishing internal variables and a displacement field of constant gradient, the element returns the
    forces of the element without enhancement *)
Section PatchTest.
  Variables (d n : nat) (points : list point).
  Hypothesis dim : d = 2%nat \/ d = 3%nat.
  Let N := (d * n)%nat.
  Let s := voigtLength d.
  Variables (stress : (nat -> R) -> nat -> R) (tangent : (nat -> R) -> nat -> nat -> R).
  Hypothesis ofComponents : forall e e', (forall m, (m < s)%nat -> e m = e' m) -> forall m, (m < s)%nat -> stress e m = stress e' m.
  Variable inverse : (nat -> nat -> R) -> nat -> nat -> R.
  Variables (J0 JInv : nat -> nat -> R) (detJ0 : R).
  Hypothesis regular : forall gp, In gp points -> integrationElement gp <> 0.
  Variables (dN : point -> nat -> nat -> R) (dN0 : nat -> nat -> R).
  Variables (u : nat -> R) (Gr : nat -> nat -> R).
  Hypothesis homogeneous : forall gp k l, In gp points -> (k < d)%nat -> (l < d)%nat -> displacementGradientOf d n (dN gp) u k l = Gr k l.

  Lemma gl_strain_same gp m : In gp points -> (m < s)%nat -> glStrain d n dN gp u m = strainVector d (greenLagrangeOf d Gr) m.
  Proof.
    intros Hgp Hm. unfold glStrain, strainVector.
    assert (C : (fst (component d m) < d /\ snd (component d m) < d)%nat) by (apply (component_bound d n); clear -dim; lia). destruct (component d m) as [i j]. cbn [fst snd] in C. destruct C as (Ci & Cj).
    assert (Q : greenLagrangeOf d (displacementGradientOf d n (dN gp) u) i j = greenLagrangeOf d Gr i j).
    { unfold greenLagrangeOf. rewrite !homogeneous by assumption. f_equal. f_equal. apply sum_ext. intros. rewrite !homogeneous by assumption. reflexivity. }
    rewrite Q. reflexivity.
  Qed.

  Definition sigma : nat -> R := stress (strainVector d (greenLagrangeOf d Gr)).
  Lemma stress_same gp m : In gp points -> (m < s)%nat -> stress (glStrain d n dN gp u) m = sigma m.
  Proof. intros Hgp Hm. apply ofComponents; [|assumption]. intros. apply gl_strain_same; assumption. Qed.

  Lemma rows_bop gp i m k F : (k < d)%nat -> (m < s)%nat ->
    (forall l, (l < d)%nat -> F l = identity k l + displacementGradientOf d n (dN gp) u k l) -> voigtRows d (dN gp i) F m = glBop d n dN gp u i m k.
  Proof.
    intros Hk Hm HF. unfold voigtRows, glBop, strainVector, glFirst. unfold s in Hm. destruct dim as [E|E]; rewrite E in *; cbn [Nat.eqb].
    - change (voigtLength 2) with 3%nat in Hm. destruct m as [|[|[|m]]]; [..|lia]; cbn [component Nat.eqb]; rewrite !HF by lia; field.
    - change (voigtLength 3) with 6%nat in Hm. destruct m as [|[|[|[|[|[|m]]]]]]; [..|lia]; cbn [component Nat.eqb]; rewrite !HF by lia; field.
  Qed.

  Lemma condensed_forces p E E_d E_a E_aa E_ad a f k : (k < N)%nat ->
    (forall gp m, In gp points -> (m < s)%nat -> E gp u a m = glStrain d n dN gp u m) ->
    (forall gp i m b, In gp points -> (m < s)%nat -> (b < d)%nat -> E_d gp u a i m b = glBop d n dN gp u i m b) ->
    (forall q, (q < p)%nat -> easRtilde s points stress E E_a u a q = 0) ->
    easVectorImpl d n s p points stress tangent E E_d E_a E_aa E_ad inverse u a f k =
    nonlinearVector d n s points (glStrain d n dN) (glBop d n dN) stress false u f k.
  Proof.
    intros Hk HE HB HR. unfold easVectorImpl, nonlinearVector. assert (dp : (0 < d)%nat) by lia.
    rewrite (sum_zero p); [|intros q Hq; apply sum_zero; intros r Hr; rewrite HR by assumption; ring].
    rewrite forces_sum, (vector_sum d n s points dp) by assumption. unfold pointVector. rewrite Rminus_0_r. f_equal. apply sumP_ext. intros gp Hgp. f_equal.
    apply sum_ext. intros m Hm. rewrite HB; [|assumption|assumption|apply Nat.mod_upper_bound; lia]. f_equal.
    apply ofComponents; [|assumption]. intros. apply HE; assumption.
  Qed.

  Let H := easFunctionH d detJ0 JInv.
  Let p := (d * d)%nat.

  Theorem C110_patch_test a f k : (k < N)%nat -> (forall q, a q = 0) ->
    (forall v, d = dimensionOf v -> exactOnCube d (modeDegree v) points position weight ->
       easVectorImpl d n s (sizeE v) points stress tangent (additiveValue (sizeE v) (glStrain d n dN) (easFunctionE inverse d J0 detJ0 v))
         (additive_d (glBop d n dN)) (additive_a (easFunctionE inverse d J0 detJ0 v)) zero_aa zero_ad inverse u a f k =
       nonlinearVector d n s points (glStrain d n dN) (glBop d n dN) stress false u f k) /\
    (exactOnCube d 1 points position weight ->
       easVectorImpl d n s p points stress tangent (dgValue d n p dN H) (dg_d d n p dN H) (dg_a d n p dN H) (dg_aa d H) (dg_ad d dN H) inverse u a f k =
       nonlinearVector d n s points (glStrain d n dN) (glBop d n dN) stress false u f k /\
       easVectorImpl d n s p points stress tangent (dgtValue d n p dN H dN0) (dgt_d d n p dN H dN0) (dgt_a d n p dN H dN0) (dgt_aa d n H dN0)
         (dgt_ad d n p dN H dN0) inverse u a f k =
       nonlinearVector d n s points (glStrain d n dN) (glBop d n dN) stress false u f k).
  Proof.
    intros Hk Ha.
    assert (Z : forall gp i j, Htilde p H gp a i j = 0) by (intros; apply sum_zero; intros q _; rewrite Ha; ring).
    split; [|intros Ex; split].
    - intros v Hd Ex.
      assert (HE : forall gp m, In gp points -> (m < s)%nat ->
        additiveValue (sizeE v) (glStrain d n dN) (easFunctionE inverse d J0 detJ0 v) gp u a m = glStrain d n dN gp u m).
      { intros gp m _ _. unfold additiveValue, apply. rewrite sum_zero; [ring|]. intros q _. rewrite Ha. ring. }
      apply condensed_forces; [assumption|exact HE|reflexivity|].
      intros q Hq. apply (C110_constant_stress d points stress inverse J0 detJ0 regular v _ u a sigma q Hd Ex); [|assumption].
      intros gp m Hgp Hm. transitivity (stress (glStrain d n dN gp u) m); [apply ofComponents; [|assumption]; intros; apply HE; assumption|apply stress_same; assumption].
    - assert (HE : forall gp m, In gp points -> (m < s)%nat -> dgValue d n p dN H gp u a m = glStrain d n dN gp u m).
      { intros gp m _ Hm. apply (C109_values d n p dN H dN0 gp u a m dim Hm). intros; apply Ha. }
      apply condensed_forces; [assumption|exact HE| |].
      + intros gp i m b Hgp Hm Hb. unfold dg_d. apply rows_bop; [assumption..|]. intros l Hl. unfold dgF, dgGradient. rewrite Z. ring.
      + intros q Hq. apply (C110_constant_gradient d n points stress detJ0 regular JInv dim dN dN0 _ u a sigma (fun k l => identity k l + Gr k l) q Ex Hq).
        * intros gp m Hgp Hm. transitivity (stress (glStrain d n dN gp u) m); [apply ofComponents; [|assumption]; intros; apply HE; assumption|apply stress_same; assumption].
        * intros gp i j Hgp Hi Hj. unfold dgF, dgGradient. fold H. rewrite Z, homogeneous by assumption. ring.
    - assert (HE : forall gp m, In gp points -> (m < s)%nat -> dgtValue d n p dN H dN0 gp u a m = glStrain d n dN gp u m).
      { intros gp m _ Hm. apply (C109_values d n p dN H dN0 gp u a m dim Hm). intros; apply Ha. }
      apply condensed_forces; [assumption|exact HE| |].
      + intros gp i m b Hgp Hm Hb. unfold dgt_d.
        transitivity (voigtRows d (dN gp i) (fun b0 => dgtF d n p dN H dN0 gp u a b b0) m).
        * assert (D0 : forall l, dNplus d p dN H dN0 gp a i l = dN gp i l).
          { intros l. unfold dNplus. rewrite dNtilde_is. rewrite sum_zero; [ring|]. intros. rewrite Z. ring. }
          unfold voigtRows. rewrite !D0. reflexivity.
        * apply rows_bop; [assumption..|]. intros l Hl. unfold dgtF, dgtGradient, dgtEnhanced. rewrite sum_zero; [ring|]. intros. rewrite Z. ring.
      + intros q Hq. apply (C110_constant_gradient d n points stress detJ0 regular JInv dim dN dN0 _ u a sigma (fun k l => identity k l + Gr k l) q Ex Hq).
        * intros gp m Hgp Hm. transitivity (stress (glStrain d n dN gp u) m); [apply ofComponents; [|assumption]; intros; apply HE; assumption|apply stress_same; assumption].
        * intros gp i j Hgp Hi Hj. unfold dgtF, dgtGradient, dgtEnhanced. fold H. rewrite homogeneous, (sum_zero d) by (try assumption; intros; rewrite Z; ring). ring.
  Qed.
End PatchTest.
Print Assumptions C110_patch_test.
