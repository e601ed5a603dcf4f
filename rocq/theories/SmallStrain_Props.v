(** Property C157: hyperelastic materials linearise to isotropic linear elasticity with the moduli their parameters promise. *)

From Coq Require Import Reals List ZArith Bool Lia Lra.
From Coquelicot Require Import Coquelicot.
From Verif Require Import Tensor_Model Tensor_Spec Tensor_Props SVK_Spec Conversions_Spec Conversions_Props NeoHooke_Model NeoHooke_Props
  Volumetric_Model Volumetric_Props Deviatoric_Model Deviatoric_Spec Deviatoric_Proofs Deviatoric_Props
  Hyperelastic_Model Hyperelastic_Spec Spectral_Proofs Stretches_Proofs Hyperelastic_Proofs HyperelasticIsotropy_Proofs SpectralExistence_Proofs
  MaterialFactory_Model.
Import ListNotations.
Local Open Scope R_scope.

(** ** Specification: the shear modulus and Lame's first parameter a deviatoric function has for small strains *)
Fixpoint sumOver {A} (f : A -> R) (l : list A) : R := match l with [] => 0 | x :: r => f x + sumOver f r end.

Definition shearModulus (f : deviatoricFunction) : R :=
  match f with
  | NoDev => 0
  | BlatzKo mu => mu
  | OgdenTotal terms | OgdenDeviatoric terms => sumOver (fun t => fst t * snd t) terms / 2
  | InvariantBased terms => 2 * sumOver (fun t => if Nat.eqb (snd (fst t) + snd t) 1 then fst (fst t) else 0) terms
  | Gent mu _ => mu
  | ArrudaBoyce mu lambdaM =>
      mu * (1 + 3 / (5 * lambdaM ^ 2) + 99 / (175 * lambdaM ^ 4) + 513 / (875 * lambdaM ^ 6) + 42039 / (67375 * lambdaM ^ 8))
  end.

Definition firstLame (f : deviatoricFunction) : R :=
  match f with
  | NoDev => 0
  | BlatzKo mu => mu
  | OgdenTotal _ => 0
  | _ => - (2 / 3) * shearModulus f
  end.

(** ** The stretches of the undeformed state *)
Definition ones (l : stretches) : Prop := forall i, (i < 3)%nat -> l i = 1.

Lemma pow_1 a : Rpower 1 a = 1.
Proof. unfold Rpower. rewrite ln_1, Rmult_0_r. apply exp_0. Qed.

Section Ones.
Variable l : stretches.
Hypothesis O1 : ones l.

Lemma ones_prod : prod3 l = 1.
Proof. unfold prod3. rewrite !O1 by lia. ring. Qed.

Lemma ones_I3 : I3 l = 1.
Proof. unfold I3, prod3. rewrite !O1 by lia. ring. Qed.

Lemma ones_positive : positiveStretches l.
Proof. unfold positiveStretches. rewrite !O1 by lia. lra. Qed.

Lemma ones_bar i : (i < 3)%nat -> deviatoricStretches l i = 1.
Proof. intros H. unfold deviatoricStretches. rewrite ones_prod, pow_1, O1 by assumption. ring. Qed.

Lemma ones_W : W1 l = 3 /\ W2 l = 3.
Proof. unfold W1, W2. rewrite ones_I3, !pow_1. unfold I1, I2, sum3. rewrite !O1 by lia. split; field. Qed.

Lemma ones_dW k : (k < 3)%nat -> dW1 l k = 0 /\ dW2 l k = 0.
Proof. intros H. unfold dW1, dW2. rewrite ones_I3, !pow_1, (O1 k H). unfold I1, I2, sum3. rewrite !O1 by lia. split; field. Qed.

Lemma ones_ddW i j : (i < 3)%nat -> (j < 3)%nat ->
  ddW1 l i j = (if Nat.eqb i j then 8 / 3 else - 4 / 3) /\ ddW2 l i j = (if Nat.eqb i j then 8 / 3 else - 4 / 3).
Proof.
  intros Hi Hj. unfold ddW1, ddW2. rewrite ones_I3, !pow_1, (O1 i Hi), (O1 j Hj). unfold I1, I2, sum3. rewrite !O1 by lia.
  destruct (i =? j)%nat; split; field.
Qed.

Lemma ones_checkJm Jm : 0 < Jm -> checkJm Jm (W1 l) = false.
Proof.
  intros J. destruct ones_W as [-> _]. unfold checkJm, floatLe, rltb, floatEq, rleb. destruct Rlt_dec; [lra|]. cbn [orb].
  destruct Rle_dec as [H|]; [exfalso|reflexivity]. replace (3 - 3) with 0 in H by ring.
  rewrite Rminus_0_r, Rabs_R0, (Rabs_pos_eq Jm), Rmax_left in H by lra.
  assert (1 / 10 ^ 14 * Jm < 1 * Jm) by (apply Rmult_lt_compat_r; [assumption|lra]). lra.
Qed.
End Ones.

Lemma total_sum {A} (f : A -> R) l : total f l = sumOver f l.
Proof. induction l as [|x r IH]; [apply total_nil|]. now rewrite total_cons, IH. Qed.

(** Twice the shear modulus and Lame's parameter are the differences and the off-diagonal values of the second derivative *)
Lemma second_ones f l : ones l -> constructed f -> fewTerms f ->
  exists s dS, devStresses f l = Value s /\ secondImpl f l = Value dS /\ forall i j, (i < 3)%nat -> (j < 3)%nat ->
    dS i j = firstLame f + (if Nat.eqb i j then 2 * shearModulus f else 0).
Proof.
  intros O1 K F. destruct (ones_W l O1) as [E1 E2]. unfold devStresses.
  destruct f as [|mu|terms|terms|terms|mu Jm|mu lambdaM]; cbn [firstImpl secondImpl firstLame shearModulus].
  - do 2 eexists. split; [reflexivity|]. split; [reflexivity|]. intros i j _ _. destruct (i =? j)%nat; ring.
  - do 2 eexists. split; [reflexivity|]. split; [reflexivity|]. intros i j Hi Hj. unfold blatzKoSecond.
    rewrite (ones_prod l O1), (O1 i Hi), (O1 j Hj). destruct (i =? j)%nat; field.
  - do 2 eexists. split; [reflexivity|]. split; [reflexivity|]. intros i j Hi Hj. unfold ogdenTotalSecond.
    destruct (i =? j)%nat; [|ring]. rewrite (O1 i Hi).
    rewrite (total_ext _ (fun t => fst t * snd t)); [rewrite total_sum; field|].
    intros [mu alpha] _. cbn [fst snd]. rewrite pow_1. field.
  - cbn in F. destruct (ogdenSecond_value terms l F) as (dS & E & D). do 2 eexists. split; [reflexivity|]. split; [exact E|].
    intros i j Hi Hj. rewrite D.
    assert (Z : ogdenFirst terms l i = 0); [|rewrite Z].
    { rewrite ogdenFirst_total by (auto using ones_positive). apply total_zero. intros [mu alpha] _. unfold barSum, sum3. rewrite !ones_bar by (auto || lia). rewrite pow_1, (O1 i Hi). field. }
    rewrite (total_ext _ (fun t => (if Nat.eqb i j then 2 / 3 else - (1 / 3)) * (fst t * snd t))).
    2:{ intros [mu alpha] _. cbn [fst snd]. unfold barSum, sum3. rewrite !ones_bar by (auto || lia). rewrite pow_1.
        destruct (i =? j)%nat; field. }
    rewrite total_scale, total_sum, (O1 i Hi), (O1 j Hj). unfold kronecker. destruct (i =? j)%nat; field.
  - do 2 eexists. split; [reflexivity|]. split; [reflexivity|]. intros i j Hi Hj. unfold invariantSecond. cbv zeta.
    destruct (ones_dW l O1 i Hi) as [D1 D2]. destruct (ones_dW l O1 j Hj) as [D3 D4]. destruct (ones_ddW l O1 i j Hi Hj) as [D5 D6].
    rewrite E1, E2. replace (3 - 3) with 0 by ring.
    rewrite (total_ext _ (fun t => (if Nat.eqb i j then 8 / 3 else - 4 / 3) * (if Nat.eqb (snd (fst t) + snd t) 1 then fst (fst t) else 0))).
    + rewrite total_scale, total_sum. destruct (i =? j)%nat; field.
    + intros [[mu p] q] H. cbn [fst snd]. cbn in K. unfold checkExponents in K. rewrite forallb_forall in K. specialize (K _ H). cbn in K.
      rewrite D1, D2, D3, D4, D5, D6. rewrite !Rmult_0_r, !Rmult_0_l, !Rplus_0_r, !Rmult_0_r, ?Rplus_0_r, ?Rplus_0_l, ?Rminus_0_r.
      assert (PZ : forall k, (0 < k)%nat -> powerRZ 0 (Z.of_nat k) = 0).
      { intros k Hk. rewrite <- pow_powerRZ. apply pow_ne_zero. lia. }
      assert (PM : forall k, powerAndMultiply 0 (Z.of_nat k - 1) (Z.of_nat k) = if Nat.eqb k 1 then 1 else 0).
      { intros [|[|k]]; [reflexivity|reflexivity|]. unfold powerAndMultiply. rewrite !(proj2 (Z.eqb_neq _ _)) by lia.
        replace (Z.of_nat (S (S k)) - 1)%Z with (Z.of_nat (S k)) by lia. rewrite PZ by lia. cbn [Nat.eqb]. ring. }
      rewrite !PM.
      destruct p as [|[|p]], q as [|[|q]]; cbn [Nat.eqb Nat.add pow negb andb] in *; try discriminate; destruct (i =? j)%nat; try rewrite Nat.add_comm; cbn [Nat.eqb Nat.add]; field.
  - cbn in K. rewrite (ones_checkJm l O1 Jm K). do 2 eexists. split; [reflexivity|]. split; [reflexivity|]. intros i j Hi Hj.
    unfold gentSecond. rewrite E1. destruct (ones_dW l O1 i Hi) as [D1 _]. destruct (ones_dW l O1 j Hj) as [D3 _].
    destruct (ones_ddW l O1 i j Hi Hj) as [D5 _]. rewrite D1, D3, D5. replace (1 - (3 - 3) / Jm) with 1 by (field; lra).
    rewrite (O1 i Hi). destruct (i =? j)%nat; field; lra.
  - do 2 eexists. split; [reflexivity|]. split; [reflexivity|]. intros i j Hi Hj.
    unfold arrudaSecond. destruct (ones_dW l O1 i Hi) as [D1 _]. destruct (ones_dW l O1 j Hj) as [D3 _].
    destruct (ones_ddW l O1 i j Hi Hj) as [D5 _]. unfold total, arrudaTerms. cbn [fold_left Z.of_nat Z.sub]. rewrite D1, D3, D5, E1.
    assert (P : forall k, (1 / lambdaM ^ 2) ^ k = (/ lambdaM ^ 2) ^ k) by (intros; f_equal; unfold Rdiv; ring).
    rewrite !P. replace (lambdaM ^ 4) with ((lambdaM ^ 2) ^ 2) by ring. replace (lambdaM ^ 6) with ((lambdaM ^ 2) ^ 3) by ring.
    replace (lambdaM ^ 8) with ((lambdaM ^ 2) ^ 4) by ring. unfold Rdiv. rewrite !Rinv_mult.
    rewrite <- !pow_inv. set (b := / lambdaM). clearbody b. rewrite (O1 i Hi). cbn [Nat.add INR].
    destruct (i =? j)%nat; field.
Qed.

(** ** The transformation to the frame of the material *)
Lemma moduli_isotropic N L la G : orthogonalMatrix N ->
  (forall i k, (i < 3)%nat -> (k < 3)%nat -> L i i k k = la + (if Nat.eqb i k then 2 * G else 0)) ->
  (forall i k, (i < 3)%nat -> (k < 3)%nat -> i <> k -> L i k i k = G) ->
  forall p q r s, (p < 3)%nat -> (q < 3)%nat -> (r < 3)%nat -> (s < 3)%nat ->
  transformDeviatoricTangentModuli L N p q r s =
    la * identity p q * identity r s + G * (identity p r * identity q s + identity p s * identity q r).
Proof.
  intros [_ O] Ln Ls p q r s Hp Hq Hr Hs.
  rewrite <- (O p q), <- (O r s), <- (O p r), <- (O q s), <- (O p s), <- (O q r) by assumption.
  unfold transformDeviatoricTangentModuli, loop3, mul, transpose. cbn [Tensor_Spec.sum Nat.eqb].
  rewrite !Ln, !Ls by lia. cbn [Nat.eqb]. ring.
Qed.

Lemma identity_symmetric : symmetric 3 identity.
Proof. intros i j _ _. unfold identity. now rewrite Nat.eqb_sym. Qed.

Lemma identity_stretches eig : solvesSymmetric eig -> exists l N, principalStretches eig identity = Returns (l, N) /\ ones l /\ orthogonalMatrix N.
Proof.
  intros He. destruct (He identity identity_symmetric) as (e & N & E & D). unfold principalStretches. rewrite E.
  do 2 eexists. split; [reflexivity|]. split; [|apply D]. intros i Hi.
  assert (I : decomposition identity (fun _ => 1) identity).
  { split; [lra|]. split; [split|]; intros a b Ha Hb; unfold mul, transpose, Tensor_Spec.sum;
      do 3 (destruct a as [|a]; [do 3 (destruct b as [|b]; [unfold identity; cbn; ring|]); lia|]); lia. }
  unfold vector3. rewrite (proj2 (Nat.ltb_lt i 3) Hi), (same_values _ _ _ _ _ D I i Hi). apply sqrt_1.
Qed.

(** ** C157: the moduli at the undeformed state are those of isotropic linear elasticity *)
Theorem C157_moduli eig m : solvesSymmetric eig -> constructed (dev m) -> fewTerms (dev m) -> admissible (vol m) -> vol m <> VF12 ->
  exists L, tangentModuli eig m identity = Returns L /\
    forall E, symmetric 3 E -> eq3 (apply4 3 L E) (isotropicStress (firstLame (dev m) + volSecond (bulk m) (vol m) 1) (shearModulus (dev m)) E).
Proof.
  intros He K F A V. destruct (identity_stretches eig He) as (l & N & PS & O1 & ON).
  destruct (second_ones (dev m) l O1 K F) as (s & dS & Es & Ed & D).
  assert (U : volFirst (bulk m) (vol m) 1 = 0).
  { unfold volFirst. assert (C := proj2 (C50_reference_partial (vol m) A)). destruct (vol m); try (rewrite C; ring). now contradict V. }
  unfold tangentModuli. rewrite PS. cbn [bind]. unfold detF. rewrite (ones_prod l O1). destruct (Rle_dec 1 0); [lra|]. cbn [bind].
  unfold devTangent. rewrite Es, Ed. cbn [ofOutcome bind]. eexists. split; [reflexivity|].
  intros E SE p q Hp Hq. unfold apply4.
  assert (Dt : det3 identity = 1) by (unfold det3, identity; cbn; ring).
  assert (I : forall i j, (i < 3)%nat -> (j < 3)%nat -> inv3 identity i j = identity i j).
  { intros i j Hi Hj. unfold inv3. rewrite Dt. do 3 (destruct i as [|i]; [do 3 (destruct j as [|j]; [unfold identity; cbn; field|]); lia|]); lia. }
  assert (T : forall r t, (r < 3)%nat -> (t < 3)%nat ->
    transformVolumetricTangentModuli (volFirst (bulk m) (vol m) 1) (volSecond (bulk m) (vol m) 1) identity 1 p q r t
    = volSecond (bulk m) (vol m) 1 * (identity p q * identity r t)).
  { intros r t Hr Ht. unfold transformVolumetricTangentModuli, dyadic. rewrite U, !I by assumption. ring. }
  match goal with |- context [transformDeviatoricTangentModuli ?L N] => set (Ld := L) end.
  assert (M : forall r t, (r < 3)%nat -> (t < 3)%nat -> transformDeviatoricTangentModuli Ld N p q r t
    = firstLame (dev m) * identity p q * identity r t + shearModulus (dev m) * (identity p r * identity q t + identity p t * identity q r)).
  { intros r t Hr Ht. apply moduli_isotropic; try assumption.
    - intros i k Hi Hk. unfold Ld. rewrite !Nat.eqb_refl. cbn [andb]. rewrite (O1 i Hi), (O1 k Hk), D by assumption. field.
    - intros i k Hi Hk Ne. unfold Ld. rewrite !Nat.eqb_refl, (proj2 (Nat.eqb_neq i k) Ne). cbn [andb].
      rewrite (O1 i Hi), (O1 k Hk). assert (FE : floatEq (1 / 10 ^ 8) 1 1 = true).
      { unfold floatEq, rleb. destruct Rle_dec as [|nle]; [reflexivity|]. exfalso. apply nle. replace (1 - 1) with 0 by ring.
        rewrite Rabs_R0, Rmax_left, Rabs_R1 by lra. lra. }
      rewrite FE, !D, Nat.eqb_refl, (proj2 (Nat.eqb_neq i k) Ne) by assumption. field. }
  clearbody Ld. unfold isotropicStress, tr. cbn [Tensor_Spec.sum]. rewrite !M, !T by lia.
  rewrite (SE 1%nat 0%nat), (SE 2%nat 0%nat), (SE 2%nat 1%nat) by lia.
  do 3 (destruct p as [|p]; [do 3 (destruct q as [|q];
    [rewrite ?(SE 1%nat 0%nat), ?(SE 2%nat 0%nat), ?(SE 2%nat 1%nat) by lia; unfold identity; cbn [Nat.eqb]; ring|]); lia|]); lia.
Qed.
Print Assumptions C157_moduli.

(** The parameter K: the bulk modulus when the rest of the energy sees deviatoric stretches only, Lame's first parameter for Ogden's
    function of the total stretches; VF0 switches the volumetric part off and VF7 scales it by beta^2 *)
Definition volumetricModulus (kappa : R) (f : volumetricFunction) : R :=
  match f with VF0 => 0 | VF7 beta => kappa * beta ^ 2 | _ => kappa end.

(** The material behaves for small strains like linear elasticity with Lame's parameter la and the shear modulus mu *)
Definition linearises eig (m : hyperelastic) (la mu : R) : Prop :=
  exists L, tangentModuli eig m identity = Returns L /\ forall E, symmetric 3 E -> eq3 (apply4 3 L E) (isotropicStress la mu E).

Lemma linearises_intro eig m la mu : solvesSymmetric eig -> constructed (dev m) -> fewTerms (dev m) -> admissible (vol m) -> vol m <> VF12 ->
  la = firstLame (dev m) + volumetricModulus (bulk m) (vol m) -> mu = shearModulus (dev m) -> linearises eig m la mu.
Proof.
  intros He K F A V -> ->. destruct (C157_moduli eig m He K F A V) as (L & E & P). exists L. split; [exact E|].
  rewrite (C74_modulus (bulk m) (vol m) A) in P. destruct (vol m); try exact P. now contradict V.
Qed.

Theorem C157_factories eig K vf : solvesSymmetric eig -> admissible vf -> vf <> VF12 ->
  let kv := volumetricModulus K vf in
  (forall mu, linearises eig (makeBlatzKo mu) mu mu) /\
  (forall mu alpha, linearises eig (makeOgden total_ mu alpha K vf) kv (sumOver (fun t => fst t * snd t) (combine mu alpha) / 2)) /\
  (forall mu alpha, (length mu <= 3)%nat -> let G := sumOver (fun t => fst t * snd t) (combine mu alpha) / 2 in
     linearises eig (makeOgden deviatoric_ mu alpha K vf) (kv - 2 / 3 * G) G) /\
  (forall mu0 mu1, exists m, makeMooneyRivlin mu0 mu1 K vf = Some m /\ linearises eig m (kv - 2 / 3 * (2 * (mu0 + mu1))) (2 * (mu0 + mu1))) /\
  (forall mu0 mu1 mu2, exists m, makeYeoh mu0 mu1 mu2 K vf = Some m /\ linearises eig m (kv - 2 / 3 * (2 * mu0)) (2 * mu0)) /\
  (forall mu Jm, 0 < Jm -> linearises eig (makeGent mu Jm K vf) (kv - 2 / 3 * mu) mu) /\
  linearises eig (makePureVolumetric vf K) kv 0.
Proof.
  intros He A V kv. repeat split; intros.
  - apply linearises_intro; cbn; auto; [discriminate|ring].
  - apply linearises_intro; cbn; auto. unfold kv. ring.
  - apply linearises_intro; cbn; auto; [rewrite combine_length; lia|]. unfold kv, G. ring.
  - eexists. split; [reflexivity|]. apply linearises_intro; cbn; auto; [unfold kv|]; ring.
  - eexists. split; [reflexivity|]. apply linearises_intro; cbn; auto; [unfold kv|]; ring.
  - apply linearises_intro; cbn; auto. unfold kv. ring.
  - apply linearises_intro; cbn; auto. unfold kv. ring.
Qed.
Print Assumptions C157_factories.

(** The exponents are checked by the factory; a term without exponents is refused *)
Theorem C157_exponents mu pex qex K vf : length pex = length mu -> length qex = length mu ->
  (makeInvariantBased mu pex qex K vf = None <-> exists i, (i < length mu)%nat /\ nth i pex 0%nat = 0%nat /\ nth i qex 0%nat = 0%nat).
Proof.
  intros Lp Lq. unfold makeInvariantBased.
  assert (C : checkExponents (map (fun t => (fst (fst t), snd (fst t), snd t)) (combine (combine mu pex) qex)) = false <->
    exists i, (i < length mu)%nat /\ nth i pex 0%nat = 0%nat /\ nth i qex 0%nat = 0%nat).
  { revert pex qex Lp Lq. induction mu as [|a mu IH]; intros [|p pex] [|q qex]; cbn [length]; intros Lp Lq; try discriminate.
    - split; [discriminate|]. intros (i & H & _). lia.
    - cbn [combine map checkExponents forallb fst snd]. rewrite andb_false_iff. unfold checkExponents in IH.
      rewrite IH by lia. split.
      + intros [H|(i & H & H1 & H2)]; [exists 0%nat|exists (S i); cbn; repeat split; auto; lia].
        apply negb_false_iff, andb_true_iff in H. destruct H as [H1 H2]. apply Nat.eqb_eq in H1, H2. cbn. repeat split; auto; lia.
      + intros ([|i] & H & H1 & H2); cbn in H1, H2; [left; now rewrite H1, H2|]. right. exists i. repeat split; auto; lia. }
  destruct checkExponents.
  - split; [discriminate|]. intros H. now apply C in H.
  - split; [|reflexivity]. intros _. now apply C.
Qed.
Print Assumptions C157_exponents.

(** The parameter mu of Arruda-Boyce, documented as the shear modulus, is smaller than the shear modulus *)
Theorem C157_arruda_refuted eig K vf mu lambdaM : solvesSymmetric eig -> admissible vf -> vf <> VF12 -> 0 < mu -> 0 < lambdaM ->
  exists G, linearises eig (makeArrudaBoyce mu lambdaM K vf) (volumetricModulus K vf - 2 / 3 * G) G /\
    mu * (1 + 3 / (5 * lambdaM ^ 2)) < G /\ ~ linearises eig (makeArrudaBoyce mu lambdaM K vf) (volumetricModulus K vf - 2 / 3 * mu) mu.
Proof.
  intros He A V Pm Pl. exists (shearModulus (ArrudaBoyce mu lambdaM)).
  assert (L : linearises eig (makeArrudaBoyce mu lambdaM K vf) (volumetricModulus K vf - 2 / 3 * shearModulus (ArrudaBoyce mu lambdaM))
    (shearModulus (ArrudaBoyce mu lambdaM))) by (apply linearises_intro; auto; cbn; auto; ring).
  assert (P : forall n, 0 < lambdaM ^ n) by (intros n; now apply pow_lt).
  assert (Q : forall c d n, 0 < c -> 0 < d -> 0 < c / (d * lambdaM ^ n)).
  { intros c d n Hc Hd. apply Rdiv_lt_0_compat; [assumption|]. now apply Rmult_lt_0_compat. }
  assert (B : mu * (1 + 3 / (5 * lambdaM ^ 2)) < shearModulus (ArrudaBoyce mu lambdaM)).
  { cbn [shearModulus]. apply Rmult_lt_compat_l; [assumption|].
    assert (H4 := Q 99 175 4%nat ltac:(lra) ltac:(lra)). assert (H6 := Q 513 875 6%nat ltac:(lra) ltac:(lra)).
    assert (H8 := Q 42039 67375 8%nat ltac:(lra) ltac:(lra)). lra. }
  split; [exact L|]. split; [exact B|]. intros L'. destruct L as (T & E & H). destruct L' as (T' & E' & H').
  rewrite E in E'. injection E' as <-.
  set (X := fun i j : nat => if (i + j =? 1)%nat then 1 else 0 : R).
  assert (SX : symmetric 3 X) by (intros i j _ _; unfold X; now rewrite Nat.add_comm).
  assert (C := H X SX 0%nat 1%nat ltac:(lia) ltac:(lia)). rewrite (H' X SX 0%nat 1%nat) in C by lia.
  assert (Z : identity 0 1 = 0) by reflexivity. unfold isotropicStress in C. rewrite Z in C. replace (X 0%nat 1%nat) with 1 in C by reflexivity.
  assert (H2 := Q 3 5 2%nat ltac:(lra) ltac:(lra)). assert (0 < mu * (3 / (5 * lambdaM ^ 2))) by (now apply Rmult_lt_0_compat). lra.
Qed.
Print Assumptions C157_arruda_refuted.

(** ** The eight chain model: polynomials with rational coefficients, lowest degree first, cut off after degree eleven *)
From Coq Require Import QArith Qreals.
Local Open Scope Q_scope.
Definition padd (a b : list Q) : list Q := map (fun i => Qred (nth i a 0 + nth i b 0)) (seq 0 12).
Definition pscale (c : Q) (a : list Q) : list Q := map (Qmult c) a.
Definition pmul (a b : list Q) : list Q :=
  map (fun n => fold_right (fun x s => Qred (x + s)) 0 (map (fun i => nth i a 0 * nth (n - i) b 0) (seq 0 (S n)))) (seq 0 12).
Fixpoint ppow (a : list Q) (n : nat) : list Q := match n with 0%nat => [1] | S n => pmul a (ppow a n) end.
Fixpoint qfact (n : nat) : Q := match n with 0%nat => 1 | S n => inject_Z (Z.of_nat (S n)) * qfact n end.
Definition pseries (a : list Q) (exponents : list nat) : list Q :=
  fold_right (fun n s => padd (pscale (/ qfact n) (ppow a n)) s) [] exponents.
Definition psinh (a : list Q) := pseries a [1; 3; 5; 7; 9; 11]%nat.
Definition pcosh (a : list Q) := pseries a [0; 2; 4; 6; 8; 10]%nat.

(** a(x) with coth a - 1 / a = x, that is a cosh a - sinh a = x a sinh a, up to the degree eleven *)
Definition inverseLangevin (a : list Q) : Prop :=
  length a = 12%nat /\ nth 1 a 0 == 3 /\
  forall n, (n < 12)%nat -> nth n (pmul a (pcosh a)) 0 == nth n (padd (psinh a) (pmul [0; 1] (pmul a (psinh a)))) 0.

Definition oddSeries (b : list Q) : list Q := flat_map (fun c => [0; c]) b ++ [0; 0].
Local Open Scope R_scope.

Definition deviatoricFirstInvariant (l : nat -> R) : R :=
  (l 0%nat ^ 2 + l 1%nat ^ 2 + l 2%nat ^ 2) / Rpower (l 0%nat * l 1%nat * l 2%nat) (2 / 3).

Fixpoint evenSeries (b : list Q) (y : R) : R := match b with [] => 0 | c :: r => Q2R c + y * evenSeries r y end.

(** The energy is a function psi of the first invariant of the deviatoric stretches, and psi'(w) = mu / 6 * a(x) / x at x = sqrt(w / 3) / lambdaM,
    where a is the inverse of the Langevin function up to the fifth term *)
Theorem C157_arruda mu lambdaM : lambdaM <> 0 ->
  exists psi b,
    length b = 5%nat /\ inverseLangevin (oddSeries b) /\
    (forall l, positiveStretches l -> devEnergy (ArrudaBoyce mu lambdaM) l = Value (psi (deviatoricFirstInvariant l))) /\
    psi 3 = 0 /\ forall w, is_derive psi w (mu / 6 * evenSeries b (w / (3 * lambdaM ^ 2))).
Proof.
  intros N. exists (fun w => mu * total (fun '(i, alpha) => alpha * (1 / lambdaM ^ 2) ^ i * (w ^ (i + 1) - 3 ^ (i + 1))) arrudaTerms).
  exists [3#1; 9#5; 297#175; 1539#875; 126117#67375]%Q. split; [reflexivity|]. split; [split; [reflexivity|]; split; [reflexivity|]|split; [|split]].
  - intros n Hn. do 12 (destruct n as [|n]; [vm_compute; reflexivity|]). lia.
  - intros l P. unfold devEnergy, energyImpl, arrudaEnergy. f_equal. rewrite Rmult_comm. f_equal. apply total_ext. intros [i alpha] _.
    do 3 f_equal. unfold W1, deviatoricFirstInvariant, I1, sum3, Rdiv. f_equal.
    assert (J := prod3_pos l P). unfold prod3 in J.
    replace (I3 l) with ((l 0%nat * l 1%nat * l 2%nat) ^ 2) by (unfold I3, prod3; ring).
    rewrite <- (Rpower_pow 2) by assumption. rewrite Rpower_mult, <- Rpower_Ropp. f_equal. cbn [INR]. field.
  - rewrite total_zero; [ring|]. intros [i alpha] _. ring.
  - intros w. unfold total, arrudaTerms. cbn [fold_left Nat.add evenSeries]. unfold Q2R. cbn [Qnum Qden].
    auto_derive; [exact I|]. cbn [pow Nat.pred INR]. field. assumption.
Qed.
Print Assumptions C157_arruda.

(** ** The energies of the materials that the factories make: functions of the stretches, or of the invariants of the deviatoric stretches *)
Definition deviatoricSecondInvariant (l : nat -> R) : R :=
  ((l 0%nat * l 1%nat) ^ 2 + (l 1%nat * l 2%nat) ^ 2 + (l 2%nat * l 0%nat) ^ 2) / Rpower (l 0%nat * l 1%nat * l 2%nat) (4 / 3).

Definition hasEnergy (m : hyperelastic) (K : R) (vf : volumetricFunction) (w : (nat -> R) -> R) : Prop :=
  bulk m = K /\ vol m = vf /\ forall l, positiveStretches l -> devEnergy (dev m) l = Value (w l).

Lemma W1_is l : positiveStretches l -> W1 l = deviatoricFirstInvariant l.
Proof.
  intros P. unfold W1, deviatoricFirstInvariant, I1, sum3, Rdiv. f_equal. assert (J := prod3_pos l P). unfold prod3 in J.
  replace (I3 l) with ((l 0%nat * l 1%nat * l 2%nat) ^ 2) by (unfold I3, prod3; ring).
  rewrite <- (Rpower_pow 2) by assumption. rewrite Rpower_mult, <- Rpower_Ropp. f_equal. cbn [INR]. field.
Qed.
Lemma W2_is l : positiveStretches l -> W2 l = deviatoricSecondInvariant l.
Proof.
  intros P. unfold W2, deviatoricSecondInvariant, Rdiv. f_equal; [unfold I2; ring|]. assert (J := prod3_pos l P). unfold prod3 in J.
  replace (I3 l) with ((l 0%nat * l 1%nat * l 2%nat) ^ 2) by (unfold I3, prod3; ring).
  rewrite <- (Rpower_pow 2) by assumption. rewrite Rpower_mult, <- Rpower_Ropp. f_equal. cbn [INR]. field.
Qed.
Lemma sumOver_ext {A} (f g : A -> R) l : (forall x, f x = g x) -> sumOver f l = sumOver g l.
Proof. intros E. induction l as [|a l IH]; cbn; [reflexivity|]. now rewrite E, IH. Qed.

Theorem C157_energies K vf :
  (forall mu, hasEnergy (makeBlatzKo mu) 0 VF0 (fun l => mu / 2 *
     (1 / l 0%nat ^ 2 + 1 / l 1%nat ^ 2 + 1 / l 2%nat ^ 2 + 2 * (l 0%nat * l 1%nat * l 2%nat) - 5))) /\
  (forall mu alpha, hasEnergy (makeOgden total_ mu alpha K vf) K vf (fun l => sumOver (fun t => fst t / snd t *
     (Rpower (l 0%nat) (snd t) + Rpower (l 1%nat) (snd t) + Rpower (l 2%nat) (snd t) - 3) - fst t * ln (l 0%nat * l 1%nat * l 2%nat)) (combine mu alpha))) /\
  (forall mu alpha, hasEnergy (makeOgden deviatoric_ mu alpha K vf) K vf (fun l => let r := Rpower (l 0%nat * l 1%nat * l 2%nat) (1 / 3) in
     sumOver (fun t => fst t / snd t *
       (Rpower (l 0%nat / r) (snd t) + Rpower (l 1%nat / r) (snd t) + Rpower (l 2%nat / r) (snd t) - 3)) (combine mu alpha))) /\
  (forall mu pex qex m, makeInvariantBased mu pex qex K vf = Some m -> hasEnergy m K vf (fun l => sumOver (fun t => fst (fst t) *
     (deviatoricFirstInvariant l - 3) ^ snd (fst t) * (deviatoricSecondInvariant l - 3) ^ snd t) (combine (combine mu pex) qex))) /\
  (forall mu0 mu1 m, makeMooneyRivlin mu0 mu1 K vf = Some m -> hasEnergy m K vf (fun l =>
     mu0 * (deviatoricFirstInvariant l - 3) + mu1 * (deviatoricSecondInvariant l - 3))) /\
  (forall mu0 mu1 mu2 m, makeYeoh mu0 mu1 mu2 K vf = Some m -> hasEnergy m K vf (fun l => let w := deviatoricFirstInvariant l - 3 in
     mu0 * w + mu1 * w ^ 2 + mu2 * w ^ 3)) /\
  hasEnergy (makePureVolumetric vf K) K vf (fun _ => 0).
Proof.
  assert (IB : forall mu pex qex m, makeInvariantBased mu pex qex K vf = Some m -> hasEnergy m K vf (fun l => sumOver (fun t => fst (fst t) *
     (deviatoricFirstInvariant l - 3) ^ snd (fst t) * (deviatoricSecondInvariant l - 3) ^ snd t) (combine (combine mu pex) qex))).
  { intros mu pex qex m H. unfold makeInvariantBased in H. destruct (checkExponents _); [|discriminate]. injection H as <-.
    repeat split. cbn [dev]. intros l P. unfold devEnergy, energyImpl, invariantEnergy. f_equal. rewrite total_sum, W1_is, W2_is by assumption.
    induction (combine (combine mu pex) qex) as [|[[a b] c] r IH]; cbn; [reflexivity|]. now rewrite IH. }
  split; [|split; [|split; [|split; [exact IB|split; [|split]]]]].
  - intros mu. repeat split. intros l P. cbn. unfold blatzKoEnergy, sum3, prod3. f_equal. f_equal. destruct P as (? & ? & ?). field. lra.
  - intros mu alpha. repeat split. intros l P. cbn. unfold ogdenTotalEnergy. f_equal. rewrite total_sum. apply sumOver_ext. now intros [a b].
  - intros mu alpha. repeat split. intros l P. cbn. unfold ogdenEnergy. f_equal. rewrite total_sum. apply sumOver_ext. intros [a b].
    cbn [fst snd]. unfold sum3, deviatoricStretches, prod3.
    replace (Rpower (l 0%nat * l 1%nat * l 2%nat) (-1 / 3)) with (/ Rpower (l 0%nat * l 1%nat * l 2%nat) (1 / 3)) by (rewrite <- Rpower_Ropp; f_equal; field).
    unfold Rdiv. now rewrite !(Rmult_comm (/ Rpower _ _)).
  - intros mu0 mu1 m H. destruct (IB _ _ _ _ H) as (B & V & E). repeat split; auto. intros l P. rewrite (E l P). cbn. f_equal. ring.
  - intros mu0 mu1 mu2 m H. destruct (IB _ _ _ _ H) as (B & V & E). repeat split; auto. intros l P. rewrite (E l P). cbn. f_equal. ring.
  - repeat split.
Qed.
Print Assumptions C157_energies.

(** Gent's material is defined while the first invariant stays below its limit *)
Theorem C157_gent K vf mu Jm l : 0 < Jm -> positiveStretches l -> let w := deviatoricFirstInvariant l - 3 in
  (w <= Jm * (1 - 1 / 10 ^ 13) -> devEnergy (dev (makeGent mu Jm K vf)) l = Value (- mu / 2 * Jm * ln (1 - w / Jm))) /\
  (Jm <= w -> devEnergy (dev (makeGent mu Jm K vf)) l = Throws).
Proof.
  intros PJ P w. cbn. rewrite W1_is by assumption. fold w. unfold checkJm, floatLe, floatEq, rltb, rleb. fold w. split.
  - intros H. destruct (Rlt_dec Jm w) as [L|L]; [exfalso; lra|]. cbn [orb].
    destruct (Rle_dec (Rabs (_ - _)) _) as [A|A]; [exfalso|]; [|cbv iota; apply f_equal; unfold gentEnergy; rewrite W1_is by assumption; fold w; field; lra].
    rewrite (Rabs_pos_eq Jm) in A by lra.
    assert (D : Jm * / 10 ^ 13 <= Jm - w) by (cbn in *; lra).
    rewrite Rabs_pos_eq in A by (cbn in *; lra).
    destruct (Rle_lt_dec (- Jm) w) as [W|W].
    + assert (M : Rmax Jm (Rabs w) <= Jm) by (apply Rmax_lub; [lra|]; apply Rabs_le; cbn in *; lra).
      cbn in *; lra.
    + assert (M : Rmax Jm (Rabs w) <= - w) by (apply Rmax_lub; [lra|]; rewrite Rabs_left by lra; lra).
      cbn in *; lra.
  - intros H. destruct (Rlt_dec Jm w) as [L|L]; cbn [orb]; [reflexivity|]. replace w with Jm by lra.
    destruct (Rle_dec (Rabs (_ - _)) _) as [A|A]; [reflexivity|exfalso]. apply A. rewrite Rminus_diag_eq, Rabs_R0 by reflexivity.
    apply Rmult_le_pos; [cbn; lra|]. apply Rle_trans with (Rabs Jm); [apply Rabs_pos|apply Rmax_l].
Qed.
Print Assumptions C157_gent.

Example C157_applies : solvesSymmetric exactSolver /\ admissible (VF7 2) /\ VF7 2 <> VF12 /\ linearises exactSolver (makeGent 80 10 100 VF5) (100 - 2 / 3 * 80) 80 /\
  linearises exactSolver (makeOgden deviatoric_ [1; 2] [2; - 2] 100 (VF7 2)) (400 + 2 / 3) (- 1).
Proof.
  assert (S1 := exactSolver_solves). split; [exact S1|]. split; [exact I|]. split; [discriminate|]. split.
  - apply (C157_factories exactSolver 100 VF5 S1); [exact I|discriminate|lra].
  - apply linearises_intro; cbn; auto; try discriminate; try lia; field.
Qed.
