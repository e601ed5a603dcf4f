(** C177, C178: the full stresses, and the Kirchhoff and Cauchy stresses, that solid elements report. *)

From Coq Require Import List Arith ZArith Reals Lra Lia Bool Sorted.
From Verif Require Import Tensor_Model Tensor_Spec Tensor_Props LinearAlgebra_Model LinearAlgebra_Spec LinearAlgebra_Proofs LinearAlgebra_Props.
From Verif Require Import Newton_Model SVK_Model SVK_Spec SVK_Props NeoHooke_Model Conversions_Model VanishingStress_Model VanishingStress_Spec.
From Verif Require Import VanishingStress_Props PythonMaterial_Model PythonMaterial_Props StressResult_Model StressResult_Spec.
Import ListNotations.
Local Open Scope R_scope.

Lemma enlarged e : exists A, maybeFromVoigt (Vector6 (enlargeVector planeFree e)) true = Some A /\ eq3 A (planeTensor e 0).
Proof.
  destruct (enlarged_plane e true) as (A & HA & Q). exists A. split; [exact HA|]. intros i j Hi Hj. rewrite Q by auto.
  unfold factorFrom, planeTensor, mat3, entries. cases i; cases j; cbn; lra.
Qed.

Lemma removePlane (v : nat -> R) : exists w, removeCol 6 v planeStressIndices = Some (3%nat, w) /\ forall k, (k < 3)%nat -> w k = v (inPlane k).
Proof. eexists. split; [reflexivity|]. intros k Hk. cases k; reflexivity. Qed.

Section Results.
Variable stress : rmat -> nat -> R.
Variable moduli : rmat -> rmat.
Variable factor : R.
Variable inverse : nat -> rmat -> rmat.
Variable tol : R.
Hypothesis Hstress : entriesOnly stress.
Notation calc red := (calculateStress red stress moduli factor inverse tol).

(** The strain state whose stresses the result reports *)
Definition stateOf (red : reduction) (e : nat -> R) (t : R) : Prop :=
  (red = planeStrain -> t = 0) /\ (red = planeStress -> Rabs (stress (planeTensor e t) 2%nat) <= tol).

Lemma initial_plane A e : eq3 A (planeTensor e 0) -> eq3 (initUnknownStrains false planeStressPairs A) (planeTensor e 0).
Proof.
  intros Q i j Hi Hj. assert (Q22 := Q 2%nat 2%nat). assert (Qij := Q i j Hi Hj).
  cases i; cases j; unfold initUnknownStrains, planeStressPairs, initialValue, setE; cbn; auto.
Qed.

Lemma zeroed_plane A e : eq3 A (planeTensor e 0) -> eq3 (setStrainsToZero planeStressPairs A) (planeTensor e 0).
Proof.
  intros Q i j Hi Hj. assert (Qij := Q i j Hi Hj).
  cases i; cases j; unfold setStrainsToZero, planeStressPairs, setE; cbn; auto.
Qed.

Lemma reduced_plane A e E' : eq3 A (planeTensor e 0) ->
  reduceStress stress moduli factor false inverse planeStressPairs planeStressIndices tol A = Some E' ->
  eq3 E' (planeTensor e (E' 2%nat 2%nat)) /\ Rabs (stress E' 2%nat) <= tol.
Proof.
  intros Q H. destruct (C70_reduction_partial stress moduli factor false inverse planeStressPairs planeStressIndices tol A E') as (T & Z & F); auto.
  { intros k [<-|[<-|[<-|[]]]] B; [|lia|lia]. cbn. auto. }
  split.
  - assert (Z1 := Z 2%nat 1%nat). assert (Z2 := Z 2%nat 0%nat). cbn in Z1, Z2.
    destruct Z1 as [Z1 Z1']; auto. destruct Z2 as [Z2 Z2']; auto.
    intros i j Hi Hj. cases i; cases j; unfold planeTensor, mat3 in *; cbn in *; auto;
      (rewrite F by (cbn; intros K; repeat destruct K as [K|K]; try discriminate; tauto); rewrite Q by lia; reflexivity).
  - apply T; cbn; auto.
Qed.

Lemma plane_stresses red e : red <> threeD -> forall n s, calc red false e = Some (n, s) ->
  n = 3%nat /\ exists t, stateOf red e t /\ forall k, (k < 3)%nat -> s k = stress (planeTensor e t) (inPlane k).
Proof.
  intros N n s H. unfold calculateStress, materialStresses, enlargeIfReduced in H. destruct (enlarged e) as (A & HA & QA).
  assert (B : forall k, (k < 3)%nat -> (inPlane k < 6)%nat) by (intros k Hk; cases k; cbn; lia).
  destruct red; [congruence| |]; rewrite HA in H.
  - unfold vsnStressesVoigt in H. destruct (removePlane (stress (setStrainsToZero planeStressPairs A))) as (w & W & Hw).
    rewrite W in H. injection H as <- <-. split; auto. exists 0. split; [split; [auto|discriminate]|]. intros k Hk. rewrite Hw by auto.
    apply Hstress; auto. now apply zeroed_plane.
  - unfold vsStressesVoigt in H. destruct (reduceStress _ _ _ _ _ _ _ _ A) as [E'|] eqn:R; [|discriminate].
    destruct (removePlane (stress E')) as (w & W & Hw). rewrite W in H. injection H as <- <-. split; auto.
    destruct (reduced_plane A e E' QA R) as (Q & T). exists (E' 2%nat 2%nat). split.
    + split; [discriminate|]. intros _. rewrite <- (Hstress _ _ Q) by lia. auto.
    + intros k Hk. rewrite Hw by auto. apply Hstress; auto.
Qed.

Lemma full_stresses red e : red <> threeD ->
  exists f, calc red true e = Some (6%nat, f) /\ forall k, (k < 6)%nat -> f k = stress (planeTensor e 0) k.
Proof.
  intros N. destruct (enlarged e) as (A & HA & QA). exists (stress A). split.
  - unfold calculateStress, underlyingStresses, enlargeIfReduced. destruct red; [congruence| |]; now rewrite HA.
  - intros k Hk. now apply Hstress.
Qed.

(** ** C177 *)

(** Three-dimensional materials: both results are the six components of the stress. *)
Theorem C177_three_d : forall e E, symmetric 3 E -> (forall k, (k < 6)%nat -> e k = strainVector 3 E k) -> forall full,
  exists s, calc threeD full e = Some (6%nat, s) /\ forall k, (k < 6)%nat -> s k = stress E k.
Proof.
  intros e E Sy H full. destruct (maybeFrom true (Vector6 e) E Sy) as (A & HA & Q); [exact H|]. exists (stress A). split.
  - unfold calculateStress, materialStresses, enlargeIfReduced. rewrite HA. now destruct full.
  - intros k Hk. now apply Hstress.
Qed.

(** Plane strain: the full result is the stress of the plane strain state, and its components 11, 22 and 12 are the result in the plane. *)
Theorem C177_plane_strain : forall e, exists s f,
  calc planeStrain false e = Some (3%nat, s) /\ calc planeStrain true e = Some (6%nat, f) /\
  (forall k, (k < 6)%nat -> f k = stress (planeTensor e 0) k) /\
  (forall k, (k < 3)%nat -> s k = f (inPlane k)).
Proof.
  intros e. destruct (full_stresses planeStrain e) as (f & Hf & F); [discriminate|].
  destruct (calc planeStrain false e) as [[n s]|] eqn:H.
  - destruct (plane_stresses planeStrain e ltac:(discriminate) n s H) as (-> & t & (T & _) & S). rewrite T in S by auto.
    exists s, f. repeat split; auto. intros k Hk. rewrite S by auto. symmetry. apply F. cases k; cbn; lia.
  - exfalso. revert H. unfold calculateStress, materialStresses, enlargeIfReduced. destruct (enlarged e) as (A & HA & QA). rewrite HA.
    unfold vsnStressesVoigt. destruct (removePlane (stress (setStrainsToZero planeStressPairs A))) as (w & -> & _). discriminate.
Qed.

(** Assumed stresses: if the inversion gives the strain whose stress is the given one, the full result contains it. *)
Theorem C177_assumed_plane_strain : forall inversion s,
  (exists r, calc planeStrain false (inversion s) = Some (3%nat, r) /\ forall k, (k < 3)%nat -> r k = s k) ->
  exists f, assumedResult planeStrain stress true inversion s = Some (6%nat, f) /\
    assumedResult planeStrain stress false inversion s = Some (3%nat, s) /\
    (forall k, (k < 6)%nat -> f k = stress (planeTensor (inversion s) 0) k) /\ (forall k, (k < 3)%nat -> s k = f (inPlane k)).
Proof.
  intros inversion s (r & Hr & R). destruct (C177_plane_strain (inversion s)) as (r' & f & H1 & H2 & F & I).
  rewrite Hr in H1. injection H1 as <-. exists f. repeat split; auto. intros k Hk. rewrite <- R by auto. auto.
Qed.

(** Plane stress: the result in the plane is the stress at the thickness strain for which the thickness stress vanishes; the full result is
    the stress without thickness strain.  They belong together if that one has no thickness stress either. *)
Theorem C177_plane_stress_partial : forall e n s, calc planeStress false e = Some (n, s) ->
  n = 3%nat /\ exists t f,
  Rabs (stress (planeTensor e t) 2%nat) <= tol /\
  (forall k, (k < 3)%nat -> s k = stress (planeTensor e t) (inPlane k)) /\
  calc planeStress true e = Some (6%nat, f) /\ (forall k, (k < 6)%nat -> f k = stress (planeTensor e 0) k) /\
  (Rabs (stress (planeTensor e 0) 2%nat) <= tol -> (forall k, (k < 3)%nat -> s k = f (inPlane k)) /\ Rabs (f 2%nat) <= tol).
Proof.
  intros e n s H. destruct (plane_stresses planeStress e ltac:(discriminate) n s H) as (-> & t & (_ & T) & S). split; auto.
  destruct (full_stresses planeStress e) as (f & Hf & F); [discriminate|]. exists t, f. repeat split; auto.
  2: { rewrite F by lia. auto. }
  unfold calculateStress, materialStresses, enlargeIfReduced in H. destruct (enlarged e) as (A & HA & QA). rewrite HA in H.
  unfold vsStressesVoigt, reduceStress, nrSolve, nrStart in H. cbv zeta in H.
  change (Z.to_nat (Z.max (nr_maxIter (mkNRSettings tol 100 0)) (nr_minIter (mkNRSettings tol 100 0)))) with (Datatypes.S 99) in H.
  cbn [nrLoop] in H. unfold nrCond in H. cbn [nr_tol nr_maxIter nr_minIter emit s_d s_w] in H.
  assert (QI := initial_plane A e QA).
  destruct (rgt _ tol) eqn:G.
  - exfalso. apply rgt_spec in G. revert G. apply Rle_not_lt. unfold normOf. cbn. rewrite !Rplus_0_r.
    rewrite <- (Hstress _ _ QI) in H0 by lia. rewrite <- sqrt_Rsqr_abs in H0. unfold Rsqr in H0. exact H0.
  - cbn in H. injection H as <-. intros k Hk. rewrite F by (cases k; cbn; lia).
    cases k; cbn; apply Hstress; auto.
Qed.

(** ** C178 *)
Notation at_ red := (gradientResult red stress moduli factor inverse tol).

Lemma transformed_plane red to s F : red <> threeD -> to = Kirchhoff \/ to = Cauchy -> forall th S3,
  (forall k, (k < 3)%nat -> s k = S3 (inPlane k)) -> th <> 0 ->
  exists r, transformed red to (3%nat, s) F = Some (3%nat, r) /\ forall k, (k < 3)%nat ->
    r k = match to with
          | Cauchy => th * stressVector 2 (cauchyOf (planeDeformationOf F th) (stressTensor S3)) k
          | _ => stressVector 2 (kirchhoffOf (planeDeformationOf F th) (stressTensor S3)) k
          end.
Proof.
  intros N T th S3 H Hth. unfold transformed. cbn [fst snd]. unfold fromVoigt. rewrite size3.
  assert (H0 := H 0%nat). assert (H1 := H 1%nat). assert (H2 := H 2%nat). cbn in H0, H1, H2.
  assert (D : worldDim red = 2%nat) by (destruct red; [congruence| |]; reflexivity).
  unfold pushForward. rewrite D.
  destruct T as [-> | ->]; (eexists; split; [reflexivity|]); intros k Hk.
  - cases k; cbn; unfold mprod, mt, kirchhoffOf, mul, transpose, planeDeformationOf, stressTensor, mat3; cbn; unfold readSquare, setM; cbn;
      rewrite ?H0, ?H1, ?H2 by lia; ring.
  - assert (J : jacobian (planeDeformationOf F th) = determinant 2 F * th).
    { unfold jacobian, planeDeformationOf, mat3, determinant. cbn. ring. }
    assert (X : forall x, th * (x / jacobian (planeDeformationOf F th)) = x / determinant 2 F).
    { intros x. rewrite J. unfold Rdiv. rewrite Rinv_mult.
      replace (th * (x * (/ determinant 2 F * / th))) with (x * / determinant 2 F * (th * / th)) by ring. rewrite Rinv_r by auto. ring. }
    unfold stressVector, cauchyOf. cases k; cbn [component]; rewrite X; unfold determinant; cbn;
      unfold mprod, mscale, mt, kirchhoffOf, mul, transpose, planeDeformationOf, stressTensor, mat3; cbn; unfold readSquare, setM; cbn;
      rewrite ?H0, ?H1, ?H2 by lia; unfold Rdiv; ring.
Qed.

(** The plane deformation gradient of a displacement gradient, and its Green-Lagrange strain in Voigt notation *)
Definition gradientOf (H : rmat) : rmat := fun i j => H i j + identity i j.
Definition planeVoigtOf (H : rmat) (k : nat) : R := strainVector 3 (greenLagrange (planeDeformationOf (gradientOf H) 1)) (inPlane k).

Lemma strain_plane H th : forall t, th * th = 1 + 2 * t ->
  eq3 (greenLagrange (planeDeformationOf (gradientOf H) th)) (planeTensor (planeVoigtOf H) t).
Proof.
  intros t Ht i j Hi Hj. unfold planeTensor, planeVoigtOf, strainVector, greenLagrange, mul, transpose, planeDeformationOf, mat3, gradientOf, identity.
  cases i; cases j; cbn; try (replace t with ((th * th - 1) / 2) by lra); field.
Qed.

Lemma gradient_plane red rt H : red <> threeD -> rt = kirchhoffStress \/ rt = cauchyStress ->
  exists e F, (forall k, (k < 3)%nat -> e k = planeVoigtOf H k) /\ (forall th, eq3 (planeDeformationOf F th) (planeDeformationOf (gradientOf H) th)) /\
  at_ red rt H = nonlinearResult red stress moduli factor inverse tol rt e F.
Proof.
  intros N T. unfold gradientResult. assert (D : worldDim red = 2%nat) by (destruct red; [congruence| |]; reflexivity). rewrite D.
  cbn [transformStrain strainTag_eqb createGreenLagrangianStrains createDeformationGradient].
  unfold transformStrain. cbn [strainTag_eqb createGreenLagrangianStrains createDeformationGradient].
  eexists. eexists. split; [|split; [|reflexivity]].
  - intros k Hk. unfold planeVoigtOf, strainVector, greenLagrange, mul, transpose, planeDeformationOf, mat3, gradientOf, identity.
    cases k; cbn; unfold mscale, madd, mt, mprod; cbn; field.
  - intros th i j Hi Hj. unfold planeDeformationOf, mat3, gradientOf, identity. cases i; cases j; cbn; unfold madd, kron; cbn; auto.
Qed.

Lemma tensor_ext e e' t : (forall k, (k < 3)%nat -> e k = e' k) -> eq3 (planeTensor e t) (planeTensor e' t).
Proof. intros Q i j Hi Hj. unfold planeTensor, mat3. cases i; cases j; cbn; auto; try (rewrite Q by lia; auto). Qed.

Lemma kirchhoff_ext F F' s s' i j : (i < 3)%nat -> (j < 3)%nat -> eq3 F F' -> (forall k, (k < 6)%nat -> s k = s' k) ->
  kirchhoffOf F (stressTensor s) i j = kirchhoffOf F' (stressTensor s') i j.
Proof.
  intros Hi Hj Q S. assert (Q' : eq3 (stressTensor s) (stressTensor s')).
  { intros a b Ha Hb. unfold stressTensor, mat3. cases a; cases b; cbn; apply S; lia. }
  revert Q'. generalize (stressTensor s) (stressTensor s'). intros A B Q'. unfold kirchhoffOf, mul, transpose. cbn. rewrite !Q, !Q' by lia. ring.
Qed.
Lemma jacobian_ext F F' : eq3 F F' -> jacobian F = jacobian F'.
Proof. intros Q. unfold jacobian. rewrite !Q by lia. ring. Qed.

(** Both reductions, any thickness stretch that goes with the strain state: the Kirchhoff stress is the one of the body, the Cauchy stress is
    that of the body times the thickness stretch. *)
Lemma plane_results red rt H : red <> threeD -> rt = kirchhoffStress \/ rt = cauchyStress -> forall n r, at_ red rt H = Some (n, r) ->
  n = 3%nat /\ exists t, stateOf red (planeVoigtOf H) t /\ forall th, th * th = 1 + 2 * t -> th <> 0 ->
  let F3 := planeDeformationOf (gradientOf H) th in
  let S3 := stressTensor (stress (greenLagrange F3)) in
  eq3 (greenLagrange F3) (planeTensor (planeVoigtOf H) t) /\
  forall k, (k < 3)%nat ->
    r k = match rt with cauchyStress => th * stressVector 2 (cauchyOf F3 S3) k | _ => stressVector 2 (kirchhoffOf F3 S3) k end.
Proof.
  intros N T n r G. destruct (gradient_plane red rt H N T) as (e & F & He & HF & E). rewrite E in G. clear E.
  unfold nonlinearResult in G.
  assert (full : match rt with PK2StressFull => true | _ => false end = false) by (destruct T as [-> | ->]; reflexivity). rewrite full in G.
  destruct (calc red false e) as [[m s]|] eqn:C; [|discriminate]. destruct (plane_stresses red e N m s C) as (-> & t & (S1 & S2) & S).
  set (to := match rt with cauchyStress => Cauchy | _ => Kirchhoff end).
  assert (G' : transformed red to (3%nat, s) F = Some (n, r)) by (destruct T as [-> | ->]; exact G). clear G.
  assert (T' : to = Kirchhoff \/ to = Cauchy) by (unfold to; destruct T as [-> | ->]; auto).
  assert (Q := tensor_ext e (planeVoigtOf H) t He).
  split.
  { destruct (transformed_plane red to s F N T' 1 (stress (planeTensor e t)) S R1_neq_R0) as (r' & Hr' & _). congruence. }
  exists t. split.
  { split; auto. intros P. rewrite <- (Hstress _ _ Q) by lia. auto. }
  intros th Hth N0 F3 S3. assert (GL := strain_plane H th t Hth). split; auto. intros k Hk.
  destruct (transformed_plane red to s F N T' th (stress (planeTensor e t)) S N0) as (r' & Hr' & R'). rewrite G' in Hr'. injection Hr' as -> ->.
  rewrite R' by auto.
  assert (X : forall i j, (i < 3)%nat -> (j < 3)%nat ->
    kirchhoffOf (planeDeformationOf F th) (stressTensor (stress (planeTensor e t))) i j = kirchhoffOf F3 S3 i j).
  { intros i j Hi Hj. unfold S3. apply kirchhoff_ext; auto; [apply HF|]. intros c Hc. apply Hstress; auto.
    intros a b Ha Hb. rewrite GL by auto. apply Q; auto. }
  assert (Y := jacobian_ext _ _ (HF th)). fold F3 in Y.
  unfold to. destruct T as [-> | ->]; unfold stressVector, cauchyOf; cases k; cbn [component]; rewrite X by lia; rewrite ?Y; reflexivity.
Qed.

(** C178, plane strain: the reported Kirchhoff and Cauchy stresses are those of the three-dimensional deformation without thickness change. *)
Theorem C178_plane_strain : forall rt H n r, rt = kirchhoffStress \/ rt = cauchyStress -> at_ planeStrain rt H = Some (n, r) ->
  let F3 := planeDeformationOf (gradientOf H) 1 in
  let S3 := stressTensor (stress (greenLagrange F3)) in
  n = 3%nat /\ forall k, (k < 3)%nat ->
    r k = match rt with cauchyStress => stressVector 2 (cauchyOf F3 S3) k | _ => stressVector 2 (kirchhoffOf F3 S3) k end.
Proof.
  intros rt H n r T G F3 S3. destruct (plane_results planeStrain rt H ltac:(discriminate) T n r G) as (-> & t & (Z & _) & P). split; auto.
  rewrite Z in P by auto. destruct (P 1) as (_ & P'); [lra|lra|]. intros k Hk. rewrite P' by auto. fold F3 S3. destruct rt; auto. ring.
Qed.

(** Plane stress: the Kirchhoff stress is the one of the body whose thickness stress vanishes (within the tolerance); the Cauchy stress is the
    one of that body multiplied by its thickness stretch. *)
Theorem C178_plane_stress_partial : forall rt H n r, rt = kirchhoffStress \/ rt = cauchyStress -> at_ planeStress rt H = Some (n, r) ->
  n = 3%nat /\ exists t, Rabs (stress (planeTensor (planeVoigtOf H) t) 2%nat) <= tol /\
  forall th, th * th = 1 + 2 * t -> 0 < th ->
  let F3 := planeDeformationOf (gradientOf H) th in
  let S3 := stressTensor (stress (greenLagrange F3)) in
  eq3 (greenLagrange F3) (planeTensor (planeVoigtOf H) t) /\
  forall k, (k < 3)%nat ->
    r k = match rt with cauchyStress => th * stressVector 2 (cauchyOf F3 S3) k | _ => stressVector 2 (kirchhoffOf F3 S3) k end.
Proof.
  intros rt H n r T G. destruct (plane_results planeStress rt H ltac:(discriminate) T n r G) as (-> & t & (_ & Z) & P). split; auto.
  exists t. split; auto. intros th Hth N0. apply P; auto. lra.
Qed.

(** Three dimensions: Kirchhoff and Cauchy stress of the deformation. *)
Theorem C178_three_d : forall rt H, rt = kirchhoffStress \/ rt = cauchyStress ->
  let S3 := stressTensor (stress (greenLagrange (gradientOf H))) in
  exists r, at_ threeD rt H = Some (6%nat, r) /\ forall k, (k < 6)%nat ->
    r k = match rt with cauchyStress => stressVector 3 (cauchyOf (gradientOf H) S3) k | _ => stressVector 3 (kirchhoffOf (gradientOf H) S3) k end.
Proof.
  intros rt H T S3. unfold gradientResult. cbn [worldDim].
  unfold transformStrain. cbn [strainTag_eqb createGreenLagrangianStrains createDeformationGradient].
  set (E := mscale (1 / 2) _). set (F := madd H kron).
  destruct (readToVoigt E true) as (e & He & Q). change (3 * (3 + 1) / 2)%nat with 6%nat. rewrite He.
  assert (SyE : symmetric 3 E).
  { intros i j Hi Hj. unfold E, mscale, madd, mt, mprod. cbn. cases i; cases j; ring. }
  assert (QE : eq3 E (greenLagrange (gradientOf H))).
  { intros i j Hi Hj. unfold E, mscale, madd, mt, mprod, greenLagrange, gradientOf, mul, transpose, identity. cases i; cases j; cbn; field. }
  assert (QF : eq3 F (gradientOf H)).
  { intros i j Hi Hj. unfold F, madd, kron, gradientOf, identity. reflexivity. }
  destruct (C177_three_d e E SyE) with (full := false) as (s & Hs & S); [exact Q|].
  assert (S' : forall k, (k < 6)%nat -> s k = stress (greenLagrange (gradientOf H)) k) by (intros k Hk; rewrite S by auto; apply Hstress; auto).
  unfold nonlinearResult. assert (full : match rt with PK2StressFull => true | _ => false end = false) by (destruct T as [-> | ->]; reflexivity).
  rewrite full, Hs. unfold S3.
  assert (K : forall i j, (i < 3)%nat -> (j < 3)%nat -> kirchhoffOf F (stressTensor s) i j =
     kirchhoffOf (gradientOf H) (stressTensor (stress (greenLagrange (gradientOf H)))) i j) by (intros; now apply kirchhoff_ext).
  assert (J := jacobian_ext F (gradientOf H) QF).
  assert (D : determinant 3 F = jacobian F).
  { unfold determinant, jacobian. cbn. unfold det3. ring. }
  assert (P : forall to, exists m, fromVoigt 6 s false = Some (3%nat, m) /\ eq3 (readSquare 3 m) (stressTensor s) /\
    transformed threeD to (6%nat, s) F = match pushForward threeD to (readSquare 3 m) F with
      | None => None
      | Some t => match readVec 6 (toVoigt 3 t false) with Some v => Some (6%nat, v) | None => None end
      end).
  { intros to. destruct (fromVoigt6 s false) as (m & Hm & M & _). exists m. repeat split; auto.
    - intros i j Hi Hj. unfold readSquare. rewrite M by auto. unfold entries, stressTensor, mat3, factorFrom. cases i; cases j; cbn; ring.
    - unfold transformed. cbn [fst snd]. now rewrite Hm. }
  destruct T as [-> | ->].
  - destruct (P Kirchhoff) as (m & _ & M & ->). unfold pushForward, transformStress. cbn [worldDim stressTag_eqb createKirchhoffStress].
    destruct (readToVoigt (mprod 3 (mprod 3 F (readSquare 3 m)) (mt F)) false) as (v & Hv & V). rewrite Hv. exists v. split; auto.
    intros k Hk. rewrite V by auto. cbn [voigtVector].
    assert (Y : forall i j, (i < 3)%nat -> (j < 3)%nat -> mprod 3 (mprod 3 F (readSquare 3 m)) (mt F) i j = kirchhoffOf F (stressTensor s) i j).
    { intros i j Hi Hj. revert M. generalize (readSquare 3 m) (stressTensor s). intros A B M.
      unfold mprod, mt, kirchhoffOf, mul, transpose. cbn. rewrite !M by lia. ring. }
    unfold stressVector. cases k; cbn [component]; rewrite Y by lia; apply K; lia.
  - destruct (P Cauchy) as (m & _ & M & ->). unfold pushForward, transformStress. cbn [worldDim stressTag_eqb createCauchyStress].
    destruct (readToVoigt (mprod 3 (mprod 3 (mscale (1 / determinant 3 F) F) (readSquare 3 m)) (mt F)) false) as (v & Hv & V). rewrite Hv.
    exists v. split; auto. intros k Hk. rewrite V by auto. cbn [voigtVector]. rewrite D.
    assert (Y : forall i j, (i < 3)%nat -> (j < 3)%nat ->
      mprod 3 (mprod 3 (mscale (1 / jacobian F) F) (readSquare 3 m)) (mt F) i j = kirchhoffOf F (stressTensor s) i j / jacobian F).
    { intros i j Hi Hj. revert M. generalize (readSquare 3 m) (stressTensor s) (jacobian F). intros A B d M.
      unfold mprod, mscale, mt, kirchhoffOf, mul, transpose. cbn. rewrite !M by lia. unfold Rdiv. ring. }
    unfold stressVector, cauchyOf. rewrite <- J. cases k; cbn [component]; rewrite Y by lia; rewrite K by lia; reflexivity.
Qed.
End Results.
Print Assumptions C177_three_d.
Print Assumptions C177_plane_strain.
Print Assumptions C177_assumed_plane_strain.
Print Assumptions C177_plane_stress_partial.
Print Assumptions C178_plane_strain.
Print Assumptions C178_plane_stress_partial.
Print Assumptions C178_three_d.

(** ** St. Venant-Kirchhoff (and linear elasticity) *)
Lemma svk_entries lambda mu : entriesOnly (svkStress lambda mu).
Proof. intros A B Q k Hk. now apply C71_svk. Qed.

Lemma svk_plane_stress lambda mu tol inverse e : 0 < mu -> 0 < 3 * lambda + 2 * mu -> 0 <= tol -> inverts inverse ->
  tol < Rabs (lambda * (e 0%nat + e 1%nat)) ->
  exists s, calculateStress planeStress (svkStress lambda mu) (svkModuli lambda mu) 1 inverse tol false e = Some (3%nat, s) /\
  forall k, (k < 3)%nat -> s k = svkStress lambda mu (planeTensor e (- (lambda * (e 0%nat + e 1%nat) / (lambda + 2 * mu)))) (inPlane k).
Proof.
  intros Hmu Hla Htol Hinv He. unfold calculateStress, materialStresses, enlargeIfReduced. destruct (enlarged e) as (A & HA & QA). rewrite HA.
  assert (A1 : StronglySorted lt planeStressIndices) by (repeat constructor).
  assert (A2 : forall k, In k planeStressIndices -> (k < 6)%nat) by (simpl; intuition lia).
  assert (A3 : forall k, In k planeStressIndices -> let (i, j) := component 3 k in In (i, j) planeStressPairs \/ In (j, i) planeStressPairs).
  { simpl. intuition; subst; cbn; auto. }
  assert (A4 : forall i j, In (i, j) planeStressPairs -> exists k, In k planeStressIndices /\ (component 3 k = (i, j) \/ component 3 k = (j, i))).
  { simpl. intros i j [H|[H|[H|[]]]]; injection H as <- <-.
    - exists 3%nat; cbn; auto. - exists 4%nat; cbn; auto. - exists 2%nat; cbn; auto. }
  assert (Sy : symmetric 3 A).
  { intros i j Hi Hj. rewrite !QA by auto. unfold planeTensor, mat3. cases i; cases j; reflexivity. }
  destruct (C44_reduction lambda mu tol inverse Hmu Hla Htol Hinv planeStressPairs planeStressIndices A1 A2 A3 A4 A Sy)
    as (E' & HE & S' & F & Sh & T & Z).
  destruct (reduced_plane (svkStress lambda mu) (svkModuli lambda mu) 1 inverse tol A e E' QA HE) as (Q & _).
  unfold vsStressesVoigt. rewrite HE. destruct (removePlane (svkStress lambda mu E')) as (w & -> & W). exists w. split; auto.
  assert (N : normOf planeStressIndices (residualOf (svkStress lambda mu) planeStressIndices (initUnknownStrains false planeStressPairs A)) =
    Rabs (lambda * (e 0%nat + e 1%nat))).
  { unfold normOf. rewrite <- sqrt_Rsqr_abs. f_equal. unfold Rsqr. change (length (fixedDiagonal planeStressIndices)) with 1%nat. cbn [seq sumL].
    assert (R : residualOf (svkStress lambda mu) planeStressIndices (initUnknownStrains false planeStressPairs A) 0 = lambda * (e 0%nat + e 1%nat)).
    { unfold residualOf. change (nth 0 (fixedDiagonal planeStressIndices) 0%nat) with 2%nat.
      rewrite (svk_entries lambda mu _ _ (initial_plane A e QA)) by lia. rewrite svk_diag by lia. unfold trace, planeTensor, mat3. cbn. ring. }
    rewrite R. ring. }
  rewrite N in Z. specialize (Z He 2%nat). rewrite (svk_entries lambda mu _ _ Q) in Z by lia. rewrite svk_diag in Z by lia.
  unfold trace, planeTensor, mat3 in Z. cbn in Z. specialize (Z (or_introl eq_refl)).
  assert (E22 : E' 2%nat 2%nat = - (lambda * (e 0%nat + e 1%nat) / (lambda + 2 * mu))).
  { apply (Rmult_eq_reg_r (lambda + 2 * mu)); [|lra]. field_simplify; [|lra]. lra. }
  intros k Hk. rewrite W by auto. rewrite <- E22. apply svk_entries; auto. cases k; cbn; lia.
Qed.

(** C177 is false for plane stress: for every strain with a thickness stress at zero thickness strain, the full result has that thickness
    stress and other stresses in the plane than the result in the plane. *)
Theorem C177_plane_stress_refuted : forall lambda mu tol inverse e, 0 < lambda -> 0 < mu -> 0 <= tol -> inverts inverse ->
  tol < Rabs (lambda * (e 0%nat + e 1%nat)) ->
  let calc := calculateStress planeStress (svkStress lambda mu) (svkModuli lambda mu) 1 inverse tol in
  exists s f, calc false e = Some (3%nat, s) /\ calc true e = Some (6%nat, f) /\
  tol < Rabs (f 2%nat) /\ s 0%nat <> f 0%nat /\ s 1%nat <> f 1%nat.
Proof.
  intros lambda mu tol inverse e La Mu T HI He calc.
  destruct (svk_plane_stress lambda mu tol inverse e Mu ltac:(lra) T HI He) as (s & Hs & S).
  destruct (full_stresses (svkStress lambda mu) (svkModuli lambda mu) 1 inverse tol (svk_entries lambda mu) planeStress e) as (f & Hf & F); [discriminate|].
  exists s, f. repeat split; auto.
  - rewrite F by lia. rewrite svk_diag by lia. unfold trace, planeTensor, mat3. cbn.
    replace (lambda * (e 0%nat + e 1%nat + 0) + 2 * mu * 0) with (lambda * (e 0%nat + e 1%nat)) by ring. auto.
  - assert (N : lambda * (e 0%nat + e 1%nat) <> 0) by (intros Z; rewrite Z, Rabs_R0 in He; lra).
    rewrite S, F by lia. cbn [inPlane]. rewrite !svk_diag by lia. unfold trace, planeTensor, mat3. cbn. intros Q. apply N.
    assert (Q' : lambda * - (lambda * (e 0%nat + e 1%nat) / (lambda + 2 * mu)) = 0) by lra.
    apply Rmult_integral in Q'. destruct Q' as [Q'|Q']; [lra|].
    assert (Q2 : lambda * (e 0%nat + e 1%nat) / (lambda + 2 * mu) = 0) by lra.
    apply (Rmult_eq_compat_r (lambda + 2 * mu)) in Q2. unfold Rdiv in Q2. rewrite Rmult_assoc, Rinv_l in Q2 by lra. lra.
  - assert (N : lambda * (e 0%nat + e 1%nat) <> 0) by (intros Z; rewrite Z, Rabs_R0 in He; lra).
    rewrite S, F by lia. cbn [inPlane]. rewrite !svk_diag by lia. unfold trace, planeTensor, mat3. cbn. intros Q. apply N.
    assert (Q' : lambda * - (lambda * (e 0%nat + e 1%nat) / (lambda + 2 * mu)) = 0) by lra.
    apply Rmult_integral in Q'. destruct Q' as [Q'|Q']; [lra|].
    assert (Q2 : lambda * (e 0%nat + e 1%nat) / (lambda + 2 * mu) = 0) by lra.
    apply (Rmult_eq_compat_r (lambda + 2 * mu)) in Q2. unfold Rdiv in Q2. rewrite Rmult_assoc, Rinv_l in Q2 by lra. lra.
Qed.
Print Assumptions C177_plane_stress_refuted.

(** C178 is false for the Cauchy stress with plane stress: the plane deformation diag(2, 1/2) of a St. Venant-Kirchhoff body with lambda = mu = 1.
    The body has the thickness stretch 1/2 and the Cauchy stress 30; 15 is reported. *)
Definition stretched : rmat := mat3 [[1; 0; 0]; [0; -1/2; 0]].
Theorem C178_plane_stress_refuted : forall tol inverse, 0 <= tol < 1 -> inverts inverse ->
  let F3 := planeDeformationOf (gradientOf stretched) (1 / 2) in
  let S3 := stressTensor (svkStress 1 1 (greenLagrange F3)) in
  svkStress 1 1 (greenLagrange F3) 2%nat = 0 /\ svkStress 1 1 (greenLagrange F3) 3%nat = 0 /\ svkStress 1 1 (greenLagrange F3) 4%nat = 0 /\
  exists n r, gradientResult planeStress (svkStress 1 1) (svkModuli 1 1) 1 inverse tol cauchyStress stretched = Some (n, r) /\
  r 0%nat = 15 /\ cauchyOf F3 S3 0%nat 0%nat = 30.
Proof.
  intros tol inverse T HI F3 S3.
  assert (V : forall k, (k < 3)%nat -> planeVoigtOf stretched k = nth k [3 / 2; - (3 / 8); 0] 0).
  { intros k Hk. unfold planeVoigtOf, strainVector, greenLagrange, mul, transpose, planeDeformationOf, mat3, gradientOf, identity, stretched, mat3.
    cases k; cbn; field. }
  assert (GL := strain_plane stretched (1 / 2) (- (3 / 8)) ltac:(lra)). fold F3 in GL.
  assert (S : forall k, (k < 6)%nat -> svkStress 1 1 (greenLagrange F3) k = nth k [15 / 4; 0; 0; 0; 0; 0] 0).
  { intros k Hk. rewrite (svk_entries 1 1 _ _ GL) by auto.
    assert (V0 := V 0%nat). assert (V1 := V 1%nat). assert (V2 := V 2%nat). cbn [nth] in V0, V1, V2. clear GL.
    revert V0 V1 V2. generalize (planeVoigtOf stretched). intros v V0 V1 V2.
    unfold svkStress, stressesImplVoigt, trace, planeTensor, mat3. cases k; cbn; rewrite ?V0, ?V1, ?V2 by lia; field. }
  split; [rewrite S by lia; reflexivity|]. split; [rewrite S by lia; reflexivity|]. split; [rewrite S by lia; reflexivity|].
  assert (C30 : cauchyOf F3 S3 0%nat 0%nat = 30).
  { assert (SE : eq3 S3 (mat3 [[15 / 4; 0; 0]; [0; 0; 0]; [0; 0; 0]])).
    { intros i j Hi Hj. unfold S3, stressTensor. revert S. generalize (svkStress 1 1 (greenLagrange F3)). intros v S.
      cases i; cases j; cbn; rewrite S by lia; reflexivity. }
    revert SE. generalize S3. intros X SE. unfold cauchyOf, kirchhoffOf, mul, transpose, jacobian. cbn. rewrite !SE by lia.
    unfold F3, planeDeformationOf, gradientOf, stretched, identity, mat3. cbn. field. }
  destruct (gradient_plane (svkStress 1 1) (svkModuli 1 1) 1 inverse tol planeStress cauchyStress stretched ltac:(discriminate) (or_intror eq_refl)) as (e & F & He & HF & E).
  assert (V0 := He 0%nat). assert (V1 := He 1%nat). rewrite V in V0, V1 by lia. cbn in V0, V1. specialize (V0 ltac:(lia)). specialize (V1 ltac:(lia)).
  destruct (svk_plane_stress 1 1 tol inverse e ltac:(lra) ltac:(lra) ltac:(lra) HI) as (s & Hs & S').
  { rewrite V0, V1. rewrite Rabs_right; lra. }
  destruct (transformed_plane planeStress Cauchy s F ltac:(discriminate) (or_intror eq_refl) (1 / 2)
     (svkStress 1 1 (planeTensor e (- (1 * (e 0%nat + e 1%nat) / (1 + 2 * 1))))) S' ltac:(lra)) as (r & Hr & R).
  exists 3%nat, r. split; [|split; auto].
  - rewrite E. unfold nonlinearResult. rewrite Hs. exact Hr.
  - rewrite R by lia. unfold stressVector. cbn [component].
    replace (cauchyOf _ _ 0%nat 0%nat) with (cauchyOf F3 S3 0%nat 0%nat); [rewrite C30; lra|].
    unfold cauchyOf. rewrite (jacobian_ext _ _ (HF (1 / 2))). fold F3. f_equal. unfold S3. apply kirchhoff_ext; try lia.
    { intros i j Hi Hj. symmetry. now apply HF. }
    intros k Hk. apply svk_entries; auto. intros i j Hi Hj. rewrite GL by auto. rewrite V0, V1.
    replace (- (1 * (3 / 2 + - (3 / 8)) / (1 + 2 * 1))) with (- (3 / 8)) by field. symmetry. now apply tensor_ext.
Qed.
Print Assumptions C178_plane_stress_refuted.

(** The hypotheses are met: tension of a plane body.  The result in the plane is 8/3, the full one 3 with thickness stress 1; with plane
    strain both are 3. *)
Example C177_tension : forall inverse, inverts inverse ->
  let e := fun k => nth k [1; 0; 0] 0 in
  (exists s, calculateStress planeStress (svkStress 1 1) (svkModuli 1 1) 1 inverse (1 / 10 ^ 8) false e = Some (3%nat, s) /\ s 0%nat = 8 / 3) /\
  (exists f, calculateStress planeStress (svkStress 1 1) (svkModuli 1 1) 1 inverse (1 / 10 ^ 8) true e = Some (6%nat, f) /\ f 0%nat = 3 /\ f 2%nat = 1) /\
  (exists s, calculateStress planeStrain (svkStress 1 1) (svkModuli 1 1) 1 inverse (1 / 10 ^ 8) false e = Some (3%nat, s) /\ s 0%nat = 3).
Proof.
  intros inverse HI e. split; [|split].
  - destruct (svk_plane_stress 1 1 (1 / 10 ^ 8) inverse e) as (s & Hs & S); try lra; auto.
    { cbn. rewrite Rabs_right; lra. }
    exists s. split; auto. rewrite S by lia. cbn [inPlane]. rewrite svk_diag by lia. unfold trace, planeTensor, mat3. cbn. field.
  - destruct (full_stresses (svkStress 1 1) (svkModuli 1 1) 1 inverse (1 / 10 ^ 8) (svk_entries 1 1) planeStress e) as (f & Hf & F); [discriminate|].
    exists f. split; auto. rewrite !F by lia. rewrite !svk_diag by lia. unfold trace, planeTensor, mat3. cbn. split; field.
  - destruct (C177_plane_strain (svkStress 1 1) (svkModuli 1 1) 1 inverse (1 / 10 ^ 8) (svk_entries 1 1) e) as (s & f & Hs & Hf & F & I).
    exists s. split; auto. rewrite I by lia. cbn [inPlane]. rewrite F by lia. rewrite svk_diag by lia. unfold trace, planeTensor, mat3. cbn. field.
Qed.

(** Without lateral contraction the two results agree with plane stress too *)
Example C177_no_contraction : forall mu inverse e, 0 < mu -> inverts inverse ->
  Rabs (svkStress 0 mu (planeTensor e 0) 2%nat) <= 1 / 10 ^ 8.
Proof. intros mu inverse e Hm HI. rewrite svk_diag by lia. unfold planeTensor, mat3. cbn. rewrite Rabs_right; lra. Qed.

(** Plane strain under the same deformation diag(2, 1/2): the reported Cauchy stress is the one of the body *)
Example C178_plane_strain_applies : forall inverse, exists r,
  gradientResult planeStrain (svkStress 1 1) (svkModuli 1 1) 1 inverse (1 / 10 ^ 8) cauchyStress stretched = Some (3%nat, r) /\ r 0%nat = 33 / 2.
Proof.
  intros inverse. destruct (gradientResult planeStrain (svkStress 1 1) (svkModuli 1 1) 1 inverse (1 / 10 ^ 8) cauchyStress stretched) as [[n r]|] eqn:G.
  - destruct (C178_plane_strain _ _ _ _ _ (svk_entries 1 1) cauchyStress stretched n r (or_intror eq_refl) G) as (-> & R). exists r. split; auto.
    rewrite R by lia. unfold stressVector. cbn [component].
    assert (GL := strain_plane stretched 1 0 ltac:(lra)). set (F3 := planeDeformationOf (gradientOf stretched) 1) in *.
    assert (V : forall k, (k < 3)%nat -> planeVoigtOf stretched k = nth k [3 / 2; - (3 / 8); 0] 0).
    { intros k Hk. unfold planeVoigtOf, strainVector, greenLagrange, mul, transpose, planeDeformationOf, mat3, gradientOf, identity, stretched, mat3.
      cases k; cbn; field. }
    assert (S : forall k, (k < 6)%nat -> svkStress 1 1 (greenLagrange F3) k = nth k [33 / 8; 3 / 8; 9 / 8; 0; 0; 0] 0).
    { intros k Hk. rewrite (svk_entries 1 1 _ _ GL) by auto.
      assert (V0 := V 0%nat). assert (V1 := V 1%nat). assert (V2 := V 2%nat). cbn [nth] in V0, V1, V2. clear GL.
      revert V0 V1 V2. generalize (planeVoigtOf stretched). intros v V0 V1 V2.
      unfold svkStress, stressesImplVoigt, trace, planeTensor, mat3. cases k; cbn; rewrite ?V0, ?V1, ?V2 by lia; field. }
    assert (SE : eq3 (stressTensor (svkStress 1 1 (greenLagrange F3))) (mat3 [[33 / 8; 0; 0]; [0; 3 / 8; 0]; [0; 0; 9 / 8]])).
    { intros i j Hi Hj. unfold stressTensor. revert S. generalize (svkStress 1 1 (greenLagrange F3)). intros v S.
      cases i; cases j; cbn; rewrite S by lia; reflexivity. }
    revert SE. generalize (stressTensor (svkStress 1 1 (greenLagrange F3))). intros X SE.
    unfold cauchyOf, kirchhoffOf, mul, transpose, jacobian. cbn. rewrite !SE by lia.
    unfold F3, planeDeformationOf, gradientOf, stretched, identity, mat3. cbn. field.
  - exfalso. destruct (gradient_plane (svkStress 1 1) (svkModuli 1 1) 1 inverse (1 / 10 ^ 8) planeStrain cauchyStress stretched ltac:(discriminate) (or_intror eq_refl))
      as (e & F & _ & _ & E). rewrite E in G. unfold nonlinearResult in G.
    destruct (C177_plane_strain (svkStress 1 1) (svkModuli 1 1) 1 inverse (1 / 10 ^ 8) (svk_entries 1 1) e) as (s & f & Hs & _ & _ & _).
    rewrite Hs in G.
    destruct (transformed_plane planeStrain Cauchy s F ltac:(discriminate) (or_intror eq_refl) 1 (fun k => s (match k with 5 => 2 | k => k end)%nat)) as (r & Hr & _);
      [intros k Hk; cases k; reflexivity|lra|]. congruence.
Qed.
