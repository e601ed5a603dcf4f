(** Properties C114 and C115: assumed stress elements. *)

From Coq Require Import Reals Arith Bool List Lia Lra FunctionalExtensionality.
From Coquelicot Require Import Coquelicot.
From Verif Require Import Tensor_Spec Conversions_Spec Conversions_Props Tensor_Model Element_Spec Element_Model Element_Proofs Element_Props.
From Verif Require Import Eas_Spec Eas_Model Eas_Proofs Eas_Props AssumedStress_Spec AssumedStress_Model AssumedStress_Proofs.
Import ListNotations.
Local Open Scope R_scope.

(** C114: if the inversion of a hyperelastic material solves stress(Es(T)) = T and D is its derivative, then the strains and D are the
    first and second derivatives of the complementary energy, and D is the inverse of the tangent *)
Theorem C114_complementary s psi stress tangent Es Dc T :
  (forall T m, (m < s)%nat -> stress (Es T) m = T m) -> hyperelastic s psi stress tangent (Es T) -> isJacobian s s Es (Dc T) T ->
  hyperelastic s (legendre s psi Es) Es Dc T /\
  (forall i j, (i < s)%nat -> (j < s)%nat -> mul s (tangent (Es T)) (Dc T) i j = identity i j).
Proof.
  intros Inv (Hpsi & Hs) HJ.
  assert (Along : forall c v, passes s c T v -> passes s (fun t => Es (c t)) (Es T) (fun m => dot s (Dc T m) v)).
  { intros c v Pc m Hm. split; [|exact (HJ m Hm c v Pc)]. apply (gradient_value s (fun y => Es y m) _ T (c 0) (HJ m Hm)). intros k Hk. apply Pc, Hk. }
  split; [split; [|exact HJ]|].
  - intros c v Pc. unfold legendre. eapply derive_eq.
    + apply (is_derive_minus (fun t => dot s (c t) (Es (c t))) (fun t => psi (Es (c t)))); [|exact (Hpsi _ _ (Along c v Pc))].
      apply (derive_sum s (fun m t => c t m * Es (c t) m) (fun m => v m * Es T m + T m * dot s (Dc T m) v)). intros m Hm.
      destruct (Pc m Hm) as (E0 & D0). destruct (Along c v Pc m Hm) as (E1 & D1).
      eapply derive_eq; [apply (is_derive_mult (fun t => c t m) (fun t => Es (c t) m) 0 _ _ D0 D1); exact Rmult_comm|].
      rewrite E0, E1. reflexivity.
    + change (minus ?a ?b) with (a + - b). rewrite sum_add.
      replace (dot s (stress (Es T)) (fun m => dot s (Dc T m) v)) with (sum s (fun m => T m * dot s (Dc T m) v)).
      2:{ apply sum_ext. intros m Hm. rewrite Inv by assumption. reflexivity. }
      replace (dot s (Es T) v) with (sum s (fun m => v m * Es T m)) by (apply sum_ext; intros; ring). ring.
  - intros i j Hi Hj.
    set (c t m := T m + t * identity j m). set (v m := identity j m).
    assert (Pc : passes s c T v).
    { intros m Hm. split; [unfold c; ring|]. unfold c, v. eapply derive_eq.
      - apply (is_derive_plus (fun _ => T m) (fun t => t * identity j m)); [apply @is_derive_const|]. apply derive_scale, @is_derive_id.
      - change (plus zero ?x) with (0 + x). change one with 1. ring. }
    assert (D1 := Hs i Hi _ _ (Along c v Pc)).
    assert (D2 : is_derive (fun t => stress (Es (c t)) i) 0 (v i)).
    { apply (is_derive_ext (fun t => c t i)); [intros; symmetry; apply Inv, Hi|]. apply (Pc i Hi). }
    assert (E := derive_uniq _ _ _ D1 D2). unfold v in E. unfold identity at 2 in E. rewrite Nat.eqb_sym in E. fold (identity i j) in E. rewrite <- E.
    unfold mul, dot. apply sum_ext. intros k Hk. f_equal.
    rewrite (sum_pick s j); [unfold identity; rewrite Nat.eqb_refl; ring|assumption|].
    intros l _ Hl. unfold identity. destruct (Nat.eqb_spec j l); [congruence|ring].
Qed.

Section AssumedStress.
  Variables (d n s p : nat) (points : list point).
  Hypothesis dpos : (0 < d)%nat.
  Variable eps : point -> (nat -> R) -> nat -> R.
  Variable bop : point -> (nat -> R) -> nat -> nat -> nat -> R.
  Variable kg : point -> (nat -> R) -> (nat -> R) -> nat -> nat -> nat -> nat -> R.
  Variable P : point -> nat -> nat -> R.
  Variables (chi : (nat -> R) -> R) (Es : (nat -> R) -> nat -> R) (Dc : (nat -> R) -> nat -> nat -> R).
  Variable materialInversion : (nat -> R) -> (nat -> R) -> (nat -> nat -> R) * (nat -> R).
  Variable inverse : (nat -> nat -> R) -> nat -> nat -> R.
  Let N := (d * n)%nat.
  Let S := stressValue s p P.
  Let state := stateAt s p P Es Dc.

  (** The functional of the element *)
  Definition mixedEnergy (u b : nat -> R) : R := hellingerReissner s points vol (fun gp => eps gp u) (fun gp => S gp b) chi.

  (** What is needed of the strains and of the complementary energy *)
  Definition suited (u b : nat -> R) : Prop := forall gp, In gp points ->
    strainExpression d n s eps bop kg gp u /\
    (forall T T', (forall m, (m < s)%nat -> T m = T' m) -> forall i j a c, kg gp u T i j a c = kg gp u T' i j a c) /\
    hyperelastic s chi Es Dc (S gp b) /\ symmetric s (Dc (S gp b)).

  Let force u b := asForces d n s p points bop P u (state b) zeroVector.
  Let rest u b := asRtilde s points eps P u (state b).
  Let K u b := asGeometric d n s p points kg P u (state b) zeroMatrix.
  Let G u := asG d n s points bop P u.
  Let H b := asH s points P (state b).

  Let E' := mixE s p eps P.
  Let E_d' := mixE_d s bop.
  Let E_a' := mixE_a s P.
  Let E_dd' := mixE_dd s kg.
  Let suitable' := suitable d n (s + s) p points (mixPsi s chi) (mixStress s Es) (mixTangent s Dc) E' E_d' E_a' E_dd' zero_aa zero_ad.

  Lemma suited_suitable u b : suited u b -> suitable' u b.
  Proof.
    intros Hs gp Hgp. destruct (Hs gp Hgp) as (H1 & H2 & H3 & H4). split; [|split].
    - exact (mix_expression d n s p dpos eps bop kg P gp u b H1 H2).
    - apply mix_material. unfold E'. rewrite tail_mix. exact H3.
    - apply mix_tangent_symmetric. unfold E'. rewrite tail_mix. exact H4.
  Qed.
  Lemma mixed_energy u b : enhancedEnergy points (mixPsi s chi) E' u b = mixedEnergy u b.
  Proof.
    unfold E'. rewrite mix_energy. unfold mixedEnergy, hellingerReissner, quadrature, sumP.
    induction points as [|gp l IH]; [reflexivity|]. cbn. rewrite IH. fold S. ring.
  Qed.

  (** C114: the internal forces and the residual of the stress parameters are the gradients of the mixed functional *)
  Theorem C114_forces u b : suited u b -> isGradient2 N p mixedEnergy (force u b) (rest u b) u b.
  Proof.
    intros Hs. eapply (gradient2_ext N p).
    - exact (C107_forces d n (s + s) p points dpos (mixPsi s chi) (mixStress s Es) (mixTangent s Dc) E' E_d' E_a' E_dd' zero_aa zero_ad u b (suited_suitable u b Hs)).
    - exact mixed_energy.
    - intros k Hk. exact (mix_forces d n s p points dpos eps bop P Es Dc u b zeroVector k Hk).
    - intros q Hq. exact (f_equal (fun f => f q) (mix_rtilde s p points eps P Es Dc u b)).
  Qed.

  (** C114: the geometric stiffness, G and -H are the second derivatives of the mixed functional *)
  Theorem C114_tangent u b : suited u b ->
    (forall k, (k < N)%nat -> isGradient2 N p (fun u b => force u b k) (K u b k) (fun q => G u q k) u b) /\
    (forall q, (q < p)%nat -> isGradient2 N p (fun u b => rest u b q) (G u q) (fun r => - H b q r) u b).
  Proof.
    intros Hs.
    destruct (C107_tangent d n (s + s) p points dpos (mixPsi s chi) (mixStress s Es) (mixTangent s Dc) E' E_d' E_a' E_dd' zero_aa zero_ad u b (suited_suitable u b Hs)) as (HF & HR).
    split.
    - intros k Hk. eapply (gradient2_ext N p); [exact (HF k Hk)|..].
      + intros u' b'. exact (mix_forces d n s p points dpos eps bop P Es Dc u' b' zeroVector k Hk).
      + intros l Hl. exact (mix_k d n s p points dpos eps bop kg P Es Dc u b zeroMatrix k l Hk Hl).
      + intros q Hq. exact (mix_g d n s p points dpos eps bop P Es Dc u b q k Hk).
    - intros q Hq. eapply (gradient2_ext N p); [exact (HR q Hq)|..].
      + intros u' b'. exact (f_equal (fun f => f q) (mix_rtilde s p points eps P Es Dc u' b')).
      + intros l Hl. exact (mix_g d n s p points dpos eps bop P Es Dc u b q l Hl).
      + intros r Hr. exact (f_equal (fun f => f q r) (mix_h s p points eps P Es Dc u b)).
  Qed.

  Theorem C114_symmetric u b :
    (forall gp, In gp points -> symmetric s (Dc (S gp b)) /\ (forall T i j k l, kg gp u T i j k l = kg gp u T j i l k)) ->
    symmetric N (K u b) /\ (forall q r, H b q r = H b r q).
  Proof.
    intros Hs. split.
    - intros k l Hk Hl. unfold K. rewrite !as_geometric_sum by assumption. f_equal. apply sumP_ext. intros gp Hgp. f_equal. apply (Hs gp Hgp).
    - intros q r. unfold H. rewrite !as_h_sum. apply sumP_ext. intros gp Hgp. f_equal. rewrite sum_swap. apply sum_ext. intros m Hm. apply sum_ext. intros o Ho.
      unfold state, stateAt. cbn [invertedMaterialStates]. fold S. rewrite (proj1 (Hs gp Hgp) o m) by assumption. ring.
  Qed.

  (** ** The stored state *)
  Inductive event := Initialize | Update (u dx : nat -> R).
  Let step (st : asState) (e : event) : asState :=
    match e with
    | Initialize => initializeState s p P materialInversion st
    | Update u dx => updateState d n s p points eps bop P materialInversion inverse u dx st
    end.

  (** C114: after any history of the element, beginning with its construction, the stored strains and moduli are those of the present
      stress parameters, if the inversion of the material is exact *)
  Theorem C114_history st events : (forall T e, materialInversion T e = (Dc T, Es T)) ->
    let st' := fold_left step events (initializeState s p P materialInversion st) in st' = state (beta st').
  Proof.
    intros Inv. cbv zeta.
    assert (I : forall st, invertMaterial s p P materialInversion st = state (beta st)).
    { intros. unfold invertMaterial, state, stateAt. f_equal; apply functional_extensionality; intros; rewrite Inv; reflexivity. }
    assert (G0 : forall events st, st = state (beta st) -> fold_left step events st = state (beta (fold_left step events st))).
    { clear st events. intros events. induction events as [|e events IH]; intros st Hst; [exact Hst|]. cbn [fold_left]. apply IH. destruct e; cbn [step].
      - unfold initializeState. rewrite !I. reflexivity.
      - unfold updateState. cbv zeta. rewrite !I. reflexivity. }
    apply G0. unfold initializeState. rewrite !I. reflexivity.
  Qed.

  (** ** Condensation *)
  Let vectorOf u b := asVectorImpl d n s p points eps bop P inverse u (state b).
  Let matrixOf u b := asMatrixImpl d n s p points bop kg P inverse u (state b).
  Let Z b := inverse (H b).
  Let inverse' := negatedInverse inverse.
  Definition symmetricState (u b : nat -> R) : Prop := symmetric N (K u b) /\ (forall q r, H b q r = H b r q).

  Lemma mix_symmetric u b : symmetricState u b ->
    symmetricAt d n (s + s) points (mixStress s Es) (mixTangent s Dc) E' E_d' E_a' E_dd' zero_aa u b.
  Proof.
    intros (S1 & S2). split.
    - intros k l Hk Hl. unfold E', E_d', E_dd'. rewrite !mix_k by assumption. apply S1; assumption.
    - intros q r. unfold E', E_a'. rewrite mix_h. f_equal. apply S2.
  Qed.
  Lemma mix_inverse u b : isInverse p (H b) (Z b) ->
    isInverse p (easD (s + s) points (mixStress s Es) (mixTangent s Dc) E' E_a' zero_aa u b)
      (inverse' (easD (s + s) points (mixStress s Es) (mixTangent s Dc) E' E_a' zero_aa u b)).
  Proof.
    unfold E', E_a', inverse'. rewrite inverse_h, mix_h. fold state. change (asH s points P (state b)) with (H b). fold (Z b).
    intros (A & B). split; intros i j Hi Hj; [rewrite <- (A i j Hi Hj)|rewrite <- (B i j Hi Hj)]; unfold mul; apply sum_ext; intros; ring.
  Qed.

  (** C115: the matrix of the element is K + G^T H^-1 G *)
  Theorem C115_schur u b k l : symmetricState u b -> isInverse p (H b) (Z b) -> (k < N)%nat -> (l < N)%nat ->
    matrixOf u b zeroMatrix k l = K u b k l + sum p (fun q => sum p (fun r => G u q k * Z b q r * G u r l)).
  Proof.
    intros HS HZ Hk Hl.
    assert (Q := C108_schur d n (s + s) p points dpos (mixStress s Es) (mixTangent s Dc) E' E_d' E_a' E_dd' zero_aa zero_ad inverse' u b k l
      (mix_symmetric u b HS) (mix_inverse u b HZ) Hk Hl).
    unfold E', E_d', E_a', E_dd', inverse' in Q. rewrite mix_matrix in Q by assumption. unfold matrixOf, state. rewrite Q.
    unfold schur. rewrite mix_k, inverse_h by assumption. unfold Rminus. f_equal.
    match goal with |- - ?x = _ => transitivity (x * -1); [ring|] end.
    rewrite <- sum_mul_r. apply sum_ext. intros q _. rewrite <- sum_mul_r. apply sum_ext. intros r _. rewrite !mix_g by assumption. unfold Z, H, G, state. ring.
  Qed.

  (** C115: with G and H held fixed, the matrix is the Jacobian of the vector *)
  Theorem C115_frozen u b : suited u b -> symmetricState u b -> isInverse p (H b) (Z b) ->
    isJacobian N N (fun y k => force y b k + sum p (fun q => sum p (fun r => G u q k * Z b q r * rest y b r))) (matrixOf u b zeroMatrix) u.
  Proof.
    intros Hs HS HZ k Hk.
    assert (Q := C108_frozen d n (s + s) p points dpos (mixPsi s chi) (mixStress s Es) (mixTangent s Dc) E' E_d' E_a' E_dd' zero_aa zero_ad inverse' u b
      (suited_suitable u b Hs) (mix_symmetric u b HS) (mix_inverse u b HZ) k Hk).
    eapply gradient_ext; [exact Q|..].
    - intros y. cbv beta. unfold E', E_d', E_a', inverse'. rewrite (mix_forces d n s p points dpos eps bop P Es Dc), inverse_h, (mix_rtilde s p points eps P Es Dc) by assumption. fold state. change (asForces d n s p points bop P y (state b) zeroVector) with (force y b).
      unfold Rminus. f_equal. match goal with |- - ?x = _ => transitivity (x * -1); [ring|] end.
      rewrite <- sum_mul_r. apply sum_ext. intros q _. rewrite <- sum_mul_r. apply sum_ext. intros r _. rewrite !mix_g by assumption. unfold Z, H, G, rest. ring.
    - intros l Hl. unfold E', E_d', E_a', E_dd', inverse'. rewrite mix_matrix by assumption. reflexivity.
  Qed.

  (** C115: along every pair of curves on which the residual of the stress parameters vanishes, the forces change with the matrix of the
      element, the functional with the forces, and the vector of the element is the forces *)
  Theorem C115_equilibrium u b c v a w : suited u b -> symmetricState u b -> isInverse p (H b) (Z b) ->
    passes N c u v -> passes p a b w -> (forall t q, (q < p)%nat -> rest (c t) (a t) q = 0) ->
    (forall k, (k < N)%nat -> is_derive (fun t => force (c t) (a t) k) 0 (dot N (matrixOf u b zeroMatrix k) v)) /\
    is_derive (fun t => mixedEnergy (c t) (a t)) 0 (dot N (force u b) v) /\
    (forall t k, (k < N)%nat -> vectorOf (c t) (a t) zeroVector k = force (c t) (a t) k).
  Proof.
    intros Hs HS HZ Pc Pa Hr.
    destruct (C108_equilibrium d n (s + s) p points dpos (mixPsi s chi) (mixStress s Es) (mixTangent s Dc) E' E_d' E_a' E_dd' zero_aa zero_ad inverse' u b c v a w
      (suited_suitable u b Hs) (mix_symmetric u b HS) (mix_inverse u b HZ) Pc Pa) as (Q1 & Q2 & Q3).
    { intros t q Hq. unfold E', E_a'. rewrite (mix_rtilde s p points eps P Es Dc). apply Hr, Hq. }
    split; [|split].
    - intros k Hk. eapply derive_eq.
      + eapply is_derive_ext; [|exact (Q1 k Hk)]. intros t. exact (mix_forces d n s p points dpos eps bop P Es Dc (c t) (a t) zeroVector k Hk).
      + unfold dot. apply sum_ext. intros l Hl. unfold E', E_d', E_a', E_dd', inverse'. rewrite mix_matrix by assumption. reflexivity.
    - eapply derive_eq.
      + eapply is_derive_ext; [|exact Q2]. intros t. apply mixed_energy.
      + unfold dot. apply sum_ext. intros l Hl. unfold E', E_d'. rewrite (mix_forces d n s p points dpos eps bop P Es Dc) by assumption. reflexivity.
    - intros t k Hk. specialize (Q3 t k Hk). unfold E', E_d', E_a', inverse' in Q3. rewrite mix_vector, (mix_forces d n s p points dpos eps bop P Es Dc) in Q3 by assumption. exact Q3.
  Qed.

  (** C115: if the displacements are corrected by dx, then the correction of the stress parameters makes it the Newton step of the
      equations of the displacements and of the stress parameters, exactly if dx solves the equations of the element (or of the
      structure: the vectors and matrices of the elements are summed on both sides) *)
  Theorem C115_newton u b dx : symmetricState u b -> isInverse p (H b) (Z b) ->
    let w q := beta (updateState d n s p points eps bop P materialInversion inverse u dx (state b)) q - b q in
    (forall k, (k < N)%nat -> force u b k + dot N (K u b k) dx + dot p (fun q => G u q k) w =
       vectorOf u b zeroVector k + dot N (matrixOf u b zeroMatrix k) dx) /\
    (newtonStep N p (force u b) (rest u b) (K u b) (fun k q => G u q k) (G u) (fun q r => - H b q r) dx w <->
     forall k, (k < N)%nat -> vectorOf u b zeroVector k + dot N (matrixOf u b zeroMatrix k) dx = 0).
  Proof.
    intros HS HZ w.
    assert (W : forall q, w q = sum p (fun r => Z b q r * (rest u b r + dot N (G u r) dx))).
    { intros q. transitivity (b q + sum p (fun r => Z b q r * (rest u b r + dot N (G u r) dx)) - b q); [reflexivity|ring]. }
    assert (First : forall k, (k < N)%nat -> force u b k + dot N (K u b k) dx + dot p (fun q => G u q k) w =
       vectorOf u b zeroVector k + dot N (matrixOf u b zeroMatrix k) dx).
    { intros k Hk.
      assert (M : dot N (matrixOf u b zeroMatrix k) dx = dot N (K u b k) dx + sum p (fun q => sum p (fun r => G u q k * Z b q r * dot N (G u r) dx))).
      { transitivity (dot N (fun l => K u b k l + sum p (fun q => sum p (fun r => G u q k * Z b q r * G u r l))) dx).
        - apply sum_ext. intros l Hl. rewrite C115_schur by assumption. reflexivity.
        - rewrite dot_add_l. f_equal. rewrite (dot_sum_l N p (fun q l => sum p (fun r => G u q k * Z b q r * G u r l))).
          apply sum_ext. intros q _. rewrite (dot_sum_l N p (fun r l => G u q k * Z b q r * G u r l)). apply sum_ext. intros r _.
          unfold dot. rewrite <- sum_mul_l. apply sum_ext. intros. ring. }
      rewrite M. unfold vectorOf, asVectorImpl. change (asForces d n s p points bop P u (state b) zeroVector) with (force u b).
      change (asH s points P (state b)) with (H b). change (inverse (H b)) with (Z b). change (asG d n s points bop P u) with (G u).
      change (asRtilde s points eps P u (state b)) with (rest u b).
      transitivity (force u b k + (sum p (fun q => sum p (fun r => G u q k * Z b q r * rest u b r)) + sum p (fun q => sum p (fun r => G u q k * Z b q r * dot N (G u r) dx))) + dot N (K u b k) dx); [|ring].
      rewrite <- sum_add. rewrite (sum_ext p (fun i => sum p _ + sum p _) (fun q => G u q k * w q)); [unfold dot; ring|].
      intros q _. rewrite <- sum_add, W, <- sum_mul_l. apply sum_ext. intros. ring. }
    split; [exact First|].
    assert (Second : forall q, (q < p)%nat -> rest u b q + dot N (G u q) dx + dot p (fun r => - H b q r) w = 0).
    { intros q Hq. set (y r := rest u b r + dot N (G u r) dx). change (y q + dot p (fun r => - H b q r) w = 0).
      replace (dot p (fun r => - H b q r) w) with (- y q); [ring|].
      transitivity (sum p (fun r => mul p (H b) (Z b) q r * y r) * -1).
      - rewrite (sum_ext p _ (fun r => identity q r * y r)); [rewrite sum_id_l by assumption; ring|]. intros r Hr. rewrite (proj1 HZ) by assumption. reflexivity.
      - rewrite <- sum_mul_r. unfold dot. rewrite (sum_ext p (fun i => - H b q i * w i) (fun i => sum p (fun r => H b q i * Z b i r * y r * -1))).
        + rewrite sum_swap. apply sum_ext. intros r _. unfold mul. rewrite <- !sum_mul_r. reflexivity.
        + intros i _. rewrite W, <- sum_mul_l. apply sum_ext. intros. unfold y. ring. }
    split.
    - intros (A & _) k Hk. rewrite <- First by assumption. apply A, Hk.
    - intros A. split; [|exact Second]. intros k Hk. rewrite First by assumption. apply A, Hk.
  Qed.

  (** C115: the vector is added to the vector that is given, whatever the stored state; the matrix is added to a given symmetric matrix *)
  Theorem C115_adds_partial u st f M k l : (k < N)%nat -> (l < N)%nat ->
    asVectorImpl d n s p points eps bop P inverse u st f k = f k + asVectorImpl d n s p points eps bop P inverse u st zeroVector k /\
    (symmetric N M -> asMatrixImpl d n s p points bop kg P inverse u st M k l = M k l + asMatrixImpl d n s p points bop kg P inverse u st zeroMatrix k l).
  Proof.
    intros Hk Hl. unfold asVectorImpl, asMatrixImpl. split.
    - rewrite !as_forces_sum by assumption. unfold zeroVector. ring.
    - intros HS. cbv zeta. destruct (Nat.ltb_spec l k).
      + destruct (Nat.leb_spec l k); [|lia]. rewrite !as_geometric_sum by assumption. rewrite (HS l k) by assumption. unfold zeroMatrix. ring.
      + destruct (Nat.leb_spec k l); [|lia]. rewrite !as_geometric_sum by assumption. unfold zeroMatrix. ring.
  Qed.
End AssumedStress.

(** C115: a given matrix that is not symmetric, from another skill of the element, is not kept *)
Theorem C115_adds_refuted d n s p points bop kg P inverse u st : (0 < d)%nat -> (1 < d * n)%nat ->
  exists M, let matrixOf := asMatrixImpl d n s p points bop kg P inverse u st in
  matrixOf M 1%nat 0%nat <> M 1%nat 0%nat + matrixOf zeroMatrix 1%nat 0%nat.
Proof.
  intros dpos HN. exists (fun k l => if (k =? 1)%nat then 1 else 0). cbv zeta. unfold asMatrixImpl. cbv zeta. cbn [Nat.ltb Nat.leb Nat.eqb].
  rewrite !as_geometric_sum by lia. unfold zeroMatrix. cbn [Nat.eqb]. lra.
Qed.

(** The hypotheses hold for Green-Lagrange strains and a linear material, at all displacements and stress parameters *)
Example C114_applies d n p points dN P C u b : (0 < d <= 3)%nat -> symmetric (voigtLength d) C ->
  let s := voigtLength d in
  suited d n s p points (glStrain d n dN) (glBop d n dN) (glKg d dN) P (linearEnergy s (fun _ => C)) (linearStress_ s (fun _ => C)) (fun _ => C) u b.
Proof.
  intros Hd HC s gp _. destruct (C96_green_lagrange d n ltac:(lia) dN gp u ltac:(lia)) as (H1 & _). split; [exact H1|split; [|split]].
  - intros T T' HT i j a c. unfold glKg. apply sum_ext. intros m Hm. rewrite HT by assumption. reflexivity.
  - apply quadratic_hyperelastic. exact HC.
  - exact HC.
Qed.
Print Assumptions C114_complementary.
Print Assumptions C114_forces.
Print Assumptions C114_tangent.
Print Assumptions C114_symmetric.
Print Assumptions C114_history.
Print Assumptions C115_schur.
Print Assumptions C115_frozen.
Print Assumptions C115_equilibrium.
Print Assumptions C115_newton.
Print Assumptions C115_adds_partial.
Print Assumptions C115_adds_refuted.
