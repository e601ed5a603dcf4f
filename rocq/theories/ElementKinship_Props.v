(** C182: nonlinear solids linearise to linear ones, and the truss along a line is a one-dimensional solid (models: Element_Model.v, Truss_Model.v). *)

From Coq Require Import Reals Arith Bool List Lia Lra.
From Coquelicot Require Import Coquelicot.
From Verif Require Import Tensor_Spec Tensor_Model Tensor_Props Conversions_Spec Conversions_Props Element_Spec Element_Model Element_Proofs Element_Props
  StructureReactions_Props Truss_Model Truss_Props FlatShell_Props.
Import ListNotations.
Local Open Scope R_scope.

(** ** Small displacements *)
(** A material free of stress without strain, with the moduli [C] there *)
Definition unstressed (s : nat) (stress : (nat -> R) -> nat -> R) (tangent : (nat -> R) -> nat -> nat -> R) (C : nat -> nat -> R) : Prop :=
  forall e, (forall m, (m < s)%nat -> e m = 0) -> (forall m, (m < s)%nat -> stress e m = 0) /\ (forall p q, (p < s)%nat -> (q < s)%nat -> tangent e p q = C p q).

Section Linearised.
  Variables (d n : nat) (points : list point) (dN : point -> nat -> nat -> R).
  Hypothesis d3 : (0 < d <= 3)%nat.
  Let s := voigtLength d.
  Variables (stress : (nat -> R) -> nat -> R) (tangent : (nat -> R) -> nat -> nat -> R) (C : nat -> nat -> R).
  Hypothesis Un : unstressed s stress tangent C.

  Lemma gradient_at_rest gp k a : displacementGradientOf d n (dN gp) zeroVector k a = 0.
  Proof. unfold displacementGradientOf, zeroVector. apply sum_zero. intros. ring. Qed.
  Lemma strain_at_rest gp m : glStrain d n dN gp zeroVector m = 0.
  Proof.
    unfold glStrain, strainVector, greenLagrangeOf. destruct (component d m) as (a, b). rewrite !gradient_at_rest, sum_zero by (intros; rewrite !gradient_at_rest; ring).
    destruct (a =? b)%nat; ring.
  Qed.
  Lemma bop_at_rest gp i m k u : glBop d n dN gp zeroVector i m k = smallBop d dN gp u i m k.
  Proof.
    unfold glBop, smallBop, strainVector, glFirst. destruct (component d m) as (a, b). rewrite !gradient_at_rest, !Rplus_0_r. reflexivity.
  Qed.

  (** At rest there are no forces and the stiffness is that of the linear solid at any displacement *)
  Theorem C182_linearised u k l : (k < d * n)%nat -> (l < d * n)%nat ->
    nonlinearVector d n s points (glStrain d n dN) (glBop d n dN) stress false zeroVector zeroVector k = 0 /\
    nonlinearMatrix d n s points (glStrain d n dN) (glBop d n dN) (glKg d dN) stress tangent false zeroVector zeroMatrix k l =
    linearMatrix d n s points (smallStrain d n dN) (smallBop d dN) (fun _ => C) false u zeroMatrix k l.
  Proof.
    intros Hk Hl.
    assert (R0 : forall gp, (forall m, (m < s)%nat -> stress (glStrain d n dN gp zeroVector) m = 0) /\
      (forall p q, (p < s)%nat -> (q < s)%nat -> tangent (glStrain d n dN gp zeroVector) p q = C p q)).
    { intros gp. apply Un. intros. apply strain_at_rest. }
    split.
    - unfold nonlinearVector. rewrite (vector_sum d n s points) by (assumption || lia). unfold zeroVector at 1. rewrite Rplus_0_l. apply sumP_none. intros gp _.
      unfold pointVector. rewrite sum_zero; [ring|]. intros m Hm. rewrite (proj1 (R0 gp)) by assumption. ring.
    - rewrite (matrix_sum d n s points), (linear_matrix_sum d n s points) by (assumption || lia). f_equal. apply sumP_ext. intros gp _.
      unfold pointMatrix. f_equal. unfold glKg. fold s. rewrite (sum_zero s (fun m => stress _ m * _)) by (intros m Hm; rewrite (proj1 (R0 gp)) by assumption; ring).
      rewrite Rplus_0_r. apply sum_ext. intros p Hp. apply sum_ext. intros q Hq. rewrite !(bop_at_rest gp _ _ _ u), (proj2 (R0 gp)) by assumption. reflexivity.
  Qed.

  (** So the forces of small displacements are those of the linear solid up to higher order *)
  Theorem C182_small_forces v k : (k < d * n)%nat -> symmetric s C ->
    (forall gp, In gp points -> isJacobian s s stress (tangent (glStrain d n dN gp zeroVector)) (glStrain d n dN gp zeroVector)) ->
    is_derive (fun t => nonlinearVector d n s points (glStrain d n dN) (glBop d n dN) stress false (fun m => t * v m) zeroVector k) 0
      (linearVector d n s points (smallStrain d n dN) (smallBop d dN) (fun _ => C) false v zeroVector k).
  Proof.
    intros Hk Sy Hj.
    assert (Jac : forall gp, In gp points -> isGradient (d * n) (fun y => pointVector d s (glBop d n dN) (stress (glStrain d n dN gp y)) gp y k)
      (fun l => pointMatrix d s (glBop d n dN) (glKg d dN) (stress (glStrain d n dN gp zeroVector)) (tangent (glStrain d n dN gp zeroVector)) gp zeroVector k l) zeroVector).
    { intros gp Hgp. destruct (C96_green_lagrange d n (proj1 d3) dN gp zeroVector (proj2 d3)) as ((Hd & Hs) & _).
      apply (point_forces d n s (glStrain d n dN) (glBop d n dN) (glKg d dN) stress tangent gp zeroVector Hd Hs (Hj gp Hgp) k Hk). }
    assert (G := gradient_sumP (d * n) points (fun gp y => pointVector d s (glBop d n dN) (stress (glStrain d n dN gp y)) gp y k) _ zeroVector Jac).
    assert (Pa : passes (d * n) (fun t m => t * v m) zeroVector v).
    { intros m Hm. split; [unfold zeroVector; ring|]. auto_derive; [exact I|ring]. }
    assert (D := G _ _ Pa).
    eapply is_derive_ext; [intros t; symmetry; unfold nonlinearVector; rewrite (vector_sum d n s points) by (assumption || lia); unfold zeroVector; rewrite Rplus_0_l; reflexivity|].
    match type of D with is_derive _ _ ?x => replace (linearVector d n s points (smallStrain d n dN) (smallBop d dN) (fun _ => C) false v zeroVector k) with x; [exact D|] end.
    assert (M : forall l, (l < d * n)%nat -> sumP points (fun gp => pointMatrix d s (glBop d n dN) (glKg d dN) (stress (glStrain d n dN gp zeroVector)) (tangent (glStrain d n dN gp zeroVector)) gp zeroVector k l) =
      linearMatrix d n s points (smallStrain d n dN) (smallBop d dN) (fun _ => C) false zeroVector zeroMatrix k l).
    { intros l Hl. rewrite <- (proj2 (C182_linearised zeroVector k l Hk Hl)). rewrite (matrix_sum d n s points) by (assumption || lia). unfold zeroMatrix. ring. }
    transitivity (dot (d * n) (linearMatrix d n s points (smallStrain d n dN) (smallBop d dN) (fun _ => C) false zeroVector zeroMatrix k) v).
    - unfold dot. apply sum_ext. intros l Hl. now rewrite <- M.
    - (* the linear forces are the stiffness times the displacements *)
      assert (Lj := C96_linear_stiffness d n s points (proj1 d3) (smallStrain d n dN) (smallBop d dN) C Sy zeroVector
        (fun gp _ => small_linearStrain d n dN d3 gp) k Hk).
      assert (D' := Lj _ _ Pa). cbv beta in D'.
      assert (E : forall t, linearVector d n s points (smallStrain d n dN) (smallBop d dN) (fun _ => C) false (fun m => t * v m) zeroVector k =
        t * linearVector d n s points (smallStrain d n dN) (smallBop d dN) (fun _ => C) false v zeroVector k).
      { intros t. unfold linearVector. rewrite !(vector_sum d n s points) by (assumption || lia). unfold zeroVector. rewrite !Rplus_0_l, sumP_const_l. apply sumP_ext. intros gp _.
        unfold pointVector. rewrite <- Rmult_assoc, <- sum_mul_l. f_equal. apply sum_ext. intros p Hp. unfold linearStress_, apply.
        rewrite (sum_ext s (fun q => C p q * smallStrain d n dN gp (fun m => t * v m) q) (fun q => t * (C p q * smallStrain d n dN gp v q))).
        - rewrite sum_mul_l. unfold smallBop. ring.
        - intros q Hq. replace (smallStrain d n dN gp (fun m => t * v m) q) with (t * smallStrain d n dN gp v q); [ring|].
          unfold smallStrain, strainVector. destruct (component d q) as (a, b).
          assert (HH : forall x y, displacementGradientOf d n (dN gp) (fun m => t * v m) x y = t * displacementGradientOf d n (dN gp) v x y).
          { intros x y. unfold displacementGradientOf. rewrite <- sum_mul_l. apply sum_ext. intros. ring. }
          rewrite !HH. destruct (a =? b)%nat; ring. }
      assert (D2 : is_derive (fun t => linearVector d n s points (smallStrain d n dN) (smallBop d dN) (fun _ => C) false (fun m => t * v m) zeroVector k) 0
        (linearVector d n s points (smallStrain d n dN) (smallBop d dN) (fun _ => C) false v zeroVector k)).
      { apply (is_derive_ext (fun t => t * linearVector d n s points (smallStrain d n dN) (smallBop d dN) (fun _ => C) false v zeroVector k)); [intros t; symmetry; apply E|].
        generalize (linearVector d n s points (smallStrain d n dN) (smallBop d dN) (fun _ => C) false v zeroVector k). intros c. auto_derive; [exact I|ring]. }
      rewrite <- (is_derive_unique _ _ _ D2). symmetry. apply is_derive_unique. exact D'.
  Qed.
End Linearised.
Print Assumptions C182_linearised.
Print Assumptions C182_small_forces.

(** ** Bars *)
(** A truss in one dimension is a solid of the cross section with constant derivatives of its shape functions *)
Section Bar.
  Variables (E A : R) (X1 X2 : nat -> R) (points : list point) (dN : point -> nat -> nat -> R).
  Let L := X2 0%nat - X1 0%nat.
  Hypothesis Lp : 0 < L.
  Hypothesis rule : sumP points (fun gp => integrationElement gp * weight gp) = L.
  Hypothesis shapes : forall gp, In gp points -> dN gp 0%nat 0%nat = - / L /\ dN gp 1%nat 0%nat = / L.
  Let C := fun _ _ : nat => E.

  Theorem C182_bar u k l : (k < 2)%nat -> (l < 2)%nat ->
    trussEnergy 1 E A X1 X2 u = A * nonlinearScalar points (glStrain 1 2 dN) (linearEnergy 1 (fun _ => C)) false u /\
    trussForce 1 E A X1 X2 u nothing k = A * nonlinearVector 1 2 1 points (glStrain 1 2 dN) (glBop 1 2 dN) (linearStress_ 1 (fun _ => C)) false u zeroVector k /\
    trussMatrix 1 E A X1 X2 u nothing2 k l =
      A * nonlinearMatrix 1 2 1 points (glStrain 1 2 dN) (glBop 1 2 dN) (glKg 1 dN) (linearStress_ 1 (fun _ => C)) (fun _ => C) false u zeroMatrix k l.
  Proof.
    intros Hk Hl.
    assert (Sq : sqrt (sum 1 (fun m => (X2 m - X1 m) * (X2 m - X1 m))) = L).
    { cbn [sum]. rewrite Rplus_0_l. fold L. apply sqrt_square. lra. }
    assert (Q : forall f c, (forall gp, In gp points -> f gp = c) -> sumP points (fun gp => f gp * vol gp) = c * L).
    { intros f c Hf. rewrite <- rule, sumP_const_l. apply sumP_ext. intros gp Hgp. now rewrite Hf. }
    assert (N1 : forall m, (m / 1 = m)%nat) by (intros; apply Nat.div_1_r). assert (M1 : forall m, (m mod 1 = 0)%nat) by (intros; apply Nat.mod_1_r).
    split; [|split].
    - unfold nonlinearScalar. rewrite energy_sum.
      rewrite (Q (fun gp => linearEnergy 1 (fun _ => C) (glStrain 1 2 dN gp u)) (1 / 2 * E * ((u 1%nat - u 0%nat) / L + 1 / 2 * ((u 1%nat - u 0%nat) / L) ^ 2) ^ 2)).
      + unfold trussEnergy. cbn [computeStrain refLength Egl]. rewrite Sq. cbn [sum Nat.add]. unfold L. field. unfold L in Lp. lra.
      + intros gp Hgp. destruct (shapes gp Hgp) as (S0 & S1).
        unfold linearEnergy, dot, apply, glStrain, strainVector, greenLagrangeOf, displacementGradientOf, C. cbn. rewrite S0, S1. field. lra.
    - unfold nonlinearVector. rewrite (vector_sum 1 2 1 points) by lia. unfold zeroVector, pointVector. rewrite Rplus_0_l, N1, M1.
      rewrite (Q _ (E * ((u 1%nat - u 0%nat) / L + 1 / 2 * ((u 1%nat - u 0%nat) / L) ^ 2) * ((1 + (u 1%nat - u 0%nat) / L) * (if (k =? 0)%nat then - / L else / L)))).
      + unfold trussForce, nothing. cbn [computeStrain refLength Egl dEdu]. rewrite Sq. destruct k as [|[|k]]; [..|lia]; cbn; unfold L; field; unfold L in Lp; lra.
      + intros gp Hgp. destruct (shapes gp Hgp) as (S0 & S1).
        unfold linearStress_, apply, glBop, glFirst, glStrain, strainVector, greenLagrangeOf, displacementGradientOf, C, identity.
        destruct k as [|[|k]]; [..|lia]; cbn; rewrite S0, S1; field; lra.
    - rewrite (matrix_sum 1 2 1 points) by lia. unfold zeroMatrix, pointMatrix. rewrite Rplus_0_l, !N1, !M1.
      rewrite (Q _ (E * ((1 + (u 1%nat - u 0%nat) / L) ^ 2 + ((u 1%nat - u 0%nat) / L + 1 / 2 * ((u 1%nat - u 0%nat) / L) ^ 2)) * ((if (k =? 0)%nat then - / L else / L) * (if (l =? 0)%nat then - / L else / L)))).
      + unfold trussMatrix, nothing2. cbn [computeStrain refLength Egl dEdu ddEddu]. rewrite Sq.
        destruct k as [|[|k]]; [..|lia]; destruct l as [|[|l]]; try lia; cbn; unfold L; field; unfold L in Lp; lra.
      + intros gp Hgp. destruct (shapes gp Hgp) as (S0 & S1).
        unfold linearStress_, apply, glBop, glKg, glSecond, glFirst, glStrain, strainVector, greenLagrangeOf, displacementGradientOf, C, identity.
        destruct k as [|[|k]]; [..|lia]; destruct l as [|[|l]]; try lia; cbn; rewrite S0, S1; field; lra.
  Qed.
End Bar.
Print Assumptions C182_bar.

(** A bar of length two with two integration points, and a material whose stress 3 e + e^2 is not linear *)
Definition barPoints : list point := [{| position := fun _ => 1 / 2; integrationElement := 2; weight := 1 / 2 |}; {| position := fun _ => 3 / 2; integrationElement := 2; weight := 1 / 2 |}].
Definition barX1 (_ : nat) : R := 0.
Definition barX2 (_ : nat) : R := 2.
Definition bardN (_ : point) (i a : nat) : R := match i with 0%nat => - / 2 | _ => / 2 end.
Definition barU (k : nat) : R := match k with 0%nat => 0 | _ => 2 end.
Definition bentStress (e : nat -> R) (m : nat) : R := 3 * e m + e m * e m.
Definition bentTangent (e : nat -> R) (p q : nat) : R := 3 + 2 * e p.

Example C182_applies :
  unstressed 1 bentStress bentTangent (fun _ _ => 3) /\ symmetric 1 (fun _ _ : nat => 3) /\
  isJacobian 1 1 bentStress (bentTangent (fun _ => 0)) (fun _ => 0) /\
  sumP barPoints (fun gp => integrationElement gp * weight gp) = barX2 0%nat - barX1 0%nat /\
  (forall gp, bardN gp 0%nat 0%nat = - / (barX2 0%nat - barX1 0%nat) /\ bardN gp 1%nat 0%nat = / (barX2 0%nat - barX1 0%nat)) /\
  trussEnergy 1 3 5 barX1 barX2 barU = 135 / 4 /\
  linearMatrix 1 2 1 barPoints (smallStrain 1 2 bardN) (smallBop 1 bardN) (fun _ _ _ => 3) false barU zeroMatrix 0%nat 1%nat = - (3 / 2) /\
  nonlinearMatrix 1 2 1 barPoints (glStrain 1 2 bardN) (glBop 1 2 bardN) (glKg 1 bardN) bentStress bentTangent false zeroVector zeroMatrix 0%nat 1%nat = - (3 / 2).
Proof.
  assert (U : unstressed 1 bentStress bentTangent (fun _ _ => 3)).
  { intros e He. split; intros; unfold bentStress, bentTangent; rewrite He by assumption; ring. }
  assert (Li : linearMatrix 1 2 1 barPoints (smallStrain 1 2 bardN) (smallBop 1 bardN) (fun _ _ _ => 3) false barU zeroMatrix 0%nat 1%nat = - (3 / 2)).
  { rewrite (linear_matrix_sum 1 2 1 barPoints) by lia. unfold sumP, barPoints, vol, zeroMatrix, smallBop, strainVector, identity, bardN. cbn. field. }
  split; [exact U|]. split; [intros i j _ _; reflexivity|]. split; [|split; [|split; [|split; [|split; [exact Li|]]]]].
  - intros i Hi c v P. assert (i = 0%nat) as -> by lia. destruct (P 0%nat ltac:(lia)) as (P0 & Pd). unfold bentStress, bentTangent, dot. cbn [sum].
    replace (0 + (3 + 2 * 0) * v 0%nat) with (3 * v 0%nat + (v 0%nat * c 0 0%nat + c 0 0%nat * v 0%nat)) by (rewrite P0; ring).
    apply (is_derive_plus (fun t => 3 * c t 0%nat) (fun t => c t 0%nat * c t 0%nat)).
    + apply (is_derive_scal (fun t => c t 0%nat)), Pd.
    + apply (is_derive_mult (fun t => c t 0%nat) (fun t => c t 0%nat)); [exact Pd|exact Pd|]. intros; apply Rmult_comm.
  - unfold sumP, barPoints, vol, barX1, barX2. cbn. field.
  - intros gp. unfold bardN, barX1, barX2. split; f_equal; try f_equal; ring.
  - unfold trussEnergy. cbn [computeStrain refLength Egl]. unfold barX1, barX2, barU. cbn [sum].
    replace (0 + (2 - 0) * (2 - 0)) with (2 * 2) by ring. rewrite sqrt_square by lra. cbn. field.
  - rewrite <- Li. apply (C182_linearised 1 2 barPoints bardN ltac:(lia) bentStress bentTangent (fun _ _ => 3) U barU 0 1); cbn; lia.
Qed.
