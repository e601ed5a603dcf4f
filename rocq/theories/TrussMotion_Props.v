(** C196: forces and stiffness of trusses after rigid motions (model: Truss_Model.v). *)

From Coq Require Import Reals Arith Bool List Lia Lra.
From Coquelicot Require Import Coquelicot.
From Verif Require Import Tensor_Spec Tensor_Model Tensor_Props Conversions_Spec Conversions_Model Conversions_Props Element_Spec Element_Model Element_Proofs Element_Props.
From Verif Require Import Truss_Model Truss_Props Pressure_Props Objectivity_Spec Objectivity_Props StructureReactions_Props Coordinates_Props EnhancedBody_Props Corotation_Props.
Import ListNotations.
Local Open Scope R_scope.

Section Truss.
  Variables (d : nat) (E A : R) (X : nat -> nat -> R).
  Hypothesis d3 : (0 < d <= 3)%nat.
  Let N := (d * 2)%nat.
  Let X1 := X 0%nat.
  Let X2 := X 1%nat.
  Let kin := computeStrain d X1 X2.
  Let Lsq := sum d (fun k => (X2 k - X1 k) * (X2 k - X1 k)).
  (** from the first to the second displaced node *)
  Let axis (y : nat -> R) (k : nat) := X2 k + y (d + k)%nat - (X1 k + y k).

  Lemma axis_gradient k u : (k < d)%nat -> isGradient N (fun y => axis y k) (fun l => (if (l =? d + k)%nat then 1 else 0) - (if (l =? k)%nat then 1 else 0)) u.
  Proof.
    intros Hk. eapply gradient_ext.
    - apply (gradient_minus N (fun y => X2 k + y (d + k)%nat) (fun y => X1 k + y k)); apply gradient_plus; [apply gradient_const|apply gradient_coordinate|apply gradient_const|apply gradient_coordinate]; unfold N; lia.
    - reflexivity.
    - intros l _. cbv beta. ring.
  Qed.
  Lemma rate_value y k : dEdu (kin y) k = (if (k <? d)%nat then - axis y k else axis y (k - d)%nat) * / Lsq.
  Proof. unfold kin, axis. cbn [computeStrain dEdu]. fold Lsq. unfold Rdiv. f_equal. destruct (k <? d)%nat; ring. Qed.
  Lemma strain_gradient u : isGradient N (fun y => Egl (kin y)) (dEdu (kin u)) u.
  Proof.
    assert (G : forall k, (k < d)%nat -> isGradient N (fun y => axis y k * axis y k) _ u) by (intros k Hk; exact (gradient_mult _ _ _ _ _ _ (axis_gradient k u Hk) (axis_gradient k u Hk))).
    eapply gradient_ext; [exact (gradient_scale _ _ _ _ (1 / 2 * / Lsq) (gradient_plus _ _ _ _ _ _ (Element_Proofs.gradient_sum N d _ _ u G) (gradient_const N (- Lsq) u)))|..].
    - intros y. unfold kin. cbn [computeStrain Egl]. fold Lsq. unfold Rdiv.
      change (sum d (fun k => (X2 k + y (d + k)%nat - (X1 k + y k)) * (X2 k + y (d + k)%nat - (X1 k + y k)))) with (sum d (fun k => axis y k * axis y k)). ring.
    - intros l Hl. cbv beta. rewrite rate_value. destruct (Nat.ltb_spec l d) as [L|L].
      + rewrite (sum_pick d l) by (exact L || (intros k Hk Hne; destruct (Nat.eqb_spec l (d + k)); [lia|]; destruct (Nat.eqb_spec l k); [congruence|ring])).
        destruct (Nat.eqb_spec l (d + l)); [lia|]. rewrite Nat.eqb_refl. generalize (/ Lsq). intros r. lra.
      + assert (L' : (l - d < d)%nat) by (unfold N in Hl; lia).
        rewrite (sum_pick d (l - d)) by (exact L' || (intros k Hk Hne; destruct (Nat.eqb_spec l (d + k)); [lia|]; destruct (Nat.eqb_spec l k); [lia|ring])).
        destruct (Nat.eqb_spec l (d + (l - d))); [|lia]. destruct (Nat.eqb_spec l (l - d)); [lia|]. generalize (/ Lsq). intros r. lra.
  Qed.
  Lemma rate_gradient u k : (k < N)%nat -> isGradient N (fun y => dEdu (kin y) k) (ddEddu (kin u) k) u.
  Proof.
    intros Hk. eapply gradient_ext; [|intros y; symmetry; apply rate_value|].
    - apply (gradient_scale N (fun y => if (k <? d)%nat then - axis y k else axis y (k - d)%nat)
        (fun l => (if (k <? d)%nat then - ((if (l =? d + k)%nat then 1 else 0) - (if (l =? k)%nat then 1 else 0))
                   else (if (l =? d + (k - d))%nat then 1 else 0) - (if (l =? k - d)%nat then 1 else 0)))).
      destruct (Nat.ltb_spec k d).
      + eapply gradient_ext; [exact (gradient_scale _ _ _ _ (-1) (axis_gradient k u H))|..]; intros; cbv beta; ring.
      + apply axis_gradient. unfold N in Hk. lia.
    - intros l Hl. cbv beta. unfold kin. cbn [computeStrain ddEddu]. fold Lsq. unfold Rdiv. f_equal. unfold N in *.
      destruct (Nat.ltb_spec k d), (Nat.ltb_spec l d); cbn [andb negb];
      repeat match goal with |- context[(?a =? ?b)%nat] => destruct (Nat.eqb_spec a b) end; try lia; ring.
  Qed.

  Lemma axis_moved Q c y a : (a < d)%nat -> axis (moved d X Q c y) a = sum d (fun b => Q a b * axis y b).
  Proof.
    intros Ha. unfold axis, X1, X2, moved. destruct (block_index d 0 a Ha) as (D0 & M0). destruct (block_index d 1 a Ha) as (D1 & M1).
    rewrite Nat.mul_0_r, Nat.add_0_l in D0, M0. rewrite Nat.mul_1_r in D1, M1. rewrite D0, M0, D1, M1.
    rewrite (sum_ext d (fun b => Q a b * (_ - _)) (fun b => Q a b * placeOf d X y 1 b + -1 * (Q a b * placeOf d X y 0 b))).
    - rewrite sum_add, sum_mul_l. ring.
    - intros b _. unfold placeOf. rewrite Nat.mul_0_r, Nat.add_0_l, Nat.mul_1_r. ring.
  Qed.
  Lemma strain_moved Q c y : rotation d Q -> Egl (kin (moved d X Q c y)) = Egl (kin y).
  Proof.
    intros (R & _). unfold kin. cbn [computeStrain Egl]. fold Lsq.
    change (1 / 2 * (sum d (fun k => axis (moved d X Q c y) k * axis (moved d X Q c y) k) - Lsq) / Lsq = 1 / 2 * (sum d (fun k => axis y k * axis y k) - Lsq) / Lsq).
    do 3 f_equal. rewrite (sum_ext d _ (fun k => sum d (fun p => sum d (fun q => (Q k p * Q k q) * (axis y p * axis y q))))).
    - rewrite sum_swap. apply sum_ext. intros p Hp. rewrite sum_swap.
      rewrite (sum_ext d _ (fun q => identity p q * (axis y p * axis y q))); [apply (sum_id_l d p (fun q => axis y p * axis y q)), Hp|].
      intros q Hq. rewrite sum_mul_r. f_equal. apply (R p q Hp Hq).
    - intros k Hk. rewrite !axis_moved by exact Hk. rewrite <- sum_mul_r. apply sum_ext. intros p _. rewrite <- sum_mul_l. apply sum_ext. intros. ring.
  Qed.

  (** C196: trusses turn with their forces *)
  Theorem C196_truss u : corotates d 2 X (fun y => trussForce d E A X1 X2 y zeroVector) (fun y => trussMatrix d E A X1 X2 y zeroMatrix) u.
  Proof.
    apply (energy_corotates d 2 X (trussEnergy d E A X1 X2) _ _ (fun _ => True)); [exact d3|..].
    - intros y _. eapply gradient_ext; [exact (gradient_scale _ _ _ _ (1 / 2 * E * A * sqrt Lsq) (gradient_mult _ _ _ _ _ _ (strain_gradient y) (strain_gradient y)))|..].
      + intros z. unfold trussEnergy. fold (kin z). change (refLength (kin z)) with (sqrt Lsq). ring.
      + intros k _. unfold trussForce, zeroVector. fold (kin y). change (refLength (kin y)) with (sqrt Lsq). lra.
    - intros y _ k Hk. eapply gradient_ext; [exact (gradient_scale _ _ _ _ (E * A * sqrt Lsq) (gradient_mult _ _ _ _ _ _ (strain_gradient y) (rate_gradient y k Hk)))|..].
      + intros z. unfold trussForce, zeroVector. fold (kin z). change (refLength (kin z)) with (sqrt Lsq). ring.
      + intros l _. unfold trussMatrix, zeroMatrix. fold (kin y). change (refLength (kin y)) with (sqrt Lsq). ring.
    - intros Q c y R. unfold trussEnergy. fold (kin y) (kin (moved d X Q c y)). rewrite strain_moved by exact R. reflexivity.
    - auto.
    - intros c v _. apply filter_forall. auto.
  Qed.
End Truss.

(** A bar of length one along the first axis that is stretched to length two: after a quarter turn it pulls along the second axis *)
Example C196_applies :
  let X (i k : nat) := if (i =? 1)%nat && (k =? 0)%nat then 1 else 0 in
  let u (k : nat) := if (k =? 2)%nat then 1 else 0 in
  rotation 2 quarter /\ trussForce 2 1 1 (X 0%nat) (X 1%nat) u zeroVector 2%nat = 3 /\
  trussForce 2 1 1 (X 0%nat) (X 1%nat) (moved 2 X quarter zeroVector u) zeroVector 3%nat = 3.
Proof.
  intros X u.
  assert (Rot : rotation 2 quarter) by (split; [|split; [|cbn; ring]]; intros i j Hi Hj; destruct i as [|[|i]]; try lia; destruct j as [|[|j]]; try lia; unfold mul, transpose, identity; cbn; ring).
  assert (V : trussForce 2 1 1 (X 0%nat) (X 1%nat) u zeroVector 2%nat = 3).
  { unfold trussForce, zeroVector. cbn -[Rplus Rmult Rinv Ropp Rminus IZR sqrt Rdiv]. replace (0 + (1 - 0) * (1 - 0) + (0 - 0) * (0 - 0)) with 1 by ring. rewrite sqrt_1. field. }
  split; [exact Rot|]. split; [exact V|].
  destruct (C196_truss 2 1 1 X ltac:(lia) u) as (F & _). rewrite (F quarter zeroVector 3%nat Rot ltac:(lia)).
  unfold turned, turnVector. change (3 mod 2)%nat with 1%nat. cbn [sum]. change (2 * (3 / 2) + 0)%nat with 2%nat. rewrite V. unfold quarter; cbn [nth]. ring.
Qed.

Print Assumptions C196_truss.
