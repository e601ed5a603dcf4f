(** Property C54 continued: a truss is a skill whose forces and matrix derive from its energy along every motion and that adds to what
    other skills of the element computed. *)

From Coq Require Import Reals Arith Bool List Lia Lra.
From Coquelicot Require Import Coquelicot.
From Verif Require Import Tensor_Spec Conversions_Props Element_Spec Element_Model Element_Proofs Element_Props Truss_Model Truss_Props.
Import ListNotations.
Local Open Scope R_scope.

Definition trussSkill (d : nat) (E A : R) (X1 X2 : nat -> R) : skill :=
  {| skillScalar := trussEnergy d E A X1 X2; skillVector := trussForce d E A X1 X2; skillMatrix := trussMatrix d E A X1 X2 |}.

Section Truss.
  Variables (d : nat) (E A : R) (X1 X2 : nat -> R).
  Hypothesis P : proper d X1 X2.
  Let Lsq := sum d (fun k => (X2 k - X1 k) * (X2 k - X1 k)).

  Lemma Lsq_pos : 0 < Lsq. Proof. apply proper_length, P. Qed.

  Lemma span_derive c u v k : passes (d + d) c u v -> (k < d)%nat ->
    span d X1 X2 (c 0) k = span d X1 X2 u k /\ is_derive (fun t => span d X1 X2 (c t) k) 0 (rel d v k).
  Proof.
    intros H Hk. destruct (H k ltac:(lia)) as [a b]. destruct (H (d + k)%nat ltac:(lia)) as [a' b']. unfold span, rel. split.
    - rewrite a, a'. reflexivity.
    - apply (derive_eq _ (0 + (v (d + k)%nat - v k))); [|ring]. apply @is_derive_plus; [apply @is_derive_const|].
      apply @is_derive_minus; assumption.
  Qed.

  Lemma gradient_Egl u : isGradient (d + d) (fun y => Egl (computeStrain d X1 X2 y)) (dEdu (computeStrain d X1 X2 u)) u.
  Proof.
    intros c v H. unfold dot. rewrite dEdu_dot. fold Lsq.
    apply (is_derive_ext (fun t => (sum d (fun k => span d X1 X2 (c t) k * span d X1 X2 (c t) k) - Lsq) * (1 / 2 / Lsq))).
    - intros t. match goal with |- ?a = ?b => change (@eq R a b) end. rewrite Egl_span. fold Lsq. field. apply Rgt_not_eq, Lsq_pos.
    - apply (derive_eq _ ((sum d (fun k => rel d v k * span d X1 X2 (c 0) k + span d X1 X2 (c 0) k * rel d v k) - 0) * (1 / 2 / Lsq))).
      + apply derive_scale. apply @is_derive_minus; [|apply @is_derive_const].
        apply (derive_sum d (fun k t => span d X1 X2 (c t) k * span d X1 X2 (c t) k)). intros k Hk.
        destruct (span_derive c u v k H Hk) as [_ D]. apply (derive_mult (fun t => span d X1 X2 (c t) k) (fun t => span d X1 X2 (c t) k)); exact D.
      + rewrite (sum_ext d _ (fun k => 2 * (span d X1 X2 u k * rel d v k))).
        * rewrite sum_mul_l. field. apply Rgt_not_eq, Lsq_pos.
        * intros k Hk. destruct (span_derive c u v k H Hk) as [-> _]. ring.
  Qed.

  Lemma gradient_dEdu u i : (i < d + d)%nat ->
    isGradient (d + d) (fun y => dEdu (computeStrain d X1 X2 y) i) (ddEddu (computeStrain d X1 X2 u) i) u.
  Proof.
    intros Hi c v H. unfold dot. rewrite ddEddu_apply by assumption. fold Lsq.
    apply (is_derive_ext (fun t => (if (i <? d)%nat then span d X1 X2 (c t) i * -1 else span d X1 X2 (c t) (i - d)) * / Lsq)).
    - intros t. match goal with |- ?a = ?b => change (@eq R a b) end. cbn [computeStrain dEdu]. fold Lsq. unfold span, Rdiv. destruct (i <? d)%nat; ring.
    - unfold Rdiv. destruct (Nat.ltb_spec i d) as [L|L].
      + replace (- rel d v i) with (rel d v i * -1) by ring. apply derive_scale, derive_scale. apply (span_derive c u v i H L).
      + apply derive_scale. apply (span_derive c u v (i - d) H). lia.
  Qed.

  Theorem C54_skill : consistentSkill (d + d) (fun _ => True) (trussSkill d E A X1 X2).
  Proof.
    assert (R : forall u u', refLength (computeStrain d X1 X2 u) = refLength (computeStrain d X1 X2 u')) by reflexivity.
    split; [|split; [|split; [|split]]]; cbn [trussSkill skillScalar skillVector skillMatrix].
    - intros u _. set (L := refLength (computeStrain d X1 X2 u)).
      eapply gradient_ext; [apply (gradient_scale (d + d) _ _ u (1 / 2 * E * A * L) (gradient_mult _ _ _ _ _ u (gradient_Egl u) (gradient_Egl u)))|..].
      + intros y. unfold trussEnergy. cbv beta zeta. rewrite (R y u). fold L. ring.
      + intros k _. unfold trussForce, zeroVector. cbv zeta. fold L. field.
    - intros u _ i Hi. set (L := refLength (computeStrain d X1 X2 u)).
      eapply gradient_ext; [apply (gradient_scale (d + d) _ _ u (E * A * L) (gradient_mult _ _ _ _ _ u (gradient_Egl u) (gradient_dEdu u i Hi)))|..].
      + intros y. unfold trussForce, zeroVector. cbv beta zeta. rewrite (R y u). fold L. ring.
      + intros k _. unfold trussMatrix, zeroMatrix. cbv zeta. fold L. ring.
    - intros u f k _. unfold trussForce, zeroVector. cbv zeta. ring.
    - intros u K k l _ _ _ _. unfold trussMatrix, zeroMatrix. cbv zeta. ring.
    - intros u _ i j _ _. apply C54_symmetric.
  Qed.
End Truss.
Print Assumptions C54_skill.

(** A bar along a diagonal, with a second bar between the same nodes *)
Example C54_skill_applies :
  consistentSkill 4 (fun _ => True) (mixin [
    trussSkill 2 210 1 (fun _ => 0) (fun k => match k with O => 3 | _ => 4 end);
    trussSkill 2 70 2 (fun _ => 0) (fun k => match k with O => 3 | _ => 4 end)]).
Proof.
  apply C101_composition. constructor; [|constructor; [|constructor]]; apply (C54_skill 2); exists 0%nat; split; (lia || lra).
Qed.
