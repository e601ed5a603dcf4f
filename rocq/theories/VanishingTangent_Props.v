(** C145: the tangent of materials with vanishing stress components (model: VanishingStress_Model.v). *)

From Coq Require Import List Arith ZArith Reals Lra Lia Bool Sorted.
From Coquelicot Require Import Coquelicot.
From Verif Require Import Tensor_Model Tensor_Spec Tensor_Props LinearAlgebra_Model LinearAlgebra_Spec LinearAlgebra_Proofs LinearAlgebra_Props SVK_Model SVK_Spec SVK_Props.
From Verif Require Import VanishingStress_Model VanishingStress_Spec VanishingStress_Props.
Import ListNotations.
Local Open Scope R_scope.

Section General.
Variable stress : rmat -> nat -> R.
Variable moduli : rmat -> rmat.
Variable factor : R.
Variable unitStart : bool.
Variable inverse : nat -> rmat -> rmat.
Variable fixed : list (nat * nat).
Variable fx : list nat.
Variable tol : R.
Hypothesis Hsort : StronglySorted lt fx.
Hypothesis Hfx6 : forall k, In k fx -> (k < 6)%nat.
Notation reduce := (reduceStress stress moduli factor unitStart inverse fixed fx tol).
Notation stresses := (vsStressesVoigt stress moduli factor unitStart inverse fixed fx tol).
Notation tangent := (vsModuliVoigt stress moduli factor unitStart inverse fixed fx tol).

(** Given strains [Y t] and the strains [X t] found for them, with rates [x] (in the strain the moduli are the derivative for).  If
    the fixed stresses stay the same along the family, the rate of the returned stresses is the returned tangent times the rate of the
    free strains. *)
Theorem C145_consistent_partial : forall (Y X : R -> rmat) (x : nat -> R) s,
  (forall t, reduce (Y t) = Some (X t)) ->
  symmetric 6 (moduli (X 0)) ->
  (exists D, isInverse (length fx) (positions fx (moduli (X 0))) D) -> inverts inverse ->
  (forall k, (k < 6)%nat -> is_derive (fun t => stress (X t) k) 0 (row 6 (moduli (X 0)) x k)) ->
  (forall k, In k fx -> is_derive (fun t => stress (X t) k) 0 0) ->
  (forall t, stresses (Y t) = Some (6 - length fx, s t)%nat) ->
  exists rem K, tangent (Y 0) = Some (length rem, K) /\ length rem = (6 - length fx)%nat /\
    StronglySorted lt rem /\ (forall i, In i rem <-> (i < 6)%nat /\ ~ In i fx) /\
    forall i, (i < length rem)%nat ->
    is_derive (fun t => s t i) 0 (row (length rem) K (fun j => x (nth j rem 0%nat)) i).
Proof.
  intros Y X x s HX Sy Inv HI D Z HS.
  assert (B : blockInverse (moduli (X 0)) fx (inverse (length fx) (positions fx (moduli (X 0))))).
  { intros a c Ha Hc. assert (Q := HI _ _ Inv a c Ha Hc). destruct Q as [_ Q]. unfold mul, identity, positions in Q.
    rewrite sumTo_seq, <- sum_seq. exact Q. }
  assert (RZ : forall i, In i fx -> row 6 (moduli (X 0)) x i = 0).
  { intros i Hi. assert (A := D i (Hfx6 i Hi)). assert (A0 := Z i Hi). apply is_derive_unique in A. apply is_derive_unique in A0. congruence. }
  destruct (C40_condensation_partial 6 (moduli (X 0)) fx _ x Hsort Hfx6 Sy B RZ) as (rem & K & E & SR & IR & HK).
  exists rem, K. split; [unfold vsModuliVoigt; rewrite HX; exact E|].
  assert (ER : remainingIndices 6 fx = Some rem).
  { unfold staticCondensation in E. destruct (remaining_ok 6 fx Hsort Hfx6) as (rem' & ER' & _ & SR' & IR' & _).
    rewrite ER'. f_equal. 
    assert (U : forall l l', StronglySorted lt l -> StronglySorted lt l' -> (forall k, In k l <-> In k l') -> l = l').
    { clear. induction l as [|a l IH]; intros [|b l'] S1 S2 H; auto.
      - destruct (proj2 (H b)); simpl; auto.
      - destruct (proj1 (H a)); simpl; auto.
      - apply StronglySorted_inv in S1 as [S1 F1]. apply StronglySorted_inv in S2 as [S2 F2]. rewrite Forall_forall in F1, F2.
        assert (a = b).
        { destruct (proj1 (H a) (or_introl eq_refl)) as [->|P]; auto. destruct (proj2 (H b) (or_introl eq_refl)) as [->|Q]; auto.
          apply F2 in P. apply F1 in Q. lia. }
        subst b. f_equal. apply IH; auto. intros z. split; intros Hz.
        + destruct (proj1 (H z) (or_intror Hz)) as [->|Q]; auto. apply F1 in Hz. lia.
        + destruct (proj2 (H z) (or_intror Hz)) as [->|Q]; auto. apply F2 in Hz. lia. }
    apply U; auto. intros k. rewrite IR, IR'. tauto. }
  assert (EQ : forall t, length rem = (6 - length fx)%nat /\ s t = fun i => stress (X t) (nth i rem 0%nat)).
  { intros t. specialize (HS t). unfold vsStressesVoigt, removeCol in HS. rewrite HX, ER in HS. injection HS as H1 H2. auto. }
  split; [apply (EQ 0)|]. split; auto. split; auto. intros i Hi.
  apply (is_derive_ext (fun t => stress (X t) (nth i rem 0%nat))); [intros t; now rewrite (proj2 (EQ t))|].
  rewrite HK by auto. apply D. apply IR. now apply nth_In.
Qed.
(** The stored energy returned is a potential of the stresses returned, as far as the fixed stresses are zero: the strains in the thickness do no work.
    [X t] are the strains found for [Y t], with rates [x]. *)
Theorem C145_energy_partial : forall energy (Y X : R -> rmat) (x : nat -> R) s e,
  (forall t, reduce (Y t) = Some (X t)) ->
  is_derive (fun t => energy (X t)) 0 (Tensor_Spec.dot 6 (stress (X 0)) x) ->
  (forall k, In k fx -> stress (X 0) k = 0) ->
  stresses (Y 0) = Some (6 - length fx, s)%nat ->
  (forall t, vsStoredEnergy stress moduli factor unitStart inverse fixed fx tol energy (Y t) = Some (e t)) ->
  exists rem, length rem = (6 - length fx)%nat /\ StronglySorted lt rem /\ (forall i, In i rem <-> (i < 6)%nat /\ ~ In i fx) /\
    is_derive e 0 (Tensor_Spec.dot (length rem) s (fun j => x (nth j rem 0%nat))).
Proof.
  intros energy Y X x s e HX D Z HS HE.
  destruct (remaining_ok 6 fx Hsort Hfx6) as (rem & ER & _ & SR & IR & P).
  exists rem. unfold vsStressesVoigt, removeCol in HS. rewrite HX, ER in HS. injection HS as H1 H2. split; [exact H1|]. split; [exact SR|]. split; [exact IR|].
  apply (is_derive_ext (fun t => energy (X t))); [intros t; specialize (HE t); unfold vsStoredEnergy in HE; rewrite HX in HE; congruence|].
  assert (Q : Tensor_Spec.dot (length rem) s (fun j => x (nth j rem 0%nat)) = Tensor_Spec.dot 6 (stress (X 0)) x); [|rewrite Q; exact D].
  subst s. unfold Tensor_Spec.dot. rewrite !sum_seq, (sumL_perm _ _ _ P), sumL_app, (sumL_nth rem).
  assert (F0 : forall l, (forall k, In k l -> stress (X 0) k = 0) -> sumL l (fun k => stress (X 0) k * x k) = 0).
  { intros l. induction l as [|k l IH]; intros Hl; [reflexivity|]. cbn. rewrite IH by (intros; apply Hl; right; assumption). rewrite Hl by (left; reflexivity). ring. }
  rewrite (F0 fx Z). ring.
Qed.
End General.
Print Assumptions C145_consistent_partial.
Print Assumptions C145_energy_partial.

(** The full claim, that the tangent is the derivative of the returned stresses at every strain, fails within the tolerance: no
    iteration is made there, and the stress returned belongs to zero strain in the thickness direction.  St. Venant-Kirchhoff material,
    plane stress, default tolerance. *)
Definition stretch (t : R) : rmat := entries [[t; 0; 0]; [0; 0; 0]; [0; 0; 0]].
Theorem C145_within_tolerance_refuted : exists lambda mu, 0 < mu /\ 0 < 3 * lambda + 2 * mu /\
  forall inverse, inverts inverse ->
  let stresses := vsStressesVoigt (svkStress lambda mu) (svkModuli lambda mu) 1 false inverse planeStressPairs planeStressIndices (1 / 10 ^ 8) in
  let tangent := vsModuliVoigt (svkStress lambda mu) (svkModuli lambda mu) 1 false inverse planeStressPairs planeStressIndices (1 / 10 ^ 8) in
  exists s K, (forall t, stresses (stretch t) = Some (3%nat, s t)) /\ tangent (stretch 0) = Some (3%nat, K) /\
  ~ is_derive (fun t => s t 0%nat) 0 (K 0%nat 0%nat).
Proof.
  exists 1, 1. split; [lra|]. split; [lra|]. intros inverse HI. cbv zeta.
  assert (Tol : 0 <= 1 / 10 ^ 8) by lra. assert (TolP : 0 < 1 / 10 ^ 8) by lra.
  assert (Sy : forall t, symmetric 3 (stretch t)) by (intros t i j Hi Hj; cases i; cases j; reflexivity).
  assert (Q : forall t, exists s, vsStressesVoigt (svkStress 1 1) (svkModuli 1 1) 1 false inverse planeStressPairs planeStressIndices (1 / 10 ^ 8) (stretch t) = Some (3%nat, s)).
  { intros t. destruct (C44_plane_stress 1 1 (1 / 10 ^ 8) inverse ltac:(lra) ltac:(lra) Tol HI (stretch t) (Sy t)) as (s & K & H & _). eauto. }
  pose (f := fun t => match vsStressesVoigt (svkStress 1 1) (svkModuli 1 1) 1 false inverse planeStressPairs planeStressIndices (1 / 10 ^ 8) (stretch t) with
    | Some (_, s) => s | None => fun _ => 0 end).
  destruct (C44_plane_stress 1 1 (1 / 10 ^ 8) inverse ltac:(lra) ltac:(lra) Tol HI (stretch 0) (Sy 0)) as (_ & K & _ & HK & K33 & _).
  exists f, K. split; [|split; [exact HK|]].
  { intros t. unfold f. destruct (Q t) as (s & ->). reflexivity. }
  intros D.
  assert (V : K 0%nat 0%nat = 8 / 3).
  { rewrite K33 by lia. unfold planeStressMatrix, youngsModulus, poissonsRatio. cbn. field. }
  assert (N : forall t, Rabs t <= 1 / 10 ^ 8 -> f t 0%nat = 3 * t).
  { intros t Ht. unfold f, vsStressesVoigt. rewrite reduce_zero.
    - unfold removeCol. cbn. unfold svkStress, initUnknownStrains. cbn. unfold trace. cbn. ring.
    - unfold normOf, residualOf, initUnknownStrains, svkStress; cbn; unfold trace; cbn.
      match goal with |- sqrt ?y <= _ => replace y with (t²) by (unfold Rsqr; field) end. now rewrite sqrt_Rsqr_abs. }
  assert (D3 : is_derive (fun t => f t 0%nat) 0 3).
  { apply (is_derive_ext_loc (fun t => 3 * t)).
    - exists (mkposreal _ TolP). intros t Ht. symmetry. apply N. apply Rlt_le. change (Rabs (t - 0) < 1 / 10 ^ 8) in Ht. now rewrite Rminus_0_r in Ht.
    - evar_last; [apply is_derive_scal, is_derive_id|]; unfold scal, one; cbn; unfold mult; cbn; ring. }
  apply is_derive_unique in D. apply is_derive_unique in D3. rewrite D3, V in D. lra.
Qed.
Print Assumptions C145_within_tolerance_refuted.

(** A shell under stretch: the thickness strain found *)
Lemma shell_family : forall inverse, inverts inverse ->
  let reduce t := reduceStress (svkStress 1 1) (svkModuli 1 1) 1 false inverse shellPairs shellIndices 0 (stretch t) in
  let x := fun k : nat => if (k =? 0)%nat then 1 else if (k =? 2)%nat then - 1 / 3 else 0 in
  exists X, (forall t, reduce t = Some (X t)) /\ (forall t k, (k < 6)%nat -> strainVector 3 (X t) k = t * x k) /\
    forall t k, (k < 6)%nat -> svkStress 1 1 (X t) k = t * row 6 (svkModuli 1 1 (X 0)) x k.
Proof.
  intros inverse HI. cbv zeta.
  assert (A1 : StronglySorted lt shellIndices) by (repeat constructor).
  assert (A2 : forall k, In k shellIndices -> (k < 6)%nat) by (simpl; intuition lia).
  assert (A3 : forall k, In k shellIndices -> let (i, j) := component 3 k in In (i, j) shellPairs \/ In (j, i) shellPairs).
  { simpl. intuition; subst; cbn; auto. }
  assert (A4 : forall i j, In (i, j) shellPairs -> exists k, In k shellIndices /\ (component 3 k = (i, j) \/ component 3 k = (j, i))).
  { simpl. intros i j [H|[]]; injection H as <- <-. exists 2%nat; cbn; auto. }
  assert (Sy : forall t, symmetric 3 (stretch t)) by (intros t i j Hi Hj; cases i; cases j; reflexivity).
  assert (Q := fun t => C44_reduction 1 1 0 inverse ltac:(lra) ltac:(lra) ltac:(lra) HI shellPairs shellIndices A1 A2 A3 A4 (stretch t) (Sy t)).
  pose (red := fun t => reduceStress (svkStress 1 1) (svkModuli 1 1) 1 false inverse shellPairs shellIndices 0 (stretch t)).
  pose (X := fun t => match red t with Some E => E | None => stretch t end).
  pose (x := fun k : nat => if (k =? 0)%nat then 1 else if (k =? 2)%nat then - 1 / 3 else 0).
  assert (HX : forall t, red t = Some (X t) /\ forall k, (k < 6)%nat -> strainVector 3 (X t) k = t * x k).
  { intros t. destruct (Q t) as (E' & HE & S' & F & _ & T & _). unfold X, red. rewrite HE. split; auto.
    assert (T2 := T 2%nat (or_introl eq_refl)).
    assert (T0 : svkStress 1 1 E' 2%nat = 0) by (destruct (Rabs_pos (svkStress 1 1 E' 2%nat)) as [P|P]; [lra|now apply Rabs_eq_0]).
    assert (F' : forall k, (k < 6)%nat -> k <> 2%nat -> strainVector 3 E' k = strainVector 3 (stretch t) k).
    { intros k Hk N. apply F; auto. simpl. intuition. }
    assert (F0 := F' 0%nat ltac:(lia) ltac:(lia)). assert (F1 := F' 1%nat ltac:(lia) ltac:(lia)).
    intros k Hk. destruct (Nat.eq_dec k 2) as [->|N].
    - rewrite svk_diag in T0 by lia. unfold trace in T0. cbn in F0, F1, T0. cbn. lra.
    - rewrite F' by auto. unfold x. clear -Hk N. cases k; cbn; try lia; lra. }
  assert (SL : forall t k, (k < 6)%nat -> svkStress 1 1 (X t) k = t * row 6 (svkModuli 1 1 (X 0)) x k).
  { intros t k Hk. destruct (HX t) as [_ V]. assert (S' : symmetric 3 (X t)).
    { destruct (Q t) as (E' & HE & S' & _). unfold X, red. now rewrite HE. }
    assert (V0 := V 0%nat ltac:(lia)). assert (V1 := V 1%nat ltac:(lia)). assert (V2 := V 2%nat ltac:(lia)).
    assert (V3 := V 3%nat ltac:(lia)). assert (V4 := V 4%nat ltac:(lia)). assert (V5 := V 5%nat ltac:(lia)).
    unfold svkStress, row, x in *. cbn in V0, V1, V2, V3, V4, V5. clear -V0 V1 V2 V3 V4 V5 S' Hk.
    cases k; cbn; unfold trace; cbn; try lra. }
  exists X. split; [apply HX|]. split; [apply HX|exact SL].
Qed.

Example C145_example : forall inverse, inverts inverse -> exists X x,
  let reduce := reduceStress (svkStress 1 1) (svkModuli 1 1) 1 false inverse shellPairs shellIndices 0 in
  (forall t, reduce (stretch t) = Some (X t)) /\ symmetric 6 (svkModuli 1 1 (X 0)) /\
  (exists D, isInverse 1 (positions shellIndices (svkModuli 1 1 (X 0))) D) /\
  (forall k, (k < 6)%nat -> is_derive (fun t => svkStress 1 1 (X t) k) 0 (row 6 (svkModuli 1 1 (X 0)) x k)) /\
  (forall k, In k shellIndices -> is_derive (fun t => svkStress 1 1 (X t) k) 0 0) /\ x 0%nat = 1 /\ x 2%nat = - 1 / 3.
Proof.
  intros inverse HI. assert (A2 : forall k, In k shellIndices -> (k < 6)%nat) by (simpl; intuition lia).
  destruct (shell_family inverse HI) as (X & HX & V & SL). set (x := fun k : nat => if (k =? 0)%nat then 1 else if (k =? 2)%nat then - 1 / 3 else 0) in *.
  exists X, x. cbv zeta. split; [apply HX|]. split.
  { intros i j Hi Hj. cases i; cases j; reflexivity. }
  split. { exists (fun _ _ => / 3). intros i j Hi Hj. assert (i = 0%nat) as -> by lia. assert (j = 0%nat) as -> by lia. cbn. split; field. }
  assert (D : forall k, (k < 6)%nat -> is_derive (fun t => svkStress 1 1 (X t) k) 0 (row 6 (svkModuli 1 1 (X 0)) x k)).
  { intros k Hk. apply (is_derive_ext (fun t => t * row 6 (svkModuli 1 1 (X 0)) x k)); [intros t; symmetry; now apply SL|].
    auto_derive; [auto|ring]. }
  split; auto. split.
  - intros k Hk. replace 0 with (row 6 (svkModuli 1 1 (X 0)) x k) at 2; [apply D, A2, Hk|]. simpl in Hk. destruct Hk as [<-|[]].
    unfold row, x. cbn. field.
  - unfold x. cbn. split; lra.
Qed.

(** ... and for the energy: the same shell, already stretched *)
Example C145_energy_applies : forall inverse, inverts inverse ->
  let reduce := reduceStress (svkStress 1 1) (svkModuli 1 1) 1 false inverse shellPairs shellIndices 0 in
  let energy E := / 2 * Tensor_Spec.dot 6 (svkStress 1 1 E) (strainVector 3 E) in
  exists X x, (forall t, reduce (stretch (1 + t)) = Some (X t)) /\
    is_derive (fun t => energy (X t)) 0 (Tensor_Spec.dot 6 (svkStress 1 1 (X 0)) x) /\
    (forall k, In k shellIndices -> svkStress 1 1 (X 0) k = 0) /\ svkStress 1 1 (X 0) 0%nat <> 0 /\ x 2%nat <> 0.
Proof.
  intros inverse HI. destruct (shell_family inverse HI) as (X & HX & V & SL). set (x := fun k : nat => if (k =? 0)%nat then 1 else if (k =? 2)%nat then - 1 / 3 else 0) in *.
  exists (fun t => X (1 + t)), x. cbv zeta. split; [intros t; apply HX|].
  assert (DE : forall t, Tensor_Spec.dot 6 (svkStress 1 1 (X t)) (strainVector 3 (X t)) = t * t * Tensor_Spec.dot 6 (row 6 (svkModuli 1 1 (X 0)) x) x).
  { intros t. assert (V' : forall k, (k < 6)%nat -> strainVector 3 (X t) k = t * x k) by (intros; apply V; assumption).
    unfold Tensor_Spec.dot. cbn [sum]. rewrite !SL, !V' by lia. clearbody x. ring. }
  assert (DS : Tensor_Spec.dot 6 (svkStress 1 1 (X (1 + 0))) x = Tensor_Spec.dot 6 (row 6 (svkModuli 1 1 (X 0)) x) x).
  { unfold Tensor_Spec.dot. cbn [sum]. rewrite !SL by lia. clearbody x. ring. }
  split; [|split; [|split]].
  - rewrite DS. apply (is_derive_ext (fun t => / 2 * ((1 + t) * (1 + t) * Tensor_Spec.dot 6 (row 6 (svkModuli 1 1 (X 0)) x) x))); [intros t; now rewrite DE|].
    auto_derive; [auto|field].
  - intros k [<-|[]]. rewrite SL by lia. unfold row, x. cbn. field.
  - rewrite SL by lia. unfold row, x. cbn. lra.
  - unfold x. cbn. lra.
Qed.
