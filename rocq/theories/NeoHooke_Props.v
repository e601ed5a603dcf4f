(** C45, C46, C70 (refutation), C72: the Neo-Hooke material. *)

From Coq Require Import List Arith ZArith Reals Lra Lia Bool.
From Coquelicot Require Import Coquelicot.
From Verif Require Import Tensor_Model Tensor_Spec Tensor_Props SVK_Model SVK_Spec SVK_Props NeoHooke_Model.
Import ListNotations.
Local Open Scope R_scope.

Lemma logsqrt f f' : 0 < f 0 -> is_derive f 0 f' -> is_derive (fun t => ln (sqrt (f t))) 0 (f' / (2 * f 0)).
Proof.
  intros P D. assert (S0 : 0 < sqrt (f 0)) by now apply sqrt_lt_R0.
  replace (f' / (2 * f 0)) with (scal (scal f' (/ (2 * sqrt (f 0)))) (/ sqrt (f 0))).
  2:{ unfold scal. simpl. unfold mult. simpl. rewrite <- (sqrt_sqrt (f 0)) at 3 by lra. field. lra. }
  apply (is_derive_comp ln (fun t => sqrt (f t)) 0 (/ sqrt (f 0)) (scal f' (/ (2 * sqrt (f 0))))).
  - apply is_derive_Reals. now apply derivable_pt_lim_ln.
  - apply (is_derive_comp sqrt f 0 (/ (2 * sqrt (f 0))) f'); auto. apply is_derive_Reals. now apply derivable_pt_lim_sqrt.
Qed.

(** The inverse *)
Lemma inv3_spec C : det3 C <> 0 -> isInverse 3 C (inv3 C).
Proof.
  intros H i j Hi Hj. unfold mul, identity, inv3, det3 in *. cases i; cases j; cbn; split; field; auto.
Qed.
Lemma inv3_sym C : symmetric 3 C -> symmetric 3 (inv3 C).
Proof.
  intros Sy i j Hi Hj. unfold inv3. f_equal. assert (S1 := Sy 1%nat 0%nat). assert (S2 := Sy 2%nat 0%nat). assert (S3 := Sy 2%nat 1%nat).
  cases i; cases j; cbn; rewrite ?S1, ?S2, ?S3 by lia; ring.
Qed.

Lemma det_derive C H : symmetric 3 C -> symmetric 3 H -> det3 C <> 0 ->
  is_derive (fun t => det3 (shift C H t)) 0 (det3 C * contract 3 (inv3 C) H).
Proof.
  intros SC SH N. unfold det3, shift, contract, inv3. cbn [sum]. auto_derive; auto. cbn. unfold det3 in *.
  rewrite (SC 1%nat 0%nat), (SC 2%nat 0%nat), (SC 2%nat 1%nat), (SH 1%nat 0%nat), (SH 2%nat 0%nat), (SH 2%nat 1%nat) in * by lia.
  field. auto.
Qed.

Lemma inv_derive C H i j : symmetric 3 C -> symmetric 3 H -> det3 C <> 0 -> (i < 3)%nat -> (j < 3)%nat ->
  is_derive (fun t => inv3 (shift C H t) i j) 0 (- mul 3 (mul 3 (inv3 C) H) (inv3 C) i j).
Proof.
  intros SC SH N Hi Hj. unfold mul, inv3, det3, shift in *.
  cbn [sum]. assert (S1 := SC 1%nat 0%nat). assert (S2 := SC 2%nat 0%nat). assert (S3 := SC 2%nat 1%nat).
  assert (T1 := SH 1%nat 0%nat). assert (T2 := SH 2%nat 0%nat). assert (T3 := SH 2%nat 1%nat). clear SC SH.
  rewrite S1, S2, S3 in N by lia. rewrite S1, S2, S3, T1, T2, T3 by lia.
  set (c00 := C 0%nat 0%nat) in *. set (c01 := C 0%nat 1%nat) in *. set (c02 := C 0%nat 2%nat) in *.
  set (c11 := C 1%nat 1%nat) in *. set (c12 := C 1%nat 2%nat) in *. set (c22 := C 2%nat 2%nat) in *.
  set (h00 := H 0%nat 0%nat) in *. set (h01 := H 0%nat 1%nat) in *. set (h02 := H 0%nat 2%nat) in *.
  set (h11 := H 1%nat 1%nat) in *. set (h12 := H 1%nat 2%nat) in *. set (h22 := H 2%nat 2%nat) in *.
  clearbody c00 c01 c02 c11 c12 c22 h00 h01 h02 h11 h12 h22.
  cases i; cases j; cbn; (auto_derive; [contradict N; rewrite <- N; ring|field; contradict N; rewrite <- N; ring]).
Qed.

Lemma checkPositive_some {A} d (x : A) : 0 < d -> checkPositive d x = Some x.
Proof. intros. unfold checkPositive. destruct (Rle_dec d 0); [lra|reflexivity]. Qed.

Lemma locally_pos C H : symmetric 3 C -> symmetric 3 H -> 0 < det3 C -> locally 0 (fun t => 0 < det3 (shift C H t)).
Proof.
  intros SC SH P. assert (D := det_derive C H SC SH ltac:(lra)).
  assert (Co : continuous (fun t => det3 (shift C H t)) 0) by (apply (@ex_derive_continuous R_AbsRing R_NormedModule); eexists; exact D).
  apply (Co (fun y => 0 < y)). 
  assert (E : det3 (shift C H 0) = det3 C) by (unfold det3, shift; ring). rewrite E.
  exists (mkposreal _ P). intros y Hy.
  unfold ball in Hy. simpl in Hy. unfold AbsRing_ball, abs, minus, plus, opp in Hy. simpl in Hy.
  apply Rabs_def2 in Hy. lra.
Qed.

(** C45: stress is twice the gradient of the energy, the moduli twice the gradient of the stress; and the program does not abort in
    a neighbourhood. *)
Theorem C45_derivatives : forall lambda mu C H, symmetric 3 C -> symmetric 3 H -> 0 < det3 C ->
  exists s L (e : R -> R) (st : R -> rmat),
    nhStress lambda mu C = Some s /\ nhModuli lambda mu C = Some L /\
    locally 0 (fun t => nhEnergy lambda mu (shift C H t) = Some (e t) /\ nhStress lambda mu (shift C H t) = Some (st t)) /\
    is_derive e 0 (contract 3 s H / 2) /\
    forall i j, (i < 3)%nat -> (j < 3)%nat -> is_derive (fun t => st t i j) 0 (apply4 3 L H i j / 2).
Proof.
  intros lambda mu C H SC SH P. set (g := fun t => ln (sqrt (det3 (shift C H t)))).
  assert (E0 : det3 (shift C H 0) = det3 C) by (unfold det3, shift; ring).
  assert (Dg : is_derive g 0 (contract 3 (inv3 C) H / 2)).
  { unfold g. replace (contract 3 (inv3 C) H / 2) with (det3 C * contract 3 (inv3 C) H / (2 * det3 (shift C H 0))) by (rewrite E0; field; lra).
    apply logsqrt; [rewrite E0; auto|]. apply det_derive; auto. lra. }
  assert (G0 : g 0 = ln (sqrt (det3 C))) by (unfold g; now rewrite E0).
  unfold nhStress, nhModuli, nhEnergy. rewrite !checkPositive_some by auto.
  exists (fun i j => mu * (kron i j - inv3 C i j) + lambda * ln (sqrt (det3 C)) * inv3 C i j).
  eexists. exists (fun t => mu / 2 * (trace (shift C H t) - 3 - 2 * g t) + lambda / 2 * g t * g t).
  exists (fun t i j => mu * (kron i j - inv3 (shift C H t) i j) + lambda * g t * inv3 (shift C H t) i j).
  split; [reflexivity|]. split; [reflexivity|]. split; [|split].
  - eapply filter_imp; [|exact (locally_pos C H SC SH P)]. intros t Pt. cbv beta. rewrite !checkPositive_some by auto. split; reflexivity.
  - assert (Xg : ex_derive g 0) by (eexists; exact Dg). unfold trace, shift at 1 2 3. auto_derive; [tauto|].
    change (Derive (fun x : R => g x) 0) with (Derive g 0). rewrite (is_derive_unique g 0 _ Dg), G0. unfold contract. cbn. unfold kron. cbn. field.
  - intros i j Hi Hj. assert (Di := inv_derive C H i j SC SH ltac:(lra) Hi Hj). set (q := fun t => inv3 (shift C H t) i j) in *.
    assert (Q0 : q 0 = inv3 C i j).
    { unfold q, inv3, shift, det3. f_equal; [|f_equal; ring]. cases i; cases j; cbn; ring. }
    assert (Xg : ex_derive g 0) by (eexists; exact Dg). assert (Xq : ex_derive q 0) by (eexists; exact Di).
    apply (is_derive_ext (fun t => mu * (kron i j - q t) + lambda * g t * q t)); [reflexivity|].
    auto_derive; [tauto|]. change (Derive (fun x : R => g x) 0) with (Derive g 0). change (Derive (fun x : R => q x) 0) with (Derive q 0).
    rewrite (is_derive_unique g 0 _ Dg), (is_derive_unique q 0 _ Di), G0, Q0.
    unfold apply4, symTwoSlots, shuffled, swapSlots, fourthOrderIKJL, dyadic, contract, mul. cbn -[inv3 kron].
    assert (SI := inv3_sym C SC).
    rewrite (SH 1%nat 0%nat), (SH 2%nat 0%nat), (SH 2%nat 1%nat) by lia.
    generalize (ln (sqrt (det3 C))). intros lj.
    cases i; cases j; rewrite ?(SI 1%nat 0%nat), ?(SI 2%nat 0%nat), ?(SI 2%nat 1%nat) by lia; field.
Qed.
Print Assumptions C45_derivatives.

Example C45_derivatives_applies : exists C, symmetric 3 C /\ 0 < det3 C /\ C 0%nat 1%nat <> 0 /\ trace C <> 3.
Proof.
  exists (fun i j => entries [[2; 1; 0]; [1; 2; 0]; [0; 0; 1]] i j). split; [|split; [|split]].
  - intros i j Hi Hj. cases i; cases j; reflexivity.
  - unfold det3, entries. cbn. lra.
  - cbn. lra.
  - unfold trace. cbn. lra.
Qed.

(** The undeformed state *)
Theorem C45_reference : forall lambda mu,
  nhEnergy lambda mu identity = Some 0 /\
  (exists s, nhStress lambda mu identity = Some s /\ zero3 s) /\
  exists L, nhModuli lambda mu identity = Some L /\
    forall E, symmetric 3 E -> eq3 (apply4 3 L E) (isotropicStress lambda mu E).
Proof.
  intros lambda mu. assert (D : det3 identity = 1) by (unfold det3, identity; cbn; ring).
  assert (Z : ln (sqrt (det3 identity)) = 0) by (rewrite D, sqrt_1; apply ln_1).
  assert (I : eq3 (inv3 identity) identity).
  { intros i j Hi Hj. unfold inv3. rewrite D. cases i; cases j; unfold identity; cbn; field. }
  unfold nhEnergy, nhStress, nhModuli. cbv zeta. rewrite Z, !checkPositive_some by lra. split; [|split].
  - f_equal. unfold trace, identity. cbn. field.
  - eexists. split; [reflexivity|]. intros i j Hi Hj. cbv beta. rewrite I by auto. unfold kron, identity. destruct (i =? j)%nat; ring.
  - eexists. split; [reflexivity|]. intros E SE i j Hi Hj. unfold apply4, isotropicStress, tr. cbn [sum].
    unfold dyadic, symTwoSlots, shuffled, swapSlots, fourthOrderIKJL. cbn -[inv3 identity].
    rewrite (SE 1%nat 0%nat), (SE 2%nat 0%nat), (SE 2%nat 1%nat) by lia.
    cases i; cases j; rewrite !I by lia; unfold identity; cbn; rewrite ?(SE 1%nat 0%nat), ?(SE 2%nat 0%nat), ?(SE 2%nat 1%nat) by lia; field.
Qed.
Print Assumptions C45_reference.

(** Symmetry of stress and moduli *)
Lemma moduli_symmetric lambda lj mu P : symmetric 3 P ->
  let L := fun i j k l => lambda * dyadic P P i j k l + 2 * (mu - lambda * lj) * symTwoSlots (fourthOrderIKJL P P) 2 3 i j k l in
  minorSymmetric 3 L /\ majorSymmetric 3 L.
Proof.
  intros SP L. split; intros i j k l Hi Hj Hk Hl; try split; unfold L, dyadic, symTwoSlots, shuffled, swapSlots, fourthOrderIKJL; cbn.
  - rewrite (SP j i) by lia. ring.
  - rewrite (SP l k) by lia. ring.
  - rewrite (SP k i), (SP l j), (SP l i), (SP k j) by lia. ring.
Qed.

Theorem C45_symmetry : forall lambda mu C, symmetric 3 C -> 0 < det3 C ->
  exists s L, nhStress lambda mu C = Some s /\ nhModuli lambda mu C = Some L /\
  symmetric 3 s /\ minorSymmetric 3 L /\ majorSymmetric 3 L.
Proof.
  intros lambda mu C SC P. unfold nhStress, nhModuli. rewrite !checkPositive_some by auto.
  do 2 eexists. split; [reflexivity|]. split; [reflexivity|]. assert (SI := inv3_sym C SC). split.
  - intros i j Hi Hj. rewrite (SI i j) by auto. unfold kron. rewrite Nat.eqb_sym. reflexivity.
  - apply moduli_symmetric; auto.
Qed.
Print Assumptions C45_symmetry.

(** A non-positive determinant ends the program instead of giving a value *)
Theorem C45_abort : forall lambda mu C,
  (nhEnergy lambda mu C = None <-> det3 C <= 0) /\ (nhStress lambda mu C = None <-> det3 C <= 0) /\
  (nhModuli lambda mu C = None <-> det3 C <= 0).
Proof.
  intros. unfold nhEnergy, nhStress, nhModuli, checkPositive. destruct (Rle_dec (det3 C) 0); repeat split; auto; try discriminate; lra.
Qed.
Print Assumptions C45_abort.
