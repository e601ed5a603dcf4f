(** Property C88: which right Cauchy-Green tensors are refused. *)

From Coq Require Import Reals Lia Lra Bool.
From Verif Require Import Tensor_Model Tensor_Spec Tensor_Props NeoHooke_Model Deviatoric_Model Hyperelastic_Model Hyperelastic_Spec HyperelasticCheck_Model
  Hyperelastic_Proofs SpectralExistence_Proofs.
Local Open Scope R_scope.

Lemma check_number d : checkPositiveOrAbort (Num d) = if Rle_dec d 0 then Aborts else Returns (Num d).
Proof.
  unfold checkPositiveOrAbort, nFloatLe, nFloatEq, nmax, nabs, nsub, nmul, nlt, nle.
  destruct (Rle_dec d 0) as [L|L].
  - destruct (Rlt_dec d 0) as [|E]; [reflexivity|]. assert (d = 0) by lra. subst d. cbn [orb].
    rewrite Rminus_0_r, Rabs_R0. destruct (Rlt_dec 0 0); [lra|]. destruct (Rle_dec 0 (1 / 10 ^ 10 * 0)) as [|N]; [reflexivity|lra].
  - destruct (Rlt_dec d 0); [lra|]. cbn [orb]. rewrite Rminus_0_r, Rabs_R0, Rabs_pos_eq by lra.
    destruct (Rlt_dec d 0); [lra|]. destruct (Rle_dec d (1 / 10 ^ 10 * d)) as [B|]; [|reflexivity].
    exfalso. assert (0 < d) by lra. assert (1 / 10 ^ 10 * d < 1 * d) by (apply Rmult_lt_compat_r; lra). lra.
Qed.
Lemma check_nan : checkPositiveOrAbort NaN = Returns NaN.
Proof. reflexivity. Qed.

(** C88: NeoHooke refuses exactly the tensors whose determinant is not positive *)
Theorem C88_neohooke d : numericDetC d = Aborts <-> d <= 0.
Proof. unfold numericDetC. rewrite check_number. destruct Rle_dec; split; intros; auto; try discriminate; lra. Qed.
Print Assumptions C88_neohooke.

(** The other hyperelastic materials refuse exactly the singular tensors without negative eigenvalues ... *)
Theorem C88_check_partial e :
  (numericDetF e = Aborts <-> (forall i, (i < 3)%nat -> 0 <= e i) /\ exists i, (i < 3)%nat /\ e i = 0) /\
  ((forall i, (i < 3)%nat -> 0 < e i) -> exists J, numericDetF e = Returns (Num J) /\ 0 < J /\ J ^ 2 = e 0%nat * e 1%nat * e 2%nat) /\
  ((exists i, (i < 3)%nat /\ e i < 0) <-> numericDetF e = Returns NaN).
Proof.
  assert (K : (exists i, (i < 3)%nat /\ e i < 0) \/ (forall i, (i < 3)%nat -> 0 <= e i)).
  { destruct (Rlt_dec (e 0%nat) 0) as [L0|L0]; [left; exists 0%nat; split; [lia|assumption]|].
    destruct (Rlt_dec (e 1%nat) 0) as [L1|L1]; [left; exists 1%nat; split; [lia|assumption]|].
    destruct (Rlt_dec (e 2%nat) 0) as [L2|L2]; [left; exists 2%nat; split; [lia|assumption]|].
    right. intros i Hi. cases i; lra. }
  assert (Neg : (exists i, (i < 3)%nat /\ e i < 0) -> numericDetF e = Returns NaN).
  { intros (i & Hi & L). unfold numericDetF, nsqrt. cases i.
    - destruct (Rlt_dec (e 0%nat) 0); [|lra]. reflexivity.
    - destruct (Rlt_dec (e 1%nat) 0); [|lra]. destruct (Rlt_dec (e 0%nat) 0); reflexivity.
    - destruct (Rlt_dec (e 2%nat) 0); [|lra]. destruct (Rlt_dec (e 0%nat) 0); [reflexivity|]. destruct (Rlt_dec (e 1%nat) 0); reflexivity. }
  assert (Pos : (forall i, (i < 3)%nat -> 0 <= e i) -> numericDetF e =
    let J := sqrt (e 0%nat) * sqrt (e 1%nat) * sqrt (e 2%nat) in if Rle_dec J 0 then Aborts else Returns (Num J)).
  { intros P. unfold numericDetF, nsqrt. assert (P0 := P 0%nat ltac:(lia)). assert (P1 := P 1%nat ltac:(lia)). assert (P2 := P 2%nat ltac:(lia)).
    destruct (Rlt_dec (e 0%nat) 0); [lra|]. destruct (Rlt_dec (e 1%nat) 0); [lra|]. destruct (Rlt_dec (e 2%nat) 0); [lra|]. cbn [nmul]. apply check_number. }
  assert (J0 : forall P : (forall i, (i < 3)%nat -> 0 < e i), 0 < sqrt (e 0%nat) * sqrt (e 1%nat) * sqrt (e 2%nat)).
  { intros P. repeat apply Rmult_lt_0_compat; apply sqrt_lt_R0, P; lia. }
  assert (Z : (forall i, (i < 3)%nat -> 0 <= e i) -> (exists i, (i < 3)%nat /\ e i = 0) \/ (forall i, (i < 3)%nat -> 0 < e i)).
  { intros P. destruct (Req_dec (e 0%nat) 0) as [E0|E0]; [left; exists 0%nat; split; [lia|assumption]|].
    destruct (Req_dec (e 1%nat) 0) as [E1|E1]; [left; exists 1%nat; split; [lia|assumption]|].
    destruct (Req_dec (e 2%nat) 0) as [E2|E2]; [left; exists 2%nat; split; [lia|assumption]|].
    right. intros i Hi. assert (Q := P i Hi). cases i; lra. }
  split; [split|split; [|split]].
  - intros A. destruct K as [N|P]; [rewrite (Neg N) in A; discriminate|]. split; [exact P|].
    destruct (Z P) as [|P']; [assumption|]. rewrite (Pos P) in A. cbn zeta in A. assert (Q := J0 P'). destruct Rle_dec in A; [lra|discriminate].
  - intros (P & i & Hi & E). rewrite (Pos P). cbn zeta. destruct Rle_dec as [|N]; [reflexivity|exfalso; apply N].
    cases i; rewrite E, sqrt_0; lra.
  - intros P. exists (sqrt (e 0%nat) * sqrt (e 1%nat) * sqrt (e 2%nat)). assert (Q := J0 P).
    rewrite Pos by (intros; now apply Rlt_le, P). cbn zeta. destruct Rle_dec; [lra|]. split; [reflexivity|split; [exact Q|]].
    assert (R : forall i, (i < 3)%nat -> sqrt (e i) ^ 2 = e i) by (intros i Hi; rewrite <- Rsqr_pow2; apply Rsqr_sqrt, Rlt_le, P; exact Hi).
    rewrite <- (R 0%nat), <- (R 1%nat), <- (R 2%nat) at 1 by lia. rewrite !Rpow_mult_distr, !R by lia. reflexivity.
  - exact Neg.
  - intros E. destruct K as [N|P]; [exact N|]. rewrite (Pos P) in E. cbn zeta in E. destruct Rle_dec in E; discriminate.
Qed.
Print Assumptions C88_check_partial.

(** ... and never one with a negative determinant: there the result is a NaN *)
Theorem C88_negative_refuted :
  (exists C e N, symmetric 3 C /\ decomposition C e N /\ det3 C < 0 /\ numericDetF e <> Aborts) /\
  (forall C e N, decomposition C e N -> det3 C < 0 -> numericDetF e = Returns NaN).
Proof.
  assert (G : forall C e N, decomposition C e N -> det3 C < 0 -> numericDetF e = Returns NaN).
  { intros C e N D L. apply (proj2 (proj2 (C88_check_partial e))). rewrite (det_decomposition C e N D) in L.
    destruct (Rlt_dec (e 0%nat) 0) as [L0|L0]; [exists 0%nat; split; [lia|assumption]|].
    destruct (Rlt_dec (e 1%nat) 0) as [L1|L1]; [exists 1%nat; split; [lia|assumption]|].
    destruct (Rlt_dec (e 2%nat) 0) as [L2|L2]; [exists 2%nat; split; [lia|assumption]|].
    exfalso. assert (0 <= e 0%nat * e 1%nat * e 2%nat) by (repeat apply Rmult_le_pos; lra). lra. }
  split; [|exact G].
  set (C := fun i j : nat => if Nat.eqb i j then match i with 0%nat => -1 | _ => 1 end else 0).
  assert (S : symmetric 3 C) by (intros i j Hi Hj; unfold C; cases i; cases j; reflexivity).
  destruct (spectral C S) as (e & N & D). exists C, e, N. split; [exact S|]. split; [exact D|].
  assert (L : det3 C < 0) by (unfold det3, C; cbn; lra). split; [exact L|]. rewrite (G C e N D L). discriminate.
Qed.
Print Assumptions C88_negative_refuted.

(** For tensors without negative eigenvalues the check is the one of the model over the real numbers *)
Theorem C88_agrees e : (forall i, (i < 3)%nat -> 0 <= e i) ->
  numericDetF e = match detF (fun i => sqrt (vector3 e i)) with Returns J => Returns (Num J) | Raises => Raises | Aborts => Aborts | Undefined => Undefined end.
Proof.
  intros P. unfold numericDetF, nsqrt. assert (P0 := P 0%nat ltac:(lia)). assert (P1 := P 1%nat ltac:(lia)). assert (P2 := P 2%nat ltac:(lia)).
  destruct (Rlt_dec (e 0%nat) 0); [lra|]. destruct (Rlt_dec (e 1%nat) 0); [lra|]. destruct (Rlt_dec (e 2%nat) 0); [lra|]. cbn [nmul].
  rewrite check_number. unfold detF, prod3, vector3. cbn [Nat.ltb Nat.leb]. destruct Rle_dec; reflexivity.
Qed.
Print Assumptions C88_agrees.
