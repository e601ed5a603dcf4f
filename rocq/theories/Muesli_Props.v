(** C143: Muesli materials through the material interface. *)

From Coq Require Import List Arith ZArith Reals Lra Lia Bool FunctionalExtensionality.
From Verif Require Import Tensor_Model Tensor_Spec Tensor_Props SVK_Model SVK_Spec Conversions_Model Conversions_Spec Conversions_Props NeoHooke_Model Muesli_Model.
Import ListNotations.
Local Open Scope R_scope.

(** ** Specification *)
Section Spec.
Variable P : Type.
Variables (fEnergy : P -> rmat -> R) (fStress : P -> rmat -> rmat) (fModuli : P -> rmat -> rtensor4).
Variables (sEnergy : P -> rmat -> R) (sStress : P -> rmat -> rmat) (sModuli : P -> rmat -> rtensor4).

(** The kind and the properties every object was created with; copies have those of their original *)
Definition origin := (kind * P)%type.
Fixpoint origins (known : list origin) (program : list (op P)) : list origin :=
  match program with
  | [] => known
  | Create k p :: program => origins (known ++ [(k, p)]) program
  | Copy n :: program => origins (known ++ match nth_error known n with Some x => [x] | None => [] end) program
  | Call _ _ _ :: program => origins known program
  end.

(** The value of the Muesli functions as an answer: all entries are defined *)
Definition isEnergy (a : answer) (x : R) : Prop := a = Energy x.
Definition isStress (a : answer) (s : rmat) : Prop :=
  exists m, a = Stresses m /\ forall i j, (i < 3)%nat -> (j < 3)%nat -> m i j = Some (s i j).
Definition isModuli (a : answer) (t : rtensor4) : Prop :=
  exists m, a = Moduli m /\ forall i j k l, (i < 3)%nat -> (j < 3)%nat -> (k < 3)%nat -> (l < 3)%nat -> m i j k l = Some (t i j k l).
Definition means (k : kind) (p : P) (q : query) (a : answer) (s : rmat) : Prop :=
  match k, q with
  | Finite, AskEnergy => isEnergy a (fEnergy p s)
  | Finite, AskStress => isStress a (fStress p s)
  | Finite, AskModuli => isModuli a (fModuli p s)
  | Small, AskEnergy => isEnergy a (sEnergy p s)
  | Small, AskStress => isStress a (sStress p s)
  | Small, AskModuli => isModuli a (sModuli p s)
  end.

(** Muesli functions of finite strain are objective: they depend on the deformation gradient through F^T F only.  (Material
    quantities: energy, second Piola-Kirchhoff stress and convected tangent.) *)
Definition objective {A : Type} (f : P -> rmat -> A) : Prop :=
  forall p F G, (exists Q, isInverse 3 F Q) -> (exists Q, isInverse 3 G Q) ->
  eqm 3 (rightCauchyGreenOf 3 F) (rightCauchyGreenOf 3 G) -> f p F = f p G.
(** Functions of the strain read its 3x3 entries *)
Definition readsEntries {A : Type} (f : P -> rmat -> A) : Prop := forall p E E', eqm 3 E E' -> f p E = f p E'.
End Spec.

Lemma toEigenMatrix_entries s i j : (i < 3)%nat -> (j < 3)%nat -> toEigenMatrix s i j = Some (s i j).
Proof. intros Hi Hj. cases i; cases j; reflexivity. Qed.
Lemma toEigenTensor_entries t i j k l : (i < 3)%nat -> (j < 3)%nat -> (k < 3)%nat -> (l < 3)%nat -> toEigenTensor t i j k l = Some (t i j k l).
Proof. intros Hi Hj Hk Hl. cases i; cases j; cases k; cases l; reflexivity. Qed.
Lemma toitensor_entries F : eqm 3 (toitensor F) F.
Proof. intros i j Hi Hj. cases i; cases j; reflexivity. Qed.
Lemma toistensor_entries E : symmetric 3 E -> eqm 3 (toistensor E) E.
Proof.
  intros S i j Hi Hj. cases i; cases j; try reflexivity; cbn; [exact (S 2%nat 0%nat ltac:(lia) ltac:(lia))|exact (S 0%nat 1%nat ltac:(lia) ltac:(lia))
    |exact (S 1%nat 2%nat ltac:(lia) ltac:(lia))].
Qed.

Lemma det3_gram F Q C : isInverse 3 F Q -> eqm 3 C (rightCauchyGreenOf 3 F) -> 0 < det3 C.
Proof.
  intros I H.
  assert (M : det3 F * det3 Q = 1).
  { transitivity (det3 (mul 3 F Q)); [unfold det3, mul; cbn; ring|].
    transitivity (det3 identity); [|unfold det3, identity; cbn; ring].
    assert (I1 : eqm 3 (mul 3 F Q) identity) by (intros i j Hi Hj; now apply I). unfold det3. now rewrite !I1 by lia. }
  assert (E : det3 C = det3 F * det3 F).
  { unfold det3 at 1. rewrite !H by lia. unfold rightCauchyGreenOf, det3. cbn. ring. }
  rewrite E. assert (N : det3 F <> 0) by (intros Z; rewrite Z in M; lra).
  destruct (Rtotal_order (det3 F) 0) as [L|[L|L]]; [|contradiction|]; nra.
Qed.

Lemma inverse_ext F G Q : eqm 3 F G -> isInverse 3 F Q -> isInverse 3 G Q.
Proof.
  intros H I i j Hi Hj. destruct (I i j Hi Hj) as [A B]. split.
  - rewrite <- A. apply mul_ext; auto; [now apply eqm_sym|apply eqm_refl].
  - rewrite <- B. apply mul_ext; auto; [apply eqm_refl|now apply eqm_sym].
Qed.

Section Proofs.
Variable P : Type.
Variable msqrt : rmat -> rmat.
Variables (fEnergy : P -> rmat -> R) (fStress : P -> rmat -> rmat) (fModuli : P -> rmat -> rtensor4).
Variables (sEnergy : P -> rmat -> R) (sStress : P -> rmat -> rmat) (sModuli : P -> rmat -> rtensor4).
Hypothesis Hroot : squareRoot 3 msqrt.
Hypothesis OE : objective P fEnergy.
Hypothesis OS : objective P fStress.
Hypothesis OM : objective P fModuli.
Hypothesis RE : readsEntries P sEnergy.
Hypothesis RS : readsEntries P sStress.
Hypothesis RM : readsEntries P sModuli.
Notation step := (step P msqrt fEnergy fStress fModuli sEnergy sStress sModuli).
Notation run := (run P msqrt fEnergy fStress fModuli sEnergy sStress sModuli).
Notation means := (means P fEnergy fStress fModuli sEnergy sStress sModuli).
Notation originOf := (fun o : object P => (o_kind P o, o_params P o)).

Lemma map_setAt : forall (l : list (object P)) n o x, nth_error l n = Some o -> originOf x = originOf o ->
  map originOf (setAt P l n x) = map originOf l.
Proof.
  induction l as [|y l IH]; intros [|n] o x H E; cbn in H |- *; try discriminate.
  - injection H as ->. now rewrite E.
  - f_equal. eapply IH; eauto.
Qed.

Lemma update_origin o C o' : updateState P msqrt o C = Some o' -> originOf o' = originOf o.
Proof.
  unfold updateState. destruct (o_kind P o) eqn:K.
  - destruct Rle_dec; [discriminate|]. destruct transformStrain; [|discriminate]. intros H. injection H as <-. cbn. congruence.
  - intros H. injection H as <-. cbn. congruence.
Qed.

Lemma step_origins : forall objects c objects' a, step objects c = Step P objects' a ->
  map originOf objects' = origins P (map originOf objects) [c].
Proof.
  intros objects [k p|n|q n C] objects' a H; cbn in H |- *.
  - injection H as <- _. now rewrite map_app.
  - rewrite nth_error_map. destruct nth_error; [|discriminate]. injection H as <- _. now rewrite map_app.
  - destruct nth_error as [o|] eqn:N; [|discriminate]. destruct updateState as [o'|] eqn:U; [|discriminate].
    destruct readPoint; [|discriminate]. injection H as <- _. eapply map_setAt; eauto. eapply update_origin; eauto.
Qed.

(** What the argument of a call stands for: a deformation, or a symmetric small strain *)
Definition argumentOf (k : kind) (C : rmat) (s : rmat) : Prop :=
  match k with
  | Finite => (exists Q, isInverse 3 s Q) /\ eqm 3 C (rightCauchyGreenOf 3 s)
  | Small => symmetric 3 C /\ eqm 3 s C
  end.

Lemma updated o C s : argumentOf (o_kind P o) C s ->
  exists o' x, updateState P msqrt o C = Some o' /\ originOf o' = originOf o /\ o_point P o' = Some x /\
    match o_kind P o with
    | Finite => (exists Q, isInverse 3 x Q) /\ eqm 3 (rightCauchyGreenOf 3 x) (rightCauchyGreenOf 3 s)
    | Small => eqm 3 x s
    end.
Proof.
  intros A. unfold updateState. destruct (o_kind P o) eqn:K; cbn [argumentOf] in A.
  - destruct A as [[Q I] H]. assert (D := det3_gram s Q C I H). destruct Rle_dec as [L|_]; [lra|].
    destruct (C47_root 3 msqrt rightCauchyGreenTensor s C Hroot (or_intror eq_refl) (ex_intro _ Q I) H) as (U & E & S & PU & M & _).
    rewrite E. eexists _, _. split; [reflexivity|]. split; [cbn; congruence|]. split; [reflexivity|].
    assert (G : eqm 3 (rightCauchyGreenOf 3 (toitensor U)) (rightCauchyGreenOf 3 s)).
    { eapply eqm_trans; [|exact (M rightCauchyGreenTensor (or_intror eq_refl))].
      intros i j Hi Hj. unfold strainOf, rightCauchyGreenOf. apply sum_ext. intros k Hk. now rewrite !toitensor_entries by auto. }
    split; [|exact G].
    (* U is positive definite, its determinant is not zero *)
    assert (DU : det3 (toitensor U) <> 0).
    { intros Z. assert (E2 : det3 (rightCauchyGreenOf 3 (toitensor U)) = det3 (toitensor U) * det3 (toitensor U))
        by (unfold rightCauchyGreenOf, det3; cbn; ring).
      rewrite Z, Rmult_0_l in E2. assert (W := det3_gram s Q _ I G). lra. }
    exists (inv3 (toitensor U)). revert DU. generalize (toitensor U). intros V DV i j Hi Hj.
    unfold det3 in DV. cases i; cases j; unfold mul, inv3, identity, det3; cbn; split; field; exact DV.
  - destruct A as [S H]. eexists _, _. split; [reflexivity|]. split; [cbn; congruence|]. split; [reflexivity|].
    eapply eqm_trans; [apply toistensor_entries; exact S|apply eqm_sym; exact H].
Qed.

(** A call answers with the Muesli function of the object's properties at the argument *)
Lemma call_means objects n k p q C s :
  nth_error (map originOf objects) n = Some (k, p) -> argumentOf k C s ->
  exists objects' a, step objects (Call q n C) = Step P objects' a /\ means k p q a s.
Proof.
  intros N A. rewrite nth_error_map in N. destruct (nth_error objects n) as [o|] eqn:E; [|discriminate]. cbn in N. injection N as <- <-.
  destruct (updated o C s A) as (o' & x & U & OO & X & M). cbn. rewrite E, U. unfold readPoint. rewrite X.
  injection OO as K Q. eexists _, _. split; [reflexivity|]. rewrite K, Q.
  revert A M. destruct (o_kind P o); cbn [argumentOf]; intros A M.
  - destruct A as [A _]. destruct M as [MI MG].
    destruct q; cbn [Muesli_Props.means].
    + unfold isEnergy. now rewrite (OE _ x s MI A MG).
    + eexists. split; [reflexivity|]. intros i j Hi Hj. rewrite toEigenMatrix_entries by auto. now rewrite (OS _ x s MI A MG).
    + eexists. split; [reflexivity|]. intros i j a b Hi Hj Ha Hb. rewrite toEigenTensor_entries by auto. now rewrite (OM _ x s MI A MG).
  - destruct q; cbn [Muesli_Props.means].
    + unfold isEnergy. now rewrite (RE _ x s M).
    + eexists. split; [reflexivity|]. intros i j Hi Hj. rewrite toEigenMatrix_entries by auto. now rewrite (RS _ x s M).
    + eexists. split; [reflexivity|]. intros i j a b Hi Hj Ha Hb. rewrite toEigenTensor_entries by auto. now rewrite (RM _ x s M).
Qed.

Lemma run_app : forall pre objects answers post, run objects pre = (answers, Done) ->
  exists objects', map originOf objects' = origins P (map originOf objects) pre /\
    run objects (pre ++ post) = (answers ++ fst (run objects' post), snd (run objects' post)).
Proof.
  induction pre as [|c pre IH]; intros objects answers post H.
  - injection H as <-. exists objects. split; auto. cbn. now destruct (run objects post).
  - cbn [Muesli_Model.run] in H. destruct (step objects c) as [objects1 a| |] eqn:E; [|discriminate|discriminate].
    destruct (run objects1 pre) as [l e] eqn:R1. injection H as <- ->.
    destruct (IH objects1 l post R1) as (objects' & O & Q). exists objects'. split.
    + rewrite O, (step_origins objects c objects1 a E). now destruct c.
    + cbn [app Muesli_Model.run]. rewrite E, Q. reflexivity.
Qed.

(** C143: in every program, whatever was called, copied and created before, a call returns the value of the Muesli function for the
    properties the object (or the original it is a copy of) was created with, at the deformation whose right Cauchy-Green tensor was
    passed (finite strain), or at the strain passed (small strain). *)
Theorem C143_values_partial : forall pre answers n k p q C s,
  run [] pre = (answers, Done) -> nth_error (origins P [] pre) n = Some (k, p) -> argumentOf k C s ->
  exists a, run [] (pre ++ [Call q n C]) = (answers ++ [a], Done) /\ means k p q a s.
Proof.
  intros pre answers n k p q C s H N A.
  destruct (run_app pre [] answers [Call q n C] H) as (objects & O & Q). cbn [map] in O.
  assert (N' := N). replace (origins P [] pre) with (map originOf objects) in N' by exact O. clear N. rename N' into N.
  destruct (call_means objects n k p q C s N A) as (objects' & a & E & M).
  exists a. split; auto. rewrite Q. cbn [Muesli_Model.run]. rewrite E. reflexivity.
Qed.

(** A finite strain tensor with negative or zero determinant ends the process *)
Theorem C143_aborts : forall pre answers n p q C,
  run [] pre = (answers, Done) -> nth_error (origins P [] pre) n = Some (Finite, p) -> det3 C <= 0 ->
  run [] (pre ++ [Call q n C]) = (answers, Aborted).
Proof.
  intros pre answers n p q C H N D.
  destruct (run_app pre [] answers [Call q n C] H) as (objects & O & Q). cbn [map] in O.
  assert (N' := N). replace (origins P [] pre) with (map originOf objects) in N' by exact O. clear N. rename N' into N.
  rewrite nth_error_map in N. destruct (nth_error objects n) as [o|] eqn:E; [|discriminate]. cbn in N. injection N as K _.
  rewrite Q. cbn [Muesli_Model.run Muesli_Model.step]. rewrite E. unfold updateState. rewrite K. destruct Rle_dec; [|contradiction].
  cbn. now rewrite app_nil_r.
Qed.

(** The full claim, that a tensor that belongs to no deformation is refused, fails: two negative eigenvalues *)
Theorem C143_refuted : forall p, exists C q answers,
  (forall F, ~ eqm 3 C (rightCauchyGreenOf 3 F)) /\
  run [] [Create Finite p; Call q 0%nat C] = (answers, Done).
Proof.
  intros p. exists (entries [[-1; 0; 0]; [0; -1; 0]; [0; 0; 1]]), AskEnergy. eexists. split.
  - intros F H. specialize (H 0%nat 0%nat ltac:(lia) ltac:(lia)). cbn in H.
    assert (A := Rle_0_sqr (F 0%nat 0%nat)). assert (B := Rle_0_sqr (F 1%nat 0%nat)). assert (D := Rle_0_sqr (F 2%nat 0%nat)).
    unfold Rsqr in *. lra.
  - cbn. unfold updateState. cbn [o_kind]. destruct Rle_dec as [L|_]; [exfalso; unfold det3 in L; cbn in L; lra|]. reflexivity.
Qed.
End Proofs.
Print Assumptions C143_values_partial.
Print Assumptions C143_aborts.
Print Assumptions C143_refuted.

(** Objective functions and a deformation that is not symmetric *)
Example C143_applies :
  objective unit (fun _ F => trace (rightCauchyGreenOf 3 F)) /\ readsEntries unit (fun _ E => trace E) /\
  argumentOf Finite (entries [[1; 1; 0]; [1; 2; 0]; [0; 0; 1]]) (entries [[1; 1; 0]; [0; 1; 0]; [0; 0; 1]]) /\
  origins unit [] [Create Finite tt; Copy 0; Call AskEnergy 0%nat (entries [])] = [(Finite, tt); (Finite, tt)].
Proof.
  split; [|split; [|split]].
  - intros p F G _ _ H. unfold trace. now rewrite !H by lia.
  - intros p E E' H. unfold trace. now rewrite !H by lia.
  - split.
    + exists (entries [[1; -1; 0]; [0; 1; 0]; [0; 0; 1]]). intros i j Hi Hj. cases i; cases j; unfold mul, identity; cbn; split; ring.
    + intros i j Hi Hj. cases i; cases j; cbn; ring.
  - reflexivity.
Qed.
