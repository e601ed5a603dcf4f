(** C184: what elements with enhanced strains and with assumed stresses compute does not depend on the numbering of their corners (models:
    Eas_Model.v, AssumedStress_Model.v). *)

From Coq Require Import Reals Arith Bool List Lia Lra Permutation.
From Coquelicot Require Import Coquelicot.
From Verif Require Import Tensor_Spec Tensor_Model Tensor_Props Conversions_Spec Conversions_Model Conversions_Props Element_Spec Element_Model Element_Proofs Element_Props.
From Verif Require Import Eas_Spec Eas_Model Eas_Proofs Eas_Props EasStrains_Props EasModes_Props StructureReactions_Props.
From Verif Require Import AssumedStress_Model AssumedStress_Proofs AssumedStressModes_Props CornerNumbering_Spec CornerNumbering_Proofs CornerModes_Proofs.
Import ListNotations.
Local Open Scope R_scope.

(** The functions of an enhanced strain *)
Record enhancedStrain := {
  e_value : point -> (nat -> R) -> (nat -> R) -> nat -> R;
  e_d : point -> (nat -> R) -> (nat -> R) -> nat -> nat -> nat -> R;
  e_a : point -> (nat -> R) -> (nat -> R) -> nat -> nat -> R;
  e_dd : point -> (nat -> R) -> (nat -> R) -> (nat -> R) -> nat -> nat -> nat -> nat -> R;
  e_aa : point -> (nat -> R) -> (nat -> R) -> (nat -> R) -> nat -> nat -> R;
  e_ad : point -> (nat -> R) -> (nat -> R) -> (nat -> R) -> nat -> nat -> nat -> R }.
(** Linear or Green-Lagrange strains with additional modes M *)
Definition additive (d n p : nat) (small : bool) (dN M : point -> nat -> nat -> R) : enhancedStrain :=
  {| e_value := additiveValue p (if small then smallStrain d n dN else glStrain d n dN) M;
     e_d := additive_d (if small then smallBop d dN else glBop d n dN); e_a := additive_a M;
     e_dd := additive_dd (if small then noKg else glKg d dN); e_aa := zero_aa; e_ad := zero_ad |}.
(** Displacement gradients with additional modes H, or with the transposed modes *)
Definition gradient (d n p : nat) (transposed : bool) (dN : point -> nat -> nat -> R) (dN0 : nat -> nat -> R) (H : point -> nat -> nat -> nat -> R) : enhancedStrain :=
  if transposed then
    {| e_value := dgtValue d n p dN H dN0; e_d := dgt_d d n p dN H dN0; e_a := dgt_a d n p dN H dN0; e_dd := dgt_dd d p dN H dN0;
       e_aa := dgt_aa d n H dN0; e_ad := dgt_ad d n p dN H dN0 |}
  else
    {| e_value := dgValue d n p dN H; e_d := dg_d d n p dN H; e_a := dg_a d n p dN H; e_dd := dg_dd (glKg d dN); e_aa := dg_aa d H; e_ad := dg_ad d dN H |}.

Lemma sum_list n f : sum n f = sumP (seq 0 n) f.
Proof.
  assert (A : forall (l l' : list nat) g, sumP (l ++ l') g = sumP l g + sumP l' g) by (clear; intros l l' g; induction l as [|x l IH]; cbn; [|rewrite IH]; ring).
  induction n as [|n IH]; [reflexivity|]. rewrite seq_S, A. cbn [sum sumP Nat.add]. rewrite IH. ring.
Qed.
Lemma sumP_map {A B} (g : A -> B) l f : sumP (map g l) f = sumP l (fun x => f (g x)).
Proof. induction l as [|x l IH]; cbn; [|rewrite IH]; reflexivity. Qed.
Lemma sum_renumber n nu f : numbering n nu -> sum n (fun i => f (nu i)) = sum n f.
Proof.
  intros (B & I). rewrite !sum_list, <- (sumP_map nu). apply sumP_permutation. apply NoDup_Permutation_bis.
  - assert (X : forall l, NoDup l -> (forall i, In i l -> (i < n)%nat) -> NoDup (map nu l)).
    { induction 1 as [|x l Hx Hl IH]; intros Hb; [constructor|]. cbn. constructor; [|apply IH; intros; apply Hb; now right].
      rewrite in_map_iff. intros (y & E & Hy). apply I in E; [subst y; contradiction|apply Hb; now right|apply Hb; now left]. }
    apply X; [apply seq_NoDup|]. intros i Hi. apply in_seq in Hi. lia.
  - now rewrite map_length.
  - intros x Hx. apply in_map_iff in Hx. destruct Hx as (i & <- & Hi). apply in_seq in Hi. apply in_seq. specialize (B i). lia.
Qed.

Lemma block_index d i k : (k < d)%nat -> ((d * i + k) / d = i)%nat /\ ((d * i + k) mod d = k)%nat.
Proof.
  intros Hk. rewrite (Nat.mul_comm d i). split.
  - rewrite Nat.div_add_l, Nat.div_small by lia. lia.
  - rewrite Nat.add_comm, Nat.mod_add by lia. now apply Nat.mod_small.
Qed.

Section Corners.
  Variables (d n : nat) (points points' : list point) (nu : nat -> nat) (W : nat -> nat -> R).
  Variables dN dN' : point -> nat -> nat -> R.
  Variables (stress : (nat -> R) -> nat -> R) (tangent : (nat -> R) -> nat -> nat -> R) (inverse : (nat -> nat -> R) -> nat -> nat -> R).
  Let s := voigtLength d.
  Let N := (d * n)%nat.
  Let ren := renumberedVector d nu.
  Let index k := (d * nu (k / d) + k mod d)%nat.

  (** gp' is the point gp of the same element, in the second numbering: it has the local coordinates W x, the same volume, and the same
      derivatives of the shape functions with respect to the global coordinates *)
  Definition samePoint (gp gp' : point) : Prop :=
    sameSpot d W gp gp' /\ integrationElement gp' = integrationElement gp /\ weight gp' = weight gp /\
    (forall i b, (i < n)%nat -> (b < d)%nat -> dN' gp' i b = dN gp (nu i) b).
  (** both rules have the same points, in some order *)
  Definition samePoints : Prop := exists l, Permutation points l /\ List.Forall2 samePoint l points'.
  Definition localMaterial : Prop := forall e e', (forall m, (m < s)%nat -> e' m = e m) ->
    (forall m, (m < s)%nat -> stress e' m = stress e m) /\ (forall m o, (m < s)%nat -> (o < s)%nat -> tangent e' m o = tangent e m o).

  Definition vectorOf p (l : list point) e := easVectorImpl d n s p l stress tangent (e_value e) (e_d e) (e_a e) (e_aa e) (e_ad e) inverse.
  Definition matrixOf p (l : list point) e := easMatrixImpl d n s p l stress tangent (e_value e) (e_d e) (e_a e) (e_dd e) (e_aa e) (e_ad e) inverse.
  Definition updateOf p (l : list point) e := easUpdateImpl d n s p l stress tangent (e_value e) (e_d e) (e_a e) (e_aa e) (e_ad e) inverse.
  Definition matrixD (l : list point) e := easD s l stress tangent (e_value e) (e_a e) (e_aa e).

  (** The internal variables a of the second element are P a of the first one: the strains, the forces, the matrix and the updated internal
      variables correspond *)
  Definition sameAnswers (p : nat) (P : nat -> nat -> R) (e e' : enhancedStrain) : Prop :=
    forall u a, let Pa q := sum p (fun r => P q r * a r) in
    (forall gp gp' m, samePoint gp gp' -> (m < s)%nat -> e_value e' gp' (ren u) a m = e_value e gp u Pa m) /\
    ((forall gp, In gp points -> symmetric s (tangent (e_value e gp u Pa))) ->
     isInverse p (matrixD points e u Pa) (inverse (matrixD points e u Pa)) ->
     isInverse p (matrixD points' e' (ren u) a) (inverse (matrixD points' e' (ren u) a)) ->
     (forall f k, (k < N)%nat -> vectorOf p points' e' (ren u) a (ren f) k = ren (vectorOf p points e u Pa f) k) /\
     (forall k l, (k < N)%nat -> (l < N)%nat ->
        matrixOf p points' e' (ren u) a zeroMatrix k l = matrixOf p points e u Pa zeroMatrix (index k) (index l)) /\
     (forall du q, (q < p)%nat -> sum p (fun r => P q r * updateOf p points' e' (ren u) (ren du) a r) = updateOf p points e u du Pa q)).

  Hypothesis dim : (d = 2 \/ d = 3)%nat.
  Hypothesis HW : signedPermutation d W.
  Hypothesis Hnu : numbering n nu.
  Hypothesis material : localMaterial.
  Hypothesis pairs : samePoints.

  Lemma renumbered_gradient x x' u k b : (forall i b, (i < n)%nat -> (b < d)%nat -> x' i b = x (nu i) b) -> (k < d)%nat -> (b < d)%nat ->
    displacementGradientOf d n x' (ren u) k b = displacementGradientOf d n x u k b.
  Proof.
    intros Hx Hk Hb. unfold displacementGradientOf. rewrite <- (sum_renumber n nu (fun i => u (d * i + k)%nat * x i b) Hnu). apply sum_ext. intros i Hi.
    rewrite Hx by assumption. unfold ren, renumberedVector. f_equal. f_equal.
    now rewrite (proj1 (block_index d i k Hk)), (proj2 (block_index d i k Hk)).
  Qed.
  Lemma sum_index f : sum N (fun k => f (index k)) = sum N f.
  Proof.
    unfold N. rewrite !sum_blocks. rewrite <- (sum_renumber n nu (fun i => sum d (fun a => f (d * i + a)%nat)) Hnu). apply sum_ext. intros i Hi.
    apply sum_ext. intros a Ha. f_equal. unfold index.
    now rewrite (proj1 (block_index d i a Ha)), (proj2 (block_index d i a Ha)).
  Qed.

  Section Generic.
    Variables (p : nat) (P Pi : nat -> nat -> R) (e e' : enhancedStrain).
    Hypothesis HP : isInverse p P Pi.
    Let agreeAt u a := agree d n s p nu P (e_value e) (e_value e') (e_d e) (e_d e') (e_a e) (e_a e') (e_dd e) (e_dd e') (e_aa e) (e_aa e')
      (e_ad e) (e_ad e') u (ren u) (fun q => sum p (fun r => P q r * a r)) a.
    Hypothesis Hagree : forall u a gp gp', samePoint gp gp' -> agreeAt u a gp gp'.
    Hypothesis Hsym : forall gp u a S, (forall i j k l, e_dd e gp u a S i j k l = e_dd e gp u a S j i l k) /\
      (forall q r, e_aa e gp u a S q r = e_aa e gp u a S r q).

    Lemma same_answers : sameAnswers p P e e'.
    Proof.
      intros u a Pa. split; [intros gp gp' m Hp Hm; exact (proj1 (proj2 (Hagree u a gp gp' Hp)) m Hm)|].
      intros Hs HZ HZ'.
      assert (d0 : (0 < d)%nat) by lia.
      assert (pairs' : exists l, Permutation points l /\ List.Forall2 (agreeAt u a) l points').
      { destruct pairs as (l & Hl & HF). exists l. split; [exact Hl|]. clear -HF Hagree. induction HF; constructor; auto. }
      assert (Ms := fun e e' H => proj1 (material e e' H)). assert (Mt := fun e e' H => proj2 (material e e' H)).
      assert (sym := C107_symmetric d n s points d0 stress tangent (e_value e) (e_d e) (e_a e) (e_dd e) (e_aa e) u Pa).
      destruct sym as (SK & SD).
      { intros gp Hgp. split; [now apply Hs|]. split; intros; apply Hsym. }
      split; [|split].
      - intros f k Hk. refine (twin_vector d n s p points points' nu P Pi d0 stress tangent _ _ _ _ _ _ _ _ _ _ _ _ u (ren u) Pa a (proj1 Hnu) Ms Mt pairs' inverse HP HZ HZ' f (ren f) k Hk _).
        intros; reflexivity.
      - intros k l Hk Hl. refine (twin_matrix d n s p points points' nu P Pi d0 stress tangent _ _ _ _ _ _ _ _ _ _ _ _ u (ren u) Pa a (proj1 Hnu) Ms Mt pairs' inverse HP HZ HZ' SK _ k l Hk Hl).
        intros q r _ _. apply SD.
      - intros du q Hq. refine (twin_update d n s p points points' nu P Pi d0 stress tangent _ _ _ _ _ _ _ _ _ _ _ _ u (ren u) Pa a (proj1 Hnu) Ms Mt pairs' inverse HP HZ HZ' du (ren du) q Hq _ _ _).
        + intros; reflexivity.
        + exact sum_index.
        + intros; reflexivity.
    Qed.
  End Generic.

  Lemma vector_entries X X' m : (forall a b, (a < d)%nat -> (b < d)%nat -> X' a b = X a b) -> strainVector d X' m = strainVector d X m.
  Proof.
    intros H. unfold strainVector. assert (B : (fst (component d m) < d /\ snd (component d m) < d)%nat) by (destruct dim as [E|E]; rewrite E; clear; unfold component; destruct m as [|[|[|[|[|[|m]]]]]]; cbn; lia).
    destruct (component d m) as (a, b). cbn [fst snd] in B. rewrite H by tauto. reflexivity.
  Qed.

  (** *** Linear and Green-Lagrange strains *)
  Section Strains.
    Variables (v : variantE) (small : bool) (J0 J0' : nat -> nat -> R) (detJ0 : R).
    Hypothesis Hv : d = dimensionOf v.
    Hypothesis HJ : forall a b, (a < d)%nat -> (b < d)%nat -> J0' a b = sum d (fun c => W a c * J0 c b).
    Let A i j := transformationMatrix d J0 i j * detJ0.
    Let A' i j := transformationMatrix d J0' i j * detJ0.
    Hypothesis HZ : isInverse s A (inverse A).
    Hypothesis HZ' : isInverse s A' (inverse A').
    Let p := sizeE v.
    Let M := easFunctionE inverse d J0 detJ0 v.
    Let M' := easFunctionE inverse d J0' detJ0 v.

    Lemma inverse_turned : eqm s (mul s (inverse A') (transformationMatrix d W)) (inverse A).
    Proof.
      destruct HZ as (Z1 & _), HZ' as (_ & Z2).
      assert (E : eqm s A' (mul s (transformationMatrix d W) A)).
      { intros i j Hi Hj. unfold A'. rewrite (transformation_ext d J0' (mul d W J0)) by assumption. rewrite transformation_mul by assumption. fold s.
        unfold mul, A. rewrite <- sum_mul_r. apply sum_ext. intros. ring. }
      eapply eqm_trans; [apply eqm_sym, mul_id_r|]. eapply eqm_trans; [apply mul_ext; [apply eqm_refl|]|].
      - intros i j Hi Hj. symmetry. exact (Z1 i j Hi Hj).
      - rewrite <- mul_assoc, (mul_assoc s (inverse A')). eapply eqm_trans; [apply mul_ext; [|apply eqm_refl]|apply mul_id_l].
        eapply eqm_trans; [apply mul_ext; [apply eqm_refl|apply eqm_sym, E]|]. exact Z2.
    Qed.
    Lemma modes_turned : exists P Pi, isInverse p P Pi /\ forall gp gp' m q, samePoint gp gp' -> (m < s)%nat -> (q < p)%nat ->
      M' gp' m q = sum p (fun r => P r q * M gp m r).
    Proof.
      destruct (all_strain v d W Hv HW) as (P & Pi & HP & H). exists P, Pi. split; [exact HP|]. intros gp gp' m q (Sp & Ie & _) Hm Hq.
      unfold M', M, easFunctionE, T0InverseTransformed. fold s A A'. rewrite Ie.
      rewrite (sum_ext p _ (fun r => sum s (fun k => mul s (inverse A') (transformationMatrix d W) m k * (P r q * modesE v gp k r * / integrationElement gp)))).
      2:{ intros r _. rewrite <- sum_mul_l. apply sum_ext. intros k Hk. rewrite inverse_turned by assumption. unfold Rdiv. ring. }
      rewrite sum_swap.
      rewrite (sum_ext s (fun j => sum p _) (fun k => mul s (inverse A') (transformationMatrix d W) m k * (sum p (fun r => P r q * modesE v gp k r) * / integrationElement gp))).
      2:{ intros k _. rewrite sum_mul_l, sum_mul_r. reflexivity. }
      rewrite mul_apply. apply sum_ext. intros k Hk. fold s p in H. rewrite (H gp gp' Sp k q Hk Hq). unfold Rdiv. rewrite Rmult_assoc. f_equal.
      rewrite <- sum_mul_l. apply sum_ext. intros. ring.
    Qed.

    Theorem C184_enhanced_strains : exists P Pi, isInverse p P Pi /\ sameAnswers p P (additive d n p small dN M) (additive d n p small dN' M').
    Proof.
      destruct modes_turned as (P & Pi & HP & HM). exists P, Pi. split; [exact HP|]. apply (same_answers p P Pi); [exact HP| |].
      - intros u a gp gp' Hp. assert (HM' := fun m q => HM gp gp' m q Hp). clear HM. destruct Hp as (_ & Ie & We & HdN).
        assert (G := fun k b => renumbered_gradient (dN gp) (dN' gp') u k b HdN).
        unfold agree, additive. cbn [e_value e_d e_a e_dd e_aa e_ad]. split; [now rewrite Ie, We|]. split; [|split; [|split; [|split; [|split]]]].
        + intros m Hm. unfold additiveValue. f_equal.
          * destruct small; unfold smallStrain, glStrain; apply vector_entries; intros x y Hx Hy; rewrite ?G by assumption; [reflexivity|].
            unfold greenLagrangeOf. rewrite !G by assumption. f_equal. f_equal. apply sum_ext. intros k Hk. now rewrite !G by assumption.
          * unfold apply. rewrite (sum_ext p _ (fun q => sum p (fun r => P r q * M gp m r * a q))) by (intros q Hq; rewrite HM' by assumption; rewrite <- sum_mul_r; reflexivity).
            rewrite sum_swap. apply sum_ext. intros r _. rewrite <- sum_mul_l. apply sum_ext. intros. ring.
        + intros i m k Hi Hm Hk. unfold additive_d. destruct small; unfold smallBop, glBop, glFirst; apply vector_entries; intros x y Hx Hy;
            rewrite ?G, !HdN by assumption; reflexivity.
        + intros m q Hm Hq. now apply HM'.
        + intros S S' i j k l HS Hi Hj Hk Hl. unfold additive_dd. destruct small; [reflexivity|]. unfold glKg. fold s. apply sum_ext. intros m Hm. rewrite HS by assumption. f_equal.
          apply vector_entries. intros x y Hx Hy. unfold glSecond. now rewrite !HdN by assumption.
        + intros. unfold zero_aa. symmetry. apply sum_zero. intros. rewrite sum_zero by (intros; ring). ring.
        + intros. unfold zero_ad. symmetry. apply sum_zero. intros. ring.
      - intros gp u a S. split; [|reflexivity]. intros i j k l. unfold additive. cbn [e_dd]. unfold additive_dd. destruct small; [reflexivity|].
        assert (d0 : (0 < d)%nat) by lia. apply (C96_green_lagrange d n d0 dN gp u). lia.
    Qed.
  End Strains.

  (** *** Displacement gradients *)
  Lemma rows_ext x x' y y' m : (forall b, (b < d)%nat -> x' b = x b) -> (forall b, (b < d)%nat -> y' b = y b) -> voigtRows d x' y' m = voigtRows d x y m.
  Proof.
    intros Hx Hy. unfold voigtRows. destruct dim as [E|E]; rewrite E in *; cbn [Nat.eqb]; destruct m as [|[|[|[|[|m]]]]]; rewrite !Hx, !Hy by lia; reflexivity.
  Qed.
  Lemma columns_ext X X' Y Y' m : eqm d X' X -> eqm d Y' Y -> voigtColumns d X' Y' m = voigtColumns d X Y m.
  Proof.
    intros HX HY. unfold voigtColumns. cbv zeta.
    assert (C : forall a b, (a < d)%nat -> (b < d)%nat -> sum d (fun k => X' k a * Y' k b) = sum d (fun k => X k a * Y k b)) by (intros; apply sum_ext; intros; rewrite HX, HY by assumption; reflexivity).
    destruct dim as [E|E]; rewrite E in *; cbn [Nat.eqb]; destruct m as [|[|[|[|[|m]]]]]; rewrite !C by lia; reflexivity.
  Qed.
  Lemma columns_linear p c (X : nat -> nat -> nat -> R) Y m :
    voigtColumns d (fun k l => sum p (fun r => c r * X r k l)) Y m = sum p (fun r => c r * voigtColumns d (X r) Y m).
  Proof.
    unfold voigtColumns. cbv zeta.
    assert (C : forall a b, sum d (fun k => sum p (fun r => c r * X r k a) * Y k b) = sum p (fun r => c r * sum d (fun k => X r k a * Y k b))).
    { intros a b. rewrite (sum_ext d _ (fun k => sum p (fun r => c r * (X r k a * Y k b)))) by (intros; rewrite <- sum_mul_r; apply sum_ext; intros; ring).
      rewrite sum_swap. apply sum_ext. intros. apply sum_mul_l. }
    assert (C2 : forall a b a' b', sum d (fun k => sum p (fun r => c r * X r k a) * Y k b) + sum d (fun k => sum p (fun r => c r * X r k a') * Y k b') =
      sum p (fun r => c r * (sum d (fun k => X r k a * Y k b) + sum d (fun k => X r k a' * Y k b')))).
    { intros. rewrite !C, <- sum_add. apply sum_ext. intros. ring. }
    destruct (d =? 2)%nat; destruct m as [|[|[|[|[|m]]]]]; (apply C || apply C2).
  Qed.
  Lemma stress_columns_ext S S' X X' Y Y' : (forall m, (m < s)%nat -> S' m = S m) -> eqm d X' X -> eqm d Y' Y -> stressColumns d S' X' Y' = stressColumns d S X Y.
  Proof. intros HS HX HY. rewrite <- !(columns_contract d 1 dim). fold s. apply sum_ext. intros m Hm. rewrite HS by assumption. f_equal. now apply columns_ext. Qed.
  Lemma stress_columns_linear p c S (X : nat -> nat -> nat -> R) Y :
    stressColumns d S (fun k l => sum p (fun r => c r * X r k l)) Y = sum p (fun r => c r * stressColumns d S (X r) Y).
  Proof.
    rewrite <- (columns_contract d 1 dim). fold s. rewrite (sum_ext s _ (fun m => sum p (fun r => c r * (S m * voigtColumns d (X r) Y m)))).
    - rewrite sum_swap. apply sum_ext. intros r _. rewrite sum_mul_l. f_equal. apply (columns_contract d 1 dim).
    - intros m _. rewrite columns_linear, <- sum_mul_l. apply sum_ext. intros. ring.
  Qed.
  Lemma stress_columns_sym S X Y : stressColumns d S X Y = stressColumns d S Y X.
  Proof. exact (stress_symmetric d 1 dim S X Y). Qed.

  Section Gradients.
    Variables (transposed : bool) (detJ0 : R) (JInv JInv' dN0 dN0' : nat -> nat -> R).
    (** JInv k c is the derivative of the local coordinate c with respect to the global coordinate k, at the center *)
    Hypothesis HJ : forall k c, (k < d)%nat -> (c < d)%nat -> JInv' k c = sum d (fun e => W c e * JInv k e).
    Hypothesis HdN0 : forall i b, (i < n)%nat -> (b < d)%nat -> dN0' i b = dN0 (nu i) b.
    Let p := (d * d)%nat.
    Let H := easFunctionH d detJ0 JInv.
    Let H' := easFunctionH d detJ0 JInv'.

    Lemma gradient_modes_turned : exists P Pi, isInverse p P Pi /\ forall gp gp' q k l, samePoint gp gp' -> (q < p)%nat -> (k < d)%nat -> (l < d)%nat ->
      H' gp' q k l = sum p (fun r => P r q * H gp r k l).
    Proof.
      destruct (all_gradient d W dim HW) as (P & Pi & HP & X). exists P, Pi. split; [exact HP|]. intros gp gp' q k l (Sp & Ie & _) Hq Hk Hl.
      assert (F : forall J M gp, sum d (fun b => sum d (fun c => detJ0 / integrationElement gp * J k c * M c b) * J l b) =
        detJ0 / integrationElement gp * mul d J (mul d M (mt J)) k l).
      { intros J M g. unfold mul, mt. rewrite <- sum_mul_l.
        rewrite (sum_ext d _ (fun b => sum d (fun c => detJ0 / integrationElement g * (J k c * (M c b * J l b))))) by (intros; rewrite <- sum_mul_r; apply sum_ext; intros; ring).
        rewrite sum_swap. apply sum_ext. intros c _. rewrite <- !sum_mul_l. apply sum_ext. intros. ring. }
      unfold H', H, easFunctionH. rewrite (F JInv' (modesH d gp' q) gp'), Ie.
      rewrite (sum_ext p _ (fun r => detJ0 / integrationElement gp * (P r q * mul d JInv (mul d (modesH d gp r) (mt JInv)) k l))) by (intros; rewrite F; ring).
      rewrite sum_mul_l. f_equal.
      assert (EJ : eqm d JInv' (mul d JInv (mt W))).
      { intros x y Hx Hy. rewrite HJ by assumption. unfold mul, mt. apply sum_ext. intros. ring. }
      assert (EJt : eqm d (mt JInv') (mul d W (mt JInv))).
      { intros x y Hx Hy. unfold mt at 1. rewrite HJ by assumption. unfold mul, mt. apply sum_ext. intros. ring. }
      transitivity (mul d JInv (mul d (mul d (mt W) (mul d (modesH d gp' q) W)) (mt JInv)) k l).
      - assert (Q : eqm d (mul d JInv' (mul d (modesH d gp' q) (mt JInv'))) (mul d JInv (mul d (mul d (mt W) (mul d (modesH d gp' q) W)) (mt JInv)))).
        { eapply eqm_trans; [apply mul_ext; [exact EJ|apply mul_ext; [apply eqm_refl|exact EJt]]|]. rewrite !mul_assoc. apply eqm_refl. }
        now apply Q.
      - fold p in X. unfold mul at 1 2. rewrite (sum_ext d _ (fun c => sum p (fun r => P r q * (JInv k c * sum d (fun b => modesH d gp r c b * mt JInv b l))))).
        + rewrite sum_swap. apply sum_ext. intros r _. rewrite sum_mul_l. reflexivity.
        + intros c Hc. rewrite (sum_ext d _ (fun b => sum p (fun r => P r q * (modesH d gp r c b * mt JInv b l)))).
          * rewrite sum_swap, <- sum_mul_l. apply sum_ext. intros r _. rewrite sum_mul_l. ring.
          * intros b Hb. rewrite (X gp gp' Sp q c b Hq Hc Hb). rewrite <- sum_mul_r. apply sum_ext. intros. ring.
    Qed.

    Theorem C184_displacement_gradients : exists P Pi, isInverse p P Pi /\
      sameAnswers p P (gradient d n p transposed dN dN0 H) (gradient d n p transposed dN' dN0' H').
    Proof.
      destruct gradient_modes_turned as (P & Pi & HP & HM). exists P, Pi. split; [exact HP|]. apply (same_answers p P Pi); [exact HP| |].
      2:{ intros gp u a S. destruct (C109_symmetric d n p dN H dN0 gp u a S dim) as (S1 & S2 & S3). assert (d0 : (0 < d)%nat) by lia.
          assert (S4 := proj2 (C96_green_lagrange d n d0 dN gp u ltac:(lia)) S). unfold gradient. destruct transposed; cbn [e_dd e_aa]; split; assumption. }
      intros u a gp gp' Hp. assert (HM' : forall q, (q < p)%nat -> eqm d (H' gp' q) (fun k l => sum p (fun r => P r q * H gp r k l))) by (intros q Hq k l Hk Hl; now apply HM).
      clear HM. destruct Hp as (_ & Ie & We & HdN). set (Pa := fun q => sum p (fun r => P q r * a r)).
      assert (G := fun k b => renumbered_gradient (dN gp) (dN' gp') u k b HdN).
      assert (G0 := fun k b => renumbered_gradient dN0 dN0' u k b HdN0).
      assert (Ht : eqm d (Htilde p H' gp' a) (Htilde p H gp Pa)).
      { intros k l Hk Hl. unfold Htilde, Pa. rewrite (sum_ext p _ (fun q => sum p (fun r => H gp r k l * (P r q * a q)))) by (intros q Hq; rewrite HM' by assumption; rewrite <- sum_mul_r; apply sum_ext; intros; ring).
        rewrite sum_swap. apply sum_ext. intros. now rewrite sum_mul_l. }
      assert (V : forall G G' m, eqm d G' G -> (m < s)%nat -> strainOfGradient d G' m = strainOfGradient d G m).
      { intros X X' m E Hm. assert (C := fun Y => proj1 (C109_values d 0 1 (fun _ _ _ => 0) (fun _ _ k l => Y k l) (fun _ _ => 0) gp (fun _ => 0) (fun _ => 1) m dim Hm)).
        unfold dgValue in C.
        assert (C' : forall Y, strainOfGradient d Y m = strainVector d (greenLagrangeOf d Y) m).
        { intros Y. assert (T : forall f g, (forall k l, f k l = g k l) -> strainOfGradient d f m = strainOfGradient d g m /\ strainVector d (greenLagrangeOf d f) m = strainVector d (greenLagrangeOf d g) m).
          { intros f g Q. assert (f = g) by (apply FunctionalExtensionality.functional_extensionality; intros; apply FunctionalExtensionality.functional_extensionality; intros; apply Q). subst. now split. }
          transitivity (strainOfGradient d (dgGradient d 0 1 (fun _ _ _ => 0) (fun _ _ k l => Y k l) gp (fun _ => 0) (fun _ => 1)) m).
          - apply T. intros k l. unfold dgGradient, displacementGradientOf, Htilde. cbn [sum]. ring.
          - rewrite C. apply T. intros k l. unfold displacementGradientOf. cbn [sum]. ring. }
        rewrite !C'. apply vector_entries. intros x y Hx Hy. unfold greenLagrangeOf. rewrite !E by assumption. f_equal. f_equal. apply sum_ext. intros k Hk. now rewrite !E by assumption. }
      destruct transposed; unfold agree, gradient; cbn [e_value e_d e_a e_dd e_aa e_ad]; (split; [now rewrite Ie, We|]).
      - assert (Fc : eqm d (centerF d n dN0' (ren u)) (centerF d n dN0 u)) by (intros k l Hk Hl; unfold centerF; now rewrite G0 by assumption).
        assert (Gr : eqm d (dgtGradient d n p dN' H' dN0' gp' (ren u) a) (dgtGradient d n p dN H dN0 gp u Pa)).
        { intros k l Hk Hl. unfold dgtGradient, dgtEnhanced. rewrite G by assumption. f_equal. apply sum_ext. intros b Hb. now rewrite Fc, Ht by assumption. }
        assert (Fd : eqm d (dgtF d n p dN' H' dN0' gp' (ren u) a) (dgtF d n p dN H dN0 gp u Pa)) by (intros k l Hk Hl; unfold dgtF; now rewrite Gr by assumption).
        assert (Np : forall i l, (i < n)%nat -> (l < d)%nat -> dNplus d p dN' H' dN0' gp' a i l = dNplus d p dN H dN0 gp Pa (nu i) l).
        { intros i l Hi Hl. unfold dNplus. rewrite HdN by assumption. f_equal. rewrite !(dNtilde_is d p). apply sum_ext. intros b Hb. now rewrite HdN0, Ht by assumption. }
        assert (Tt : forall (X X' : nat -> nat -> R) q, eqm d X' X -> (q < p)%nat ->
          eqm d (timesTransposed d H' X' gp' q) (fun k l => sum p (fun r => P r q * timesTransposed d H X gp r k l))).
        { intros X X' q E Hq k l Hk Hl. unfold timesTransposed. rewrite (sum_ext d _ (fun b => sum p (fun r => P r q * (X k b * H gp r l b)))).
          - rewrite sum_swap. apply sum_ext. intros. now rewrite sum_mul_l.
          - intros b Hb. rewrite E, HM' by assumption. rewrite <- sum_mul_l. apply sum_ext. intros. ring. }
        assert (Ro : forall i b, (i < n)%nat -> eqm d (rowOf (dNplus d p dN' H' dN0' gp' a i) b) (rowOf (dNplus d p dN H dN0 gp Pa (nu i)) b)).
        { intros i b Hi k l Hk Hl. unfold rowOf. destruct (k =? b)%nat; [now apply Np|reflexivity]. }
        assert (Ro0 : forall i b, (i < n)%nat -> eqm d (rowOf (dN0' i) b) (rowOf (dN0 (nu i)) b)).
        { intros i b Hi k l Hk Hl. unfold rowOf. destruct (k =? b)%nat; [now apply HdN0|reflexivity]. }
        split; [|split; [|split; [|split; [|split]]]].
        + intros m Hm. unfold dgtValue. now apply V.
        + intros i m k Hi Hm Hk. unfold dgt_d. apply rows_ext; intros b Hb; [now apply Np|now apply Fd].
        + intros m q Hm Hq. unfold dgt_a. rewrite <- columns_linear. apply columns_ext; [now apply Tt|exact Fd].
        + intros S S' i j k l HS Hi Hj Hk Hl. rewrite !dgt_dd_is by assumption. apply stress_columns_ext; [exact HS|now apply Ro..].
        + intros S S' q r HS Hq Hr. unfold dgt_aa. rewrite (stress_columns_ext S S' _ _ _ _ HS (Tt _ _ q Fc Hq) (Tt _ _ r Fc Hr)).
          rewrite stress_columns_linear. apply sum_ext. intros i _. f_equal. rewrite stress_columns_sym, stress_columns_linear. apply sum_ext. intros j _.
          rewrite stress_columns_sym. ring.
        + intros S S' i q k HS Hi Hq Hk. rewrite dgt_ad_is by assumption.
          rewrite (stress_columns_ext S S' _ _ _ _ HS (Tt _ _ q Fc Hq) (Ro i k Hi)), (stress_columns_ext S S' _ _ _ _ HS (Tt _ _ q (Ro0 i k Hi) Hq) Fd).
          rewrite !stress_columns_linear, <- sum_add. apply sum_ext. intros r _. rewrite dgt_ad_is by assumption. ring.
      - assert (Fd : eqm d (dgF d n p dN' H' gp' (ren u) a) (dgF d n p dN H gp u Pa)) by (intros k l Hk Hl; unfold dgF, dgGradient; now rewrite G, Ht by assumption).
        split; [|split; [|split; [|split; [|split]]]].
        + intros m Hm. unfold dgValue. apply V; [|exact Hm]. intros k l Hk Hl. unfold dgGradient. now rewrite G, Ht by assumption.
        + intros i m k Hi Hm Hk. unfold dg_d. apply rows_ext; intros b Hb; [now apply HdN|now apply Fd].
        + intros m q Hm Hq. unfold dg_a. rewrite <- columns_linear. apply columns_ext; [now apply HM'|exact Fd].
        + intros S S' i j k l HS Hi Hj Hk Hl. unfold dg_dd, glKg. fold s. apply sum_ext. intros m Hm. rewrite HS by assumption. f_equal.
          apply vector_entries. intros x y Hx Hy. unfold glSecond. now rewrite !HdN by assumption.
        + intros S S' q r HS Hq Hr. unfold dg_aa. rewrite (stress_columns_ext S S' _ _ _ _ HS (HM' q Hq) (HM' r Hr)).
          rewrite stress_columns_linear. apply sum_ext. intros i _. f_equal. rewrite stress_columns_sym, stress_columns_linear. apply sum_ext. intros j _.
          rewrite stress_columns_sym. ring.
        + intros S S' i q k HS Hi Hq Hk. unfold dg_ad.
          assert (Ro : eqm d (rowOf (dN' gp' i) k) (rowOf (dN gp (nu i)) k)) by (intros x y Hx Hy; unfold rowOf; destruct (x =? k)%nat; [now apply HdN|reflexivity]).
          rewrite (stress_columns_ext S S' _ _ _ _ HS (HM' q Hq) Ro). now rewrite stress_columns_linear.
    Qed.
  End Gradients.

  (** *** Assumed stresses *)
  Section Stresses.
    Variables (v : variantS) (small : bool) (J0 J0' : nat -> nat -> R) (invert : (nat -> R) -> (nat -> R) -> (nat -> nat -> R) * (nat -> R)).
    Hypothesis Hv : d = dimensionS v.
    Hypothesis HJ : forall a b, (a < d)%nat -> (b < d)%nat -> J0' a b = sum d (fun c => W a c * J0 c b).
    Let p := sizeS v.
    Let M := asFunction d J0 v.
    Let M' := asFunction d J0' v.
    Let eps := if small then smallStrain d n dN else glStrain d n dN.
    Let eps' := if small then smallStrain d n dN' else glStrain d n dN'.
    Let bop := if small then smallBop d dN else glBop d n dN.
    Let bop' := if small then smallBop d dN' else glBop d n dN'.
    Let kg := if small then noKg else glKg d dN.
    Let kg' := if small then noKg else glKg d dN'.

    (** The states of the second element belong to those of the first one: the stress parameters are those of the first one in other modes,
        and the states of the points are the same *)
    Definition sameState (P : nat -> nat -> R) (st st' : asState) : Prop :=
      (forall q, (q < p)%nat -> beta st q = sum p (fun r => P q r * beta st' r)) /\
      (forall gp gp', samePoint gp gp' -> (forall m, (m < s)%nat -> strainStates st' gp' m = strainStates st gp m) /\
         (forall m o, (m < s)%nat -> (o < s)%nat -> invertedMaterialStates st' gp' m o = invertedMaterialStates st gp m o)).
    Definition localInversion : Prop := forall S S' E E', (forall m, (m < s)%nat -> S' m = S m) -> (forall m, (m < s)%nat -> E' m = E m) ->
      (forall m, (m < s)%nat -> snd (invert S' E') m = snd (invert S E) m) /\
      (forall m o, (m < s)%nat -> (o < s)%nat -> fst (invert S' E') m o = fst (invert S E) m o).
    Hypothesis inversion_local : localInversion.

    Lemma index_ok k : (k < N)%nat -> (index k < N)%nat /\ (index k / d = nu (k / d))%nat /\ (index k mod d = k mod d)%nat /\ (k / d < n)%nat /\ (k mod d < d)%nat.
    Proof. intros Hk. assert (d0 : (0 < d)%nat) by lia. exact (index_facts d n nu d0 (proj1 Hnu) k Hk). Qed.

    Lemma stress_modes_turned : exists P Pi, isInverse p P Pi /\ forall gp gp' m q, samePoint gp gp' -> (m < s)%nat -> (q < p)%nat ->
      M' gp' m q = sum p (fun r => P r q * M gp m r).
    Proof.
      destruct (all_stress v d W Hv HW) as (P & Pi & HP & X). exists P, Pi. split; [exact HP|]. intros gp gp' m q (Sp & _) Hm Hq. fold p s in X.
      unfold M', M, asFunction, T0transposed. fold s.
      rewrite (sum_ext s _ (fun k => sum s (fun l => transformationMatrix d J0 l m * (transformationMatrix d W k l * modesS v gp' k q)))).
      2:{ intros k Hk. rewrite (transformation_ext d J0' (mul d W J0)) by assumption. rewrite transformation_mul by assumption. fold s. unfold mul. rewrite <- sum_mul_r. apply sum_ext. intros. ring. }
      rewrite sum_swap. rewrite (sum_ext s _ (fun l => sum p (fun r => P r q * (transformationMatrix d J0 l m * modesS v gp l r)))).
      2:{ intros l Hl. rewrite sum_mul_l, (X gp gp' Sp l q Hl Hq). rewrite <- sum_mul_l. apply sum_ext. intros. ring. }
      rewrite sum_swap. apply sum_ext. intros r _. now rewrite sum_mul_l.
    Qed.

    Lemma point_sum f f' : (forall gp gp', samePoint gp gp' -> f' gp' = f gp) -> sumP points' f' = sumP points f.
    Proof. intros H. destruct pairs as (l & Hl & HF). rewrite (sumP_permutation _ _ f Hl). exact (sumP_pairs _ _ _ _ _ HF H). Qed.

    Section Modes.
      Variables (P Pi : nat -> nat -> R) (u : nat -> R) (st st' : asState).
      Hypothesis HP : isInverse p P Pi.
      Hypothesis HM : forall gp gp' m q, samePoint gp gp' -> (m < s)%nat -> (q < p)%nat -> M' gp' m q = sum p (fun r => P r q * M gp m r).
      Hypothesis Hst : sameState P st st'.

      Lemma as_strain gp gp' m : samePoint gp gp' -> (m < s)%nat -> eps' gp' (ren u) m = eps gp u m.
      Proof.
        intros (_ & _ & _ & HdN) Hm. assert (G := fun k b => renumbered_gradient (dN gp) (dN' gp') u k b HdN). unfold eps', eps.
        destruct small; unfold smallStrain, glStrain; apply vector_entries; intros x y Hx Hy; rewrite ?G by assumption; [reflexivity|].
        unfold greenLagrangeOf. rewrite !G by assumption. f_equal. f_equal. apply sum_ext. intros k Hk. now rewrite !G by assumption.
      Qed.
      Lemma as_bop gp gp' i m k : samePoint gp gp' -> (i < n)%nat -> (m < s)%nat -> (k < d)%nat -> bop' gp' (ren u) i m k = bop gp u (nu i) m k.
      Proof.
        intros (_ & _ & _ & HdN) Hi Hm Hk. assert (G := fun k b => renumbered_gradient (dN gp) (dN' gp') u k b HdN). unfold bop', bop.
        destruct small; unfold smallBop, glBop, glFirst; apply vector_entries; intros x y Hx Hy; rewrite ?G, !HdN by assumption; reflexivity.
      Qed.
      Lemma as_kg gp gp' S S' i j k l : samePoint gp gp' -> (forall m, (m < s)%nat -> S' m = S m) -> (i < n)%nat -> (j < n)%nat ->
        kg' gp' (ren u) S' i j k l = kg gp u S (nu i) (nu j) k l.
      Proof.
        intros (_ & _ & _ & HdN) HS Hi Hj. unfold kg', kg. destruct small; [reflexivity|]. unfold glKg. fold s. apply sum_ext. intros m Hm. rewrite HS by assumption. f_equal.
        apply vector_entries. intros x y Hx Hy. unfold glSecond. now rewrite !HdN by assumption.
      Qed.
      Lemma vol_same gp gp' : samePoint gp gp' -> vol gp' = vol gp.
      Proof. intros (_ & Ie & We & _). unfold vol. now rewrite Ie, We. Qed.
      Lemma parameters_stress b b' gp gp' m : (forall q, (q < p)%nat -> b q = sum p (fun r => P q r * b' r)) -> samePoint gp gp' ->
        (m < s)%nat -> stressValue s p M' gp' b' m = stressValue s p M gp b m.
      Proof.
        intros Hb Hp Hm. unfold stressValue. destruct (Nat.ltb_spec m s); [|lia]. unfold apply.
        rewrite (sum_ext p _ (fun q => sum p (fun r => M gp m r * (P r q * b' q)))).
        - rewrite sum_swap. apply sum_ext. intros r Hr. rewrite sum_mul_l, <- Hb by assumption. reflexivity.
        - intros q Hq. rewrite (HM gp gp') by assumption. rewrite <- sum_mul_r. apply sum_ext. intros. ring.
      Qed.
      Let stressAt := fun gp gp' m => parameters_stress (beta st) (beta st') gp gp' m (proj1 Hst).

      Lemma as_h_same : eqm p (asH s points' M' st') (mul p (mt P) (mul p (asH s points M st) P)).
      Proof.
        intros q t Hq Ht. unfold mul, mt. rewrite as_h_sum.
        rewrite (sum_ext p _ (fun r => sumP points (fun gp => sum p (fun j => P r q * P j t * (sum s (fun k => sum s (fun l => M gp k r * invertedMaterialStates st gp k l * M gp l j)) * vol gp))))).
        2:{ intros r _. rewrite sumP_swap, <- sum_mul_l. apply sum_ext. intros j _. rewrite as_h_sum.
            rewrite (sumP_ext points (fun gp => P r q * P j t * _) (fun gp => sum s (fun k => sum s (fun l => M gp k r * invertedMaterialStates st gp k l * M gp l j)) * vol gp * (P r q * P j t))) by (intros; ring).
            rewrite sumP_mul_r. ring. }
        rewrite <- sumP_swap. apply point_sum. intros gp gp' Hp. rewrite (vol_same gp gp' Hp).
        rewrite (sum_ext p _ (fun r => sum p (fun j => sum s (fun k => sum s (fun l => P r q * M gp k r * (invertedMaterialStates st gp k l * (P j t * M gp l j))))) * vol gp)).
        2:{ intros r _. rewrite <- sum_mul_r. apply sum_ext. intros j _. rewrite <- Rmult_assoc, <- sum_mul_l. f_equal. apply sum_ext. intros. rewrite <- sum_mul_l. apply sum_ext. intros. ring. }
        rewrite sum_mul_r. f_equal. symmetry.
        rewrite (sum_ext p _ (fun r => sum s (fun k => sum s (fun l => P r q * M gp k r * (invertedMaterialStates st gp k l * M' gp' l t))))).
        2:{ intros r _. rewrite sum_swap. apply sum_ext. intros k _. rewrite sum_swap. apply sum_ext. intros l Hl. rewrite (HM gp gp' l t Hp Hl Ht), !sum_mul_l. reflexivity. }
        rewrite sum_swap. apply sum_ext. intros k Hk. rewrite sum_swap. apply sum_ext. intros l Hl. rewrite sum_mul_r, <- (HM gp gp' k q Hp Hk Hq).
        rewrite (proj2 (proj2 Hst gp gp' Hp) k l Hk Hl). ring.
      Qed.
      Lemma as_modes_sum q (y y' : point -> nat -> R) : (q < p)%nat -> (forall gp gp' m, samePoint gp gp' -> (m < s)%nat -> y' gp' m = y gp m) ->
        sumP points' (fun gp => sum s (fun m => M' gp m q * y' gp m) * vol gp) = sum p (fun r => P r q * sumP points (fun gp => sum s (fun m => M gp m r * y gp m) * vol gp)).
      Proof.
        intros Hq Hy. rewrite (sum_ext p _ (fun r => sumP points (fun gp => P r q * (sum s (fun m => M gp m r * y gp m) * vol gp)))).
        2:{ intros r _. rewrite Rmult_comm, <- sumP_mul_r. apply sumP_ext. intros. ring. }
        rewrite <- sumP_swap. apply point_sum. intros gp gp' Hp. rewrite (vol_same gp gp' Hp).
        rewrite (sum_ext p _ (fun r => sum s (fun m => P r q * M gp m r * y gp m) * vol gp)).
        2:{ intros r _. rewrite <- Rmult_assoc, <- sum_mul_l. f_equal. apply sum_ext. intros. ring. }
        rewrite sum_mul_r. f_equal. rewrite sum_swap. apply sum_ext. intros m Hm. rewrite sum_mul_r, (HM gp gp' m q Hp Hm Hq), (Hy gp gp' m Hp Hm). reflexivity.
      Qed.
      Lemma as_rest_same q : (q < p)%nat -> asRtilde s points' eps' M' (ren u) st' q = sum p (fun r => P r q * asRtilde s points eps M u st r).
      Proof.
        intros Hq. rewrite as_rtilde_sum. rewrite (sum_ext p _ (fun r => P r q * sumP points (fun gp => sum s (fun m => M gp m r * (eps gp u m - strainStates st gp m)) * vol gp))) by (intros; now rewrite as_rtilde_sum).
        apply (as_modes_sum q (fun gp m => eps gp u m - strainStates st gp m) (fun gp m => eps' gp (ren u) m - strainStates st' gp m) Hq).
        intros gp gp' m Hp Hm. now rewrite (as_strain gp gp' m Hp Hm), (proj1 (proj2 Hst gp gp' Hp) m Hm).
      Qed.
      Lemma as_g_same q k : (q < p)%nat -> (k < N)%nat -> asG d n s points' bop' M' (ren u) q k = sum p (fun r => P r q * asG d n s points bop M u r (index k)).
      Proof.
        intros Hq Hk. assert (d0 : (0 < d)%nat) by lia. destruct (index_ok k Hk) as (Hi & Ed & Em & Hn & Hd).
        rewrite as_g_sum by assumption.
        rewrite (sum_ext p _ (fun r => P r q * sumP points (fun gp => sum s (fun m => M gp m r * bop gp u (nu (k / d)%nat) m (k mod d)) * vol gp))) by (intros; rewrite as_g_sum by assumption; now rewrite Ed, Em).
        apply (as_modes_sum q (fun gp m => bop gp u (nu (k / d)%nat) m (k mod d)) (fun gp m => bop' gp (ren u) (k / d)%nat m (k mod d)) Hq).
        intros gp gp' m Hp Hm. now apply as_bop.
      Qed.

      Let H := asH s points M st.
      Let H' := asH s points' M' st'.

      Lemma as_energy_same : asScalarImpl s p points' eps' M' (ren u) st' = asScalarImpl s p points eps M u st.
      Proof.
        rewrite !as_scalar_sum. apply point_sum. intros gp gp' Hp. rewrite (vol_same gp gp' Hp). f_equal. unfold dot. f_equal; [|f_equal];
          apply sum_ext; intros m Hm; rewrite (stressAt gp gp' m Hp Hm), ?(as_strain gp gp' m Hp Hm), ?(proj1 (proj2 Hst gp gp' Hp) m Hm); reflexivity.
      Qed.

      Lemma as_kg_symmetric k l : (k < N)%nat -> (l < N)%nat -> asGeometric d n s p points kg M u st zeroMatrix l k = asGeometric d n s p points kg M u st zeroMatrix k l.
      Proof.
        intros Hk Hl. assert (d0 : (0 < d)%nat) by lia. rewrite !as_geometric_sum by assumption. f_equal. apply sumP_ext. intros gp _. f_equal. unfold kg. destruct small; [reflexivity|].
          apply (C96_green_lagrange d n d0 dN gp u). lia.
      Qed.
      Lemma as_kg_same k l : (k < N)%nat -> (l < N)%nat -> asGeometric d n s p points' kg' M' (ren u) st' zeroMatrix k l = asGeometric d n s p points kg M u st zeroMatrix (index k) (index l).
      Proof.
        intros Hk Hl. assert (d0 : (0 < d)%nat) by lia.
          destruct (index_ok k Hk) as (Hi & Ed & Em & Hn & Hd).
          destruct (index_ok l Hl) as (Hi' & Ed' & Em' & Hn' & Hd').
          rewrite !as_geometric_sum by assumption. unfold zeroMatrix. f_equal. apply point_sum. intros gp gp' Hp. rewrite (vol_same gp gp' Hp), Ed, Em, Ed', Em'. f_equal.
          apply as_kg; try assumption. intros m Hm. now apply (parameters_stress (beta st) (beta st') gp gp' m (proj1 Hst)).
      Qed.

      Variable inverseH : (nat -> nat -> R) -> nat -> nat -> R.
      Hypothesis HZ : isInverse p H (inverseH H).
      Hypothesis HZ' : isInverse p H' (inverseH H').

      Lemma as_vector_same f k : (k < N)%nat ->
        asVectorImpl d n s p points' eps' bop' M' inverseH (ren u) st' (ren f) k = ren (asVectorImpl d n s p points eps bop M inverseH u st f) k.
      Proof.
        intros Hk. assert (d0 : (0 < d)%nat) by lia. destruct (index_ok k Hk) as (Hi & Ed & Em & Hn & Hd).
        change (ren (asVectorImpl d n s p points eps bop M inverseH u st f) k) with (asVectorImpl d n s p points eps bop M inverseH u st f (index k)).
        unfold asVectorImpl. f_equal.
        - rewrite !as_forces_sum by assumption. f_equal. apply point_sum. intros gp gp' Hp. rewrite (vol_same gp gp' Hp). f_equal. apply sum_ext. intros m Hm.
          rewrite Ed, Em. now rewrite (as_bop gp gp'), (stressAt gp gp' m Hp Hm) by assumption.
        - apply (product_same p P Pi H H' _ _ HP as_h_same HZ HZ' (fun q => asG d n s points bop M u q (index k)) (fun q => asG d n s points' bop' M' (ren u) q k)
            (asRtilde s points eps M u st) (asRtilde s points' eps' M' (ren u) st')).
          + intros q Hq. now apply as_g_same.
          + intros q Hq. now apply as_rest_same.
      Qed.

      Hypothesis sym : forall gp, In gp points -> symmetric s (invertedMaterialStates st gp).
      Lemma as_h_symmetric : symmetric p H.
      Proof.
        intros q r _ _. unfold H. rewrite !as_h_sum. apply sumP_ext. intros gp Hgp. f_equal. rewrite sum_swap. apply sum_ext. intros k Hk. apply sum_ext. intros l Hl.
        rewrite (sym gp Hgp l k) by assumption. ring.
      Qed.
      Lemma as_matrix_same k l : (k < N)%nat -> (l < N)%nat ->
        asMatrixImpl d n s p points' bop' kg' M' inverseH (ren u) st' zeroMatrix k l = asMatrixImpl d n s p points bop kg M inverseH u st zeroMatrix (index k) (index l).
      Proof.
        intros Hk Hl. assert (d0 : (0 < d)%nat) by lia.
        destruct (index_ok k Hk) as (Hi & Ed & Em & Hn & Hd).
        destruct (index_ok l Hl) as (Hi' & Ed' & Em' & Hn' & Hd').
        assert (SZ := inverse_transposed p _ _ HZ as_h_symmetric).
        assert (SH' : symmetric p H').
        { intros q r Hq Hr. unfold H'. rewrite (as_h_same q r), (as_h_same r q) by assumption. unfold mul, mt. fold H.
          rewrite (sum_ext p _ (fun i => sum p (fun j => P i q * (H i j * P j r)))) by (intros; now rewrite sum_mul_l).
          rewrite (sum_ext p (fun i => P i r * _) (fun i => sum p (fun j => P i r * (H i j * P j q)))) by (intros; now rewrite sum_mul_l).
          rewrite sum_swap. apply sum_ext. intros i Hi0. apply sum_ext. intros j Hj0. rewrite (as_h_symmetric j i) by assumption. ring. }
        assert (SZ' := inverse_transposed p _ _ HZ' SH').
        assert (flat : forall (KK LL ZZ : nat -> nat -> R) k l, KK l k = KK k l -> symmetric p ZZ ->
          (if (l <? k)%nat then (if (l <=? k)%nat then KK l k + sum p (fun q => sum p (fun r => LL q l * ZZ q r * LL r k)) else KK l k)
           else (if (k <=? l)%nat then KK k l + sum p (fun q => sum p (fun r => LL q k * ZZ q r * LL r l)) else KK k l)) =
          KK k l + sum p (fun q => sum p (fun r => LL q k * ZZ q r * LL r l))).
        { clear. intros KK LL ZZ k l S SZ. destruct (Nat.ltb_spec l k).
          - destruct (Nat.leb_spec l k); [|lia]. rewrite S. f_equal. rewrite sum_swap. apply sum_ext. intros q Hq. apply sum_ext. intros r Hr. rewrite (SZ r q) by assumption. ring.
          - destruct (Nat.leb_spec k l); [reflexivity|lia]. }
        unfold asMatrixImpl. cbv zeta. fold H H'. rewrite !flat; try assumption.
        - f_equal; [now apply as_kg_same|].
          apply (product_same p P Pi H H' _ _ HP as_h_same HZ HZ' (fun q => asG d n s points bop M u q (index k)) (fun q => asG d n s points' bop' M' (ren u) q k)
            (fun q => asG d n s points bop M u q (index l)) (fun q => asG d n s points' bop' M' (ren u) q l)); intros q Hq; now apply as_g_same.
        - now apply as_kg_symmetric.
        - rewrite !as_kg_same by assumption. now apply as_kg_symmetric.
      Qed.

      Lemma as_invert_same b b' : (forall q, (q < p)%nat -> b q = sum p (fun r => P q r * b' r)) ->
        sameState P (invertMaterial s p M invert {| beta := b; strainStates := strainStates st; invertedMaterialStates := invertedMaterialStates st |})
          (invertMaterial s p M' invert {| beta := b'; strainStates := strainStates st'; invertedMaterialStates := invertedMaterialStates st' |}).
      Proof.
        intros Hb. split; [exact Hb|]. intros gp gp' Hp. unfold invertMaterial. cbn [beta strainStates invertedMaterialStates].
        apply inversion_local; intros m Hm; [now apply (parameters_stress b b')|exact (proj1 (proj2 Hst gp gp' Hp) m Hm)].
      Qed.
      Lemma as_update_same dx : sameState P (updateState d n s p points eps bop M invert inverseH u dx st)
        (updateState d n s p points' eps' bop' M' invert inverseH (ren u) (ren dx) st').
      Proof.
        unfold updateState. cbv zeta. apply as_invert_same. intros q Hq. fold N H H'. rewrite (proj1 Hst q Hq).
        rewrite (sum_ext p (fun r => P q r * (_ + _)) (fun r => P q r * beta st' r + P q r * sum p (fun j => inverseH H' r j * (asRtilde s points' eps' M' (ren u) st' j + sum N (fun k => asG d n s points' bop' M' (ren u) j k * ren dx k))))) by (intros; ring).
        rewrite sum_add. f_equal. symmetry.
        apply (solve_same p P Pi H H' (inverseH H) (inverseH H') HP as_h_same HZ HZ' (fun q => asRtilde s points eps M u st q + sum N (fun k => asG d n s points bop M u q k * dx k))
          (fun q => asRtilde s points' eps' M' (ren u) st' q + sum N (fun k => asG d n s points' bop' M' (ren u) q k * ren dx k))); [|exact Hq].
        intros r Hr. rewrite (as_rest_same r Hr).
        rewrite (sum_ext p (fun i => P i r * (_ + _)) (fun i => P i r * asRtilde s points eps M u st i + sum N (fun k => P i r * asG d n s points bop M u i (index k) * dx (index k)))).
        2:{ intros i _. rewrite Rmult_plus_distr_l. f_equal. rewrite <- (sum_index (fun k => asG d n s points bop M u i k * dx k)), <- sum_mul_l. apply sum_ext. intros. ring. }
        rewrite sum_add. f_equal. rewrite sum_swap. apply sum_ext. intros k Hk. rewrite (as_g_same r k Hr Hk). now rewrite sum_mul_r.
      Qed.
    End Modes.

    Theorem C184_assumed_stresses inverseH : exists P Pi, isInverse p P Pi /\
      (forall st st', (forall gp gp' m, samePoint gp gp' -> (m < s)%nat -> strainStates st' gp' m = strainStates st gp m) ->
         sameState P (initializeState s p M invert st) (initializeState s p M' invert st')) /\
      forall u st st', sameState P st st' ->
      (forall gp gp' m, samePoint gp gp' -> (m < s)%nat -> stressValue s p M' gp' (beta st') m = stressValue s p M gp (beta st) m) /\
      asScalarImpl s p points' eps' M' (ren u) st' = asScalarImpl s p points eps M u st /\
      (isInverse p (asH s points M st) (inverseH (asH s points M st)) -> isInverse p (asH s points' M' st') (inverseH (asH s points' M' st')) ->
       (forall f k, (k < N)%nat ->
          asVectorImpl d n s p points' eps' bop' M' inverseH (ren u) st' (ren f) k = ren (asVectorImpl d n s p points eps bop M inverseH u st f) k) /\
       ((forall gp, In gp points -> symmetric s (invertedMaterialStates st gp)) -> forall k l, (k < N)%nat -> (l < N)%nat ->
          asMatrixImpl d n s p points' bop' kg' M' inverseH (ren u) st' zeroMatrix k l = asMatrixImpl d n s p points bop kg M inverseH u st zeroMatrix (index k) (index l)) /\
       (forall dx, sameState P (updateState d n s p points eps bop M invert inverseH u dx st)
          (updateState d n s p points' eps' bop' M' invert inverseH (ren u) (ren dx) st'))).
    Proof.
      destruct stress_modes_turned as (P & Pi & HP & HM). exists P, Pi. split; [exact HP|]. split.
      - intros st st' Hs. split.
        + intros q _. cbn. symmetry. apply sum_zero. intros. ring.
        + intros gp gp' Hp. unfold initializeState, invertMaterial. cbn [beta strainStates invertedMaterialStates].
          apply inversion_local; intros m Hm; [|now apply (Hs gp gp')].
          apply (parameters_stress P HM (fun _ => 0) (fun _ => 0)); try assumption. intros. symmetry. apply sum_zero. intros. ring.
      - intros u st st' Hst. split; [|split].
        + intros gp gp' m Hp Hm. exact (parameters_stress P HM (beta st) (beta st') gp gp' m (proj1 Hst) Hp Hm).
        + now apply (as_energy_same P).
        + intros HZ HZ'. split; [|split].
          * intros f k Hk. now apply (as_vector_same P Pi).
          * intros Sy k l Hk Hl. now apply (as_matrix_same P Pi).
          * intros dx. now apply (as_update_same P Pi).
    Qed.
  End Stresses.
End Corners.

(** The hypotheses hold: the unit square with the corners (0,0), (1,0), (0,1), (1,1), and the same square with its corners numbered from
    the right to the left, two points of a rule, in another order *)
Section Square.
  Let shape (i : nat) (t : R) := if (i =? 0)%nat then 1 - t else t.
  Let slope (i : nat) : R := if (i =? 0)%nat then -1 else 1.
  Let squareGradient (gp : point) (i b : nat) : R :=
    if (b =? 0)%nat then slope (i mod 2) * shape (i / 2) (position gp 1%nat) else shape (i mod 2) (position gp 0%nat) * slope (i / 2).
  Let reflectedGradient (gp : point) (i b : nat) : R := (if (b =? 0)%nat then -1 else 1) * squareGradient gp i b.
  Let place (x y : R) : point := {| position := fun a => if (a =? 0)%nat then x else y; integrationElement := 1; weight := 1 / 2 |}.
  Let leftRight (i : nat) : nat := match i with 0 => 1 | 1 => 0 | 2 => 3 | _ => 2 end.

  Lemma square_point x y : samePoint 2 4 leftRight (reflect 0) squareGradient reflectedGradient (place x y) (place (1 - x) y).
  Proof.
    split; [|split; [reflexivity|split; [reflexivity|]]].
    - intros a Ha. destruct a as [|[|a]]; [| |lia]; unfold reflect, place; cbn; ring.
    - intros i b Hi Hb. unfold reflectedGradient, squareGradient, place, shape, slope, leftRight. destruct i as [|[|[|[|i]]]]; try lia; destruct b as [|[|b]]; try lia; cbn; ring.
  Qed.
  Example C184_square :
    signedPermutation 2 (reflect 0) /\ numbering 4 leftRight /\
    samePoints 2 4 [place (1 / 4) (1 / 2); place (2 / 3) (1 / 5)] [place (1 - 2 / 3) (1 / 5); place (1 - 1 / 4) (1 / 2)] leftRight (reflect 0) squareGradient reflectedGradient.
  Proof.
    split; [|split].
    - exists (fun a => a), (fun a => if (a =? 0)%nat then -1 else 1). split; [auto|]. split; [auto|]. split.
      + intros a _. destruct (a =? 0)%nat; [right|left]; reflexivity.
      + intros a b _ _. reflexivity.
    - split.
      + intros i Hi. destruct i as [|[|[|[|i]]]]; cbn; lia.
      + intros i j Hi Hj. destruct i as [|[|[|[|i]]]]; try lia; destruct j as [|[|[|[|j]]]]; try lia; cbn; lia.
    - exists [place (2 / 3) (1 / 5); place (1 / 4) (1 / 2)]. split; [apply perm_swap|]. constructor; [apply square_point|]. constructor; [apply square_point|constructor].
  Qed.
  (** the Jacobian of the square is the identity, and the Jacobian of the renumbered square is W times it *)
  Example C184_square_transformation a b : (a < 2)%nat -> (b < 2)%nat ->
    reflect 0 a b = sum 2 (fun c => reflect 0 a c * (if (c =? b)%nat then 1 else 0)).
  Proof. intros Ha Hb. destruct a as [|[|a]]; [| |lia]; (destruct b as [|[|b]]; [| |lia]); unfold reflect; cbn; ring. Qed.
End Square.

Print Assumptions C184_enhanced_strains.
Print Assumptions C184_displacement_gradients.
Print Assumptions C184_assumed_stresses.
