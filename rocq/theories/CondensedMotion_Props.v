(** C193: forces, stiffness and internal variables of elements with enhanced strains after rigid motions (model: Eas_Model.v). *)

From Coq Require Import Reals Arith Bool List Lia Lra FunctionalExtensionality.
From Coquelicot Require Import Coquelicot.
From Verif Require Import Tensor_Spec Tensor_Model Tensor_Props Conversions_Spec Conversions_Model Conversions_Props Element_Spec Element_Model Element_Proofs Element_Props.
From Verif Require Import Eas_Spec Eas_Model Eas_Proofs Eas_Props EasStrains_Props.
From Verif Require Import Objectivity_Spec Objectivity_Props StructureReactions_Props.
From Verif Require Import Coordinates_Props CornerNumbering_Proofs CornerNumbering_Props CondensedCoordinates_Props EnhancedBody_Props Corotation_Props.
Import ListNotations.
Local Open Scope R_scope.

(** The strains of displacements that are shifted by w *)
Definition shiftedStrain (e : enhancedStrain) (w : nat -> R) : enhancedStrain :=
  let at_ (y : nat -> R) k := y k + w k in
  {| e_value := fun gp y a => e_value e gp (at_ y) a; e_d := fun gp y a => e_d e gp (at_ y) a; e_a := fun gp y a => e_a e gp (at_ y) a;
     e_dd := fun gp y a => e_dd e gp (at_ y) a; e_aa := fun gp y a => e_aa e gp (at_ y) a; e_ad := fun gp y a => e_ad e gp (at_ y) a |}.

Lemma shifted_gradient2 N p f g h x w a : isGradient2 N p f g h (fun k => x k + w k) a -> isGradient2 N p (fun y b => f (fun k => y k + w k) b) g h x a.
Proof.
  intros G c v b z P Pb. apply (G (fun t k => c t k + w k)); [|exact Pb]. intros k Hk'. destruct (P k Hk') as (A & B). split; [now rewrite A|].
  eapply derive_eq; [apply (is_derive_plus (fun t => c t k) (fun _ => w k) 0 (v k) 0); [exact B|apply @is_derive_const]|]. unfold plus; cbn. ring.
Qed.

Section Element.
  Variables (d n p : nat) (X : nat -> nat -> R) (points : list point).
  Hypothesis d3 : (0 < d <= 3)%nat.
  Let s := voigtLength d.
  Let N := (d * n)%nat.
  Variables (psi : (nat -> R) -> R) (stress : (nat -> R) -> nat -> R) (tangent : (nat -> R) -> nat -> nat -> R) (e : enhancedStrain).
  Variable inverse : (nat -> nat -> R) -> nat -> nat -> R.
  Let D u a := easD s points stress tangent (e_value e) (e_a e) (e_aa e) u a.
  Let vector := vectorOf d n stress tangent inverse p points e.
  Let matrix := matrixOf d n stress tangent inverse p points e.
  Let update := updateOf d n stress tangent inverse p points e.

  Hypothesis expression : forall gp y b, enhancedExpression d n s p (e_value e) (e_d e) (e_a e) (e_dd e) (e_aa e) (e_ad e) gp y b.
  Hypothesis symmetries : forall gp y b S, (forall i j k l, e_dd e gp y b S i j k l = e_dd e gp y b S j i l k) /\ (forall q r, e_aa e gp y b S q r = e_aa e gp y b S r q).

  (** What the element computes after a rigid motion, with the same internal variables *)
  Definition movesAlong (Q : nat -> nat -> R) (c u a : nat -> R) : Prop :=
    (forall k, (k < N)%nat -> vector (moved d X Q c u) a zeroVector k = turned d Q (vector u a zeroVector) k) /\
    (forall k l, (k < N)%nat -> (l < N)%nat -> matrix (moved d X Q c u) a zeroMatrix k l = turnedMatrix d Q (matrix u a zeroMatrix) k l) /\
    (forall du q, (q < p)%nat -> update (moved d X Q c u) (turned d Q du) a q = update u du a q).

  Lemma moves_along Q c u a : rotation d Q ->
    (forall y b, enhancedEnergy points psi (e_value e) (moved d X Q c y) b = enhancedEnergy points psi (e_value e) y b) ->
    around2 N p (fun y b => materialAt d points psi stress tangent e y b /\ materialAt d points psi stress tangent e (moved d X Q c y) b) u a ->
    isInverse p (D u a) (inverse (D u a)) -> isInverse p (D (moved d X Q c u) a) (inverse (D (moved d X Q c u) a)) ->
    movesAlong Q c u a.
  Proof.
    intros R En Rg HZ HZ'. set (w := moved d X Q c zeroVector). assert (HQ := rotation_orthogonal d Q R).
    assert (Mv : forall y, moved d X Q c y = (fun k => turned d Q y k + w k)) by (intros; apply moved_shift).
    set (e' := shiftedStrain e w).
    assert (En' : forall y b, enhancedEnergy points psi (e_value e') (turned d Q y) b = enhancedEnergy points psi (e_value e) y b).
    { intros y b. rewrite <- (En y b), Mv. reflexivity. }
    assert (Ex' : forall gp y b, enhancedExpression d n s p (e_value e') (e_d e') (e_a e') (e_dd e') (e_aa e') (e_ad e') gp y b).
    { intros gp y b. destruct (expression gp (fun k => y k + w k) b) as (A & B & C). split; [|split]; intros.
      - exact (shifted_gradient2 _ _ _ _ _ _ w _ (A m H)).
      - exact (shifted_gradient2 _ _ _ _ _ _ w _ (B S k H)).
      - exact (shifted_gradient2 _ _ _ _ _ _ w _ (C S q H)). }
    assert (Nr : around2 N p (fun y b => suitable d n s p points psi stress tangent (e_value e) (e_d e) (e_a e) (e_dd e) (e_aa e) (e_ad e) y b /\
      suitable d n s p points psi stress tangent (e_value e') (e_d e') (e_a e') (e_dd e') (e_aa e') (e_ad e') (turned d Q y) b) u a).
    { intros c' v b z P1 P2. generalize (Rg c' v b z P1 P2). apply filter_imp. intros t (A & B). split; intros gp Hgp.
      - split; [apply expression|]. apply A, Hgp.
      - split; [apply Ex'|]. rewrite Mv in B. exact (B gp Hgp). }
    assert (HZ2 : isInverse p (easD s points stress tangent (e_value e') (e_a e') (e_aa e') (turned d Q u) a) (inverse (easD s points stress tangent (e_value e') (e_a e') (e_aa e') (turned d Q u) a))).
    { rewrite Mv in HZ'. exact HZ'. }
    destruct (here d n s p Q points points psi psi stress stress tangent tangent e e' u a Nr) as (G & G').
    assert (Z0 : turned d Q zeroVector = zeroVector).
    { apply functional_extensionality. intros k. unfold turned, turnVector, zeroVector. apply sum_zero. intros. ring. }
    unfold movesAlong. rewrite Mv. split; [|split].
    - intros k Hk. assert (V := generic_vector d n s p Q (proj1 d3) HQ points points psi psi stress stress tangent tangent e e' inverse En' u a Nr HZ HZ2 zeroVector k Hk).
      rewrite Z0 in V. exact V.
    - intros k l Hk Hl. apply (generic_matrix d n s p Q (proj1 d3) HQ points points psi psi stress stress tangent tangent e e' inverse En' u a Nr HZ HZ2); try assumption.
      + apply (C107_symmetric d n s points (proj1 d3)). intros gp Hgp. split; [apply (G gp Hgp)|]. split; intros; apply symmetries.
      + apply (C107_symmetric d n s points (proj1 d3)). intros gp Hgp. split; [apply (G' gp Hgp)|]. split; intros; apply symmetries.
    - intros du q Hq. exact (generic_update d n s p Q (proj1 d3) HQ points points psi psi stress stress tangent tangent e e' inverse En' u a Nr HZ HZ2 du q Hq).
  Qed.
End Element.

Section Elements.
  Variables (d n : nat) (X : nat -> nat -> R) (points : list point) (dN : point -> nat -> nat -> R) (inverse : (nat -> nat -> R) -> nat -> nat -> R).
  Hypothesis dim : (d = 2 \/ d = 3)%nat.
  Let d3 : (0 < d <= 3)%nat := ltac:(lia).
  Let s := voigtLength d.
  Let N := (d * n)%nat.
  Hypothesis shapes : forall gp, In gp points -> shapeDerivatives d n X dN gp.
  Variables (psi : (nat -> R) -> R) (stress : (nat -> R) -> nat -> R) (tangent : (nat -> R) -> nat -> nat -> R).
  Hypothesis local : localEnergy d psi.

  (** The material has the given stresses and tangent close to the state and close to the moved state, and the matrices of the internal variables are inverted *)
  Definition regularMotion (p : nat) (e : enhancedStrain) (Q : nat -> nat -> R) (c u a : nat -> R) : Prop :=
    let D y := easD s points stress tangent (e_value e) (e_a e) (e_aa e) y a in
    around2 N p (fun y b => materialAt d points psi stress tangent e y b /\ materialAt d points psi stress tangent e (moved d X Q c y) b) u a /\
    isInverse p (D u) (inverse (D u)) /\ isInverse p (D (moved d X Q c u)) (inverse (D (moved d X Q c u))).

  (** C193: enhanced Green-Lagrange strains *)
  Theorem C193_green_lagrange p M Q c u a : rotation d Q ->
    let e := additive d n p false dN M in regularMotion p e Q c u a ->
    movesAlong d n p X points stress tangent e inverse Q c u a.
  Proof.
    intros R e (Rg & HZ & HZ'). apply (moves_along d n p X points d3 psi); try assumption.
    - intros gp y b. unfold e, additive; cbn [e_value e_d e_a e_dd e_aa e_ad]. apply C109_additive. apply (C96_green_lagrange d n (proj1 d3) dN gp y). lia.
    - intros gp y b S. split; [|reflexivity]. intros. unfold e, additive; cbn [e_dd]. apply (C96_green_lagrange d n (proj1 d3) dN gp y). lia.
    - intros y b. apply (energy_kept d points psi local). intros gp m Hgp Hm. unfold e, additive. cbn [e_value]. unfold additiveValue.
      rewrite (C100_solid_strains d n X dN d3) by auto. reflexivity.
  Qed.

  (** C193: enhanced transposed displacement gradients *)
  Theorem C193_transposed detJ0 JInv dN0 Q c u a : rotation d Q ->
    shapeDerivatives d n X (fun _ => dN0) {| position := fun _ => 0; integrationElement := 1; weight := 1 |} ->
    let p := (d * d)%nat in let e := gradient d n p true dN dN0 (easFunctionH d detJ0 JInv) in regularMotion p e Q c u a ->
    movesAlong d n p X points stress tangent e inverse Q c u a.
  Proof.
    intros R center p e (Rg & HZ & HZ'). apply (moves_along d n p X points d3 psi); try assumption.
    - intros gp y b. unfold e. now apply gradient_suitable.
    - intros gp y b S. destruct (C109_symmetric d n p dN (easFunctionH d detJ0 JInv) dN0 gp y b S dim) as (S1 & S2 & S3).
      unfold e, gradient; cbn [e_dd e_aa]. split; intros; auto.
    - intros y b. apply (energy_kept d points psi local). intros gp m Hgp Hm.
      refine (proj1 (C190_transposed d n X points dN inverse dim shapes (linearEnergy s (fun _ _ _ => 0)) (linearStress_ s (fun _ _ _ => 0)) (fun _ _ _ => 0) _ detJ0 JInv dN0 center y b _) gp Q c b m Hgp R Hm).
      + apply linear_local.
      + intros c' v b' z _ _. apply filter_forall. intros t gp' _. split; [apply quadratic_hyperelastic|]; intros i j _ _; reflexivity.
  Qed.
End Elements.

(** The unit square with one internal variable and Hooke's law, in all states and for all motions *)
Example C193_applies Q c u a :
  let gp := {| position := fun _ => / 2; integrationElement := 1; weight := 1 |} in
  let dN gp := bilinear (position gp 0%nat) (position gp 1%nat) in
  let C := hooke 2 1 1 in
  let e := additive 2 4 1 false dN (fun _ m _ => if (m =? 0)%nat then 1 else 0) in
  let inverse (A : nat -> nat -> R) (i j : nat) := / A 0%nat 0%nat in
  (forall gp', In gp' [gp] -> shapeDerivatives 2 4 cornerPlace dN gp') /\ localEnergy 2 (linearEnergy 3 (fun _ => C)) /\ rotation 2 quarter /\
  regularMotion 2 4 cornerPlace [gp] inverse (linearEnergy 3 (fun _ => C)) (linearStress_ 3 (fun _ => C)) (fun _ => C) 1 e Q c u a.
Proof.
  intros gp dN C e inverse.
  split; [intros gp' _; apply (bilinear_shapes (position gp' 0%nat) (position gp' 1%nat) gp')|].
  split; [apply (linear_local 2)|].
  split; [split; [|split; [|cbn; ring]]; intros i j Hi Hj; destruct i as [|[|i]]; try lia; destruct j as [|[|j]]; try lia; unfold mul, transpose, identity; cbn; ring|].
  assert (I : forall y, isInverse 1 (easD 3 [gp] (linearStress_ 3 (fun _ => C)) (fun _ => C) (e_value e) (e_a e) (e_aa e) y a)
    (inverse (easD 3 [gp] (linearStress_ 3 (fun _ => C)) (fun _ => C) (e_value e) (e_a e) (e_aa e) y a))).
  { intros y. assert (V : easD 3 [gp] (linearStress_ 3 (fun _ => C)) (fun _ => C) (e_value e) (e_a e) (e_aa e) y a 0%nat 0%nat = 3).
    { unfold easD. cbn [fold_left integrationElement weight gp e additive e_a e_aa]. unfold additive_a, zero_aa, C, hooke. cbn. ring. }
    unfold inverse. split; intros i j Hi Hj; replace i with 0%nat by lia; replace j with 0%nat by lia; unfold mul, identity; cbn [sum Nat.eqb]; rewrite V; field. }
  split; [|split; apply I].
  intros c' v b w _ _. apply filter_forall. intros t. split; intros gp' _; (split; [apply quadratic_hyperelastic|]; apply hooke_symmetric).
Qed.

Print Assumptions C193_green_lagrange.
Print Assumptions C193_transposed.
