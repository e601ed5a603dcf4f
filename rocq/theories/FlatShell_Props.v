(** C181: a flat Kirchhoff-Love shell is a sheet in plane stress together with a Kirchhoff plate. *)

From Coq Require Import Reals Arith Bool List Lia Lra.
From Coquelicot Require Import Coquelicot.
From Verif Require Import Tensor_Spec Tensor_Model Tensor_Props Conversions_Spec Conversions_Props Element_Spec Element_Model Element_Proofs Element_Props
  VanishingStress_Spec Shell_Model Shell_Proofs Shell_Props.
Import ListNotations.
Local Open Scope R_scope.

(** ** Specification *)
(** Strains and curvatures (11, 22, 2*12) in the directions of the parameters from those in Cartesian coordinates; row a of [j] is the derivative of the
    position with respect to parameter a *)
Definition pulledBack (j : nat -> nat -> R) (e : nat -> R) (m : nat) : R :=
  let at_ a b := j a 0%nat * j b 0%nat * e 0%nat + j a 1%nat * j b 1%nat * e 1%nat + (j a 0%nat * j b 1%nat + j a 1%nat * j b 0%nat) / 2 * e 2%nat in
  match m with 0%nat => at_ 0%nat 0%nat | 1%nat => at_ 1%nat 1%nat | _ => 2 * at_ 0%nat 1%nat end.

(** The displacements of the nodes of the sheet: the first two of three components *)
Definition sheetOf (u : nat -> R) (k : nat) : R := u (3 * (k / 2) + k mod 2)%nat.

(** x P y *)
Definition form (P : nat -> nat -> R) (x y : nat -> R) : R := sum 3 (fun p => sum 3 (fun q => x p * P p q * y q)).

Lemma node_dir d i a : (a < d)%nat -> ((d * i + a) / d = i /\ (d * i + a) mod d = a)%nat.
Proof.
  intros Ha. split; symmetry; [apply (Nat.div_unique _ d i a)|apply (Nat.mod_unique _ d i a)]; auto.
Qed.
Lemma sumP_const_l {A} (l : list A) c f : c * sumP l f = sumP l (fun x => c * f x).
Proof. induction l as [|x l IH]; cbn; [ring|]. rewrite <- IH. ring. Qed.
Lemma sumP_none {A} (l : list A) f : (forall x, In x l -> f x = 0) -> sumP l f = 0.
Proof. intros H. induction l as [|x l IH]; cbn; [ring|]. rewrite H, IH; [ring| |]; intros; try apply H; cbn; auto. Qed.

(** ** The moduli *)
Definition inv2 (j : nat -> nat -> R) (p q : nat) : R :=
  let D := j 0%nat 0%nat * j 1%nat 1%nat - j 0%nat 1%nat * j 1%nat 0%nat in
  let g a b := j a 0%nat * j b 0%nat + j a 1%nat * j b 1%nat in
  (if (p =? q)%nat then g (1 - p)%nat (1 - p)%nat else - g 0%nat 1%nat) / (D * D).

Section Flat.
  Variables (n : nat) (points : list point) (emodul nu thickness : R).
  Variables J H B dN ddN : point -> nat -> nat -> R.
  Variable inverse : (nat -> nat -> R) -> nat -> nat -> R.
  Variable dX : point -> nat -> nat -> R.          (* Cartesian derivatives of the shape functions *)
  Hypothesis Hnu : -1 < nu < 1 / 2.
  Hypothesis HE : 0 < emodul.
  Hypothesis Inv : inverted points J inverse.
  Let det gp := J gp 0%nat 0%nat * J gp 1%nat 1%nat - J gp 0%nat 1%nat * J gp 1%nat 0%nat.
  Definition flatSurface : Prop := forall gp, In gp points ->
    J gp 0%nat 0%nat * J gp 1%nat 1%nat - J gp 0%nat 1%nat * J gp 1%nat 0%nat <> 0 /\
    (forall a, (a < 2)%nat -> J gp a 2%nat = 0) /\ (forall m, (m < 3)%nat -> H gp m 2%nat = 0) /\ (forall a b, (a < 2)%nat -> (b < 2)%nat -> B gp a b = 0).
  Definition chainRule : Prop := forall gp i a, In gp points -> (i < n)%nat -> (a < 2)%nat -> dN gp i a = J gp a 0%nat * dX gp i 0%nat + J gp a 1%nat * dX gp i 1%nat.
  Definition staysInPlane (u : nat -> R) : Prop := forall i, (i < n)%nat -> u (3 * i + 2)%nat = 0.
  Hypothesis Fl : flatSurface.
  Hypothesis Ch : chainRule.
  Let C gp := pointTangent emodul nu J inverse gp.
  Let P := planeStressMatrix emodul nu.

  Lemma moduli_form gp x y : In gp points -> form (C gp) (pulledBack (J gp) x) (pulledBack (J gp) y) = form P x y.
  Proof.
    intros Hgp. destruct (Fl gp Hgp) as (D & Z & _).
    assert (T : forall k l, (k < 3)%nat -> (l < 3)%nat -> C gp k l =
      emodul * nu / (1 - nu ^ 2) * (inv2 (J gp) (nth k [0; 1; 0]%nat 0%nat) (nth k [0; 1; 1]%nat 0%nat) * inv2 (J gp) (nth l [0; 1; 0]%nat 0%nat) (nth l [0; 1; 1]%nat 0%nat)) +
      emodul / (2 * (1 + nu)) * (inv2 (J gp) (nth k [0; 1; 0]%nat 0%nat) (nth l [0; 1; 0]%nat 0%nat) * inv2 (J gp) (nth k [0; 1; 1]%nat 0%nat) (nth l [0; 1; 1]%nat 0%nat) +
        inv2 (J gp) (nth k [0; 1; 0]%nat 0%nat) (nth l [0; 1; 1]%nat 0%nat) * inv2 (J gp) (nth k [0; 1; 1]%nat 0%nat) (nth l [0; 1; 0]%nat 0%nat))).
    { intros k l Hk Hl. unfold C. assert (I2 : forall p q, (p < 2)%nat -> (q < 2)%nat ->
        inv2 (J gp) p 0%nat * (J gp 0%nat 0%nat * J gp q 0%nat + J gp 0%nat 1%nat * J gp q 1%nat + J gp 0%nat 2%nat * J gp q 2%nat) +
        inv2 (J gp) p 1%nat * (J gp 1%nat 0%nat * J gp q 0%nat + J gp 1%nat 1%nat * J gp q 1%nat + J gp 1%nat 2%nat * J gp q 2%nat) = identity p q).
      { intros p q Hp Hq. rewrite !Z by lia. unfold inv2, identity. destruct p as [|[|p]]; [..|lia]; destruct q as [|[|q]]; try lia; cbn; field; exact D. }
      assert (X := C99_tangent n emodul nu J inverse gp (inv2 (J gp)) k l Hk Hl (Inv gp Hgp) I2). cbv zeta in X. rewrite X.
      replace (2 * (emodul * nu / ((1 + nu) * (1 - 2 * nu))) * (emodul / (2 * (1 + nu))) / (emodul * nu / ((1 + nu) * (1 - 2 * nu)) + 2 * (emodul / (2 * (1 + nu)))))
        with (emodul * nu / (1 - nu ^ 2)); [reflexivity|]. field. repeat split; nra. }
    assert (Pv : forall p q, (p < 3)%nat -> (q < 3)%nat -> P p q = emodul * nu / (1 - nu ^ 2) * ((if (p <? 2)%nat then 1 else 0) * (if (q <? 2)%nat then 1 else 0)) +
      emodul / (2 * (1 + nu)) * (if (p =? q)%nat then if (p <? 2)%nat then 2 else 1 else 0)).
    { intros p q Hp Hq. unfold P, planeStressMatrix. destruct p as [|[|[|p]]]; [..|lia]; destruct q as [|[|[|q]]]; try lia; cbn; field; nra. }
    unfold form. cbn [sum]. rewrite !T, !Pv by lia. clear T Pv. generalize (emodul * nu / (1 - nu ^ 2)) (emodul / (2 * (1 + nu))). intros lb mu.
    unfold pulledBack, inv2. cbn [nth Nat.eqb Nat.sub Nat.ltb Nat.leb]. revert D.
    generalize (J gp 0%nat 0%nat) (J gp 0%nat 1%nat) (J gp 1%nat 0%nat) (J gp 1%nat 1%nat) (x 0%nat) (x 1%nat) (x 2%nat) (y 0%nat) (y 1%nat) (y 2%nat).
    intros a b c d x0 x1 x2 y0 y1 y2 D. field. exact D.
  Qed.

  (** ** Motions in the plane *)
  Let W := fun y => 1 / 2 * dot 3 y (apply 3 P y).
  Let SH (gp : point) (u : nat -> R) := displacementGradientOf 2 n (dX gp) (sheetOf u).

  Lemma sheet_at u i k : (k < 2)%nat -> sheetOf u (2 * i + k)%nat = u (3 * i + k)%nat.
  Proof. intros Hk. unfold sheetOf. now destruct (node_dir 2 i k Hk) as (-> & ->). Qed.

  Lemma gradu_plane gp u k a : In gp points -> (k < 2)%nat -> (a < 2)%nat ->
    gradu n dN gp u k a = J gp a 0%nat * SH gp u k 0%nat + J gp a 1%nat * SH gp u k 1%nat.
  Proof.
    intros Hgp Hk Ha. unfold gradu, SH, displacementGradientOf. rewrite <- !sum_mul_l, <- sum_add. apply sum_ext. intros i Hi. cbv beta.
    rewrite (Ch gp i a Hgp Hi Ha), sheet_at by assumption. ring.
  Qed.

  Lemma gradu_normal gp u a : staysInPlane u -> gradu n dN gp u 2 a = 0.
  Proof.
    intros S. unfold gradu. apply sum_zero. intros i Hi. rewrite S by assumption. ring.
  Qed.

  Lemma eps_pulled gp u m : In gp points -> staysInPlane u -> (m < 3)%nat ->
    epsV n J dN gp u m = pulledBack (J gp) (glStrain 2 n dX gp (sheetOf u)) m.
  Proof.
    intros Hgp S Hm. destruct (Fl gp Hgp) as (_ & Z & _).
    assert (G : forall k a, (k < 2)%nat -> (a < 2)%nat -> gradu n dN gp u k a = J gp a 0%nat * SH gp u k 0%nat + J gp a 1%nat * SH gp u k 1%nat)
      by (intros; now apply gradu_plane).
    assert (G2 : forall a, gradu n dN gp u 2 a = 0) by (intros; now apply gradu_normal).
    unfold glStrain. fold (SH gp u). revert G. generalize (SH gp u). intros h G.
    unfold epsV, pulledBack, strainVector, greenLagrangeOf, jcur, dot.
    destruct m as [|[|[|m]]]; [..|lia]; cbn [sum Nat.add component]; cbn; rewrite ?G2, ?Z, ?G by lia; field.
  Qed.

  Lemma bop_pulled gp u i m a : In gp points -> (i < n)%nat -> (m < 3)%nat -> (a < 2)%nat ->
    bopMembrane n J dN gp u i m a = pulledBack (J gp) (fun p => glBop 2 n dX gp (sheetOf u) i p a) m.
  Proof.
    intros Hgp Hi Hm Ha. destruct (Fl gp Hgp) as (_ & Z & _). unfold bopMembrane, jcur, glBop, glFirst. fold (SH gp u).
    rewrite !(Ch gp i) by (assumption || lia). rewrite !gradu_plane by (assumption || lia). generalize (SH gp u). intros h.
    unfold pulledBack, strainVector, identity. destruct m as [|[|[|m]]]; [..|lia]; destruct a as [|[|a]]; try lia; cbn; field.
  Qed.

  Lemma jcur_normal gp u a : In gp points -> staysInPlane u -> (a < 2)%nat -> jcur n J dN gp u a 2%nat = 0.
  Proof. intros Hgp S Ha. destruct (Fl gp Hgp) as (_ & Z & _). unfold jcur. rewrite gradu_normal, Z by assumption. ring. Qed.

  Lemma bop_normal gp u i m : In gp points -> staysInPlane u -> bopMembrane n J dN gp u i m 2%nat = 0.
  Proof. intros Hgp S. unfold bopMembrane. rewrite !jcur_normal by (assumption || lia). destruct m as [|[|m]]; ring. Qed.

  (** The normal stays normal to the plane *)
  Lemma a3_plane gp u k : In gp points -> staysInPlane u -> (k < 2)%nat -> a3N n J dN gp u k = 0 /\ a3 n J dN gp u k = 0.
  Proof.
    intros Hgp S Hk. assert (X : a3N n J dN gp u k = 0).
    { unfold a3N, cross. rewrite !jcur_normal by (assumption || lia). destruct k as [|[|k]]; [ring..|lia]. }
    split; [exact X|]. unfold a3. rewrite normalized_product by lia. rewrite X. ring.
  Qed.

  Lemma hcur_normal gp u m : In gp points -> staysInPlane u -> (m < 3)%nat -> hcur n H ddN gp u m 2%nat = 0.
  Proof.
    intros Hgp S Hm. destruct (Fl gp Hgp) as (_ & _ & Z & _). unfold hcur, hessianu. rewrite Z by assumption.
    rewrite sum_zero; [ring|]. intros i Hi. rewrite S by assumption. ring.
  Qed.

  Lemma kappa_plane gp u m : In gp points -> staysInPlane u -> (m < 3)%nat -> kappaV n J H B dN ddN gp u m = 0.
  Proof.
    intros Hgp S Hm. destruct (Fl gp Hgp) as (_ & _ & _ & Z). unfold kappaV, bV. cbn [sum].
    rewrite hcur_normal by assumption. destruct (a3_plane gp u 0 Hgp S ltac:(lia)) as (_ & ->), (a3_plane gp u 1 Hgp S ltac:(lia)) as (_ & ->).
    unfold BV. rewrite !Z by lia. destruct m as [|[|[|m]]]; [..|lia]; cbn; ring.
  Qed.

  Lemma dot_form M x y : dot 3 x (apply 3 M y) = form M x y.
  Proof. unfold dot, apply, form. cbn [sum]. ring. Qed.
  Lemma form_ext M x y x' y' : (forall m, (m < 3)%nat -> x m = x' m) -> (forall m, (m < 3)%nat -> y m = y' m) -> form M x y = form M x' y'.
  Proof. intros X Y. unfold form. apply sum_ext. intros p Hp. apply sum_ext. intros q Hq. now rewrite X, Y. Qed.
  Lemma form_zero M x y : (forall m, (m < 3)%nat -> x m = 0) -> form M x y = 0.
  Proof. intros X. unfold form. cbn [sum]. rewrite !X by lia. ring. Qed.

  (** The energy is that of the sheet times the thickness *)
  Theorem C181_energy u : staysInPlane u ->
    shellScalar n points emodul nu thickness J H B dN ddN inverse u =
    thickness * nonlinearScalar points (glStrain 2 n dX) W false (sheetOf u).
  Proof.
    intros S. unfold nonlinearScalar. rewrite energy_sum. unfold shellScalar.
    rewrite <- (Rplus_0_l (thickness * _)).
    assert (Q : forall l e, (forall gp, In gp l -> In gp points) ->
      fold_left (fun energy gp => energy + (1 / 2 * thickness * dot 3 (epsV n J dN gp u) (apply 3 (pointTangent emodul nu J inverse gp) (epsV n J dN gp u)) +
        1 / 2 * thickness ^ 3 / 12 * dot 3 (kappaV n J H B dN ddN gp u) (apply 3 (pointTangent emodul nu J inverse gp) (kappaV n J H B dN ddN gp u))) * integrationElement gp * weight gp) l e =
      e + thickness * sumP l (fun gp => W (glStrain 2 n dX gp (sheetOf u)) * vol gp)).
    { induction l as [|gp l IH]; intros e Hl; [cbn; ring|]. cbn [fold_left sumP]. rewrite IH by (intros; apply Hl; now right).
      assert (Hgp : In gp points) by (apply Hl; now left). unfold W. rewrite !dot_form.
      rewrite (form_zero _ (kappaV n J H B dN ddN gp u)) by (intros; now apply kappa_plane).
      fold (C gp). rewrite <- (moduli_form gp _ _ Hgp).
      rewrite (form_ext (C gp) (epsV n J dN gp u) (epsV n J dN gp u) (pulledBack (J gp) (glStrain 2 n dX gp (sheetOf u))) (pulledBack (J gp) (glStrain 2 n dX gp (sheetOf u))))
        by (intros; now apply eps_pulled).
      unfold vol. field. }
    apply Q. auto.
  Qed.

  Lemma vector_at u k : (k < 3 * n)%nat -> shellVector n points emodul nu thickness J H B dN ddN inverse u zeroVector k =
    sumP points (fun gp => (thickness * form (C gp) (fun m => bopMembrane n J dN gp u (k / 3) m (k mod 3)) (epsV n J dN gp u) +
      thickness ^ 3 / 12 * form (C gp) (fun m => bopBending n J H dN ddN gp u (k / 3) m (k mod 3)) (kappaV n J H B dN ddN gp u)) * vol gp).
  Proof.
    intros Hk. unfold shellVector. rewrite <- (Rplus_0_l (sumP _ _)). change 0 with (zeroVector k).
    match goal with |- fold_left ?F _ _ _ = _ + sumP _ ?g => apply (fold_vector points F zeroVector (fun gp k => (thickness * form (C gp) (fun m => bopMembrane n J dN gp u (k / 3) m (k mod 3)) (epsV n J dN gp u) +
      thickness ^ 3 / 12 * form (C gp) (fun m => bopBending n J H dN ddN gp u (k / 3) m (k mod 3)) (kappaV n J H B dN ddN gp u)) * vol gp)) end.
    intros gp g _.
    rewrite (loop_two_segments n 3 n
      (fun i k => sum 3 (fun m => bopMembrane n J dN gp u i m k * membraneForces n emodul nu thickness J dN inverse gp u m) * integrationElement gp * weight gp)
      (fun i k => sum 3 (fun m => bopBending n J H dN ddN gp u i m k * moments n emodul nu thickness J H B dN ddN inverse gp u m) * integrationElement gp * weight gp)) by lia.
    destruct (Nat.ltb_spec (k / 3) n) as [L|L]; [|apply div_small in Hk; lia]. f_equal.
    unfold form, vol, membraneForces, moments, apply. fold (C gp). cbn [sum]. ring.
  Qed.

  (** The forces are those of the sheet, and there is no force normal to the plane *)
  Theorem C181_forces u i : staysInPlane u -> (i < n)%nat ->
    (forall a, (a < 2)%nat -> shellVector n points emodul nu thickness J H B dN ddN inverse u zeroVector (3 * i + a)%nat =
       thickness * nonlinearVector 2 n 3 points (glStrain 2 n dX) (glBop 2 n dX) (linearStress_ 3 (fun _ => P)) false (sheetOf u) zeroVector (2 * i + a)%nat) /\
    shellVector n points emodul nu thickness J H B dN ddN inverse u zeroVector (3 * i + 2)%nat = 0.
  Proof.
    intros S Hi.
    assert (D3 : forall a, (a < 3)%nat -> ((3 * i + a) / 3 = i /\ (3 * i + a) mod 3 = a)%nat).
    { intros a Ha. now apply node_dir. }
    split.
    - intros a Ha. rewrite vector_at by lia. destruct (D3 a ltac:(lia)) as (-> & ->).
      unfold nonlinearVector. rewrite (vector_sum 2 n 3 points) by lia. unfold zeroVector. rewrite Rplus_0_l, sumP_const_l. apply sumP_ext. intros gp Hgp.
      unfold pointVector. destruct (node_dir 2 i a Ha) as (-> & ->).
      assert (K : form (C gp) (fun m => bopBending n J H dN ddN gp u i m a) (kappaV n J H B dN ddN gp u) = 0).
      { unfold form. cbn [sum]. rewrite !kappa_plane by (assumption || lia). ring. }
      rewrite K. rewrite (form_ext (C gp) _ _ (pulledBack (J gp) (fun p => glBop 2 n dX gp (sheetOf u) i p a)) (pulledBack (J gp) (glStrain 2 n dX gp (sheetOf u))))
        by (intros; first [now apply bop_pulled | now apply eps_pulled]).
      rewrite moduli_form by assumption. unfold form, linearStress_, apply. cbn [sum]. ring.
    - rewrite vector_at by lia. destruct (D3 2%nat ltac:(lia)) as (-> & ->).
      apply sumP_none. intros gp Hgp.
      rewrite form_zero by (intros; now apply bop_normal).
      assert (K : form (C gp) (fun m => bopBending n J H dN ddN gp u i m 2) (kappaV n J H B dN ddN gp u) = 0).
      { unfold form. cbn [sum]. rewrite !kappa_plane by (assumption || lia). ring. }
      rewrite K. ring.
  Qed.

  (** ** Stiffness *)
  Lemma matrix_at u k l : (k <= l)%nat -> (k < 3 * n)%nat -> (l < 3 * n)%nat ->
    shellMatrix n points emodul nu thickness J H B dN ddN inverse u zeroMatrix k l =
    sumP points (fun gp => (thickness * form (C gp) (fun m => bopMembrane n J dN gp u (k / 3) m (k mod 3)) (fun m => bopMembrane n J dN gp u (l / 3) m (l mod 3)) +
      thickness ^ 3 / 12 * form (C gp) (fun m => bopBending n J H dN ddN gp u (k / 3) m (k mod 3)) (fun m => bopBending n J H dN ddN gp u (l / 3) m (l mod 3)) +
      kgMembrane dN gp (membraneForces n emodul nu thickness J dN inverse gp u) (k / 3) (l / 3) (k mod 3) (l mod 3) +
      kgBending n J H dN ddN gp u (moments n emodul nu thickness J H B dN ddN inverse gp u) (k / 3) (l / 3) (k mod 3) (l mod 3)) * vol gp).
  Proof.
    intros Hkl Hk Hl. unfold shellMatrix, mirror. destruct (Nat.ltb_spec l k); [lia|]. rewrite <- (Rplus_0_l (sumP _ _)). change 0 with (zeroMatrix k l).
    match goal with |- fold_left ?F _ _ _ _ = _ => apply (fold_matrix points F zeroMatrix (fun gp k l =>
     (thickness * form (C gp) (fun m => bopMembrane n J dN gp u (k / 3) m (k mod 3)) (fun m => bopMembrane n J dN gp u (l / 3) m (l mod 3)) +
      thickness ^ 3 / 12 * form (C gp) (fun m => bopBending n J H dN ddN gp u (k / 3) m (k mod 3)) (fun m => bopBending n J H dN ddN gp u (l / 3) m (l mod 3)) +
      kgMembrane dN gp (membraneForces n emodul nu thickness J dN inverse gp u) (k / 3) (l / 3) (k mod 3) (l mod 3) +
      kgBending n J H dN ddN gp u (moments n emodul nu thickness J H B dN ddN inverse gp u) (k / 3) (l / 3) (k mod 3) (l mod 3)) * vol gp)) end.
    intros gp M _. cbv zeta.
    set (B1 i j a b := thickness * sum 3 (fun m => sum 3 (fun l => bopMembrane n J dN gp u i m a * pointTangent emodul nu J inverse gp m l * bopMembrane n J dN gp u j l b)) * (integrationElement gp * weight gp)).
    set (B2 i j a b := thickness ^ 3 / 12 * sum 3 (fun m => sum 3 (fun l => bopBending n J H dN ddN gp u i m a * pointTangent emodul nu J inverse gp m l * bopBending n J H dN ddN gp u j l b)) * (integrationElement gp * weight gp)).
    set (B3 i j a b := kgMembrane dN gp (membraneForces n emodul nu thickness J dN inverse gp u) i j a b * (integrationElement gp * weight gp)).
    set (B4 i j a b := kgBending n J H dN ddN gp u (moments n emodul nu thickness J H B dN ddN inverse gp u) i j a b * (integrationElement gp * weight gp)).
    match goal with |- _ = ?R => change (loop n (fun i K => loop n (fun j K => if (j <? i)%nat then K else
      addBlock 3 i j (B4 i j) (addBlock 3 i j (B3 i j) (addBlock 3 i j (B2 i j) (addBlock 3 i j (B1 i j) K)))) K) M k l = R) end.
    rewrite (loop_upper n 3 n n (fun i j a b => B1 i j a b + B2 i j a b + B3 i j a b + B4 i j a b)); [|lia|].
    - apply div_small in Hk; [|lia]. apply div_small in Hl; [|lia]. assert (D := Nat.div_le_mono k l 3 ltac:(lia) Hkl).
      destruct (Nat.ltb_spec (k / 3) n); [|lia]. destruct (Nat.ltb_spec (l / 3) n); [|lia]. destruct (Nat.leb_spec (k / 3) (l / 3)); [|lia]. cbn [andb].
      f_equal. unfold B1, B2, B3, B4, vol, form, C. ring.
    - intros i j M'. rewrite !addBlock_at by lia. destruct ((k / 3 =? i) && (l / 3 =? j))%nat; ring.
  Qed.

  Lemma kgMembrane_zero gp S i j a b : (forall m, (m < 3)%nat -> S m = 0) -> kgMembrane dN gp S i j a b = 0.
  Proof. intros Z. unfold kgMembrane. rewrite !Z by lia. ring. Qed.
  Lemma kgBending_zero gp u S i j a b : (a < 3)%nat -> (b < 3)%nat -> (forall m, (m < 3)%nat -> S m = 0) -> kgBending n J H dN ddN gp u S i j a b = 0.
  Proof. intros Ha Hb Z. rewrite kgBending_sum by assumption. cbn [sum]. rewrite !Z by lia. ring. Qed.
  Lemma moments_plane gp u m : In gp points -> staysInPlane u -> moments n emodul nu thickness J H B dN ddN inverse gp u m = 0.
  Proof. intros Hgp S. unfold moments, apply. cbn [sum]. rewrite !kappa_plane by (assumption || lia). ring. Qed.

  Lemma a3_square gp u : In gp points -> staysInPlane u -> immersed n points J dN u -> a3 n J dN gp u 2%nat * a3 n J dN gp u 2%nat = 1.
  Proof.
    intros Hgp S Im. assert (X := Im gp Hgp). fold (a3N n J dN gp u) in X.
    destruct (a3_plane gp u 0 Hgp S ltac:(lia)) as (N0 & A0), (a3_plane gp u 1 Hgp S ltac:(lia)) as (N1 & A1).
    unfold a3. rewrite !normalized_product by lia. assert (Y : norm3 (a3N n J dN gp u) * norm3 (a3N n J dN gp u) = squaredNorm (a3N n J dN gp u)) by (apply sqrt_sqrt; lra).
      assert (Nz : norm3 (a3N n J dN gp u) <> 0) by (intros E; rewrite E in Y; lra).
      unfold squaredNorm, dot in Y. cbn [sum] in Y. rewrite N0, N1 in Y.
      apply (Rmult_eq_reg_r (norm3 (a3N n J dN gp u) * norm3 (a3N n J dN gp u))); [|now apply Rmult_integral_contrapositive]. 
      rewrite Rmult_1_l. transitivity (a3N n J dN gp u 2%nat * a3N n J dN gp u 2%nat); [field; exact Nz|]. rewrite Y. ring.
  Qed.

  (** Displacements in the plane do not bend *)
  Lemma bending_plane gp u i m a : In gp points -> staysInPlane u -> immersed n points J dN u -> (m < 3)%nat -> (a < 2)%nat ->
    bopBending n J H dN ddN gp u i m a = 0.
  Proof.
    intros Hgp S Im Hm Ha. assert (X := Im gp Hgp). fold (a3N n J dN gp u) in X.
    destruct (a3_plane gp u 0 Hgp S ltac:(lia)) as (N0 & A0), (a3_plane gp u 1 Hgp S ltac:(lia)) as (N1 & A1).
    assert (A2 := a3_square gp u Hgp S Im).
    unfold bopBending. destruct a as [|[|a]]; [..|lia].
    all: rewrite ?A0, ?A1.
    all: assert (D : forall l c, (l < 3)%nat -> (c < 2)%nat -> a3d n J dN gp u i l c = 0).
    all: try (intros l c Hl Hc; unfold a3d, projector, a3Nd; cbn [sum]; unfold cross; rewrite !jcur_normal by (assumption || lia);
      rewrite ?A0, ?A1; unfold identity; destruct l as [|[|[|l]]]; [..|lia]; destruct c as [|[|c]]; try lia; cbn [Nat.eqb]; rewrite ?A0, ?A1, ?A2; ring).
    all: cbn [sum]; rewrite !D by lia; destruct m as [|[|[|m]]]; [..|lia]; cbn [Nat.eqb]; ring.
  Qed.

  (** For displacements in the plane the stiffness is that of the sheet, without coupling to displacements normal to it *)
  Theorem C181_stiffness u i j : staysInPlane u -> immersed n points J dN u -> (i < n)%nat -> (j < n)%nat ->
    (forall a b, (a < 2)%nat -> (b < 2)%nat -> shellMatrix n points emodul nu thickness J H B dN ddN inverse u zeroMatrix (3 * i + a)%nat (3 * j + b)%nat =
       thickness * nonlinearMatrix 2 n 3 points (glStrain 2 n dX) (glBop 2 n dX) (glKg 2 dX) (linearStress_ 3 (fun _ => P)) (fun _ => P) false (sheetOf u) zeroMatrix (2 * i + a)%nat (2 * j + b)%nat) /\
    (forall a, (a < 2)%nat -> shellMatrix n points emodul nu thickness J H B dN ddN inverse u zeroMatrix (3 * i + a)%nat (3 * j + 2)%nat = 0 /\
       shellMatrix n points emodul nu thickness J H B dN ddN inverse u zeroMatrix (3 * j + 2)%nat (3 * i + a)%nat = 0).
  Proof.
    intros S Im Hi Hj.
    assert (Sy : forall k l, (k < 3 * n)%nat -> (l < 3 * n)%nat -> shellMatrix n points emodul nu thickness J H B dN ddN inverse u zeroMatrix k l =
      shellMatrix n points emodul nu thickness J H B dN ddN inverse u zeroMatrix l k) by (intros; apply C99_symmetric; assumption).
    assert (Ps : symmetric 3 P).
    { intros p q Hp Hq. unfold P, planeStressMatrix. destruct p as [|[|[|p]]]; [..|lia]; destruct q as [|[|[|q]]]; try lia; reflexivity. }
    assert (Up : forall i j a b, (i < n)%nat -> (j < n)%nat -> (a < 2)%nat -> (b < 2)%nat -> (3 * i + a <= 3 * j + b)%nat ->
      shellMatrix n points emodul nu thickness J H B dN ddN inverse u zeroMatrix (3 * i + a)%nat (3 * j + b)%nat =
       thickness * nonlinearMatrix 2 n 3 points (glStrain 2 n dX) (glBop 2 n dX) (glKg 2 dX) (linearStress_ 3 (fun _ => P)) (fun _ => P) false (sheetOf u) zeroMatrix (2 * i + a)%nat (2 * j + b)%nat).
    { clear i j Hi Hj. intros i j a b Hi Hj Ha Hb L. rewrite matrix_at by lia.
      destruct (node_dir 3 i a ltac:(lia)) as (-> & ->), (node_dir 3 j b ltac:(lia)) as (-> & ->).
      rewrite (matrix_sum 2 n 3 points) by lia. unfold zeroMatrix. rewrite Rplus_0_l, sumP_const_l. apply sumP_ext. intros gp Hgp.
      unfold pointMatrix. destruct (node_dir 2 i a Ha) as (-> & ->), (node_dir 2 j b Hb) as (-> & ->).
      rewrite (form_zero _ (fun m => bopBending n J H dN ddN gp u i m a)) by (intros; now apply bending_plane).
      rewrite kgBending_zero by (try lia; intros; now apply moments_plane).
      rewrite (form_ext (C gp) _ _ (pulledBack (J gp) (fun p => glBop 2 n dX gp (sheetOf u) i p a)) (pulledBack (J gp) (fun p => glBop 2 n dX gp (sheetOf u) j p b)))
        by (intros; now apply bop_pulled).
      rewrite moduli_form by assumption.
      assert (G : kgMembrane dN gp (membraneForces n emodul nu thickness J dN inverse gp u) i j a b =
        thickness * glKg 2 dX gp (sheetOf u) (linearStress_ 3 (fun _ => P) (glStrain 2 n dX gp (sheetOf u))) i j a b).
      { transitivity (thickness * form (C gp) (pulledBack (J gp) (fun p => strainVector 2 (glSecond dX gp i j a b) p)) (epsV n J dN gp u)).
        - unfold kgMembrane, membraneForces, apply. fold (C gp). rewrite !(Ch gp) by (assumption || lia). generalize (epsV n J dN gp u) (C gp). intros e c.
          unfold form, pulledBack, strainVector, glSecond. cbn [sum]. cbn [component]. cbn. field.
        - transitivity (thickness * form (C gp) (pulledBack (J gp) (fun p => strainVector 2 (glSecond dX gp i j a b) p)) (pulledBack (J gp) (glStrain 2 n dX gp (sheetOf u)))).
          { f_equal. apply form_ext; intros; [reflexivity|now apply eps_pulled]. }
          rewrite moduli_form by assumption. f_equal. unfold glKg. change (voigtLength 2) with 3%nat. unfold form, linearStress_, apply. cbn [sum]. ring. }
      rewrite G. unfold form. ring. }
    split.
    - intros a b Ha Hb. destruct (Nat.le_gt_cases (3 * i + a) (3 * j + b)) as [L|L]; [now apply Up|].
      rewrite Sy by lia. rewrite Up by (assumption || lia). f_equal.
      apply (C96_svk 2 n points dX P (sheetOf u)); [lia|exact Ps|lia|lia].
    - intros a Ha.
      assert (Z : forall k l, (k <= l)%nat -> (k < 3 * n)%nat -> (l < 3 * n)%nat -> (k mod 3 = 2 /\ l mod 3 < 2 \/ k mod 3 < 2 /\ l mod 3 = 2)%nat ->
        shellMatrix n points emodul nu thickness J H B dN ddN inverse u zeroMatrix k l = 0).
      { intros k l L Hk Hl M. rewrite matrix_at by assumption. apply sumP_none. intros gp Hgp.
        rewrite kgBending_zero by (try (apply Nat.mod_upper_bound; lia); intros; now apply moments_plane).
        assert (KM : kgMembrane dN gp (membraneForces n emodul nu thickness J dN inverse gp u) (k / 3) (l / 3) (k mod 3) (l mod 3) = 0).
        { unfold kgMembrane, identity. destruct (Nat.eqb_spec (k mod 3) (l mod 3)); [lia|]. ring. }
        rewrite KM. destruct M as [(-> & M)|(M & ->)].
        - rewrite (form_zero _ (fun m => bopMembrane n J dN gp u (k / 3) m 2)) by (intros; now apply bop_normal).
          assert (F : form (C gp) (fun m => bopBending n J H dN ddN gp u (k / 3) m 2) (fun m => bopBending n J H dN ddN gp u (l / 3) m (l mod 3)) = 0).
          { unfold form. cbn [sum]. rewrite !(bending_plane gp u (l / 3)%nat) by (assumption || lia). ring. }
          rewrite F. ring.
        - rewrite (form_zero _ (fun m => bopBending n J H dN ddN gp u (k / 3) m (k mod 3))) by (intros; now apply bending_plane).
          assert (F : form (C gp) (fun m => bopMembrane n J dN gp u (k / 3) m (k mod 3)) (fun m => bopMembrane n J dN gp u (l / 3) m 2) = 0).
          { unfold form. cbn [sum]. rewrite !(bop_normal gp u (l / 3)%nat) by assumption. ring. }
          rewrite F. ring. }
      destruct (node_dir 3 i a ltac:(lia)) as (_ & M1), (node_dir 3 j 2 ltac:(lia)) as (_ & M2).
      destruct (Nat.le_gt_cases (3 * i + a) (3 * j + 2)).
      + assert (E : shellMatrix n points emodul nu thickness J H B dN ddN inverse u zeroMatrix (3 * i + a)%nat (3 * j + 2)%nat = 0) by (apply Z; lia).
        split; [exact E|]. rewrite Sy by lia. exact E.
      + assert (E : shellMatrix n points emodul nu thickness J H B dN ddN inverse u zeroMatrix (3 * j + 2)%nat (3 * i + a)%nat = 0) by (apply Z; lia).
        split; [|exact E]. rewrite Sy by lia. exact E.
  Qed.

  (** ** The plate: small deflections of the undeformed shell *)
  (** [cX gp i] holds the second derivatives (11, 22, twice 12) of a shape function in Cartesian coordinates *)
  Definition affineSurface : Prop := forall gp m k, In gp points -> (m < 3)%nat -> (k < 3)%nat -> H gp m k = 0.
  Definition secondChainRule (cX : point -> nat -> nat -> R) : Prop := forall gp i m, In gp points -> (i < n)%nat -> (m < 3)%nat ->
    ddN gp i m * (if (m =? 2)%nat then 2 else 1) = pulledBack (J gp) (cX gp i) m.

  Lemma zero_stays : staysInPlane zeroVector.
  Proof. intros i Hi. reflexivity. Qed.
  Lemma gradu_zero gp k a : gradu n dN gp zeroVector k a = 0.
  Proof. unfold gradu, zeroVector. apply sum_zero. intros. ring. Qed.
  Lemma zero_immersed : immersed n points J dN zeroVector.
  Proof.
    intros gp Hgp. destruct (Fl gp Hgp) as (D & Z & _). unfold squaredNorm, dot, cross, jcur. cbn [sum]. rewrite !gradu_zero, !Z by lia.
    assert (0 < (J gp 0%nat 0%nat * J gp 1%nat 1%nat - J gp 0%nat 1%nat * J gp 1%nat 0%nat) ^ 2) by (rewrite <- Rsqr_pow2; now apply Rsqr_pos_lt). nra.
  Qed.

  Theorem C181_plate cX i j : affineSurface -> secondChainRule cX -> (i < n)%nat -> (j < n)%nat ->
    shellMatrix n points emodul nu thickness J H B dN ddN inverse zeroVector zeroMatrix (3 * i + 2)%nat (3 * j + 2)%nat =
    sumP points (fun gp => thickness ^ 3 / 12 * form P (cX gp i) (cX gp j) * (integrationElement gp * weight gp)).
  Proof.
    intros Af Cc.
    assert (Ps : forall x y, form P x y = form P y x).
    { intros x y. unfold form, P, planeStressMatrix. cbn [sum]. ring. }
    assert (Up : forall i j, (i < n)%nat -> (j < n)%nat -> (i <= j)%nat ->
      shellMatrix n points emodul nu thickness J H B dN ddN inverse zeroVector zeroMatrix (3 * i + 2)%nat (3 * j + 2)%nat =
      sumP points (fun gp => thickness ^ 3 / 12 * form P (cX gp i) (cX gp j) * (integrationElement gp * weight gp))).
    { clear i j. intros i j Hi Hj L. rewrite matrix_at by lia.
      destruct (node_dir 3 i 2 ltac:(lia)) as (-> & ->), (node_dir 3 j 2 ltac:(lia)) as (-> & ->). apply sumP_ext. intros gp Hgp.
      rewrite (form_zero _ (fun m => bopMembrane n J dN gp zeroVector i m 2)) by (intros; apply bop_normal; [assumption|apply zero_stays]).
      rewrite kgBending_zero by (first [lia | intros; apply moments_plane; [assumption|apply zero_stays]]).
      rewrite kgMembrane_zero.
      2:{ intros m Hm. unfold membraneForces, apply. cbn [sum]. unfold epsV, dot, jcur. cbn [sum]. rewrite !gradu_zero. ring. }
      assert (Bb : forall i m, (i < n)%nat -> (m < 3)%nat -> bopBending n J H dN ddN gp zeroVector i m 2 = - a3 n J dN gp zeroVector 2%nat * pulledBack (J gp) (cX gp i) m).
      { clear i j Hi Hj L. intros i m Hi Hm. rewrite <- (Cc gp i m Hgp Hi Hm). unfold bopBending.
        rewrite (sum_zero 3 (fun l => hcur n H ddN gp zeroVector m l * a3d n J dN gp zeroVector i l 2)).
        - destruct (m =? 2)%nat; ring.
        - intros k Hk. unfold hcur, hessianu. rewrite Af, (sum_zero n) by (assumption || (intros; unfold zeroVector; ring)). ring. }
      assert (A2 := a3_square gp zeroVector Hgp zero_stays zero_immersed).
      assert (F : form (C gp) (fun m => bopBending n J H dN ddN gp zeroVector i m 2) (fun m => bopBending n J H dN ddN gp zeroVector j m 2) =
        form (C gp) (pulledBack (J gp) (cX gp i)) (pulledBack (J gp) (cX gp j))).
      { transitivity (a3 n J dN gp zeroVector 2%nat * a3 n J dN gp zeroVector 2%nat * form (C gp) (pulledBack (J gp) (cX gp i)) (pulledBack (J gp) (cX gp j))).
        - unfold form. rewrite <- sum_mul_l. apply sum_ext. intros p Hp. rewrite <- sum_mul_l. apply sum_ext. intros q Hq. rewrite !Bb by assumption. ring.
        - rewrite A2. ring. }
      rewrite F, moduli_form by assumption. unfold vol. ring. }
    intros Hi Hj. destruct (Nat.le_gt_cases i j) as [L|L]; [now apply Up|].
    rewrite (C99_symmetric n points emodul nu thickness J H B dN ddN inverse zeroVector) by lia. rewrite Up by (assumption || lia).
    apply sumP_ext. intros gp _. now rewrite Ps.
  Qed.
End Flat.
Print Assumptions C181_energy.
Print Assumptions C181_forces.
Print Assumptions C181_stiffness.
Print Assumptions C181_plate.

(** A parallelogram with one node: its stretching force, its deflection stiffness *)
Definition skewJ (gp : point) (a k : nat) : R := match a, k with 0%nat, 0%nat => 2 | 1%nat, 0%nat => 1 | 1%nat, 1%nat => 1 | _, _ => 0 end.
Definition skewInverse (M : nat -> nat -> R) (a b : nat) : R :=
  match a, b with 0%nat, 0%nat => 1 / 2 | 0%nat, 1%nat => - (1 / 2) | 1%nat, 0%nat => - (1 / 2) | 1%nat, 1%nat => 1 | 2%nat, 2%nat => 1 | _, _ => 0 end.
Definition skewdX (gp : point) (i b : nat) : R := match b with 0%nat => 1 | _ => 3 end.
Definition skewdN (gp : point) (i a : nat) : R := match a with 0%nat => 2 | _ => 4 end.
Definition skewcX (gp : point) (i p : nat) : R := match p with 0%nat => 1 | _ => 0 end.
Definition skewddN (gp : point) (i m : nat) : R := match m with 0%nat => 4 | 1%nat => 1 | _ => 2 end.
Definition skewU (k : nat) : R := match k with 0%nat => 1 | _ => 0 end.
Example C181_applies :
  inverted [exPoint] skewJ skewInverse /\ flatSurface [exPoint] skewJ exZero exZero /\ chainRule 1 [exPoint] skewJ skewdN skewdX /\ staysInPlane 1 skewU /\
  immersed 1 [exPoint] skewJ skewdN skewU /\ affineSurface [exPoint] exZero /\ secondChainRule 1 [exPoint] skewJ skewddN skewcX /\
  shellScalar 1 [exPoint] 1 0 2 skewJ exZero exZero skewdN skewddN skewInverse skewU = 81 / 2 /\
  shellMatrix 1 [exPoint] 1 0 2 skewJ exZero exZero skewdN skewddN skewInverse zeroVector zeroMatrix 2%nat 2%nat = 2 / 3.
Proof.
  assert (I : inverted [exPoint] skewJ skewInverse).
  { intros gp _ i j Hi Hj. unfold mul, fullMetric, metric, skewInverse, skewJ, identity. cases3 i; cases3 j; cbn; split; field. }
  assert (F : flatSurface [exPoint] skewJ exZero exZero).
  { intros gp _. unfold skewJ, exZero. repeat split; auto; [lra|]. intros a Ha. destruct a as [|[|a]]; auto. }
  assert (Cr : chainRule 1 [exPoint] skewJ skewdN skewdX).
  { intros gp i a _ _ Ha. unfold skewdN, skewJ, skewdX. destruct a as [|[|a]]; [ring|ring|lia]. }
  assert (S : staysInPlane 1 skewU) by (intros i Hi; destruct i; [reflexivity|lia]).
  assert (A : affineSurface [exPoint] exZero) by (intros gp m k _ _ _; reflexivity).
  assert (C2 : secondChainRule 1 [exPoint] skewJ skewddN skewcX).
  { intros gp i m _ _ Hm. unfold skewddN, pulledBack, skewJ, skewcX. destruct m as [|[|[|m]]]; [..|lia]; cbn; field. }
  repeat (split; [assumption|]). split.
  { intros gp _. unfold squaredNorm, dot, jcur, gradu, skewJ, skewdN, skewU. cbn. lra. }
  repeat (split; [assumption|]). split.
  - rewrite (C181_energy 1 [exPoint] 1 0 2 skewJ exZero exZero skewdN skewddN skewInverse skewdX ltac:(lra) ltac:(lra) I F Cr skewU S).
    unfold nonlinearScalar, energyFunction, glStrain, strainVector, greenLagrangeOf, displacementGradientOf, sheetOf, skewU, skewdX, dot, apply, planeStressMatrix. cbn. field.
  - change 2%nat with (3 * 0 + 2)%nat.
    rewrite (C181_plate 1 [exPoint] 1 0 2 skewJ exZero exZero skewdN skewddN skewInverse ltac:(lra) ltac:(lra) I F skewcX 0 0 A C2 ltac:(lia) ltac:(lia)).
    unfold sumP, form, skewcX, planeStressMatrix, exPoint. cbn. field.
Qed.
