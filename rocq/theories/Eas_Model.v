(** Model of the integration loops of the enhanced assumed strain elements,
      ikarus/finiteelements/mechanics/enhancedassumedstrains.hh,
    of the enhanced strains, strainenhancements/easfunctions/*.hh, and of the modes, strainenhancements/easvariants/*.hh and
    easvariants.hh, over the real numbers.
    The element-local vector of displacements has the entries (node * d + direction). The condensation and the update of the internal
    variables over the Newton iterations is in Condensation_Model. *)

From Coq Require Import Reals Arith ZArith Bool List.
From Verif Require Import Tensor_Spec Tensor_Model Element_Spec Element_Model.
Import ListNotations.
Local Open Scope R_scope.

Section EasElement.
  Variables (d n s p : nat).              (* myDim, numberOfNodes, strainSize, enhancedStrainSize *)
  Variable points : list point.
  Variables (stresses : (nat -> R) -> nat -> R) (tangentModuli : (nat -> R) -> nat -> nat -> R).
  (** EnhancedStrainFunction: value, firstDerivative<0> (node, component, direction), firstDerivative<1> (component, parameter),
      secondDerivative<0> (nodes, directions), <1> (parameters) and <2> (node, parameter, direction) *)
  Variable E : point -> (nat -> R) -> (nat -> R) -> nat -> R.
  Variable E_d : point -> (nat -> R) -> (nat -> R) -> nat -> nat -> nat -> R.
  Variable E_a : point -> (nat -> R) -> (nat -> R) -> nat -> nat -> R.
  Variable E_dd : point -> (nat -> R) -> (nat -> R) -> (nat -> R) -> nat -> nat -> nat -> nat -> R.
  Variable E_aa : point -> (nat -> R) -> (nat -> R) -> (nat -> R) -> nat -> nat -> R.
  Variable E_ad : point -> (nat -> R) -> (nat -> R) -> (nat -> R) -> nat -> nat -> nat -> R.

  (** LMat.block<enhancedStrainSize, myDim>(0, myDim * i) += B *)
  Definition addColumns (i : nat) (B : nat -> nat -> R) (L : nat -> nat -> R) : nat -> nat -> R :=
    fun q k => if ((d * i <=? k) && (k <? d * i + d))%nat then L q k + B q (k - d * i)%nat else L q k.

  (** calculateDAndLMatrix, 378-410 *)
  Definition easD (u a : nat -> R) : nat -> nat -> R :=
    fold_left (fun D gp =>
      let enhancedStrain := E gp u a in
      let C := tangentModuli enhancedStrain in
      let S := stresses enhancedStrain in
      let intElement := integrationElement gp * weight gp in
      fun q r => D q r + (sum s (fun k => sum s (fun l => E_a gp u a k q * C k l * E_a gp u a l r)) + E_aa gp u a S q r) * intElement)
      points (fun _ _ => 0).
  Definition easL (u a : nat -> R) : nat -> nat -> R :=
    fold_left (fun L gp =>
      let enhancedStrain := E gp u a in
      let C := tangentModuli enhancedStrain in
      let S := stresses enhancedStrain in
      let intElement := integrationElement gp * weight gp in
      loop n (fun i L => addColumns i (fun q b =>
        (sum s (fun k => sum s (fun l => E_a gp u a k q * C k l * E_d gp u a i l b)) + E_ad gp u a S i q b) * intElement) L) L)
      points (fun _ _ => 0).
  (** calculateRtilde, 412-434 *)
  Definition easRtilde (u a : nat -> R) : nat -> R :=
    fold_left (fun Rtilde gp =>
      let S := stresses (E gp u a) in
      let intElement := integrationElement gp * weight gp in
      fun q => Rtilde q + sum s (fun k => E_a gp u a k q * S k) * intElement) points (fun _ => 0).

  (** The loop of calculateVectorImpl, 327-335 *)
  Definition easForces (u a force : nat -> R) : nat -> R :=
    fold_left (fun force gp =>
      let S := stresses (E gp u a) in
      loop n (fun i force => internalForces d s S (E_d gp u a i) i gp force) force) points force.
  (** The loop of calculateMatrixImpl, 274-289 *)
  Definition easStiffness (u a : nat -> R) (K : nat -> nat -> R) : nat -> nat -> R :=
    fold_left (fun K gp =>
      let enhancedStrain := E gp u a in
      let S := stresses enhancedStrain in
      loop n (fun i K => loop n (fun j K =>
        geometricStiffness d (E_dd gp u a S i j) i j gp
          (materialStiffness d s (tangentModuli enhancedStrain) (E_d gp u a i) (E_d gp u a j) i j gp K)) K) K) points K.

  (** calculateVectorImpl, 312-348, and calculateMatrixImpl, 258-299, with at least one parameter; [inverse] is D.inverse() *)
  Variable inverse : (nat -> nat -> R) -> nat -> nat -> R.
  Definition condense (X Y : nat -> nat -> R) (D : nat -> nat -> R) (k l : nat) : R :=
    sum p (fun q => sum p (fun r => X q k * inverse D q r * Y r l)).
  Definition easVectorImpl (u a force : nat -> R) : nat -> R :=
    fun k => easForces u a force k - sum p (fun q => sum p (fun r => easL u a q k * inverse (easD u a) q r * easRtilde u a r)).
  Definition easMatrixImpl (u a : nat -> R) (K : nat -> nat -> R) : nat -> nat -> R :=
    let K1 := easStiffness u a K in
    let K2 k l := if (k <=? l)%nat then K1 k l - condense (easL u a) (easL u a) (easD u a) k l else K1 k l in
    fun k l => if (l <? k)%nat then K2 l k else K2 k l.
  (** updateStateImpl, 225-248, with at least one parameter: alpha -= D.inverse() * (Rtilde + L * localdx); [du] is the element's part of
      the correction *)
  Definition easUpdateImpl (u du a : nat -> R) : nat -> R :=
    fun q => a q - sum p (fun r => inverse (easD u a) q r * (easRtilde u a r + sum (d * n) (fun k => easL u a r k * du k))).
End EasElement.

(** ** Enhanced strains; [eps], [bop], [kg] are the strain expression of dune-localfefunctions *)
Section StrainFunctions.
  Variables (d n p : nat).
  Variable eps : point -> (nat -> R) -> nat -> R.
  Variable bop : point -> (nat -> R) -> nat -> nat -> nat -> R.
  Variable kg : point -> (nat -> R) -> (nat -> R) -> nat -> nat -> nat -> nat -> R.
  Variable M : point -> nat -> nat -> R.           (* easFunction(gpPos) of an E variant *)

  (** linearstrain.hh and greenlagrangestrain.hh: value 40-50, firstDerivative from 72, secondDerivative from 116; the second derivative
      of the linear strain is zero *)
  Definition additiveValue (gp : point) (u a : nat -> R) (m : nat) : R := eps gp u m + apply p (M gp) a m.
  Definition additive_d (gp : point) (u a : nat -> R) : nat -> nat -> nat -> R := bop gp u.
  Definition additive_a (gp : point) (u a : nat -> R) : nat -> nat -> R := M gp.
  Definition additive_dd (gp : point) (u a S : nat -> R) : nat -> nat -> nat -> nat -> R := kg gp u S.
  Definition zero_aa (gp : point) (u a S : nat -> R) (q r : nat) : R := 0.
  Definition zero_ad (gp : point) (u a S : nat -> R) (i q b : nat) : R := 0.

  (** ** Displacement gradients; [dN gp i a] is the derivative of the shape function of node i in direction a, [H] are the matrices of
      easFunction(gpPos) of an H variant *)
  Variable dN : point -> nat -> nat -> R.
  Variable H : point -> nat -> nat -> nat -> R.

  (** toVoigt(0.5 * (H + H^T + H^T H), true); toVoigt of Tensor_Model writes all entries *)
  Definition strainOfGradient (G : nat -> nat -> R) (m : nat) : R :=
    match toVoigt d (fun a b => / 2 * (G a b + G b a + sum d (fun k => G k a * G k b))) true m with Some x => x | None => 0 end.
  (** The rows of the B-operator: x and y are given by direction, the result is x_a y_b + x_b y_a, or x_a y_a *)
  Definition voigtRows (x y : nat -> R) (m : nat) : R :=
    if (d =? 2)%nat then
      match m with 0 => x 0%nat * y 0%nat | 1 => x 1%nat * y 1%nat | _ => x 1%nat * y 0%nat + x 0%nat * y 1%nat end
    else
      match m with
      | 0 => x 0%nat * y 0%nat | 1 => x 1%nat * y 1%nat | 2 => x 2%nat * y 2%nat
      | 3 => x 2%nat * y 1%nat + x 1%nat * y 2%nat
      | 4 => x 2%nat * y 0%nat + x 0%nat * y 2%nat
      | _ => x 1%nat * y 0%nat + x 0%nat * y 1%nat
      end.
  (** ... and of E,a: the columns of G and F are multiplied *)
  Definition voigtColumns (G F : nat -> nat -> R) (m : nat) : R :=
    let c a b := sum d (fun k => G k a * F k b) in
    if (d =? 2)%nat then
      match m with 0 => c 0%nat 0%nat | 1 => c 1%nat 1%nat | _ => c 1%nat 0%nat + c 0%nat 1%nat end
    else
      match m with
      | 0 => c 0%nat 0%nat | 1 => c 1%nat 1%nat | 2 => c 2%nat 2%nat
      | 3 => c 2%nat 1%nat + c 1%nat 2%nat
      | 4 => c 2%nat 0%nat + c 0%nat 2%nat
      | _ => c 1%nat 0%nat + c 0%nat 1%nat
      end.
  (** S[toVoigt<myDim>(i, j)] *)
  Definition atVoigt (S : nat -> R) (i j : nat) : R := match toVoigtIndex d i j with Some m => S m | None => 0 end.
  (** kg += 0.5 * S_ij * (X.col(i) . Y.col(j) + X.col(j) . Y.col(i)) over all i and j *)
  Definition stressColumns (S : nat -> R) (X Y : nat -> nat -> R) : R :=
    loop d (fun i kg => loop d (fun j kg =>
      kg + / 2 * atVoigt S i j * (sum d (fun k => X k i * Y k j) + sum d (fun k => X k j * Y k i))) kg) 0.

  (** displacementgradient.hh: computeDisplacementGradient 44-64, value 80-88, firstDerivative 110-173, secondDerivative 199-261 *)
  Definition Htilde (gp : point) (a : nat -> R) (k l : nat) : R := sum p (fun q => H gp q k l * a q).
  Definition dgGradient (gp : point) (u a : nat -> R) (k l : nat) : R := displacementGradientOf d n (dN gp) u k l + Htilde gp a k l.
  Definition dgF (gp : point) (u a : nat -> R) (k l : nat) : R := identity k l + dgGradient gp u a k l.
  Definition dgValue (gp : point) (u a : nat -> R) : nat -> R := strainOfGradient (dgGradient gp u a).
  Definition dg_d (gp : point) (u a : nat -> R) (i m k : nat) : R := voigtRows (dN gp i) (fun b => dgF gp u a k b) m.
  Definition dg_a (gp : point) (u a : nat -> R) (m q : nat) : R := voigtColumns (H gp q) (dgF gp u a) m.
  Definition dg_dd (gp : point) (u a S : nat -> R) : nat -> nat -> nat -> nat -> R := kg gp u S.
  Definition dg_aa (gp : point) (u a S : nat -> R) (q r : nat) : R := stressColumns S (H gp q) (H gp r).
  (** dNIdT[b], the matrix whose row b is dN *)
  Definition rowOf (x : nat -> R) (b k l : nat) : R := if (k =? b)%nat then x l else 0.
  Definition dg_ad (gp : point) (u a S : nat -> R) (i q b : nat) : R := stressColumns S (H gp q) (rowOf (dN gp i) b).

  (** displacementgradienttransposed.hh; [dN0] are the derivatives of the shape functions at the center of the element *)
  Variable dN0 : nat -> nat -> R.
  (** Fc0 and enhancedDisplacementGradient 337-370 *)
  Definition centerF (u : nat -> R) (k l : nat) : R := identity k l + displacementGradientOf d n dN0 u k l.
  Definition dgtEnhanced (gp : point) (u a : nat -> R) (k l : nat) : R := sum d (fun b => centerF u k b * Htilde gp a l b).
  (** computeDisplacementGradient 46-57, value 73-81 *)
  Definition dgtGradient (gp : point) (u a : nat -> R) (k l : nat) : R := displacementGradientOf d n (dN gp) u k l + dgtEnhanced gp u a k l.
  Definition dgtF (gp : point) (u a : nat -> R) (k l : nat) : R := identity k l + dgtGradient gp u a k l.
  Definition dgtValue (gp : point) (u a : nat -> R) : nat -> R := strainOfGradient (dgtGradient gp u a).
  (** firstDerivative 103-178: dN += dNtilde *)
  Definition dNtilde (gp : point) (a : nat -> R) (i l : nat) : R := sum p (fun t => sum d (fun b => H gp t l b * a t * dN0 i b)).
  Definition dNplus (gp : point) (a : nat -> R) (i l : nat) : R := dN gp i l + dNtilde gp a i l.
  Definition dgt_d (gp : point) (u a : nat -> R) (i m k : nat) : R := voigtRows (dNplus gp a i) (fun b => dgtF gp u a k b) m.
  (** Fc0 * Harray[q].transpose() *)
  Definition timesTransposed (X : nat -> nat -> R) (gp : point) (q k l : nat) : R := sum d (fun b => X k b * H gp q l b).
  Definition dgt_a (gp : point) (u a : nat -> R) (m q : nat) : R := voigtColumns (timesTransposed (centerF u) gp q) (dgtF gp u a) m.
  (** secondDerivative 204-329 *)
  Definition dgt_dd (gp : point) (u a S : nat -> R) (i j k l : nat) : R :=
    let x := dNplus gp a i in let y := dNplus gp a j in
    let val :=
      if (d =? 2)%nat then
        S 0%nat * x 0%nat * y 0%nat + S 1%nat * x 1%nat * y 1%nat + S 2%nat * (x 0%nat * y 1%nat + x 1%nat * y 0%nat)
      else
        S 0%nat * x 0%nat * y 0%nat + S 1%nat * x 1%nat * y 1%nat + S 2%nat * x 2%nat * y 2%nat +
        S 3%nat * (x 2%nat * y 1%nat + x 1%nat * y 2%nat) + S 4%nat * (x 0%nat * y 2%nat + x 2%nat * y 0%nat) +
        S 5%nat * (x 0%nat * y 1%nat + x 1%nat * y 0%nat) in
    val * identity k l.
  Definition dgt_aa (gp : point) (u a S : nat -> R) (q r : nat) : R :=
    stressColumns S (timesTransposed (centerF u) gp q) (timesTransposed (centerF u) gp r).
  (** dNXHtilde[b][q] = dNIdT0[b] * Harray[q].transpose() *)
  Definition dgt_ad (gp : point) (u a S : nat -> R) (i q b : nat) : R :=
    loop d (fun k kg => loop d (fun l kg =>
      let Hp := timesTransposed (centerF u) gp q in
      let dNIdT := rowOf (dNplus gp a i) b in
      let dNX := timesTransposed (rowOf (dN0 i) b) gp q in
      let F := dgtF gp u a in
      let c (X Y : nat -> nat -> R) k l := sum d (fun m => X m k * Y m l) in
      kg + / 2 * atVoigt S k l * (c Hp dNIdT k l + c Hp dNIdT l k + c dNX F k l + c dNX F l k)) kg) 0.
End StrainFunctions.

(** ** The modes *)

(** linearandglstrains.hh: the matrices M of operator() before the transformation, with xi, eta, zeta of [0, 1]: E4 85-97, E5 121-134,
    E7 from 158, E11 from 199, E9 from 252 and E21 from 294 *)
Definition E4modes (xi eta : R) : nat -> nat -> R :=
  let x := 2 * xi - 1 in let y := 2 * eta - 1 in
  entries [[x; 0; 0; 0]; [0; y; 0; 0]; [0; 0; x; y]].
Definition E5modes (xi eta : R) : nat -> nat -> R :=
  let x := 2 * xi - 1 in let y := 2 * eta - 1 in
  entries [[x; 0; 0; 0; 0]; [0; y; 0; 0; 0]; [0; 0; x; y; x * y]].
Definition E7modes (xi eta : R) : nat -> nat -> R :=
  let x := 2 * xi - 1 in let y := 2 * eta - 1 in
  entries [[x; 0; 0; 0; x * y; 0; 0]; [0; y; 0; 0; 0; x * y; 0]; [0; 0; x; y; 0; 0; x * y]].
Definition E11modes (xi eta : R) : nat -> nat -> R :=
  let x := 2 * xi - 1 in let y := 2 * eta - 1 in let x2 := x * x in let y2 := y * y in
  entries
    [[1 - 3 * x2; y - 3 * x2 * y; y2 - 3 * x2 * y2; 0; 0; 0; 0; 0; 0; 0; 0];
     [0; 0; 0; 1 - 3 * y2; x - 3 * x * y2; x2 - 3 * x2 * y2; 0; 0; 0; 0; 0];
     [0; 0; 0; 0; 0; 0; 1 - 3 * x2; 1 - 3 * y2; y - 3 * x2 * y; x - 3 * x * y2; 1 - 3 * (x2 + y2) + 9 * x2 * y2]].
Definition E9modes (xi eta zeta : R) : nat -> nat -> R :=
  let x := 2 * xi - 1 in let y := 2 * eta - 1 in let z := 2 * zeta - 1 in
  entries
    [[x; 0; 0; 0; 0; 0; 0; 0; 0]; [0; y; 0; 0; 0; 0; 0; 0; 0]; [0; 0; z; 0; 0; 0; 0; 0; 0];
     [0; 0; 0; y; z; 0; 0; 0; 0]; [0; 0; 0; 0; 0; x; z; 0; 0]; [0; 0; 0; 0; 0; 0; 0; x; y]].
Definition E21modes (xi eta zeta : R) : nat -> nat -> R :=
  let x := 2 * xi - 1 in let y := 2 * eta - 1 in let z := 2 * zeta - 1 in
  entries
    [[x; 0; 0; 0; 0; 0; 0; 0; 0; 0; 0; 0; 0; 0; 0; x * y; x * z; 0; 0; 0; 0];
     [0; y; 0; 0; 0; 0; 0; 0; 0; 0; 0; 0; 0; 0; 0; 0; 0; x * y; y * z; 0; 0];
     [0; 0; z; 0; 0; 0; 0; 0; 0; 0; 0; 0; 0; 0; 0; 0; 0; 0; 0; x * z; y * z];
     [0; 0; 0; y; z; 0; 0; 0; 0; x * y; x * z; 0; 0; 0; 0; 0; 0; 0; 0; 0; 0];
     [0; 0; 0; 0; 0; x; z; 0; 0; 0; 0; x * y; y * z; 0; 0; 0; 0; 0; 0; 0; 0];
     [0; 0; 0; 0; 0; 0; 0; x; y; 0; 0; 0; 0; x * z; y * z; 0; 0; 0; 0; 0; 0]].
(** displacementgradient.hh: H4 91-109 and H9 136-161, before the transformation; the position has at least three entries here *)
Definition H4modes (xi eta : R) (q k l : nat) : R :=
  let x := 2 * xi - 1 in let y := 2 * eta - 1 in
  entries (nth q [[[x; 0]; [0; 0]]; [[0; y]; [0; 0]]; [[0; 0]; [x; 0]]; [[0; 0]; [0; y]]] []) k l.
Definition H9modes (xi eta zeta : R) (q k l : nat) : R :=
  let x := 2 * xi - 1 in let y := 2 * eta - 1 in let z := 2 * zeta - 1 in
  entries (nth q
    [[[x; 0; 0]; [0; 0; 0]; [0; 0; 0]]; [[0; y; 0]; [0; 0; 0]; [0; 0; 0]]; [[0; 0; z]; [0; 0; 0]; [0; 0; 0]];
     [[0; 0; 0]; [x; 0; 0]; [0; 0; 0]]; [[0; 0; 0]; [0; y; 0]; [0; 0; 0]]; [[0; 0; 0]; [0; 0; z]; [0; 0; 0]];
     [[0; 0; 0]; [0; 0; 0]; [x; 0; 0]]; [[0; 0; 0]; [0; 0; 0]; [0; y; 0]]; [[0; 0; 0]; [0; 0; 0]; [0; 0; z]]] []) k l.

(** The variants that easvariants.hh 101-165 can make *)
Inductive variantE := V0 | V4 | V5 | V7 | V11 | V9 | V21.
Definition modesE (v : variantE) (gp : point) : nat -> nat -> R :=
  let xi := position gp 0%nat in let eta := position gp 1%nat in let zeta := position gp 2%nat in
  match v with
  | V0 => fun _ _ => 0
  | V4 => E4modes xi eta | V5 => E5modes xi eta | V7 => E7modes xi eta | V11 => E11modes xi eta
  | V9 => E9modes xi eta zeta | V21 => E21modes xi eta zeta
  end.
Definition sizeE (v : variantE) : nat := match v with V0 => 0 | V4 => 4 | V5 => 5 | V7 => 7 | V11 => 11 | V9 => 9 | V21 => 21 end%nat.
(** createEASType, 101-165, for linear and Green-Lagrange strains and for displacement gradients; None: Dune::NotImplemented *)
Definition makeE (d : nat) (parameters : nat) : option variantE :=
  if (parameters =? 0)%nat then Some V0
  else if (d =? 2)%nat then
    (if parameters =? 4 then Some V4 else if parameters =? 5 then Some V5 else if parameters =? 7 then Some V7 else if parameters =? 11 then Some V11 else None)%nat
  else (if parameters =? 9 then Some V9 else if parameters =? 21 then Some V21 else None)%nat.
Definition makeH (d : nat) (parameters : nat) : option nat :=
  if (parameters =? 0)%nat then Some 0%nat
  else if (d =? 2)%nat then (if parameters =? 4 then Some 4 else None)%nat
  else (if parameters =? 9 then Some 9 else None)%nat.

Section Transformations.
  (** What the constructor of EX stores, linearandglstrains.hh 31-34 and helperfunctions.hh 18-25: the inverse of the transformation
      matrix at the center times the integration element there; [J0] is jacobianTransposed at the center *)
  Variable inverse : (nat -> nat -> R) -> nat -> nat -> R.
  Variables (d : nat) (J0 : nat -> nat -> R) (detJ0 : R).
  Definition transformationMatrix : nat -> nat -> R := if (d =? 2)%nat then transformationMatrix2 J0 else transformationMatrix3 J0.
  Definition T0InverseTransformed : nat -> nat -> R := inverse (fun i j => transformationMatrix i j * detJ0).
  (** operator(): M = T0InverseTransformed_ / detJ * M *)
  Definition easFunctionE (v : variantE) (gp : point) (m q : nat) : R :=
    sum (voigtLength d) (fun k => T0InverseTransformed m k / integrationElement gp * modesE v gp k q).

  (** transformDisplacementGradient, helperfunctions.hh 27-36; [JInv] is jacobianInverseTransposed at the center *)
  Variable JInv : nat -> nat -> R.
  Definition modesH (gp : point) : nat -> nat -> nat -> R :=
    if (d =? 2)%nat then H4modes (position gp 0%nat) (position gp 1%nat) else H9modes (position gp 0%nat) (position gp 1%nat) (position gp 2%nat).
  Definition easFunctionH (gp : point) (q k l : nat) : R :=
    sum d (fun b => sum d (fun c => detJ0 / integrationElement gp * JInv k c * modesH gp q c b) * JInv l b).
End Transformations.
