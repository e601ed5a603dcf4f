(** Model of the assumed stress elements, ikarus/finiteelements/mechanics/assumedstress.hh, of the assumed stresses,
      assumedstress/asfunctions/linearstress.hh and pk2stress.hh, and of their modes, assumedstress/asvariants/linearandpk2stress.hh and
      assumedstress/asvariants.hh, over the real numbers.
    The element-local vector of displacements has the entries (node * d + direction). The strains and the inverted material that the
    element stores per index of an integration point are functions of the integration point here. The optional argument dx (only
    for automatic differentiation) is not modelled. *)

From Coq Require Import Reals Arith Bool List.
From Verif Require Import Tensor_Spec Tensor_Model Element_Model Eas_Model.
Import ListNotations.
Local Open Scope R_scope.

(** beta_, strainStates_ and invertedMaterialStates_, 361-363 *)
Record asState := { beta : nat -> R; strainStates : point -> nat -> R; invertedMaterialStates : point -> nat -> nat -> R }.

Section AssumedStressElement.
  Variables (d n s p : nat).              (* myDim, numberOfNodes, strainSize, assumedStressSize *)
  Variable points : list point.
  Variable eps : point -> (nat -> R) -> nat -> R.
  Variable bop : point -> (nat -> R) -> nat -> nat -> nat -> R.
  Variable kg : point -> (nat -> R) -> (nat -> R) -> nat -> nat -> nat -> nat -> R.
  Variable P : point -> nat -> nat -> R.                      (* asFunction(gpPos) *)
  Variable materialInversion : (nat -> R) -> (nat -> R) -> (nat -> nat -> R) * (nat -> R).
  Variable inverse : (nat -> nat -> R) -> nat -> nat -> R.   (* H.inverse() *)

  (** AssumedStressFunction: value (linearstress.hh 31-38, pk2stress.hh 31-38) is a vector with s entries, firstDerivative is P, and
      secondDerivative is zero *)
  Definition stressValue (gp : point) (b : nat -> R) (m : nat) : R := if (m <? s)%nat then apply p (P gp) b m else 0.

  (** calculateHAndGMatrix, 376-409 *)
  Definition asH (st : asState) : nat -> nat -> R :=
    fold_left (fun H gp =>
      let intElement := integrationElement gp * weight gp in
      let D := invertedMaterialStates st gp in
      let S_bb := 0 in
      fun q r => H q r + (sum s (fun k => sum s (fun l => P gp k q * D k l * P gp l r)) + S_bb) * intElement)
      points (fun _ _ => 0).
  Definition asG (u : nat -> R) : nat -> nat -> R :=
    fold_left (fun G gp =>
      let intElement := integrationElement gp * weight gp in
      loop n (fun i G => addColumns d i (fun q b => sum s (fun k => P gp k q * bop gp u i k b) * intElement) G) G)
      points (fun _ _ => 0).
  (** calculateRtilde, 411-441 *)
  Definition asRtilde (u : nat -> R) (st : asState) : nat -> R :=
    fold_left (fun Rtilde gp =>
      let Es := strainStates st gp in
      let E := eps gp u in
      let intElement := integrationElement gp * weight gp in
      fun q => Rtilde q + sum s (fun k => P gp k q * (E k - Es k)) * intElement) points (fun _ => 0).

  (** calculateVectorImpl, 308-341 *)
  Definition asForces (u : nat -> R) (st : asState) (force : nat -> R) : nat -> R :=
    fold_left (fun force gp =>
      let S := stressValue gp (beta st) in
      loop n (fun i force => internalForces d s S (bop gp u i) i gp force) force) points force.
  Definition asVectorImpl (u : nat -> R) (st : asState) (force : nat -> R) : nat -> R :=
    fun k => asForces u st force k + sum p (fun q => sum p (fun r => asG u q k * inverse (asH st) q r * asRtilde u st r)).

  (** calculateMatrixImpl, 236-272 *)
  Definition asGeometric (u : nat -> R) (st : asState) (K : nat -> nat -> R) : nat -> nat -> R :=
    fold_left (fun K gp =>
      let S := stressValue gp (beta st) in
      loop n (fun i K => loop n (fun j K => geometricStiffness d (kg gp u S i j) i j gp K) K) K) points K.
  Definition asMatrixImpl (u : nat -> R) (st : asState) (K : nat -> nat -> R) : nat -> nat -> R :=
    let K1 := asGeometric u st K in
    let K2 k l := if (k <=? l)%nat then K1 k l + sum p (fun q => sum p (fun r => asG u q k * inverse (asH st) q r * asG u r l)) else K1 k l in
    fun k l => if (l <? k)%nat then K2 l k else K2 k l.

  (** calculateScalarImpl, 274-306, for scalars that are not of automatic differentiation *)
  Definition asScalarImpl (u : nat -> R) (st : asState) : R :=
    fold_left (fun energy gp =>
      let S := stressValue gp (beta st) in
      let Es := strainStates st gp in
      let E := eps gp u in
      energy + (dot s S E - 1 / 2 * dot s S Es) * integrationElement gp * weight gp) points 0.

  (** calculateMaterialInversion, 443-455 *)
  Definition invertMaterial (st : asState) : asState :=
    let result gp := materialInversion (stressValue gp (beta st)) (strainStates st gp) in
    {| beta := beta st; strainStates := fun gp => snd (result gp); invertedMaterialStates := fun gp => fst (result gp) |}.
  (** initializeState, 368-374: the entries that the vectors have already are kept *)
  Definition initializeState (st : asState) : asState :=
    invertMaterial {| beta := fun _ => 0; strainStates := strainStates st; invertedMaterialStates := invertedMaterialStates st |}.
  (** updateStateImpl, 204-227, with a correction of the right size; [dx] is its part of this element *)
  Definition updateState (u dx : nat -> R) (st : asState) : asState :=
    let H := asH st in
    let right q := asRtilde u st q + sum (d * n) (fun k => asG u q k * dx k) in
    invertMaterial {| beta := fun q => beta st q + sum p (fun r => inverse H q r * right r);
                      strainStates := strainStates st; invertedMaterialStates := invertedMaterialStates st |}.
End AssumedStressElement.

(** asApplicabilityCheck, 229-234: the element supports only four nodes in two and eight nodes in three dimensions *)
Definition asApplicable (numberOfNodes mydim : nat) : bool :=
  ((numberOfNodes =? 4) && (mydim =? 2) || (numberOfNodes =? 8) && (mydim =? 3))%nat.

(** ** The modes: linearandpk2stress.hh, the matrix P of operator() before the transformation, with xi, eta, zeta of [0, 1]: S5 77-90,
    S18 116-154, S24 181-225 and S30 252-302 *)
Definition S5modes (xi eta : R) : nat -> nat -> R :=
  let x := 2 * xi - 1 in let y := 2 * eta - 1 in
  entries [[1; 0; 0; y; 0]; [0; 1; 0; 0; x]; [0; 0; 1; 0; 0]].
(** A row of P whose nonzero entries start at the column k *)
Definition shifted (k p : nat) (l : list R) : list R := repeat 0 k ++ l ++ repeat 0 (p - k - length l).
(** 116-154 *)
Definition S18modes (xi eta zeta : R) : nat -> nat -> R :=
  let x := 2 * xi - 1 in let y := 2 * eta - 1 in let z := 2 * zeta - 1 in
  entries
    [shifted 0 18 [1; y; z; y * z]; shifted 4 18 [1; x; z; x * z]; shifted 8 18 [1; x; y; x * y];
     shifted 12 18 [1; x]; shifted 14 18 [1; y]; shifted 16 18 [1; z]].
(** 181-225 *)
Definition S24modes (xi eta zeta : R) : nat -> nat -> R :=
  let x := 2 * xi - 1 in let y := 2 * eta - 1 in let z := 2 * zeta - 1 in
  entries
    [shifted 0 24 [1; y; z; y * z]; shifted 4 24 [1; x; z; x * z]; shifted 8 24 [1; x; y; x * y];
     shifted 12 24 [1; x; x * y; x * z]; shifted 16 24 [1; y; x * y; y * z]; shifted 20 24 [1; z; y * z; x * z]].
(** 252-302 *)
Definition S30modes (xi eta zeta : R) : nat -> nat -> R :=
  let x := 2 * xi - 1 in let y := 2 * eta - 1 in let z := 2 * zeta - 1 in
  entries
    [shifted 0 30 [1; y; z; y * z]; shifted 4 30 [1; x; z; x * z]; shifted 8 30 [1; x; y; x * y];
     shifted 12 30 [1; x; y; z; x * y; x * z]; shifted 18 30 [1; x; y; z; x * y; y * z]; shifted 24 30 [1; x; y; z; y * z; x * z]].

(** The variants that asvariants.hh 79-110 can make; None: Dune::NotImplemented *)
Inductive variantS := W5 | W18 | W24 | W30.
Definition sizeS (v : variantS) : nat := match v with W5 => 5 | W18 => 18 | W24 => 24 | W30 => 30 end%nat.
Definition modesS (v : variantS) (gp : point) : nat -> nat -> R :=
  let xi := position gp 0%nat in let eta := position gp 1%nat in let zeta := position gp 2%nat in
  match v with W5 => S5modes xi eta | W18 => S18modes xi eta zeta | W24 => S24modes xi eta zeta | W30 => S30modes xi eta zeta end.
Definition makeS (d : nat) (parameters : nat) : option variantS :=
  if (d =? 2)%nat then (if parameters =? 5 then Some W5 else None)%nat
  else (if parameters =? 18 then Some W18 else if parameters =? 24 then Some W24 else if parameters =? 30 then Some W30 else None)%nat.

(** T0_, linearandpk2stress.hh 20-27 and 44-46, and operator(): T0_ * P; [J0] is jacobianTransposed at the center *)
Definition T0transposed (d : nat) (J0 : nat -> nat -> R) (i j : nat) : R := transformationMatrix d J0 j i.
Definition asFunction (d : nat) (J0 : nat -> nat -> R) (v : variantS) (gp : point) (m q : nat) : R :=
  sum (voigtLength d) (fun k => T0transposed d J0 m k * modesS v gp k q).
