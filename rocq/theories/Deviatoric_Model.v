(** Model of ikarus/finiteelements/mechanics/materials/hyperelastic/deviatoric/ over the real numbers: blatzko.hh, ogden.hh,
    invariantbased.hh, gent.hh, arrudaboyce.hh, nodeviatoricfunction.hh, deviatoricinvariants.hh and interface.hh, and of the helpers
    of materials/materialhelpers.hh (lines 161-201) they use.
    Principal stretches are a function of the index 0, 1, 2.  pow(x, y) with a real exponent is Rpower (x > 0), with an integer
    exponent a power of the real number; conversions of exponents to int are assumed not to overflow.
    A thrown exception and an access outside a fixed-size array are outcomes of their own. *)

From Coq Require Import Reals List ZArith Bool.
Import ListNotations.
Local Open Scope R_scope.

Inductive outcome (A : Type) :=
  | Value (a : A)
  | Throws
  | OutOfBounds.
Arguments Value {A} _.
Arguments Throws {A}.
Arguments OutOfBounds {A}.

Definition stretches := nat -> R.

Definition reqb (a b : R) : bool := if Req_EM_T a b then true else false.
Definition rltb (a b : R) : bool := if Rlt_dec a b then true else false.
Definition rleb (a b : R) : bool := if Rle_dec a b then true else false.

(** Dune::FloatCmp::eq and le with the default style relativeWeak *)
Definition floatEq (eps a b : R) : bool := rleb (Rabs (a - b)) (eps * Rmax (Rabs a) (Rabs b)).
Definition floatLe (eps a b : R) : bool := rltb a b || floatEq eps a b.

(** The accumulation of a loop over the material parameters (parameterRange) *)
Definition total {A} (f : A -> R) (l : list A) : R := fold_left (fun acc t => acc + f t) l 0.

(** Sums and products over dimensionRange *)
Definition sum3 (f : stretches) : R := f 0%nat + f 1%nat + f 2%nat.

(** materialhelpers.hh determinantFromPrincipalValues, lines 161-164 *)
Definition prod3 (l : stretches) : R := l 0%nat * l 1%nat * l 2%nat.

(** materialhelpers.hh deviatoricStretches, lines 174-180 *)
Definition deviatoricStretches (l : stretches) : stretches :=
  let J := prod3 l in
  let Jmod := Rpower J (-1 / 3) in
  fun i => Jmod * l i.

(** materialhelpers.hh invariants, lines 189-201 *)
Definition I1 (l : stretches) : R := sum3 (fun i => (l i) ^ 2).
Definition I2 (l : stretches) : R :=
  (l 0%nat) ^ 2 * (l 1%nat) ^ 2 + (l 1%nat) ^ 2 * (l 2%nat) ^ 2 + (l 0%nat) ^ 2 * (l 2%nat) ^ 2.
Definition I3 (l : stretches) : R := prod3 (fun i => (l i) ^ 2).

(** deviatoricinvariants.hh value, lines 55-60 *)
Definition W1 (l : stretches) : R := I1 l * Rpower (I3 l) (-1 / 3).
Definition W2 (l : stretches) : R := I2 l * Rpower (I3 l) (-2 / 3).

(** deviatoricinvariants.hh firstDerivative, lines 65-74 *)
Definition dW1 (l : stretches) (k : nat) : R :=
  2 * (3 * (l k) ^ 2 - I1 l) / (3 * l k * Rpower (I3 l) (1 / 3)).
Definition dW2 (l : stretches) (k : nat) : R :=
  -2 * (3 * I3 l * / (l k) ^ 2 - I2 l) / (3 * l k * Rpower (I3 l) (2 / 3)).

(** deviatoricinvariants.hh secondDerivative, lines 79-98 *)
Definition ddW1 (l : stretches) (i j : nat) : R :=
  if Nat.eqb i j then 2 / 9 * (5 * I1 l - 3 * (l i) ^ 2) / ((l i) ^ 2 * Rpower (I3 l) (1 / 3))
  else 4 / 9 * (I1 l - 3 * ((l i) ^ 2 + (l j) ^ 2)) / (l i * l j * Rpower (I3 l) (1 / 3)).
Definition ddW2 (l : stretches) (i j : nat) : R :=
  if Nat.eqb i j then 2 / 9 * (15 * I3 l / (l i) ^ 2 - I2 l) / ((l i) ^ 2 * Rpower (I3 l) (2 / 3))
  else -4 / 9 * (2 * I2 l - 3 * (l i) ^ 2 * (l j) ^ 2) / (l i * l j * Rpower (I3 l) (2 / 3)).

(** blatzko.hh, lines 73-75, 84-89 and 99-109 *)
Definition blatzKoEnergy (mu : R) (l : stretches) : R :=
  mu / 2 * (sum3 (fun i => (/ l i) ^ 2) + 2 * prod3 l - 5).
Definition blatzKoFirst (mu : R) (l : stretches) (k : nat) : R :=
  mu * (- / (l k) ^ 3 + prod3 l * / l k).
Definition blatzKoSecond (mu : R) (l : stretches) (i j : nat) : R :=
  (if Nat.eqb i j then / (l i) ^ 2 * (/ (l i) ^ 2 - prod3 l) + 3 / (l i) ^ 4
   else prod3 l / (l i * l j)) * mu.

(** ogden.hh: a list of pairs (mu, alpha).  Total stretches: lines 103-108, 139-141 and 178-184 *)
Definition ogdenTotalEnergy (terms : list (R * R)) (l : stretches) : R :=
  let logJ := ln (l 0%nat * l 1%nat * l 2%nat) in
  total (fun '(mu, alpha) => mu / alpha * (sum3 (fun i => Rpower (l i) alpha) - 3) - mu * logJ) terms.
Definition ogdenTotalFirst (terms : list (R * R)) (l : stretches) (k : nat) : R :=
  total (fun '(mu, alpha) => mu * (Rpower (l k) alpha - 1) / l k) terms.
Definition ogdenTotalSecond (terms : list (R * R)) (l : stretches) (i j : nat) : R :=
  if Nat.eqb i j then
    total (fun '(mu, alpha) => (-2 * mu * (Rpower (l i) alpha - 1) + mu * Rpower (l i) alpha * alpha) / (l i) ^ 2) terms
  else 0.

(** Deviatoric stretches: lines 99-102, 128-137 *)
Definition ogdenEnergy (terms : list (R * R)) (l : stretches) : R :=
  let lambdaBar := deviatoricStretches l in
  total (fun '(mu, alpha) => mu / alpha * (sum3 (fun i => Rpower (lambdaBar i) alpha) - 3)) terms.
Definition ogdenFirst (terms : list (R * R)) (l : stretches) (k : nat) : R :=
  let lambdaBar := deviatoricStretches l in
  let dWdLambdaBar i := total (fun '(mu, alpha) => mu * Rpower (lambdaBar i) (alpha - 1)) terms in
  let sumLambdaBar := sum3 (fun i => lambdaBar i * dWdLambdaBar i) in
  (lambdaBar k * dWdLambdaBar k - 1 / 3 * sumLambdaBar) / l k.

(** The array lambdaBarPowSum of three entries, written at index p for every material parameter p (lines 160-162) *)
Fixpoint writePowSums (lambdaBar : stretches) (terms : list (R * R)) (p : nat) (a : nat -> R) : option (nat -> R) :=
  match terms with
  | [] => Some a
  | (mu, alpha) :: rest =>
      if Nat.ltb p 3 then
        writePowSums lambdaBar rest (S p) (fun q => if Nat.eqb q p then sum3 (fun i => Rpower (lambdaBar i) alpha) else a q)
      else None
  end.

(** Lines 156-177 *)
Definition ogdenSecond (terms : list (R * R)) (l : stretches) : outcome (nat -> nat -> R) :=
  let lambdaBar := deviatoricStretches l in
  match writePowSums lambdaBar terms 0 (fun _ => 0) with
  | None => OutOfBounds
  | Some powSum =>
      Value (fun a b =>
        let indexed := combine (seq 0 (length terms)) terms in
        let inner :=
          if Nat.eqb a b then
            total (fun '(p, (mu, alpha)) => mu * alpha * (1 / 3 * Rpower (lambdaBar a) alpha + 1 / 9 * powSum p)) indexed
          else
            total (fun '(p, (mu, alpha)) =>
              mu * alpha * (- (1 / 3) * (Rpower (lambdaBar a) alpha + Rpower (lambdaBar b) alpha) + 1 / 9 * powSum p)) indexed in
        let scaled := inner * (1 / (l a * l b)) in
        if Nat.eqb a b then scaled - 2 / l a * ogdenFirst terms l a else scaled)
  end.

(** invariantbased.hh powerAndMultiply, lines 207-215 *)
Definition powerAndMultiply (x : R) (p m : Z) : R :=
  if Z.eqb m 0 then 0 else if Z.eqb p 0 then IZR m else powerRZ x p * IZR m.

(** invariantbased.hh checkExponents (called by the constructor), lines 218-223: true when the constructor does not throw *)
Definition checkExponents (terms : list (R * nat * nat)) : bool :=
  forallb (fun '(_, p, q) => negb (Nat.eqb p 0 && Nat.eqb q 0)) terms.

(** invariantbased.hh: a list of (mu, p, q).  Lines 89-101, 111-130 and 141-171 *)
Definition invariantEnergy (terms : list (R * nat * nat)) (l : stretches) : R :=
  let w1 := W1 l - 3 in let w2 := W2 l - 3 in
  total (fun '(mu, p, q) => mu * w1 ^ p * w2 ^ q) terms.
Definition invariantFirst (terms : list (R * nat * nat)) (l : stretches) (k : nat) : R :=
  let w1 := W1 l - 3 in let w2 := W2 l - 3 in
  total (fun '(mu, p, q) =>
    let W1pm1p := powerAndMultiply w1 (Z.of_nat p - 1) (Z.of_nat p) in
    let W2qm1q := powerAndMultiply w2 (Z.of_nat q - 1) (Z.of_nat q) in
    mu * (W1pm1p * w2 ^ q * dW1 l k + w1 ^ p * W2qm1q * dW2 l k)) terms.
Definition invariantSecond (terms : list (R * nat * nat)) (l : stretches) (i j : nat) : R :=
  let w1 := W1 l - 3 in let w2 := W2 l - 3 in
  total (fun '(mu, p, q) =>
    let W1pm1p := powerAndMultiply w1 (Z.of_nat p - 1) (Z.of_nat p) in
    let W2qm1q := powerAndMultiply w2 (Z.of_nat q - 1) (Z.of_nat q) in
    let W1pm2pp := powerAndMultiply w1 (Z.of_nat p - 2) (Z.of_nat p * (Z.of_nat p - 1)) in
    let W2qm2qq := powerAndMultiply w2 (Z.of_nat q - 2) (Z.of_nat q * (Z.of_nat q - 1)) in
    let dW1W2 := dW1 l i * dW2 l j + dW1 l j * dW2 l i in
    let factor1 := (W2qm1q * dW1W2 + w2 ^ q * ddW1 l i j) * W1pm1p * mu in
    let factor2 := W2qm1q * ddW2 l i j * w1 ^ p * mu in
    let factor3 := W1pm2pp * w2 ^ q * dW1 l i * dW1 l j * mu in
    let factor4 := W2qm2qq * w1 ^ p * dW2 l i * dW2 l j * mu in
    let factor5 := mu * (W1pm1p * w2 ^ q * dW1 l i + w1 ^ p * W2qm1q * dW2 l i) in
    if Nat.eqb i j then factor1 + factor2 + factor3 + factor4 - 1 / l i * factor5
    else factor1 + factor2 + factor3 + factor4) terms.

(** gent.hh checkJm, lines 174-177: true when it throws *)
Definition checkJm (Jm w : R) : bool := floatLe (1 / 10 ^ 14) Jm (w - 3).

(** gent.hh, lines 98-104, 114-126 and 136-157 *)
Definition gentEnergy (mu Jm : R) (l : stretches) : R :=
  - (mu / 2) * Jm * ln (1 - (W1 l - 3) / Jm).
Definition gentFirst (mu Jm : R) (l : stretches) (k : nat) : R :=
  mu * dW1 l k * Jm / (2 * (Jm - W1 l) + 6).
Definition gentSecond (mu Jm : R) (l : stretches) (i j : nat) : R :=
  let factor1 := 1 - (W1 l - 3) / Jm in
  let value := mu / (2 * factor1) * (ddW1 l i j + dW1 l i * dW1 l j / (factor1 * Jm)) in
  if Nat.eqb i j then value - mu / (2 * l i * factor1) * dW1 l i else value.

(** arrudaboyce.hh alphas_, lines 184-185; a term is an index and a coefficient *)
Definition arrudaTerms : list (nat * R) :=
  [(0%nat, 1 / 2); (1%nat, 1 / 20); (2%nat, 11 / 1050); (3%nat, 19 / 7000); (4%nat, 519 / 673750)].

(** arrudaboyce.hh, lines 98-112, 122-138 and 148-170 *)
Definition arrudaEnergy (mu lambdaM : R) (l : stretches) : R :=
  let beta := 1 / lambdaM ^ 2 in
  total (fun '(i, alpha) => alpha * beta ^ i * (W1 l ^ (i + 1) - 3 ^ (i + 1))) arrudaTerms * mu.
Definition arrudaFirst (mu lambdaM : R) (l : stretches) (k : nat) : R :=
  let beta := 1 / lambdaM ^ 2 in
  total (fun '(j, alpha) => mu * alpha * beta ^ j * W1 l ^ j * dW1 l k * INR (j + 1)) arrudaTerms.
Definition arrudaSecond (mu lambdaM : R) (l : stretches) (i j : nat) : R :=
  let beta := 1 / lambdaM ^ 2 in
  total (fun '(p, alpha) =>
    let factor1 := mu * alpha * beta ^ p in
    let factor2 := W1 l ^ p * ddW1 l i j * INR (p + 1) in
    let factor3 := powerRZ (W1 l) (Z.of_nat p - 1) * (dW1 l i * dW1 l j) * INR p * INR (p + 1) in
    if Nat.eqb i j then factor1 * (factor2 + factor3) - dW1 l i / l i * factor1 * W1 l ^ p * INR (p + 1)
    else factor1 * (factor2 + factor3)) arrudaTerms.

(** The deviatoric functions; nodeviatoricfunction.hh lines 57-84 return zero *)
Inductive deviatoricFunction :=
  | NoDev
  | BlatzKo (mu : R)
  | OgdenTotal (terms : list (R * R))
  | OgdenDeviatoric (terms : list (R * R))
  | InvariantBased (terms : list (R * nat * nat))
  | Gent (mu Jm : R)
  | ArrudaBoyce (mu lambdaM : R).

(** storedEnergyImpl of the functions: nodeviatoricfunction.hh 57, blatzko.hh 73, ogden.hh 93, invariantbased.hh 89, gent.hh 98, arrudaboyce.hh 98 *)
Definition energyImpl (f : deviatoricFunction) (l : stretches) : outcome R :=
  match f with
  | NoDev => Value 0
  | BlatzKo mu => Value (blatzKoEnergy mu l)
  | OgdenTotal terms => Value (ogdenTotalEnergy terms l)
  | OgdenDeviatoric terms => Value (ogdenEnergy terms l)
  | InvariantBased terms => Value (invariantEnergy terms l)
  | Gent mu Jm => if checkJm Jm (W1 l) then Throws else Value (gentEnergy mu Jm l)
  | ArrudaBoyce mu lambdaM => Value (arrudaEnergy mu lambdaM l)
  end.

(** firstDerivativeImpl: nodeviatoricfunction.hh 69, blatzko.hh 84, ogden.hh 121, invariantbased.hh 111, gent.hh 114, arrudaboyce.hh 122 *)
Definition firstImpl (f : deviatoricFunction) (l : stretches) : outcome (nat -> R) :=
  match f with
  | NoDev => Value (fun _ => 0)
  | BlatzKo mu => Value (blatzKoFirst mu l)
  | OgdenTotal terms => Value (ogdenTotalFirst terms l)
  | OgdenDeviatoric terms => Value (ogdenFirst terms l)
  | InvariantBased terms => Value (invariantFirst terms l)
  | Gent mu Jm => if checkJm Jm (W1 l) then Throws else Value (gentFirst mu Jm l)
  | ArrudaBoyce mu lambdaM => Value (arrudaFirst mu lambdaM l)
  end.

(** secondDerivativeImpl *)
Definition secondImpl (f : deviatoricFunction) (l : stretches) : outcome (nat -> nat -> R) :=
  match f with
  | NoDev => Value (fun _ _ => 0)
  | BlatzKo mu => Value (blatzKoSecond mu l)
  | OgdenTotal terms => Value (ogdenTotalSecond terms l)
  | OgdenDeviatoric terms => ogdenSecond terms l
  | InvariantBased terms => Value (invariantSecond terms l)
  | Gent mu Jm => if checkJm Jm (W1 l) then Throws else Value (gentSecond mu Jm l)
  | ArrudaBoyce mu lambdaM => Value (arrudaSecond mu lambdaM l)
  end.

(** interface.hh storedEnergy, lines 77-79 *)
Definition devEnergy := energyImpl.

(** interface.hh stresses, lines 88-92 *)
Definition devStresses (f : deviatoricFunction) (l : stretches) : outcome (nat -> R) :=
  match firstImpl f l with
  | Value dW => Value (fun i => dW i / l i)
  | Throws => Throws
  | OutOfBounds => OutOfBounds
  end.

(** interface.hh tangentModuli, lines 102-125: L starts at zero, entries (i,i,k,k) are set first, then (i,k,i,k) *)
Definition devTangent (f : deviatoricFunction) (l : stretches) : outcome (nat -> nat -> nat -> nat -> R) :=
  match devStresses f l, secondImpl f l with
  | Value s, Value dS =>
      let normal i k := 1 / (l i * l k) * dS i k in
      let shear i k :=
        if floatEq (1 / 10 ^ 8) (l i) (l k) then 1 / 2 * (normal i i - normal i k)
        else (s i - s k) / ((l i) ^ 2 - (l k) ^ 2) in
      Value (fun i j k m =>
        if Nat.eqb i j && Nat.eqb k m then normal i k
        else if Nat.eqb i k && Nat.eqb j m then shear i j
        else 0)
  | Throws, _ | _, Throws => Throws
  | _, _ => OutOfBounds
  end.
