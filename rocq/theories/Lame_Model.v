(** Model of ikarus/finiteelements/physicshelper.hh (ConvertLameConstants, lines 78-244, and the two helpers, lines 276-298) over the
    real numbers.  A conversion that returns infinity is an outcome of its own. *)

From Coq Require Import Reals.
From Verif Require Import Deviatoric_Model.
Local Open Scope R_scope.

(** The pairs of material parameters, lines 20-58 *)
Inductive valuePair :=
  | YoungsModulusAndPoissonsRatio (E nu : R)
  | YoungsModulusAndShearModulus (E mu : R)
  | YoungsModulusAndBulkModulus (E K : R)
  | YoungsModulusAndLamesFirstParameter (E lambda : R)
  | BulkModulusAndLamesFirstParameter (K lambda : R)
  | LamesFirstParameterAndShearModulus (lambda mu : R).

Inductive extended := Finite (x : R) | Infinity.

(** Dune::FloatCmp::eq of two doubles: relative tolerance of eight machine epsilons *)
Definition sameDouble (a b : R) : bool := floatEq (8 * / 2 ^ 52) a b.

(** calcR, lines 238-242 *)
Definition calcR (E lambda : R) : R := sqrt (E * E + 9 * lambda * lambda + 2 * E * lambda).

(** toLamesFirstParameter, lines 80-98 *)
Definition toLamesFirstParameter (vp : valuePair) : extended :=
  match vp with
  | YoungsModulusAndPoissonsRatio E nu => if sameDouble nu (1 / 2) then Infinity else Finite (E * nu / ((1 + nu) * (1 - 2 * nu)))
  | YoungsModulusAndShearModulus E mu => Finite (mu * (E - 2 * mu) / (3 * mu - E))
  | YoungsModulusAndBulkModulus E K => Finite (3 * K * (3 * K - E) / (9 * K - E))
  | YoungsModulusAndLamesFirstParameter _ lambda => Finite lambda
  | BulkModulusAndLamesFirstParameter _ lambda => Finite lambda
  | LamesFirstParameterAndShearModulus lambda _ => Finite lambda
  end.

(** toBulkModulus, lines 100-121 *)
Definition toBulkModulus (vp : valuePair) : R :=
  match vp with
  | YoungsModulusAndPoissonsRatio E nu => E / (3 * (1 - 2 * nu))
  | YoungsModulusAndShearModulus E mu => E * mu / (3 * (3 * mu - E))
  | YoungsModulusAndBulkModulus _ K => K
  | YoungsModulusAndLamesFirstParameter E lambda => (E + 3 * lambda + calcR E lambda) / 6
  | BulkModulusAndLamesFirstParameter K _ => K
  | LamesFirstParameterAndShearModulus lambda mu => lambda + 2 * mu / 3
  end.

(** toShearModulus, lines 123-144 *)
Definition toShearModulus (vp : valuePair) : R :=
  match vp with
  | YoungsModulusAndPoissonsRatio E nu => E / (2 * (1 + nu))
  | YoungsModulusAndShearModulus _ mu => mu
  | YoungsModulusAndBulkModulus E K => 3 * K * E / (9 * K - E)
  | YoungsModulusAndLamesFirstParameter E lambda => (E - 3 * lambda + calcR E lambda) / 4
  | BulkModulusAndLamesFirstParameter K lambda => 3 * (K - lambda) / 2
  | LamesFirstParameterAndShearModulus _ mu => mu
  end.

(** toPWaveModulus, lines 146-173 *)
Definition toPWaveModulus (vp : valuePair) : R :=
  match vp with
  | YoungsModulusAndPoissonsRatio E nu => E * (1 - nu) / ((1 + nu) * (1 - 2 * nu))
  | YoungsModulusAndShearModulus E mu => mu * (4 * mu - E) / (3 * mu - E)
  | YoungsModulusAndBulkModulus E K => 3 * K * (3 * K + E) / (9 * K - E)
  | YoungsModulusAndLamesFirstParameter E lambda => (E - lambda + calcR E lambda) / 2
  | BulkModulusAndLamesFirstParameter K lambda => 3 * K - 2 * lambda
  | LamesFirstParameterAndShearModulus lambda mu => lambda + 2 * mu
  end.

(** toPoissonsRatio, lines 175-200 *)
Definition toPoissonsRatio (vp : valuePair) : R :=
  match vp with
  | YoungsModulusAndPoissonsRatio _ nu => nu
  | YoungsModulusAndShearModulus E mu => E / (2 * mu) - 1
  | YoungsModulusAndBulkModulus E K => (3 * K - E) / (6 * K)
  | YoungsModulusAndLamesFirstParameter E lambda => 2 * lambda / (E + lambda + calcR E lambda)
  | BulkModulusAndLamesFirstParameter K lambda => lambda / (3 * K - lambda)
  | LamesFirstParameterAndShearModulus lambda mu => lambda / (2 * (lambda + mu))
  end.

(** toYoungsModulus, lines 202-213 *)
Definition toYoungsModulus (vp : valuePair) : R :=
  match vp with
  | YoungsModulusAndPoissonsRatio E _ => E
  | YoungsModulusAndShearModulus E _ => E
  | YoungsModulusAndBulkModulus E _ => E
  | YoungsModulusAndLamesFirstParameter E _ => E
  | BulkModulusAndLamesFirstParameter K lambda => 9 * K * (K - lambda) / (3 * K - lambda)
  | LamesFirstParameterAndShearModulus lambda mu => mu * (3 * lambda + 2 * mu) / (lambda + mu)
  end.

(** toLamesFirstParameterAndShearModulus, lines 276-281 *)
Definition toLamesFirstParameterAndShearModulus (E nu : R) : extended * R :=
  (toLamesFirstParameter (YoungsModulusAndPoissonsRatio E nu), toShearModulus (YoungsModulusAndPoissonsRatio E nu)).

(** toYoungsModulusAndPoissonsRatio, lines 289-294 *)
Definition toYoungsModulusAndPoissonsRatio (lambda mu : R) : R * R :=
  (toYoungsModulus (LamesFirstParameterAndShearModulus lambda mu), toPoissonsRatio (LamesFirstParameterAndShearModulus lambda mu)).
