(** Specification of the results of an element: one solid, truss or shell skill, possibly one enhancement that replaces its results, and loads. *)

From Coq Require Import List Arith Bool String Permutation.
From Verif Require Import ResultDispatch_Model.
Import ListNotations.

Definition isLoad (s : skill) : Prop := s = volumeLoad \/ s = neumannBoundaryLoad.
Definition isBase (s : skill) : Prop :=
  s = linearElastic \/ s = nonLinearElastic \/ s = displacementPressure \/ s = truss \/ s = kirchhoffLoveShell.
(** An enhancement and the solid it belongs to *)
Definition fits (b e : skill) : Prop :=
  (b = linearElastic /\ (e = enhanced true \/ e = assumed true)) \/ (b = nonLinearElastic /\ (e = enhanced false \/ e = assumed false)).

(** The element has the skill [b], and loads, in any order *)
Definition plainElement (b : skill) (fe : element) : Prop :=
  exists loads, Permutation (skills fe) (b :: loads) /\ isBase b /\ Forall isLoad loads.
(** The element has the solid skill [b] with the enhancement [e], and loads, in any order *)
Definition mixedElement (b e : skill) (fe : element) : Prop :=
  exists loads, Permutation (skills fe) (b :: e :: loads) /\ fits b e /\ Forall isLoad loads.

(** The result types a user of the element may ask for *)
Definition resultsOf (b : skill) : list resultType :=
  match b with
  | linearElastic => [linearStress; linearStressFull]
  | nonLinearElastic | displacementPressure => [PK2Stress; PK2StressFull; kirchhoffStress; cauchyStress]
  | truss => [cauchyAxialForce; PK2AxialForce; linearAxialForce]
  | _ => []
  end.
