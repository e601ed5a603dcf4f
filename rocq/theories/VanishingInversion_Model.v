(** Model of the material inversion of materials with vanishing stress components: ikarus/finiteelements/mechanics/materials/vanishingstress.hh
    lines 144-158 over the real numbers.

    The wrapped material enters by its own inversion (materialInversion<strainTag, true>, see SVK_Model.materialInversion,
    NeoHooke_Model.nhMaterialInversion and NumericalInversion_Model).  The strain is returned in the strain measure of the material; the
    conversions of interface.hh 264-285 to other strain measures are modelled in Conversions_Model. *)

From Coq Require Import List Arith Reals Bool.
From Verif Require Import Tensor_Model LinearAlgebra_Model.
Local Open Scope R_scope.

(** 147-149: the given 2x2 stress is the upper left block of a 3x3 stress, the rest is zero *)
Definition enlargeStress (S : rmat) : rmat := fun i j => if ((i <? 2) && (j <? 2))%nat then S i j else 0.

(** 151-157: the moduli without the rows and columns of the fixed components, the strain without its fixed components.  None: the wrapped
    material throws *)
Definition vsMaterialInversion (inversion : rmat -> option (rmat * (nat -> R))) (fx : list nat) (S : rmat)
  : option ((nat * rmat) * (nat * (nat -> R))) :=
  match inversion (enlargeStress S) with
  | None => None
  | Some (D, E) =>
    match reduceMatrix 6 D fx, removeCol 6 E fx with Some Dred, Some Ered => Some (Dred, Ered) | _, _ => None end
  end.
