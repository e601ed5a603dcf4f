(** Model of ikarus/finiteelements/mechanics/materials/numericalmaterialinversion.hh lines 33-70 over the real numbers.
    The material enters by its stresses in Voigt notation and by the inverse that Eigen computes of its tangent moduli. n is the
    number of Voigt components. The final conversion of the strain to the strain measure of the material is left out. maxIter is
    not negative. *)

From Coq Require Import Reals Arith Bool.
From Verif Require Import Tensor_Spec Deviatoric_Model.
Local Open Scope R_scope.

Inductive inversionOutcome := Inverted (D : nat -> nat -> R) (Es : nat -> R) | MathError.

Definition norm (n : nat) (v : nat -> R) : R := sqrt (sum n (fun k => v k * v k)).

Section Inversion.
  Variables (n : nat) (stresses : (nat -> R) -> nat -> R) (inverseModuli : (nat -> R) -> nat -> nat -> R).
  Variables (Svoigt : nat -> R) (tol : R) (maxIter : nat).

  (** The loop of lines 54-68: todo iterations are left, i of them are done *)
  Fixpoint inversionLoop (todo i : nat) (Es : nat -> R) (D : nat -> nat -> R) : inversionOutcome :=
    match todo with
    | O => Inverted D Es
    | S todo =>
      let r k := Svoigt k - stresses Es k in
      if rltb (norm n r) tol && (0 <? i)%nat then Inverted D Es
      else if (i =? maxIter)%nat then MathError
      else let D := inverseModuli Es in inversionLoop todo (S i) (fun k => Es k + apply n D r k) D
    end.

  Definition numericalMaterialInversion (Estart : nat -> R) : inversionOutcome := inversionLoop maxIter 0 Estart (fun _ _ => 0).
End Inversion.
