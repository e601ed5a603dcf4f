(** Model of ikarus/finiteelements/mechanics/kirchhoffloveshell.hh and membranestrains.hh over the real numbers.
    The element-local vector of displacements has the entries (node * 3 + direction). At an integration point the geometry gives the
    Jacobian J (2x3), the second derivatives H of the position (rows 11, 22, 12) and the second fundamental form; the basis gives the
    first derivatives dN and the second derivatives ddN (11, 22, 12) of the shape functions.
    Affordances other than the potential energy, forces and stiffness make the functions throw Dune::NotImplemented. *)

From Coq Require Import Reals Arith Bool List.
From Verif Require Import Tensor_Spec Tensor_Model Element_Model.
Import ListNotations.
Local Open Scope R_scope.

(** Eigen: cross, squaredNorm, norm, normalized (a zero vector is returned as it is) *)
Definition cross (x y : nat -> R) (k : nat) : R :=
  match k with
  | 0 => x 1%nat * y 2%nat - x 2%nat * y 1%nat
  | 1 => x 2%nat * y 0%nat - x 0%nat * y 2%nat
  | _ => x 0%nat * y 1%nat - x 1%nat * y 0%nat
  end.
Definition squaredNorm (x : nat -> R) : R := dot 3 x x.
Definition norm3 (x : nat -> R) : R := sqrt (squaredNorm x).
Definition normalized (x : nat -> R) (k : nat) : R := if Rlt_dec 0 (squaredNorm x) then x k / norm3 x else x k.

(** skew, utils/linearalgebrahelper.hh 486-490 *)
Definition skew3 (a : nat -> R) (i j : nat) : R :=
  match i, j with
  | 0, 1 => - a 2%nat | 0, 2 => a 1%nat
  | 1, 0 => a 2%nat   | 1, 2 => - a 0%nat
  | 2, 0 => - a 1%nat | 2, 1 => a 0%nat
  | _, _ => 0
  end.

(** materialTangent, 410-423: Aconv is the inverse metric *)
Definition shellTangent (emodul nu : R) (Aconv : nat -> nat -> R) (k l : nat) : R :=
  let lambda := emodul * nu / ((1 + nu) * (1 - 2 * nu)) in
  let mu := emodul / (2 * (1 + nu)) in
  let lambdbar := 2 * lambda * mu / (lambda + 2 * mu) in
  let moduli := fun i j k l => lambdbar * dyadic Aconv Aconv i j k l + 2 * mu * symmetricFourthOrder Aconv Aconv i j k l in
  let C := toVoigtTensor moduli in
  let index m := nth m [0; 1; 5]%nat 0%nat in
  match C (index k) (index l) with Some x => x | None => 0 end.

Section Shell.
  Variables (numberOfNodes : nat) (points : list point).
  Variables (emodul nu thickness : R).
  Variable J : point -> nat -> nat -> R.            (* direction of the surface, component *)
  Variable H : point -> nat -> nat -> R.
  Variable secondFundamentalForm : point -> nat -> nat -> R.
  Variables dN ddN : point -> nat -> nat -> R.      (* node, direction *)
  Variable inverse : (nat -> nat -> R) -> nat -> nat -> R.     (* of a 3x3 matrix *)

  Section Point.
    Variables (gp : point) (u : nat -> R).

    (** computeMaterialAndStrains, 196-230 *)
    Definition metric (a b : nat) : R := sum 3 (fun k => J gp a k * J gp b k).
    Definition fullMetric (a b : nat) : R :=
      match a, b with 2%nat, 2%nat => 1 | 2%nat, _ => 0 | _, 2%nat => 0 | _, _ => metric a b end.
    Definition pointTangent : nat -> nat -> R := shellTangent emodul nu (inverse fullMetric).
    Definition gradu (k a : nat) : R := sum numberOfNodes (fun i => u (3 * i + k)%nat * dN gp i a).
    Definition hessianu (m k : nat) : R := sum numberOfNodes (fun i => ddN gp i m * u (3 * i + k)%nat).
    Definition jcur (a k : nat) : R := J gp a k + gradu k a.
    Definition hcur (m k : nat) : R := H gp m k + hessianu m k.
    Definition a3N : nat -> R := cross (jcur 0) (jcur 1).
    Definition a3 : nat -> R := normalized a3N.
    Definition bV (m : nat) : R := let b := sum 3 (fun k => hcur m k * a3 k) in if (m =? 2)%nat then b * 2 else b.
    Definition BV (m : nat) : R :=
      match m with 0 => secondFundamentalForm gp 0%nat 0%nat | 1 => secondFundamentalForm gp 1%nat 1%nat
                 | _ => secondFundamentalForm gp 0%nat 1%nat * 2 end.
    Definition kappaV (m : nat) : R := BV m - bV m.

    (** membranestrains.hh: value 29-45 *)
    Definition epsV (m : nat) : R :=
      match m with
      | 0 => dot 3 (J gp 0%nat) (fun k => gradu k 0) + 1 / 2 * dot 3 (fun k => gradu k 0) (fun k => gradu k 0)
      | 1 => dot 3 (J gp 1%nat) (fun k => gradu k 1) + 1 / 2 * dot 3 (fun k => gradu k 1) (fun k => gradu k 1)
      | _ => dot 3 (jcur 0) (jcur 1) - dot 3 (J gp 0%nat) (J gp 1%nat)
      end.
    (** derivative 63-73 *)
    Definition bopMembrane (i m k : nat) : R :=
      match m with
      | 0 => jcur 0 k * dN gp i 0%nat
      | 1 => jcur 1 k * dN gp i 1%nat
      | _ => jcur 0 k * dN gp i 1%nat + jcur 1 k * dN gp i 0%nat
      end.
    (** secondDerivative 94-105 *)
    Definition kgMembrane (S : nat -> R) (i j a b : nat) : R :=
      let NS := dN gp i 0%nat * dN gp j 0%nat * S 0%nat + dN gp i 1%nat * dN gp j 1%nat * S 1%nat +
                (dN gp i 0%nat * dN gp j 1%nat + dN gp i 1%nat * dN gp j 0%nat) * S 2%nat in
      identity a b * NS.

    (** a1dxI.colwise().cross(a2) - a2dxI.colwise().cross(a1): the derivative of the normal with respect to node i *)
    Definition a3Nd (i r c : nat) : R :=
      cross (fun k => identity k c * dN gp i 0%nat) (jcur 1) r - cross (fun k => identity k c * dN gp i 1%nat) (jcur 0) r.
    Definition projector (r c : nat) : R := 1 / norm3 a3N * (identity r c - a3 r * a3 c).
    Definition a3d (i r c : nat) : R := sum 3 (fun k => projector r k * a3Nd i k c).

    (** bopBending 383-402 *)
    Definition bopBending (i m k : nat) : R :=
      let b := - (sum 3 (fun l => hcur m l * a3d i l k) + a3 k * ddN gp i m) in if (m =? 2)%nat then b * 2 else b.

    (** kgBending 337-380 *)
    Definition a3Ndd (al : nat -> R) (r c : nat) : R :=
      1 / squaredNorm a3N * ((3 * a3 r * a3 c - identity r c) * dot 3 a3 al - al r * a3 c - a3 r * al c).
    Definition kgBending (S : nat -> R) (i j a b : nat) : R :=
      loop 3 (fun m kg =>
        let al := hcur m in
        let vecd r := sum 3 (fun c => projector r c * al c) in
        let second := skew3 (fun r => (dN gp i 1%nat * dN gp j 0%nat - dN gp i 0%nat * dN gp j 1%nat) * vecd r) in
        kg - (sum 3 (fun r => sum 3 (fun c => a3Nd i r a * a3Ndd al r c * a3Nd j c b)) + second a b +
              (ddN gp i m * a3d j a b + ddN gp j m * a3d i b a)) * S m * (if (m =? 2)%nat then 2 else 1)) 0.
  End Point.

  (** calculateScalarImpl 311-334 *)
  Definition shellScalar (u : nat -> R) : R :=
    fold_left (fun energy gp =>
      let C := pointTangent gp in
      let membraneEnergy := 1 / 2 * thickness * dot 3 (epsV gp u) (apply 3 C (epsV gp u)) in
      let bendingEnergy := 1 / 2 * (thickness ^ 3) / 12 * dot 3 (kappaV gp u) (apply 3 C (kappaV gp u)) in
      energy + (membraneEnergy + bendingEnergy) * integrationElement gp * weight gp) points 0.

  (** calculateVectorImpl 278-308 *)
  Definition membraneForces (gp : point) (u : nat -> R) (m : nat) : R := thickness * apply 3 (pointTangent gp) (epsV gp u) m.
  Definition moments (gp : point) (u : nat -> R) (m : nat) : R := thickness ^ 3 / 12 * apply 3 (pointTangent gp) (kappaV gp u) m.
  Definition shellVector (u force : nat -> R) : nat -> R :=
    fold_left (fun force gp =>
      loop numberOfNodes (fun i force =>
        addSegment 3 i (fun k => sum 3 (fun m => bopBending gp u i m k * moments gp u m) * integrationElement gp * weight gp)
          (addSegment 3 i (fun k => sum 3 (fun m => bopMembrane gp u i m k * membraneForces gp u m) * integrationElement gp * weight gp) force))
        force) points force.

  (** calculateMatrixImpl 233-275; j runs from i; the last line copies the upper triangle to the lower one *)
  Definition mirror (K : nat -> nat -> R) (k l : nat) : R := if (l <? k)%nat then K l k else K k l.
  Definition shellMatrix (u : nat -> R) (K : nat -> nat -> R) : nat -> nat -> R :=
    mirror (fold_left (fun K gp =>
      let intElement := integrationElement gp * weight gp in
      let C := pointTangent gp in
      loop numberOfNodes (fun i K => loop numberOfNodes (fun j K =>
        if (j <? i)%nat then K else
        let K := addBlock 3 i j (fun a b => thickness * sum 3 (fun m => sum 3 (fun l => bopMembrane gp u i m a * C m l * bopMembrane gp u j l b)) * intElement) K in
        let K := addBlock 3 i j (fun a b => thickness ^ 3 / 12 * sum 3 (fun m => sum 3 (fun l => bopBending gp u i m a * C m l * bopBending gp u j l b)) * intElement) K in
        let K := addBlock 3 i j (fun a b => kgMembrane gp (membraneForces gp u) i j a b * intElement) K in
        addBlock 3 i j (fun a b => kgBending gp u (moments gp u) i j a b * intElement) K) K) K) points K).
End Shell.
