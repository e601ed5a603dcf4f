(** Model of ikarus/finiteelements/mechanics/truss.hh over the real numbers, for a space of any dimension d.
    The element-local displacement vector has the entries (node * d + direction), as in fehelper.hh lines 27-46; X1 and X2 are the
    corners of the element. *)

From Coq Require Import Reals Arith Bool.
From Verif Require Import Tensor_Spec.
Local Open Scope R_scope.

(** KinematicVariables, lines 71-80 *)
Record kinematics := {
  refLength : R; length_ : R; Elin : R; Egl : R; dEdu : nat -> R; ddEddu : nat -> nat -> R }.

(** computeStrain, lines 115-157 *)
Definition computeStrain (d : nat) (X1 X2 u : nat -> R) : kinematics :=
  let A1 k := X2 k - X1 k in
  let ud1 k := u (d + k)%nat - u k in
  let x1 k := X1 k + u k in
  let x2 k := X2 k + u (d + k)%nat in
  let Lsquared := sum d (fun k => A1 k * A1 k) in
  let lsquared := sum d (fun k => (x2 k - x1 k) * (x2 k - x1 k)) in
  let L := sqrt Lsquared in
  let l := sqrt lsquared in
  {| refLength := L;
     length_ := l;
     Elin := (l - L) / L;
     Egl := 1 / 2 * (lsquared - Lsquared) / Lsquared;
     dEdu := fun k => (if (k <? d)%nat then - A1 k - ud1 k else A1 (k - d)%nat + ud1 (k - d)%nat) / Lsquared;
     ddEddu := fun i j =>
       (if (i <? d)%nat && negb (j <? d)%nat then - (if (i =? j - d)%nat then 1 else 0)
        else if negb (i <? d)%nat && (j <? d)%nat then - (if (i - d =? j)%nat then 1 else 0)
        else if (i =? j)%nat then 1 else 0) / Lsquared |}.

(** calculateScalarImpl, lines 207-213 *)
Definition trussEnergy (d : nat) (E A : R) (X1 X2 u : nat -> R) : R :=
  let kin := computeStrain d X1 X2 u in
  1 / 2 * E * A * refLength kin * Egl kin * Egl kin.

(** calculateVectorImpl, lines 215-221: adds to the given force *)
Definition trussForce (d : nat) (E A : R) (X1 X2 u : nat -> R) (force : nat -> R) (k : nat) : R :=
  let kin := computeStrain d X1 X2 u in
  force k + E * A * Egl kin * refLength kin * dEdu kin k.

(** calculateMatrixImpl, lines 199-205: adds to the given matrix *)
Definition trussMatrix (d : nat) (E A : R) (X1 X2 u : nat -> R) (K : nat -> nat -> R) (i j : nat) : R :=
  let kin := computeStrain d X1 X2 u in
  K i j + E * A * refLength kin * (dEdu kin i * dEdu kin j + ddEddu kin i j * Egl kin).

(** calculateAtImpl, lines 170-188 *)
Inductive axialForce := cauchyAxialForce | PK2AxialForce | linearAxialForce.
Definition trussResult (d : nat) (E A : R) (X1 X2 u : nat -> R) (r : axialForce) : R :=
  let kin := computeStrain d X1 X2 u in
  match r with
  | cauchyAxialForce => E * A * Egl kin * length_ kin / refLength kin
  | PK2AxialForce => E * A * Egl kin
  | linearAxialForce => E * A * Elin kin
  end.
