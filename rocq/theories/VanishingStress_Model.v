(** Model of ikarus/finiteelements/mechanics/materials/vanishingstress.hh and vanishingstrain.hh over the real numbers.

    The wrapped material is given by its stress in Voigt notation and its tangent in Voigt notation as functions of the strain
    matrix (with its own strain tag).  Simplification: the scalar type is not an automatic differentiation type (minIter = 0). *)

From Coq Require Import List Arith ZArith Reals Bool.
From Verif Require Import Tensor_Model LinearAlgebra_Model Newton_Model SVK_Model.
Import ListNotations.
Local Open Scope R_scope.

Definition rgt (a b : R) : bool := if Rlt_dec b a then true else false.

(** E(i,j) = x *)
Definition setE (E : rmat) (i j : nat) (x : R) : rmat := fun a b => if ((a =? i) && (b =? j))%nat then x else E a b.

Section VanishingStress.
Variable stress : rmat -> nat -> R.           (** stresses<strainTag, true> *)
Variable moduli : rmat -> rmat.               (** tangentModuli<strainTag, true> *)
Variable factor : R.                          (** derivativeFactor *)
Variable unitStart : bool.                    (** the strain tag is deformationGradient or rightCauchyGreenTensor *)
Variable inverse : nat -> rmat -> rmat.       (** Eigen's inverse() of an n x n matrix *)
Variable fixed : list (nat * nat).            (** fixedPairs *)
Variable fx : list nat.                       (** fixedVoigtIndices, see LinearAlgebra_Model.createFixedVoigtIndices *)
Variable tol : R.

(** vanishingstress.hh 167-179; FloatCmp::eq(x, 0) holds only for x = 0 *)
Definition initialValue (E : rmat) (p : nat * nat) : R :=
  let (r, c) := p in
  if (r =? c)%nat then (if unitStart then (if Req_EM_T (E r c) 0 then 1 else E r c) else E r c) else 0.
Definition initUnknownStrains (E : rmat) : rmat :=
  fold_left (fun E p => setE (setE E (snd p) (fst p) (initialValue E p)) (fst p) (snd p) (initialValue E p)) fixed E.

(** 192-197 *)
Definition isDiagonalIndex (i : nat) : bool :=
  match fromVoigtIndex 3 i with Some (a, b) => (a =? b)%nat | None => false end.
Definition fixedDiagonal : list nat := filter isDiagonalIndex fx.

(** 199-207, by position *)
Definition residualOf (E : rmat) (a : nat) : R := stress E (nth a fixedDiagonal 0%nat).
Definition jacobianOf (E : rmat) : rmat :=
  fun a b => moduli E (nth a fixedDiagonal 0%nat) (nth b fixedDiagonal 0%nat) / factor.

Definition normOf (r : nat -> R) : R := sqrt (sumL (seq 0 (length fixedDiagonal)) (fun a => r a * r a)).

(** 213, with the sign of the Newton correction *)
Definition correctionOf (A : rmat) (r : nat -> R) (a : nat) : R :=
  - sumL (seq 0 (length fixedDiagonal)) (fun b => inverse (length fixedDiagonal) A a b * r b).

(** 214-219 *)
Fixpoint updateFrom (idx : list nat) (ri : nat) (c : nat -> R) (E : rmat) : rmat :=
  match idx with
  | [] => E
  | i :: idx =>
    updateFrom idx (Datatypes.S ri) c
      (match fromVoigtIndex 3 i with Some (a, b) => setE E a b (E a b + c ri) | None => E end)
  end.
Definition updateOf (E : rmat) (c : nat -> R) : rmat := updateFrom fixedDiagonal 0 c E.

(** 187-232; None: Dune::MathError.  No listeners are registered. *)
Definition reduceStress (E : rmat) : option rmat :=
  match nrSolve (W := unit) rgt 0 (fun _ => residualOf) (fun _ => jacobianOf) normOf normOf correctionOf updateOf None
                (fun _ _ _ _ w => w) (mkNRSettings tol 100 0) (initUnknownStrains E) (fun _ => 0) tt with
  | Some s => if i_success (s_info s) then Some (s_d s) else None
  | None => None
  end.

(** 99-108 *)
Definition vsStressesVoigt (E : rmat) : option (nat * (nat -> R)) :=
  match reduceStress E with Some E' => removeCol 6 (stress E') fx | None => None end.
(** 117-125 *)
Definition vsModuliVoigt (E : rmat) : option (nat * rmat) :=
  match reduceStress E with
  | Some E' => staticCondensation 6 (moduli E') fx (inverse (length fx) (positions fx (moduli E')))
  | None => None
  end.
(** 84-90 *)
Definition vsStoredEnergy (energy : rmat -> R) (E : rmat) : option R :=
  match reduceStress E with Some E' => Some (energy E') | None => None end.
End VanishingStress.

(** planeStress, shellMaterial, beamMaterial, 258-292 *)
Definition planeStressPairs : list (nat * nat) := [(2, 1); (2, 0); (2, 2)]%nat.
Definition planeStressIndices : list nat := [2; 3; 4]%nat.
Definition shellPairs : list (nat * nat) := [(2, 2)]%nat.
Definition shellIndices : list nat := [2]%nat.
Definition beamPairs : list (nat * nat) := [(1, 1); (2, 2)]%nat.
Definition beamIndices : list nat := [1; 2]%nat.

(** ** vanishingstrain.hh, strain tags linear and greenLagrangian *)
Section VanishingStrain.
Variable fixed : list (nat * nat).
(** 162-168 *)
Definition setStrainsToZero (E : rmat) : rmat :=
  fold_left (fun E p => setE (setE E (fst p) (snd p) 0) (snd p) (fst p) 0) fixed E.
(** 80-83: stored energy; 92-102 stresses; 112-120 tangent, voigt = true *)
Definition vsnEnergy (energy : rmat -> R) (E : rmat) : R := energy (setStrainsToZero E).
Definition vsnStressesVoigt (stress : rmat -> nat -> R) (fx : list nat) (E : rmat) : option (nat * (nat -> R)) :=
  removeCol 6 (stress (setStrainsToZero E)) fx.
Definition vsnModuliVoigt (moduli : rmat -> rmat) (fx : list nat) (E : rmat) : option (nat * rmat) :=
  reduceMatrix 6 (moduli (setStrainsToZero E)) fx.
End VanishingStrain.
