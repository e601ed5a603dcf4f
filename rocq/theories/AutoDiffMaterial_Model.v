(** Model of ikarus/experimental/autodiffmat.hh, AutoDiffMAT: a material whose stresses and moduli are computed by automatic differentiation; with the
    parts of materials/interface.hh (187-240) that transform strains and choose the representation.

    Contract: autodiff's gradient, jacobian and hessian are the derivatives (Derive of Coquelicot is the derivative where there is one).  Strains are
    3x3 matrices; the functions of the wrapped material are total here, so a material that aborts has to be used where it does not. *)

From Coq Require Import List Arith Reals Bool.
From Coquelicot Require Import Coquelicot.
From Verif Require Import Tensor_Model SVK_Model Conversions_Model.
Local Open Scope R_scope.

(** What a material implements: strainTag, derivativeFactorImpl, storedEnergyImpl, stressesImpl<false>, tangentModuliImpl<false> *)
Record material := mkMaterial {
  m_tag : strainTag; m_factor : R;
  m_energy : rmat -> R; m_stress : rmat -> rmat; m_moduli : rmat -> rtensor4 }.

Section AutoDiffMaterial.
Variable msqrt : rmat -> rmat.

(** interface.hh 190-191, 214-215, 234-235 *)
Definition transformed (m : material) (tag : strainTag) (x : tensor2) : option rmat := transformStrain3 msqrt tag (m_tag m) x.
(** 189-200 *)
Definition storedEnergy (m : material) (tag : strainTag) (x : tensor2) : option R := option_map (m_energy m) (transformed m tag x).
(** 213-221, result in Voigt notation *)
Definition stresses (m : material) (tag : strainTag) (x : tensor2) : option (nat -> R) :=
  match transformed m tag x with Some E => readVec 6 (Tensor_Model.toVoigt 3 (m_stress m E) false) | None => None end.
(** 233-241; an entry that is not written would be None *)
Definition tangentModuli (m : material) (tag : strainTag) (x : tensor2) : option (nat -> nat -> option R) :=
  option_map (fun E => toVoigtTensor (m_moduli m E)) (transformed m tag x).

(** autodiff: derivatives with respect to the six components *)
Definition unit (i k : nat) : R := if (k =? i)%nat then 1 else 0.
Definition moved (x : nat -> R) (i : nat) (t : R) : nat -> R := fun k => x k + t * unit i k.
Definition gradient (f : (nat -> R) -> R) (x : nat -> R) (i : nat) : R := Derive (fun t => f (moved x i t)) 0.
Definition jacobian (f : (nat -> R) -> nat -> R) (x : nat -> R) (i j : nat) : R := Derive (fun t => f (moved x j t) i) 0.
Definition hessian (f : (nat -> R) -> R) (x : nat -> R) (i j : nat) : R := Derive (fun t => gradient f (moved x j t) i) 0.

Definition orZero {A} (zero : A) (x : option A) : A := match x with Some a => a | None => zero end.

(** dx = toVoigt(E), 107, 140, 155: strain-like, the shear components are doubled *)
Definition start (E : rmat) : option (nat -> R) := readVec 6 (Tensor_Model.toVoigt 3 E true).

Variables forceAutoDiffV forceAutoDiffS : bool.

(** autodiffmat.hh 97-121; all materials here implement everything, so the branches are chosen by the two flags.  None: does not compile *)
Definition adStresses (m : material) (tag : strainTag) (E : rmat) : option (nat -> R) :=
  if negb (forceAutoDiffV || forceAutoDiffS) then stresses m tag (Matrix33 E)
  else
    match storedEnergy m tag (Matrix33 E), start E with
    | Some _, Some dx =>
      let f x := orZero 0 (storedEnergy m tag (Vector6 x)) in
      Some (fun i => m_factor m * gradient f dx i)
    | _, _ => None
    end.

(** 130-173 *)
Definition adTangentModuli (m : material) (tag : strainTag) (E : rmat) : option (nat -> nat -> option R) :=
  if negb (forceAutoDiffV || forceAutoDiffS) then tangentModuli m tag (Matrix33 E)
  else
    match storedEnergy m tag (Matrix33 E), start E with
    | Some _, Some dx =>
      if forceAutoDiffV && negb forceAutoDiffS then
        let f x := orZero (fun _ => 0) (stresses m tag (Vector6 x)) in
        Some (fun i j => Some (m_factor m * jacobian f dx i j))
      else
        let f x := orZero 0 (storedEnergy m tag (Vector6 x)) in
        Some (fun i j => Some (m_factor m * m_factor m * hessian f dx i j))
    | _, _ => None
    end.
End AutoDiffMaterial.
