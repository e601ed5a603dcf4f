(** Model of ikarus/finiteelements/autodifffe.hh, AutoDiffFE: an element with derivatives computed by automatic differentiation.

    Displacements and vectors are functions of the local dof; the calculate...Impl functions of the wrapped element take the increment [dx] that is
    added to the displacements (by value, or as dual numbers), and add their result to the given vector or matrix.  Contract: the functions of the
    autodiff library return exact derivatives and overwrite their results.  calculateLocalSystem does not compile (hessian is called without the
    value, 232) and is left out. *)

From Coq Require Import Reals.
Local Open Scope R_scope.

Definition vec := nat -> R.
Definition mat := nat -> nat -> R.

(** What the element implements; the vector and matrix functions are the contributions added *)
Record element := mkElement {
  scalarImpl : option (vec -> R);
  vectorImpl : option (vec -> vec);
  matrixImpl : option (vec -> mat) }.

Definition zero : vec := fun _ => 0.

Section AutoDiff.
(** autodiff::gradient, jacobian, hessian at a point *)
Variable gradient : (vec -> R) -> vec -> vec.
Variable jacobian : (vec -> vec) -> vec -> mat.
Variable hessian : (vec -> R) -> vec -> mat.

(** calculateMatrix, 133-179.  [None]: static assertion *)
Definition calculateMatrix (force : bool) (fe : element) (h : mat) : option mat :=
  match matrixImpl fe, force with
  | Some k, false => Some (fun i j => h i j + k zero i j)
  | _, _ =>
    match vectorImpl fe with
    | Some g =>
      (* 152-160: g is set to zero before each evaluation *)
      let f := fun (x : vec) => (fun i => 0 + g x i) in
      Some (jacobian f zero)
    | None => match scalarImpl fe with Some e => Some (hessian e zero) | None => None end
    end
  end.

(** calculateVector, 181-209 *)
Definition calculateVector (force : bool) (fe : element) (g : vec) : option vec :=
  match vectorImpl fe, force with
  | Some f, false => Some (fun i => g i + f zero i)
  | _, _ => match scalarImpl fe with Some e => Some (gradient e zero) | None => None end
  end.

(** calculateScalar, 211-224 *)
Definition calculateScalar (fe : element) : option R := match scalarImpl fe with Some e => Some (e zero) | None => None end.
End AutoDiff.
