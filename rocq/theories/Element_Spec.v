(** Specification of consistent linearisation: derivatives of functions of a vector. *)

From Coq Require Import Reals Arith List.
From Coquelicot Require Import Coquelicot.
From Verif Require Import Tensor_Spec.
Local Open Scope R_scope.

(** The curve c of vectors with n entries is at time 0 at x and has there the velocity v *)
Definition passes (n : nat) (c : R -> nat -> R) (x v : nat -> R) : Prop :=
  forall k, (k < n)%nat -> c 0 k = x k /\ is_derive (fun t => c t k) 0 (v k).

(** g is the gradient of f at x: along every curve through x the function changes with the rate g . v *)
Definition isGradient (n : nat) (f : (nat -> R) -> R) (g x : nat -> R) : Prop :=
  forall c v, passes n c x v -> is_derive (fun t => f (c t)) 0 (dot n g v).

(** J is the Jacobian matrix, of m rows and n columns, of F at x *)
Definition isJacobian (m n : nat) (F : (nat -> R) -> nat -> R) (J : nat -> nat -> R) (x : nat -> R) : Prop :=
  forall i, (i < m)%nat -> isGradient n (fun y => F y i) (J i) x.

(** The gradient along straight lines *)
Definition along (u v : nat -> R) (t : R) (k : nat) : R := u k + t * v k.

(** What the documentation of dune-localfefunctions promises of a strain expression at the local displacements u, with n nodes of d
    directions and s components: [bop] is the derivative of the strain, [kg] the derivative of [bop] contracted with a vector *)
Definition strainExpression {P : Type} (d n s : nat) (eps : P -> (nat -> R) -> nat -> R) (bop : P -> (nat -> R) -> nat -> nat -> nat -> R)
  (kg : P -> (nat -> R) -> (nat -> R) -> nat -> nat -> nat -> nat -> R) (gp : P) (u : nat -> R) : Prop :=
  (forall m, (m < s)%nat -> isGradient (d * n) (fun y => eps gp y m) (fun k => bop gp u (k / d) m (k mod d)) u)%nat /\
  (forall (S : nat -> R) k, (k < d * n)%nat ->
     isGradient (d * n) (fun y => sum s (fun m => S m * bop gp y (k / d)%nat m (k mod d)))
       (fun l => kg gp u S (k / d) (l / d) (k mod d) (l mod d))%nat u).

(** A hyperelastic material at the strain e: the stress is the gradient of the energy, the tangent is the Jacobian of the stress *)
Definition hyperelastic (s : nat) (psi : (nat -> R) -> R) (stress : (nat -> R) -> nat -> R) (tangent : (nat -> R) -> nat -> nat -> R)
  (e : nat -> R) : Prop :=
  isGradient s psi (stress e) e /\ isJacobian s s stress (tangent e) e.

(** The Green-Lagrange strain H + H^T + H^T H over 2 of the displacement gradient H, in Voigt notation; [dN gp i a] is the derivative
    of the shape function of node i in direction a *)
Definition displacementGradientOf (d n : nat) (dN : nat -> nat -> R) (u : nat -> R) (k a : nat) : R :=
  sum n (fun i => u (d * i + k)%nat * dN i a).
Definition greenLagrangeOf (d : nat) (H : nat -> nat -> R) (a b : nat) : R :=
  / 2 * (H a b + H b a + sum d (fun k => H k a * H k b)).
