(** Specification of elements with internal variables: derivatives with respect to the displacements u and the internal variables a. *)

From Coq Require Import Reals Arith List.
From Coquelicot Require Import Coquelicot.
From Verif Require Import Tensor_Spec Element_Spec.
Local Open Scope R_scope.

(** g and h are the gradients of f with respect to the N displacements u and the p internal variables a: f is differentiable along every
    pair of curves, with the rate g . v + h . w *)
Definition isGradient2 (N p : nat) (f : (nat -> R) -> (nat -> R) -> R) (g h u a : nat -> R) : Prop :=
  forall c v b w, passes N c u v -> passes p b a w -> is_derive (fun t => f (c t) (b t)) 0 (dot N g v + dot p h w).

(** What is expected of the derivatives of a strain E(u, a) with s components: [E_d] and [E_a] are the first derivatives, and [E_dd],
    [E_aa] and [E_ad] are the second derivatives contracted with a vector S *)
Definition enhancedExpression {P : Type} (d n s p : nat) (E : P -> (nat -> R) -> (nat -> R) -> nat -> R)
  (E_d : P -> (nat -> R) -> (nat -> R) -> nat -> nat -> nat -> R) (E_a : P -> (nat -> R) -> (nat -> R) -> nat -> nat -> R)
  (E_dd : P -> (nat -> R) -> (nat -> R) -> (nat -> R) -> nat -> nat -> nat -> nat -> R)
  (E_aa : P -> (nat -> R) -> (nat -> R) -> (nat -> R) -> nat -> nat -> R)
  (E_ad : P -> (nat -> R) -> (nat -> R) -> (nat -> R) -> nat -> nat -> nat -> R) (gp : P) (u a : nat -> R) : Prop :=
  let N := (d * n)%nat in
  (forall m, (m < s)%nat -> isGradient2 N p (fun u a => E gp u a m) (fun k => E_d gp u a (k / d)%nat m (k mod d)) (E_a gp u a m) u a) /\
  (forall S k, (k < N)%nat -> isGradient2 N p (fun u a => sum s (fun m => S m * E_d gp u a (k / d)%nat m (k mod d)))
     (fun l => E_dd gp u a S (k / d) (l / d) (k mod d) (l mod d))%nat (fun r => E_ad gp u a S (k / d)%nat r (k mod d)) u a) /\
  (forall S q, (q < p)%nat -> isGradient2 N p (fun u a => sum s (fun m => S m * E_a gp u a m q))
     (fun l => E_ad gp u a S (l / d)%nat q (l mod d)) (fun r => E_aa gp u a S q r) u a).

(** Z is the inverse of the p x p matrix D *)
Definition isInverse (p : nat) (D Z : nat -> nat -> R) : Prop :=
  (forall i j, (i < p)%nat -> (j < p)%nat -> mul p D Z i j = identity i j) /\
  (forall i j, (i < p)%nat -> (j < p)%nat -> mul p Z D i j = identity i j).
(** A - B^T Z C *)
Definition schur (p : nat) (A B Z C : nat -> nat -> R) (k l : nat) : R := A k l - sum p (fun q => sum p (fun r => B q k * Z q r * C r l)).

(** A quadrature rule on the unit square or cube is exact for the polynomials up to the degree e in each coordinate: it integrates the
    powers of 2 x - 1, whose mean over the unit interval is 0 for odd and 1 / (i + 1) for even exponents *)
Definition quadrature {P : Type} (points : list P) (w : P -> R) (f : P -> R) : R := fold_right Rplus 0 (map (fun gp => w gp * f gp) points).
Definition mean (i : nat) : R := if Nat.even i then / INR (i + 1) else 0.
Definition exactOnCube {P : Type} (d e : nat) (points : list P) (pos : P -> nat -> R) (w : P -> R) : Prop :=
  forall i j k, (i <= e)%nat -> (j <= e)%nat -> (k <= e)%nat -> (d <= 2 -> k = 0)%nat ->
  quadrature points w (fun gp => (2 * pos gp 0%nat - 1) ^ i * (2 * pos gp 1%nat - 1) ^ j * (2 * pos gp 2%nat - 1) ^ k) = mean i * mean j * mean k.
