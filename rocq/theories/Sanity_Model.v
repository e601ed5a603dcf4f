(** Model of ikarus/utils/polyfit.cpp, ikarus/utils/functionsanitychecks.{hh,cpp} (checkGradient, checkJacobian, checkHessian) and
    ikarus/utils/quadraturerulehelper.hh, tensorProductQuadrature.

    Numbers are real.  Contracts: the QR decomposition of Eigen solves least squares problems; logspace(-8, -2, 100) of matplot gives
    10^(-8 + 6 i / 99).  A logarithm of zero and everything computed from it is [None]: not a number; comparisons with it are false.
    Plots are left out, but not the vectors filled for them. *)

From Coq Require Import List Reals Bool Arith ZArith.
From Verif Require Import Utils_Model.
Import ListNotations.
Local Open Scope R_scope.

(** ** polyfit *)

Definition dot (a b : list R) : R := fold_right Rplus 0 (map (fun ab => fst ab * snd ab) (combine a b)).
Definition mulVec (A : list (list R)) (c : list R) : list R := map (fun row => dot row c) A.
Definition norm (v : list R) : R := sqrt (dot v v).
Definition minus (a b : list R) : list R := map (fun ab => fst ab - snd ab) (combine a b).

(** polyfit.cpp:13-15: the first column is one, the others are the one before times x; here row by row *)
Fixpoint powers (x p : R) (n : nat) : list R := match n with O => [] | S n => p :: powers x (p * x) n end.
Definition vandermonde (x : list R) (deg : nat) : list (list R) := map (fun xi => powers xi 1 (S deg)) x.

Section Polyfit.
Variable lsq : list (list R) -> list R -> list R.     (** qr.solve *)

(** polyfit.cpp:11-26: the coefficients and the residual norm *)
Definition polyfit (x y : list R) (deg : nat) : list R * R :=
  let A := vandermonde x deg in
  let coeffs := lsq A y in
  (coeffs, norm (minus (mulVec A coeffs) y)).

(** The same on data that may not be numbers *)
Fixpoint numbers (l : list (option R)) : option (list R) :=
  match l with
  | [] => Some []
  | Some a :: l => match numbers l with Some r => Some (a :: r) | None => None end
  | None :: _ => None
  end.
Definition polyfitNaN (x y : list (option R)) : option (list R) * option R :=
  match numbers x, numbers y with
  | Some x, Some y => let '(c, e) := polyfit x y 1 in (Some c, Some e)
  | _, _ => (None, None)
  end.

(** ** The slope of the approximation error *)

Definition ltbNaN (a b : option R) : bool := match a, b with Some a, Some b => if Rlt_dec a b then true else false | _, _ => false end.
Definition log10 (y : R) : option R := if Rlt_dec 0 y then Some (ln y / ln 10) else None.

(** functionsanitychecks.cpp 15: the steps; 22: the size of the range *)
Definition steps : list R := map (fun i => Rpower 10 (-8 + 6 * INR i / 99)) (seq 0 100).
Definition rangeSize : nat := 10.

(** Vectors accessed by index: [None] is an access out of range, which is undefined *)
Fixpoint setAt {A} (l : list A) (i : nat) (a : A) : option (list A) :=
  match l, i with
  | [], _ => None
  | _ :: l, O => Some (a :: l)
  | b :: l, S i => match setAt l i a with Some l => Some (b :: l) | None => None end
  end.

(** functionsanitychecks.cpp:29-38: for (int i = 0; auto r : tET) { tOfRange[i] = r; fInRange[i] = yET[i]; ++i; } *)
Fixpoint fill (target : list R) (i : nat) (l : list R) : option (list R) :=
  match l with
  | [] => Some target
  | r :: l => match setAt target i r with Some target => fill target (S i) l | None => None end
  end.

Definition maxAbs (l : list R) : R := fold_right (fun a m => Rmax (Rabs a) m) 0 l.

Inductive slope := Infinite | Finite (s : R) | NotANumber.

(** drawResultAndReturnSlope, functionsanitychecks.cpp:12-58; [None]: undefined behaviour *)
Definition returnSlope (ftevaluated : list R) (draw : bool) : option slope :=
  match findLineSegment ltbNaN polyfitNaN (map log10 steps) (map log10 ftevaluated) (Z.of_nat rangeSize) with
  | None => None
  | Some (line, first, last) =>
    let range l := firstn (last + 1 - first) (skipn first l) in
    match (if draw then match fill (repeat 0 rangeSize) 0 (range steps), fill (repeat 0 rangeSize) 0 (range ftevaluated) with Some _, Some _ => true | _, _ => false end else true) with
    | false => None
    | true =>
      if Rlt_dec (maxAbs (range ftevaluated)) (1 / 10000000000) then Some Infinite
      else Some (match line with Some c => Finite (nth 1 c 0) | None => NotANumber end)
    end
  end.

(** Dune::FloatCmp::le(expected, slope, tolerance), relative to the larger *)
Definition floatLe (a : R) (s : slope) (tolerance : R) : bool :=
  match s with
  | Infinite => true
  | NotANumber => false
  | Finite s => if Rlt_dec a s then true else if Rle_dec (Rabs (a - s)) (tolerance * Rmax (Rabs a) (Rabs s)) then true else false
  end.

Section Checks.
Context {X V : Type}.
Variables (update : X -> V -> X) (scale : R -> V -> V).
Variable tolerance : R.                                 (** CheckFlags::tolerance, 1/100 by default *)

(** ftfunc applied to all steps: the solution is changed, the error taken, and the change undone; functionsanitychecks.hh:80-86, 135-141, 198-204 *)
Fixpoint evaluations (value : X -> R -> R) (b : V) (x : X) (ts : list R) : list R :=
  match ts with
  | [] => []
  | t :: ts => let x1 := update x (scale t b) in value x1 t :: evaluations value b (update x1 (scale (- t) b)) ts
  end.

Definition check (order : R) (value : X -> R -> R) (b : V) (x : X) (draw : bool) : option bool :=
  match returnSlope (evaluations value b x steps) draw with
  | None => None
  | Some s => Some (floatLe order s tolerance)
  end.

(** checkGradient, 57-102: [gradfv] is the product of the gradient with the direction *)
Definition checkGradient (f : X -> R) (gradfv : R) (b : V) (x : X) (draw : bool) : option bool :=
  let e := f x in check 2 (fun x t => Rabs (f x - e - t * gradfv)) b x draw.
(** checkJacobian, 117-156: [error] is the norm of f(x) - e - t J b *)
Definition checkJacobian (error : X -> R -> R) (b : V) (x : X) (draw : bool) : option bool := check 2 error b x draw.
(** checkHessian, 171-219 *)
Definition checkHessian (f : X -> R) (gradfv vhessv : R) (b : V) (x : X) (draw : bool) : option bool :=
  let e := f x in check 3 (fun x t => Rabs (f x - e - t * gradfv - 1 / 2 * t * t * vhessv)) b x draw.
End Checks.
End Polyfit.

(** ** tensorProductQuadrature, quadraturerulehelper.hh:28-48: points of the base rule, each with all points of the one-dimensional rule *)
Definition tensorProduct (base : list (list R * R)) (oned : list (R * R)) : list (list R * R) :=
  flat_map (fun b => map (fun o => (fst b ++ [fst o], snd b * snd o)) oned) base.
(** numberOfGaussPointsToOrder, 82 *)
Definition orderOfPoints (n : Z) : Z := (2 * n - 1)%Z.
