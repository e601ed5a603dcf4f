(** Model of ikarus/io/resultevaluators.hh. The formulas are written for any type of numbers, to be used with the real numbers and
    with binary64. *)

From Coq Require Import List Arith Reals Lra.
Import ListNotations.

(** What the call operators do besides returning a number *)
Inductive evaluation (T : Type) := Number (x : T) | RangeError | Unreachable.
Arguments Number {T}. Arguments RangeError {T}. Arguments Unreachable {T}.

Section Evaluators.
  Variables (T : Type) (zero one two three : T) (add sub mul div : T -> T -> T) (sqroot : T -> T).

  (** fromVoigt(resultArray, false), tensorutils.hh lines 183-214, for vectors of 1, 3 and 6 entries *)
  Definition stressRows (size : nat) (v : nat -> T) : nat * list (list T) :=
    match size with
    | 6 => (3, [[v 0; v 5; v 4]; [v 5; v 1; v 3]; [v 4; v 3; v 2]])
    | 3 => (2, [[v 0; v 2]; [v 2; v 1]])
    | _ => (1, [[v 0]])
    end.

  Definition total (l : list T) : T := match l with [] => zero | x :: l => fold_left add l x end.
  (** Eigen's squaredNorm and trace; the order of the summation is left to right *)
  Definition squaredNorm (rows : list (list T)) : T := total (map (fun x => mul x x) (concat rows)).
  Definition traceOf (n : nat) (rows : list (list T)) : T := total (map (fun i => nth i (nth i rows []) zero) (seq 0 n)).

  (** VonMises, lines 37-43; Dune::power(x, 2) is x * x *)
  Definition secondInvariant (size : nat) (v : nat -> T) : T :=
    let (n, sigma) := stressRows size v in
    let t := traceOf n sigma in
    mul (div one two) (sub (squaredNorm sigma) (mul (div one three) (mul t t))).
  Definition vonMises (size : nat) (v : nat -> T) : T := sqroot (mul three (secondInvariant size v)).

  (** HydrostaticStress, lines 75-79 *)
  Definition hydrostaticStress (size : nat) (v : nat -> T) : T :=
    let (n, sigma) := stressRows size v in
    mul (div one (match n with 3 => three | 2 => two | _ => one end)) (traceOf n sigma).

  (** Triaxiality, lines 147-152 *)
  Definition triaxiality (size : nat) (v : nat -> T) : T := div (hydrostaticStress size v) (vonMises size v).

  (** PrincipalStress, lines 112-117: eigenvalues are those returned by Eigen::SelfAdjointEigenSolver, a parameter of the model.
      An index outside of the vector is undefined. *)
  Definition principalStress (eigenvalues : nat -> list (list T) -> list T) (size : nat) (v : nat -> T) (comp : nat) : evaluation T :=
    let (n, sigma) := stressRows size v in
    match nth_error (rev (eigenvalues n sigma)) comp with Some x => Number x | None => Unreachable end.

  (** PolarStress, lines 183-207. cosine and sine stand for those of the angle of std::atan2 applied to the coordinates of the
      point relative to the origin; comp is an int. *)
  Definition polarStress (cosine sine : T -> T -> T) (neg : T -> T) (origin pos : T * T) (v : nat -> T) (comp : Z) : evaluation T :=
    if (2 <? comp)%Z then RangeError
    else
      let x := sub (fst pos) (fst origin) in
      let y := sub (snd pos) (snd origin) in
      let c := cosine y x in
      let s := sine y x in
      (* r.inverse() * sigma *)
      let a00 := add (mul c (v 0)) (mul s (v 2)) in
      let a01 := add (mul c (v 2)) (mul s (v 1)) in
      let a10 := add (mul (neg s) (v 0)) (mul c (v 2)) in
      let a11 := add (mul (neg s) (v 2)) (mul c (v 1)) in
      (* ... * r *)
      match comp with
      | 0%Z => Number (add (mul a00 c) (mul a01 s))
      | 1%Z => Number (add (mul a10 (neg s)) (mul a11 c))
      | 2%Z => Number (add (mul a10 c) (mul a11 s))
      | _ => Unreachable
      end.
End Evaluators.

(** std::atan2 over the real numbers *)
Definition atan2 (y x : R) : R :=
  (if Rlt_dec 0 x then atan (y / x)
   else if Rlt_dec x 0 then if Rle_dec 0 y then atan (y / x) + PI else atan (y / x) - PI
   else if Rlt_dec 0 y then PI / 2
   else if Rlt_dec y 0 then - (PI / 2)
   else 0)%R.

(** Over the real numbers *)
Definition rSecondInvariant := secondInvariant R 0%R 1%R 2%R 3%R Rplus Rminus Rmult Rdiv.
Definition rVonMises := vonMises R 0%R 1%R 2%R 3%R Rplus Rminus Rmult Rdiv sqrt.
Definition rHydrostaticStress := hydrostaticStress R 0%R 1%R 2%R 3%R Rplus Rmult Rdiv.
Definition rTriaxiality := triaxiality R 0%R 1%R 2%R 3%R Rplus Rminus Rmult Rdiv sqrt.
Definition rPolarStress := polarStress R Rplus Rminus Rmult (fun y x => cos (atan2 y x)) (fun y x => sin (atan2 y x)) Ropp.
