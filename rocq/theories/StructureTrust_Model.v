(** Model of a trust-region solver made by NonlinearSolverFactory for an assembled structure (ikarus/solver/nonlinearsolver/trustregion.hh,
    ikarus/utils/differentiablefunctionfactory.hh, ikarus/solver/nonlinearsolver/nonlinearsolverfactory.hh) with a dense assembler.

    The number type is a parameter.  The preconditioner is a function of the Hessian and of a vector; [factors h = false] stands for the
    MathError after the failed factorisations of IncompleteCholesky, 533-547. *)

From Coq Require Import List Arith ZArith Bool.
From Verif Require Import Assembler_Model TCG_Model TrustRegion_Model.
Import ListNotations.

Section StructureTrust.
  Context {T X : Type}.
  Variables (N : trNum T) (tsqrt : T -> T) (tiny : T) (plus : X -> option (list T) -> X).
  Variables (flags : list bool) (els : list (element (V := T) X)) (o : dbc).
  Variables (factors : option (response (V := T)) -> bool) (precond : option (response (V := T)) -> list T -> list T)
    (rnd : option (response (V := T)) -> T -> list T).
  Let n := length flags.

  Definition trAnswer (r : request) : option response := denseRequest (n0 N) (n1 N) (nadd N) flags els r.

  (** differentiablefunctionfactory.hh 31-47: scalar without and vector and matrix with the Dirichlet option *)
  Definition energyFunction (x : X) : T := match trAnswer (RScalar x) with Some (OScalar e) => e | _ => n0 N end.
  Definition gradientFunction (x : X) : list T := match trAnswer (RVector o x) with Some (OVector v) => v | _ => [] end.
  Definition hessianFunction (x : X) : option response := trAnswer (RMatrix o x).

  (** Eigen vectors *)
  Definition listAdd (u v : list T) : list T := map (fun p => nadd N (fst p) (snd p)) (combine u v).
  Definition listSub (u v : list T) : list T := map (fun p => nsub N (fst p) (snd p)) (combine u v).
  Definition listScale (s : T) (v : list T) : list T := map (nmul N s) v.
  Definition listNeg (v : list T) : list T := map (nopp N) v.
  Definition zeroLike (v : list T) : list T := map (fun _ => n0 N) v.
  Definition listDot (u v : list T) : T := fold_left (fun s p => nadd N s (nmul N (fst p) (snd p))) (combine u v) (n0 N).
  Definition listNorm (v : list T) : T := tsqrt (listDot v v).

  (** h * v for a dense matrix *)
  Definition matrixTimes (h : option response) (v : list T) : list T :=
    match h with
    | Some (ODense M) => map (fun i => listDot (map (fun j => match dget M i j with Some x => x | None => n0 N end) (seq 0 (dcols M))) v) (seq 0 (drows M))
    | _ => []
    end.

  (** updateFunctor, nonlinearsolverfactory.hh 32-44, for settings with the default update function; x has the size of the structure *)
  Definition trUpdate (x : X) (b : list T) : X :=
    if match o with Reduced => true | _ => false end && (reducedSize flags =? length b)%nat then plus x (createFullVector (n0 N) flags b)
    else if (reducedSize flags =? n)%nat && (n =? length b)%nat then plus x (createReducedVector flags b)
    else plus x (Some b).

  (** The preconditioners of trustregion.hh 569-573 that need no factorisation.  Eigen::DiagonalPreconditioner divides by the diagonal,
      entries that are zero are taken as one. *)
  Definition identityPrecond (_ : option (response (V := T))) (v : list T) : list T := v.
  Definition diagonalPrecond (h : option response) (v : list T) : list T :=
    match h with
    | Some (ODense M) => map (fun p => let '(i, x) := p in
        match dget M i i with
        | Some d => if nleb N d (n0 N) && nleb N (n0 N) d then nmul N x (n1 N) else nmul N (ndiv N (n1 N) d) x
        | None => x end) (combine (seq 0 (length v)) v)
    | _ => v
    end.

  (** solveInnerProblem, 529-550; Eigen's defaults: twice the number of columns as limit of iterations, [tol] is epsilon *)
  Variable tol : T.
  Definition innerProblem (g : list T) (h : option response) (guess : list T) (info : tcgInfo T) : option (list T * tcgInfo T) :=
    if factors h then
      Some (tcg (n0 N) (n2 N) (nadd N) (nsub N) (nmul N) (ndiv N) (nopp N) tsqrt (nltb N) (nleb N) tiny (zeroLike g) listAdd listSub listScale listDot
              (matrixTimes h) (precond h) (2 * Z.of_nat (length g)) tol (listNeg g) guess info)
    else None.

  (** solve, 233-428 *)
  Definition structureTrust (st : trSettings T) (inf : T) (x : X) (eta0 : list T) (innerInfo : tcgInfo T) :=
    trSolve N energyFunction gradientFunction hessianFunction listNorm listDot listAdd listScale listNeg zeroLike matrixTimes trUpdate rnd innerProblem
      st inf x eta0 innerInfo.
End StructureTrust.
