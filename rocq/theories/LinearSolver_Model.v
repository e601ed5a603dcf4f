(** Model of ikarus/solver/linearsolver/linearsolver.hh and linearsolver.cpp.
    Matrices live in numbered cells of a memory; an Eigen solver that is told to factorise a matrix keeps either what it computed from
    the matrix (direct solvers) or, as the documentation of Eigen's iterative solvers says, a reference to it.
    Eigen is a contract: [eigenSolve M b] is what any of its solvers returns for the matrix M. *)

From Coq Require Import List Arith Bool.
Import ListNotations.

(** linearsolver.hh 28-31 *)
Inductive solverTag :=
| none | si_ConjugateGradient | si_LeastSquaresConjugateGradient | si_BiCGSTAB | sd_SimplicialLLT
| sd_SimplicialLDLT | sd_SparseLU | sd_SparseQR | sd_CholmodSupernodalLLT | sd_UmfPackLU | sd_SuperLU
| d_PartialPivLU | d_FullPivLU | d_HouseholderQR | d_ColPivHouseholderQR | d_FullPivHouseholderQR
| d_CompleteOrthogonalDecomposition | d_LLT | d_LDLT.

(** The Eigen solver that the constructor makes for a tag, linearsolver.cpp 22-82 *)
Inductive kind := Iterative | SparseDirect | DenseDirect.
Inductive made := Nothing | Made (k : kind) | MakeThrows.
Definition makes (t : solverTag) : made :=
  match t with
  | si_ConjugateGradient | si_LeastSquaresConjugateGradient | si_BiCGSTAB => Made Iterative
  | sd_SimplicialLLT | sd_SimplicialLDLT | sd_SparseLU | sd_SparseQR | sd_CholmodSupernodalLLT | sd_UmfPackLU => Made SparseDirect
  | sd_SuperLU => MakeThrows
  | d_PartialPivLU | d_FullPivLU | d_HouseholderQR | d_ColPivHouseholderQR | d_FullPivHouseholderQR
  | d_CompleteOrthogonalDecomposition | d_LLT | d_LDLT => Made DenseDirect
  | none => Nothing
  end.

Section Solver.
  Context {M B X : Type}.          (* matrices, right-hand sides, solutions *)
  Variable eigenSolve : M -> B -> X.

  Inductive factorisation := Owned (m : M) | Refers (cell : nat).
  Record impl := mkImpl { i_kind : kind; i_analysed : bool; i_factor : option factorisation }.
  (** solverimpl_ and solverTypeTag_, 168-169 *)
  Record solver := mkSolver { o_impl : option impl; o_tag : solverTag }.

  Inductive outcome (A : Type) :=
  | Done (a : A)
  | Throws                (* Dune::NotImplemented *)
  | NullDereference       (* a call through an empty solverimpl_ *)
  | NotReady.             (* an Eigen precondition (eigen_assert) is violated *)
  Arguments Done {A}. Arguments Throws {A}. Arguments NullDereference {A}. Arguments NotReady {A}.

  (** LinearSolverTemplate(solverTypeTag), linearsolver.cpp 18-83 *)
  Definition construct (t : solverTag) : outcome solver :=
    match makes t with
    | Nothing => Done (mkSolver None t)
    | Made k => Done (mkSolver (Some (mkImpl k false None)) t)
    | MakeThrows => Throws
    end.
  (** LinearSolverTemplate(), 57 *)
  Definition default : solver := mkSolver None none.
  (** Copy constructor, 89 *)
  Definition copy (other : solver) : outcome solver := construct (o_tag other).
  (** Copy assignment, 79-83; the second component is destroyed *)
  Definition swap (a b : solver) : solver * solver := (mkSolver (o_impl b) (o_tag b), mkSolver (o_impl a) (o_tag a)).
  Definition copyAssign (this other : solver) : outcome solver :=
    match copy other with Done tmp => Done (fst (swap this tmp)) | Throws => Throws | NullDereference => NullDereference | NotReady => NotReady end.
  (** Move construction and assignment, 94, 100: the result and what is left of the argument *)
  Definition move (other : solver) : solver * solver := (other, mkSolver None (o_tag other)).

  (** A matrix argument: dense or sparse, and the cell it lives in *)
  Record argument := mkArg { g_sparse : bool; g_cell : nat }.

  (** Eigen: analyzePattern of a sparse solver; factorize demands it; compute is both *)
  Definition keeps (k : kind) (memory : nat -> M) (cell : nat) : factorisation :=
    match k with Iterative => Refers cell | _ => Owned (memory cell) end.

  (** SolverImpl::analyzePattern, 106, 123-126 *)
  Definition analyzePattern (s : solver) (a : argument) : outcome solver :=
    match o_impl s with
    | None => NullDereference
    | Some i =>
        if g_sparse a then
          match i_kind i with
          | DenseDirect => Done s
          | _ => Done (mkSolver (Some (mkImpl (i_kind i) true (i_factor i))) (o_tag s))
          end
        else Done s
    end.
  (** SolverImpl::factorize, 128-138 *)
  Definition factorize (memory : nat -> M) (s : solver) (a : argument) : outcome solver :=
    match o_impl s with
    | None => NullDereference
    | Some i =>
        match g_sparse a, i_kind i with
        | true, DenseDirect => Done s
        | true, k => if i_analysed i then Done (mkSolver (Some (mkImpl k true (Some (keeps k memory (g_cell a))))) (o_tag s)) else NotReady
        | false, DenseDirect => Done (mkSolver (Some (mkImpl DenseDirect (i_analysed i) (Some (keeps DenseDirect memory (g_cell a))))) (o_tag s))
        | false, _ => Done s
        end
    end.
  (** SolverImpl::compute, 139-151 *)
  Definition compute (memory : nat -> M) (s : solver) (a : argument) : outcome solver :=
    match o_impl s with
    | None => NullDereference
    | Some i =>
        match g_sparse a, i_kind i with
        | true, DenseDirect => Throws
        | true, k => Done (mkSolver (Some (mkImpl k true (Some (keeps k memory (g_cell a))))) (o_tag s))
        | false, DenseDirect => Done (mkSolver (Some (mkImpl DenseDirect (i_analysed i) (Some (keeps DenseDirect memory (g_cell a))))) (o_tag s))
        | false, _ => Throws
        end
    end.
  (** SolverImpl::solve, 153-163 *)
  Definition solve (memory : nat -> M) (s : solver) (b : B) : outcome X :=
    match o_impl s with
    | None => NullDereference
    | Some i =>
        match i_factor i with
        | None => NotReady
        | Some (Owned m) => Done (eigenSolve m b)
        | Some (Refers c) => Done (eigenSolve (memory c) b)
        end
    end.

  (** A history of one solver and the memory *)
  Inductive op :=
  | OAnalyze (a : argument) | OFactorize (a : argument) | OCompute (a : argument) | OSolve (b : B)
  | OWrite (cell : nat) (m : M)            (* the caller changes a matrix *)
  | OSelfAssign.                           (* s = s *)
  Definition write (memory : nat -> M) (c : nat) (m : M) : nat -> M := fun c' => if c' =? c then m else memory c'.

  (** The state after an operation and what a solve returned; after an exception the solver is unchanged, other failures end the run *)
  Definition step (st : solver * (nat -> M)) (o : op) : option ((solver * (nat -> M)) * option X) :=
    let '(s, memory) := st in
    let keep (r : outcome solver) :=
      match r with Done s' => Some ((s', memory), None) | Throws => Some (st, None) | _ => None end in
    match o with
    | OAnalyze a => keep (analyzePattern s a)
    | OFactorize a => keep (factorize memory s a)
    | OCompute a => keep (compute memory s a)
    | OSolve b => match solve memory s b with Done x => Some (st, Some x) | _ => None end
    | OWrite c m => Some ((s, write memory c m), None)
    | OSelfAssign => keep (copyAssign s s)
    end.
  Fixpoint run (st : solver * (nat -> M)) (h : list op) : option (solver * (nat -> M)) :=
    match h with [] => Some st | o :: h => match step st o with Some (st', _) => run st' h | None => None end end.
End Solver.
Arguments Done {A}. Arguments Throws {A}. Arguments NullDereference {A}. Arguments NotReady {A}.
