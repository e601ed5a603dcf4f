(** Model of load control of a structure: ikarus/controlroutines/loadcontrol.{hh,inl} with a Newton solver made by NonlinearSolverFactory
    for an assembler without inhomogeneous Dirichlet conditions.

    The elements and loads may depend on the load factor in any way.  Without inhomogeneous conditions syncParameterAndGlobalSolution
    leaves the solution alone (nonlinearsolverfactory.hh:43-51: all values are zero). *)

From Coq Require Import List ZArith Bool Reals.
From Verif Require Import Assembler_Model Element_Model AssemblyMesh_Model Newton_Model Control_Model StructureNewton_Model.
Import ListNotations.
Local Open Scope R_scope.

Section Structure.
  Context {W : Type}.
  Variables (flags : list bool) (meshAt : R -> list meshElement) (o : dbc) (inf : R) (lsolve : option (response (V := R)) -> list R -> list R).
  Variable listenSolver : nlmsg -> nlinfo R -> list R -> (nat -> R) -> W -> W.
  Variable listenControl : cmsg -> cinfo R -> Z -> R -> (nat -> R) * R -> W * list R -> W * list R.
  Variable settings : nrSettings R.

  (** nonLinearSolver_->solve(x, stepSize), newtonraphson.hh:193-257; the member correction_ is kept from solve to solve; no result:
      out of fuel, which does not happen (C16) *)
  Definition solveAt (x : nat -> R) (lambda _ : R) (w : W * list R) : (nat -> R) * (W * list R) * nlinfo R :=
    match structureSolve flags (meshAt lambda) o inf lsolve listenSolver settings x (snd w) (fst w) with
    | Some s => (s_d s, (s_w s, s_c s), s_info s)
    | None => (x, w, mkInfo false inf inf 0)
    end.

  (** LoadControl::run, loadcontrol.inl:21-52 *)
  Definition structureRun (lc : Z * R) (x : nat -> R) (lambda : R) (w : W * list R) : cState :=
    lcRun listenControl Rplus 0 solveAt (fun x _ => x) lc x lambda w.
End Structure.
