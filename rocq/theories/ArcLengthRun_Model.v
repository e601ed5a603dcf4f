(** Model of path following with the arc-length method and the Newton solver with subsidiary function over the real numbers:
    ikarus/controlroutines/pathfollowing.inl, pathfollowingfunctions.hh and
    ikarus/solver/nonlinearsolver/newtonraphsonwithscalarsubsidiaryfunction.hh put together.

    Without inhomogeneous Dirichlet conditions, for systems of full size: corrections are added to the solution entry by entry
    (nonlinearsolverfactory.hh:34-42, defaultfunctions.hh:68-73).  Residual and tangent are functions of solution and load factor. *)

From Coq Require Import List ZArith Bool Reals.
From Verif Require Import Newton_Model Control_Model PathFunctions_Model StructureNewton_Model.
Import ListNotations.
Local Open Scope R_scope.

Section Run.
  Context {J W : Type}.
  Variables (residual : list R * R -> list R) (tangent : list R * R -> J).
  Variable lsolve : J -> list R -> list R.
  Variable lin : list R * R -> list R.      (** solution of K DD = -R with the linear solver of the prediction *)
  Variable listenSolver : nlmsg -> nlinfo R -> list R -> list R * R -> W -> W.
  Variable listenControl : cmsg -> cinfo R -> Z -> R -> list R * R -> W * list R -> W * list R.
  Variables (inf tol : R) (maxIter : Z).
  Variable adaptive : Z -> nlinfo R -> R -> option R.

  (** nonLinearSolver_->solve(req, pathFollowingType_, subsidiaryArgs_), newtonraphsonwithscalarsubsidiaryfunction.hh:207-316; the member
      correction_ is kept from solve to solve; no result: out of fuel, which does not happen (C16) *)
  Definition arcSolve (pf : arcState) (req : list R * R) (a : subArgs R (list R)) (w : W * list R) :
      (list R * R) * subArgs R (list R) * (W * list R) * nlinfo R :=
    match nrsSolve Rplus Rminus Rmult Rdiv Ropp sqrt 1 inf greater (vplus Rplus) (vminus Rminus) (map Ropp) (fun s v => vscal Rmult v s)
        (vdot 0 Rplus Rmult) (vzero 0) (fun _ => residual) (fun _ => tangent) lsolve (vplus Rplus) None listenSolver
        (arcEval 0 Rplus Rminus Rmult Rdiv sqrt None pf) tol maxIter req a (snd w) (fst w) with
    | Some (s, a') => (s_d s, a', (s_w s, s_c s), s_info s)
    | None => (req, a, w, mkInfo false inf inf 0)
    end.

  (** PathFollowing::run, pathfollowing.inl:28-77 *)
  Definition arcRun (steps : Z) (stepSize : R) (pf : arcState) (x : list R) (lambda : R) (w : W * list R) : pfResult :=
    pfRun listenControl 0 arcSolve (fun pf req a _ => arcInitial 0 1 Rplus Rminus Rmult Rdiv sqrt None lin pf req a) (arcIntermediate Rplus None) adaptive (argsZero 0)
      steps stepSize pf x lambda w.
End Run.
