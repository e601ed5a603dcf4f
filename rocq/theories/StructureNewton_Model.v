(** Model of a Newton solver made by NonlinearSolverFactory for an assembled structure:
    ikarus/utils/differentiablefunctionfactory.hh and ikarus/solver/nonlinearsolver/nonlinearsolverfactory.hh.

    Numbers are real numbers, the solution is a function of the dof, corrections are vectors with a size. *)

From Coq Require Import List Arith Bool Reals.
From Verif Require Import Assembler_Model Element_Model AssemblyMesh_Model Newton_Model.
Import ListNotations.
Local Open Scope R_scope.

Section Structure.
  Variables (flags : list bool) (mesh : list meshElement) (o : dbc).
  Let n := length flags.

  Definition answer (r : request) : option response := denseRequest 0 1 Rplus flags (toElements n mesh) r.

  (** differentiablefunctionfactory.hh 35-38 and 31-33; no answer is an undefined access *)
  Definition residualFunction (x : nat -> R) : list R := match answer (RVector o x) with Some (OVector v) => v | _ => [] end.
  Definition KFunction (x : nat -> R) : option response := answer (RMatrix o x).

  (** x += v, defaultfunctions.hh 68-73 *)
  Definition plusVector (x : nat -> R) (v : option (list R)) (i : nat) : R := x i + match v with Some v => nth i v 0 | None => 0 end.

  (** updateFunctor, nonlinearsolverfactory.hh 32-44, for settings with the default update function; x has the size of the structure *)
  Definition updateFunctor (x : nat -> R) (b : list R) : nat -> R :=
    if match o with Reduced => true | _ => false end && (reducedSize flags =? length b)%nat then plusVector x (createFullVector 0 flags b)
    else if (reducedSize flags =? n)%nat && (n =? length b)%nat then plusVector x (createReducedVector flags b)
    else plusVector x (Some b).

  (** Eigen's norm() *)
  Definition norm (v : list R) : R := sqrt (fold_left (fun s x => s + x * x) v 0).
  Definition greater (a b : R) : bool := if Rlt_dec b a then true else false.

  (** newtonraphson.hh 193-257 *)
  Definition structureSolve {W} (inf : R) (lsolve : option response -> list R -> list R)
    (listen : nlmsg -> nlinfo R -> list R -> (nat -> R) -> W -> W) :=
    nrSolve greater inf (fun _ => residualFunction) (fun _ => KFunction) norm norm lsolve updateFunctor None listen.
End Structure.
