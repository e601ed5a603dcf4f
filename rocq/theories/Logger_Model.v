(** Model of the listeners that print what a nonlinear solver does: ikarus/utils/listener/nonlinearsolverlogger.hh and genericlistener.hh.

    A message is modelled as in Newton_Model and TrustRegion_Model: its kind, the solver information, the correction and the solution.
    Printed lines are modelled by the values in them; the text around the values and their rounding to a few digits are left out. *)

From Coq Require Import List ZArith Bool.
From Verif Require Import Newton_Model.
Import ListNotations.
Local Open Scope Z_scope.

Inductive logLine (T : Type) :=
| Header                                             (** "Non-linear solver started:", the column titles and the rule *)
| Row (k : Z) (res corr : T) (lambda : option T)     (** no load factor if the domain is a vector *)
| Iterations (n : Z).                                (** "Number of iterations: n" *)
Arguments Header {T}. Arguments Row {T}. Arguments Iterations {T}.

(** Members of NonLinearSolverLogger, nonlinearsolverlogger.hh:66-69 *)
Record logger (T : Type) := mkLogger { l_iters : Z; l_dNorm : T; l_rNorm : T; l_lambda : T }.
Arguments mkLogger {T}. Arguments l_iters {T}. Arguments l_dNorm {T}. Arguments l_rNorm {T}. Arguments l_lambda {T}.

Section Logger.
Context {T C D : Type}.
Variable zero : T.
Variable parameter : option (D -> T).   (** [None]: the domain of the solver is a vector *)

(** NonLinearSolverLogger::update, 37-63, with init, 71-84, iterationEnded, 86-93, and finishedSuccessfully, 95 *)
Definition logUpdate (l : logger T) (m : nlmsg) (i : nlinfo T) (d : D) : logger T * list (logLine T) :=
  match m with
  | INIT => (mkLogger 1 zero zero (l_lambda l), [Header])
  | ITERATION_ENDED =>
      (mkLogger (l_iters l + 1) (l_dNorm l) (l_rNorm l) (l_lambda l),
       [Row (l_iters l) (l_rNorm l) (l_dNorm l) (match parameter with None => None | Some _ => Some (l_lambda l) end)])
  | RESIDUALNORM_UPDATED => (mkLogger (l_iters l) (l_dNorm l) (i_res i) (l_lambda l), [])
  | SOLUTION_CHANGED => (mkLogger (l_iters l) (l_dNorm l) (l_rNorm l) (match parameter with None => l_lambda l | Some p => p d end), [])
  | CORRECTIONNORM_UPDATED => (mkLogger (l_iters l) (i_corr i) (l_rNorm l) (l_lambda l), [])
  | FINISHED_SUCESSFULLY => (l, [Iterations (i_iter i)])
  | _ => (l, [])
  end.

(** The logger receives the messages one after the other: the lines printed. *)
Fixpoint logAll (l : logger T) (t : list (nlmsg * nlinfo T * C * D)) : logger T * list (logLine T) :=
  match t with
  | [] => (l, [])
  | (m, i, _, d) :: t => let '(l1, out) := logUpdate l m i d in let '(l2, out2) := logAll l1 t in (l2, out ++ out2)
  end.
End Logger.

(** GenericListener::updateImpl, genericlistener.hh:46-49: the states its function is called with *)
Fixpoint genericCalls {M S : Type} (eqb : M -> M -> bool) (message : M) (t : list (M * S)) : list S :=
  match t with
  | [] => []
  | (m, s) :: t => if eqb message m then s :: genericCalls eqb message t else genericCalls eqb message t
  end.
