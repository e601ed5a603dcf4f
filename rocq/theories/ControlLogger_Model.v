(** Model of the listener that prints what a control routine does: ikarus/utils/listener/controllogger.{hh,cpp}.

    A message is modelled as in Control_Model: its kind, the control information, the step number, the step size and the requirement.
    Printed lines are modelled by the values in them; the text around the values, their rounding to a few digits and the elapsed time
    are left out. *)

From Coq Require Import List ZArith.
From Verif Require Import Newton_Model Control_Model.
Import ListNotations.
Local Open Scope Z_scope.

Inductive ctlLine (T N : Type) :=
| DoubleRule | SingleRule
| Started (name : N)
| LoadStep (number : Z) (size : T)
| EndOf (name : N)
| TotalIterations (n : Z)
| ElapsedTime.
Arguments DoubleRule {T N}. Arguments SingleRule {T N}. Arguments Started {T N}. Arguments LoadStep {T N}. Arguments EndOf {T N}.
Arguments TotalIterations {T N}. Arguments ElapsedTime {T N}.

Section Logger.
Context {T X N : Type}.
(** ControlInformation::name, set by the control routine (loadcontrol.inl:24, pathfollowing.inl:34) *)
Variable name : N.

(** ControlLogger::update, controllogger.hh:37-54, with stepEnded, controlStarted, stepStarted and controlEnded, controllogger.cpp:10-32 *)
Definition ctlUpdate (m : cmsg) (i : cinfo T) (loadStep : Z) (stepSize : T) : list (ctlLine T N) :=
  match m with
  | STEP_ENDED => [DoubleRule]
  | CONTROL_STARTED => [DoubleRule; Started name; DoubleRule]
  | STEP_STARTED => [LoadStep loadStep stepSize; SingleRule]
  | CONTROL_ENDED => [EndOf name; TotalIterations (c_total i); ElapsedTime]
  | CSOLUTION_CHANGED => []
  end.

(** What is printed for the messages of a run *)
Definition ctlLog (t : list (cmsg * cinfo T * Z * T * (X * T))) : list (ctlLine T N) :=
  concat (map (fun e => let '(m, i, n, s, _) := e in ctlUpdate m i n s) t).
End Logger.
