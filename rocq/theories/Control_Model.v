(** Model of the control routines: ikarus/controlroutines/loadcontrol.{hh,inl}, pathfollowing.{hh,inl}, adaptivestepsizing.hh,
    controlinfos.hh, controlroutinestate.hh.

    The nonlinear solver is a parameter: it maps the requirement (solution of type [X], load factor of type [T]) and the outside
    world [W] (element states, the solver's members) to new ones and a NonLinearSolverInformation.  Listeners receive const references
    and can change only [W].  Not modelled: exceptions thrown by solver or listeners, int overflow of totalIterations. *)

From Coq Require Import List ZArith Bool.
From Verif Require Import Newton_Model.
Import ListNotations.
Local Open Scope Z_scope.

(** utils/broadcaster/broadcastermessages.hh, ControlMessages *)
Inductive cmsg := CONTROL_STARTED | CONTROL_ENDED | STEP_STARTED | STEP_ENDED | CSOLUTION_CHANGED.

(** controlinfos.hh:22-33 (without the name) *)
Record cinfo (T : Type) := mkCInfo { c_success : bool; c_infos : list (nlinfo T); c_total : Z }.
Arguments mkCInfo {T}. Arguments c_success {T}. Arguments c_infos {T}. Arguments c_total {T}.

Section Control.
Context {T X W : Type}.

(** Solution, load factor, outside world, information, fields loadStep and stepSize of the broadcast state
    (controlroutinestate.hh:22-31), and the messages sent with what listeners see. *)
Record cState := mkCS { k_x : X; k_p : T; k_w : W; k_info : cinfo T; k_step : Z; k_size : T;
                        k_trace : list (cmsg * cinfo T * Z * T * (X * T)) }.

Variable listen : cmsg -> cinfo T -> Z -> T -> X * T -> W -> W.

Definition cemit (m : cmsg) (s : cState) : cState :=
  mkCS (k_x s) (k_p s) (listen m (k_info s) (k_step s) (k_size s) (k_x s, k_p s) (k_w s)) (k_info s) (k_step s) (k_size s)
       (k_trace s ++ [(m, k_info s, k_step s, k_size s, (k_x s, k_p s))]).

(** loadcontrol.hh:106-112, pathfollowing.hh:229-235 *)
Definition updateAndNotify (i : nlinfo T) (s : cState) : cState :=
  let ci := k_info s in
  let s1 := mkCS (k_x s) (k_p s) (k_w s) (mkCInfo (c_success ci) (c_infos ci ++ [i]) (c_total ci + i_iter i)) (k_step s) (k_size s) (k_trace s) in
  cemit STEP_ENDED (cemit CSOLUTION_CHANGED s1).

Definition setSuccess (s : cState) : cState :=
  mkCS (k_x s) (k_p s) (k_w s) (mkCInfo true (c_infos (k_info s)) (c_total (k_info s))) (k_step s) (k_size s) (k_trace s).

(** ** Load control *)
Variables (tadd tsub : T -> T -> T) (tdiv : T -> T -> T) (tOfZ : Z -> T) (t0 : T).

(** loadcontrol.hh:72-80; the members loadSteps_ and stepSize_; [None]: InvalidStateException *)
Definition lcConstruct (loadSteps : Z) (tBegin tEnd : T) : option (Z * T) :=
  let stepSize := tdiv (tsub tEnd tBegin) (tOfZ loadSteps) in
  if loadSteps <=? 0 then None else Some (loadSteps, stepSize).

(** NewtonRaphson::solve(x, stepSize): changes the solution, not the load factor. *)
Variable solve : X -> T -> T -> W -> X * W * nlinfo T.
(** x.syncParameterAndGlobalSolution(updateFunction) *)
Variable sync : X -> T -> X.

(** loadcontrol.inl:38-48; [n] steps left, [ls] the current step *)
Fixpoint lcLoop (n : nat) (stepSize : T) (ls : Z) (s : cState) : cState :=
  match n with
  | O => setSuccess (cemit CONTROL_ENDED s)
  | S n' =>
      let s1 := cemit STEP_STARTED (mkCS (k_x s) (k_p s) (k_w s) (k_info s) ls (k_size s) (k_trace s)) in
      let p := tadd (k_p s1) stepSize in
      let '(x, w, i) := solve (k_x s1) p stepSize (k_w s1) in
      let x' := if i_iter i =? 0 then sync x p else x in
      let s2 := updateAndNotify i (mkCS x' p w (k_info s1) (k_step s1) (k_size s1) (k_trace s1)) in
      if i_success i then lcLoop n' stepSize (ls + 1) s2 else s2
  end.

(** loadcontrol.inl:21-52; the first solve uses the default step size 0.0 *)
Definition lcRun (lc : Z * T) (x : X) (p : T) (w : W) : cState :=
  let '(loadSteps, stepSize) := lc in
  let s0 := cemit STEP_STARTED (cemit CONTROL_STARTED (mkCS x p w (mkCInfo false [] 0) (-1) t0 [])) in
  let '(x1, w1, i) := solve (k_x s0) (k_p s0) t0 (k_w s0) in
  let s1 := updateAndNotify i (mkCS x1 (k_p s0) w1 (k_info s0) (k_step s0) (k_size s0) (k_trace s0)) in
  if i_success i then
    lcLoop (Z.to_nat loadSteps) stepSize 0 (mkCS (k_x s1) (k_p s1) (k_w s1) (k_info s1) (k_step s1) stepSize (k_trace s1))
  else s1.

(** ** Adaptive step sizing *)
(** adaptivestepsizing.hh:24-50 *)
Definition noOp (currentStep : Z) (i : nlinfo T) (stepSize : T) : option T := Some stepSize.

Variables (tmul : T -> T -> T) (tsqrt : T -> T).
(** adaptivestepsizing.hh:76-88; [None]: InvalidStateException *)
Definition iterationBased (target : Z) (currentStep : Z) (i : nlinfo T) (stepSize : T) : option T :=
  if currentStep =? 0 then Some stepSize
  else if target =? 0 then None
  else if target <? i_iter i then Some (tmul (tsqrt (tdiv (tOfZ target) (tOfZ (i_iter i)))) stepSize)
  else Some stepSize.

(** adaptivestepsizing.hh:100-104; [None]: InvalidStateException *)
Definition setTargetIterations (target : Z) : option Z := if target =? 0 then None else Some target.

(** ** Path following *)
Context {V PF : Type}.   (** vectors of the subsidiary arguments; state of the path-following function *)
(** NewtonRaphsonWithSubsidiaryFunction::solve(req, pathFollowingType, subsidiaryArgs) *)
Variable psolve : PF -> X * T -> subArgs T V -> W -> (X * T) * subArgs T V * W * nlinfo T.
Variable initialPrediction : PF -> X * T -> subArgs T V -> W -> PF * (X * T) * subArgs T V.
Variable intermediatePrediction : PF -> X * T -> subArgs T V -> option ((X * T) * subArgs T V).  (** [None]: exception *)
Variable adaptive : Z -> nlinfo T -> T -> option T.
Variable zeroArgs : X -> subArgs T V.     (** SubsidiaryArgs::setZero, pathfollowingfunctions.hh:58-68 *)

(** pathfollowing.hh:185-194; [None]: InvalidStateException *)
Definition pfConstruct (steps : Z) : option Z := if steps <=? 0 then None else Some steps.

Inductive pfResult :=
| Finished (s : cState) (pf : PF) (a : subArgs T V)
| Threw (s : cState).            (** exception from step sizing or prediction *)

Definition withStep (a : subArgs T V) (st : T) (n : Z) : subArgs T V :=
  mkArgs st (a_DD a) (a_Dlambda a) (a_f a) (a_dfdDD a) (a_dfdDlambda a) n.

(** One call of the solver and its bookkeeping, pathfollowing.inl:44-45 *)
Definition pfSolve (pf : PF) (a : subArgs T V) (s : cState) : cState * subArgs T V * nlinfo T :=
  let '(req, a', w, i) := psolve pf (k_x s, k_p s) a (k_w s) in
  (updateAndNotify i (mkCS (fst req) (snd req) w (k_info s) (k_step s) (k_size s) (k_trace s)), a', i).

(** pathfollowing.inl:58-71 *)
Fixpoint pfLoop (n : nat) (ls : Z) (pf : PF) (a : subArgs T V) (i : nlinfo T) (s : cState) : pfResult :=
  match n with
  | O => Finished (setSuccess (cemit CONTROL_ENDED s)) pf a
  | S n' =>
      let s1 := mkCS (k_x s) (k_p s) (k_w s) (k_info s) ls (k_size s) (k_trace s) in
      match adaptive ls i (a_stepSize a) with
      | None => Threw s1
      | Some st =>
          match intermediatePrediction pf (k_x s1, k_p s1) (withStep a st ls) with
          | None => Threw s1
          | Some (req, a2) =>
              let s2 := cemit STEP_STARTED (mkCS (fst req) (snd req) (k_w s1) (k_info s1) ls (a_stepSize a2) (k_trace s1)) in
              let '(s3, a3, i') := pfSolve pf a2 s2 in
              if i_success i' then pfLoop n' (ls + 1) pf a3 i' s3 else Finished s3 pf a3
          end
      end
  end.

(** pathfollowing.inl:28-77; [aPrev] are the arguments left by an earlier run, overwritten by setZero *)
Definition pfRun (steps : Z) (stepSize : T) (pf : PF) (x : X) (p : T) (w : W) : pfResult :=
  let a0 := zeroArgs x in
  let s0 := cemit CONTROL_STARTED (mkCS x p w (mkCInfo false [] 0) (-1) t0 []) in
  let a1 := withStep a0 stepSize (a_step a0) in
  let s1 := cemit STEP_STARTED s0 in
  let '(s2, a2, i) := pfSolve pf a1 s1 in
  if i_success i then
    let s3 := cemit STEP_STARTED (mkCS (k_x s2) (k_p s2) (k_w s2) (k_info s2) 0 stepSize (k_trace s2)) in
    let '(pf', req, a3) := initialPrediction pf (k_x s3, k_p s3) a2 (k_w s3) in
    let '(s4, a4, i') := pfSolve pf' a3 (mkCS (fst req) (snd req) (k_w s3) (k_info s3) (k_step s3) (k_size s3) (k_trace s3)) in
    if i_success i' then pfLoop (Z.to_nat (steps - 1)) 1 pf' a4 i' s4 else Finished s4 pf' a4
  else Finished s2 pf a2.

End Control.
