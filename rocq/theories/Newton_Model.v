(** Model of the Newton-Raphson solvers:
    ikarus/solver/nonlinearsolver/newtonraphson.hh and newtonraphsonwithscalarsubsidiaryfunction.hh.

    The numbers, vectors, matrices, residual, tangent, linear solver and update are parameters.  Registered listeners receive const
    references: they can change only state outside the solver, e.g. internal variables of elements (enhanced strains), collected in
    the type [W] on which residual and tangent may depend.  Simplifications: listeners, residual and linear solver do not throw;
    analyzePattern has no observable effect. *)

From Coq Require Import List ZArith Bool.
Import ListNotations.
Local Open Scope Z_scope.

(** utils/broadcaster/broadcastermessages.hh, NonLinearSolverMessages *)
Inductive nlmsg := INIT | ITERATION_STARTED | ITERATION_ENDED | RESIDUALNORM_UPDATED | CORRECTIONNORM_UPDATED
                 | CORRECTION_UPDATED | SOLUTION_CHANGED | FINISHED_SUCESSFULLY.

(** solverinfos.hh:22-34 *)
Record nlinfo (T : Type) := mkInfo { i_success : bool; i_res : T; i_corr : T; i_iter : Z }.
Arguments mkInfo {T}. Arguments i_success {T}. Arguments i_res {T}. Arguments i_corr {T}. Arguments i_iter {T}.

(** newtonraphson.hh:27-32 *)
Record nrSettings (T : Type) := mkNRSettings { nr_tol : T; nr_maxIter : Z; nr_minIter : Z }.
Arguments mkNRSettings {T}. Arguments nr_tol {T}. Arguments nr_maxIter {T}. Arguments nr_minIter {T}.

(** newtonraphson.hh:180-185; [None]: InvalidStateException *)
Definition nrSetup {T} (s : nrSettings T) : option (nrSettings T) :=
  if nr_maxIter s <? nr_minIter s then None else Some s.

Section NR.
Context {T D R J C W : Type}.
Variable gt : T -> T -> bool.              (** [a > b]; false when NaN is involved *)
Variable inf : T.
Variable residual : W -> D -> R.
Variable jacobian : W -> D -> J.
Variable rnorm : R -> T.
Variable cnorm : C -> T.
Variable lsolve : J -> R -> C.             (** the correction -A^-1 r *)
Variable update : D -> C -> D.
(** For an IDBC force function: [rx += idbcForce(x)*stepSize], and syncParameterAndGlobalSolution. *)
Variable idbc : option ((W -> D -> R -> R) * (D -> D)).
Variable listen : nlmsg -> nlinfo T -> C -> D -> W -> W.

(** Everything observable while the solver runs: the solution, the correction, the information, the outside world and the messages
    sent (newest last) with the information, correction and solution the listeners see. *)
Record nrState := mkNR { s_d : D; s_c : C; s_info : nlinfo T; s_w : W; s_trace : list (nlmsg * nlinfo T * C * D) }.

Definition emit (m : nlmsg) (s : nrState) : nrState :=
  mkNR (s_d s) (s_c s) (s_info s) (listen m (s_info s) (s_c s) (s_d s) (s_w s))
       (s_trace s ++ [(m, s_info s, s_c s, s_d s)]).

Definition setInfo (s : nrState) (i : nlinfo T) : nrState := mkNR (s_d s) (s_c s) i (s_w s) (s_trace s).

(** Loop body, newtonraphson.hh:220-249. Result: state, residual, tangent and residual norm. *)
Definition nrBody (iter : Z) (rx : R) (ax : J) (s0 : nrState) : nrState * R * J * T :=
  let s1 := emit ITERATION_STARTED s0 in
  let c := lsolve ax rx in
  let i := s_info s1 in
  let s2 := emit CORRECTION_UPDATED (mkNR (s_d s1) c (mkInfo (i_success i) (i_res i) (cnorm c) (i_iter i)) (s_w s1) (s_trace s1)) in
  let d1 := update (s_d s2) c in
  let d2 := match idbc with None => d1 | Some (_, sync) => sync d1 end in
  let s3 := emit CORRECTIONNORM_UPDATED (mkNR d2 (s_c s2) (s_info s2) (s_w s2) (s_trace s2)) in
  let s4 := emit SOLUTION_CHANGED s3 in
  let rx' := residual (s_w s4) (s_d s4) in
  let ax' := jacobian (s_w s4) (s_d s4) in
  let rn := rnorm rx' in
  let i4 := s_info s4 in
  let s5 := emit RESIDUALNORM_UPDATED (setInfo s4 (mkInfo (i_success i4) rn (i_corr i4) (i_iter i4))) in
  let i5 := s_info s5 in
  let s6 := emit ITERATION_ENDED (setInfo s5 (mkInfo (i_success i5) (i_res i5) (i_corr i5) (iter + 1))) in
  (s6, rx', ax', rn).

(** Loop condition, 219 *)
Definition nrCond (st : nrSettings T) (rn : T) (iter : Z) : bool :=
  (gt rn (nr_tol st) && (iter <? nr_maxIter st)) || (iter <? nr_minIter st).

(** Loop, 219-250. [None]: out of fuel (does not happen with the fuel given by nrSolve, see C16). *)
Fixpoint nrLoop (fuel : nat) (st : nrSettings T) (iter : Z) (rx : R) (ax : J) (rn : T) (s : nrState) : option (Z * nrState) :=
  if nrCond st rn iter then
    match fuel with
    | O => None
    | S f => let '(s', rx', ax', rn') := nrBody iter rx ax s in nrLoop f st (iter + 1) rx' ax' rn' s'
    end
  else Some (iter, s).

(** 251-256 *)
Definition nrFinish (st : nrSettings T) (iter : Z) (s : nrState) : nrState :=
  let i := s_info s in
  let succ := if iter =? nr_maxIter st then false else i_success i in
  let s' := setInfo s (mkInfo succ (i_res i) (i_corr i) iter) in
  if succ then emit FINISHED_SUCESSFULLY s' else s'.

(** 199-217 *)
Definition nrStart (x : D) (c : C) (w : W) : nrState * R * J * T :=
  let s0 := emit INIT (mkNR x c (mkInfo false inf inf (-1)) w []) in
  let rx := residual (s_w s0) (s_d s0) in
  let ax := jacobian (s_w s0) (s_d s0) in
  let rn := rnorm rx in
  let s1 := setInfo s0 (mkInfo true rn inf (-1)) in
  match idbc with
  | None => (s1, rx, ax, rn)
  | Some (addForce, _) => let rx' := addForce (s_w s1) (s_d s1) rx in (s1, rx', ax, rnorm rx')
  end.

(** solve, 193-257; [c] is the stale member correction_. *)
Definition nrSolve (st : nrSettings T) (x : D) (c : C) (w : W) : option nrState :=
  let '(s, rx, ax, rn) := nrStart x c w in
  match nrLoop (Z.to_nat (Z.max (nr_maxIter st) (nr_minIter st))) st 0 rx ax rn s with
  | Some (iter, s') => Some (nrFinish st iter s')
  | None => None
  end.

End NR.

(** * Newton-Raphson with scalar subsidiary function *)

(** pathfollowingfunctions.hh:48-56 *)
Record subArgs (T V : Type) := mkArgs { a_stepSize : T; a_DD : V; a_Dlambda : T; a_f : T; a_dfdDD : V; a_dfdDlambda : T; a_step : Z }.
Arguments mkArgs {T V}. Arguments a_stepSize {T V}. Arguments a_DD {T V}. Arguments a_Dlambda {T V}. Arguments a_f {T V}.
Arguments a_dfdDD {T V}. Arguments a_dfdDlambda {T V}. Arguments a_step {T V}.

Section NRS.
Context {T V J W : Type}.
Variables (tadd tsub tmul tdiv : T -> T -> T) (topp tsqrt : T -> T) (t1 inf : T).
Variable gt : T -> T -> bool.
Variables (vadd vsub : V -> V -> V) (vopp : V -> V) (vscale : T -> V -> V) (vdot : V -> V -> T) (vzeroLike : V -> V).
Variable residual : W -> V * T -> V.       (** domain: global solution and load factor *)
Variable jacobian : W -> V * T -> J.
Variable lsolve : J -> V -> V.             (** solves one column of the two-column right-hand side *)
Variable update : V -> V -> V.
Variable idbc : option ((W -> V * T -> V) * (V * T -> V)).   (** force, and the solution after syncParameterAndGlobalSolution *)
Variable listen : nlmsg -> nlinfo T -> V -> V * T -> W -> W.
Variable subsidiary : V * T -> subArgs T V -> subArgs T V.

Notation state := (@nrState T (V * T) V W).
Notation emit := (@emit T (V * T) V W listen).

(** The correction, newtonraphsonwithscalarsubsidiaryfunction.hh:257-277 *)
Definition subsidiaryCorrection (ax : J) (rx fext : V) (a : subArgs T V) : V * T :=
  let deltaDR := lsolve ax (vopp rx) in
  let deltaDL := lsolve ax fext in
  let deltalambda := tdiv (tsub (topp (a_f a)) (vdot (a_dfdDD a) deltaDR)) (tadd (vdot (a_dfdDD a) deltaDL) (a_dfdDlambda a)) in
  (vadd deltaDR (vscale deltalambda deltaDL), deltalambda).

(** Second right-hand side, 260-263 *)
Definition loadColumn (w : W) (d : V * T) (fext0 : V) : V :=
  match idbc with None => fext0 | Some (force, _) => vsub fext0 (force w d) end.

(** Loop body, 255-307 *)
Definition nrsBody (iter : Z) (fext0 : V) (rx : V) (ax : J) (a : subArgs T V) (s0 : state) : state * V * J * subArgs T V * T :=
  let s1 := emit ITERATION_STARTED s0 in
  let '(deltaD, deltalambda) := subsidiaryCorrection ax rx (loadColumn (s_w s1) (s_d s1) fext0) a in
  let s2 := emit CORRECTION_UPDATED (mkNR (s_d s1) deltaD (s_info s1) (s_w s1) (s_trace s1)) in
  let d1 := (update (fst (s_d s2)) deltaD, tadd (snd (s_d s2)) deltalambda) in
  let a1 := mkArgs (a_stepSize a) (vadd (a_DD a) deltaD) (tadd (a_Dlambda a) deltalambda) (a_f a) (a_dfdDD a) (a_dfdDlambda a) (a_step a) in
  let d2 := match idbc with None => d1 | Some (_, sync) => (sync d1, snd d1) end in
  let dn := tsqrt (tadd (vdot deltaD deltaD) (tmul deltalambda deltalambda)) in
  let rx' := residual (s_w s2) d2 in
  let ax' := jacobian (s_w s2) d2 in
  let a2 := subsidiary d2 a1 in
  let rn := tsqrt (tadd (vdot rx' rx') (tmul (a_f a2) (a_f a2))) in
  let i2 := s_info s2 in
  let s3 := emit SOLUTION_CHANGED (mkNR d2 (s_c s2) (mkInfo (i_success i2) rn dn (i_iter i2)) (s_w s2) (s_trace s2)) in
  let s4 := emit CORRECTIONNORM_UPDATED s3 in
  let s5 := emit RESIDUALNORM_UPDATED s4 in
  let i5 := s_info s5 in
  let s6 := emit ITERATION_ENDED (setInfo s5 (mkInfo (i_success i5) (i_res i5) (i_corr i5) (iter + 1))) in
  (s6, rx', ax', a2, rn).

(** Loop, 254-308 *)
Fixpoint nrsLoop (fuel : nat) (tol : T) (maxIter : Z) (iter : Z) (fext0 rx : V) (ax : J) (a : subArgs T V) (rn : T) (s : state) :
    option (Z * state * subArgs T V) :=
  if gt rn tol && (iter <? maxIter) then
    match fuel with
    | O => None
    | S f => let '(s', rx', ax', a', rn') := nrsBody iter fext0 rx ax a s in nrsLoop f tol maxIter (iter + 1) fext0 rx' ax' a' rn' s'
    end
  else Some (iter, s, a).

(** solve, 207-316.  The external load is the negative residual at zero solution and load factor one, 225-232. *)
Definition nrsSolve (tol : T) (maxIter : Z) (req : V * T) (a : subArgs T V) (c : V) (w : W) : option (state * subArgs T V) :=
  let s0 := emit INIT (mkNR req c (mkInfo false inf inf (-1)) w []) in
  let w0 := s_w s0 in
  let fext0 := vopp (residual w0 (vzeroLike (fst req), t1)) in
  let rx := residual w0 req in
  let ax := jacobian w0 req in
  let a1 := subsidiary req a in
  let rn := tsqrt (vdot rx rx) in
  let s1 := setInfo s0 (mkInfo true rn inf (-1)) in
  match nrsLoop (Z.to_nat maxIter) tol maxIter 0 fext0 rx ax a1 rn s1 with
  | Some (iter, s', a') => Some (nrFinish listen (mkNRSettings tol maxIter 0) iter s', a')
  | None => None
  end.

End NRS.
