(** Model of the path-following functions ikarus/controlroutines/pathfollowingfunctions.hh.

    Vectors are lists; numbers and their operations are parameters (exact reals in the theorems, binary64 in the counterexamples).
    Simplification: sums are taken from left to right (Eigen may reorder them), and Eigen's size assertions are not modelled. *)

From Coq Require Import List ZArith Bool.
From Verif Require Import Newton_Model.
Import ListNotations.

Section PF.
Context {T : Type}.
Variables (t0 t1 : T) (tadd tsub tmul tdiv : T -> T -> T) (tsqrt : T -> T).

Definition vplus (a b : list T) : list T := map (fun p => tadd (fst p) (snd p)) (combine a b).
Definition vminus (a b : list T) : list T := map (fun p => tsub (fst p) (snd p)) (combine a b).
Definition vscal (a : list T) (s : T) : list T := map (fun x => tmul x s) a.
Definition vdivs (a : list T) (s : T) : list T := map (fun x => tdiv x s) a.
Definition vdot (a b : list T) : T := fold_left (fun acc p => tadd acc (tmul (fst p) (snd p))) (combine a b) t0.
Definition sqNorm (a : list T) : T := vdot a a.
Definition vzero (a : list T) : list T := map (fun _ => t0) a.

(** SubsidiaryArgs::setZero, 58-68 *)
Definition argsZero (x : list T) : subArgs T (list T) := mkArgs t0 (vzero x) t0 t0 (vzero x) t0 0%Z.

Definition setF (a : subArgs T (list T)) (f : T) (d : list T) (dl : T) : subArgs T (list T) :=
  mkArgs (a_stepSize a) (a_DD a) (a_Dlambda a) f d dl (a_step a).
Definition setD (a : subArgs T (list T)) (dd : list T) (dl : T) : subArgs T (list T) :=
  mkArgs (a_stepSize a) dd dl (a_f a) (a_dfdDD a) (a_dfdDlambda a) (a_step a).

(** [None]: no IDBC force function.  [Some sync]: the solution after syncParameterAndGlobalSolution at a load factor. *)
Variable idbcSync : option (list T * T -> list T).

(** controlroutines/common.hh:63-76 *)
Definition idbcIncrement (req : list T * T) (dlambda : T) : list T :=
  match idbcSync with
  | Some sync => vminus (sync (fst req, tadd (snd req) dlambda)) (fst req)
  | None => vzero (fst req)
  end.

(** ** ArcLength, 88-203 *)
Record arcState := mkArc { arc_psi : T; arc_computed : bool }.
Definition arcInit : arcState := mkArc t0 false.

(** operator(), 102-115 *)
Definition arcEval (s : arcState) (req : list T * T) (a : subArgs T (list T)) : subArgs T (list T) :=
  let idbcDelta := idbcIncrement req (a_Dlambda a) in
  let root := tsqrt (tadd (tadd (sqNorm (a_DD a)) (sqNorm idbcDelta)) (tmul (tmul (tmul (arc_psi s) (arc_psi s)) (a_Dlambda a)) (a_Dlambda a))) in
  let f := tsub root (a_stepSize a) in
  if arc_computed s then
    let Dhat0 := vdivs idbcDelta (a_Dlambda a) in
    setF a f (vdivs (a_DD a) root) (tdiv (tmul (tadd (vdot Dhat0 Dhat0) (tmul (arc_psi s) (arc_psi s))) (a_Dlambda a)) root)
  else setF a f (vzero (a_dfdDD a)) t0.

(** initialPrediction, 132-174; [lin req] is the solution of K DD = -R (with the IDBC force added to R) at load factor 1 *)
Definition arcInitial (lin : list T * T -> list T) (s : arcState) (req : list T * T) (a : subArgs T (list T)) :
    arcState * (list T * T) * subArgs T (list T) :=
  let dlambda := t1 in
  let idbcDelta := idbcIncrement req dlambda in
  let Dhat0 := vdivs idbcDelta dlambda in
  let DD := lin (fst req, dlambda) in
  let DD2 := sqNorm DD in
  let Dhat02 := sqNorm Dhat0 in
  let psi := tsqrt (tadd DD2 Dhat02) in
  let ss := tsqrt (tadd (tadd DD2 Dhat02) (tmul (tmul (tmul psi psi) dlambda) dlambda)) in
  let DD' := vdivs (vscal DD (a_stepSize a)) ss in
  let Dl := tdiv (a_stepSize a) ss in
  let idbcDelta' := vscal idbcDelta (tdiv Dl dlambda) in
  let sol := vplus (fst req) DD' in
  let sol' := match idbcSync with Some sync => sync (sol, Dl) | None => sol end in
  let psi' := tsqrt (tdiv (tadd (sqNorm idbcDelta') (sqNorm DD')) (tmul Dl Dl)) in
  (mkArc psi' true, (sol', Dl), setD a DD' Dl).

(** intermediatePrediction, 187-195; [None]: InvalidStateException *)
Definition arcIntermediate (s : arcState) (req : list T * T) (a : subArgs T (list T)) : option ((list T * T) * subArgs T (list T)) :=
  if arc_computed s then
    let sol := vplus (fst req) (a_DD a) in
    let p := tadd (snd req) (a_Dlambda a) in
    Some (match idbcSync with Some sync => (sync (sol, p), p) | None => (sol, p) end, a)
  else None.

(** ** LoadControlSubsidiaryFunction, 217-281 (IDBC rejected at compile time); state: computedInitialPredictor *)
Definition lcsEval (s : bool) (req : list T * T) (a : subArgs T (list T)) : subArgs T (list T) :=
  setF a (tsub (a_Dlambda a) (a_stepSize a)) (vzero (a_dfdDD a)) t1.
Definition lcsInitial (s : bool) (req : list T * T) (a : subArgs T (list T)) : bool * (list T * T) * subArgs T (list T) :=
  (true, (fst req, a_stepSize a), setD a (a_DD a) (a_stepSize a)).
Definition lcsIntermediate (s : bool) (req : list T * T) (a : subArgs T (list T)) : option ((list T * T) * subArgs T (list T)) :=
  if s then Some ((fst req, tadd (snd req) (a_Dlambda a)), a) else None.

(** ** DisplacementControl, 295-370; [idx]: controlledIndices *)
Definition gather (v : list T) (idx : list nat) : list T := map (fun i => nth i v t0) idx.
Fixpoint setNth (v : list T) (i : nat) (x : T) : list T :=
  match v, i with [], _ => [] | _ :: v', O => x :: v' | y :: v', S i' => y :: setNth v' i' x end.
(** v(idx) = xs *)
Fixpoint scatter (v : list T) (idx : list nat) (xs : list T) : list T :=
  match idx, xs with i :: idx', x :: xs' => scatter (setNth v i x) idx' xs' | _, _ => v end.

(** operator(), 316-324 *)
Definition dcEval (idx : list nat) (s : bool) (req : list T * T) (a : subArgs T (list T)) : subArgs T (list T) :=
  let g := gather (a_DD a) idx in
  let n := tsqrt (sqNorm g) in
  setF a (tsub n (a_stepSize a)) (scatter (vzero (a_dfdDD a)) idx (vdivs g n)) t0.
(** initialPrediction, 337-343 *)
Definition dcInitial (idx : list nat) (s : bool) (req : list T * T) (a : subArgs T (list T)) : bool * (list T * T) * subArgs T (list T) :=
  let DD := scatter (a_DD a) idx (map (fun _ => a_stepSize a) idx) in
  (true, (DD, snd req), setD a DD (a_Dlambda a)).
(** intermediatePrediction, 356-362 *)
Definition dcIntermediate (s : bool) (req : list T * T) (a : subArgs T (list T)) : option ((list T * T) * subArgs T (list T)) :=
  if s then Some ((vplus (fst req) (a_DD a), snd req), a) else None.

End PF.
Arguments mkArc {T}. Arguments arc_psi {T}. Arguments arc_computed {T}.
