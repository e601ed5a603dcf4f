(** Model of inhomogeneous Dirichlet conditions in the nonlinear solvers: ikarus/utils/functionhelper.hh (obtainForcesDueToIDBC),
    ikarus/solver/nonlinearsolver/nonlinearsolverfactory.hh (updateFunctor, IDBCForceFunction) and their use by NewtonRaphson and LoadControl.

    Numbers are elements of a field.  [value] and [derivative] are evaluateInhomogeneousBoundaryCondition and ...Derivative as functions of the
    load factor (dirichletvalues.hh:244-281; Dirichlet_Model has them as sums over the stored functions).  The assembler is bound to the
    requirement that is solved for: obtainForcesDueToIDBC ignores its argument and uses the bound one. *)

Set Warnings "-notation-overridden,-ambiguous-paths".
From Coq Require Import ZArith.
From mathcomp Require Import ssreflect ssrfun ssrbool eqtype ssrnat seq fintype bigop ssralg matrix.
From Verif Require Import Newton_Model Control_Model Condensation_Model.
Import GRing.Theory.
Local Open Scope ring_scope.

(** assembler/dirichletbcenforcement.hh 8, without Raw *)
Inductive dbcOpt := DFull | DReduced.

Section Idbc.
Variables (F : fieldType) (n : nat) (c : 'I_n -> bool).
Definition free := [pred i : 'I_n | ~~ c i].
(** the free dofs in ascending order *)
Definition freeDof (i : 'I_#|free|) : 'I_n := enum_val i.

Definition dimOf (o : dbcOpt) : nat := match o with DFull => n | DReduced => #|free| end.
(** What the assembler makes of raw vectors and matrices (simpleassemblers.inl; C04, C05). *)
Definition treatV (o : dbcOpt) : 'cV[F]_n -> 'cV[F]_(dimOf o) :=
  match o return 'cV[F]_n -> 'cV[F]_(dimOf o) with DFull => fullV F n c | DReduced => gather F n _ freeDof end.
Definition treatM (o : dbcOpt) : 'M[F]_n -> 'M[F]_(dimOf o) :=
  match o return 'M[F]_n -> 'M[F]_(dimOf o) with DFull => fullM F n c | DReduced => fun K => \matrix_(i, j) K (freeDof i) (freeDof j) end.
(** updateFunctor, nonlinearsolverfactory.hh:34-46: corrections of reduced size are extended by zeros. *)
Definition expandV (o : dbcOpt) : 'cV[F]_(dimOf o) -> 'cV[F]_n :=
  match o return 'cV[F]_(dimOf o) -> 'cV[F]_n with DFull => id | DReduced => scatterV F n _ freeDof end.

Variables value derivative : F -> 'cV[F]_n.

(** functionhelper.hh:168-186; [K] is matrix(DBCOption::Raw).  The derivative is taken at load factor 1.0. *)
Definition obtainForcesDueToIDBC (o : dbcOpt) (K : 'M[F]_n) : 'cV[F]_(dimOf o) := treatV o (K *m derivative 1).

(** updateFunctor with syncFERequirements, 47-56; FloatCmp::ne(v, 0.0) is v != 0. *)
Definition syncIdbc (d : 'cV[F]_n * F) : 'cV[F]_n * F :=
  (\col_i (if value d.2 i ord0 == 0 then d.1 i ord0 else value d.2 i ord0), d.2).

(** NewtonRaphson made by the factory with IDBC forces; [internal] and [tangent] are the raw residual and matrix. *)
Variables (W : Type) (gt : F -> F -> bool) (inf : F) (o : dbcOpt) (raw : W -> 'cV[F]_n * F -> 'cV[F]_n) (rawM : W -> 'cV[F]_n * F -> 'M[F]_n)
  (norm : 'cV[F]_(dimOf o) -> F) (lsolve : 'M[F]_(dimOf o) -> 'cV[F]_(dimOf o) -> 'cV[F]_(dimOf o))
  (listen : nlmsg -> nlinfo F -> 'cV[F]_(dimOf o) -> 'cV[F]_n * F -> W -> W) (st : nrSettings F).

(** newtonraphson.hh:214-217 *)
Definition addForces (stepSize : F) (w : W) (d : 'cV[F]_n * F) (r : 'cV[F]_(dimOf o)) : 'cV[F]_(dimOf o) :=
  r + stepSize *: obtainForcesDueToIDBC o (rawM w d).
Definition updateX (d : 'cV[F]_n * F) (b : 'cV[F]_(dimOf o)) : 'cV[F]_n * F := (d.1 + expandV o b, d.2).

Definition idbcNewton (stepSize : F) :=
  nrSolve gt inf (fun w d => treatV o (raw w d)) (fun w d => treatM o (rawM w d)) norm norm lsolve updateX
    (Some (addForces stepSize, syncIdbc)) listen st.

(** As the solver of a LoadControl; its member correction_ is part of the outside world.  nrSolve always returns (C16). *)
Definition idbcSolve (x : 'cV[F]_n) (p stepSize : F) (w : 'cV[F]_(dimOf o) * W) : 'cV[F]_n * ('cV[F]_(dimOf o) * W) * nlinfo F :=
  match idbcNewton stepSize (x, p) w.1 w.2 with
  | Some s => ((s_d s).1, (s_c s, s_w s), s_info s)
  | None => (x, w, mkInfo false 0 0 0%Z)
  end.

Definition idbcLoadControl clisten (loadSteps : Z) (stepSize : F) x p w :=
  lcRun clisten (fun a b => a + b) 0 idbcSolve (fun x p => (syncIdbc (x, p)).1) (loadSteps, stepSize) x p w.
End Idbc.
