(** Model of elements with internal variables that are condensed statically:
    ikarus/finiteelements/mechanics/enhancedassumedstrains.hh and assumedstress.hh, driven by the messages of the Newton solvers.

    Numbers are elements of a field.  What the integration loops compute (tangents, forces, coupling matrices) is a function of the element's
    displacements and of its internal state; exceptions for unsupported element types and affordances, and for corrections of another size
    than the solution (232-235, 208-212), are left out: sizes are fixed by the types.  [invmx] of a singular matrix is not the result of
    Eigen's inverse(); the theorems assume invertibility. *)

Set Warnings "-notation-overridden,-ambiguous-paths".
From mathcomp Require Import ssreflect ssrfun ssrbool eqtype ssrnat seq fintype bigop ssralg matrix.
From Verif Require Import Newton_Model.
Import GRing.Theory.
Local Open Scope ring_scope.

Section Condensation.
Variables (F : fieldType) (N m : nat).       (** number of dofs and of elements *)

(** The entries of a global vector that belong to an element, fehelper.hh localSolutionBlockVector, and the sums of the
    assembler over the elements. *)
Definition gather n (dofs : 'I_n -> 'I_N) (v : 'cV[F]_N) : 'cV[F]_n := \col_i v (dofs i) ord0.
Definition scatterV n (dofs : 'I_n -> 'I_N) (r : 'cV[F]_n) : 'cV[F]_N := \col_I \sum_(i | dofs i == I) r i ord0.
Definition scatterM n (dofs : 'I_n -> 'I_N) (K : 'M[F]_n) : 'M[F]_N :=
  \matrix_(I, J) \sum_(i | dofs i == I) \sum_(j | dofs j == J) K i j.

(** DBCOption::Full of the assemblers (simpleassemblers.inl): constrained rows and columns are replaced by those of the identity,
    constrained entries of the vector by zero. *)
Definition fullM (c : 'I_N -> bool) (K : 'M[F]_N) : 'M[F]_N := \matrix_(i, j) if c i || c j then (i == j)%:R else K i j.
Definition fullV (c : 'I_N -> bool) (r : 'cV[F]_N) : 'cV[F]_N := \col_i if c i then 0 else r i ord0.

(** [K.triangularView<Upper>() += X; K.triangularView<StrictlyLower>() = K.transpose()] *)
Definition addMirrored n (K X : 'M[F]_n) : 'M[F]_n :=
  let K1 := \matrix_(i, j) (if (i <= j)%N then K i j + X i j else K i j) in
  \matrix_(i, j) (if (i <= j)%N then K1 i j else K1 j i).

(** ** Enhanced assumed strains *)
Record easElement := mkEas {
  ee_n : nat; ee_p : nat; ee_dofs : 'I_ee_n -> 'I_N;
  ee_K : 'cV[F]_ee_n -> 'cV[F]_ee_p -> 'M[F]_ee_n;        (** enhancedassumedstrains.hh:274-289 *)
  ee_f : 'cV[F]_ee_n -> 'cV[F]_ee_p -> 'cV[F]_ee_n;       (** 327-336, with the loads of other skills *)
  ee_D : 'cV[F]_ee_n -> 'cV[F]_ee_p -> 'M[F]_ee_p;        (** 378-410 *)
  ee_L : 'cV[F]_ee_n -> 'cV[F]_ee_p -> 'M[F]_(ee_p, ee_n);
  ee_R : 'cV[F]_ee_n -> 'cV[F]_ee_p -> 'cV[F]_ee_p }.     (** 412-434 *)

(** calculateMatrixImpl, 291-296 *)
Definition easMatrix (e : easElement) u a : 'M[F]_(ee_n e) :=
  addMirrored _ (ee_K e u a) (- ((ee_L e u a)^T *m invmx (ee_D e u a) *m ee_L e u a)).
(** calculateVectorImpl, 337-346 *)
Definition easVector (e : easElement) u a : 'cV[F]_(ee_n e) := ee_f e u a - (ee_L e u a)^T *m invmx (ee_D e u a) *m ee_R e u a.
(** updateStateImpl, 225-248 *)
Definition easUpdate (e : easElement) u du a : 'cV[F]_(ee_p e) := a - invmx (ee_D e u a) *m (ee_R e u a + ee_L e u a *m du).
(** calculateAtImpl for linear stresses, 152-157 *)
Definition easLinearAlpha (e : easElement) u a : 'cV[F]_(ee_p e) := - invmx (ee_D e u a) *m ee_L e u a *m u.

Section EasMesh.
Variables (c : 'I_N -> bool) (els : 'I_m -> easElement).
Definition easState := forall k, 'cV[F]_(ee_p (els k)).

Definition easResidual (w : easState) (x : 'cV[F]_N) : 'cV[F]_N :=
  fullV c (\sum_k scatterV _ (ee_dofs (els k)) (easVector (els k) (gather _ (ee_dofs (els k)) x) (w k))).
Definition easTangent (w : easState) (x : 'cV[F]_N) : 'M[F]_N :=
  fullM c (\sum_k scatterM _ (ee_dofs (els k)) (easMatrix (els k) (gather _ (ee_dofs (els k)) x) (w k))).

(** subscribeToImpl, 350-359 *)
Definition easListen {T} (msg : nlmsg) (_ : nlinfo T) (corr x : 'cV[F]_N) (w : easState) : easState :=
  match msg with
  | CORRECTION_UPDATED => fun k => easUpdate (els k) (gather _ (ee_dofs (els k)) x) (gather _ (ee_dofs (els k)) corr) (w k)
  | _ => w
  end.
End EasMesh.

(** ** Assumed stresses; the state consists of beta and of what the material inversion returned for it *)
Record asElement := mkAs {
  ae_n : nat; ae_p : nat; ae_inv : Type; ae_dofs : 'I_ae_n -> 'I_N;
  ae_inversion : ae_inv -> 'cV[F]_ae_p -> ae_inv;                   (** calculateMaterialInversion, assumedstress.hh:443-456, started at the old strains *)
  ae_K : 'cV[F]_ae_n -> 'cV[F]_ae_p -> 'M[F]_ae_n;                  (** 253-263 *)
  ae_f : 'cV[F]_ae_n -> 'cV[F]_ae_p -> 'cV[F]_ae_n;                 (** 326-333, with the loads of other skills *)
  ae_G : 'cV[F]_ae_n -> 'cV[F]_ae_p -> 'M[F]_(ae_p, ae_n);          (** 376-409 *)
  ae_H : 'cV[F]_ae_p -> ae_inv -> 'M[F]_ae_p;
  ae_R : 'cV[F]_ae_n -> 'cV[F]_ae_p -> ae_inv -> 'cV[F]_ae_p }.     (** 411-441 *)

(** calculateMatrixImpl, 265-269 *)
Definition asMatrix (e : asElement) u (s : 'cV[F]_(ae_p e) * ae_inv e) : 'M[F]_(ae_n e) :=
  addMirrored _ (ae_K e u s.1) ((ae_G e u s.1)^T *m invmx (ae_H e s.1 s.2) *m ae_G e u s.1).
(** calculateVectorImpl, 335-338 *)
Definition asVector (e : asElement) u (s : 'cV[F]_(ae_p e) * ae_inv e) : 'cV[F]_(ae_n e) :=
  ae_f e u s.1 + (ae_G e u s.1)^T *m invmx (ae_H e s.1 s.2) *m ae_R e u s.1 s.2.
(** updateStateImpl, 205-227 *)
Definition asUpdate (e : asElement) u du (s : 'cV[F]_(ae_p e) * ae_inv e) : 'cV[F]_(ae_p e) * ae_inv e :=
  let b := s.1 + invmx (ae_H e s.1 s.2) *m (ae_R e u s.1 s.2 + ae_G e u s.1 *m du) in
  (b, ae_inversion e s.2 b).
(** calculateAtImpl for linear stresses, 141-147 *)
Definition asLinearBeta (e : asElement) u (s : 'cV[F]_(ae_p e) * ae_inv e) : 'cV[F]_(ae_p e) :=
  invmx (ae_H e s.1 s.2) *m (ae_G e u s.1 *m u).

Section AsMesh.
Variables (c : 'I_N -> bool) (els : 'I_m -> asElement).
Definition asState := forall k, ('cV[F]_(ae_p (els k)) * ae_inv (els k))%type.

Definition asResidual (w : asState) (x : 'cV[F]_N) : 'cV[F]_N :=
  fullV c (\sum_k scatterV _ (ae_dofs (els k)) (asVector (els k) (gather _ (ae_dofs (els k)) x) (w k))).
Definition asTangent (w : asState) (x : 'cV[F]_N) : 'M[F]_N :=
  fullM c (\sum_k scatterM _ (ae_dofs (els k)) (asMatrix (els k) (gather _ (ae_dofs (els k)) x) (w k))).

(** subscribeToImpl, 343-352 *)
Definition asListen {T} (msg : nlmsg) (_ : nlinfo T) (corr x : 'cV[F]_N) (w : asState) : asState :=
  match msg with
  | CORRECTION_UPDATED => fun k => asUpdate (els k) (gather _ (ae_dofs (els k)) x) (gather _ (ae_dofs (els k)) corr) (w k)
  | _ => w
  end.
(** initializeState, 368-374, from the inversion results [old] stored before *)
Definition asInitial (old : forall k, ae_inv (els k)) : asState := fun k => (0, ae_inversion (els k) (old k) 0).
End AsMesh.
End Condensation.
