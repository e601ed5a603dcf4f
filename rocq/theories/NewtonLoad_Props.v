(** Property C93: the load vector of the subsidiary Newton method with elements that have internal variables.
    newtonraphsonwithscalarsubsidiaryfunction.hh:220-232 takes the negative residual at zero displacements and unit load factor, with the
    internal variables as they are. *)

Set Warnings "-notation-overridden,-ambiguous-paths".
From Coq Require Import Floats.
From Coq Require Import List ZArith.
From mathcomp Require Import ssreflect ssrfun ssrbool eqtype ssrnat seq fintype bigop ssralg matrix.
From Verif Require Import Newton_Model NewtonLinear_Props Condensation_Model.
Import GRing.Theory.

Section Partial.
Local Open Scope ring_scope.
Variables (F : fieldType) (n : nat) (W : Type) (internal : W -> 'cV[F]_n -> 'cV[F]_n) (q : 'cV[F]_n).
Definition loaded (w : W) (d : 'cV[F]_n * F) : 'cV[F]_n := internal w d.1 - d.2 *: q.

(** The load vector is right exactly if the internal forces vanish without displacements. *)
Theorem C93_load_vector_partial (w : W) : - loaded w (0, 1) = q <-> internal w 0 = 0.
Proof.
rewrite /loaded /= scale1r opprB; split=> [/eqP|->]; last by rewrite subr0.
by rewrite subr_eq -[X in X == _]addr0 => /eqP /addrI <-.
Qed.

(** Then a correction computed with it solves the linearised equations of equilibrium and constraint. *)
Theorem C93_correction_partial (w : W) (x : 'cV[F]_n) (l : F) (A : 'M[F]_n) (a : subArgs F 'cV[F]_n) lsolve dD dl :
  internal w 0 = 0 -> (forall r, A *m lsolve A r = r) ->
  dotv _ _ (a_dfdDD a) (lsolve A (- loaded w (0, 1))) + a_dfdDlambda a != 0 ->
  subsidiaryCorrection +%R (fun p q => p - q) (fun p q => p / q) -%R +%R -%R (fun l v => l *: v) (@dotv F n) lsolve A (loaded w (x, l)) (- loaded w (0, 1)) a = (dD, dl) ->
  A *m dD - dl *: q = - loaded w (x, l) /\ dotv _ _ (a_dfdDD a) dD + a_dfdDlambda a * dl = - a_f a.
Proof.
move=> z ex den e. have := C21_bordered_system F n A _ _ a lsolve dD dl ex den e.
by have -> : - loaded w (0, 1) = q by apply/C93_load_vector_partial.
Qed.

(** The condensed forces of a linear element vanish without displacements, whatever its internal variables are. *)
Theorem C93_linear_elements_partial (e : easElement F n) K L D : D \in unitmx ->
  (forall u a, ee_L F n e u a = L /\ ee_D F n e u a = D /\ ee_R F n e u a = L *m u + D *m a /\ ee_f F n e u a = K *m u + L^T *m a) ->
  forall a, easVector F n e 0 a = 0.
Proof. by move=> uD h a; rewrite /easVector; have [-> [-> [-> ->]]] := h 0 a; rewrite !mulmx0 !add0r -mulmxA mulKmx // subrr. Qed.
End Partial.
Print Assumptions C93_load_vector_partial.
Print Assumptions C93_correction_partial.
Print Assumptions C93_linear_elements_partial.

(** One displacement u, one internal variable a, strain energy u²/2 + u a + a²/2 + u a²/2, load 1. *)
Local Open Scope float_scope.
Definition exF (a u : float) := u + a + a * a / 2.
Definition exR (a u : float) := u + a + u * a.
Definition exL (a : float) := 1 + a.
Definition exD (u : float) := 1 + u.
Definition exResidual (a : float) (d : float * float) : float := (exF a (fst d) - exL a * exR a (fst d) / exD (fst d)) - snd d.
Definition exTangent (a : float) (d : float * float) : float := 1 - exL a * exL a / exD (fst d).
Definition exListen (m : nlmsg) (_ : nlinfo float) (c : float) (d : float * float) (a : float) : float :=
  match m with CORRECTION_UPDATED => a - (exR a (fst d) + exL a * c) / exD (fst d) | _ => a end.
(** Displacement control of u *)
Definition exControl (_ : float * float) (a : subArgs float float) : subArgs float float :=
  mkArgs (a_stepSize a) (a_DD a) (a_Dlambda a) (a_DD a - a_stepSize a) 1 0 (a_step a).
Definition exRun (u l a : float) :=
  nrsSolve PrimFloat.add PrimFloat.sub PrimFloat.mul PrimFloat.div PrimFloat.opp PrimFloat.sqrt 1 infinity (fun p q => PrimFloat.ltb q p)
    PrimFloat.add PrimFloat.sub PrimFloat.opp PrimFloat.mul PrimFloat.mul (fun _ => 0) exResidual exTangent (fun A b => b / A) PrimFloat.add None
    exListen exControl 0x1p-30 20%Z (u, l) (mkArgs 1 0 0 0 0 0 0%Z) 0 a.

(** The first correction of a run: the correction, and solution and load factor before and after it. *)
Definition firstCorrection (tr : list (nlmsg * nlinfo float * float * (float * float))) : option (float * (float * float) * (float * float)) :=
  match tr with
  | _ :: _ :: (CORRECTION_UPDATED, _, c, d) :: (SOLUTION_CHANGED, _, _, d') :: _ => Some (c, d, d')
  | _ => None
  end.
(** How far the correction is from solving A c - dlambda 1 = - r at the state where it was computed *)
Definition defect (a : float) (t : float * (float * float) * (float * float)) : float :=
  let '(c, d, d') := t in PrimFloat.abs (exTangent a d * c - (snd d' - snd d) + exResidual a d).

(** Displacement 1, a = -1/2: the internal equation holds and 5/8 is the equilibrium load.  From load factor 1 the first correction misses
    the linearised equilibrium by more than 1/32, although load and residual are exactly representable. *)
Theorem C93_load_vector_refuted : exists u l a, PrimFloat.eqb (exR a u) 0 = true /\ PrimFloat.eqb (exResidual a (u, 0x1.4p-1)) 0 = true /\
  match exRun u l a with
  | Some (s, _) => match firstCorrection (s_trace s) with Some t => PrimFloat.ltb 0x1p-5 (defect a t) = true | None => False end
  | None => False end.
Proof. exists 1, 1, (- 0x1p-1). vm_compute. auto. Qed.

(** With internal variables zero the same computation is right up to rounding. *)
Example C93_example :
  match exRun 1 1 0 with
  | Some (s, _) => match firstCorrection (s_trace s) with Some t => PrimFloat.ltb (defect 0 t) 0x1p-40 = true | None => False end
  | None => False end.
Proof. vm_compute. auto. Qed.
Print Assumptions C93_load_vector_refuted.
