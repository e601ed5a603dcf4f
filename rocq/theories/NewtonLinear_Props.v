(** Properties C20 and C21: one Newton step over exact arithmetic, in every dimension and over every field. *)

Set Warnings "-notation-overridden,-ambiguous-paths".
From Coq Require Import ZArith.
From mathcomp Require Import ssreflect ssrfun ssrbool eqtype ssrnat seq fintype ssralg matrix.
From Verif Require Import Newton_Model Newton_Spec Newton_Proofs.
Import GRing.Theory.
Local Open Scope ring_scope.

(** ** C20: affine residual [A x + b] with tangent [A] and an exact linear solver *)
Theorem C20_affine_one_iteration (F : fieldType) (n : nat) (A : 'M[F]_n) (b : 'cV[F]_n) (T W : Type) (gt : T -> T -> bool) (inf : T)
    (norm cnorm : 'cV[F]_n -> T) (lsolve : 'M[F]_n -> 'cV[F]_n -> 'cV[F]_n) listen (st : nrSettings T) (x c : 'cV[F]_n) (w : W) :
  (forall r, A *m lsolve A r = - r) ->
  gt (norm (A *m x + b)) (nr_tol st) = true -> gt (norm 0) (nr_tol st) = false ->
  (nr_minIter st <= 1)%Z -> (1 < nr_maxIter st)%Z ->
  exists s, nrSolve gt inf (fun _ y => A *m y + b) (fun _ _ => A) norm cnorm lsolve (fun y dy => y + dy) None listen st x c w = Some s /\
    i_iter (s_info s) = 1%Z /\ i_success (s_info s) = true /\ A *m s_d s + b = 0.
Proof.
move=> ex g0 g1 mi ma.
have zero : A *m (x + lsolve A (A *m x + b)) + b = 0.
  by rewrite mulmxDr ex addrAC subrr.
case: (nrSolve_one gt inf (fun _ y => A *m y + b) (fun (_ : W) (_ : 'cV[F]_n) => A) norm cnorm lsolve (fun y dy => y + dy) None listen st x c w).
- by [].
- by move=> w1; rewrite /nrCond g0 /=; case: (Z.ltb_spec 0 (nr_maxIter st)) => //; Lia.lia.
- move=> w1 w2 w3; rewrite zero /nrCond g1 /=. by case: (Z.ltb_spec 1 (nr_minIter st)) => //; Lia.lia.
- by [].
- move=> s [w1 [e [ei [es ed]]]]. exists s. by rewrite ed zero.
Qed.

(** The solver [-A^-1 r] is exact for an invertible tangent, so the hypothesis can be met. *)
Lemma exact_solver (F : fieldType) (n : nat) (A : 'M[F]_n) : A \in unitmx -> forall r : 'cV[F]_n, A *m (- (invmx A *m r)) = - r.
Proof. by move=> u r; rewrite mulmxN mulmxA mulmxV // mul1mx. Qed.

(** ** C21: each correction of the subsidiary Newton method solves the bordered system *)
(** The scalar product of two columns. *)
Definition dotv (F : fieldType) (n : nat) (u v : 'cV[F]_n) : F := (u^T *m v) ord0 ord0.

Theorem C21_bordered_system (F : fieldType) (n : nat) (A : 'M[F]_n) (rx fext : 'cV[F]_n) (a : subArgs F 'cV[F]_n)
    (lsolve : 'M[F]_n -> 'cV[F]_n -> 'cV[F]_n) dD dl :
  (forall r, A *m lsolve A r = r) ->
  dotv _ _ (a_dfdDD a) (lsolve A fext) + a_dfdDlambda a != 0 ->
  subsidiaryCorrection +%R (fun p q => p - q) (fun p q => p / q) -%R +%R -%R (fun l v => l *: v) (@dotv F n) lsolve A rx fext a = (dD, dl) ->
  A *m dD - dl *: fext = - rx /\ dotv _ _ (a_dfdDD a) dD + a_dfdDlambda a * dl = - a_f a.
Proof.
move=> ex den [] <- <-. set l := (_ / _). split.
  by rewrite mulmxDr -scalemxAr !ex addrK.
have lin (u v v' : 'cV[F]_n) k : dotv _ _ u (v + k *: v') = dotv _ _ u v + k * dotv _ _ u v'.
  by rewrite /dotv mulmxDr -scalemxAr !mxE.
rewrite lin (mulrC l) -addrA -mulrDl /l mulrCA divff // mulr1. by rewrite addrC subrK.
Qed.

(** Second column of the right-hand side with IDBC forces: the load vector minus the IDBC force. *)
Theorem C21_bordered_system_idbc (F : fieldType) (n : nat) (W : Type) (A : 'M[F]_n) (rx fext0 : 'cV[F]_n) (a : subArgs F 'cV[F]_n)
    (lsolve : 'M[F]_n -> 'cV[F]_n -> 'cV[F]_n) (force : W -> 'cV[F]_n * F -> 'cV[F]_n) sync w d dD dl :
  (forall r, A *m lsolve A r = r) ->
  dotv _ _ (a_dfdDD a) (lsolve A (fext0 - force w d)) + a_dfdDlambda a != 0 ->
  subsidiaryCorrection +%R (fun p q => p - q) (fun p q => p / q) -%R +%R -%R (fun l v => l *: v) (@dotv F n) lsolve A rx
    (loadColumn (fun p q => p - q) (Some (force, sync)) w d fext0) a = (dD, dl) ->
  A *m dD + dl *: force w d - dl *: fext0 = - rx /\ dotv _ _ (a_dfdDD a) dD + a_dfdDlambda a * dl = - a_f a.
Proof.
move=> ex den e. have [h1 h2] := C21_bordered_system F n A rx (fext0 - force w d) a lsolve dD dl ex den e. split=> //.
by rewrite -h1 scalerBr opprB addrA.
Qed.

(** Non-vacuity over the rationals, dimension 1: tangent 2, residual 3, load 1, load control with f = 5. *)
From mathcomp Require Import rat ssrint ssrnum.
Example C21_ex : let A : 'M[rat]_1 := 2%:R%:M in
  let a := mkArgs (0 : rat) (0 : 'cV[rat]_1) 0 5%:R 0 1 Z0 in
  exists dD dl, subsidiaryCorrection +%R (fun p q => p - q) (fun p q => p / q) -%R +%R -%R (fun l v => l *: v) (@dotv _ 1) (fun M r => invmx M *m r) A (3%:R%:M : 'cV[rat]_1) (1%:M : 'cV[rat]_1) a = (dD, dl)
   /\ dotv _ _ (a_dfdDD a) (invmx A *m (1%:M : 'cV[rat]_1)) + a_dfdDlambda a != 0 /\ (forall r : 'cV[rat]_1, A *m (invmx A *m r) = r).
Proof.
do 2 eexists; split; first by []. split.
  by rewrite /dotv /= trmx0 mul0mx mxE add0r oner_eq0.
by move=> r; rewrite mulmxA mulmxV ?mul1mx // unitmxE det_scalar unitrX // unitfE.
Qed.

Print Assumptions C20_affine_one_iteration.
Print Assumptions C21_bordered_system.
Print Assumptions C21_bordered_system_idbc.
