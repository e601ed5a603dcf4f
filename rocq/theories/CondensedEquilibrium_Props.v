(** Property C160: what "converged" means for structures whose elements condense internal variables: the residual the Newton solver tests
    is that of the condensed equations, in which the internal variables are eliminated by their linearised equation. *)

Set Warnings "-notation-overridden,-ambiguous-paths".
From Coq Require Import ZArith.
From mathcomp Require Import ssreflect ssrfun ssrbool eqtype ssrnat seq fintype bigop ssralg matrix.
From Verif Require Import Newton_Model Newton_Spec Newton_Proofs Newton_Props Condensation_Model Condensation_Spec Condensation_Proofs NewtonState_Proofs Condensation_Props.
Import GRing.Theory.
Local Open Scope ring_scope.

Section Props.
Variables (F : fieldType) (N m : nat) (c : 'I_N -> bool).
Variables (T : Type) (gt : T -> T -> bool) (inf : T) (norm cnorm : 'cV[F]_N -> T).
Variable lsolve : 'M[F]_N -> 'cV[F]_N -> 'cV[F]_N.

(** The forces of the elements at the displacements [x] and the internal variables [w], without condensation: the first of the two
    equations of equilibrium; the second is that the internal residuals are zero. *)
Definition easForceVector (els : 'I_m -> easElement F N) (w : easState F N m els) (x : 'cV[F]_N) : 'cV[F]_N :=
  \col_i if c i then 0 else \sum_k \sum_(j | ee_dofs F N (els k) j == i) ee_f F N (els k) (local F N m els k x) (w k) j ord0.
Definition easInternal (els : 'I_m -> easElement F N) (w : easState F N m els) (x : 'cV[F]_N) : Prop :=
  forall k, ee_R F N (els k) (local F N m els k x) (w k) = 0.
Definition asForceVector (els : 'I_m -> asElement F N) (w : asState F N m els) (x : 'cV[F]_N) : 'cV[F]_N :=
  \col_i if c i then 0 else \sum_k \sum_(j | ae_dofs F N (els k) j == i) ae_f F N (els k) (localS F N m els k x) (w k).1 j ord0.
Definition asInternal (els : 'I_m -> asElement F N) (w : asState F N m els) (x : 'cV[F]_N) : Prop :=
  forall k, ae_R F N (els k) (localS F N m els k x) (w k).1 (w k).2 = 0.

(** Where the internal equations hold, the tested residual is the plain vector of forces. *)
Theorem C160_eas_residual els w x : easInternal els w x -> easResidual F N m c els w x = easForceVector els w x.
Proof.
move=> h. apply/matrixP=> i j. rewrite !mxE. case: (c i) => //.
rewrite summxE. apply: eq_bigr => k _. rewrite !mxE. apply: eq_bigr => l _.
by rewrite /easVector (h k) mulmx0 subr0.
Qed.

Theorem C160_assumed_stress_residual els w x : asInternal els w x -> asResidual F N m c els w x = asForceVector els w x.
Proof.
move=> h. apply/matrixP=> i j. rewrite !mxE. case: (c i) => //.
rewrite summxE. apply: eq_bigr => k _. rewrite !mxE. apply: eq_bigr => l _.
by rewrite /asVector (h k) mulmx0 addr0.
Qed.

Lemma easQuiet els : quiet (easListen F N m els (T := T)).
Proof. by []. Qed.
Lemma asQuiet els : quiet (asListen F N m els (T := T)).
Proof. by []. Qed.

(** C160, proved for linear elements: success after at least one iteration is equilibrium of displacements and internal variables. *)
Theorem C160_eas_linear_partial els (L : forall k, 'M[F]_(ee_p F N (els k), ee_n F N (els k))) (D : forall k, 'M[F]_(ee_p F N (els k))) st st' x corr w s :
  (forall k, linearEas F N (els k) (L k) (D k)) -> nrSetup st = Some st' -> (0 <= nr_maxIter st)%Z ->
  nrSolve gt inf (easResidual F N m c els) (easTangent F N m c els) norm cnorm lsolve (fun y dy => y + dy) None (easListen F N m els) st' x corr w = Some s ->
  i_success (s_info s) = true -> (0 < i_iter (s_info s))%Z ->
  easInternal els (s_w s) (s_d s) /\ gt (norm (easForceVector els (s_w s) (s_d s))) (nr_tol st) = false.
Proof.
move=> lin su mx run ok it.
have I : easInternal els (s_w s) (s_d s).
  move=> k. have [_ e] := lin k. have [_ [_ ->]] := e (local F N m els k (s_d s)) (s_w s k).
  by have [] := C91_eas_linear_state F N m c T gt inf norm cnorm st' lsolve els L D x corr w s k lin run it.
split=> //.
have [g [[w1 [e1 e2]] _]] := C17_success_converged_partial gt inf _ _ norm cnorm lsolve _ None _ st st' x corr w s su mx (or_introl erefl) run ok.
by rewrite -(C160_eas_residual _ _ _ I) -(e2 (easQuiet els)) -e1.
Qed.

Theorem C160_assumed_stress_linear_partial els (exact : forall k, 'cV[F]_(ae_p F N (els k)) -> ae_inv F N (els k))
  (G : forall k, 'M[F]_(ae_p F N (els k), ae_n F N (els k))) (H : forall k, 'M[F]_(ae_p F N (els k))) st st' x corr w s :
  (forall A r, (exists y, A *m y = - r) -> A *m lsolve A r = - r) ->
  (forall k u b, (ae_K F N (els k) u b)^T = ae_K F N (els k) u b) ->
  (forall k b, (ae_H F N (els k) b (exact k b))^T = ae_H F N (els k) b (exact k b)) ->
  (forall k i b, ae_inversion F N (els k) i b = exact k b) ->
  (forall k, linearAs F N m els exact k (G k) (H k)) -> upToDate F N m els exact w -> nrSetup st = Some st' -> (0 <= nr_maxIter st)%Z ->
  nrSolve gt inf (asResidual F N m c els) (asTangent F N m c els) norm cnorm lsolve (fun y dy => y + dy) None (asListen F N m els) st' x corr w = Some s ->
  i_success (s_info s) = true -> (0 < i_iter (s_info s))%Z ->
  asInternal els (s_w s) (s_d s) /\ gt (norm (asForceVector els (s_w s) (s_d s))) (nr_tol st) = false.
Proof.
move=> sol sK sH inv lin up su mx run ok it.
have [_ upe] := C90_assumed_stress_coupled_newton F N m c T gt inf norm cnorm st' lsolve sol els exact inv sK sH x corr w s up run.
have I : asInternal els (s_w s) (s_d s).
  move=> k. have [_ e] := lin k. rewrite (upe k). have [_ [_ ->]] := e (localS F N m els k (s_d s)) (s_w s k).1.
  have [-> _] := C91_assumed_stress_linear_state F N m c T gt inf norm cnorm st' lsolve sol els exact inv sK sH G H x corr w s k lin up run it.
  by rewrite subrr.
split=> //.
have [g [[w1 [e1 e2]] _]] := C17_success_converged_partial gt inf _ _ norm cnorm lsolve _ None _ st st' x corr w s su mx (or_introl erefl) run ok.
by rewrite -(C160_assumed_stress_residual _ _ _ I) -(e2 (asQuiet els)) -e1.
Qed.

(** Runs with no and with one iteration, at most two being allowed *)
Lemma runNone els tol x corr w : gt (norm (easResidual F N m c els w x)) tol = false ->
  exists s, nrSolve gt inf (easResidual F N m c els) (easTangent F N m c els) norm cnorm lsolve (fun y dy => y + dy) None (easListen F N m els)
    (mkNRSettings tol 2%Z 0%Z) x corr w = Some s /\ i_success (s_info s) = true /\ i_iter (s_info s) = 0%Z /\ s_d s = x /\ s_w s = w.
Proof.
move=> e. eexists. rewrite /nrSolve /nrStart /emit; cbn [s_d s_w s_c s_info s_trace easListen].
change (Z.to_nat _) with 2%N. by rewrite /nrLoop /nrCond; cbn [nr_tol nr_maxIter nr_minIter]; rewrite e.
Qed.

Lemma runOne els tol x corr w : let dx := lsolve (easTangent F N m c els w x) (easResidual F N m c els w x) in
  let w1 := fun k => easUpdate F N (els k) (local F N m els k x) (local F N m els k dx) (w k) in
  gt (norm (easResidual F N m c els w x)) tol -> gt (norm (easResidual F N m c els w1 (x + dx))) tol = false ->
  exists s, nrSolve gt inf (easResidual F N m c els) (easTangent F N m c els) norm cnorm lsolve (fun y dy => y + dy) None (easListen F N m els)
    (mkNRSettings tol 2%Z 0%Z) x corr w = Some s /\ i_success (s_info s) = true /\ i_iter (s_info s) = 1%Z /\ s_d s = x + dx /\ s_w s = w1.
Proof.
move=> dx w1 ne e.
have [s [run [_ [_ [ok _]]]]] := nrSolve_spec gt inf (easResidual F N m c els) (easTangent F N m c els) norm cnorm lsolve (fun y dy => y + dy) None
  (easListen F N m els) (mkNRSettings tol 2%Z 0%Z) x corr w.
exists s. split=> //. move: run. rewrite /nrSolve /nrStart.
set s1 := setInfo _ _. cbn [s_d s_w emit easListen].
change (Z.to_nat _) with 2%N. cbn [nrLoop].
rewrite {1}/nrCond; cbn [nr_tol nr_maxIter nr_minIter]; rewrite ne. change ((true && (0 <? 2)%Z) || (0 <? 0)%Z) with true. cbv iota.
have [s' [b st]] := nrBody_state (easResidual F N m c els) (easTangent F N m c els) norm cnorm lsolve (fun y dy => y + dy) (easListen F N m els)
  (fun x dx w => easListen F N m els CORRECTION_UPDATED (mkInfo false inf inf Z0) dx x w) (reactsEas F N m T inf els) 0%Z s1.
change (s_d s1) with x in b, st. change (s_w s1) with w in b, st. rewrite b.
move: st; rewrite /iterationStep; cbn [fst snd easListen]. case=> ed ew.
have {}ew : s_w s' = w1 by rewrite ew. have {}ed : s_d s' = x + dx by rewrite ed.
rewrite {1}/nrCond; cbn [nr_tol nr_maxIter nr_minIter]; rewrite ed ew e. change ((false && (0 + 1 <? 2)%Z) || (0 + 1 <? 0)%Z) with false. cbv iota.
case=> es. rewrite ok -es /nrFinish. cbn [nr_maxIter].
change ((0 + 1 =? 2)%Z) with false. cbv iota. by case: (i_success (s_info s')) => /=.
Qed.
End Props.

Print Assumptions C160_eas_residual.
Print Assumptions C160_assumed_stress_residual.
Print Assumptions C160_eas_linear_partial.
Print Assumptions C160_assumed_stress_linear_partial.

(** * Counterexamples *)
From mathcomp Require Import rat ssrint ssrnum.

(** One displacement u, one internal variable a, with the energy u^2 + u a + a^2/2 - 3/2 u^2 a and the load 1: the forces, the internal
    residual and the matrices are its derivatives. *)
Definition entry (v : 'cV[rat]_1) : rat := v ord0 ord0.
Definition exSoft : easElement rat_fieldType 1 :=
  mkEas rat_fieldType 1 1 1 id (fun _ a => (2%:R - 3%:R * entry a)%:M)
    (fun u a => (2%:R * entry u + entry a - 3%:R * entry u * entry a - 1)%:M) (fun _ _ => 1%:M)
    (fun u _ => (1 - 3%:R * entry u)%:M) (fun u a => (entry u + entry a - 3%:R / 2%:R * (entry u * entry u))%:M).
Definition exRatGt (a b : rat) : bool := (b < a)%R.
Definition exRun els (x : 'cV[rat]_1) w :=
  nrSolve exRatGt 0 (easResidual rat_fieldType 1 1 (fun _ => false) els) (easTangent rat_fieldType 1 1 (fun _ => false) els)
    (fun r => `|entry r|)%R (fun r => `|entry r|)%R (fun A r => - (invmx A *m r)) (fun y dy => y + dy) None
    (easListen rat_fieldType 1 1 els) (mkNRSettings 0 (Zpos (xO xH)) Z0) x 0 w.



Definition soft : 'I_1 -> easElement rat_fieldType 1 := fun _ => exSoft.
Lemma scalar1 (v : 'cV[rat]_1) : v = (entry v)%:M.
Proof. by apply/matrixP=> i j; rewrite (ord1 i) (ord1 j) mxE /= mulr1n. Qed.
Lemma entryM (a : rat) : entry a%:M = a.
Proof. by rewrite /entry mxE mulr1n. Qed.
Lemma localSoft k x : local rat_fieldType 1 1 soft k x = x.
Proof. by apply/matrixP=> i j; rewrite mxE (ord1 j). Qed.
Lemma invM (a : rat) : a != 0 -> invmx a%:M = a^-1%:M :> 'M[rat]_1.
Proof. move=> h. rewrite invmx_scalar //. Qed.
Lemma overId (f : 'I_1 -> rat) : \sum_(i | i == ord0) f i = f ord0.
Proof. by rewrite (bigD1 ord0) //= big1 ?addr0 // => j /andP[_]; rewrite (ord1 j). Qed.
Lemma softResidual w x : easResidual rat_fieldType 1 1 (fun _ => false) soft w x =
  (entry (ee_f _ _ exSoft x (w ord0)) - (1 - 3%:R * entry x) * entry (ee_R _ _ exSoft x (w ord0)))%:M.
Proof.
rewrite [LHS]scalar1; congr (_%:M). rewrite {1}/entry mxE big_ord_recl big_ord0 addr0 mxE overId.
rewrite /easVector -/(local rat_fieldType 1 1 soft ord0 x) localSoft.
cbn [ee_f ee_L ee_D ee_R soft exSoft]. by rewrite invmx1 mulmx1 tr_scalar_mx -scalar_mxM !entryM !mxE eqxx !mulr1n.
Qed.
Lemma softTangent w x : easTangent rat_fieldType 1 1 (fun _ => false) soft w x = 
  (2%:R - 3%:R * entry (w ord0) - (1 - 3%:R * entry x) * (1 - 3%:R * entry x))%:M.
Proof.
rewrite -[LHS]/(\matrix_(i, j) _ i j) . apply/matrixP=> i j. rewrite (ord1 i) (ord1 j) mxE /= big_ord_recl big_ord0 addr0 mxE overId overId.
rewrite /easMatrix /addMirrored -/(local rat_fieldType 1 1 soft ord0 x) localSoft.
cbn [ee_K ee_L ee_D soft exSoft]. by rewrite invmx1 mulmx1 tr_scalar_mx -scalar_mxM !mxE eqxx !mulr1n.
Qed.

(** C160 is false of elements that are not linear: the solver reports success after one iteration, the condensed residual is exactly zero, but
    neither the internal equation nor the equation of the displacements holds. *)
Theorem C160_success_refuted : exists s, exRun soft 0 (fun _ => 0) = Some s /\ i_success (s_info s) = true /\ i_iter (s_info s) = Zpos xH /\
  easResidual rat_fieldType 1 1 (fun _ => false) soft (s_w s) (s_d s) = 0 /\
  easForceVector rat_fieldType 1 1 (fun _ => false) soft (s_w s) (s_d s) ord0 ord0 = 3%:R /\
  (forall k, ee_R rat_fieldType 1 (soft k) (local rat_fieldType 1 1 soft k (s_d s)) (s_w s k) = (- (3%:R / 2%:R))%:M).
Proof.
pose w0 : easState rat_fieldType 1 1 soft := fun _ => 0.
have z : entry 0 = 0 by rewrite /entry mxE.
have r0 : easResidual rat_fieldType 1 1 (fun _ => false) soft w0 0 = (-1)%:M.
  by rewrite softResidual /= !entryM !z; congr (_%:M).
have t0 : easTangent rat_fieldType 1 1 (fun _ => false) soft w0 0 = 1%:M.
  by rewrite softTangent !z; congr (_%:M).
have dx : - (invmx (easTangent rat_fieldType 1 1 (fun _ => false) soft w0 0) *m easResidual rat_fieldType 1 1 (fun _ => false) soft w0 0) = 1%:M.
  by rewrite t0 r0 invmx1 mul1mx -scalemx1 scaleN1r opprK.
have w1 k : easUpdate rat_fieldType 1 (soft k) (local rat_fieldType 1 1 soft k 0) (local rat_fieldType 1 1 soft k 1%:M) (w0 k) = (-1)%:M.
  rewrite !localSoft /easUpdate /= !z invmx1 mul1mx mulmx1. apply/matrixP=> i j; rewrite (ord1 i) (ord1 j) !mxE /= !mulr1n. by [].
have one : entry (1%:M) = 1 by rewrite entryM.
have m1 : entry ((-1)%:M) = -1 by rewrite entryM.
have [||s [run [ok [it [ed ew]]]]] := runOne rat_fieldType 1 1 (fun _ => false) rat exRatGt 0 (fun r => `|entry r|)%R (fun r => `|entry r|)%R
  (fun A r => - (invmx A *m r)) soft 0 0 0 w0.
- by rewrite r0 m1.
- rewrite dx add0r softResidual w1 /= !entryM. by [].
rewrite dx add0r in ed. 
have {}ew k : s_w s k = (-1)%:M by rewrite ew dx w1.
exists s. split=> //. split=> //. split=> //. split; [|split].
- rewrite softResidual ed ew /= !entryM. by apply/matrixP=> i j; rewrite (ord1 i) (ord1 j) !mxE.
- rewrite mxE big_ord_recl big_ord0 addr0 overId ed ew localSoft /= mxE !entryM. by [].
- by move=> k; rewrite ed ew localSoft /= !entryM; congr (_%:M).
Qed.

(** ... and of linear elements whose internal variables do not belong to the displacements when the solver starts: the condensed residual does
    not depend on them, so that a solution is accepted at once and the internal variables are left as they are. *)
Definition exLinear : easElement rat_fieldType 1 :=
  mkEas rat_fieldType 1 1 1 id (fun _ _ => 2%:R%:M) (fun u a => (2%:R * entry u + entry a - 1)%:M) (fun _ _ => 1%:M) (fun _ _ => 1%:M)
    (fun u a => 1%:M *m u + 1%:M *m a).
Theorem C160_start_refuted (a : rat) : linearEas rat_fieldType 1 exLinear 1%:M 1%:M /\
  exists s, exRun (fun _ => exLinear) 1%:M (fun _ => a%:M) = Some s /\ i_success (s_info s) = true /\ i_iter (s_info s) = Z0 /\ s_d s = 1%:M /\
  (forall k, ee_R rat_fieldType 1 exLinear (local rat_fieldType 1 1 (fun _ => exLinear) k (s_d s)) (s_w s k) = (1 + a)%:M) /\
  easForceVector rat_fieldType 1 1 (fun _ => false) (fun _ => exLinear) (s_w s) (s_d s) ord0 ord0 = 1 + a.
Proof.
have loc k x : local rat_fieldType 1 1 (fun _ => exLinear) k x = x by apply/matrixP=> i j; rewrite mxE (ord1 j).
split; first by split; [rewrite unitmx1|].
pose w0 : easState rat_fieldType 1 1 (fun _ => exLinear) := fun _ => a%:M.
have r0 : easResidual rat_fieldType 1 1 (fun _ => false) (fun _ => exLinear) w0 1%:M = 0.
  apply/matrixP=> i j; rewrite (ord1 i) (ord1 j) mxE big_ord_recl big_ord0 addr0 mxE overId.
  rewrite /easVector -/(local rat_fieldType 1 1 (fun _ => exLinear) ord0 1%:M) loc. cbn [ee_f ee_L ee_D ee_R exLinear]. rewrite invmx1 tr_scalar_mx !mul1mx /w0 !entryM !mxE eqxx !mulr1n.
  by apply/eqP; rewrite mulr1 subr_eq0 subr_eq addrAC.
have [|s [run [ok [it [ed ew]]]]] := runNone rat_fieldType 1 1 (fun _ => false) rat exRatGt 0 (fun r => `|entry r|)%R (fun r => `|entry r|)%R
  (fun A r => - (invmx A *m r)) (fun _ => exLinear) 0 1%:M 0 w0; first by rewrite r0 /entry mxE.
exists s; split=> //; split=> //; split=> //; split=> //; split.
- move=> k; rewrite ed ew loc /= !mul1mx. by apply/matrixP=> i j; rewrite !mxE -mulrnDl.
- rewrite mxE big_ord_recl big_ord0 addr0 overId ed ew loc /= mxE !entryM eqxx mulr1n mulr1. by rewrite addrAC.
Qed.
Print Assumptions C160_success_refuted.
Print Assumptions C160_start_refuted.

(** Non-vacuity of the partial theorems: from zero displacements the linear element takes one iteration *)
Example C160_applies : (forall k : 'I_1, linearEas rat_fieldType 1 exLinear 1%:M 1%:M) /\
  exists s, exRun (fun _ => exLinear) 0 (fun _ => 0) = Some s /\ i_success (s_info s) = true /\ i_iter (s_info s) = Zpos xH /\ s_d s = 1%:M.
Proof.
have loc k x : local rat_fieldType 1 1 (fun _ => exLinear) k x = x by apply/matrixP=> i j; rewrite mxE (ord1 j).
split; first by split; [rewrite unitmx1|].
pose w0 : easState rat_fieldType 1 1 (fun _ => exLinear) := fun _ => 0.
have z : entry 0 = 0 by rewrite /entry mxE.
have R w x : easResidual rat_fieldType 1 1 (fun _ => false) (fun _ => exLinear) w x = (entry x - 1)%:M.
  apply/matrixP=> i j; rewrite (ord1 i) (ord1 j) mxE big_ord_recl big_ord0 addr0 mxE overId.
  rewrite /easVector -/(local rat_fieldType 1 1 (fun _ => exLinear) ord0 x) loc. cbn [ee_f ee_L ee_D ee_R exLinear]. rewrite invmx1 tr_scalar_mx !mul1mx !mxE eqxx !mulr1n.
  rewrite -!/(entry _). by apply/eqP; rewrite subr_eq addrA [entry x - 1 + _]addrAC addrAC -mulr2n mulr_natl.
have t0 : easTangent rat_fieldType 1 1 (fun _ => false) (fun _ => exLinear) w0 0 = 1%:M.
  apply/matrixP=> i j; rewrite (ord1 i) (ord1 j) mxE /= big_ord_recl big_ord0 addr0 mxE !overId.
  rewrite /easMatrix /addMirrored. cbn [ee_K ee_L ee_D exLinear]. by rewrite invmx1 !mulmx1 tr_scalar_mx !mxE.
have dx : - (invmx (easTangent rat_fieldType 1 1 (fun _ => false) (fun _ => exLinear) w0 0) *m
    easResidual rat_fieldType 1 1 (fun _ => false) (fun _ => exLinear) w0 0) = 1%:M.
  by rewrite t0 R z sub0r invmx1 mul1mx -scalemx1 scaleN1r opprK.
have [||s [run [ok [it [ed ew]]]]] := runOne rat_fieldType 1 1 (fun _ => false) rat exRatGt 0 (fun r => `|entry r|)%R (fun r => `|entry r|)%R
  (fun A r => - (invmx A *m r)) (fun _ => exLinear) 0 0 0 w0.
- by rewrite R z entryM.
- by rewrite dx add0r R !entryM.
by exists s; split=> //; split=> //; split=> //; rewrite ed dx add0r.
Qed.
