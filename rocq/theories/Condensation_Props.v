(** Properties C89-C91: Newton's method with elements that condense internal variables. *)

Set Warnings "-notation-overridden,-ambiguous-paths".
From Coq Require Import ZArith.
From mathcomp Require Import ssreflect ssrfun ssrbool eqtype ssrnat seq fintype bigop ssralg matrix.
From Verif Require Import Newton_Model Condensation_Model Condensation_Spec Condensation_Proofs NewtonState_Proofs.
Import GRing.Theory.
Local Open Scope ring_scope.

Section Props.
Variables (F : fieldType) (N m : nat) (c : 'I_N -> bool).
Variables (T : Type) (gt : T -> T -> bool) (inf : T) (norm cnorm : 'cV[F]_N -> T) (st : nrSettings T).
Variable lsolve : 'M[F]_N -> 'cV[F]_N -> 'cV[F]_N.
(** The linear solver solves every solvable system, up to the sign the correction has in newtonraphson.hh:221-226. *)
Hypothesis solves : forall A r, (exists y, A *m y = - r) -> A *m lsolve A r = - r.

(** * C89: enhanced assumed strains *)
Section Eas.
Variable els : 'I_m -> easElement F N.
(** Stiffness and internal matrices that come from a strain energy are symmetric. *)
Hypothesis symK : forall k u a, (ee_K F N (els k) u a)^T = ee_K F N (els k) u a.
Hypothesis symD : forall k u a, (ee_D F N (els k) u a)^T = ee_D F N (els k) u a.

Definition local k (x : 'cV[F]_N) := gather F N _ (ee_dofs F N (els k)) x.

(** The element equations linearised at displacements [x] and internal variables [w]. *)
Definition easLin (x : 'cV[F]_N) (w : easState F N m els) (k : 'I_m) : linearised F N :=
  let e := els k in let u := local k x in
  mkLin F N (ee_n _ _ e) (ee_p _ _ e) (ee_dofs _ _ e) (ee_K _ _ e u (w k)) (ee_L _ _ e u (w k))^T (ee_f _ _ e u (w k))
    (ee_L _ _ e u (w k)) (ee_D _ _ e u (w k)) (ee_R _ _ e u (w k)).

(** A Newton step for displacements and internal variables together, wherever the internal matrices are invertible and such a step exists. *)
Definition easNewton (s t : 'cV[F]_N * easState F N m els) : Prop :=
  (forall k, ee_D _ _ (els k) (local k s.1) (s.2 k) \in unitmx) ->
  (exists dx da, blockNewton F N m c (easLin s.1 s.2) dx da) ->
  blockNewton F N m c (easLin s.1 s.2) (t.1 - s.1) (fun k => t.2 k - s.2 k).

Lemma reactsEas msg (i : nlinfo T) dx x w :
  easListen F N m els msg i dx x w = match msg with CORRECTION_UPDATED => easListen F N m els CORRECTION_UPDATED (mkInfo false inf inf Z0) dx x w | _ => w end.
Proof. by case: msg. Qed.

Lemma eas_step s t :
  iterationStep (easResidual F N m c els) (easTangent F N m c els) lsolve (fun y dy => y + dy)
    (fun x dx w => easListen F N m els CORRECTION_UPDATED (mkInfo false inf inf Z0) dx x w) s t -> easNewton s t.
Proof.
move=> -> u [dx [da h]]. set dy := lsolve _ _; cbn [fst snd].
have eq : easTangent F N m c els s.2 s.1 *m dy = - easResidual F N m c els s.2 s.1.
  apply: solves. exists dx. by case/(condensation F N m c (easLin s.1 s.2)): h => //= k; rewrite /local.
rewrite addrC addKr. apply/(condensation F N m c (easLin s.1 s.2)) => /=.
- by move=> k; apply: symK.
- by move=> k; apply: symD.
- by [].
- by move=> k; apply: u.
split; first exact: eq. by move=> k; rewrite /easUpdate addrC addKr /condDa.
Qed.

(** Each iteration of the solver, with the elements subscribed to it, is a Newton step of the coupled equations; so for every number of
    iterations, every start, every mesh. *)
Theorem C89_eas_coupled_newton (x corr : 'cV[F]_N) (w : easState F N m els) s :
  nrSolve gt inf (easResidual F N m c els) (easTangent F N m c els) norm cnorm lsolve (fun y dy => y + dy) None (easListen F N m els) st x corr w = Some s ->
  steps easNewton (Z.to_nat (i_iter (s_info s))) (x, w) (s_d s, s_w s).
Proof.
move=> h. apply: steps_mono eas_step _. apply: nrSolve_state h. exact: reactsEas.
Qed.

(** Conversely a Newton step of the coupled equations solves the condensed equations: no step is lost by condensing. *)
Theorem C89_eas_no_step_lost (x : 'cV[F]_N) (w : easState F N m els) dx da :
  (forall k, ee_D _ _ (els k) (local k x) (w k) \in unitmx) ->
  blockNewton F N m c (easLin x w) dx da ->
  easTangent F N m c els w x *m dx = - easResidual F N m c els w x /\
  (forall k, w k + da k = easUpdate F N (els k) (local k x) (local k dx) (w k)).
Proof.
move=> u h.
have [h1 h2] : condA F N m c (easLin x w) *m dx = - condR F N m c (easLin x w) /\ (forall k, da k = condDa F N m (easLin x w) dx k).
  by apply/(condensation F N m c (easLin x w)) => //=.
by split=> // k; rewrite h2.
Qed.

(** * C91, enhanced strains: linear elements *)
(** Displacement independent internal matrices, and internal forces linear in displacements and internal variables. *)
Definition linearEas (e : easElement F N) (L : 'M[F]_(ee_p _ _ e, ee_n _ _ e)) (D : 'M[F]_(ee_p _ _ e)) : Prop :=
  D \in unitmx /\ forall u a, ee_L _ _ e u a = L /\ ee_D _ _ e u a = D /\ ee_R _ _ e u a = L *m u + D *m a.

Theorem C91_eas_linear_state (L : forall k, 'M[F]_(ee_p _ _ (els k), ee_n _ _ (els k))) (D : forall k, 'M[F]_(ee_p _ _ (els k))) x corr w s k :
  (forall k, linearEas (els k) (L k) (D k)) ->
  nrSolve gt inf (easResidual F N m c els) (easTangent F N m c els) norm cnorm lsolve (fun y dy => y + dy) None (easListen F N m els) st x corr w = Some s ->
  (0 < i_iter (s_info s))%Z ->
  L k *m local k (s_d s) + D k *m s_w s k = 0 /\ s_w s k = easLinearAlpha F N (els k) (local k (s_d s)) (s_w s k).
Proof.
move=> lin h it.
have {h} := nrSolve_state gt inf _ _ norm cnorm lsolve _ _ (fun x dx w => easListen F N m els CORRECTION_UPDATED (mkInfo false inf inf Z0) dx x w) reactsEas st x corr w s h.
have -> : Z.to_nat (i_iter (s_info s)) = (Z.to_nat (i_iter (s_info s) - 1)).+1 by Lia.lia.
move=> h; case: (steps_last _ _ _ _ h) => {h} [[y v] [_ [-> ->]]]; cbn [fst snd]. set dy := lsolve _ _.
have [uD e] := lin k.
have -> : local k (y + dy) = local k y + local k dy by apply/matrixP=> i j; rewrite !mxE.
have E : easUpdate F N (els k) (local k y) (local k dy) (v k) = - (invmx (D k) *m (L k *m (local k y + local k dy))).
  rewrite /easUpdate; have [-> [-> ->]] := e (local k y) (v k).
  by rewrite addrAC -mulmxDr [X in _ - X]mulmxDr mulKmx // opprD addrCA subrr addr0.
split; first by rewrite E mulmxN mulKVmx // subrr.
rewrite E /easLinearAlpha; have [-> [-> _]] := e (local k y + local k dy) (- (invmx (D k) *m (L k *m (local k y + local k dy)))).
by rewrite !mulNmx mulmxA.
Qed.
End Eas.

(** * C90: assumed stresses *)
Section As.
Variable els : 'I_m -> asElement F N.
(** The material inversion returns for a stress the strain and the compliance that belong to it, whatever strain it starts from. *)
Variable exact : forall k, 'cV[F]_(ae_p F N (els k)) -> ae_inv F N (els k).
Hypothesis inverts : forall k i b, ae_inversion F N (els k) i b = exact k b.
Hypothesis symK : forall k u b, (ae_K F N (els k) u b)^T = ae_K F N (els k) u b.
Hypothesis symH : forall k b, (ae_H F N (els k) b (exact k b))^T = ae_H F N (els k) b (exact k b).

Definition localS k (x : 'cV[F]_N) := gather F N _ (ae_dofs F N (els k)) x.

(** The equations of an element, as functions of displacements and stress parameters alone: the second derivative by the stress
    parameters is the negative compliance. *)
Definition asLin (x : 'cV[F]_N) (w : asState F N m els) (k : 'I_m) : linearised F N :=
  let e := els k in let u := localS k x in let b := (w k).1 in
  mkLin F N (ae_n _ _ e) (ae_p _ _ e) (ae_dofs _ _ e) (ae_K _ _ e u b) (ae_G _ _ e u b)^T (ae_f _ _ e u b)
    (ae_G _ _ e u b) (- ae_H _ _ e b (exact k b)) (ae_R _ _ e u b (exact k b)).

Definition asNewton (s t : 'cV[F]_N * asState F N m els) : Prop :=
  (forall k, ae_H _ _ (els k) (s.2 k).1 (exact k (s.2 k).1) \in unitmx) ->
  (exists dx da, blockNewton F N m c (asLin s.1 s.2) dx da) ->
  blockNewton F N m c (asLin s.1 s.2) (t.1 - s.1) (fun k => (t.2 k).1 - (s.2 k).1).

(** The stored strains and compliances belong to the stored stress parameters. *)
Definition upToDate (w : asState F N m els) : Prop := forall k, (w k).2 = exact k (w k).1.

Lemma reactsAs msg (i : nlinfo T) dx x w :
  asListen F N m els msg i dx x w = match msg with CORRECTION_UPDATED => asListen F N m els CORRECTION_UPDATED (mkInfo false inf inf Z0) dx x w | _ => w end.
Proof. by case: msg. Qed.

Lemma unitN n (A : 'M[F]_n) : (- A \in unitmx) = (A \in unitmx).
Proof. by rewrite -scaleN1r unitmxZ // unitrN1. Qed.

Lemma invmxN n (A : 'M[F]_n) : invmx (- A) = - invmx A.
Proof.
case uA : (A \in unitmx).
  have uN : - A \in unitmx by rewrite unitN.
  apply: (can_inj (mulKmx uN)). by rewrite mulmxV // mulNmx mulmxN opprK mulmxV.
by rewrite /invmx unitN uA.
Qed.

Lemma as_matrix k u (w : asState F N m els) : (w k).2 = exact k (w k).1 ->
  asMatrix F N (els k) u (w k) = addMirrored F _ (ae_K _ _ (els k) u (w k).1)
    (- ((ae_G _ _ (els k) u (w k).1)^T *m invmx (- ae_H _ _ (els k) (w k).1 (exact k (w k).1)) *m ae_G _ _ (els k) u (w k).1)).
Proof. by move=> e; rewrite /asMatrix e invmxN mulmxN mulNmx opprK. Qed.

Lemma as_vector k u (w : asState F N m els) : (w k).2 = exact k (w k).1 ->
  asVector F N (els k) u (w k) = ae_f _ _ (els k) u (w k).1 -
    (ae_G _ _ (els k) u (w k).1)^T *m invmx (- ae_H _ _ (els k) (w k).1 (exact k (w k).1)) *m ae_R _ _ (els k) u (w k).1 (exact k (w k).1).
Proof. by move=> e; rewrite /asVector e invmxN mulmxN mulNmx opprK. Qed.

Lemma as_tangent x (w : asState F N m els) : upToDate w -> asTangent F N m c els w x = condA F N m c (asLin x w).
Proof. by move=> e; rewrite /asTangent /condA; congr (fullM _ _ _ _); apply: eq_bigr => k _; rewrite as_matrix. Qed.

Lemma as_residual x (w : asState F N m els) : upToDate w -> asResidual F N m c els w x = condR F N m c (asLin x w).
Proof. by move=> e; rewrite /asResidual /condR; congr (fullV _ _ _ _); apply: eq_bigr => k _; rewrite as_vector. Qed.

Lemma as_condensation x w dx da : (forall k, ae_H _ _ (els k) (w k).1 (exact k (w k).1) \in unitmx) ->
  blockNewton F N m c (asLin x w) dx da <->
  condA F N m c (asLin x w) *m dx = - condR F N m c (asLin x w) /\ (forall k, da k = condDa F N m (asLin x w) dx k).
Proof.
move=> u. apply: condensation => k //=; first by rewrite linearN /= symH. by rewrite unitN.
Qed.

Lemma as_step s t : upToDate s.2 ->
  iterationStep (asResidual F N m c els) (asTangent F N m c els) lsolve (fun y dy => y + dy)
    (fun x dx w => asListen F N m els CORRECTION_UPDATED (mkInfo false inf inf Z0) dx x w) s t -> upToDate t.2 /\ asNewton s t.
Proof.
move=> up -> /=; split; first by move=> k /=; apply: inverts.
move=> u [dx [da h]]. set dy := lsolve _ _; cbn [fst snd].
have eq : condA F N m c (asLin s.1 s.2) *m dy = - condR F N m c (asLin s.1 s.2).
  rewrite -as_tangent // -as_residual //. apply: solves. exists dx. rewrite as_tangent // as_residual //. by case/as_condensation: h.
rewrite addrC addKr. apply/as_condensation => //. split; first exact: eq.
move=> k; rewrite /asUpdate addrC addKr /condDa /= up invmxN mulNmx opprK. by [].
Qed.

Theorem C90_assumed_stress_coupled_newton (x corr : 'cV[F]_N) (w : asState F N m els) s :
  upToDate w ->
  nrSolve gt inf (asResidual F N m c els) (asTangent F N m c els) norm cnorm lsolve (fun y dy => y + dy) None (asListen F N m els) st x corr w = Some s ->
  steps asNewton (Z.to_nat (i_iter (s_info s))) (x, w) (s_d s, s_w s) /\ upToDate (s_w s).
Proof.
move=> up h.
have {h} := nrSolve_state gt inf _ _ norm cnorm lsolve _ _ (fun x dx w => asListen F N m els CORRECTION_UPDATED (mkInfo false inf inf Z0) dx x w) reactsAs st x corr w s h.
move: up; move: (Z.to_nat _) => n. move e1 : (x, w) => p; move e2 : (s_d s, s_w s) => q.
have -> : w = p.2 by rewrite -e1. have -> : s_w s = q.2 by rewrite -e2.
move=> up h; elim: h up {e1 e2} => [r up|j r v z st1 _ ih up]; first by split=> //; constructor.
have [up' nw] := as_step _ _ up st1. have [h1 h2] := ih up'. split=> //. by econstructor; eauto.
Qed.

(** The state of a bound element is up to date, whatever was stored before. *)
Theorem C90_initial_state old : upToDate (asInitial F N m els old).
Proof. by move=> k; apply: inverts. Qed.

Theorem C90_no_step_lost (x : 'cV[F]_N) (w : asState F N m els) dx da :
  upToDate w -> (forall k, ae_H _ _ (els k) (w k).1 (exact k (w k).1) \in unitmx) ->
  blockNewton F N m c (asLin x w) dx da ->
  asTangent F N m c els w x *m dx = - asResidual F N m c els w x /\
  (forall k, (w k).1 + da k = (asUpdate F N (els k) (localS k x) (localS k dx) (w k)).1).
Proof.
move=> up u /as_condensation h. have [//|h1 h2] := h. rewrite as_tangent // as_residual //. split=> // k.
by rewrite h2 /asUpdate /condDa /= up invmxN mulNmx opprK.
Qed.

(** * C91, assumed stresses: linear elements *)
Definition linearAs k (G : 'M[F]_(ae_p _ _ (els k), ae_n _ _ (els k))) (H : 'M[F]_(ae_p _ _ (els k))) : Prop :=
  H \in unitmx /\ forall u b, ae_G _ _ (els k) u b = G /\ ae_H _ _ (els k) b (exact k b) = H /\
    ae_R _ _ (els k) u b (exact k b) = G *m u - H *m b.

Theorem C91_assumed_stress_linear_state (G : forall k, 'M[F]_(ae_p _ _ (els k), ae_n _ _ (els k))) (H : forall k, 'M[F]_(ae_p _ _ (els k))) x corr w s k :
  (forall k, linearAs k (G k) (H k)) -> upToDate w ->
  nrSolve gt inf (asResidual F N m c els) (asTangent F N m c els) norm cnorm lsolve (fun y dy => y + dy) None (asListen F N m els) st x corr w = Some s ->
  (0 < i_iter (s_info s))%Z ->
  G k *m localS k (s_d s) = H k *m (s_w s k).1 /\ (s_w s k).1 = asLinearBeta F N (els k) (localS k (s_d s)) (s_w s k).
Proof.
move=> lin up h it.
have [_ upe] := C90_assumed_stress_coupled_newton x corr w s up h.
have {h} := nrSolve_state gt inf _ _ norm cnorm lsolve _ _ (fun x dx w => asListen F N m els CORRECTION_UPDATED (mkInfo false inf inf Z0) dx x w) reactsAs st x corr w s h.
have -> : Z.to_nat (i_iter (s_info s)) = (Z.to_nat (i_iter (s_info s) - 1)).+1 by Lia.lia.
move=> h; case: (steps_last _ _ _ _ h) => {h} [[y v] [pre [-> e2]]]; cbn [fst snd]; cbn [fst snd] in e2.
have upv : upToDate v.
  have st' : forall a b, upToDate a.2 -> iterationStep (asResidual F N m c els) (asTangent F N m c els) lsolve (fun y dy => y + dy)
    (fun x dx w => asListen F N m els CORRECTION_UPDATED (mkInfo false inf inf Z0) dx x w) a b -> upToDate b.2.
    by move=> a b ua ab; have [] := as_step _ _ ua ab.
  move: pre up; move e1 : (x, w) => p; move e3 : (y, v) => q. have -> : w = p.2 by rewrite -e1. have -> : v = q.2 by rewrite -e3.
  move=> pre; elim: pre {e1 e3} => // n r t z ab _ ih ua. by apply: ih; apply: st' ab.
set dy := lsolve _ _ in e2 *.
have [uH e] := lin k.
have -> : localS k (y + dy) = localS k y + localS k dy by apply/matrixP=> i j; rewrite !mxE.
have E : (s_w s k).1 = invmx (H k) *m (G k *m (localS k y + localS k dy)).
  rewrite e2 /= /asUpdate /=. rewrite (upv k). have [-> [-> ->]] := e (localS k y) (v k).1.
  by rewrite addrAC -mulmxDr [X in _ + X]mulmxDr mulmxN mulKmx // addrCA subrr addr0.
split; first by rewrite E mulKVmx.
rewrite /asLinearBeta (upe k). by have [-> [-> _]] := e (localS k y + localS k dy) (s_w s k).1.
Qed.
End As.
End Props.

Print Assumptions C89_eas_coupled_newton.
Print Assumptions C89_eas_no_step_lost.
Print Assumptions C90_assumed_stress_coupled_newton.
Print Assumptions C90_initial_state.
Print Assumptions C90_no_step_lost.
Print Assumptions C91_eas_linear_state.
Print Assumptions C91_assumed_stress_linear_state.

(** Non-vacuity.  A linear solver as assumed exists in every dimension. *)
From mathcomp Require Import mxalgebra rat ssrint ssrnum.

Definition anySolver (F : fieldType) (N : nat) (A : 'M[F]_N) (r : 'cV[F]_N) : 'cV[F]_N := - ((r^T *m pinvmx A^T)^T).
Lemma anySolver_solves (F : fieldType) (N : nat) (A : 'M[F]_N) (r : 'cV[F]_N) : (exists y, A *m y = - r) -> A *m anySolver F N A r = - r.
Proof.
move=> [y e]. have sub : (r^T <= A^T)%MS. { apply/submxP. exists (- y^T). by rewrite mulNmx -trmx_mul e linearN opprK. }
have k := mulmxKpV sub. rewrite /anySolver mulmxN. congr (- _).
by apply: trmx_inj; rewrite trmx_mul trmxK.
Qed.

(** A bar fixed at the left end, with one enhanced strain parameter: the equations 3 u + a = 5 and u + 2 a = 0. *)
Definition exEas : easElement rat_fieldType 2 :=
  mkEas rat_fieldType 2 2 1 id (fun _ _ => 3%:R%:M) (fun u a => 3%:R%:M *m u + const_mx 1 *m a - const_mx 5%:R)
    (fun _ _ => 2%:R%:M) (fun _ _ => const_mx 1) (fun u a => const_mx 1 *m u + 2%:R%:M *m a).

(** ... and the same equations with the stress as parameter: compliance -D. *)
Definition exAs : asElement rat_fieldType 2 :=
  mkAs rat_fieldType 2 2 1 'cV[rat]_1 id (fun _ b => 2%:R%:M *m b) (fun _ _ => 3%:R%:M) (fun u b => 3%:R%:M *m u + const_mx 1 *m b - const_mx 5%:R)
    (fun _ _ => const_mx 1) (fun _ _ => 2%:R%:M) (fun u b e => const_mx 1 *m u - e).

Definition leftFixed : 'I_2 -> bool := fun i => i == ord0.

Lemma ord2 (i : 'I_2) : i = ord0 \/ i = ord_max.
Proof. by case: i => [[|[|//]]] h; [left|right]; apply: val_inj. Qed.

Lemma sum1 (f : 'I_1 -> rat) : \sum_i f i = f ord0.
Proof. by rewrite big_ord_recl big_ord0 addr0. Qed.

Lemma sum2 (f : 'I_2 -> rat) : \sum_i f i = f ord0 + f ord_max.
Proof. by rewrite big_ord_recl sum1; congr (_ + f _); apply: val_inj. Qed.

Example C89_applies :
  (forall k u a, (ee_K rat_fieldType 2 ((fun _ : 'I_1 => exEas) k) u a)^T = ee_K rat_fieldType 2 exEas u a) /\
  (forall k u a, (ee_D rat_fieldType 2 ((fun _ : 'I_1 => exEas) k) u a)^T = ee_D rat_fieldType 2 exEas u a) /\
  (forall u a, ee_D rat_fieldType 2 exEas u a \in unitmx) /\
  linearEas rat_fieldType 2 exEas (const_mx 1) 2%:R%:M /\
  exists dx da, blockNewton rat_fieldType 2 1 leftFixed (easLin rat_fieldType 2 1 (fun _ => exEas) 0 (fun _ => 0)) dx da.
Proof.
have u2 : (2%:R%:M : 'M[rat]_1) \in unitmx by rewrite unitmxE det_scalar1 unitfE.
split; first by move=> *; rewrite /= tr_scalar_mx. split; first by move=> *; rewrite /= tr_scalar_mx. split=> //.
split; first by [].
exists (\col_i (if i == ord0 then 0 else 10%:R / 5%:R)), (fun k => const_mx (- 1)).
split; first by move=> i /eqP ->; rewrite mxE. split.
- move=> i; case: (ord2 i) => -> // _. rewrite sum1 /= (bigD1 ord_max) //= big1 ?addr0; last first.
    by move=> j /andP[/eqP -> ]; rewrite eqxx.
  rewrite !mxE !sum2 !sum1 !mxE. by rewrite /= ?mulr0 ?addr0 ?add0r.
- move=> k; apply/matrixP=> a b; rewrite (ord1 b) (ord1 a) !mxE !sum2 !sum1 !mxE. by rewrite /= ?mulr0 ?addr0 ?add0r.
Qed.

Definition exExact (k : 'I_1) (b : 'cV[rat]_1) : 'cV[rat]_1 := 2%:R%:M *m b.

Example C90_applies :
  (forall k i b, ae_inversion rat_fieldType 2 ((fun _ : 'I_1 => exAs) k) i b = exExact k b) /\
  (forall k : 'I_1, linearAs rat_fieldType 2 1 (fun _ : 'I_1 => exAs) exExact k (const_mx 1) 2%:R%:M) /\
  exists dx da, blockNewton rat_fieldType 2 1 leftFixed (asLin rat_fieldType 2 1 (fun _ => exAs) exExact 0 (fun _ => (0, 0))) dx da.
Proof.
have u2 : (2%:R%:M : 'M[rat]_1) \in unitmx by rewrite unitmxE det_scalar1 unitfE.
split=> //. split=> //.
exists (\col_i (if i == ord0 then 0 else 10%:R / 7%:R)), (fun k => const_mx (5%:R / 7%:R)).
split; first by move=> i /eqP ->; rewrite mxE. split.
- move=> i; case: (ord2 i) => -> // _. rewrite sum1 /= (bigD1 ord_max) //= big1 ?addr0; last first.
    by move=> j /andP[/eqP -> ]; rewrite eqxx.
  rewrite !mxE !sum2 !sum1 !mxE. by rewrite /= ?mulr0 ?addr0 ?add0r.
- move=> k; apply/matrixP=> a b; rewrite (ord1 b) (ord1 a) !mxE !sum2 !sum1 !mxE. by rewrite /= ?mulr0 ?addr0 ?add0r.
Qed.
