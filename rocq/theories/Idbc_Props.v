(** Properties C94 and C95: load control with prescribed displacements. *)
Set Warnings "-notation-overridden,-ambiguous-paths".
From Coq Require Import ZArith List Lia.
From mathcomp Require Import ssreflect ssrfun ssrbool eqtype ssrnat seq fintype bigop ssralg matrix.
From Verif Require Import Newton_Model Newton_Spec Newton_Proofs NewtonInvariant_Proofs Control_Model Condensation_Model Idbc_Model Idbc_Proofs.
Import GRing.Theory.
Local Open Scope ring_scope.

(** * C94: linear structures, prescribed displacements proportional to the load factor *)
Section Linear.
Variables (F : fieldType) (n : nat) (c : 'I_n -> bool) (o : dbcOpt).
(** stiffness, load and prescribed displacements for load factor 1 *)
Variables (K : 'M[F]_n) (q u0 : 'cV[F]_n).
Variables (value derivative : F -> 'cV[F]_n).
Hypothesis proportional : forall l, value l = l *: u0.
Hypothesis slope : forall l, derivative l = u0.
Hypothesis flagged : forall i, u0 i ord0 != 0 -> c i.
Variables (W : Type) (gt : F -> F -> bool) (inf : F) (norm : 'cV[F]_(dimOf n c o) -> F)
  (lsolve : 'M[F]_(dimOf n c o) -> 'cV[F]_(dimOf n c o) -> 'cV[F]_(dimOf n c o))
  (listen : nlmsg -> nlinfo F -> 'cV[F]_(dimOf n c o) -> 'cV[F]_n * F -> W -> W) (st : nrSettings F).
Notation A := (treatM F n c o K).
Hypothesis regular : A \in unitmx.
Hypothesis exact : forall r, A *m lsolve A r = - r.
Hypothesis zero : gt (norm 0) (nr_tol st) = false.
Hypothesis iters : (Z.max 1 (nr_minIter st) < nr_maxIter st)%Z.

Notation raw := (fun (_ : W) (d : 'cV[F]_n * F) => K *m d.1 - d.2 *: q).
Notation rawM := (fun (_ : W) (_ : 'cV[F]_n * F) => K).
Notation solve := (idbcSolve F n c value derivative W gt inf o raw rawM norm lsolve listen st).
Notation sync := (syncIdbc F n value).
Definition force (x : 'cV[F]_n) (p : F) := treatV F n c o (K *m x - p *: q).

(** The prescribed displacements are there, and the residual of the free dofs passes the test of the solver. *)
Definition prescribedAt (x : 'cV[F]_n) (p : F) : Prop := forall i, u0 i ord0 != 0 -> x i ord0 = p * u0 i ord0.
Definition balanced (x : 'cV[F]_n) (p : F) : Prop := gt (norm (force x p)) (nr_tol st) = false.

Lemma sync_shift (x e : 'cV[F]_n) (p s : F) : prescribedAt x (p - s) -> (p != 0 \/ s = 0) -> (forall i, c i -> e i ord0 = 0) ->
  (sync (x + e, p)).1 = x + e + s *: u0.
Proof.
move=> h ps e0; apply/matrixP=> i j; rewrite ord1 /= !mxE proportional mxE. case u: (u0 i ord0 == 0).
  by rewrite (eqP u) !mulr0 eqxx addr0.
have ci : c i by apply: flagged; rewrite u. have xi := h i; rewrite u in xi. rewrite (e0 _ ci) addr0 (xi isT).
rewrite mulf_eq0 u orbF. case: ps => [pn|s0]; first by rewrite (negbTE pn) -mulrDl subrK.
by rewrite s0 subr0 mul0r addr0; case: (p == 0).
Qed.

Lemma prescribed_shift (x e : 'cV[F]_n) (p s : F) : prescribedAt x (p - s) -> (forall i, c i -> e i ord0 = 0) -> prescribedAt (x + e + s *: u0) p.
Proof. by move=> h e0 i u; rewrite !mxE (h i u) (e0 _ (flagged i u)) addr0 -mulrDl subrK. Qed.

Lemma force_shift (x e : 'cV[F]_n) (p s : F) : force (x + e + s *: u0) p = force x p + treatV F n c o (K *m e) + s *: treatV F n c o (K *m u0).
Proof.
rewrite /force !mulmxDr -scalemxAr addrAC treatV_lin; congr (_ + _).
by rewrite addrAC treatVD.
Qed.

Lemma correction_solves t : treatV F n c o (K *m expandV F n c o (lsolve A (treatV F n c o t))) = - treatV F n c o t /\
  forall i, c i -> expandV F n c o (lsolve A (treatV F n c o t)) i ord0 = 0.
Proof.
have e : A *m lsolve A (treatV F n c o t) = treatV F n c o (- t) by rewrite exact treatVN.
by have [h1 h2] := treat_solution F n c o K _ _ e; rewrite -treatVN.
Qed.

(** One call of the solver: afterwards, or after the synchronisation if it made no iteration, everything holds. *)
Lemma solve_linear x p s w : prescribedAt x (p - s) -> (p != 0 \/ s = 0) -> exists x' w' i, solve x p s w = (x', w', i) /\ i_success i = true /\
  (i_iter i <= Z.max 1 (nr_minIter st))%Z /\
  (i_iter i = 0%Z /\ x' = x /\ prescribedAt (sync (x, p)).1 p /\ balanced (sync (x, p)).1 p /\ (s = 0 -> (sync (x, p)).1 = x) \/
   i_iter i <> 0%Z /\ prescribedAt x' p /\ balanced x' p).
Proof.
move=> h ps.
pose P (d : 'cV[F]_n * F) := d.2 = p /\ prescribedAt d.1 p /\ force d.1 d.2 = 0.
pose res (d : 'cV[F]_n * F) := force d.1 d.2. pose jac (d : 'cV[F]_n * F) := A.
pose add (d : 'cV[F]_n * F) (r : 'cV[F]_(dimOf n c o)) := r + s *: treatV F n c o (K *m u0).
pose upd := updateX F n c o.
have keeps d : P d -> P (idbcNext res jac lsolve upd sync d).
  move=> [d2 [pd z]]. have e0 : lsolve A (res d) = 0.
    by apply: (can_inj (mulKmx regular)); rewrite exact mulmx0 /res z oppr0.
  rewrite /idbcNext /jac e0 /upd /updateX expandV0.
  have E := sync_shift d.1 0 p 0; rewrite subr0 in E. have {}E := E pd (or_intror erefl) (fun i _ => mxE _ _ _ _).
  rewrite scale0r !addr0 in E. rewrite /P d2 addr0 E. by rewrite d2 in z.
have conv d : P d -> gt (norm (res d)) (nr_tol st) = false by move=> [_ [_ z]]; rewrite /res z zero.
have first : P (idbcFirst res jac lsolve upd add sync (x, p)).
  have ea : add (x, p) (res (x, p)) = treatV F n c o (K *m x - p *: q + s *: (K *m u0)) by rewrite treatV_lin.
  have [e1 e2] := correction_solves (K *m x - p *: q + s *: (K *m u0)). rewrite -ea in e1 e2.
  rewrite /idbcFirst /upd /updateX /= /jac. set e := expandV F n c o _ in e1 e2 *.
  have E := sync_shift x e p s h ps e2. rewrite /P. split=> //. rewrite E. split; first exact: prescribed_shift.
  by rewrite /= force_shift e1 /add /res /= opprD addrA subrr add0r addNr.
have [s' [E [L [S C]]]] := nrSolve_inv gt inf res jac norm norm lsolve upd add sync listen st P keeps conv (x, p) w.1 w.2 first ltac:(lia).
exists (s_d s').1, (s_c s', s_w s'), (s_info s'). split.
  rewrite /idbcSolve /idbcNewton. rewrite /addForces /obtainForcesDueToIDBC slope. by rewrite E.
split; first by rewrite S; case: (Z.eqb_spec _ _) => // e; lia.
split; first lia.
case: C => [[-> [-> g]]|[i [d2 [pd z]]]]; [left|right].
  have E0 := sync_shift x 0 p s h ps (fun i _ => mxE _ _ _ _). rewrite addr0 in E0. rewrite E0.
  split=> //; split=> //. split; first by have := prescribed_shift x 0 p s h (fun i _ => mxE _ _ _ _); rewrite addr0.
  split=> [|->]; last by rewrite scale0r addr0.
  rewrite /balanced. have := force_shift x 0 p s; rewrite addr0 mulmx0 treatV0 addr0 => ->. exact: g.
split; first lia. split=> //. by rewrite /balanced -[X in force _ X]d2 z zero.
Qed.

(** What listeners see at the end of a step *)
Definition stepEnds {X} (tr : list (cmsg * cinfo F * Z * F * (X * F))) : list (X * F) :=
  flat_map (fun e => match e with (STEP_ENDED, _, _, _, xp) => [:: xp] | _ => nil end) tr.
Definition good (e : 'cV[F]_n * F) : Prop := prescribedAt e.1 e.2 /\ balanced e.1 e.2.

Lemma stepEnds_app {X} (a b : list (cmsg * cinfo F * Z * F * (X * F))) : stepEnds (a ++ b)%list = (stepEnds a ++ stepEnds b)%list.
Proof. exact: flat_map_app. Qed.

Variable clisten : cmsg -> cinfo F -> Z -> F -> 'cV[F]_n * F -> 'cV[F]_(dimOf n c o) * W -> 'cV[F]_(dimOf n c o) * W.

Lemma lcLoop_linear D m : forall ls s, prescribedAt (k_x s) (k_p s) -> (forall k, (0 < k <= m)%N -> k_p s + D *+ k != 0) ->
  let r := lcLoop clisten (fun a b => a + b) solve (fun x p => (sync (x, p)).1) m D ls s in
  c_success (k_info r) = true /\ exists l, stepEnds (k_trace r) = (stepEnds (k_trace s) ++ l)%list /\ length l = m /\ Forall good l /\
  (k_x r, k_p r) = last (k_x s, k_p s) l.
Proof.
elim: m => [|m ih] ls s pr nz; cbn [lcLoop].
  split=> //. exists nil. by rewrite /= stepEnds_app /= !List.app_nil_r.
set s1 := cemit _ _ _. have [x1 p1] : k_x s1 = k_x s /\ k_p s1 = k_p s by [].
have t1 : stepEnds (k_trace s1) = stepEnds (k_trace s) by rewrite /= stepEnds_app /= List.app_nil_r.
clearbody s1. rewrite x1 p1.
have nz1 : k_p s + D != 0 by have := nz 1%N; rewrite mulr1n; apply.
have [|x' [w' [i [-> [su [_ C]]]]]] := solve_linear (k_x s) (k_p s + D) D (k_w s1) _ (or_introl nz1).
  by rewrite addrK.
rewrite su. set x'' := if _ then _ else _.
have g : good (x'', k_p s + D).
  rewrite /x''. by case: C => [[-> [-> [h1 [h2 _]]]]|[ne [h1 h2]]] //=; case: (Z.eqb_spec (i_iter i) 0).
set s2 := updateAndNotify _ _ _.
have [x2 p2] : k_x s2 = x'' /\ k_p s2 = k_p s + D by [].
have t2 : stepEnds (k_trace s2) = (stepEnds (k_trace s) ++ [:: (x'', k_p s + D)])%list.
  by rewrite /s2 /= !stepEnds_app t1 /= !List.app_nil_r.
clearbody s2. have [|k kb|sc [l [h1 [h2 [h3 h4]]]]] := ih (ls + 1)%Z s2.
- by rewrite x2 p2; case: g.
- rewrite p2 -addrA -mulrS; apply: nz. by case/andP: kb => _ kb; rewrite ltnS.
split=> //. exists ((x'', k_p s + D) :: l). rewrite h1 t2 -List.app_assoc /=. split=> //. split; first by rewrite h2.
by split; [constructor|rewrite h4 x2 p2].
Qed.

(** Load control on a linear structure: all steps succeed; at the end of each the prescribed displacements are those of the current load
    factor and the free dofs are balanced.  No load factor of a step may be zero (see C95_unloading_refuted). *)
Theorem C94_linear_load_control loadSteps D x p w : prescribedAt x p -> (0 < loadSteps)%Z ->
  (forall k, (0 < k <= Z.to_nat loadSteps)%N -> p + D *+ k != 0) ->
  let r := idbcLoadControl F n c value derivative W gt inf o raw rawM norm lsolve listen st clisten loadSteps D x p w in
  c_success (k_info r) = true /\ length (stepEnds (k_trace r)) = (Z.to_nat loadSteps).+1 /\ Forall good (stepEnds (k_trace r)) /\
  good (k_x r, k_p r).
Proof.
move=> pr pos nz. rewrite /idbcLoadControl /lcRun. set s0 := cemit _ _ _.
have [x0 p0] : k_x s0 = x /\ k_p s0 = p by []. have t0 : stepEnds (k_trace s0) = nil by [].
clearbody s0. rewrite x0 p0.
have [|x' [w' [i [-> [su [_ C]]]]]] := solve_linear x p 0 (k_w s0) _ (or_intror erefl); first by rewrite subr0.
have g : good (x', p).
  by case: C => [[_ [-> [h1 [h2 /(_ erefl) h3]]]]|[_ [h1 h2]]] //; rewrite h3 in h1 h2.
rewrite su. set s2 := mkCS _ _ _ _ _ _ _.
have [x2 p2] : k_x s2 = x' /\ k_p s2 = p by [].
have t2 : stepEnds (k_trace s2) = [:: (x', p)] by rewrite /s2 /= !stepEnds_app t0.
clearbody s2. have [||sc [l [h1 [h2 [h3 h4]]]]] := lcLoop_linear D (Z.to_nat loadSteps) 0%Z s2.
- by rewrite x2 p2; case: g.
- by rewrite p2.
have fg : Forall good ((x', p) :: l) by constructor.
split=> //. rewrite h1 t2 /= h2. split=> //. split=> //. rewrite h4 x2 p2.
elim: l {h1 h2 h3 h4} (x', p) fg => [|e l ih] d fg; inversion fg as [|? ? g1 g2]; subst => //=. exact: (ih e g2).
Qed.
End Linear.
Print Assumptions C94_linear_load_control.

(** * C95: any structure and any prescribed displacements *)
Section Any.
Variables (F : fieldType) (n : nat) (c : 'I_n -> bool) (o : dbcOpt) (value derivative : F -> 'cV[F]_n).
Variables (W : Type) (gt : F -> F -> bool) (inf : F) (raw : W -> 'cV[F]_n * F -> 'cV[F]_n) (rawM : W -> 'cV[F]_n * F -> 'M[F]_n)
  (norm : 'cV[F]_(dimOf n c o) -> F)
  (lsolve : 'M[F]_(dimOf n c o) -> 'cV[F]_(dimOf n c o) -> 'cV[F]_(dimOf n c o))
  (listen : nlmsg -> nlinfo F -> 'cV[F]_(dimOf n c o) -> 'cV[F]_n * F -> W -> W) (st : nrSettings F).
Notation solve := (idbcSolve F n c value derivative W gt inf o raw rawM norm lsolve listen st).

(** The prescribed displacements that are not zero are there. *)
Definition imposed (e : 'cV[F]_n * F) : Prop := forall i, value e.2 i ord0 != 0 -> e.1 i ord0 = value e.2 i ord0.

Lemma sync_imposed d : imposed (syncIdbc F n value d).
Proof. by move=> i; rewrite /= mxE => /negbTE ->. Qed.

Lemma solve_imposed x p s w x' w' i : solve x p s w = (x', w', i) -> i_iter i = 0%Z /\ x' = x \/ i_iter i <> 0%Z /\ imposed (x', p).
Proof.
rewrite /idbcSolve /idbcNewton.
have [s' [E _]] := nrSolve_spec gt inf (fun w d => treatV F n c o (raw w d)) (fun w d => treatM F n c o (rawM w d)) norm norm lsolve
  (updateX F n c o) (Some (addForces F n c derivative W o rawM s, syncIdbc F n value)) listen st (x, p) w.1 w.2.
rewrite E. have := nrSolve_synced gt inf _ _ norm norm lsolve _ _ _ listen st (fun d => d.2 = p) (x, p) w.1 w.2 s' _ _ _ E.
case=> // [[e d]|[pos [d [q e]]]] [<- _ <-]; [left|right].
  by rewrite e d.
split; first lia. rewrite e. have := sync_imposed d. by rewrite /imposed /= q.
Qed.

(** Whatever the structure, the dependence on the load factor and the listeners: at the end of each load step, successful or not, the
    prescribed displacements that are not zero have been imposed. *)
Variable clisten : cmsg -> cinfo F -> Z -> F -> 'cV[F]_n * F -> 'cV[F]_(dimOf n c o) * W -> 'cV[F]_(dimOf n c o) * W.

Lemma lcLoop_imposed D m : forall ls s,
  let r := lcLoop clisten (fun a b => a + b) solve (fun x p => (syncIdbc F n value (x, p)).1) m D ls s in
  exists l, stepEnds F (k_trace r) = (stepEnds F (k_trace s) ++ l)%list /\ Forall imposed l.
Proof.
elim: m => [|m ih] ls s; cbn [lcLoop].
  exists nil. by rewrite /= stepEnds_app /= !List.app_nil_r.
set s1 := cemit _ _ _.
have t1 : stepEnds F (k_trace s1) = stepEnds F (k_trace s) by rewrite /= stepEnds_app /= List.app_nil_r.
clearbody s1. pose p := k_p s1 + D. rewrite -/p. case E: (solve _ _ _ _) => [[x w] i]. set x' := if (i_iter i =? 0)%Z then _ else x.
have g : imposed (x', p).
  rewrite /x'. case: (solve_imposed _ _ _ _ _ _ _ E) => [[-> _]|[ne h]]; first exact: (sync_imposed (x, p)).
  by case: (Z.eqb_spec (i_iter i) 0).
set s2 := updateAndNotify _ _ _.
have t2 : stepEnds F (k_trace s2) = (stepEnds F (k_trace s) ++ [:: (x', p)])%list.
  by rewrite /s2 /= !stepEnds_app t1 /= !List.app_nil_r.
clearbody s2. case: (i_success i); last by exists [:: (x', p)]; split=> //; constructor.
have [l [h1 h2]] := ih (ls + 1)%Z s2. exists ((x', p) :: l). rewrite h1 t2 -List.app_assoc. by split=> //; constructor.
Qed.

Theorem C95_imposed_partial loadSteps D x p w :
  let r := idbcLoadControl F n c value derivative W gt inf o raw rawM norm lsolve listen st clisten loadSteps D x p w in
  Forall imposed (List.tl (stepEnds F (k_trace r))).
Proof.
rewrite /idbcLoadControl /lcRun. set s0 := cemit _ _ _. have t0 : stepEnds F (k_trace s0) = nil by [].
clearbody s0. case: (idbcSolve _ _ _ _ _ _ _ _ _ _ _ _ _ _ _ _ _ _ _) => [[x' w'] i].
cbv zeta. set s2 := updateAndNotify clisten i _. have t2 : stepEnds F (k_trace s2) = [:: (x', k_p s0)] by rewrite /s2 /= !stepEnds_app t0.
clearbody s2. case: (i_success i); last by rewrite t2; constructor.
set s3 := mkCS _ _ _ _ _ _ _. have [l [h1 h2]] := lcLoop_imposed D (Z.to_nat loadSteps) 0%Z s3.
by rewrite h1 (_ : stepEnds F (k_trace s3) = [:: (x', k_p s0)]).
Qed.

(** A successful call with at least one iteration has tested the residual of the solution it returns. *)
Theorem C95_balanced_partial x p s w x' w' i : (0 <= nr_maxIter st)%Z -> (nr_minIter st <= nr_maxIter st)%Z -> solve x p s w = (x', w', i) -> i_success i = true -> i_iter i <> 0%Z ->
  exists w1, gt (norm (treatV F n c o (raw w1 (x', p)))) (nr_tol st) = false.
Proof.
move=> mx mi. rewrite /idbcSolve /idbcNewton.
have [s' [E [L [L2 [S [_ [_ [_ [rn [Cd C]]]]]]]]]] := nrSolve_spec gt inf (fun w d => treatV F n c o (raw w d)) (fun w d => treatM F n c o (rawM w d)) norm norm lsolve
  (updateX F n c o) (Some (addForces F n c derivative W o rawM s, syncIdbc F n value)) listen st (x, p) w.1 w.2.
rewrite E. move=> [<- _ <-] su it.
have := nrSolve_synced gt inf _ _ norm norm lsolve _ _ _ listen st (fun d => d.2 = p) (x, p) w.1 w.2 s' _ _ _ E.
case=> // [[e _]|[pos [d [q e]]]]; first by case: (it e).
case: C => [[e0 _]|[_ [_ [w1 [er _]]]]]; first by case: (it e0).
have ep : s_d s' = ((s_d s').1, p) by rewrite e /syncIdbc /= q.
exists w1. rewrite -ep -er. move: Cd; rewrite /nrCond. rewrite S in su.
case: (Z.eqb_spec (i_iter (s_info s')) (nr_maxIter st)) su => // ne _.
case: (gt rn _) => //=. case: (Z.ltb_spec (i_iter (s_info s')) (nr_maxIter st)) => //=. lia.
Qed.

(** A run of one step in which the solver makes no iteration *)
Lemma solve_zero x p s w : (forall v, gt (norm (addForces F n c derivative W o rawM s v (x, p) (treatV F n c o (raw v (x, p))))) (nr_tol st) = false) ->
  (nr_minIter st <= 0)%Z -> (0 < nr_maxIter st)%Z -> exists w' i, solve x p s w = (x, w', i) /\ i_iter i = 0%Z /\ i_success i = true.
Proof.
move=> h m1 m2. have [s' [E [E1 [E2 E3]]]] := nrSolve_zero gt inf (fun w d => treatV F n c o (raw w d)) (fun w d => treatM F n c o (rawM w d)) norm norm lsolve
  (updateX F n c o) (addForces F n c derivative W o rawM s) (syncIdbc F n value) listen st (x, p) w.1 w.2 h m1 m2.
exists (s_c s', s_w s'), (s_info s'). by rewrite /idbcSolve /idbcNewton E E3.
Qed.

Lemma lc_one D x p w x' : (exists w' i, solve x p 0 w = (x, w', i) /\ i_success i = true) ->
  (forall w, exists x1 w' i, solve x (p + D) D w = (x1, w', i) /\ i_success i = true /\ x' = if (i_iter i =? 0)%Z then (syncIdbc F n value (x1, p + D)).1 else x1) ->
  let r := idbcLoadControl F n c value derivative W gt inf o raw rawM norm lsolve listen st (fun _ _ _ _ _ w => w) 1 D x p w in
  c_success (k_info r) = true /\ k_x r = x' /\ k_p r = p + D.
Proof.
move=> [w' [i [e su]]] h. rewrite /idbcLoadControl /lcRun /=. rewrite e su /=.
have [x1 [w2 [i2 [e2 [su2 ->]]]]] := h w'. by rewrite e2 su2.
Qed.
End Any.
Print Assumptions C95_imposed_partial.
Print Assumptions C95_balanced_partial.

(** ** Refutations: two dofs, a spring between them, the second one prescribed *)
Definition settings2 {F} (tol : F) : nrSettings F := mkNRSettings tol 20%Z 0%Z.
Definition oneStep : Z := 1%Z.
Definition twoSteps : Z := 2%Z.
From mathcomp Require Import ssrnum ssrint rat.
Local Notation Q := rat_fieldType.
Definition spring : 'M[rat]_2 := \matrix_(i, j) (if i == j then 1 else - 1).
Definition second (i : 'I_2) : bool := i == ord_max.
Definition unit2 : 'cV[rat]_2 := \col_i (second i)%:R.
Definition norm2 (r : 'cV[rat]_2) : rat := `|r ord0 ord0| + `|r ord_max ord0|.
Definition above (a b : rat) : bool := (b < a)%R.
Definition minusInverse (A : 'M[rat]_2) (r : 'cV[rat]_2) : 'cV[rat]_2 := - (invmx A *m r).
Definition half : rat := 2%:R^-1.
Definition quietListen {A B C D : Type} (_ : A) (_ : B) (_ : C) (_ : D) (w : unit) : unit := w.
Definition run2 (value derivative : rat -> 'cV[rat]_2) (raw : 'cV[rat]_2 * rat -> 'cV[rat]_2) (rawM : 'cV[rat]_2 * rat -> 'M[rat]_2) (D : rat) (x : 'cV[rat]_2) (p : rat) :=
  idbcLoadControl Q 2 second value derivative unit above 0 DFull (fun _ => raw) (fun _ => rawM) norm2 minusInverse quietListen (settings2 half)
    (fun _ _ _ _ _ w => w) oneStep D x p (0, tt).
Definition unbalanced (raw : 'cV[rat]_2 * rat -> 'cV[rat]_2) (x : 'cV[rat]_2) (p : rat) : Prop := above (norm2 (fullV Q 2 second (raw (x, p)))) half = true.

(** The first residual of a load step is tested with linearised forces only.  A spring with a cubic law: the solver makes no iteration, and
    load control reports success for an unbalanced state, although the prescribed displacement is the load factor. *)
Definition cubic (d : 'cV[rat]_2 * rat) : 'cV[rat]_2 := let e := d.1 ord0 ord0 - d.1 ord_max ord0 in \col_i (if second i then - (e * e * e) else e * e * e).
Definition cubicM (d : 'cV[rat]_2 * rat) : 'M[rat]_2 := let e := d.1 ord0 ord0 - d.1 ord_max ord0 in (3%:R * e * e) *: spring.
Theorem C95_nonlinear_refuted :
  let r := run2 (fun l => l *: unit2) (fun _ => unit2) cubic cubicM 1 0 0 in
  c_success (k_info r) = true /\ k_p r = 1 /\ unbalanced cubic (k_x r) (k_p r).
Proof.
set value := fun l => _. set derivative := fun l => _.
have z s p v : above (norm2 (addForces Q 2 second derivative unit DFull (fun _ => cubicM) s v (0, p) (treatV Q 2 second DFull (cubic (0, p))))) half = false.
  have -> : cubic (0, p) = 0 by apply/matrixP=> i j; rewrite !mxE subrr !mulr0 oppr0 if_same.
  rewrite /addForces /obtainForcesDueToIDBC treatV0 add0r /cubicM /= !mxE subrr !mulr0 scale0r mul0mx /norm2.
  have -> : fullV Q 2 second 0 = 0 by apply/matrixP=> i j; rewrite !mxE if_same.
  by rewrite scaler0 !mxE.
have [w1 [i1 [E1 [_ S1]]]] := solve_zero Q 2 second DFull value derivative unit above 0 (fun _ => cubic) (fun _ => cubicM) norm2 minusInverse quietListen
  (settings2 half) 0 0 0 (0, tt) (z 0 0) ltac:(cbn; lia) ltac:(cbn; lia).
have S2 w : exists x1 w' i, idbcSolve Q 2 second value derivative unit above 0 DFull (fun _ => cubic) (fun _ => cubicM) norm2 minusInverse quietListen (settings2 half) 0 (0 + 1) 1 w = (x1, w', i) /\
    i_success i = true /\ unit2 = if Z.eqb (i_iter i) Z0 then (syncIdbc Q 2 value (x1, 0 + 1)).1 else x1.
  have [w2 [i2 [E2 [I2 S2]]]] := solve_zero Q 2 second DFull value derivative unit above 0 (fun _ => cubic) (fun _ => cubicM) norm2 minusInverse quietListen
    (settings2 half) 0 (0 + 1) 1 w (z 1 (0 + 1)) ltac:(cbn; lia) ltac:(cbn; lia).
  exists 0, w2, i2. rewrite I2 /=. split=> //. split=> //. apply/matrixP=> i j. rewrite ord1 !mxE /=. by case: (second i).
have [c1 [c2 c3]] := lc_one Q 2 second DFull value derivative unit above 0 (fun _ => cubic) (fun _ => cubicM) norm2 minusInverse quietListen (settings2 half) 1 0 0 (0, tt) unit2
  (ex_intro _ w1 (ex_intro _ i1 (conj E1 S1))) S2.
split=> //. rewrite /run2. split; first by rewrite c3 add0r. rewrite c2 c3 /unbalanced /cubic /norm2.
by rewrite !mxE.
Qed.
Print Assumptions C95_nonlinear_refuted.

(** The derivative of the prescribed displacements is taken at load factor 1.  Here it is zero there, the solver makes no iteration, and
    load control reports success for a state in which the linear spring is stretched and its free end is loaded by nothing. *)
Theorem C95_nonproportional_refuted : exists value derivative,
  (forall l h : rat, value (l + h) = value l + h *: derivative l - (h * h) *: unit2) /\
  let r := run2 value derivative (fun d => spring *m d.1) (fun _ => spring) 1 0 0 in
  c_success (k_info r) = true /\ k_p r = 1 /\ unbalanced (fun d => spring *m d.1) (k_x r) (k_p r).
Proof.
exists (fun l => (2%:R * l - l * l) *: unit2), (fun l => (2%:R - 2%:R * l) *: unit2). split.
  move=> l h; rewrite scalerA -scalerDl -scalerBl; congr (_ *: _).
  have e1 : (l + h) * (l + h) = l * l + (l * h + l * h) + h * h by rewrite mulrDl !mulrDr [h * l]mulrC !addrA.
  have e2 : h * (2%:R - 2%:R * l) = 2%:R * h - (l * h + l * h).
    by rewrite mulrBr [h * 2%:R]mulrC [h * (_ * l)]mulrC -mulrA -[2%:R]/(1 + 1) [(1 + 1) * (l * h)]mulrDl !mul1r.
  rewrite e1 e2 mulrDr. move: (2%:R * l) (2%:R * h) (l * l) (l * h + l * h) (h * h) => p q r t u.
  by rewrite !opprD !addrA; congr (_ - _ - _); rewrite addrAC.
set value := fun l => _. set derivative := fun l => _. set raw := fun d => _.
have d1 : derivative 1 = 0 by rewrite /derivative mulr1 subrr scale0r.
have z s p v : above (norm2 (addForces Q 2 second derivative unit DFull (fun _ _ => spring) s v (0, p) (treatV Q 2 second DFull (raw (0, p))))) half = false.
  by rewrite /addForces /obtainForcesDueToIDBC d1 /raw /= !mulmx0 /norm2 !mxE !mulr0 !addr0.
have [w1 [i1 [E1 [_ S1]]]] := solve_zero Q 2 second DFull value derivative unit above 0 (fun _ => raw) (fun _ _ => spring) norm2 minusInverse quietListen
  (settings2 half) 0 0 0 (0, tt) (z 0 0) ltac:(cbn; lia) ltac:(cbn; lia).
have S2 w : exists x1 w' i, idbcSolve Q 2 second value derivative unit above 0 DFull (fun _ => raw) (fun _ _ => spring) norm2 minusInverse quietListen (settings2 half) 0 (0 + 1) 1 w = (x1, w', i) /\
    i_success i = true /\ unit2 = if Z.eqb (i_iter i) Z0 then (syncIdbc Q 2 value (x1, 0 + 1)).1 else x1.
  have [w2 [i2 [E2 [I2 S2]]]] := solve_zero Q 2 second DFull value derivative unit above 0 (fun _ => raw) (fun _ _ => spring) norm2 minusInverse quietListen
    (settings2 half) 0 (0 + 1) 1 w (z 1 (0 + 1)) ltac:(cbn; lia) ltac:(cbn; lia).
  exists 0, w2, i2. rewrite I2 /=. split=> //. split=> //. apply/matrixP=> i j. rewrite ord1 !mxE /=.
  have -> : 2%:R * (0 + 1) - (0 + 1) * (0 + 1) = 1 :> rat by rewrite add0r !mulr1 -[2%:R]/(1 + 1) addrK.
  by rewrite mul1r; case: (second i).
have [c1 [c2 c3]] := lc_one Q 2 second DFull value derivative unit above 0 (fun _ => raw) (fun _ _ => spring) norm2 minusInverse quietListen (settings2 half) 1 0 0 (0, tt) unit2
  (ex_intro _ w1 (ex_intro _ i1 (conj E1 S1))) S2.
split=> //. rewrite /run2. split; first by rewrite c3 add0r. rewrite c2 c3 /unbalanced /raw /norm2.
by rewrite !mxE !big_ord_recl big_ord0 !mxE.
Qed.
Print Assumptions C95_nonproportional_refuted.

(** Unloading: prescribed displacements that are zero are not imposed.  The step from load factor 1 to 0 succeeds after two iterations with
    the displacement still at its old value. *)
Theorem C95_unloading_refuted :
  let value := fun l : rat => l *: unit2 in let x1 : 'cV[rat]_2 := \col_i 1 in
  let r := run2 value (fun _ => unit2) (fun d => spring *m d.1) (fun _ => spring) (- 1) x1 1 in
  imposed Q 2 value (x1, 1) /\ c_success (k_info r) = true /\ k_p r = 0 /\ value (k_p r) ord_max ord0 = 0 /\ k_x r ord_max ord0 = 1.
Proof.
cbv zeta. set value := fun l => _. set x1 : 'cV[rat]_2 := \col_i 1. set raw := fun d : 'cV[rat]_2 * rat => spring *m d.1.
have A1 : fullM Q 2 second spring = 1%:M.
  by apply/matrixP=> i j; rewrite !mxE; case: i j => [[|[|//]] ?] [[|[|//]] ?].
have r1 : spring *m x1 = 0.
  by apply/matrixP=> i j; rewrite !mxE !big_ord_recl big_ord0 !mxE; case: i => [[|[|//]] ?].
have sy (x : 'cV[rat]_2) : syncIdbc Q 2 value (x, 0) = (x, 0).
  by congr pair; apply/matrixP=> i j; rewrite ord1 !mxE mul0r eqxx.
have f0 : fullV Q 2 second 0 = 0 by apply/matrixP=> i j; rewrite !mxE if_same.
have iA r : minusInverse (fullM Q 2 second spring) r = - r by rewrite /minusInverse A1 invmx1 mul1mx.
have z v : above (norm2 (addForces Q 2 second (fun _ => unit2) unit DFull (fun _ _ => spring) 0 v (x1, 1) (treatV Q 2 second DFull (raw (x1, 1))))) half = false.
  by rewrite /addForces /raw /= r1 f0 scale0r addr0 /norm2 !mxE.
have [w1 [i1 [E1 [_ S1]]]] := solve_zero Q 2 second DFull value (fun _ => unit2) unit above 0 (fun _ => raw) (fun _ _ => spring) norm2 minusInverse quietListen
  (settings2 half) x1 1 0 (0, tt) z ltac:(cbn; lia) ltac:(cbn; lia).
pose res (d : 'cV[rat]_2 * rat) := fullV Q 2 second (raw d). pose jac (d : 'cV[rat]_2 * rat) := fullM Q 2 second spring.
pose add (d : 'cV[rat]_2 * rat) (r : 'cV[rat]_2) := r + (- 1) *: fullV Q 2 second (spring *m unit2). pose upd := updateX Q 2 second DFull.
have fi : idbcFirst res jac minusInverse upd add (syncIdbc Q 2 value) (x1, 0) = (unit2, 0).
  rewrite /idbcFirst /jac iA /upd /updateX /= sy; congr pair. rewrite /add /res /raw /= r1 f0 add0r.
  by apply/matrixP=> i j; rewrite ord1 !mxE !big_ord_recl big_ord0 !mxE; case: i => [[|[|//]] ?].
have ne : idbcNext res jac minusInverse upd (syncIdbc Q 2 value) (unit2, 0) = (x1, 0).
  rewrite /idbcNext /jac iA /upd /updateX /= sy; congr pair. rewrite /res /raw /=.
  by apply/matrixP=> i j; rewrite ord1 !mxE !big_ord_recl big_ord0 !mxE; case: i => [[|[|//]] ?].
have S2 w : exists x' w' i, idbcSolve Q 2 second value (fun _ => unit2) unit above 0 DFull (fun _ => raw) (fun _ _ => spring) norm2 minusInverse quietListen (settings2 half) x1 (1 + - 1) (- 1) w = (x', w', i) /\
    i_success i = true /\ x1 = if Z.eqb (i_iter i) Z0 then (syncIdbc Q 2 value (x', 1 + - 1)).1 else x'.
  have [|||||s [e1 [e2 [e3 e4]]]] := nrSolve_two above 0 res jac norm2 norm2 minusInverse upd add (syncIdbc Q 2 value) quietListen (settings2 half) (x1, 0) w.1 w.2.
  - by rewrite /add /res /raw /= r1 f0 add0r /norm2 !mxE !big_ord_recl big_ord0 !mxE.
  - by rewrite fi /res /raw /norm2 !mxE !big_ord_recl big_ord0 !mxE.
  - by rewrite fi ne /res /raw /= r1 f0 /norm2 !mxE.
  - cbn; lia.
  - cbn; lia.
  exists (s_d s).1, (s_c s, s_w s), (s_info s). rewrite /idbcSolve /idbcNewton subrr e1 e2 /= e4 fi ne. by split.
have [c1 [c2 c3]] := lc_one Q 2 second DFull value (fun _ => unit2) unit above 0 (fun _ => raw) (fun _ _ => spring) norm2 minusInverse quietListen (settings2 half) (- 1) x1 1 (0, tt) x1
  (ex_intro _ w1 (ex_intro _ i1 (conj E1 S1))) S2.
split; first by move=> i; rewrite /= !mxE mul1r; case: (second i).
split=> //. rewrite /run2 c2 c3 subrr. by rewrite !mxE mul0r.
Qed.
Print Assumptions C95_unloading_refuted.

(** The spring meets the hypotheses of C94: two steps of pulling with DBCOption::Full. *)
Example C94_applies :
  let r := idbcLoadControl Q 2 second (fun l => l *: unit2) (fun _ => unit2) unit above 0 DFull (fun _ d => spring *m d.1 - d.2 *: 0) (fun _ _ => spring) norm2
    minusInverse quietListen (settings2 half) (fun _ _ _ _ _ w => w) twoSteps 1 0 0 (0, tt) in
  c_success (k_info r) = true /\ k_x r ord_max ord0 = k_p r.
Proof.
have A1 : fullM Q 2 second spring = 1%:M.
  by apply/matrixP=> i j; rewrite !mxE; case: i j => [[|[|//]] ?] [[|[|//]] ?].
have := C94_linear_load_control Q 2 second DFull spring 0 unit2 (fun l => l *: unit2) (fun _ => unit2) (fun l => erefl) (fun l => erefl) _ unit above 0 norm2
  minusInverse quietListen (settings2 half) _ _ _ _ (fun _ _ _ _ _ w => w) twoSteps 1 0 0 (0, tt).
case=> //.
- by move=> i; rewrite mxE; case: (second i).
- by rewrite /= A1 unitmx1.
- by move=> r; rewrite /= A1 /minusInverse invmx1 !mul1mx.
- by rewrite /norm2 !mxE.
- by move=> i; rewrite !mxE mul0r.
- by move=> k /andP [kp _]; rewrite add0r Num.Theory.pnatr_eq0 -lt0n.
by move=> su [_ [_ [h _]]]; split=> //; rewrite h ?mxE // mulr1.
Qed.
