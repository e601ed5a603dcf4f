(** The trust-region iteration over the real numbers. *)

From Coq Require Import List ZArith Bool Lia Reals Lra.
From Verif Require Import Newton_Model TCG_Model TrustRegion_Model TrustRegion_Spec TrustRegion_Proofs.
Import ListNotations.
Local Open Scope R_scope.

Section Real.
Context {V H X : Type}.
Variables (energy : X -> R) (gradient : X -> V) (hessian : X -> H).
Variables (vnorm : V -> R) (vdot : V -> V -> R) (vadd : V -> V -> V) (vscale : R -> V -> V) (vneg : V -> V) (vzeroLike : V -> V) (hmul : H -> V -> V).
Variable update : X -> V -> X.
Variable rnd : H -> R -> V.
Variable inner : V -> H -> V -> tcgInfo R -> option (V * tcgInfo R).

Notation iter := (iterates NR energy gradient hessian vnorm vdot vadd vscale vneg vzeroLike hmul update rnd inner).
Notation propose := (trPropose NR gradient hessian vdot vscale vzeroLike hmul rnd inner).

Definition modelOf (x : X) (eta Heta : V) : R := vdot eta (vadd (gradient x) (vscale (1 / 2) Heta)).

(** The decision in terms of the specification *)
Lemma rho_spec st (s : @trState R V X) g eta Heta eProp : trRho NR vdot vadd vscale st s g eta Heta eProp =
  let m := vdot eta (vadd g (vscale (1 / 2) Heta)) in
  let a := agreement (u_energy s) eProp m (tr_rhoReg st) in
  ((if rltb a 0 then -(1) else a), rltb 0 (predicted m (u_energy s) (tr_rhoReg st))).
Proof.
  unfold trRho, agreement, predicted, regularisation. cbv zeta. cbn [NR n0 n1 nadd nsub nmul ndiv nopp nabs nltb nHalf nEps].
  assert (M : nmax NR 1 (Rabs (u_energy s)) = Rmax 1 (Rabs (u_energy s))).
  { unfold nmax. simpl. unfold rltb, Rmax. destruct (Rlt_dec _ _), (Rle_dec _ _); auto; lra. }
  rewrite M. reflexivity.
Qed.

Lemma decide_spec st (s : @trState R V X) g eta Heta inf eProp D acc :
  trDecide NR vnorm vdot vadd vscale st s g eta Heta inf eProp = (D, acc) ->
  0 <= tr_rhoPrime st < 1 / 4 -> 0 < tcg_Delta inf <= tr_deltaBar st -> 0 <= vnorm eta ->
  let m := vdot eta (vadd g (vscale (1 / 2) Heta)) in
  let a := agreement (u_energy s) eProp m (tr_rhoReg st) in
  let pr := predicted m (u_energy s) (tr_rhoReg st) in
  (acc = true -> 0 < pr /\ tr_rhoPrime st < a /\ eProp <= u_energy s + slack) /\
  (acc = false -> pr <= 0 \/ a <= tr_rhoPrime st \/ u_energy s < eProp) /\
  (D <= tr_deltaBar st) /\
  (acc = true \/ 0 < vnorm eta -> 0 < D) /\
  (D < tcg_Delta inf -> pr <= 0 \/ a < 1 / 4 \/ u_energy s < eProp) /\
  (tcg_Delta inf < D -> 99 / 100 < a /\ acc = true /\ boundaryHit inf = true).
Proof.
  intros DE Hr HD Hn m a pr. unfold trDecide in DE. rewrite rho_spec in DE. cbv zeta in DE. fold m in DE. fold a in DE. fold pr in DE.
  cbn [NR n0 n1 n2 n4 nRhoBad nRhoGood nGrow nESlack nsub nmul ndiv nopp nltb nleb nnan] in DE.
  set (ed := floatGe NR (u_energy s - eProp) (- (1 / 1000000000000))) in *.
  assert (Hed1 : ed = true -> eProp <= u_energy s + slack). { intro Q. apply floatGe_slack in Q. lra. }
  assert (Hed0 : ed = false -> u_energy s < eProp).
  { unfold ed, floatGe. simpl. intro Q. apply orb_false_iff in Q. destruct Q as [Q _]. apply rltb_false in Q. lra. }
  clearbody ed. unfold nmin in DE. cbn [NR nltb] in DE.
  set (rho := if rltb a 0 then -(1) else a) in *.
  assert (Hrho : (a < 0 /\ rho = -(1)) \/ (0 <= a /\ rho = a)).
  { unfold rho. destruct (rltb a 0) eqn:Q; [apply rltb_true in Q|apply rltb_false in Q]; auto. }
  clearbody rho. rewrite orb_false_r in DE.
  destruct (rltb 0 pr) eqn:Epr; [apply rltb_true in Epr|apply rltb_false in Epr];
  (destruct (rltb rho (1 / 10000)) eqn:Er; [apply rltb_true in Er|apply rltb_false in Er]);
  destruct ed eqn:Eed; try specialize (Hed1 eq_refl); try specialize (Hed0 eq_refl);
  cbn [orb andb negb] in DE;
  (destruct (rltb (tr_rhoPrime st) rho) eqn:Erp; [apply rltb_true in Erp|apply rltb_false in Erp]); cbn [orb andb negb] in DE;
  try (destruct (rltb (99 / 100) rho) eqn:Eg; [apply rltb_true in Eg|apply rltb_false in Eg]); cbn [orb andb negb] in DE;
  try (destruct (boundaryHit inf) eqn:Ebh);
  repeat match type of DE with context [if rltb ?p ?q then _ else _] =>
    let E := fresh "Q" in destruct (rltb p q) eqn:E; [apply rltb_true in E|apply rltb_false in E] end;
  repeat match type of DE with context [if (5 <=? u_rejected s)%Z then _ else _] => destruct (5 <=? u_rejected s)%Z end;
  inversion DE; subst D acc; clear DE;
  repeat split; intros; try discriminate; try lra;
  try (destruct Hrho as [[? ?]|[? ?]]; try lra);
  try (match goal with H : _ \/ 0 < vnorm _ |- _ => destruct H as [H|H]; [discriminate|lra] end).
Qed.

(** Very good agreement at the boundary: the radius grows *)
Lemma decide_growth st (s : @trState R V X) g eta Heta inf eProp D acc :
  trDecide NR vnorm vdot vadd vscale st s g eta Heta inf eProp = (D, acc) -> tr_rhoPrime st < 1 / 4 ->
  let m := vdot eta (vadd g (vscale (1 / 2) Heta)) in
  0 < predicted m (u_energy s) (tr_rhoReg st) -> 99 / 100 < agreement (u_energy s) eProp m (tr_rhoReg st) -> eProp <= u_energy s ->
  boundaryHit inf = true -> D = Rmin (35 / 10 * tcg_Delta inf) (tr_deltaBar st).
Proof.
  intros DE Hr m Hp Ha He Hb. unfold trDecide in DE. rewrite rho_spec in DE. cbv zeta in DE. fold m in DE.
  cbn [NR n0 n1 n2 n4 nRhoBad nRhoGood nGrow nESlack nsub nmul ndiv nopp nltb nleb nnan] in DE.
  set (a := agreement (u_energy s) eProp m (tr_rhoReg st)) in *. set (pr := predicted m (u_energy s) (tr_rhoReg st)) in *.
  assert (E1 : rltb 0 pr = true) by now apply rltb_true.
  assert (E2 : rltb a 0 = false) by (apply rltb_false; lra).
  assert (E3 : rltb a (1 / 10000) = false) by (apply rltb_false; lra).
  assert (E4 : rltb (99 / 100) a = true) by now apply rltb_true.
  assert (E5 : rltb (tr_rhoPrime st) a = true) by (apply rltb_true; lra).
  assert (E6 : floatGe NR (u_energy s - eProp) (- (1 / 1000000000000)) = true).
  { unfold floatGe. simpl. replace (rltb (- (1 / 1000000000000)) (u_energy s - eProp)) with true; [reflexivity|]. symmetry. apply rltb_true. lra. }
  rewrite E2, E1, E3, E4, E5, E6, Hb in DE. cbn [orb andb negb] in DE. injection DE as DE _. rewrite <- DE.
  unfold nmin, Rmin. cbn [NR nltb]. unfold rltb. destruct (Rlt_dec _ _), (Rle_dec _ _); auto; lra.
Qed.

Variable Hin : forall g h e i eta i', inner g h e i = Some (eta, i') -> tcg_Delta i' = tcg_Delta i.

Lemma propose_facts st s eta Heta inf : propose st s = Some (eta, Heta, inf) ->
  tcg_Delta inf = tcg_Delta (u_inner s) /\ (tr_useRand st = false -> Heta = hmul (hessian (u_x s)) eta) /\
  exists guess eta', inner (gradient (u_x s)) (hessian (u_x s)) guess (u_inner s) = Some (eta', inf).
Proof.
  unfold trPropose. cbv zeta. match goal with |- context [inner _ _ ?gu _] => set (guess := gu) end. destruct (inner _ _ guess _) as [[e i]|] eqn:E; [|discriminate]. intro P.
  assert (i = inf).
  { destruct (tr_useRand st && (u_outer s =? 0)%Z); [|inversion P; auto]. destruct (nltb _ _ _); inversion P; auto. }
  subst i. split; [eapply Hin; eauto|]. split; [|eauto]. intro U. rewrite U in P. simpl in P. inversion P; auto.
Qed.
End Real.
