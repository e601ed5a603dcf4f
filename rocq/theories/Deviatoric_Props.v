(** Properties C51, C75 to C78: the deviatoric functions of hyperelastic materials. *)

From Coq Require Import Reals List ZArith Bool Lia Lra.
From Coquelicot Require Import Coquelicot.
From Verif Require Import Deviatoric_Model Deviatoric_Spec Deviatoric_Proofs.
Import ListNotations.
Local Open Scope R_scope.

(** The value of a call that does not fail *)
Definition valueOf {A} (d : A) (o : outcome A) : A := match o with Value a => a | _ => d end.

(** Exponents of Ogden's terms must not be zero (the energy divides by them) *)
Definition validExponents (f : deviatoricFunction) : Prop :=
  match f with
  | OgdenTotal terms | OgdenDeviatoric terms => forall mu alpha, In (mu, alpha) terms -> alpha <> 0
  | _ => True
  end.

Definition fewTerms (f : deviatoricFunction) : Prop :=
  match f with OgdenDeviatoric terms => (length terms <= 3)%nat | _ => True end.

(** Whether Gent's check passes does not change in a neighbourhood *)
Lemma checkJm_locally Jm l h : positiveStretches l -> checkJm Jm (W1 l) = false ->
  locally 0 (fun t => checkJm Jm (W1 (fun i => l i + t * h i)) = false).
Proof.
  intros P H. assert (G := checkJm_gap Jm l P H).
  assert (Hm : 1 / 10 ^ 14 * Jm < Jm - (W1 l - 3)).
  { revert H. unfold checkJm, floatLe, rltb. destruct Rlt_dec; [discriminate|]. cbn [orb]. unfold floatEq, rleb.
    destruct Rle_dec as [|N]; [discriminate|]. intros _. apply Rnot_le_lt in N.
    rewrite (Rabs_pos_eq (Jm - _)) in N by lra. rewrite (Rabs_pos_eq Jm), (Rabs_pos_eq (W1 l - 3)), Rmax_left in N by lra. exact N. }
  assert (C : continuous (fun t => W1 (fun i => l i + t * h i)) 0).
  { apply (@ex_derive_continuous R_AbsRing R_NormedModule). eexists. apply (W1_gradient l P h). }
  set (delta := Rmin (Jm - (W1 l - 3) - 1 / 10 ^ 14 * Jm) Jm / 2).
  assert (D : 0 < delta) by (unfold delta; assert (0 < Rmin (Jm - (W1 l - 3) - 1 / 10 ^ 14 * Jm) Jm) by (apply Rmin_glb_lt; lra); lra).
  assert (D1 : delta <= (Jm - (W1 l - 3) - 1 / 10 ^ 14 * Jm) / 2) by (unfold delta; assert (K := Rmin_l (Jm - (W1 l - 3) - 1 / 10 ^ 14 * Jm) Jm); lra).
  assert (D2 : delta <= Jm / 2) by (unfold delta; assert (K := Rmin_r (Jm - (W1 l - 3) - 1 / 10 ^ 14 * Jm) Jm); lra).
  assert (C' := C (ball (W1 (fun i => l i + 0 * h i)) (mkposreal _ D)) (locally_ball _ _)).
  unfold filtermap in C'. revert C'. apply filter_imp. intros t B.
  unfold ball in B; cbn in B; unfold AbsRing_ball, abs, minus, plus, opp in B; cbn in B.
  rewrite (local_line W1 l h local_W1) in B. apply Rabs_def2 in B. destruct B as [B1 B2].
  set (w := W1 (fun i => l i + t * h i)) in *. clearbody w.
  unfold checkJm, floatLe, rltb. destruct Rlt_dec; [lra|]. cbn [orb]. unfold floatEq, rleb.
  destruct Rle_dec as [L|]; [exfalso|reflexivity].
  rewrite (Rabs_pos_eq (Jm - _)), (Rabs_pos_eq Jm) in L by lra.
  rewrite Rmax_left in L by (apply Rabs_le; lra). lra.
Qed.

Lemma const_gradient l : gradient (fun _ => 0) l (fun _ => 0).
Proof. apply gradient_const. Qed.

(** The stretches stay positive along a line for a while *)
Lemma positive_locally l h : positiveStretches l -> locally 0 (fun t => positiveStretches (fun i => l i + t * h i)).
Proof.
  intros (A & B & C).
  assert (P : forall x y, 0 < x -> locally 0 (fun t => 0 < x + t * y)).
  { intros x y X. assert (K : continuous (fun t => x + t * y) 0).
    { apply (@ex_derive_continuous R_AbsRing R_NormedModule). auto_derive. exact I. }
    apply (K (fun z => 0 < z)). apply (open_gt 0). lra. }
  apply filter_and; [|apply filter_and]; apply P; assumption.
Qed.

Ltac pieces a b := split; [reflexivity|]; split; [reflexivity|]; split; [a|]; split; [b|]; split; [b|]; split.

(** C51: energy, principal stresses and principal moduli are derivatives of each other *)
Theorem C51_derivatives f l :
  positiveStretches l -> validExponents f -> fewTerms f -> energyImpl f l <> Throws ->
  exists w s L, devEnergy f l = Value w /\ devStresses f l = Value s /\ devTangent f l = Value L /\
    gradient (fun l => valueOf 0 (devEnergy f l)) l (fun i => l i * s i) /\
    forall i, (i < 3)%nat -> gradient (fun l => valueOf (fun _ => 0) (devStresses f l) i) l (fun k => l k * L i i k k).
Proof.
  intros P V F T.
  (* every function provides an energy E with gradient D and hessian as required *)
  assert (K : exists (E : stretches -> R) D H,
    energyImpl f l = Value (E l) /\ firstImpl f l = Value (D l) /\ secondImpl f l = Value H /\
    (forall h, locally 0 (fun t => E (fun i => l i + t * h i) = valueOf 0 (energyImpl f (fun i => l i + t * h i)))) /\
    (forall h i, (i < 3)%nat -> locally 0 (fun t => D (fun i => l i + t * h i) i = valueOf (fun _ => 0) (firstImpl f (fun i => l i + t * h i)) i)) /\
    gradient E l (D l) /\
    forall i, (i < 3)%nat -> gradient (fun l => D l i / l i) l (fun k => H i k / l i)).
  { assert (Hess : forall D (H : nat -> nat -> R), (forall i, (i < 3)%nat -> local (fun l => D l i)) ->
      (forall i, (i < 3)%nat -> gradient (fun l => D l i) l (fun k => H i k + kronecker i k * (D l i / l i))) ->
      forall i, (i < 3)%nat -> gradient (fun l => D l i / l i) l (fun k => H i k / l i)).
    { intros D H L G i Hi. eapply gradient_grad; [|apply (stress_gradient (fun l => D l i)); [assumption|assumption|now apply L|now apply G]].
      intros k Hk. cbn beta. unfold Rdiv. ring. }
    destruct f as [|mu|terms|terms|terms|mu Jm|mu lambdaM].
    - exists (fun _ => 0), (fun _ _ => 0), (fun _ _ => 0). pieces reflexivity ltac:(intros; apply filter_forall; reflexivity).
      + apply gradient_const.
      + intros i Hi. eapply gradient_ext; [| |apply (gradient_const 0)]; cbn beta; intros; unfold Rdiv; ring.
    - exists (blatzKoEnergy mu), (blatzKoFirst mu), (blatzKoSecond mu l). pieces reflexivity ltac:(intros; apply filter_forall; reflexivity).
      + now apply blatzKo_gradient.
      + apply Hess; intros; [now apply blatzKo_local|now apply blatzKo_hessian].
    - exists (ogdenTotalEnergy terms), (ogdenTotalFirst terms), (ogdenTotalSecond terms l). pieces reflexivity ltac:(intros; apply filter_forall; reflexivity).
      + apply ogdenTotal_gradient; [assumption|]. intros [mu alpha] I. exact (V mu alpha I).
      + apply Hess; intros; [now apply ogdenTotal_local|now apply ogdenTotal_hessian].
    - cbn in F. destruct (ogden_hessian terms l 0 P ltac:(lia) F) as (dS & E & _).
      exists (ogdenEnergy terms), (ogdenFirst terms), dS. pieces ltac:(exact E) ltac:(intros; apply filter_forall; reflexivity).
      + eapply gradient_grad; [|apply ogden_gradient; [assumption|intros [mu alpha] I; exact (V mu alpha I)]].
        intros k Hk. cbn beta. now rewrite ogdenFirst_total.
      + intros i Hi.
        set (D' := fun (l : stretches) (i : nat) => total (fun '(mu, alpha) => mu * (Rpower (deviatoricStretches l i) alpha - barSum alpha l / 3) / l i) terms).
        assert (X : gradient (fun l => D' l i / l i) l (fun k => dS i k / l i)).
        { apply Hess; [| |assumption].
          - intros j Hj a b Q. unfold D'. rewrite (Q j Hj). apply total_ext. intros [mu alpha] _.
            now rewrite (local_bar j Hj _ _ Q), (barSum_local alpha _ _ Q).
          - intros j Hj. destruct (ogden_hessian terms l j P Hj F) as (dS' & E' & G).
            rewrite E in E'. injection E' as <-. eapply gradient_grad; [|exact G].
            intros k Hk. cbn beta. now rewrite ogdenFirst_total. }
        apply (gradient_loc (fun l => D' l i / l i)); [|exact X].
        intros h. generalize (positive_locally l h P). apply filter_imp. intros t Pt. cbn beta.
        now rewrite (ogdenFirst_total terms _ i Pt Hi).
    - exists (invariantEnergy terms), (invariantFirst terms), (invariantSecond terms l). pieces reflexivity ltac:(intros; apply filter_forall; reflexivity).
      + now apply invariant_gradient.
      + apply Hess; intros; [now apply invariant_local|now apply invariant_hessian].
    - cbn in T. destruct (checkJm Jm (W1 l)) eqn:C; [now contradict T|].
      assert (G := checkJm_gap Jm l P C). exists (gentEnergy mu Jm), (gentFirst mu Jm), (gentSecond mu Jm l). cbn [energyImpl firstImpl secondImpl]. rewrite C.
      pieces reflexivity ltac:(intros h; intros; generalize (checkJm_locally Jm l h P C); apply filter_imp; intros t ->; reflexivity).
      + now apply gent_gradient.
      + apply Hess; intros; [now apply gent_local|now apply gent_hessian].
    - exists (arrudaEnergy mu lambdaM), (arrudaFirst mu lambdaM), (arrudaSecond mu lambdaM l). pieces reflexivity ltac:(intros; apply filter_forall; reflexivity).
      + now apply arruda_gradient.
      + apply Hess; intros; [now apply arruda_local|now apply arruda_hessian]. }
  destruct K as (E & D & H & E0 & D0 & H0 & EL & DL & GE & GD).
  unfold devStresses, devTangent, devStresses, devEnergy. rewrite D0, H0.
  eexists; eexists; eexists. split; [exact E0|]. split; [reflexivity|]. split; [reflexivity|]. split.
  - apply (gradient_loc E); [exact EL|]. eapply gradient_grad; [|exact GE].
    intros i Hi. cbn beta. assert (Q := positive_at l i P Hi). field. lra.
  - intros i Hi. apply (gradient_loc (fun l => D l i / l i)).
    + intros h. generalize (DL h i Hi). apply filter_imp. intros t X. cbn beta. rewrite X.
      destruct (firstImpl f (fun i => l i + t * h i)); cbn [valueOf]; [reflexivity|unfold Rdiv; ring|unfold Rdiv; ring].
    + eapply gradient_grad; [|apply GD; exact Hi].
      intros k Hk. cbn beta. rewrite !Nat.eqb_refl. cbn [andb].
      assert (Q := positive_at l i P Hi). assert (Q' := positive_at l k P Hk). field. lra.
Qed.
Print Assumptions C51_derivatives.

(** The stresses do not need the restriction to three terms *)
Theorem C51_stresses f l :
  positiveStretches l -> validExponents f -> energyImpl f l <> Throws ->
  exists w s, devEnergy f l = Value w /\ devStresses f l = Value s /\
    gradient (fun l => valueOf 0 (devEnergy f l)) l (fun i => l i * s i).
Proof.
  intros P V T.
  assert (K : fewTerms f \/ exists terms, f = OgdenDeviatoric terms) by (destruct f; cbn; eauto).
  destruct K as [F|[terms ->]].
  - destruct (C51_derivatives f l P V F T) as (w & s & L & A & B & _ & G & _). exists w, s. auto.
  - eexists; eexists. split; [reflexivity|]. split; [reflexivity|].
    eapply gradient_grad; [|apply ogden_gradient; [assumption|intros [mu alpha] I; exact (V mu alpha I)]].
    intros k Hk. cbn beta. rewrite ogdenFirst_total by assumption. assert (Q := positive_at l k P Hk). field. lra.
Qed.
Print Assumptions C51_stresses.

(** The hypotheses are met by a Gent material stretched to 2, 1, 1/2 *)
Definition sampleStretches (i : nat) : R := match i with 0%nat => 2 | 1%nat => 1 | _ => 1 / 2 end.

Lemma sample_positive : positiveStretches sampleStretches.
Proof. unfold positiveStretches, sampleStretches. lra. Qed.

Lemma sample_W1 : W1 sampleStretches = 21 / 4.
Proof.
  unfold W1, I1, I3, sum3, prod3, sampleStretches. replace (2 ^ 2 * 1 ^ 2 * (1 / 2) ^ 2) with 1 by field.
  rewrite rpower_1 || (unfold Rpower; rewrite ln_1, Rmult_0_r, exp_0). field.
Qed.

Example C51_gent_applies : energyImpl (Gent 1 10) sampleStretches <> Throws.
Proof.
  cbn [energyImpl]. rewrite sample_W1. unfold checkJm, floatLe, rltb, floatEq, rleb.
  destruct Rlt_dec as [H|_]; [exfalso; lra|]. cbn [orb].
  destruct Rle_dec as [H|_]; [exfalso|discriminate].
  rewrite !Rabs_pos_eq, Rmax_left in H; lra.
Qed.

(** Entries that belong to equal stretches are equal *)
Lemma first_equal f l i k s : l i = l k -> firstImpl f l = Value s -> s i = s k.
Proof.
  intros E. destruct f; cbn [firstImpl]; try (intros [= <-]).
  - reflexivity.
  - unfold blatzKoFirst. now rewrite E.
  - unfold ogdenTotalFirst. now rewrite E.
  - unfold ogdenFirst, deviatoricStretches. now rewrite E.
  - unfold invariantFirst, dW1, dW2. now rewrite E.
  - destruct checkJm; [discriminate|]. intros [= <-]. unfold gentFirst, dW1. now rewrite E.
  - unfold arrudaFirst, dW1. now rewrite E.
Qed.

Lemma second_equal f l i k H : l i = l k -> secondImpl f l = Value H -> H i i = H k k.
Proof.
  intros E. destruct f; cbn [secondImpl]; try (intros [= <-]).
  - reflexivity.
  - unfold blatzKoSecond. rewrite !Nat.eqb_refl. now rewrite E.
  - unfold ogdenTotalSecond. rewrite !Nat.eqb_refl. now rewrite E.
  - unfold ogdenSecond. destruct writePowSums; [|discriminate]. intros [= <-]. rewrite !Nat.eqb_refl.
    unfold ogdenFirst, deviatoricStretches. now rewrite E.
  - unfold invariantSecond, dW1, dW2, ddW1, ddW2. rewrite !Nat.eqb_refl. now rewrite E.
  - destruct checkJm; [discriminate|]. intros [= <-]. unfold gentSecond, dW1, ddW1. rewrite !Nat.eqb_refl. now rewrite E.
  - unfold arrudaSecond, dW1, ddW1. rewrite !Nat.eqb_refl. now rewrite E.
Qed.

Lemma ddW_symmetric l i k : ddW1 l i k = ddW1 l k i /\ ddW2 l i k = ddW2 l k i.
Proof.
  unfold ddW1, ddW2. rewrite (Nat.eqb_sym k i). destruct (Nat.eqb_spec i k) as [->|]; split; try reflexivity.
  - rewrite (Rplus_comm (l k ^ 2)), (Rmult_comm (l k) (l i)). reflexivity.
  - rewrite (Rmult_comm (l k) (l i)), !Rmult_assoc, (Rmult_comm (l k ^ 2)). reflexivity.
Qed.

Lemma second_symmetric f l i k H : secondImpl f l = Value H -> H i k = H k i.
Proof.
  destruct (Nat.eq_dec i k) as [->|N]; [reflexivity|].
  assert (E1 : Nat.eqb i k = false) by now apply Nat.eqb_neq.
  assert (E2 : Nat.eqb k i = false) by (apply Nat.eqb_neq; auto).
  destruct (ddW_symmetric l i k) as [S1 S2].
  destruct f; cbn [secondImpl]; try (intros [= <-]).
  - reflexivity.
  - unfold blatzKoSecond. rewrite E1, E2. now rewrite (Rmult_comm (l k)).
  - unfold ogdenTotalSecond. now rewrite E1, E2.
  - unfold ogdenSecond. destruct writePowSums; [|discriminate]. intros [= <-]. rewrite E1, E2, (Rmult_comm (l k)).
    f_equal. apply total_ext. intros [p [mu alpha]] _. ring.
  - unfold invariantSecond. rewrite E1, E2. apply total_ext. intros [[mu p] q] _. rewrite S1, S2. ring.
  - destruct checkJm; [discriminate|]. intros [= <-]. unfold gentSecond. rewrite E1, E2, S1. now rewrite (Rmult_comm (dW1 l k)).
  - unfold arrudaSecond. rewrite E1, E2. apply total_ext. intros [p alpha] _. rewrite S1. ring.
Qed.

Lemma tangent_parts f l L : devTangent f l = Value L -> exists s H,
  firstImpl f l = Value s /\ secondImpl f l = Value H /\
  (forall i k, L i i k k = 1 / (l i * l k) * H i k) /\
  (forall i k, i <> k -> L i k i k =
    if floatEq (1 / 10 ^ 8) (l i) (l k) then 1 / 2 * (L i i i i - L i i k k)
    else (s i / l i - s k / l k) / (l i ^ 2 - l k ^ 2)).
Proof.
  unfold devTangent, devStresses. destruct (firstImpl f l) as [s| |] eqn:E1; [|discriminate|destruct (secondImpl f l); discriminate].
  destruct (secondImpl f l) as [H| |] eqn:E2; try discriminate. intros [= <-].
  exists s, H. split; [reflexivity|]. split; [reflexivity|]. split; intros i k; rewrite ?Nat.eqb_refl; cbn [andb]; [reflexivity|].
  intros N. replace (Nat.eqb i k) with false by (symmetry; now apply Nat.eqb_neq). reflexivity.
Qed.

Lemma stresses_first f l s : devStresses f l = Value s -> exists d, firstImpl f l = Value d /\ forall i, s i = d i / l i.
Proof. unfold devStresses. destruct firstImpl as [d| |]; try discriminate. intros [= <-]. now exists d. Qed.

Lemma floatEq_refl x : floatEq (1 / 10 ^ 8) x x = true.
Proof.
  unfold floatEq, rleb. destruct Rle_dec as [|N1]; [auto|exfalso; apply N1].
  unfold Rminus. rewrite Rplus_opp_r, Rabs_R0. apply Rmult_le_pos; [|eapply Rle_trans; [|apply Rmax_l]; apply Rabs_pos].
  apply Rlt_le, Rdiv_lt_0_compat; [lra|]. apply pow_lt; lra.
Qed.

(** C76: the principal moduli are symmetric; the shear moduli are symmetric for stretches that are equal or distinguishable *)
Theorem C76_symmetric_partial f l L i k :
  positiveStretches l -> (i < 3)%nat -> (k < 3)%nat -> devTangent f l = Value L ->
  L i i k k = L k k i i /\
  (i <> k -> l i = l k \/ floatEq (1 / 10 ^ 8) (l i) (l k) = false -> L i k i k = L k i k i).
Proof.
  intros P Hi Hk T. destruct (tangent_parts _ _ _ T) as (s & H & F & S & N & D).
  assert (Sym : L i i k k = L k k i i) by (rewrite !N, (second_symmetric _ _ _ _ _ S), (Rmult_comm (l i)); reflexivity).
  split; [exact Sym|].
  intros X [E|E].
  - assert (Q : L i i i i = L k k k k) by (rewrite !N, (second_equal _ _ _ _ _ E S), E; reflexivity).
    rewrite (D i k), (D k i) by auto. rewrite Q, Sym.
    assert (Z : floatEq (1 / 10 ^ 8) (l i) (l k) = true /\ floatEq (1 / 10 ^ 8) (l k) (l i) = true).
    { rewrite E. split; apply floatEq_refl. }
    destruct Z as [-> ->]. reflexivity.
  - assert (E' : floatEq (1 / 10 ^ 8) (l k) (l i) = false) by (rewrite <- E; unfold floatEq; now rewrite Rabs_minus_sym, Rmax_comm).
    rewrite (D i k), (D k i) by auto. rewrite E, E'.
    assert (A := positive_at l i P Hi). assert (B := positive_at l k P Hk).
    assert (Z : (l i - l k) * (l i + l k) <> 0).
    { apply Rmult_integral_contrapositive_currified; [|lra]. intros K. assert (K' : l i = l k) by lra.
      rewrite K', floatEq_refl in E. discriminate. }
    field. repeat split; lra.
Qed.
Print Assumptions C76_symmetric_partial.

(** Without that restriction the claim is false: two stretches that differ by less than the tolerance *)
Definition nearStretches (i : nat) : R := match i with 1%nat => 1 + 1 / 10 ^ 9 | _ => 1 end.

Theorem C76_symmetric_refuted :
  exists f l L, positiveStretches l /\ validExponents f /\ devTangent f l = Value L /\ L 0%nat 1%nat 0%nat 1%nat <> L 1%nat 0%nat 1%nat 0%nat.
Proof.
  exists (BlatzKo 1), nearStretches. eexists. split; [unfold positiveStretches, nearStretches; lra|]. split; [exact I|].
  split; [reflexivity|]. cbn beta. cbn [Nat.eqb andb].
  assert (E : floatEq (1 / 10 ^ 8) (nearStretches 0) (nearStretches 1) = true).
  { unfold floatEq, rleb, nearStretches. destruct Rle_dec as [|N]; [reflexivity|exfalso; apply N].
    rewrite Rabs_minus_sym, (Rabs_pos_eq (_ - 1)) by lra. rewrite !Rabs_pos_eq, Rmax_right; lra. }
  assert (E' : floatEq (1 / 10 ^ 8) (nearStretches 1) (nearStretches 0) = true) by (rewrite <- E; unfold floatEq; now rewrite Rabs_minus_sym, Rmax_comm).
  rewrite E, E'. unfold blatzKoSecond, nearStretches, prod3. cbn [Nat.eqb]. 
  intros K. field_simplify in K. lra.
Qed.
Print Assumptions C76_symmetric_refuted.

(** C51: for equal stretches the shear modulus is the limit of the quotient used for different stretches *)
Theorem C51_equal_stretches f l L i k :
  positiveStretches l -> validExponents f -> fewTerms f -> energyImpl f l <> Throws ->
  (i < 3)%nat -> (k < 3)%nat -> i <> k -> l i = l k -> devTangent f l = Value L ->
  is_lim (fun t =>
    let l' := fun m => l m + t * kronecker i m in
    (valueOf (fun _ => 0) (devStresses f l') i - valueOf (fun _ => 0) (devStresses f l') k) / (l' i ^ 2 - l' k ^ 2))
    0 (L i k i k).
Proof.
  intros P V F T Hi Hk N E TL.
  destruct (C51_derivatives f l P V F T) as (w & s & L' & _ & S & TL' & _ & G).
  rewrite TL in TL'. injection TL' as <-.
  assert (Li := positive_at l i P Hi).
  set (q := fun t => valueOf (fun _ => 0) (devStresses f (fun m => l m + t * kronecker i m)) i -
                     valueOf (fun _ => 0) (devStresses f (fun m => l m + t * kronecker i m)) k).
  assert (D : is_derive q 0 (l i * (L i i i i - L i i k k))).
  { unfold q. eapply derive_at; [|apply @is_derive_minus; [apply (G i Hi (kronecker i))|apply (G k Hk (kronecker i))]].
    cbv beta delta [minus plus opp]. cbn -[kronecker].
    destruct (C76_symmetric_partial f l L i k P Hi Hk TL) as [Sy _].
    revert Sy. unfold kronecker. index i Hi; cbn [Nat.eqb]; intros Sy; rewrite Sy; ring. }
  assert (Q0 : q 0 = 0).
  { unfold q. destruct (stresses_first f l s S) as (d & Fd & Sd).
    destruct (firstImpl f (fun m => l m + 0 * kronecker i m)) as [d'| |] eqn:Fd'; unfold devStresses; rewrite Fd'; cbn [valueOf]; try ring.
    rewrite !line0, E, (first_equal f (fun m => l m + 0 * kronecker i m) i k d'); [ring| |exact Fd']. cbn beta. rewrite !line0. exact E. }
  apply (is_lim_ext_loc (fun t => ((q (0 + t) - q 0) / t) * / (2 * l i + t))).
  - exists (mkposreal _ Li). intros t B T0. cbn beta zeta. fold (q t). change (Rabs (t - 0) < l i) in B. rewrite Rminus_0_r in B. apply Rabs_def2 in B.
    rewrite Q0, Rplus_0_l, <- E. unfold kronecker. rewrite Nat.eqb_refl. replace (Nat.eqb i k) with false by (symmetry; now apply Nat.eqb_neq).
    change (valueOf (fun _ => 0) (devStresses f (fun m => l m + t * (if Nat.eqb i m then 1 else 0))) i -
      valueOf (fun _ => 0) (devStresses f (fun m => l m + t * (if Nat.eqb i m then 1 else 0))) k) with (q t).
    field. repeat split; try assumption; try lra.
    intros K. assert (Z : t * (2 * l i + t) = 0) by (rewrite <- K; ring). apply Rmult_integral in Z. destruct Z; [now apply T0|lra].
  - destruct (tangent_parts _ _ _ TL) as (s0 & H0 & _ & _ & _ & Sh). rewrite (Sh i k N), E, floatEq_refl.
    replace (Finite (1 / 2 * (L i i i i - L i i k k))) with (Rbar_mult (Finite (l i * (L i i i i - L i i k k))) (Finite (/ (2 * l i + 0)))).
    + apply is_lim_mult; [| |exact I].
      * apply is_derive_Reals in D. apply is_lim_spec. intros eps. destruct (D eps (cond_pos eps)) as [delta Hd].
        exists delta. intros t B B0. apply Hd; [exact B0|]. change (Rabs (t - 0) < delta) in B. now rewrite Rminus_0_r in B.
      * rewrite E. apply (is_lim_continuity (fun t => / (2 * l k + t)) 0).
        apply derivable_continuous_pt, ex_derive_Reals_0. auto_derive. lra.
    + cbn. f_equal. field. lra.
Qed.
Print Assumptions C51_equal_stretches.

(** C75: the moduli of an Ogden material with deviatoric stretches are available exactly up to three terms *)
Theorem C75_terms terms l :
  devTangent (OgdenDeviatoric terms) l = OutOfBounds <-> (3 < length terms)%nat.
Proof.
  unfold devTangent, devStresses. cbn [firstImpl secondImpl]. unfold ogdenSecond. split.
  - intros H. destruct (Nat.le_gt_cases (length terms) 3) as [L|]; [exfalso|assumption].
    destruct (writePowSums_some (deviatoricStretches l) terms 0 (fun _ => 0) L) as (b & E & _).
    rewrite E in H. discriminate.
  - intros H. now rewrite (writePowSums_none (deviatoricStretches l) terms 0 (fun _ => 0) (Nat.le_0_l 3) H).
Qed.
Print Assumptions C75_terms.

(** Stresses and energy of the same material are defined for any number of terms: the claim that the moduli are is false *)
Theorem C75_moduli_refuted :
  exists f l, positiveStretches l /\ validExponents f /\
    (exists w, devEnergy f l = Value w) /\ (exists s, devStresses f l = Value s) /\ devTangent f l = OutOfBounds.
Proof.
  exists (OgdenDeviatoric [(1, 1); (1, 2); (1, 3); (1, 4)]), sampleStretches. split; [exact sample_positive|].
  split; [intros mu alpha H; cbn in H; repeat (destruct H as [H|H]; [injection H; intros; lra|]); destruct H|].
  split; [eexists; reflexivity|]. split; [eexists; reflexivity|].
  apply C75_terms. cbn. lia.
Qed.
Print Assumptions C75_moduli_refuted.

Theorem C75_moduli_partial f l :
  fewTerms f -> exists o, devTangent f l = o /\ o <> OutOfBounds.
Proof.
  intros F. eexists. split; [reflexivity|]. unfold devTangent, devStresses.
  destruct f as [|mu|terms|terms|terms|mu Jm|mu lambdaM]; cbn [firstImpl secondImpl]; try discriminate.
  - cbn in F. destruct (ogdenSecond_value terms l F) as (dS & -> & _). discriminate.
  - destruct checkJm; discriminate.
Qed.
Print Assumptions C75_moduli_partial.

(** Energy, stresses and moduli fail together for Gent: exactly when the limiting stretch is reached *)
Theorem C75_gent mu Jm l : positiveStretches l ->
  (devEnergy (Gent mu Jm) l = Throws <-> devStresses (Gent mu Jm) l = Throws) /\
  (devEnergy (Gent mu Jm) l = Throws <-> devTangent (Gent mu Jm) l = Throws) /\
  (devEnergy (Gent mu Jm) l <> Throws -> W1 l - 3 < Jm) /\
  (Jm <= W1 l - 3 -> devEnergy (Gent mu Jm) l = Throws).
Proof.
  intros P. unfold devEnergy, devTangent, devStresses. cbn [energyImpl firstImpl secondImpl].
  destruct (checkJm Jm (W1 l)) eqn:C.
  - repeat split; auto. intros H. now contradict H.
  - assert (G := checkJm_gap Jm l P C). repeat split; try discriminate; try lra.
Qed.
Print Assumptions C75_gent.

(** C77: the undeformed configuration has no energy and no stresses *)
Definition undeformed (i : nat) : R := 1.

Lemma undeformed_W : W1 undeformed = 3 /\ W2 undeformed = 3 /\ forall k, dW1 undeformed k = 0 /\ dW2 undeformed k = 0.
Proof.
  assert (E : I3 undeformed = 1) by (unfold I3, prod3, undeformed; ring).
  assert (P : forall a, Rpower 1 a = 1) by (intros a; unfold Rpower; rewrite ln_1, Rmult_0_r; apply exp_0).
  unfold W1, W2, dW1, dW2. rewrite E, !P. unfold I1, I2, sum3, undeformed. repeat split; field.
Qed.

Lemma undeformed_bar i : deviatoricStretches undeformed i = 1.
Proof.
  unfold deviatoricStretches, prod3, undeformed. replace (1 * 1 * 1) with 1 by ring.
  unfold Rpower. rewrite ln_1, Rmult_0_r, exp_0. ring.
Qed.

(** The constructor of an invariant-based function throws unless the exponents pass the check *)
Definition constructed (f : deviatoricFunction) : Prop :=
  match f with
  | InvariantBased terms => checkExponents terms = true
  | Gent _ Jm => 0 < Jm
  | _ => True
  end.

Theorem C77_reference f : constructed f -> validExponents f ->
  devEnergy f undeformed = Value 0 /\ exists s, devStresses f undeformed = Value s /\ forall i, (i < 3)%nat -> s i = 0.
Proof.
  intros K V. destruct undeformed_W as (E1 & E2 & D).
  assert (P : forall a, Rpower 1 a = 1) by (intros a; unfold Rpower; rewrite ln_1, Rmult_0_r; apply exp_0).
  assert (Z : forall x, x = 0 -> x / undeformed 0 = 0) by (intros x ->; unfold Rdiv; ring).
  unfold devEnergy, devStresses.
  destruct f as [|mu|terms|terms|terms|mu Jm|mu lambdaM]; cbn [energyImpl firstImpl].
  - split; [reflexivity|]. eexists. split; [reflexivity|]. intros; now apply Z.
  - split; [f_equal; unfold blatzKoEnergy, sum3, prod3, undeformed; field|]. eexists. split; [reflexivity|]. intros. apply Z.
    unfold blatzKoFirst, prod3, undeformed. field.
  - split.
    + f_equal. unfold ogdenTotalEnergy. apply total_zero. intros [mu alpha] H. assert (N := V mu alpha H).
      unfold sum3, undeformed. rewrite P. replace (1 * 1 * 1) with 1 by ring. rewrite ln_1. field. exact N.
    + eexists. split; [reflexivity|]. intros. apply Z. unfold ogdenTotalFirst. apply total_zero. intros [mu alpha] _.
      unfold undeformed. rewrite P. field.
  - split.
    + f_equal. unfold ogdenEnergy. apply total_zero. intros [mu alpha] H. assert (N := V mu alpha H).
      unfold sum3. rewrite !undeformed_bar, P. field. exact N.
    + eexists. split; [reflexivity|]. intros i Hi. apply Z. rewrite ogdenFirst_total; [|unfold positiveStretches, undeformed; lra|assumption].
      apply total_zero. intros [mu alpha] _. unfold barSum, sum3. rewrite !undeformed_bar, P. unfold undeformed. field.
  - split.
    + f_equal. unfold invariantEnergy. rewrite E1, E2. apply total_zero. intros [[mu p] q] H.
      cbn in K. unfold checkExponents in K. rewrite forallb_forall in K. specialize (K _ H). cbn in K.
      replace (3 - 3) with 0 by ring. destruct p as [|p]; [destruct q as [|q]; [discriminate|]|]; cbn [pow]; ring.
    + eexists. split; [reflexivity|]. intros i Hi. apply Z. unfold invariantFirst. apply total_zero. intros [[mu p] q] _.
      destruct (D i) as [-> ->]. ring.
  - cbn in K. assert (C : checkJm Jm (W1 undeformed) = false).
    { rewrite E1. unfold checkJm, floatLe, rltb, floatEq, rleb. destruct Rlt_dec; [lra|]. cbn [orb].
      destruct Rle_dec as [H|]; [exfalso|reflexivity]. replace (3 - 3) with 0 in H by ring.
      rewrite Rminus_0_r, Rabs_R0, (Rabs_pos_eq Jm), Rmax_left in H by lra.
      assert (1 / 10 ^ 14 * Jm < 1 * Jm) by (apply Rmult_lt_compat_r; [assumption|lra]). lra. }
    rewrite C. split.
    + f_equal. unfold gentEnergy. rewrite E1. replace (1 - (3 - 3) / Jm) with 1 by (field; lra). rewrite ln_1. ring.
    + eexists. split; [reflexivity|]. intros i Hi. apply Z. unfold gentFirst. destruct (D i) as [-> _]. unfold Rdiv. ring.
  - split.
    + f_equal. unfold arrudaEnergy. rewrite E1. rewrite total_zero; [ring|]. intros [i alpha] _. ring.
    + eexists. split; [reflexivity|]. intros i Hi. apply Z. unfold arrudaFirst. apply total_zero. intros [p alpha] _.
      destruct (D i) as [-> _]. ring.
Qed.
Print Assumptions C77_reference.

Example C77_applies : constructed (InvariantBased [(1, 1%nat, 0%nat); (2, 0%nat, 3%nat)]) /\ constructed (Gent 1 10).
Proof. split; [reflexivity|cbn; lra]. Qed.

(** C78: a function of the deviatoric stretches does not feel a change of volume, and its stresses are deviatoric *)
Definition isDeviatoric (f : deviatoricFunction) : Prop :=
  match f with OgdenDeviatoric _ | InvariantBased _ | Gent _ _ | ArrudaBoyce _ _ | NoDev => True | _ => False end.

Lemma scale_I3 c l : I3 (fun i => c * l i) = (c ^ 2) ^ 3 * I3 l.
Proof. unfold I3, prod3. ring. Qed.

Lemma scale_W c l : 0 < c -> positiveStretches l -> W1 (fun i => c * l i) = W1 l /\ W2 (fun i => c * l i) = W2 l.
Proof.
  intros C P. assert (Q := I3_pos l P). assert (C2 : 0 < c ^ 2) by now apply pow_lt.
  assert (R1 : Rpower (I3 (fun i => c * l i)) (1 / 3) = c ^ 2 * Rpower (I3 l) (1 / 3)).
  { rewrite scale_I3, <- Rpower_mult_distr; [|now apply pow_lt|assumption]. f_equal.
    rewrite <- (Rpower_pow 3 (c ^ 2)), Rpower_mult by assumption. cbn [INR]. replace ((1 + 1 + 1) * (1 / 3)) with 1 by field. now apply Rpower_1. }
  assert (X := exp_pos (1 / 3 * ln (I3 l))). change (0 < Rpower (I3 l) (1 / 3)) in X.
  unfold W1, W2. rewrite !I3_neg13, !I3_neg23, R1. unfold I1, I2, sum3. split; field; lra.
Qed.

Lemma scale_bar c l i : 0 < c -> positiveStretches l -> deviatoricStretches (fun i => c * l i) i = deviatoricStretches l i.
Proof.
  intros C P. unfold deviatoricStretches. replace (prod3 (fun i => c * l i)) with (c ^ 3 * prod3 l) by (unfold prod3; ring).
  assert (Q := prod3_pos l P). rewrite <- Rpower_mult_distr; [|now apply pow_lt|assumption].
  rewrite <- (Rpower_pow 3 c), Rpower_mult by assumption. cbn [INR]. replace ((1 + 1 + 1) * (-1 / 3)) with (- (1)) by field.
  rewrite Rpower_Ropp, Rpower_1 by assumption. field. lra.
Qed.

Theorem C78_isochoric f l c :
  isDeviatoric f -> positiveStretches l -> 0 < c -> devEnergy f (fun i => c * l i) = devEnergy f l.
Proof.
  intros D P C. destruct (scale_W c l C P) as [E1 E2]. unfold devEnergy.
  destruct f as [|mu|terms|terms|terms|mu Jm|mu lambdaM]; try contradiction; cbn [energyImpl].
  - reflexivity.
  - f_equal. unfold ogdenEnergy. apply total_ext. intros [mu alpha] _. unfold sum3. now rewrite !scale_bar.
  - unfold invariantEnergy. now rewrite E1, E2.
  - unfold gentEnergy. now rewrite E1.
  - unfold arrudaEnergy. now rewrite E1.
Qed.
Print Assumptions C78_isochoric.

(** The Kirchhoff stress with the principal values lambda_i^2 S_i has no trace *)
Lemma dW_trace l : positiveStretches l ->
  l 0%nat * dW1 l 0 + l 1%nat * dW1 l 1 + l 2%nat * dW1 l 2 = 0 /\ l 0%nat * dW2 l 0 + l 1%nat * dW2 l 1 + l 2%nat * dW2 l 2 = 0.
Proof.
  intros (A & B & C). assert (X := exp_pos (1 / 3 * ln (I3 l))). change (0 < Rpower (I3 l) (1 / 3)) in X.
  unfold dW1, dW2. rewrite I3_pow23. generalize dependent (Rpower (I3 l) (1 / 3)). intros r X.
  unfold I1, I2, I3, sum3, prod3. split; field; repeat split; lra.
Qed.

Theorem C78_deviatoric_stress f l s :
  isDeviatoric f -> positiveStretches l -> devStresses f l = Value s ->
  l 0%nat ^ 2 * s 0%nat + l 1%nat ^ 2 * s 1%nat + l 2%nat ^ 2 * s 2%nat = 0.
Proof.
  intros D P S. destruct (stresses_first _ _ _ S) as (d & E & N).
  assert (A := positive_at l 0 P ltac:(lia)). assert (B := positive_at l 1 P ltac:(lia)). assert (C := positive_at l 2 P ltac:(lia)).
  rewrite !N. transitivity (l 0%nat * d 0%nat + l 1%nat * d 1%nat + l 2%nat * d 2%nat); [field; repeat split; lra|].
  destruct (dW_trace l P) as [T1 T2].
  destruct f as [|mu|terms|terms|terms|mu Jm|mu lambdaM]; try contradiction; cbn [firstImpl] in E.
  - injection E as <-. ring.
  - injection E as <-. rewrite !ogdenFirst_total by (assumption || lia). rewrite <- !total_scale, <- !total_add.
    apply total_zero. intros [mu alpha] _. unfold barSum, sum3. field. repeat split; lra.
  - injection E as <-. unfold invariantFirst. rewrite <- !total_scale, <- !total_add. apply total_zero. intros [[mu p] q] _.
    set (x := powerAndMultiply _ _ _). set (y := powerAndMultiply _ _ _).
    transitivity (mu * (x * (W2 l - 3) ^ q * (l 0%nat * dW1 l 0 + l 1%nat * dW1 l 1 + l 2%nat * dW1 l 2) +
      (W1 l - 3) ^ p * y * (l 0%nat * dW2 l 0 + l 1%nat * dW2 l 1 + l 2%nat * dW2 l 2))); [ring|]. rewrite T1, T2. ring.
  - destruct checkJm; [discriminate|]. injection E as <-. unfold gentFirst, Rdiv.
    transitivity (mu * (l 0%nat * dW1 l 0 + l 1%nat * dW1 l 1 + l 2%nat * dW1 l 2) * Jm * / (2 * (Jm - W1 l) + 6)); [ring|]. rewrite T1. ring.
  - injection E as <-. unfold arrudaFirst. rewrite <- !total_scale, <- !total_add. apply total_zero. intros [p alpha] _.
    transitivity (mu * alpha * (1 / lambdaM ^ 2) ^ p * W1 l ^ p * INR (p + 1) * (l 0%nat * dW1 l 0 + l 1%nat * dW1 l 1 + l 2%nat * dW1 l 2)); [ring|].
    rewrite T1. ring.
Qed.
Print Assumptions C78_deviatoric_stress.

(** C78: energies of isotropic functions do not depend on the numbering of the principal directions *)
Theorem C78_isotropy f l :
  devEnergy f (fun i => l (match i with 0%nat => 1%nat | 1%nat => 0%nat | _ => i end)) = devEnergy f l /\
  devEnergy f (fun i => l (match i with 1%nat => 2%nat | 2%nat => 1%nat | _ => i end)) = devEnergy f l.
Proof.
  assert (X : forall l' : stretches,
    (forall g : R -> R, sum3 (fun i => g (l' i)) = sum3 (fun i => g (l i))) ->
    prod3 l' = prod3 l -> I2 l' = I2 l -> I3 l' = I3 l -> devEnergy f l' = devEnergy f l).
  { intros l' G Pr J2 J3. assert (J1 : I1 l' = I1 l) by (unfold I1; apply (G (fun x => x ^ 2))).
    assert (E1 : W1 l' = W1 l) by (unfold W1; now rewrite J1, J3). assert (E2 : W2 l' = W2 l) by (unfold W2; now rewrite J2, J3).
    unfold devEnergy. destruct f as [|mu|terms|terms|terms|mu Jm|mu lambdaM]; cbn [energyImpl].
    - reflexivity.
    - unfold blatzKoEnergy. now rewrite (G (fun x => (/ x) ^ 2)), Pr.
    - unfold ogdenTotalEnergy. fold (prod3 l') (prod3 l). rewrite Pr. f_equal. apply total_ext. intros [mu alpha] _.
      now rewrite (G (fun x => Rpower x alpha)).
    - unfold ogdenEnergy, deviatoricStretches. rewrite Pr. f_equal. apply total_ext. intros [mu alpha] _.
      now rewrite (G (fun x => Rpower (Rpower (prod3 l) (-1 / 3) * x) alpha)).
    - unfold invariantEnergy. now rewrite E1, E2.
    - unfold gentEnergy. now rewrite E1.
    - unfold arrudaEnergy. now rewrite E1. }
  split; apply X; intros; unfold sum3, prod3, I2, I3, prod3; ring.
Qed.
Print Assumptions C78_isotropy.
