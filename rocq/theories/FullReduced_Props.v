(** Property C166: a structure solved with the full system goes through the same states as with the reduced system. *)

From Coq Require Import List Arith ZArith Bool Reals Lia Lra FunctionalExtensionality.
From Coquelicot Require Import Coquelicot.
From Verif Require Import FEHelper_Model Assembler_Model Assembler_Spec Assembler_Proofs Assembler_Props Newton_Model Newton_Spec Newton_Proofs Newton_Props.
From Verif Require Import Tensor_Spec Conversions_Props Element_Spec Element_Model Element_Proofs Element_Props Truss_Model Truss_Props TrussSkill_Props
  AssemblyMesh_Model AssemblyMesh_Props StructureNewton_Model StructureNewton_Props.
Import ListNotations.
Local Open Scope R_scope.

(** ** Two Newton runs side by side *)

(** What listeners are told, apart from the correction: message, norms and counters, solution *)
Definition told {T C D} (m : nlmsg * nlinfo T * C * D) : nlmsg * nlinfo T * D := let '(m, i, _, d) := m in (m, i, d).

(** One iteration in full *)
Section Body.
  Context {T D R' J C W : Type}.
  Variables (res : D -> R') (jac : D -> J) (rnorm : R' -> T) (cnorm : C -> T) (lsolve : J -> R' -> C)
    (update : D -> C -> D) (listen : nlmsg -> nlinfo T -> C -> D -> W -> W).
  Lemma emit_eq msg d c i w tr : exists w', emit listen msg (mkNR d c i w tr) = mkNR d c i w' (tr ++ [(msg, i, c, d)]).
  Proof. eexists. reflexivity. Qed.
  Lemma body_eq iter d c suc r0 c0 it w tr : let cc := lsolve (jac d) (res d) in let d' := update d cc in exists w',
    nrBody (fun _ => res) (fun _ => jac) rnorm cnorm lsolve update None listen iter (res d) (jac d) (mkNR d c (mkInfo suc r0 c0 it) w tr) =
    (mkNR d' cc (mkInfo suc (rnorm (res d')) (cnorm cc) (iter + 1)%Z) w'
       (tr ++ [(ITERATION_STARTED, mkInfo suc r0 c0 it, c, d); (CORRECTION_UPDATED, mkInfo suc r0 (cnorm cc) it, cc, d);
               (CORRECTIONNORM_UPDATED, mkInfo suc r0 (cnorm cc) it, cc, d'); (SOLUTION_CHANGED, mkInfo suc r0 (cnorm cc) it, cc, d');
               (RESIDUALNORM_UPDATED, mkInfo suc (rnorm (res d')) (cnorm cc) it, cc, d');
               (ITERATION_ENDED, mkInfo suc (rnorm (res d')) (cnorm cc) (iter + 1)%Z, cc, d')]), res d', jac d', rnorm (res d')).
  Proof.
    intros cc d'. unfold nrBody. fold cc.
    destruct (emit_eq ITERATION_STARTED d c (mkInfo suc r0 c0 it) w tr) as (w1 & E1). rewrite E1. cbv zeta. cbn [s_d s_c s_info s_w s_trace i_success i_res i_corr i_iter]. fold cc.
    match goal with |- context [emit listen CORRECTION_UPDATED (mkNR ?a ?b ?c ?d ?e)] => destruct (emit_eq CORRECTION_UPDATED a b c d e) as (w2 & E2); rewrite E2 end.
    cbn [s_d s_c s_info s_w s_trace i_success i_res i_corr i_iter]. fold d'.
    match goal with |- context [emit listen CORRECTIONNORM_UPDATED (mkNR ?a ?b ?c ?d ?e)] => destruct (emit_eq CORRECTIONNORM_UPDATED a b c d e) as (w3 & E3); rewrite E3 end.
    match goal with |- context [emit listen SOLUTION_CHANGED (mkNR ?a ?b ?c ?d ?e)] => destruct (emit_eq SOLUTION_CHANGED a b c d e) as (w4 & E4); rewrite E4 end.
    unfold setInfo. cbn [s_d s_c s_info s_w s_trace i_success i_res i_corr i_iter].
    match goal with |- context [emit listen RESIDUALNORM_UPDATED (mkNR ?a ?b ?c ?d ?e)] => destruct (emit_eq RESIDUALNORM_UPDATED a b c d e) as (w5 & E5); rewrite E5 end.
    cbn [s_d s_c s_info s_w s_trace i_success i_res i_corr i_iter].
    match goal with |- context [emit listen ITERATION_ENDED (mkNR ?a ?b ?c ?d ?e)] => destruct (emit_eq ITERATION_ENDED a b c d e) as (w6 & E6); rewrite E6 end.
    exists w6. rewrite <- !app_assoc. reflexivity.
  Qed.
End Body.

Section Two.
  Context {T D R1 J1 C1 W1 R2 J2 C2 W2 : Type}.
  Variables (gt : T -> T -> bool) (inf : T).
  Variables (res1 : D -> R1) (jac1 : D -> J1) (rnorm1 : R1 -> T) (cnorm1 : C1 -> T) (lsolve1 : J1 -> R1 -> C1) (update1 : D -> C1 -> D)
    (listen1 : nlmsg -> nlinfo T -> C1 -> D -> W1 -> W1).
  Variables (res2 : D -> R2) (jac2 : D -> J2) (rnorm2 : R2 -> T) (cnorm2 : C2 -> T) (lsolve2 : J2 -> R2 -> C2) (update2 : D -> C2 -> D)
    (listen2 : nlmsg -> nlinfo T -> C2 -> D -> W2 -> W2).
  Variables (P : D -> Prop) (Cor : C1 -> C2 -> Prop).
  Hypothesis norms : forall d, P d -> rnorm1 (res1 d) = rnorm2 (res2 d).
  Hypothesis steps : forall d, P d -> let c1 := lsolve1 (jac1 d) (res1 d) in let c2 := lsolve2 (jac2 d) (res2 d) in
    cnorm1 c1 = cnorm2 c2 /\ update1 d c1 = update2 d c2 /\ P (update2 d c2) /\ Cor c1 c2.

  Definition same (s1 : nrState (T := T) (D := D) (C := C1) (W := W1)) (s2 : nrState (T := T) (D := D) (C := C2) (W := W2)) : Prop :=
    s_d s1 = s_d s2 /\ s_info s1 = s_info s2 /\ map told (s_trace s1) = map told (s_trace s2).

  Lemma same_emit m s1 s2 : same s1 s2 -> same (emit listen1 m s1) (emit listen2 m s2).
  Proof. intros (A & B & Tr). unfold same, emit. cbn. rewrite !map_app, Tr. cbn. rewrite A, B. auto. Qed.

  Lemma same_body iter s1 s2 : same s1 s2 -> P (s_d s2) ->
    let '(s1', rx1, ax1, rn1) := nrBody (fun _ => res1) (fun _ => jac1) rnorm1 cnorm1 lsolve1 update1 None listen1 iter (res1 (s_d s1)) (jac1 (s_d s1)) s1 in
    let '(s2', rx2, ax2, rn2) := nrBody (fun _ => res2) (fun _ => jac2) rnorm2 cnorm2 lsolve2 update2 None listen2 iter (res2 (s_d s2)) (jac2 (s_d s2)) s2 in
    same s1' s2' /\ P (s_d s2') /\ rn1 = rn2 /\ rx1 = res1 (s_d s1') /\ ax1 = jac1 (s_d s1') /\ rx2 = res2 (s_d s2') /\ ax2 = jac2 (s_d s2').
  Proof.
    destruct s1 as [d1 c1 [suc1 r1 k1 it1] w1 tr1], s2 as [d2 c2 [suc2 r2 k2 it2] w2 tr2]. unfold same. cbn [s_d s_info s_trace]. intros (-> & E & Tr) Pd. injection E as -> -> -> ->.
    destruct (steps d2 Pd) as (Cn & Up & Pn & _).
    destruct (body_eq res1 jac1 rnorm1 cnorm1 lsolve1 update1 listen1 iter d2 c1 suc2 r2 k2 it2 w1 tr1) as (v1 & E1). rewrite E1.
    destruct (body_eq res2 jac2 rnorm2 cnorm2 lsolve2 update2 listen2 iter d2 c2 suc2 r2 k2 it2 w2 tr2) as (v2 & E2). rewrite E2. cbn [s_d s_info s_trace].
    rewrite !map_app, Tr, Cn, Up, (norms _ Pn). cbn [map told]. auto 10.
  Qed.

  Lemma same_loop st fuel : forall iter rn s1 s2, same s1 s2 -> P (s_d s2) ->
    match nrLoop gt (fun _ => res1) (fun _ => jac1) rnorm1 cnorm1 lsolve1 update1 None listen1 fuel st iter (res1 (s_d s1)) (jac1 (s_d s1)) rn s1,
          nrLoop gt (fun _ => res2) (fun _ => jac2) rnorm2 cnorm2 lsolve2 update2 None listen2 fuel st iter (res2 (s_d s2)) (jac2 (s_d s2)) rn s2 with
    | Some (i1, s1'), Some (i2, s2') => i1 = i2 /\ same s1' s2'
    | None, None => True
    | _, _ => False
    end.
  Proof.
    induction fuel as [|fuel IH]; intros iter rn s1 s2 S0 Pd; cbn [nrLoop]; destruct (nrCond gt st rn iter); auto.
    assert (X := same_body iter s1 s2 S0 Pd).
    destruct (nrBody (fun _ => res1) _ _ _ _ _ _ _ _ _ _ _) as (((s1', rx1), ax1), rn1).
    destruct (nrBody (fun _ => res2) _ _ _ _ _ _ _ _ _ _ _) as (((s2', rx2), ax2), rn2).
    destruct X as (S' & P' & -> & -> & -> & -> & ->). apply IH; assumption.
  Qed.

  Lemma same_solve st x c1 w1 c2 w2 : P x ->
    match nrSolve gt inf (fun _ => res1) (fun _ => jac1) rnorm1 cnorm1 lsolve1 update1 None listen1 st x c1 w1,
          nrSolve gt inf (fun _ => res2) (fun _ => jac2) rnorm2 cnorm2 lsolve2 update2 None listen2 st x c2 w2 with
    | Some s1, Some s2 => same s1 s2
    | None, None => True
    | _, _ => False
    end.
  Proof.
    intros Px. unfold nrSolve, nrStart, emit, setInfo. cbn. rewrite (norms x Px).
    match goal with |- context [nrLoop gt (fun _ => res1) _ _ _ _ _ _ _ ?f _ _ _ _ _ ?s1] =>
      match goal with |- context [nrLoop gt (fun _ => res2) _ _ _ _ _ _ _ _ _ _ _ _ _ ?s2] =>
        assert (X := same_loop st f 0 (rnorm2 (res2 x)) s1 s2) end end.
    cbn [s_d] in X. specialize (X ltac:(unfold same; cbn; auto) Px).
    destruct (nrLoop gt (fun _ => res1) _ _ _ _ _ _ _ _ _ _ _ _ _ _) as [(i1, s1)|], (nrLoop gt (fun _ => res2) _ _ _ _ _ _ _ _ _ _ _ _ _ _) as [(i2, s2)|]; auto.
    destruct X as (-> & S0). assert (S1 := S0). destruct S1 as (A & B & Tr). unfold nrFinish. rewrite B. destruct (if (i2 =? nr_maxIter st)%Z then false else i_success (s_info s2)).
    - apply same_emit. unfold same, setInfo. cbn. auto.
    - unfold same, setInfo. cbn. auto.
  Qed.
End Two.

(** ** Structures *)
Section FullReduced.
  Variables (flags : list bool) (mesh : list meshElement) (inf : R).
  Let n := length flags.
  Let m := reducedSize flags.
  Hypothesis range : forall e, In e mesh -> forall i, In i (me_dofs e) -> (i < n)%nat.

  (** The matrix of the free dofs is invertible *)
  Definition regular (y : nat -> R) : Prop := forall w : nat -> R,
    (forall i, (i < m)%nat -> sum m (fun j => matrixEntries (KFunction flags mesh Reduced y) i j * w j) = 0) -> forall i, (i < m)%nat -> w i = 0.

  (** The full vector is the reduced one with zeros at the supports *)
  Definition expands (full reduced : list R) : Prop :=
    length full = n /\ length reduced = m /\ (forall i, constrained flags i -> nth i full 0 = 0) /\ forall i, free flags i -> nth i full 0 = nth (rank flags i) reduced 0.

  Lemma expands_norm a b : expands a b -> norm a = norm b.
  Proof.
    intros (La & Lb & C & F). rewrite !norm_dot, La, Lb. f_equal. unfold dot. cbv beta. unfold m, n.
    rewrite <- (sum_free flags (fun i => nth i a 0) (fun k => nth k b 0) (fun k => nth k b 0)) by (intros i Fi; symmetry; apply F, Fi).
    apply sum_ext. intros i Hi. destruct (free_or_constrained flags i Hi) as [Fi|Ci].
    - rewrite (nth_error_nth flags i true Fi), (F i Fi). reflexivity.
    - rewrite (nth_error_nth flags i true Ci), (C i Ci). ring.
  Qed.

  Lemma expands_update y a b : expands a b -> updateFunctor flags Full y a = updateFunctor flags Reduced y b.
  Proof.
    intros (La & Lb & C & F). apply functional_extensionality. intros i. unfold updateFunctor. cbn [andb].
    rewrite Lb, La. fold m n. rewrite Nat.eqb_refl, Nat.eqb_refl, andb_true_r.
    destruct (createFullVector_spec 0 flags b Lb) as (v & E & Lv & Cv & Fv). rewrite E.
    assert (Ev : nth i a 0 = nth i v 0).
    { destruct (Nat.lt_ge_cases i n) as [Hi|Hi]; [|rewrite !nth_overflow by (fold n in Lv; lia); reflexivity].
      destruct (free_or_constrained flags i Hi) as [Fi|Ci].
      - rewrite (F i Fi). symmetry. assert (X := Fv i Fi). change (rk flags i) with (rank flags i) in X.
        rewrite (nth_error_nth' b 0) in X by (rewrite Lb; apply rk_lt; exact Fi). exact (nth_error_nth v i 0 X).
      - rewrite (C i Ci), (nth_error_nth v i 0 (Cv i Ci)). reflexivity. }
    destruct (m =? n)%nat eqn:Em; unfold plusVector; [|now rewrite Ev].
    apply Nat.eqb_eq in Em. rewrite (createReducedVector_spec flags a La). rewrite <- Ev. f_equal. symmetry.
    assert (All : forall k, (k < n)%nat -> free flags k).
    { intros k Hk. destruct (free_or_constrained flags k Hk) as [|Ck]; [assumption|]. exfalso. unfold m, n in Em. rewrite reducedSize_nFree in Em.
      assert (X := size_split flags). assert (0 < nConstrained flags)%nat by (apply count_occ_In, (nth_error_In flags k Ck)). lia. }
    destruct (Nat.lt_ge_cases i n) as [Hi|Hi].
    - assert (X : nth_error (restrict flags a) (rank flags i) = nth_error a i) by (apply restrict_nth; [exact La|apply All, Hi]).
      assert (Rk : rank flags i = i).
      { clear - All Hi. revert Hi. induction i as [|i IH]; intros Hi.
        - assert (Y := All 0%nat Hi). unfold free in Y. destruct flags as [|[] fl]; [discriminate..|]. reflexivity.
        - assert (L1 : (rank flags i < rank flags (S i))%nat) by (apply (C01_reduced_numbering flags); first [lia|apply All; lia]).
          rewrite IH in L1 by lia. assert (rank flags (S i) <= S i)%nat; [|lia].
          unfold rank. lia. }
      rewrite Rk in X. rewrite (nth_error_nth' a 0) in X by (rewrite La; exact Hi). symmetry. exact (nth_error_nth _ i 0 X).
    - rewrite (nth_overflow a) by (rewrite La; exact Hi). rewrite nth_overflow; [reflexivity|]. rewrite restrict_length by exact La. rewrite <- reducedSize_nFree. fold m. lia.
  Qed.

  Variables (lsolveF lsolveR : option (response (V := R)) -> list R -> list R).

  (** C166: if both linear systems are solved, the full correction is the reduced one with zeros at the supports *)
  Theorem C166_correction y : regular y -> solved flags mesh Full lsolveF y -> solved flags mesh Reduced lsolveR y ->
    expands (lsolveF (KFunction flags mesh Full y) (residualFunction flags mesh Full y)) (lsolveR (KFunction flags mesh Reduced y) (residualFunction flags mesh Reduced y)).
  Proof.
    intros Rg [Lf Sf] [Lr Sr]. set (a := lsolveF _ _) in *. set (b := lsolveR _ _) in *. clearbody a b. cbv iota zeta in *. fold n in Lf, Sf. fold m in Lr, Sr.
    assert (W0 : wfElements n (toElements n mesh)) by (apply wf_any, range).
    destruct (C05_full_dense _ _ 0 1 Rplus flags _ y W0) as (rawM & M & Em & Em' & _ & _ & VF & VD & VC).
    destruct (C05_reduced_dense _ _ 0 Rplus flags _ y W0) as (rawM' & Mr & Er & Er' & _ & _ & Vr). rewrite Em in Er. injection Er as <-.
    assert (EK : KFunction flags mesh Full y = Some (ODense M)) by (unfold KFunction, answer; cbn [denseRequest]; fold n; rewrite Em'; reflexivity).
    assert (ER : KFunction flags mesh Reduced y = Some (ODense Mr)) by (unfold KFunction, answer; cbn [denseRequest]; fold n; rewrite Er'; reflexivity).
    assert (Rf : forall o, o = Full \/ o = Reduced -> forall i, nth i (residualFunction flags mesh o y) 0 = vectorEntries (answer flags mesh (RVector o y)) i).
    { intros o _ i. unfold residualFunction, vectorEntries. destruct (answer flags mesh (RVector o y)) as [[| | |]|]; try (destruct i; reflexivity). }
    assert (Z : forall i, constrained flags i -> nth i a 0 = 0).
    { intros i Ci. assert (Hi : (i < n)%nat) by (apply nth_error_Some; unfold constrained in Ci; congruence).
      specialize (Sf i Hi). rewrite EK in Sf. rewrite (sum_pick n i) in Sf; [|exact Hi|intros k Hk Nk; cbn [matrixEntries]; rewrite VC by auto; ring].
      cbn [matrixEntries] in Sf. rewrite (VD i Ci), Rf in Sf by auto. rewrite (proj1 (full_entries flags mesh y i range Hi) Ci) in Sf. lra. }
    split; [exact Lf|]. split; [exact Lr|]. split; [exact Z|].
    set (w := fun k => nth k (restrict flags a) 0).
    assert (Rw : forall i, free flags i -> w (rank flags i) = nth i a 0).
    { intros i Fi. assert (Hi := free_lt _ _ Fi). assert (X : nth_error (restrict flags a) (rank flags i) = nth_error a i) by (apply restrict_nth; [exact Lf|exact Fi]).
      rewrite (nth_error_nth' a 0) in X by (rewrite Lf; exact Hi). exact (nth_error_nth _ _ 0 X). }
    intros i Fi. rewrite <- (Rw i Fi). apply Rminus_diag_uniq. apply (Rg (fun k => w k - nth k b 0)); [|apply rk_lt; exact Fi].
    intros r Hr. destruct (rk_surj flags r Hr) as (j & Fj & <-). change (rk flags j) with (rank flags j) in *. assert (Hj := free_lt _ _ Fj). fold n in Hj.
    rewrite (sum_ext m _ (fun k => matrixEntries (KFunction flags mesh Reduced y) (rank flags j) k * w k + (-1) * (matrixEntries (KFunction flags mesh Reduced y) (rank flags j) k * nth k b 0))) by (intros; ring).
    rewrite sum_add, sum_mul_l, (Sr (rank flags j) (rk_lt _ _ Fj)), Rf by auto.
    unfold m. rewrite <- (sum_free flags (fun i => matrixEntries (KFunction flags mesh Full y) j i) _ w) by (intros k Fk; rewrite EK, ER; cbn [matrixEntries]; rewrite Vr, VF by assumption; reflexivity).
    destruct (proj2 (full_entries flags mesh y j range Hj) Fj) as [_ ->]. rewrite <- Rf by auto.
    specialize (Sf j Hj). fold n.
    rewrite (sum_ext n _ (fun i => matrixEntries (KFunction flags mesh Full y) j i * nth i a 0)); [rewrite Sf; ring|].
    intros k Hk. destruct (free_or_constrained flags k Hk) as [Fk|Ck].
    - rewrite (nth_error_nth flags k true Fk), (Rw k Fk). reflexivity.
    - rewrite (nth_error_nth flags k true Ck), (Z k Ck). reflexivity.
  Qed.

  (** C166: both runs end with the same solution, success, norms and numbers of iterations, and tell their listeners the same on the way *)
  Theorem C166_same_run {W1 W2} (listenF : nlmsg -> nlinfo R -> list R -> (nat -> R) -> W1 -> W1) (listenR : nlmsg -> nlinfo R -> list R -> (nat -> R) -> W2 -> W2) st x c1 c2 w1 w2 :
    (forall y, reaches flags mesh Reduced lsolveR x y -> regular y /\ solved flags mesh Full lsolveF y /\ solved flags mesh Reduced lsolveR y) ->
    match structureSolve flags mesh Full inf lsolveF listenF st x c1 w1, structureSolve flags mesh Reduced inf lsolveR listenR st x c2 w2 with
    | Some sF, Some sR => s_d sF = s_d sR /\ s_info sF = s_info sR /\ map told (s_trace sF) = map told (s_trace sR)
    | None, None => True
    | _, _ => False
    end.
  Proof.
    intros H. apply (same_solve greater inf (residualFunction flags mesh Full) (KFunction flags mesh Full) norm norm lsolveF (updateFunctor flags Full) listenF
      (residualFunction flags mesh Reduced) (KFunction flags mesh Reduced) norm norm lsolveR (updateFunctor flags Reduced) listenR (reaches flags mesh Reduced lsolveR x) expands).
    - intros d _. rewrite !(residual_norm flags mesh) by (discriminate || exact range). reflexivity.
    - intros d Rd. destruct (H d Rd) as (Rg & Sf & Sr). assert (E := C166_correction d Rg Sf Sr). cbv zeta.
      split; [apply expands_norm, E|]. split; [apply expands_update, E|]. split; [now constructor|exact E].
    - constructor.
  Qed.
End FullReduced.
Print Assumptions C166_correction.
Print Assumptions C166_same_run.

(** The spring of C148: the same linear solver solves the full and the reduced system *)
Lemma spring_full_residual y : residualFunction springFlags spring Full y = [0; 0 + (0 + (2 * (y 1%nat - y 0%nat) - 3))].
Proof. reflexivity. Qed.
Lemma spring_full_matrix y i j : (i < 2)%nat -> (j < 2)%nat -> matrixEntries (KFunction springFlags spring Full y) i j =
  (if (i =? j)%nat then match i with O => 1 | _ => 0 + (0 + 2) end else 0).
Proof. intros Hi Hj. destruct i as [|[|i]], j as [|[|j]]; try lia; reflexivity. Qed.
Example C166_applies : (forall e, In e spring -> forall i, In i (me_dofs e) -> (i < length springFlags)%nat) /\
  (forall y, regular springFlags spring y /\ solved springFlags spring Full springLinearSolver y /\ solved springFlags spring Reduced springLinearSolver y) /\
  exists sF sR, structureSolve springFlags spring Full 0 springLinearSolver (fun _ _ _ _ (w : unit) => w) (mkNRSettings (/ 10) 5 0) (fun _ => 0) [] tt = Some sF /\
    structureSolve springFlags spring Reduced 0 springLinearSolver (fun _ _ _ _ (w : unit) => w) (mkNRSettings (/ 10) 5 0) (fun _ => 0) [] tt = Some sR /\
    i_success (s_info sF) = true /\ s_d sF 1%nat = 3 / 2.
Proof.
  assert (R : forall e, In e spring -> forall i, In i (me_dofs e) -> (i < length springFlags)%nat) by (intros e [<-|[]]; cbn; intros i Hi; intuition lia).
  assert (So : forall y, regular springFlags spring y /\ solved springFlags spring Full springLinearSolver y /\ solved springFlags spring Reduced springLinearSolver y).
  { intros y. split; [|split; [|apply (proj1 (proj2 C148_applies))]].
    - intros w H [|i] Hi; [|cbn in Hi; lia]. specialize (H 0%nat Hi). cbn in H. lra.
    - split; [reflexivity|]. cbv zeta iota. change (length springFlags) with 2%nat. intros i Hi. rewrite spring_full_residual.
      rewrite (sum_ext 2 _ (fun j => (if (i =? j)%nat then match i with O => 1 | _ => 0 + (0 + 2) end else 0) *
        nth j (springLinearSolver (KFunction springFlags spring Full y) [0; 0 + (0 + (2 * (y 1%nat - y 0%nat) - 3))]) 0)) by (intros j Hj; rewrite spring_full_matrix by assumption; reflexivity).
      unfold springLinearSolver. destruct i as [|[|i]]; [| |lia]; cbn; field. }
  split; [exact R|]. split; [exact So|].
  destruct C148_applies as (_ & _ & sR & ER & SR & _ & XR).
  assert (X := C166_same_run springFlags spring 0 R springLinearSolver springLinearSolver (fun _ _ _ _ (w : unit) => w) (fun _ _ _ _ (w : unit) => w) (mkNRSettings (/ 10) 5 0) (fun _ => 0) [] [] tt tt (fun y _ => So y)).
  rewrite ER in X. destruct (structureSolve springFlags spring Full _ _ _ _ _ _ _) as [sF|]; [|contradiction]. destruct X as (E1 & E2 & _).
  exists sF, sR. rewrite E1, E2. auto.
Qed.
