(** Property C154: every step that load control reports as solved is in equilibrium with its loads and respects the supports. *)

From Coq Require Import List Arith ZArith Bool Reals Lia Lra.
From Coquelicot Require Import Coquelicot.
From Verif Require Import FEHelper_Model Assembler_Model Assembler_Spec Newton_Model Newton_Spec Newton_Proofs Newton_Props.
From Verif Require Import Control_Model Control_Spec Control_Proofs Control_Props.
From Verif Require Import Tensor_Spec Conversions_Props Element_Spec Element_Model Element_Proofs Element_Props Truss_Model Truss_Props TrussSkill_Props AssemblyMesh_Model AssemblyMesh_Props
  StructureNewton_Model StructureNewton_Props StructureLoad_Model.
Import ListNotations.
Local Open Scope R_scope.

(** Solution and load factor that listeners see at the end of each step *)
Definition stepResults {T X} (tr : list (cmsg * cinfo T * Z * T * (X * T))) : list (X * T) :=
  map snd (filter (fun e => match cmsgOf e with STEP_ENDED => true | _ => false end) tr).

(** ** Solves and steps of load control *)
Section Calls.
  Context {T X W : Type}.
  Variables (listen : cmsg -> cinfo T -> Z -> T -> X * T -> W -> W) (tadd : T -> T -> T) (t0 : T) (solve : X -> T -> T -> W -> X * W * nlinfo T).
  Variable P : X -> Prop.
  Hypothesis keeps : forall x p st w, P x -> P (fst (fst (solve x p st w))).

  (** A step ended at [e] with information [i] after a solve from an admissible solution *)
  Definition solvedStep (i : nlinfo T) (e : X * T) : Prop := exists x st w w', P x /\ solve x (snd e) st w = (fst e, w', i).

  Lemma results_app (a b : list (cmsg * cinfo T * Z * T * (X * T))) : stepResults (a ++ b) = stepResults a ++ stepResults b.
  Proof. unfold stepResults. rewrite filter_app, map_app. reflexivity. Qed.

  Lemma results_emit m (s : cState (T:=T) (X:=X) (W:=W)) : stepResults (k_trace (cemit listen m s)) =
    stepResults (k_trace s) ++ match m with STEP_ENDED => [(k_x s, k_p s)] | _ => [] end.
  Proof. unfold cemit. cbn [k_trace]. rewrite results_app. destruct m; reflexivity. Qed.

  Lemma results_update i (s : cState (T:=T) (X:=X) (W:=W)) : stepResults (k_trace (updateAndNotify listen i s)) = stepResults (k_trace s) ++ [(k_x s, k_p s)].
  Proof. unfold updateAndNotify. cbv zeta. rewrite !results_emit, app_nil_r. reflexivity. Qed.

  Lemma loop_solved st n : forall ls s, P (k_x s) -> let s' := lcLoop listen tadd solve (fun x _ => x) n st ls s in
    exists l r, c_infos (k_info s') = c_infos (k_info s) ++ l /\ stepResults (k_trace s') = stepResults (k_trace s) ++ r /\ Forall2 solvedStep l r /\
      P (k_x s') /\ (r <> [] -> last r (k_x s', k_p s') = (k_x s', k_p s')) /\ (r = [] -> k_x s' = k_x s /\ k_p s' = k_p s).
  Proof.
    induction n as [|n IH]; intros ls s Hs; cbn [lcLoop]; cbv zeta.
    - exists [], []. unfold setSuccess. cbn [k_info k_trace k_x k_p c_infos]. rewrite results_emit. cbn. rewrite !app_nil_r. split; [reflexivity|]. split; [reflexivity|]. split; [constructor|]. split; [exact Hs|]. split; [intros N; destruct (N eq_refl)|auto].
    - set (s1 := cemit listen STEP_STARTED _).
      assert (A : stepResults (k_trace s1) = stepResults (k_trace s) /\ k_info s1 = k_info s /\ k_x s1 = k_x s /\ k_p s1 = k_p s).
      { subst s1. rewrite results_emit. cbn. rewrite app_nil_r. auto. }
      destruct A as (A1 & A2 & A3 & A4). clearbody s1.
      pose proof (keeps (k_x s1) (tadd (k_p s1) st) st (k_w s1)) as K. rewrite A3 in K at 1. specialize (K Hs).
      destruct (solve (k_x s1) (tadd (k_p s1) st) st (k_w s1)) as [[x w] i] eqn:E. cbn [fst] in K.
      replace (if (i_iter i =? 0)%Z then x else x) with x by (destruct (_ =? _)%Z; reflexivity).
      match goal with |- context [updateAndNotify listen i ?sx] => pose proof (results_update i sx) as L;
        assert (U : let s2 := updateAndNotify listen i sx in c_infos (k_info s2) = c_infos (k_info s) ++ [i] /\ k_x s2 = x /\ k_p s2 = tadd (k_p s1) st)
          by (cbn; rewrite A2; auto); set (s2 := updateAndNotify listen i sx) in * end.
      cbv zeta in U. cbn [k_trace k_x k_p] in L. destruct U as (U1 & U2 & U3). rewrite A1 in L. clearbody s2.
      assert (Q : solvedStep i (x, tadd (k_p s1) st)) by (exists (k_x s1), st, (k_w s1), w; rewrite A3 at 1; split; [exact Hs|exact E]).
      destruct (i_success i).
      + rewrite <- U2 in K. destruct (IH (ls + 1)%Z s2 K) as (l & r & E1 & E2 & E3 & E4 & E5 & E6). exists (i :: l), ((x, tadd (k_p s1) st) :: r).
        rewrite E1, E2, U1, L, <- !app_assoc. split; [reflexivity|]. split; [reflexivity|]. split; [constructor; assumption|]. split; [exact E4|].
        split; [|discriminate]. intros _. destruct r as [|a r]; [|exact (E5 ltac:(discriminate))].
        cbn [last]. destruct (E6 eq_refl) as [-> ->]. rewrite U2, U3. reflexivity.
      + exists [i], [(x, tadd (k_p s1) st)]. rewrite L. split; [exact U1|]. split; [reflexivity|]. split; [repeat constructor; exact Q|].
        rewrite U2, U3. split; [exact K|]. split; [reflexivity|discriminate].
  Qed.

  Lemma run_solved lc x p w : P x -> let s := lcRun listen tadd t0 solve (fun x _ => x) lc x p w in
    Forall2 solvedStep (c_infos (k_info s)) (stepResults (k_trace s)) /\ P (k_x s) /\ last (stepResults (k_trace s)) (x, p) = (k_x s, k_p s).
  Proof.
    intros Hx. destruct lc as (n, st). unfold lcRun. set (s0 := cemit listen STEP_STARTED _).
    assert (A : stepResults (k_trace s0) = [] /\ k_info s0 = mkCInfo false [] 0 /\ k_x s0 = x /\ k_p s0 = p).
    { subst s0. rewrite results_emit. unfold cemit at 1. cbn. auto. }
    destruct A as (A1 & A2 & A3 & A4). clearbody s0. rewrite A3, A4.
    pose proof (keeps x p t0 (k_w s0) Hx) as K. destruct (solve x p t0 (k_w s0)) as [[x1 w1] i] eqn:E. cbn [fst] in K.
    match goal with |- context [updateAndNotify listen i ?sx] => pose proof (results_update i sx) as L;
      assert (U : let s2 := updateAndNotify listen i sx in c_infos (k_info s2) = [i] /\ k_x s2 = x1 /\ k_p s2 = p)
        by (cbn; rewrite A2; auto); set (s1 := updateAndNotify listen i sx) in * end.
    cbv zeta in U. cbn [k_trace k_x k_p] in L. destruct U as (U1 & U2 & U3). rewrite A1 in L. cbn [app] in L. clearbody s1.
    assert (Q : solvedStep i (x1, p)) by (exists x, t0, (k_w s0), w1; split; [exact Hx|exact E]).
    destruct (i_success i).
    - match goal with |- context [lcLoop listen tadd solve _ _ _ _ ?sx] => assert (Hs : P (k_x sx)) by (cbn [k_x]; rewrite U2; exact K);
        destruct (loop_solved st (Z.to_nat n) 0%Z sx Hs) as (l & r & E1 & E2 & E3 & E4 & E5 & E6) end. cbn [k_info k_trace k_x k_p] in *. cbv zeta.
      rewrite E1, E2, U1, L. split; [constructor; assumption|]. split; [exact E4|].
      cbn [app]. destruct r as [|a r]; [cbn [last]; destruct (E6 eq_refl) as [-> ->]; rewrite U2, U3; reflexivity|].
      rewrite <- (E5 ltac:(discriminate)). clear. cbn [last]. generalize (x, p). revert a. induction r as [|b r IH]; intros a d; [reflexivity|]. cbn [last]. apply IH.
    - cbv zeta. rewrite U1, L, U2, U3. split; [repeat constructor; exact Q|]. split; [exact K|reflexivity].
  Qed.
End Calls.

(** ** C154 *)
Section Theorems.
  Variables (flags : list bool) (meshAt : R -> list meshElement) (o : dbc) (W : Type) (inf : R) (lsolve : option (response (V := R)) -> list R -> list R)
    (listenSolver : nlmsg -> nlinfo R -> list R -> (nat -> R) -> W -> W)
    (listenControl : cmsg -> cinfo R -> Z -> R -> (nat -> R) * R -> W * list R -> W * list R).
  Let n := length flags.
  Hypothesis notRaw : o <> Raw.

  (** The virtual work, at load factor lambda, of every virtual displacement that respects the supports is at most tol times its length *)
  Definition inEquilibrium (tol lambda : R) (y : nat -> R) : Prop :=
    forall motion v, passes n motion y v -> (forall i, constrained flags i -> v i = 0) ->
    exists work, is_derive (fun t => scalarEntry (answer flags (meshAt lambda) (RScalar (motion t)))) 0 work /\ Rabs work <= tol * sqrt (dot n v v).

  Theorem C154_steps st st' loadSteps tBegin tEnd lc x p w : nrSetup st = Some st' -> (0 <= nr_maxIter st)%Z ->
    lcConstruct Rminus Rdiv IZR loadSteps tBegin tEnd = Some lc ->
    let s := structureRun flags meshAt o inf lsolve listenSolver listenControl st' lc x p w in
    let infos := c_infos (k_info s) in
    length (stepResults (k_trace s)) = length infos /\
    (forall k i, nth_error infos k = Some i -> exists y,
      nth_error (stepResults (k_trace s)) k = Some (y, p + INR k * ((tEnd - tBegin) / IZR loadSteps)) /\
      (i_success i = true -> (forall e, In e (meshAt (p + INR k * ((tEnd - tBegin) / IZR loadSteps))) -> goodAt n y e) ->
       inEquilibrium (nr_tol st) (p + INR k * ((tEnd - tBegin) / IZR loadSteps)) y)) /\
    last (stepResults (k_trace s)) (x, p) = (k_x s, k_p s).
  Proof.
    intros St M Lc s infos.
    destruct (run_solved listenControl Rplus 0 (solveAt flags meshAt o inf lsolve listenSolver st') (fun _ => True) ltac:(auto) lc x p w I) as (F & _ & La).
    fold (structureRun flags meshAt o inf lsolve listenSolver listenControl st' lc x p w) in F, La. fold s in F, La. fold infos in F.
    assert (Pk := C23_exact_increments _ _ listenControl (solveAt flags meshAt o inf lsolve listenSolver st') (fun x _ => x) loadSteps tBegin tEnd lc x p w Lc).
    cbv zeta in Pk. fold (structureRun flags meshAt o inf lsolve listenSolver listenControl st' lc x p w) in Pk. fold s in Pk. fold infos in Pk.
    assert (Pp : stepParams (k_trace s) = map snd (stepResults (k_trace s))) by (unfold stepParams, stepResults; rewrite map_map; reflexivity).
    assert (Le : length (stepResults (k_trace s)) = length infos) by (clear - F; induction F; cbn; congruence).
    split; [exact Le|]. split; [|exact La].
    intros k i Ei. assert (Hk : (k < length infos)%nat) by (apply nth_error_Some; congruence).
    destruct (nth_error (stepResults (k_trace s)) k) as [(y, q)|] eqn:Ek; [|apply nth_error_None in Ek; lia].
    assert (Eq : q = p + INR k * ((tEnd - tBegin) / IZR loadSteps)).
    { assert (X : nth_error (stepParams (k_trace s)) k = Some q) by (rewrite Pp, nth_error_map, Ek; reflexivity).
      rewrite Pk, nth_error_map in X. rewrite (nth_error_nth' (seq 0 (length infos)) 0%nat) in X by (rewrite seq_length; lia).
      rewrite seq_nth in X by lia. cbn in X. congruence. }
    exists y. rewrite <- Eq. split; [reflexivity|]. intros Si G.
    assert (Q : solvedStep (solveAt flags meshAt o inf lsolve listenSolver st') (fun _ => True) i (y, q)).
    { clear - F Ei Ek. revert k Ei Ek. induction F as [|a b la lb H F IH]; intros [|k]; cbn; try discriminate; [congruence|apply IH]. }
    destruct Q as (x0 & s0 & w0 & w1 & _ & Q). cbn [fst snd] in Q. unfold solveAt in Q.
    destruct (structureSolve _ _ _ _ _ _ _ _ _ _) as [sn|] eqn:E; inversion Q; subst; [|discriminate].
    intros motion v Pa Z. apply (C148_equilibrium flags (meshAt _) o W inf lsolve listenSolver notRaw st st' x0 (snd w0) (fst w0) sn St M E Si); auto.
  Qed.

  (** A run reported as successful ends in equilibrium with the loads at the end of the interval *)
  Theorem C154_success st st' loadSteps tBegin tEnd lc x w : nrSetup st = Some st' -> (0 <= nr_maxIter st)%Z ->
    lcConstruct Rminus Rdiv IZR loadSteps tBegin tEnd = Some lc ->
    let s := structureRun flags meshAt o inf lsolve listenSolver listenControl st' lc x tBegin w in
    c_success (k_info s) = true -> (forall e, In e (meshAt tEnd) -> goodAt n (k_x s) e) -> k_p s = tEnd /\ inEquilibrium (nr_tol st) tEnd (k_x s).
  Proof.
    intros St M Lc s Su G.
    assert (Ep : k_p s = tEnd) by (apply (C24_exact_from_tBegin_partial _ _ listenControl (solveAt flags meshAt o inf lsolve listenSolver st') (fun x _ => x) loadSteps tBegin tEnd lc x w Lc Su)).
    split; [exact Ep|].
    destruct (C154_steps st st' loadSteps tBegin tEnd lc x tBegin w St M Lc) as (Le & K & La). fold s in Le, K, La.
    destruct (C23_load_control _ _ _ listenControl Rplus Rminus Rdiv IZR 0 (solveAt flags meshAt o inf lsolve listenSolver st') (fun x _ => x) loadSteps tBegin tEnd lc x tBegin w Lc)
      as (Ln & _ & C3 & _). fold (structureRun flags meshAt o inf lsolve listenSolver listenControl st' lc x tBegin w) in Ln, C3. fold s in Ln, C3.
    set (infos := c_infos (k_info s)) in *.
    destruct (nth_error infos (length infos - 1)) as [i|] eqn:Ei; [|apply nth_error_None in Ei; lia].
    destruct (K _ i Ei) as (y & Ey & Eq).
    assert (X : nth_error (stepResults (k_trace s)) (length infos - 1) = Some (k_x s, k_p s)).
    { rewrite <- La, <- Le. destruct (stepResults (k_trace s)) as [|a r]; [cbn in Le; lia|]. clear. generalize (x, tBegin). revert a.
      induction r as [|b r IH]; intros a d; [reflexivity|]. cbn [length] in *. specialize (IH b d). replace (S (S (length r)) - 1)%nat with (S (S (length r) - 1)) by lia.
      cbn [nth_error]. rewrite IH. reflexivity. }
    rewrite Ey in X. inversion X as [[Hy Hp]]. rewrite Hp, Ep in Eq. rewrite <- Hy. apply Eq; [|rewrite Hy; exact G]. apply (proj1 C3 Su), (nth_error_In _ _ Ei).
  Qed.

  (** The supports stay where they are in all steps, if the linear systems that arise are solved *)
  Theorem C154_supports st lc x p w : (forall lambda e, In e (meshAt lambda) -> forall i, In i (me_dofs e) -> (i < n)%nat) ->
    (forall lambda y, solved flags (meshAt lambda) o lsolve y) ->
    let s := structureRun flags meshAt o inf lsolve listenSolver listenControl st lc x p w in
    (forall e, In e (stepResults (k_trace s)) -> forall i, constrained flags i -> fst e i = x i) /\
    (forall i, constrained flags i -> k_x s i = x i).
  Proof.
    intros R So s.
    assert (Keep : forall y q t v, (forall i, constrained flags i -> y i = x i) ->
      forall i, constrained flags i -> fst (fst (solveAt flags meshAt o inf lsolve listenSolver st y q t v)) i = x i).
    { intros y q t v H i Ci. unfold solveAt. destruct (structureSolve _ _ _ _ _ _ _ _ _ _) as [sn|] eqn:E; [|apply H, Ci]. cbn [fst].
      rewrite (C148_supports flags (meshAt q) o W inf lsolve listenSolver notRaw st y (snd v) (fst v) sn E (R q)); auto. }
    destruct (run_solved listenControl Rplus 0 (solveAt flags meshAt o inf lsolve listenSolver st) (fun y => forall i, constrained flags i -> y i = x i) Keep lc x p w
      (fun i _ => eq_refl)) as (F & Pe & _). fold (structureRun flags meshAt o inf lsolve listenSolver listenControl st lc x p w) in F, Pe. fold s in F, Pe.
    split; [|exact Pe]. intros e He. clear - F He Keep. induction F as [|a b la lb H F IH]; [destruct He|]. destruct He as [<-|He]; [|auto].
    destruct H as (x0 & t & w0 & w1 & Px & E). intros i Ci. specialize (Keep x0 (snd b) t w0 Px i Ci). rewrite E in Keep. exact Keep.
  Qed.
End Theorems.
Print Assumptions C154_steps.
Print Assumptions C154_success.
Print Assumptions C154_supports.

(** A spring of stiffness 2 between a support and a node, which is loaded by three times the load factor *)
Definition loadedSkill (q : R) : skill :=
  {| skillScalar := fun u => (u 1%nat - u 0%nat) * (u 1%nat - u 0%nat) - 3 * q * u 1%nat;
     skillVector := fun u f k => f k + match k with O => -2 * (u 1%nat - u 0%nat) | _ => 2 * (u 1%nat - u 0%nat) - 3 * q end;
     skillMatrix := fun u K k l => K k l + if (k =? l)%nat then 2 else -2 |}.
Definition loadedSpring (q : R) : list meshElement := [mkMeshElement [Leaf [0; 1]%nat] (fun i => i) (loadedSkill q)].

Lemma loaded_consistent q : consistentSkill 2 (fun _ => True) (loadedSkill q).
Proof.
  split; [|split; [|split; [|split]]]; cbn [loadedSkill skillScalar skillVector skillMatrix].
  - intros u _ c v P. destruct (P 0%nat ltac:(lia)) as [a0 d0]. destruct (P 1%nat ltac:(lia)) as [a1 d1].
    assert (D : is_derive (fun t => c t 1%nat - c t 0%nat) 0 (v 1%nat - v 0%nat)) by (apply @is_derive_minus; assumption).
    apply (is_derive_ext (fun t => (c t 1%nat - c t 0%nat) * (c t 1%nat - c t 0%nat) - c t 1%nat * (3 * q))); [intros t; match goal with |- ?a = ?b => change (@eq R a b) end; ring|].
    eapply derive_eq; [apply @is_derive_minus; [apply (derive_mult _ _ _ _ D D)|apply derive_scale, d1]|].
    cbv beta. rewrite a0, a1. unfold dot, zeroVector, minus, plus, opp. cbn. ring.
  - intros u _ k Hk c v P. destruct (P 0%nat ltac:(lia)) as [a0 d0]. destruct (P 1%nat ltac:(lia)) as [a1 d1].
    assert (D : is_derive (fun t => c t 1%nat - c t 0%nat) 0 (v 1%nat - v 0%nat)) by (apply @is_derive_minus; assumption).
    destruct k as [|[|k]]; [| |lia].
    + apply (is_derive_ext (fun t => (c t 1%nat - c t 0%nat) * -2)); [intros t; match goal with |- ?a = ?b => change (@eq R a b) end; unfold zeroVector; ring|].
      eapply derive_eq; [apply derive_scale, D|]. unfold dot, zeroMatrix. cbn. ring.
    + apply (is_derive_ext (fun t => (c t 1%nat - c t 0%nat) * 2 - 3 * q)); [intros t; match goal with |- ?a = ?b => change (@eq R a b) end; unfold zeroVector; ring|].
      eapply derive_eq; [apply @is_derive_minus; [apply derive_scale, D|apply @is_derive_const]|]. unfold dot, zeroMatrix, minus, plus, opp, zero. cbn. ring.
  - intros. unfold zeroVector. ring.
  - intros. unfold zeroMatrix. ring.
  - intros u _ k l _ _. unfold zeroMatrix. rewrite Nat.eqb_sym. reflexivity.
Qed.

Lemma loaded_residual q y : residualFunction springFlags (loadedSpring q) Reduced y = [0 + (0 + (2 * (y 1%nat - y 0%nat) - 3 * q))].
Proof. reflexivity. Qed.

(** One load step from 0 to 1 *)
Example C154_applies :
  (forall q y e, In e (loadedSpring q) -> goodAt 2 y e) /\
  (forall q y, solved springFlags (loadedSpring q) Reduced springLinearSolver y) /\
  let s := structureRun springFlags loadedSpring Reduced 0 springLinearSolver (fun _ _ _ _ (w : unit) => w) (fun _ _ _ _ _ w => w) (mkNRSettings (/ 10) 5 0)
    (1%Z, (1 - 0) / 1) (fun _ => 0) 0 (tt, []) in
  c_success (k_info s) = true /\ length (c_infos (k_info s)) = 2%nat /\ k_x s 0%nat = 0 /\ k_x s 1%nat = 3 / 2.
Proof.
  split; [|split].
  - intros q U e [<-|[]]. split; [exists 2%nat, [[0; 1]]%nat; split; [reflexivity|split; [discriminate|intros l [<-|[]]; reflexivity]]|].
    split; [cbn; intros i Hi; intuition lia|]. exists (fun _ => True). split; [exact (loaded_consistent q)|split; auto].
  - intros q y. split; [reflexivity|]. intros [|i] Hi; [|cbn in Hi; lia]. rewrite loaded_residual. cbn. lra.
  - set (y := updateFunctor springFlags Reduced (fun _ => 0) (springLinearSolver None (residualFunction springFlags (loadedSpring 1) Reduced (fun _ => 0)))).
    assert (Y0 : y 0%nat = 0) by (unfold y; rewrite loaded_residual; cbn; unfold plusVector; cbn [nth]; ring).
    assert (Y1 : y 1%nat = 3 / 2) by (unfold y; rewrite loaded_residual; cbn; unfold plusVector; cbn [nth]; field).
    assert (First : solveAt springFlags loadedSpring Reduced 0 springLinearSolver (fun _ _ _ _ (w : unit) => w) (mkNRSettings (/ 10) 5 0) (fun _ => 0) 0 0 (tt, []) =
      ((fun _ => 0), (tt, []), mkInfo true (norm (residualFunction springFlags (loadedSpring 0) Reduced (fun _ => 0))) 0 0)).
    { unfold solveAt, structureSolve, nrSolve, nrStart. cbn [emit setInfo s_d s_w s_info s_c s_trace nr_maxIter nr_minIter fst snd].
      change (Z.to_nat (Z.max 5 0)) with 5%nat. cbn [nrLoop]. unfold nrCond at 1. cbn [nr_tol nr_maxIter nr_minIter].
      assert (N : greater (norm (residualFunction springFlags (loadedSpring 0) Reduced (fun _ => 0))) (/ 10) = false).
      { rewrite loaded_residual. unfold greater, norm. cbn [fold_left]. destruct Rlt_dec as [L|]; [|reflexivity]. exfalso.
        replace (0 + (0 + (0 + (2 * (0 - 0) - 3 * 0))) * (0 + (0 + (2 * (0 - 0) - 3 * 0)))) with 0 in L by ring. rewrite sqrt_0 in L. lra. }
      rewrite N. reflexivity. }
    assert (Second : exists c i, solveAt springFlags loadedSpring Reduced 0 springLinearSolver (fun _ _ _ _ (w : unit) => w) (mkNRSettings (/ 10) 5 0) (fun _ => 0) (0 + (1 - 0) / 1) ((1 - 0) / 1) (tt, []) =
      (y, (tt, c), i) /\ i_success i = true).
    { unfold solveAt. replace (0 + (1 - 0) / 1) with 1 by field.
      destruct (one_iteration greater 0 (residualFunction springFlags (loadedSpring 1) Reduced) (KFunction springFlags (loadedSpring 1) Reduced) norm norm springLinearSolver
        (updateFunctor springFlags Reduced) (fun _ _ _ _ (w : unit) => w) (/ 10) (fun _ => 0) [] tt) as (s & E & S1 & Es).
      + rewrite loaded_residual. unfold greater, norm. cbn [fold_left]. destruct Rlt_dec as [|N]; [reflexivity|]. exfalso. apply N.
        replace (0 + (0 + (0 + (2 * (0 - 0) - 3 * 1))) * (0 + (0 + (2 * (0 - 0) - 3 * 1)))) with (3 * 3) by ring. rewrite sqrt_square; lra.
      + change (greater (norm (residualFunction springFlags (loadedSpring 1) Reduced y)) (/ 10) = false).
        rewrite loaded_residual. unfold greater, norm. cbn [fold_left]. rewrite Y0, Y1. destruct Rlt_dec as [L|]; [|reflexivity]. exfalso.
        replace (0 + (0 + (0 + (2 * (3 / 2 - 0) - 3 * 1))) * (0 + (0 + (2 * (3 / 2 - 0) - 3 * 1)))) with 0 in L by field. rewrite sqrt_0 in L. lra.
      + unfold structureSolve. cbn [fst snd]. rewrite E. exists (s_c s), (s_info s). split; [|exact S1].
        change (updateFunctor springFlags Reduced (fun _ => 0) (springLinearSolver _ _)) with y in Es. rewrite Es. destruct (s_w s). reflexivity. }
    destruct Second as (c & i & Second & Si). unfold structureRun, lcRun. cbn [cemit k_x k_p k_w]. rewrite First. cbn [i_success].
    change (Z.to_nat 1) with 1%nat. cbn [lcLoop updateAndNotify cemit k_x k_p k_w]. rewrite Second, Si.
    replace (if (i_iter i =? 0)%Z then y else y) with y by (destruct (_ =? _)%Z; reflexivity). cbn. auto.
Qed.
