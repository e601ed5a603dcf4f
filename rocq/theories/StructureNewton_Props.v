(** Property C148: a solution reported by the Newton solver of a structure is in equilibrium and respects the supports. *)

From Coq Require Import List Arith ZArith Bool Reals Lia Lra.
From Coquelicot Require Import Coquelicot.
From Verif Require Import FEHelper_Model Assembler_Model Assembler_Spec Assembler_Proofs Assembler_Props Newton_Model Newton_Spec Newton_Proofs Newton_Props.
From Verif Require Import Tensor_Spec Conversions_Props Element_Spec Element_Model Element_Proofs Element_Props Truss_Model Truss_Props TrussSkill_Props
  AssemblyMesh_Model AssemblyMesh_Props StructureNewton_Model.
Import ListNotations.
Local Open Scope R_scope.

(** ** An invariant of Newton runs whose residual does not depend on the listeners *)
Section Invariant.
  Context {T D R' J C W : Type}.
  Variables (gt : T -> T -> bool) (inf : T) (res : D -> R') (jac : D -> J) (rnorm : R' -> T) (cnorm : C -> T) (lsolve : J -> R' -> C)
    (update : D -> C -> D) (listen : nlmsg -> nlinfo T -> C -> D -> W -> W).
  Variable P : D -> Prop.
  Hypothesis keeps : forall d, P d -> P (update d (lsolve (jac d) (res d))).

  Lemma loop_keeps st fuel : forall iter rn s iter' s', P (s_d s) ->
    nrLoop gt (fun _ => res) (fun _ => jac) rnorm cnorm lsolve update None listen fuel st iter (res (s_d s)) (jac (s_d s)) rn s = Some (iter', s') ->
    P (s_d s').
  Proof.
    induction fuel as [|fuel IH]; intros iter rn s iter' s' H; cbn [nrLoop]; destruct (nrCond gt st rn iter); try discriminate;
      try (intros E; inversion E; subst; exact H).
    destruct (nrBody_spec (fun _ => res) (fun _ => jac) rnorm cnorm lsolve update None listen iter (res (s_d s)) (jac (s_d s)) s)
      as (s1 & w & E & _ & _ & _ & _ & _ & Dd & _). rewrite E. apply IH. rewrite Dd. apply keeps, H.
  Qed.

  Lemma solve_keeps st x c w s : P x ->
    nrSolve gt inf (fun _ => res) (fun _ => jac) rnorm cnorm lsolve update None listen st x c w = Some s -> P (s_d s).
  Proof.
    intros H. unfold nrSolve.
    destruct (nrStart_spec inf (fun _ => res) (fun _ => jac) rnorm None listen x c w) as (s0 & rx & ax & rn & E0 & D0 & _ & _ & _ & _ & _ & _ & _ & A0 & N0 & X0).
    rewrite E0. subst rx ax. rewrite <- D0.
    destruct (nrLoop _ _ _ _ _ _ _ _ _ _ _ _ _ _ _ _) as [(iter, s1)|] eqn:E; [|discriminate].
    intros F. injection F as F. rewrite <- F. unfold nrFinish.
    assert (P (s_d s1)) by (eapply loop_keeps; [rewrite D0; exact H|exact E]).
    destruct (if (iter =? nr_maxIter st)%Z then false else i_success (s_info s1)); assumption.
  Qed.

  (** A run of one iteration *)
  Lemma one_iteration tol x c w : let y := update x (lsolve (jac x) (res x)) in
    gt (rnorm (res x)) tol = true -> gt (rnorm (res y)) tol = false -> exists s,
    nrSolve gt inf (fun _ => res) (fun _ => jac) rnorm cnorm lsolve update None listen (mkNRSettings tol 5 0) x c w = Some s /\
    i_success (s_info s) = true /\ s_d s = y.
  Proof.
    intros y H1 H2. unfold nrSolve. cbn [nr_maxIter nr_minIter]. change (Z.to_nat (Z.max 5 0)) with 5%nat.
    destruct (nrStart_spec inf (fun _ => res) (fun _ => jac) rnorm None listen x c w) as (s0 & rx & ax & rn & E0 & D0 & _ & S0 & _ & _ & _ & _ & _ & A0 & N0 & X0).
    rewrite E0. cbn [nrLoop]. unfold nrCond. cbn [nr_maxIter nr_minIter nr_tol]. rewrite N0, X0, H1.
    change (0 <? 5)%Z with true. cbn [andb orb].
    destruct (nrBody_spec (fun _ => res) (fun _ => jac) rnorm cnorm lsolve update None listen 0 (res x) ax s0) as (s1 & w1 & E1 & _ & S1 & _ & _ & _ & Dd & _).
    rewrite E1, Dd, A0, D0. fold y. rewrite H2. change (0 + 1 <? 0)%Z with false. cbn [andb orb]. eexists. split; [reflexivity|].
    unfold nrFinish. cbn [nr_maxIter]. change (0 + 1 =? 5)%Z with false. cbv iota. rewrite S1, S0. cbn. rewrite Dd, A0, D0. auto.
  Qed.
End Invariant.

(** ** Norms *)
Lemma norm_dot v : norm v = sqrt (dot (length v) (fun i => nth i v 0) (fun i => nth i v 0)).
Proof.
  unfold norm. f_equal. rewrite (fold_scalar v (fun x => x * x) 0). rewrite Rplus_0_l. unfold dot.
  rewrite <- sumP_seq. clear. induction v as [|x v IH]; [reflexivity|]. cbn [length seq sumP]. rewrite IH. cbn [nth]. f_equal.
  rewrite <- seq_shift, sumP_map. reflexivity.
Qed.

Lemma dot_square_nonneg n v : 0 <= dot n v v.
Proof. apply sum_nonneg. intros. apply Rle_0_sqr. Qed.

Lemma cauchy_schwarz n a b : Rabs (dot n a b) <= sqrt (dot n a a) * sqrt (dot n b b).
Proof.
  rewrite <- sqrt_mult by apply dot_square_nonneg.
  rewrite <- sqrt_Rsqr_abs. apply sqrt_le_1_alt. unfold Rsqr.
  set (A := dot n a a). set (B := dot n b b). set (S := dot n a b).
  assert (HA : 0 <= A) by apply dot_square_nonneg. assert (HB : 0 <= B) by apply dot_square_nonneg.
  assert (Q : forall t u, 0 <= t * t * A + 2 * t * u * S + u * u * B).
  { intros t u. replace (t * t * A + 2 * t * u * S + u * u * B) with (dot n (fun k => t * a k + u * b k) (fun k => t * a k + u * b k)); [apply dot_square_nonneg|].
    unfold A, B, S, dot. rewrite <- !sum_mul_l, <- !sum_add. apply sum_ext. intros. ring. }
  destruct (Req_dec A 0) as [Z|Z].
  - destruct (Req_dec S 0) as [Z'|Z']; [rewrite Z'; nra|]. specialize (Q (- (B + 1) / (2 * S)) 1). rewrite Z in Q.
    replace (2 * (- (B + 1) / (2 * S)) * 1 * S) with (- (B + 1)) in Q by (field; assumption). nra.
  - specialize (Q (- S) A). nra.
Qed.

(** ** The theorems *)
Section Theorems.
  Variables (flags : list bool) (mesh : list meshElement) (o : dbc) (W : Type) (inf : R) (lsolve : option (response (V := R)) -> list R -> list R)
    (listen : nlmsg -> nlinfo R -> list R -> (nat -> R) -> W -> W).
  Let n := length flags.
  Hypothesis notRaw : o <> Raw.

  Lemma full_entries y i : (forall e, In e mesh -> forall i, In i (me_dofs e) -> (i < n)%nat) -> (i < n)%nat ->
    let full := vectorEntries (answer flags mesh (RVector Full y)) i in
    (constrained flags i -> full = 0) /\
    (free flags i -> full = vectorEntries (answer flags mesh (RVector Raw y)) i /\
                     vectorEntries (answer flags mesh (RVector Reduced y)) (rank flags i) = full).
  Proof.
    intros R Hi. assert (W0 : wfElements n (toElements n mesh)) by (apply wf_any, R). cbv zeta.
    destruct (C04_full_vector _ _ 0 Rplus flags _ y W0) as (raw & v & E & E' & L & K & F).
    assert (E1 : answer flags mesh (RVector Full y) = Some (OVector v)) by (unfold answer; cbn [denseRequest]; fold n; rewrite E'; reflexivity).
    assert (E2 : answer flags mesh (RVector Raw y) = Some (OVector raw)) by (unfold answer; cbn [denseRequest]; fold n; rewrite E; reflexivity).
    rewrite E1. split; intros Hc.
    - apply nth_error_nth, K, Hc.
    - assert (X : nth i v 0 = nth i raw 0).
      { specialize (F i Hc). rewrite (nth_error_nth' v 0) in F by (unfold size in L; lia). symmetry in F. symmetry. apply nth_error_nth, F. }
      split; [rewrite E2; exact X|]. unfold answer. rewrite (ask_reduced_vector flags mesh y i W0 Hc). unfold answer in E2. fold n. fold n in E2. rewrite E2. cbn. symmetry. exact X.
  Qed.

  (** The residual of the solver has the norm of the vector with zeros at the constrained dofs *)
  Lemma residual_norm y : (forall e, In e mesh -> forall i, In i (me_dofs e) -> (i < n)%nat) ->
    let full := vectorEntries (answer flags mesh (RVector Full y)) in
    norm (residualFunction flags mesh o y) = sqrt (dot n full full).
  Proof.
    intros R. assert (W0 : wfElements n (toElements n mesh)) by (apply wf_any, R). cbv zeta. rewrite norm_dot. f_equal.
    destruct o eqn:Eo; [contradiction|..].
    all: first [
      (* Full *)
      destruct (C04_full_vector _ _ 0 Rplus flags _ y W0) as (raw & v & E & E' & L & K & F);
      assert (E1 : answer flags mesh (RVector Full y) = Some (OVector v)) by (unfold answer; cbn [denseRequest]; fold n; rewrite E'; reflexivity);
      unfold residualFunction; rewrite E1; change (length v = n) in L; rewrite L; reflexivity
    |
      (* Reduced *)
      destruct (C04_reduced_vector _ _ 0 Rplus flags _ y W0) as (raw & v & E & E' & _ & Ev);
      assert (E1 : answer flags mesh (RVector Reduced y) = Some (OVector v)) by (unfold answer; cbn [denseRequest]; fold n; rewrite E'; reflexivity);
      destruct (C03_vector _ _ 0 Rplus flags _ y W0) as (raw' & E3 & L & _); rewrite E in E3; injection E3 as <-;
      assert (Lv : length v = reducedSize flags) by (subst v; rewrite restrict_length by exact L; now rewrite reducedSize_nFree);
      unfold residualFunction; rewrite E1, Lv; unfold dot;
      rewrite <- (sum_free flags (vectorEntries (answer flags mesh (RVector Full y))) (fun k => nth k v 0) (fun k => nth k v 0));
      [apply sum_ext; intros i Hi; destruct (free_or_constrained flags i Hi) as [Fi|Ci];
        [rewrite (nth_error_nth flags i true Fi)|rewrite (nth_error_nth flags i true Ci)];
        destruct (full_entries y i R Hi) as [X1 X2];
        [destruct (X2 Fi) as [_ X3]; rewrite E1 in X3; cbn in X3; rewrite X3; reflexivity|rewrite (X1 Ci); ring]
      |intros i Fi; assert (Hi : (i < n)%nat) by (apply nth_error_Some; unfold free in Fi; congruence);
        destruct (full_entries y i R Hi) as [_ X2]; destruct (X2 Fi) as [_ X3]; rewrite E1 in X3; exact X3] ].
  Qed.

  (** C148: the virtual work of every virtual displacement that respects the supports is at most the tolerance times its length *)
  Theorem C148_equilibrium st st' x c w s : nrSetup st = Some st' -> (0 <= nr_maxIter st)%Z ->
    structureSolve flags mesh o inf lsolve listen st' x c w = Some s -> i_success (s_info s) = true ->
    (forall e, In e mesh -> goodAt n (s_d s) e) ->
    forall motion v, passes n motion (s_d s) v -> (forall i, constrained flags i -> v i = 0) ->
    exists work, is_derive (fun t => scalarEntry (answer flags mesh (RScalar (motion t)))) 0 work /\
      Rabs work <= nr_tol st * sqrt (dot n v v).
  Proof.
    intros St M H S G motion v P Z.
    assert (R : forall e, In e mesh -> forall i, In i (me_dofs e) -> (i < n)%nat) by (intros e He; apply (G e He)).
    destruct (C17_success_converged_partial greater inf _ _ norm norm lsolve (updateFunctor flags o) None listen st st' x c w s St M (or_introl eq_refl) H S)
      as (N & (w1 & Er & _) & _ & _).
    destruct (C147_full flags mesh (s_d s) G) as (_ & _ & V). destruct (V motion v P Z) as [V1 _].
    eexists. split; [exact V1|]. eapply Rle_trans; [apply cauchy_schwarz|].
    apply Rmult_le_compat_r; [apply sqrt_pos|].
    change (fun k => vectorEntries ?a k) with (vectorEntries a). 
    rewrite Er in N. rewrite (residual_norm (s_d s) R) in N. unfold greater in N. destruct Rlt_dec as [|N']; [discriminate|].
    apply Rnot_lt_le in N'. exact N'.
  Qed.

  (** The states the solver passes through *)
  Inductive reaches (x : nat -> R) : (nat -> R) -> Prop :=
  | reaches_start : reaches x x
  | reaches_step y : reaches x y -> reaches x (updateFunctor flags o y (lsolve (KFunction flags mesh o y) (residualFunction flags mesh o y))).

  (** The linear solver returns the solution of A c = -r *)
  Definition solved (y : nat -> R) : Prop :=
    let m := match o with Reduced => reducedSize flags | _ => n end in
    let cc := lsolve (KFunction flags mesh o y) (residualFunction flags mesh o y) in
    length cc = m /\
    forall i, (i < m)%nat -> sum m (fun j => matrixEntries (KFunction flags mesh o y) i j * nth j cc 0) = - nth i (residualFunction flags mesh o y) 0.

  Lemma step_supports y i : (forall e, In e mesh -> forall i, In i (me_dofs e) -> (i < n)%nat) -> solved y -> constrained flags i ->
    updateFunctor flags o y (lsolve (KFunction flags mesh o y) (residualFunction flags mesh o y)) i = y i.
  Proof.
    intros R So Ci. assert (W0 : wfElements n (toElements n mesh)) by (apply wf_any, R).
    assert (Hi : (i < n)%nat) by (apply nth_error_Some; unfold constrained in Ci; congruence).
    destruct So as [L Sol]. set (cc := lsolve _ _) in *. clearbody cc.
    unfold updateFunctor.
    destruct o eqn:Eo; [contradiction|..]; cbv iota.
    all: cbn [andb].
    - rewrite L, Nat.eqb_refl. unfold plusVector.
      destruct (createFullVector_spec 0 flags cc L) as (v & E & Lv & K & Fr). rewrite E, (nth_error_nth v i 0 (K i Ci)). ring.
    - assert (Z : nth i cc 0 = 0).
      { destruct (C05_full_dense _ _ 0 1 Rplus flags _ y W0) as (rawM & M & Em & Em' & Rr & C' & VF & VD & VC).
        assert (EK : KFunction flags mesh Full y = Some (ODense M)) by (unfold KFunction, answer; cbn [denseRequest]; fold n; rewrite Em'; reflexivity).
        specialize (Sol i Hi). rewrite EK in Sol. rewrite (sum_pick n i) in Sol.
        - cbn [matrixEntries] in Sol. rewrite (VD i Ci) in Sol.
          replace (nth i (residualFunction flags mesh Full y) 0) with 0 in Sol; [lra|].
          destruct (full_entries y i R Hi) as [X _]. specialize (X Ci). unfold residualFunction. unfold vectorEntries in X.
          destruct (answer flags mesh (RVector Full y)) as [[| | |]|]; try (destruct i; reflexivity). symmetry. exact X.
        - exact Hi.
        - intros k Hk Nk. cbn [matrixEntries]. rewrite VC by auto. ring. }
      destruct ((reducedSize flags =? length flags)%nat && (length flags =? length cc)%nat) eqn:B; unfold plusVector; cbv beta iota; [|rewrite Z; ring].
      exfalso. apply andb_prop in B as [B _]. apply Nat.eqb_eq in B. fold n in B. rewrite reducedSize_nFree in B.
      assert (X := size_split flags). fold n in X.
      assert (0 < nConstrained flags)%nat by (apply count_occ_In, (nth_error_In flags i Ci)). lia.
  Qed.

  (** C148: if the linear systems that arise are solved, the supports do not move *)
  Theorem C148_supports st x c w s : structureSolve flags mesh o inf lsolve listen st x c w = Some s ->
    (forall e, In e mesh -> forall i, In i (me_dofs e) -> (i < n)%nat) ->
    (forall y, reaches x y -> solved y) ->
    forall i, constrained flags i -> s_d s i = x i.
  Proof.
    intros H R So i Ci.
    enough (reaches x (s_d s) /\ s_d s i = x i) by tauto.
    revert H. apply (solve_keeps greater inf (residualFunction flags mesh o) (KFunction flags mesh o) norm norm lsolve (updateFunctor flags o) listen
      (fun d => reaches x d /\ d i = x i)); [|split; [constructor|reflexivity]].
    intros d [Rd Ed]. split; [now constructor|]. rewrite <- Ed. apply step_supports; auto.
  Qed.
End Theorems.
Print Assumptions C148_equilibrium.
Print Assumptions C148_supports.

(** A spring of stiffness 2 between a support and a node, which is loaded by the force 3 *)
Definition springSkill : skill :=
  {| skillScalar := fun u => (u 1%nat - u 0%nat) * (u 1%nat - u 0%nat) - 3 * u 1%nat;
     skillVector := fun u f k => f k + match k with O => -2 * (u 1%nat - u 0%nat) | _ => 2 * (u 1%nat - u 0%nat) - 3 end;
     skillMatrix := fun u K k l => K k l + if (k =? l)%nat then 2 else -2 |}.
Definition spring : list meshElement := [mkMeshElement [Leaf [0; 1]%nat] (fun i => i) springSkill].
Definition springFlags : list bool := [true; false].
Definition springLinearSolver (_ : option (response (V := R))) (r : list R) : list R := map (fun x => - x / 2) r.

Lemma spring_consistent : consistentSkill 2 (fun _ => True) springSkill.
Proof.
  split; [|split; [|split; [|split]]]; cbn [springSkill skillScalar skillVector skillMatrix].
  - intros u _ c v P. destruct (P 0%nat ltac:(lia)) as [a0 d0]. destruct (P 1%nat ltac:(lia)) as [a1 d1].
    assert (D : is_derive (fun t => c t 1%nat - c t 0%nat) 0 (v 1%nat - v 0%nat)) by (apply @is_derive_minus; assumption).
    apply (is_derive_ext (fun t => (c t 1%nat - c t 0%nat) * (c t 1%nat - c t 0%nat) - c t 1%nat * 3)); [intros t; match goal with |- ?a = ?b => change (@eq R a b) end; ring|].
    eapply derive_eq; [apply @is_derive_minus; [apply (derive_mult _ _ _ _ D D)|apply derive_scale, d1]|].
    cbv beta. rewrite a0, a1. unfold dot, zeroVector, minus, plus, opp. cbn. ring.
  - intros u _ k Hk c v P. destruct (P 0%nat ltac:(lia)) as [a0 d0]. destruct (P 1%nat ltac:(lia)) as [a1 d1].
    assert (D : is_derive (fun t => c t 1%nat - c t 0%nat) 0 (v 1%nat - v 0%nat)) by (apply @is_derive_minus; assumption).
    destruct k as [|[|k]]; [| |lia].
    + apply (is_derive_ext (fun t => (c t 1%nat - c t 0%nat) * -2)); [intros t; match goal with |- ?a = ?b => change (@eq R a b) end; unfold zeroVector; ring|].
      eapply derive_eq; [apply derive_scale, D|]. unfold dot, zeroMatrix. cbn. ring.
    + apply (is_derive_ext (fun t => (c t 1%nat - c t 0%nat) * 2 - 3)); [intros t; match goal with |- ?a = ?b => change (@eq R a b) end; unfold zeroVector; ring|].
      eapply derive_eq; [apply @is_derive_minus; [apply derive_scale, D|apply @is_derive_const]|]. unfold dot, zeroMatrix, minus, plus, opp, zero. cbn. ring.
  - intros. unfold zeroVector. ring.
  - intros. unfold zeroMatrix. ring.
  - intros u _ k l _ _. unfold zeroMatrix. rewrite Nat.eqb_sym. reflexivity.
Qed.

Lemma spring_residual y : residualFunction springFlags spring Reduced y = [0 + (0 + (2 * (y 1%nat - y 0%nat) - 3))].
Proof. reflexivity. Qed.

Example C148_applies :
  (forall U e, In e spring -> goodAt 2 U e) /\
  (forall y, solved springFlags spring Reduced springLinearSolver y) /\
  exists s, structureSolve springFlags spring Reduced 0 springLinearSolver (fun _ _ _ _ (w : unit) => w) (mkNRSettings (/ 10) 5 0) (fun _ => 0) [] tt = Some s /\
    i_success (s_info s) = true /\ s_d s 0%nat = 0 /\ s_d s 1%nat = 3 / 2.
Proof.
  split; [|split].
  - intros U e [<-|[]]. split; [exists 2%nat, [[0; 1]]%nat; split; [reflexivity|split; [discriminate|intros l [<-|[]]; reflexivity]]|].
    split; [cbn; intros i Hi; intuition lia|]. exists (fun _ => True). split; [exact spring_consistent|split; auto].
  - intros y. split; [reflexivity|]. intros [|i] Hi; [|cbn in Hi; lia]. rewrite spring_residual. cbn. lra.
  - set (y := updateFunctor springFlags Reduced (fun _ => 0) (springLinearSolver None (residualFunction springFlags spring Reduced (fun _ => 0)))).
    assert (Y0 : y 0%nat = 0) by (unfold y; rewrite spring_residual; cbn; unfold plusVector; cbn [nth]; ring).
    assert (Y1 : y 1%nat = 3 / 2) by (unfold y; rewrite spring_residual; cbn; unfold plusVector; cbn [nth]; field).
    destruct (one_iteration greater 0 (residualFunction springFlags spring Reduced) (KFunction springFlags spring Reduced) norm norm springLinearSolver
      (updateFunctor springFlags Reduced) (fun _ _ _ _ (w : unit) => w) (/ 10) (fun _ => 0) [] tt) as (s & E & S1 & Es).
    + rewrite spring_residual. unfold greater, norm. cbn [fold_left]. destruct Rlt_dec as [|N]; [reflexivity|]. exfalso. apply N.
      replace (0 + (0 + (0 + (2 * (0 - 0) - 3))) * (0 + (0 + (2 * (0 - 0) - 3)))) with (3 * 3) by ring. rewrite sqrt_square; lra.
    + change (greater (norm (residualFunction springFlags spring Reduced y)) (/ 10) = false).
      rewrite spring_residual. unfold greater, norm. cbn [fold_left]. rewrite Y0, Y1. destruct Rlt_dec as [L|]; [|reflexivity]. exfalso.
      replace (0 + (0 + (0 + (2 * (3 / 2 - 0) - 3))) * (0 + (0 + (2 * (3 / 2 - 0) - 3)))) with 0 in L by field. rewrite sqrt_0 in L. lra.
    + exists s. split; [exact E|]. rewrite S1, Es. auto.
Qed.
