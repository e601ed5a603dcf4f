(** Properties C11-C13: Dirichlet flags, copies, prescribed values. *)

From Coq Require Import List Arith Bool Lia ZArith.
From Verif Require Import Assembler_Model Assembler_Spec Assembler_Proofs Dirichlet_Model Dirichlet_Spec Dirichlet_Proofs.
Import ListNotations.
Local Open Scope nat_scope.

(** * C11 *)

(** On an object that is not a copy: after any sequence of flag operations every flag holds the last write to it. *)
Theorem C11_flags_reflect_history : forall (V L : Type) (vzero : V) (vadd : V -> V -> V) (ne0 : V -> bool) n (ops : list (dop (V:=V) (L:=L))) h,
  (forall o, In o ops -> flagOp0 o) ->
  drun vzero vadd ne0 [] (New n :: ops) = Some h ->
  dofSize h 0 = Some n /\
  (forall k, k < n -> isConstrainedObj h 0 k = Some (lastWrite (writes vzero vadd ne0 n [] ops) k) /\
                      isConstrainedMulti h 0 k = Some (lastWrite (writes vzero vadd ne0 n [] ops) k)) /\
  fixedSize h 0 = Some (length (filter (fun k => lastWrite (writes vzero vadd ne0 n [] ops) k) (seq 0 n))).
Proof.
  intros V L vzero vadd ne0 n ops h F R.
  change (drun vzero vadd ne0 [Some (mkObj (repeat false n) 0 [])] ops = Some h) in R.
  rewrite run0 in R by auto. simpl in R. rewrite repeat_length in R.
  destruct (foldM write (repeat false n) _) as [f|] eqn:E; try discriminate. inversion R; subst. clear R.
  pose proof (foldM_write_length _ _ _ E) as Lf. rewrite repeat_length in Lf.
  assert (forall k, k < n -> nth_error f k = Some (lastWrite (writes vzero vadd ne0 n [] ops) k)) as N.
  { intros k Hk. rewrite (foldM_write_nth _ _ _ k E). unfold lastWrite. destruct (find _ _); auto.
    rewrite nth_error_repeat; auto. }
  unfold dofSize, isConstrainedMulti, isConstrainedObj, fixedSize, getObj. simpl. split; [congruence|]. split; [split; auto|].
  f_equal. clear E F. subst n.
  assert (forall p (g : nat -> bool) l, (forall k, k < length l -> nth_error l k = Some (g (p + k))) ->
     count_occ bool_dec l true = length (filter g (seq p (length l)))) as G.
  { intros p g l. revert p. induction l as [|b l IH]; intros p H; simpl; auto.
    pose proof (H 0 ltac:(simpl; lia)) as H0. simpl in H0. rewrite Nat.add_0_r in H0. inversion H0.
    rewrite (IH (S p)). - destruct (g p); simpl; auto.
    - intros k Hk. pose proof (H (S k) ltac:(simpl; lia)) as HS. simpl in HS. rewrite HS. do 2 f_equal. lia. }
  apply G. auto.
Qed.

(** The sequence succeeds exactly if no write is out of range; the size never changes. *)
Theorem C11_no_failure_in_range : forall (V L : Type) (vzero : V) (vadd : V -> V -> V) (ne0 : V -> bool) n (ops : list (dop (V:=V) (L:=L))),
  (forall o, In o ops -> flagOp0 o) ->
  (forall w, In w (writes vzero vadd ne0 n [] ops) -> fst w < n) ->
  exists h, drun vzero vadd ne0 [] (New n :: ops) = Some h.
Proof.
  intros V L vzero vadd ne0 n ops F W.
  change (exists h, drun vzero vadd ne0 [Some (mkObj (repeat false n) 0 [])] ops = Some h).
  rewrite run0 by auto. simpl. rewrite repeat_length.
  destruct (foldM_write_ok (writes vzero vadd ne0 n [] ops) (repeat false n)) as [f ->]; eauto.
  intros. rewrite repeat_length. auto.
Qed.
Print Assumptions C11_flags_reflect_history.

Example C11_example :
  match drun 0 Nat.add (fun x => negb (x =? 0)) []
     [New 4; Fix 0 [(0, true); (3, true); (0, false)]; SetSingle 0 2 true; StoreIDBC 0 (fun lam i => if i =? 1 then lam else 0) 2; SetSingleMulti 0 3 false] with
  | Some h => map (isConstrainedObj h 0) [0; 1; 2; 3; 4] = [Some false; Some true; Some true; Some false; None] /\ fixedSize h 0 = Some 2
  | None => False
  end.
Proof. vm_compute. auto. Qed.

(** * C12 *)

(** The backend of a copy still points to the flags of the original: fixing a dof of the copy (object 1) constrains the
    original (object 0) and leaves the copy unchanged. *)
Theorem C12_copy_aliases_refuted : exists h0 h1,
  drun 0 Nat.add (fun x => negb (x =? 0)) [] [New 2; Copy (L:=nat) 0] = Some h0 /\
  dstep 0 Nat.add (fun x => negb (x =? 0)) h0 (Fix 1 [(0, true)]) = Some h1 /\
  isConstrainedObj h0 0 0 = Some false /\ isConstrainedObj h1 0 0 = Some true /\ isConstrainedObj h1 1 0 = Some false.
Proof. eexists _, _. split; [reflexivity|]. split; [reflexivity|]. repeat split. Qed.

(** A copy starts with the contents of its original: the same flags, sizes and prescribed values; the original is unchanged. *)
Theorem C12_copy_contents : forall (V L : Type) (vzero : V) (vadd : V -> V -> V) (ne0 : V -> bool) (h h' : heap (V:=V) (L:=L)) i x,
  getObj h i = Some x -> dstep vzero vadd ne0 h (Copy i) = Some h' ->
  getObj h' i = Some x /\
  dofSize h' (length h) = dofSize h i /\ fixedSize h' (length h) = fixedSize h i /\
  (forall k, isConstrainedObj h' (length h) k = isConstrainedObj h i k) /\
  exists y, getObj h' (length h) = Some y /\ forall n lam, evaluateIDBC vzero vadd n (o_funs y) lam = evaluateIDBC vzero vadd n (o_funs x) lam.
Proof.
  intros V L vzero vadd ne0 h h' i x G E. unfold dstep in E. rewrite G in E. simpl in E. injection E as <-.
  assert (getObj (h ++ [Some (mkObj (o_flags x) (o_backend x) (o_funs x))]) (length h) = Some (mkObj (o_flags x) (o_backend x) (o_funs x))) as N.
  { unfold getObj. rewrite nth_error_app2, Nat.sub_diag by lia. reflexivity. }
  assert (getObj (h ++ [Some (mkObj (o_flags x) (o_backend x) (o_funs x))]) i = Some x) as M.
  { unfold getObj in *. destruct (nth_error h i) eqn:F; try discriminate. rewrite nth_error_app1, F; auto. apply nth_error_Some. congruence. }
  split; [exact M|]. unfold dofSize, fixedSize, isConstrainedObj. rewrite N, G. repeat split. eexists. split; [reflexivity|]. auto.
Qed.
Print Assumptions C12_copy_contents.

(** After the original is destroyed, fixing a dof of the copy is undefined behaviour. *)
Theorem C12_dangling_refuted : exists h,
  drun 0 Nat.add (fun x => negb (x =? 0)) [] [New 2; Copy (L:=nat) 0; Destroy 0] = Some h /\
  dstep 0 Nat.add (fun x => negb (x =? 0)) h (Fix 1 [(0, true)]) = None /\ isConstrainedObj h 1 0 = Some false.
Proof. eexists. split; [reflexivity|]. split; reflexivity. Qed.

(** What does hold: an operation changes at most the object it is called on and the object its backend points to. *)
Theorem C12_frame_partial : forall (V L : Type) (vzero : V) (vadd : V -> V -> V) (ne0 : V -> bool) (h h' : heap (V:=V) (L:=L)) o j x,
  dstep vzero vadd ne0 h o = Some h' -> getObj h j = Some x -> target o <> Some j ->
  (~ direct o -> forall i y, target o = Some i -> getObj h i = Some y -> o_backend y <> j) ->
  getObj h' j = Some x.
Proof. exact @step_frame. Qed.

(** In particular operations by plain index (setSingleDOF(size_t), reset, storeInhomogeneousBoundaryCondition)
    on other objects never change an object, for every history. *)
Theorem C12_direct_operations_independent_partial : forall (V L : Type) (vzero : V) (vadd : V -> V -> V) (ne0 : V -> bool) ops (h h' : heap (V:=V) (L:=L)) j x,
  (forall o, In o ops -> direct o /\ target o <> Some j) ->
  drun vzero vadd ne0 h ops = Some h' -> getObj h j = Some x -> getObj h' j = Some x.
Proof.
  intros V L vzero vadd ne0 ops. induction ops as [|o ops IH]; intros h h' j x D R G; unfold drun in R; simpl in R.
  - inversion R; subst; auto.
  - destruct (dstep vzero vadd ne0 h o) as [h1|] eqn:E; try discriminate.
    apply (IH h1 h'); auto. { intros; apply D; simpl; auto. }
    destruct (D o (or_introl eq_refl)) as [D1 D2]. eapply step_frame; eauto; tauto.
Qed.
Print Assumptions C12_direct_operations_independent_partial.

Example C12_example : exists h, drun 0 Nat.add (fun x => negb (x =? 0)) [] [New 2; Copy (L:=nat) 0; SetSingle 1 0 true; ResetAll 1; SetSingle 1 1 true] = Some h /\
  map (isConstrainedObj h 0) [0; 1] = [Some false; Some false] /\ map (isConstrainedObj h 1) [0; 1] = [Some false; Some true].
Proof. eexists. split; [reflexivity|]. split; reflexivity. Qed.

(** * C13 *)

(** A dof prescribed to [lambda * 5]: unloading to lambda = 0 leaves the value 5 in the solution. *)
Theorem C13_zero_value_refuted : exists (fs : list (bfun (V:=Z) (L:=Z))) x y,
  syncSolution 0%Z Z.add (fun z => negb (Z.eqb z 0)) fs 2 1%Z [0; 0]%Z = Some x /\
  syncSolution 0%Z Z.add (fun z => negb (Z.eqb z 0)) fs 2 0%Z x = Some y /\
  nth_error x 0 = Some 5%Z /\ prescribed 0%Z Z.add fs 0%Z 0 = 0%Z /\ nth_error y 0 = Some 5%Z.
Proof. exists [fun lam i => if i =? 0 then (5 * lam)%Z else 0%Z]. eexists _, _. split; [reflexivity|]. repeat split. Qed.

(** Synchronisation writes exactly the prescribed values that differ from zero and leaves all other entries. *)
Theorem C13_sync_partial : forall (V L : Type) (vzero : V) (vadd : V -> V -> V) (ne0 : V -> bool) (fs : list (bfun (V:=V) (L:=L))) n lam x,
  length x = n ->
  exists y, syncSolution vzero vadd ne0 fs n lam x = Some y /\ length y = n /\
    (forall i, i < n -> ne0 (prescribed vzero vadd fs lam i) = true -> nth_error y i = Some (prescribed vzero vadd fs lam i)) /\
    (forall i, i < n -> ne0 (prescribed vzero vadd fs lam i) = false -> nth_error y i = nth_error x i).
Proof. intros. apply sync_spec; auto. Qed.

(** One solver update with a reduced correction [b]: prescribed non-zero values are exact, the remaining free dofs get the plain
    correction, the remaining constrained dofs get zero added. *)
Theorem C13_reduced_update_partial : forall (V L : Type) (vzero : V) (vadd : V -> V -> V) (ne0 : V -> bool) flags (fs : list (bfun (V:=V) (L:=L))) lam x b,
  length x = length flags -> length b = nFree flags ->
  exists y, updateAndSync vzero vadd ne0 flags fs Reduced lam x b = Some y /\ length y = length flags /\
    (forall i, i < length flags -> ne0 (prescribed vzero vadd fs lam i) = true -> nth_error y i = Some (prescribed vzero vadd fs lam i)) /\
    (forall i p, free flags i -> ne0 (prescribed vzero vadd fs lam i) = false -> nth_error x i = Some p ->
       exists c, nth_error b (rank flags i) = Some c /\ nth_error y i = Some (vadd p c)) /\
    (forall i p, constrained flags i -> ne0 (prescribed vzero vadd fs lam i) = false -> nth_error x i = Some p ->
       nth_error y i = Some (vadd p vzero)).
Proof.
  intros V L vzero vadd ne0 flags fs lam x b Lx Lb. rewrite <- reducedSize_nFree in Lb.
  destruct (createFullVector_spec vzero flags b Lb) as [v [E1 [E2 [E3 E4]]]].
  destruct (vplus_spec vadd x v) as [x' [F1 [F2 F3]]]; [congruence|].
  destruct (sync_spec vzero vadd ne0 (length flags) fs lam x') as [y [G1 [G2 [G3 G4]]]]; [congruence|].
  exists y. unfold updateAndSync, updateSolution. rewrite Lb, Nat.eqb_refl. simpl. rewrite E1, F1. split; auto. split; auto. split; auto.
  split; intros i p Hi Z Hp.
  - assert (i < length flags) as Li by (apply free_lt; auto). rewrite G4, F3, Hp, E4 by auto. 
    assert (rank flags i < length b) as Lr by (rewrite Lb; apply rk_lt; auto).
    destruct (nth_error_ex b _ Lr) as [c Hc]. exists c. split; auto. unfold rank in Hc. unfold rk. rewrite Hc. auto.
  - assert (i < length flags) as Li by (eapply nth_error_lt; exact Hi). rewrite G4, F3, Hp, E3 by auto. auto.
Qed.

Lemma restrict_all {A} flags (v : list A) : length v = length flags -> nFree flags = length flags -> restrict flags v = v.
Proof.
  revert v. induction flags as [|b flags IH]; intros [|x v] Lv N; try discriminate; auto. simpl in Lv.
  unfold nFree in *. destruct b; simpl in N.
  - pose proof (count_occ_bound bool_dec false flags). lia.
  - simpl. rewrite IH; auto; lia.
Qed.

(** The same for a full correction, whether or not any dof is constrained. *)
Theorem C13_full_update_partial : forall (V L : Type) (vzero : V) (vadd : V -> V -> V) (ne0 : V -> bool) flags (fs : list (bfun (V:=V) (L:=L))) opt lam x b,
  opt <> Reduced -> length x = length flags -> length b = length flags ->
  exists y, updateAndSync vzero vadd ne0 flags fs opt lam x b = Some y /\ length y = length flags /\
    (forall i, i < length flags -> ne0 (prescribed vzero vadd fs lam i) = true -> nth_error y i = Some (prescribed vzero vadd fs lam i)) /\
    (forall i p c, i < length flags -> ne0 (prescribed vzero vadd fs lam i) = false -> nth_error x i = Some p -> nth_error b i = Some c ->
       nth_error y i = Some (vadd p c)).
Proof.
  intros V L vzero vadd ne0 flags fs opt lam x b Op Lx Lb.
  destruct (vplus_spec vadd x b) as [x' [F1 [F2 F3]]]; [congruence|].
  destruct (sync_spec vzero vadd ne0 (length flags) fs lam x') as [y [G1 [G2 [G3 G4]]]]; [congruence|].
  assert (updateSolution vzero vadd flags opt x b = Some x') as U.
  { unfold updateSolution. replace (match opt with Reduced => true | _ => false end) with false by (destruct opt; congruence).
    cbn [andb]. rewrite Lx. destruct (reducedSize flags =? length flags) eqn:NR; cbn [andb]; auto. unfold size. rewrite Lb, Nat.eqb_refl.
    rewrite createReducedVector_spec, restrict_all; auto. apply Nat.eqb_eq in NR. rewrite reducedSize_nFree in NR. auto. }
  exists y. unfold updateAndSync. rewrite U. split; auto. split; auto. split; auto.
  intros i p c Hi Z Hp Hc. rewrite G4, F3, Hp, Hc by auto. auto.
Qed.
Print Assumptions C13_reduced_update_partial.

Example C13_example :
  updateAndSync 0%Z Z.add (fun z => negb (Z.eqb z 0)) [true; false; true] [fun lam i => if i =? 0 then (5 * lam)%Z else 0%Z] Reduced 2%Z [1; 2; 3]%Z [7]%Z
  = Some [10; 9; 3]%Z.
Proof. reflexivity. Qed.

(** The increment of the prescribed displacements for a load increment: what synchronisation would change *)
Theorem C13_increment_partial : forall (V L : Type) (vzero : V) (vadd vminus : V -> V -> V) (lplus : L -> L -> L) (ne0 : V -> bool) (fs : list (bfun (V:=V) (L:=L))) n lam dlam x,
  length x = n ->
  exists d, idbcIncrement vzero vadd ne0 lplus vminus fs n lam dlam x = Some d /\ length d = n /\
    (forall i p, nth_error x i = Some p -> ne0 (prescribed vzero vadd fs (lplus lam dlam) i) = true ->
       nth_error d i = Some (vminus (prescribed vzero vadd fs (lplus lam dlam) i) p)) /\
    (forall i p, nth_error x i = Some p -> ne0 (prescribed vzero vadd fs (lplus lam dlam) i) = false -> nth_error d i = Some (vminus p p)).
Proof.
  intros V L vzero vadd vminus lplus ne0 fs n lam dlam x Lx.
  destruct (C13_sync_partial V L vzero vadd ne0 fs n (lplus lam dlam) x Lx) as (y & Ey & Ly & H1 & H2).
  unfold idbcIncrement. rewrite Ey. cbn [option_map]. eexists. split; [reflexivity|]. split; [rewrite map_length, combine_length, Ly, Lx; apply Nat.min_id|].
  assert (Q : forall i p q, nth_error x i = Some p -> nth_error y i = Some q -> nth_error (map (fun p => vminus (fst p) (snd p)) (combine y x)) i = Some (vminus q p)).
  { clear. intros i p q. revert x y. induction i as [|i IH]; intros [|a x] [|b y]; cbn; try discriminate; auto. congruence. }
  split; intros i p Hp E; assert (Hi : i < n) by (rewrite <- Lx; apply nth_error_Some; congruence).
  - apply Q; auto.
  - apply Q; auto. rewrite (H2 i Hi E). exact Hp.
Qed.
Print Assumptions C13_increment_partial.
