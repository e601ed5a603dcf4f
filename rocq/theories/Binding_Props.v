(** Properties C09 and C10: binding and manipulators. *)

From Coq Require Import List Arith Bool.
From Verif Require Import Assembler_Model Assembler_Spec Assembler_Proofs AssemblerSparse_Proofs AssemblerHistory_Proofs Binding_Model Binding_Spec Binding_Proofs.
Import ListNotations.

(** * C09 *)

(** The requests without (all) arguments, and what they need. *)
Theorem C09_unbound_throws : forall (V Ref RV AF : Type) (vzero vone : V) (vadd vmul : V -> V -> V) flags (els : list (element (RV * AF)))
    (h : history V Ref RV AF) s hp,
  run vzero vone vadd vmul flags els (freshAsm vzero) h = Some s ->
  (lastReq h = None \/ lastAff h = None ->
     step vzero vone vadd vmul flags els hp s AskScalar = Some (s, Throw) /\
     (forall d, step vzero vone vadd vmul flags els hp s (AskVectorO d) = Some (s, Throw)) /\
     (forall d, step vzero vone vadd vmul flags els hp s (AskMatrixO d) = Some (s, Throw))) /\
  (lastReq h = None \/ lastAff h = None \/ lastOpt h = None ->
     step vzero vone vadd vmul flags els hp s AskVector = Some (s, Throw) /\
     step vzero vone vadd vmul flags els hp s AskMatrix = Some (s, Throw) /\
     step vzero vone vadd vmul flags els hp s AskBound = Some (s, Throw)).
Proof.
  intros V Ref RV AF vzero vone vadd vmul flags els h s hp H. apply run_effect in H as [H1 [H2 [H3 _]]]. simpl in *.
  assert (a_req s = lastReq h) as R by (rewrite H1; destruct (lastReq h); auto).
  assert (a_aff s = lastAff h) as A by (rewrite H2; destruct (lastAff h); auto).
  assert (a_opt s = lastOpt h) as O by (rewrite H3; destruct (lastOpt h); auto).
  rewrite R, A, O. split; intro K.
  - destruct K as [-> | ->]; repeat split; destruct (lastReq h); auto.
  - destruct K as [-> | [-> | ->]]; repeat split; destruct (lastReq h), (lastAff h), (lastOpt h); auto.
Qed.

(** Once bound, the request is the explicit request with the arguments bound last, evaluated with the current contents
    of the bound requirement object. *)
Theorem C09_bound_is_explicit : forall (V Ref RV AF : Type) (vzero vone : V) (vadd vmul : V -> V -> V) flags (els : list (element (RV * AF)))
    (h : history V Ref RV AF) s hp r a,
  run vzero vone vadd vmul flags els (freshAsm vzero) h = Some s ->
  lastReq h = Some r -> lastAff h = Some a ->
  step vzero vone vadd vmul flags els hp s AskScalar = step vzero vone vadd vmul flags els hp s (XScalar r (sAff a)) /\
  (forall d, step vzero vone vadd vmul flags els hp s (AskVectorO d) = step vzero vone vadd vmul flags els hp s (XVector r (vAff a) d)) /\
  (forall d, step vzero vone vadd vmul flags els hp s (AskMatrixO d) = step vzero vone vadd vmul flags els hp s (XMatrix r (mAff a) d)) /\
  (forall d, lastOpt h = Some d ->
     step vzero vone vadd vmul flags els hp s AskVector = step vzero vone vadd vmul flags els hp s (XVector r (vAff a) d) /\
     step vzero vone vadd vmul flags els hp s AskMatrix = step vzero vone vadd vmul flags els hp s (XMatrix r (mAff a) d) /\
     step vzero vone vadd vmul flags els hp s AskBound = Some (s, IsBound true)).
Proof.
  intros V Ref RV AF vzero vone vadd vmul flags els h s hp r a H Hr Ha. apply run_effect in H as [H1 [H2 [H3 _]]].
  rewrite Hr in H1. rewrite Ha in H2. simpl. rewrite H1, H2. repeat split; auto; rewrite H in H3; rewrite H3; auto.
Qed.

(** bound() never answers false: it answers true or throws. *)
Theorem C09_bound_query_never_false : forall (V Ref RV AF : Type) (vzero vone : V) (vadd vmul : V -> V -> V) flags (els : list (element (RV * AF)))
    hp (s s' : asm V Ref RV AF), step vzero vone vadd vmul flags els hp s AskBound <> Some (s', IsBound false).
Proof.
  intros. simpl. destruct (a_req s), (a_aff s), (a_opt s); congruence.
Qed.
Print Assumptions C09_unbound_throws.
Print Assumptions C09_bound_is_explicit.

(** * Concrete assembler for the examples: requirement objects are numbered, their contents are numbers. *)
Definition bar (a b : nat) : element (V:=nat) (nat * nat) :=
  {| dofs := [a; b]; escal := fun q => fst q + snd q; evec := fun q => [fst q; snd q];
     emat := fun q => [fst q; snd q; 1; 2] |}.
Definition bMesh := [bar 0 1; bar 1 2].
Definition bFlags := [true; false; false].
Definition aff1 : affs (AF:=nat) := mkAffs 1 2 3.
Definition aff2 : affs (AF:=nat) := mkAffs 4 5 6.
Notation bRun := (run (Ref:=nat) 0 1 Nat.add Nat.mul bFlags bMesh).
Notation bStep := (step (Ref:=nat) 0 1 Nat.add Nat.mul bFlags bMesh).

Example C09_example :
  match bRun (freshAsm 0) [(id, BindReq 10); (id, AskScalar); (id, BindAff aff1); (id, BindReq 20); (id, BindAff aff2)] with
  | Some s => option_map snd (bStep S s (AskVectorO Raw)) = Some (Data (OVector [21; 26; 5])) /\
              option_map snd (bStep S s AskVector) = Some Throw
  | None => False
  end.
Proof. vm_compute. auto. Qed.

(** * C10 *)

(** After any history of a manipulator (made from an assembler that has itself been used before), a request returns the
    result of a fresh base assembler, transformed by the callbacks registered so far, oldest first. *)
Theorem C10_callbacks_in_order : forall (V Ref RV AF : Type) (vzero vone : V) (vadd vmul : V -> V -> V) flags (els : list (element (RV * AF)))
    (h0 h : history V Ref RV AF) s0 s hp,
  (forall f, In f (mCalls h0) \/ In f (mCalls h) -> keepsPattern f) ->
  run vzero vone vadd vmul flags els (freshAsm vzero) h0 = Some s0 ->
  run vzero vone vadd vmul flags els (makeManipulator s0) h = Some s ->
  (forall r a x s1, spStep vzero vone vadd vmul flags els (spInit vzero) (RScalar (hp r, a)) = Some (s1, OScalar x) ->
     option_map snd (step vzero vone vadd vmul flags els hp s (XScalar r a)) =
     Some (Data (OScalar (fold_left (fun x f => f (hp r, a) x) (sCalls h) x)))) /\
  (forall r a d v s1, spStep vzero vone vadd vmul flags els (spInit vzero) (RVector d (hp r, a)) = Some (s1, OVector v) ->
     option_map snd (step vzero vone vadd vmul flags els hp s (XVector r a d)) =
     Some (Data (OVector (fold_left (fun v f => f (hp r, a) d v) (vCalls h) v)))) /\
  (forall r a d m s1, spStep vzero vone vadd vmul flags els (spInit vzero) (RMatrix d (hp r, a)) = Some (s1, OSparse m) ->
     option_map snd (step vzero vone vadd vmul flags els hp s (XMatrix r a d)) =
     Some (Data (OSparse (fold_left (fun m f => f (hp r, a) d m) (mCalls h) m)))).
Proof.
  intros V Ref RV AF vzero vone vadd vmul flags els h0 h s0 s hp K H0 H.
  assert (Ok vzero flags els s) as O.
  { eapply run_Ok; [|intros f Hf; apply K; right; exact Hf|exact H]. apply manipulator_Ok.
    eapply run_Ok; [apply fresh_Ok|intros f Hf; apply K; left; exact Hf|exact H0]. }
  apply run_effect in H as [_ [_ [_ [H4 [H5 H6]]]]]. simpl in H4, H5, H6.
  repeat split; intros; cbn [step]; rewrite (request_value vzero vone vadd vmul flags els s _ O); rewrite H; simpl; rewrite ?H4, ?H5, ?H6; auto.
Qed.

(** A manipulator starts with whatever was bound to the assembler it was made from: its requests without arguments are the
    explicit requests with the arguments bound last, before or after it was made, and throw if there are none. *)
Theorem C10_keeps_binding : forall (V Ref RV AF : Type) (vzero vone : V) (vadd vmul : V -> V -> V) flags (els : list (element (RV * AF)))
    (h0 h : history V Ref RV AF) s0 s hp,
  run vzero vone vadd vmul flags els (freshAsm vzero) h0 = Some s0 ->
  run vzero vone vadd vmul flags els (makeManipulator s0) h = Some s ->
  (forall r a, lastReq (h0 ++ h) = Some r -> lastAff (h0 ++ h) = Some a ->
     step vzero vone vadd vmul flags els hp s AskScalar = step vzero vone vadd vmul flags els hp s (XScalar r (sAff a)) /\
     (forall d, step vzero vone vadd vmul flags els hp s (AskVectorO d) = step vzero vone vadd vmul flags els hp s (XVector r (vAff a) d)) /\
     (forall d, step vzero vone vadd vmul flags els hp s (AskMatrixO d) = step vzero vone vadd vmul flags els hp s (XMatrix r (mAff a) d)) /\
     (forall d, lastOpt (h0 ++ h) = Some d ->
        step vzero vone vadd vmul flags els hp s AskVector = step vzero vone vadd vmul flags els hp s (XVector r (vAff a) d) /\
        step vzero vone vadd vmul flags els hp s AskMatrix = step vzero vone vadd vmul flags els hp s (XMatrix r (mAff a) d))) /\
  (lastReq (h0 ++ h) = None \/ lastAff (h0 ++ h) = None ->
     step vzero vone vadd vmul flags els hp s AskScalar = Some (s, Throw)) /\
  (lastReq (h0 ++ h) = None \/ lastAff (h0 ++ h) = None \/ lastOpt (h0 ++ h) = None ->
     step vzero vone vadd vmul flags els hp s AskVector = Some (s, Throw) /\
     step vzero vone vadd vmul flags els hp s AskMatrix = Some (s, Throw)).
Proof.
  intros V Ref RV AF vzero vone vadd vmul flags els h0 h s0 s hp H0 H.
  apply run_effect in H0 as [P1 [P2 [P3 _]]]. apply run_effect in H as [H1 [H2 [H3 _]]]. simpl in P1, P2, P3, H1, H2, H3.
  assert (a_req s = lastReq (h0 ++ h)) as R.
  { rewrite H1, P1. unfold lastReq. rewrite flat_map_app, lastOf_app. destruct (lastOf (flat_map (fun x => reqOf (snd x)) h)); auto.
    destruct (lastOf (flat_map (fun x => reqOf (snd x)) h0)); auto. }
  assert (a_aff s = lastAff (h0 ++ h)) as A.
  { rewrite H2, P2. unfold lastAff. rewrite flat_map_app, lastOf_app. destruct (lastOf (flat_map (fun x => affOf (snd x)) h)); auto.
    destruct (lastOf (flat_map (fun x => affOf (snd x)) h0)); auto. }
  assert (a_opt s = lastOpt (h0 ++ h)) as O.
  { rewrite H3, P3. unfold lastOpt. rewrite flat_map_app, lastOf_app. destruct (lastOf (flat_map (fun x => optOf (snd x)) h)); auto.
    destruct (lastOf (flat_map (fun x => optOf (snd x)) h0)); auto. }
  simpl. rewrite R, A, O. split; [|split].
  - intros r a Hr Ha. rewrite Hr, Ha. split; [auto|]. split; [auto|]. split; [auto|]. intros d ->. auto.
  - intros [-> | ->]; auto. destruct (lastReq (h0 ++ h)); auto.
  - intros [-> | [-> | ->]]; repeat split; destruct (lastReq (h0 ++ h)), (lastAff (h0 ++ h)), (lastOpt (h0 ++ h)); auto.
Qed.

(** The original assembler, used side by side with the manipulator, answers as if it were used alone. *)
Theorem C10_original_unchanged : forall (V Ref RV AF : Type) (vzero vone : V) (vadd vmul : V -> V -> V) flags (els : list (element (RV * AF)))
    (h : list (bool * ((Ref -> RV) * op V Ref RV AF))) orig orig' man' xs,
  run2 vzero vone vadd vmul flags els orig (makeManipulator orig) h = Some (orig', man', xs) ->
  outcomes vzero vone vadd vmul flags els orig (map snd (filter (fun x => negb (fst x)) h)) = Some xs.
Proof. intros. eapply run2_orig; eauto. Qed.

(** A callback that changes the sparsity pattern, e.g. by calling setZero() on the sparse matrix, which removes all stored
    entries, breaks the next request: the cached slots point outside the value array. *)
Definition clearAll : mcb (V:=nat) (RV:=nat) (AF:=nat) := fun _ _ m => mkSparse (srows m) (scols m) (repeat 0 (S (scols m))) [] [].

Theorem C10_pattern_change_refuted : exists s,
  bRun (makeManipulator (freshAsm 0)) [(id, BindM clearAll); (id, XMatrix 1 1 Raw)] = Some s /\
  bStep id s (XMatrix 1 1 Raw) = None /\
  exists s1 m, spStep 0 1 Nat.add Nat.mul bFlags bMesh (spInit 0) (RMatrix Raw (1, 1)) = Some (s1, OSparse m).
Proof.
  eexists; split; [vm_compute; reflexivity|]. split; [vm_compute; reflexivity|]. eexists _, _. vm_compute; reflexivity.
Qed.
Print Assumptions C10_callbacks_in_order.
Print Assumptions C10_keeps_binding.
Print Assumptions C10_original_unchanged.
Print Assumptions C10_pattern_change_refuted.

(** Non-vacuity: two callbacks that do not commute, and a request in between. *)
Definition dbl : vcb (V:=nat) (RV:=nat) (AF:=nat) := fun _ _ v => map (fun x => 2 * x) v.
Definition inc : vcb (V:=nat) (RV:=nat) (AF:=nat) := fun _ _ v => map S v.
Definition addDiag : mcb (V:=nat) (RV:=nat) (AF:=nat) := fun q _ m => with_vals m (map (fun x => fst q + x) (svals m)).

Lemma addDiag_keeps : keepsPattern addDiag.
Proof. intros q d m. unfold addDiag. simpl. rewrite map_length. repeat split. Qed.

Example C10_example :
  match bRun (makeManipulator (freshAsm 0)) [(id, BindV dbl); (id, XVector 3 4 Raw); (id, BindM addDiag); (id, XMatrix 3 4 Full); (id, BindV inc)] with
  | Some s => option_map snd (bStep id s (XVector 3 4 Raw)) = Some (Data (OVector [7; 15; 9]))
  | None => False
  end.
Proof. vm_compute. reflexivity. Qed.

(** Arguments bound before the manipulator was made, one of them rebound afterwards. *)
Example C10_binding_example :
  match bRun (freshAsm 0) [(id, BindReq 10); (id, BindAff aff1)] with
  | Some s0 => match bRun (makeManipulator s0) [(id, BindAff aff2)] with
               | Some s => option_map snd (bStep id s (AskVectorO Raw)) = Some (Data (OVector [10; 15; 5]))
               | None => False
               end
  | None => False
  end.
Proof. vm_compute. reflexivity. Qed.
