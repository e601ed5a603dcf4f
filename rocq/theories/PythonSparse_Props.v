(** C138: sparse matrices in Python callbacks. *)

From Coq Require Import List Arith Bool Lia.
From Verif Require Import Assembler_Model Assembler_Spec Assembler_Proofs AssemblerSparse_Proofs Binding_Model Binding_Proofs Binding_Props PythonSparse_Model.
Import ListNotations.

Lemma replaceAt_length {A} p (a : A) l : length (replaceAt p a l) = length l.
Proof. revert p. induction l as [|x l IH]; intros [|p]; cbn; auto. Qed.
Lemma replaceAt_nth {A} p (a : A) l q : p < length l -> nth_error (replaceAt p a l) q = if q =? p then Some a else nth_error l q.
Proof.
  revert p q. induction l as [|x l IH]; intros [|p] [|q] H; cbn in *; try lia; auto. apply IH. lia.
Qed.

Section Stored.
Context {V : Type}.
Variable vzero : V.

(** Stored entries: reading changes nothing and gives the entry, writing changes this entry only; the pattern stays *)
Theorem C138_stored : forall (m : sparse (V:=V)) n r c p, wfPattern m n -> r < n -> c < n -> isSlot m r c p ->
  (exists x, getItem vzero m r c = Some (m, x) /\ sget vzero m r c = Some x) /\
  forall x, exists m', setItem vzero m r c x = Some m' /\ souter m' = souter m /\ sinner m' = sinner m /\
    length (svals m') = length (svals m) /\ srows m' = srows m /\ scols m' = scols m /\
    forall r' c', r' < n -> c' < n -> sget vzero m' r' c' = if (r' =? r) && (c' =? c) then Some x else sget vzero m r' c'.
Proof.
  intros m n r c p W Hr Hc H.
  assert (CR : coeffRef vzero m r c = Some (m, p)).
  { unfold coeffRef. rewrite (wf_rows _ _ W), (wf_cols _ _ W), (proj2 (Nat.ltb_lt _ _) Hr), (proj2 (Nat.ltb_lt _ _) Hc). cbn [andb].
    unfold findSlot. now rewrite (find_slot vzero (fun a _ => a) (fun a _ => a) m n r c p W H). }
  assert (L := isSlot_range m n r c p W H).
  split.
  - unfold getItem. rewrite CR. rewrite (sget_slot vzero (fun a _ => a) (fun a _ => a) m n r c p W Hr Hc H).
    destruct (nth_error (svals m) p) as [x|] eqn:E; [eauto|]. apply nth_error_None in E. lia.
  - intros x. unfold setItem. rewrite CR. eexists. split; [reflexivity|]. cbn [with_vals souter sinner svals srows scols].
    rewrite replaceAt_length. do 5 (split; [reflexivity|]). intros r' c' Hr' Hc'.
    set (m' := with_vals m (replaceAt p x (svals m))).
    assert (W' : wfPattern m' n).
    { destruct W. constructor; cbn; auto. now rewrite replaceAt_length. }
    assert (SI : forall p', isSlot m' r' c' p' <-> isSlot m r' c' p') by (intros; reflexivity).
    assert (D : (exists p', isSlot m r' c' p') \/ forall p', ~ isSlot m r' c' p').
    { destruct (find (fun p => match nth_error (sinner m) p with Some r => r =? r' | None => false end) (slots m c')) as [p'|] eqn:E.
      - left. apply find_some in E as (I & E). destruct (nth_error (sinner m) p') as [r0|] eqn:N; [|discriminate]. apply Nat.eqb_eq in E. subst r0.
        exists p'. now apply (slots_in vzero (fun a _ => a) (fun a _ => a)).
      - right. intros p' S. assert (S' := S). destruct S' as (s & t & _ & _ & _ & N).
        apply (slots_in vzero (fun a _ => a) (fun a _ => a) m r' c' p' N) in S. assert (F := find_none _ _ E p' S). cbn in F. rewrite N, Nat.eqb_refl in F. discriminate. }
    destruct D as [(p' & S) | S].
    + rewrite (sget_slot vzero (fun a _ => a) (fun a _ => a) m' n r' c' p' W' Hr' Hc' (proj2 (SI p') S)), (sget_slot vzero (fun a _ => a) (fun a _ => a) m n r' c' p' W Hr' Hc' S).
      cbn [m' with_vals svals]. rewrite replaceAt_nth by exact L.
      destruct (p' =? p) eqn:E.
      * apply Nat.eqb_eq in E. subst p'. destruct (isSlot_inj m n r c r' c' p W H S) as (<- & <-). now rewrite !Nat.eqb_refl.
      * destruct ((r' =? r) && (c' =? c)) eqn:F; [|reflexivity]. apply andb_prop in F as (F1 & F2).
        apply Nat.eqb_eq in F1, F2. subst r' c'. rewrite (isSlot_fun m n r c p p' W H S), Nat.eqb_refl in E. discriminate.
    + rewrite (sget_no_slot vzero (fun a _ => a) (fun a _ => a) m' n r' c' W' Hr' Hc'), (sget_no_slot vzero (fun a _ => a) (fun a _ => a) m n r' c' W Hr' Hc') by exact S.
      destruct ((r' =? r) && (c' =? c)) eqn:F; [|reflexivity]. apply andb_prop in F as (F1 & F2).
      apply Nat.eqb_eq in F1, F2. subst r' c'. destruct (S p H).
Qed.
End Stored.
Print Assumptions C138_stored.

(** The matrix of two bars has no entry (0, 2) *)
Theorem C138_refuted : exists s m x,
  (* without the callback: the matrix is the same each time *)
  (exists s1, bRun (makeManipulator (freshAsm 0)) [(id, XMatrix 1 1 Raw)] = Some s1 /\
     option_map snd (bStep id s1 (XMatrix 1 1 Raw)) = Some (Data (OSparse m))) /\
  (* looking at entry (0, 2) gives zero and leaves all entries as they are *)
  getItem 0 m 0 2 = Some (looksAt 0 (RV:=nat) (AF:=nat) 0 2 (1, 1) Raw m, 0) /\
  (forall r c, r < 3 -> c < 3 -> sget 0 (looksAt 0 (RV:=nat) (AF:=nat) 0 2 (1, 1) Raw m) r c = sget 0 m r c) /\
  (* but the next matrix is another one *)
  bRun (makeManipulator (freshAsm 0)) [(id, BindM (looksAt 0 0 2)); (id, XMatrix 1 1 Raw)] = Some s /\
  option_map snd (bStep id s (XMatrix 1 1 Raw)) = Some (Data (OSparse x)) /\ sget 0 x 2 2 <> sget 0 m 2 2.
Proof.
  eexists _, _, _. split; [eexists; split; vm_compute; reflexivity|]. split; [vm_compute; reflexivity|]. split.
  - intros r c Hr Hc. destruct r as [|[|[|r]]]; try lia; destruct c as [|[|[|c]]]; try lia; vm_compute; reflexivity.
  - split; [vm_compute; reflexivity|]. split; [vm_compute; reflexivity|]. vm_compute. discriminate.
Qed.
Print Assumptions C138_refuted.

(** A matrix with three entries; (1, 0) is stored *)
Example C138_example : exists m p, setFromTriplets 0 2 [(0, 0); (1, 0); (1, 1)] = Some m /\ wfPattern m 2 /\ isSlot m 1 0 p.
Proof.
  destruct (setFromTriplets_spec 0 2 [(0, 0); (1, 0); (1, 1)]) as (m & E & W & _ & S).
  - intros t Ht. cbn in Ht. destruct Ht as [<- | [<- | [<- | []]]]; cbn; lia.
  - destruct (proj2 (S 1 0) ltac:(cbn; auto)) as (p & H). exists m, p. auto.
Qed.
