(** The pointers of FERequirements implement values. *)

From Coq Require Import List Arith Bool Lia.
From Verif Require Import FERequirements_Model FERequirements_Spec.
Import ListNotations.

Lemma upd_same {X} (f : nat -> X) i x : upd f i x i = x.
Proof. unfold upd. now rewrite Nat.eqb_refl. Qed.
Lemma upd_other {X} (f : nat -> X) i j x : j <> i -> upd f i x j = f j.
Proof. intros H. unfold upd. destruct (Nat.eqb_spec j i); congruence. Qed.

Section Ptr.
Context {X : Type}.
Implicit Types (s : ptrs X) (v : nat -> option X).

Definition refOK s (l : nat) (a : option nat) : Prop :=
  l < next s /\ match a with Some i => ptr s i = Some l | None => heap s l = None end.

Record PR s v (refs : list nat) (arefs : list (option nat)) : Prop := {
  PR_vals : forall i, match ptr s i, v i with
                      | None, None => True
                      | Some l, Some x => heap s l = Some x /\ l < next s
                      | _, _ => False
                      end;
  PR_sep : forall i j l, ptr s i = Some l -> ptr s j = Some l -> i = j;
  PR_refs : Forall2 (refOK s) refs arefs }.

Lemma PR_ext s v v' r a : (forall i, v i = v' i) -> PR s v r a -> PR s v' r a.
Proof. intros E [A B C]. split; auto. intros i. rewrite <- E. apply A. Qed.

Lemma PR_empty : PR emptyPtrs (fun _ => None) [] [].
Proof. split; simpl; auto. intros; discriminate. Qed.

Lemma PR_null s v r a i : PR s v r a -> v i = None -> ptr s i = None.
Proof. intros [A _ _] H. specialize (A i). rewrite H in A. destruct (ptr s i); [contradiction|reflexivity]. Qed.

Lemma PR_deref s v r a i : PR s v r a ->
  match v i with None => deref s i = Null | Some x => exists l, deref s i = Found l x /\ ptr s i = Some l end.
Proof.
  intros [A _ _]. specialize (A i). unfold deref. destruct (ptr s i), (v i); try contradiction; auto.
  destruct A as [E _]. exists n. now rewrite E.
Qed.

Lemma Forall2_map_r {A B C} (P : A -> C -> Prop) (f : B -> C) l l' :
  Forall2 (fun x y => P x (f y)) l l' -> Forall2 P l (map f l').
Proof. induction 1; simpl; constructor; auto. Qed.

Lemma Forall2_imp {A B} (P Q : A -> B -> Prop) l l' : (forall x y, P x y -> Q x y) -> Forall2 P l l' -> Forall2 Q l l'.
Proof. induction 2; constructor; auto. Qed.

Lemma free_other (h : nat -> option X) l k : l <> Some k -> free h l k = h k.
Proof. intros H. destruct l; simpl; auto. apply upd_other. congruence. Qed.

Lemma free_at (h : nat -> option X) k : free h (Some k) k = None.
Proof. apply upd_same. Qed.

Lemma PR_assignNew s v r a i x : PR s v r a -> PR (assignNew s i x) (upd v i (Some x)) r (void i a).
Proof.
  intros P. destruct P as [A B C].
  assert (L : forall l, ptr s i = Some l -> l < next s).
  { intros l H. specialize (A i). rewrite H in A. destruct (v i); [apply A|contradiction]. }
  split.
  - intros j. simpl. destruct (Nat.eq_dec j i) as [->|N].
    + rewrite !upd_same. split; [|lia]. rewrite free_other, upd_same; auto. intros H. apply L in H. lia.
    + rewrite !upd_other by auto. specialize (A j). destruct (ptr s j) eqn:Ej, (v j); try contradiction; auto.
      destruct A as [E Lt]. split; [|lia]. rewrite free_other.
      * rewrite upd_other by lia. exact E.
      * intros H. apply N. eauto.
  - intros j k l. simpl. destruct (Nat.eq_dec j i) as [->|N]; destruct (Nat.eq_dec k i) as [->|M]; auto.
    + rewrite upd_same, upd_other by auto. intros E1 E2. injection E1 as <-.
      specialize (A k). rewrite E2 in A. destruct (v k); [|contradiction]. lia.
    + rewrite upd_same, upd_other by auto. intros E2 E1. injection E1 as <-.
      specialize (A j). rewrite E2 in A. destruct (v j); [|contradiction]. lia.
    + rewrite !upd_other by auto. eauto.
  - apply Forall2_map_r. revert C. apply Forall2_imp. intros l o [Lt H]. split; simpl; [lia|].
    destruct o as [j|]; simpl.
    + destruct (Nat.eqb_spec j i) as [->|N].
      * rewrite H. apply free_at.
      * now rewrite upd_other.
    + destruct (ptr s i) as [k|] eqn:E; simpl.
      * destruct (Nat.eq_dec l k) as [->|N]; [apply upd_same|]. rewrite !upd_other by lia. exact H.
      * rewrite upd_other by lia. exact H.
Qed.

Lemma PR_assignNull s v r a i : PR s v r a -> PR (assignNull s i) (upd v i None) r (void i a).
Proof.
  intros P. destruct P as [A B C]. split.
  - intros j. simpl. destruct (Nat.eq_dec j i) as [->|N].
    + now rewrite !upd_same.
    + rewrite !upd_other by auto. specialize (A j). destruct (ptr s j) eqn:Ej, (v j); try contradiction; auto.
      destruct A as [E Lt]. split; [|lia]. rewrite free_other; auto. intros H. apply N. eauto.
  - intros j k l. simpl. destruct (Nat.eq_dec j i) as [->|N]; destruct (Nat.eq_dec k i) as [->|M]; auto.
    + rewrite upd_same. discriminate.
    + rewrite (upd_same _ i). discriminate.
    + rewrite !upd_other by auto. eauto.
  - apply Forall2_map_r. revert C. apply Forall2_imp. intros l o [Lt H]. split; simpl; [lia|].
    destruct o as [j|]; simpl.
    + destruct (Nat.eqb_spec j i) as [->|N].
      * rewrite H. apply free_at.
      * now rewrite upd_other.
    + destruct (ptr s i) as [k|] eqn:E; simpl; auto.
      destruct (Nat.eq_dec l k) as [->|N]; [apply upd_same|]. rewrite !upd_other by lia. exact H.
Qed.

Lemma PR_write s v r a i l x : PR s v r a -> ptr s i = Some l -> PR (write s l x) (upd v i (Some x)) r a.
Proof.
  intros P H. destruct P as [A B C]. split; simpl; auto.
  - intros j. destruct (Nat.eq_dec j i) as [->|N].
    + rewrite H, !upd_same. split; auto. specialize (A i). rewrite H in A. destruct (v i); [apply A|contradiction].
    + rewrite upd_other by auto. specialize (A j). destruct (ptr s j) eqn:E, (v j); try contradiction; auto.
      rewrite upd_other; auto. intros ->. eauto.
  - revert C. apply Forall2_imp. intros k o [Lt K]. split; simpl; auto. destruct o; auto.
    destruct (Nat.eq_dec k l) as [->|N]; [|now rewrite upd_other].
    specialize (A i). rewrite H in A. destruct (v i); [|contradiction]. destruct A as [A _]. congruence.
Qed.

Lemma PR_take s v r a i l : PR s v r a -> ptr s i = Some l -> PR s v (r ++ [l]) (a ++ [Some i]).
Proof.
  intros P H. destruct P as [A B C]. split; auto. apply Forall2_app; auto. constructor; auto. split; auto.
  specialize (A i). rewrite H in A. destruct (v i); [apply A|contradiction].
Qed.

Lemma void_nothing s v r a i : PR s v r a -> v i = None -> void i a = a.
Proof.
  intros P H. assert (N := PR_null _ _ _ _ _ P H). destruct P as [_ _ C].
  unfold void. induction C as [|l o r a [_ K] C IH]; simpl; auto. f_equal; [|exact IH].
  destruct o as [j|]; auto. destruct (Nat.eqb_spec j i); auto. congruence.
Qed.

Lemma PR_ref s v r a k : PR s v r a ->
  match nth_error a k with
  | None => nth_error r k = None
  | Some None => exists l, nth_error r k = Some l /\ heap s l = None
  | Some (Some i) => exists l x, nth_error r k = Some l /\ ptr s i = Some l /\ heap s l = Some x /\ v i = Some x
  end.
Proof.
  intros [A B C]. revert k. induction C as [|l o r a [Lt K] C IH]; intros [|k]; simpl; auto; try apply IH.
  destruct o as [i|]; [|eauto]. specialize (A i). rewrite K in A. destruct (v i) eqn:E; [|contradiction].
  exists l, x. intuition.
Qed.
End Ptr.

Section Refine.
Context {SV PM : Type}.
Variable add : SV -> SV -> SV.
Notation prog := (prog SV PM).
Notation vals := (vals SV PM).

Definition solVal (a : vals) (i : nat) : option SV := match objs a i with Some o => o_sol o | None => None end.
Definition parVal (a : vals) (i : nat) : option PM := match objs a i with Some o => o_par o | None => None end.

Record RR (s : prog) (a : vals) : Prop := {
  RR_count : count s = made a;
  RR_alive : forall i, alive s i = match objs a i with Some _ => true | None => false end;
  RR_fresh : forall i, made a <= i -> objs a i = None;
  RR_sol : PR (sols s) (solVal a) (solRefs s) (solOf a);
  RR_par : PR (pars s) (parVal a) (parRefs s) (parOf a) }.

Lemma RR_empty : RR emptyProg noVals.
Proof. split; simpl; auto; apply PR_empty. Qed.

Definition same (x : option (prog * obs SV PM)) (y : option (vals * obs SV PM)) : Prop :=
  match x, y with
  | None, None => True
  | Some (s, b), Some (a, c) => b = c /\ RR s a
  | _, _ => False
  end.

Ltac ru := repeat (first [rewrite upd_same | rewrite upd_other by congruence]).
Ltac ext i := intros i; unfold solVal, parVal; simpl; unfold upd;
  repeat match goal with |- context [?x =? ?y] => destruct (Nat.eqb_spec x y); subst end; simpl; auto.

Lemma PR_same_par {X} (s : ptrs X) v v' r a : PR s v r a -> (forall i, v i = v' i) -> PR s v' r a.
Proof. intros; eapply PR_ext; eauto. Qed.

(** Replacing the solution of an object that is alive *)
Lemma RR_newSol s a i o v : RR s a -> objs a i = Some o ->
  RR (withSols s (assignNew (sols s) i v)) (voidSol (put a i (Some (mkObj (Some v) (o_par o)))) i).
Proof.
  intros [A B C D E] H. split; simpl; auto.
  - intros j. rewrite B. unfold upd. destruct (Nat.eqb_spec j i); subst; rewrite ?H; auto.
  - intros j L. rewrite upd_other; auto. intros ->. rewrite C in H by auto. discriminate.
  - eapply PR_ext; [|apply PR_assignNew; exact D]. ext j.
  - eapply PR_ext; [|exact E]. ext j; now rewrite H.
Qed.

Lemma RR_newPar s a i o v : RR s a -> objs a i = Some o ->
  RR (withPars s (assignNew (pars s) i v)) (voidPar (put a i (Some (mkObj (o_sol o) (Some v)))) i).
Proof.
  intros [A B C D E] H. split; simpl; auto.
  - intros j. rewrite B. unfold upd. destruct (Nat.eqb_spec j i); subst; rewrite ?H; auto.
  - intros j L. rewrite upd_other; auto. intros ->. rewrite C in H by auto. discriminate.
  - eapply PR_ext; [|exact D]. ext j; now rewrite H.
  - eapply PR_ext; [|apply PR_assignNew; exact E]. ext j.
Qed.

Lemma RR_writeSol s a i o l v : RR s a -> objs a i = Some o -> ptr (sols s) i = Some l ->
  RR (withSols s (write (sols s) l v)) (put a i (Some (mkObj (Some v) (o_par o)))).
Proof.
  intros [A B C D E] H K. split; simpl; auto.
  - intros j. rewrite B. unfold upd. destruct (Nat.eqb_spec j i); subst; rewrite ?H; auto.
  - intros j L. rewrite upd_other; auto. intros ->. rewrite C in H by auto. discriminate.
  - eapply PR_ext; [|eapply PR_write; [exact D|exact K]]. ext j.
  - eapply PR_ext; [|exact E]. ext j; now rewrite H.
Qed.

Lemma RR_writePar s a i o l v : RR s a -> objs a i = Some o -> ptr (pars s) i = Some l ->
  RR (withPars s (write (pars s) l v)) (put a i (Some (mkObj (o_sol o) (Some v)))).
Proof.
  intros [A B C D E] H K. split; simpl; auto.
  - intros j. rewrite B. unfold upd. destruct (Nat.eqb_spec j i); subst; rewrite ?H; auto.
  - intros j L. rewrite upd_other; auto. intros ->. rewrite C in H by auto. discriminate.
  - eapply PR_ext; [|exact D]. ext j; now rewrite H.
  - eapply PR_ext; [|eapply PR_write; [exact E|exact K]]. ext j.
Qed.

(** Access *)
Lemma same_sol s a i k k' : RR s a ->
  (forall l v o, objs a i = Some o -> o_sol o = Some v -> ptr (sols s) i = Some l -> same (k l v) (k' o v)) ->
  same (globalSolution s i k) (withSol a i k').
Proof.
  intros R H. unfold globalSolution, withSol. rewrite (RR_alive _ _ R).
  assert (D := PR_deref _ _ _ _ i (RR_sol _ _ R)). unfold solVal in D.
  destruct (objs a i) as [o|] eqn:E; simpl; auto.
  destruct (o_sol o) as [v|] eqn:F; simpl in D.
  - destruct D as (l & -> & P). now apply H.
  - rewrite D. simpl. auto.
Qed.

Lemma same_par s a i k k' : RR s a ->
  (forall l v o, objs a i = Some o -> o_par o = Some v -> ptr (pars s) i = Some l -> same (k l v) (k' o v)) ->
  same (parameter s i k) (withPar a i k').
Proof.
  intros R H. unfold parameter, withPar. rewrite (RR_alive _ _ R).
  assert (D := PR_deref _ _ _ _ i (RR_par _ _ R)). unfold parVal in D.
  destruct (objs a i) as [o|] eqn:E; simpl; auto.
  destruct (o_par o) as [v|] eqn:F; simpl in D.
  - destruct D as (l & -> & P). now apply H.
  - rewrite D. simpl. auto.
Qed.

Lemma same_newSol s a i v : RR s a -> same (insertGlobalSolution s i v) (newSol a i v).
Proof.
  intros R. unfold insertGlobalSolution, newSol. rewrite (RR_alive _ _ R).
  destruct (objs a i) eqn:E; simpl; auto. split; auto. now apply RR_newSol.
Qed.
Lemma same_newPar s a i v : RR s a -> same (insertParameter s i v) (newPar a i v).
Proof.
  intros R. unfold insertParameter, newPar. rewrite (RR_alive _ _ R).
  destruct (objs a i) eqn:E; simpl; auto. split; auto. now apply RR_newPar.
Qed.

Lemma copyPtr_PR {X} (s : ptrs X) v r a i j : PR s v r a ->
  exists s', copyPtr s i j = Some s' /\ PR s' (upd v i (v j)) r (void i a).
Proof.
  intros P. assert (D := PR_deref _ _ _ _ j P). unfold copyPtr. destruct (v j) as [x|].
  - destruct D as (l & -> & _). eexists; split; eauto. now apply PR_assignNew.
  - rewrite D. eexists; split; eauto. now apply PR_assignNull.
Qed.

Lemma same_step s a o : RR s a -> same (run1 add s o) (spec1 add a o).
Proof.
  intros R. assert (R' := R). destruct R' as [A B C D E].
  assert (FS : solVal a (made a) = None) by (unfold solVal; now rewrite C).
  assert (FP : parVal a (made a) = None) by (unfold parVal; now rewrite C).
  destruct o; simpl.
  - (* Default *) split; auto. split; simpl; auto.
    + intros i. rewrite A. unfold upd. destruct (Nat.eqb_spec i (made a)); auto.
    + intros i L. rewrite upd_other by lia. apply C. lia.
    + eapply PR_ext; [|exact D]. ext i.
    + eapply PR_ext; [|exact E]. ext i; now rewrite C.
  - (* Construct *) split; auto. split; simpl; auto.
    + intros i. rewrite A. unfold upd. destruct (Nat.eqb_spec i (made a)); auto.
    + intros i L. rewrite upd_other by lia. apply C. lia.
    + rewrite A, <- (void_nothing _ _ _ _ _ D FS). eapply PR_ext; [|apply PR_assignNew; exact D]. ext i.
    + rewrite A, <- (void_nothing _ _ _ _ _ E FP). eapply PR_ext; [|apply PR_assignNew; exact E]. ext i.
  - (* CopyConstruct *) unfold copyCtor. rewrite B. destruct (objs a j) as [b|] eqn:Ej; simpl; auto.
    unfold copyInto. simpl. rewrite A.
    destruct (copyPtr_PR _ _ _ _ (made a) j D) as (s1 & -> & P1).
    destruct (copyPtr_PR _ _ _ _ (made a) j E) as (s2 & -> & P2). simpl. split; auto.
    assert (NE : j <> made a) by (intros ->; rewrite C in Ej by auto; discriminate).
    split; simpl; auto.
    + intros i. rewrite A. unfold upd. destruct (Nat.eqb_spec i (made a)); auto.
    + intros i L. rewrite upd_other by lia. apply C. lia.
    + rewrite (void_nothing _ _ _ _ _ D FS) in P1. eapply PR_ext; [|exact P1]. ext i; now rewrite Ej.
    + rewrite (void_nothing _ _ _ _ _ E FP) in P2. eapply PR_ext; [|exact P2]. ext i; now rewrite Ej.
  - (* Destroy *) unfold dtor. rewrite B. destruct (objs a i) as [b|] eqn:Ei; simpl; auto. split; auto.
    split; simpl; auto.
    + intros j. unfold upd. destruct (Nat.eqb_spec j i); auto.
    + intros j L. unfold upd. destruct (Nat.eqb_spec j i); auto.
    + eapply PR_ext; [|apply PR_assignNull; exact D]. ext j.
    + eapply PR_ext; [|apply PR_assignNull; exact E]. ext j.
  - (* Assign *) unfold copyAssign. rewrite !B. destruct (objs a i) as [bi|] eqn:Ei; simpl; auto.
    destruct (objs a j) as [bj|] eqn:Ej; simpl; auto. destruct (Nat.eqb_spec i j) as [->|N]; simpl; auto.
    unfold copyInto.
    destruct (copyPtr_PR _ _ _ _ i j D) as (s1 & -> & P1).
    destruct (copyPtr_PR _ _ _ _ i j E) as (s2 & -> & P2). simpl. split; auto.
    split; simpl; auto.
    + intros k. rewrite B. unfold upd. destruct (Nat.eqb_spec k i); subst; rewrite ?Ei; auto.
    + intros k L. unfold upd. destruct (Nat.eqb_spec k i); auto. subst. rewrite C in Ei by auto. discriminate.
    + eapply PR_ext; [|exact P1]. ext k; now rewrite Ej.
    + eapply PR_ext; [|exact P2]. ext k; now rewrite Ej.
  - now apply same_newPar.
  - now apply same_newSol.
  - apply same_sol; auto. intros. now apply same_newSol.
  - apply same_par; auto. intros. now apply same_newPar.
  - apply same_sol; auto. intros. simpl. auto.
  - apply same_par; auto. intros. simpl. auto.
  - unfold populated. rewrite B. destruct (objs a i) as [b|] eqn:Ei; simpl; auto. split; auto. f_equal.
    assert (V1 := PR_vals _ _ _ _ D i). assert (V2 := PR_vals _ _ _ _ E i). unfold solVal in V1. unfold parVal in V2.
    rewrite Ei in V1, V2. destruct (ptr (sols s) i), (o_sol b), (ptr (pars s) i), (o_par b); simpl; auto; contradiction.
  - apply same_sol; auto. intros l w o H1 H2 H3. simpl. split; auto. now apply RR_writeSol.
  - apply same_sol; auto. intros. simpl. auto.
  - apply same_sol; auto. intros l w o H1 H2 H3. simpl. split; auto. now apply RR_writeSol.
  - apply same_par; auto. intros l w o H1 H2 H3. simpl. split; auto. now apply RR_writePar.
  - apply same_sol; auto. intros l w o H1 H2 H3. simpl. split; auto. split; simpl; auto. now apply PR_take.
  - apply same_par; auto. intros l w o H1 H2 H3. simpl. split; auto. split; simpl; auto. now apply PR_take.
  - assert (K := PR_ref _ _ _ _ r D). destruct (nth_error (solOf a) r) as [[i|]|].
    + destruct K as (l & x & -> & P & Hh & V). rewrite Hh. unfold withSol. unfold solVal in V.
      destruct (objs a i); [|discriminate]. rewrite V. simpl. auto.
    + destruct K as (l & -> & ->). simpl. auto.
    + rewrite K. simpl. auto.
  - assert (K := PR_ref _ _ _ _ r D). destruct (nth_error (solOf a) r) as [[i|]|].
    + destruct K as (l & x & -> & P & Hh & V). rewrite Hh. unfold withSol. unfold solVal in V.
      destruct (objs a i) eqn:Ei; [|discriminate]. rewrite V. simpl. split; auto. now apply RR_writeSol.
    + destruct K as (l & -> & ->). simpl. auto.
    + rewrite K. simpl. auto.
  - assert (K := PR_ref _ _ _ _ r E). destruct (nth_error (parOf a) r) as [[i|]|].
    + destruct K as (l & x & -> & P & Hh & V). rewrite Hh. unfold withPar. unfold parVal in V.
      destruct (objs a i); [|discriminate]. rewrite V. simpl. auto.
    + destruct K as (l & -> & ->). simpl. auto.
    + rewrite K. simpl. auto.
  - assert (K := PR_ref _ _ _ _ r E). destruct (nth_error (parOf a) r) as [[i|]|].
    + destruct K as (l & x & -> & P & Hh & V). rewrite Hh. unfold withPar. unfold parVal in V.
      destruct (objs a i) eqn:Ei; [|discriminate]. rewrite V. simpl. split; auto. now apply RR_writePar.
    + destruct K as (l & -> & ->). simpl. auto.
    + rewrite K. simpl. auto.
Qed.

Lemma same_all os : forall s a, RR s a -> runAll add s os = specAll add a os.
Proof.
  induction os as [|o os IH]; intros s a R; simpl; auto.
  assert (H := same_step s a o R). unfold same in H.
  destruct (run1 add s o) as [[s' b]|], (spec1 add a o) as [[a' c]|]; try contradiction; auto.
  destruct H as [-> R']. now rewrite (IH _ _ R').
Qed.

(** Frame *)
Lemma spec_frame (a : vals) (o : op SV PM) (a2 : vals) b i x : (i < made a) -> objs a i = Some x -> mayChange o i = false -> spec1 add a o = Some (a2, b) ->
  objs a2 i = Some x /\ i < made a2.
Proof.
  intros L H M K. destruct o; simpl in *; unfold newSol, newPar, withSol, withPar in K;
  repeat match type of K with
    | context [match ?t with _ => _ end] => destruct t eqn:?; try discriminate
    end; try discriminate; injection K as <- <-; simpl; auto;
  try (split; [|lia]; rewrite upd_other by lia; auto);
  (split; [|exact L]; unfold upd; repeat match goal with |- context [?u =? ?w] => destruct (Nat.eqb_spec u w) end; subst;
   rewrite ?Nat.eqb_refl in M; try discriminate; auto).
Qed.
End Refine.
