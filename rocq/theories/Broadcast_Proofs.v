From Coq Require Import List Arith Bool Lia Sorted.
From Verif Require Import Broadcast_Model Broadcast_Spec.
Import ListNotations.

Lemma memb_In x l : memb x l = true <-> In x l.
Proof.
  unfold memb. rewrite existsb_exists. split.
  - intros [y [H E]]. apply Nat.eqb_eq in E; subst; auto.
  - intro H. exists x. rewrite Nat.eqb_refl; auto.
Qed.

Lemma alive_aliveb w t : aliveb w t = true <-> alive w t.
Proof.
  unfold aliveb, alive. rewrite orb_true_iff, memb_In, existsb_exists. split; intros [H|[ts [A B]]]; auto; right; exists ts; split; auto; apply memb_In; auto.
Qed.

Lemma aliveb_false w t : aliveb w t = false <-> ~ alive w t.
Proof. rewrite <- alive_aliveb. destruct (aliveb w t); split; congruence. Qed.

Lemma remove1_In x y l : In y (remove1 x l) -> In y l.
Proof.
  induction l as [|a l IH]; simpl; auto. destruct (a =? x); simpl; intuition.
Qed.

Lemma removelast_In {A} (x : A) l : In x (removelast l) -> In x l.
Proof.
  induction l as [|a l IH]; simpl; auto. destruct l; simpl in *; intuition.
Qed.

Lemma upd_In {A} (l : list A) i f x : In x (upd l i f) -> In x l \/ exists y, In y l /\ x = f y.
Proof.
  revert i; induction l as [|a l IH]; intros [|i]; simpl; auto.
  - intros [<-|H]; eauto 6.
  - intros [<-|H]; auto. apply IH in H as [H|[y [H1 H2]]]; eauto 6.
Qed.

(** A released callback stays released, except for the newly created one. *)
Lemma wstep_alive w a w' t : wstep w a = Some w' -> alive w' t -> alive w t \/ t = w_next w.
Proof.
  unfold alive. destruct a; simpl; intro E.
  - inversion E; subst; simpl. rewrite in_app_iff. simpl. intuition.
  - destruct (memb t0 (w_user w)) eqn:M; inversion E; subst; simpl. rewrite in_app_iff. simpl. apply memb_In in M. intuition (subst; auto).
  - destruct (memb t0 (w_user w)) eqn:M; inversion E; subst; simpl. intros [H|H]; auto. apply remove1_In in H; auto.
  - destruct (memb t0 (w_user w)) eqn:M; inversion E; subst; auto.
  - destruct (memb t0 (w_user w)) eqn:M; inversion E; subst; simpl. intros [H|H]; auto. apply remove1_In in H; auto.
  - inversion E; subst; simpl. intros [H|[ts [H1 H2]]]; auto. apply in_app_iff in H1 as [H1|[<-|[]]]; eauto. destruct H2.
  - destruct (nth_error (w_objs w) o) eqn:N; inversion E; subst; simpl. intros [H|[ts [H1 H2]]]; auto.
    apply in_app_iff in H1 as [H1|[<-|[]]]; eauto. apply nth_error_In in N. eauto.
  - destruct (o <? length (w_objs w)); inversion E; subst; simpl. intros [H|[ts [H1 H2]]].
    + destruct keep; auto. apply in_app_iff in H as [H|[<-|[]]]; auto.
    + apply upd_In in H1 as [H1|[y [H1 ->]]]; eauto. apply in_app_iff in H2 as [H2|[<-|[]]]; eauto.
  - destruct (o <? length (w_objs w)); inversion E; subst; simpl. intros [H|[ts [H1 H2]]]; auto.
    apply upd_In in H1 as [H1|[y [H1 ->]]]; eauto. destruct H2.
  - destruct (o <? length (w_objs w)); inversion E; subst; simpl. intros [H|[ts [H1 H2]]]; auto.
    apply upd_In in H1 as [H1|[y [H1 ->]]]; eauto. apply removelast_In in H2. eauto 6.
  - destruct (o <? length (w_objs w)); inversion E; subst; simpl. intros [H|[ts [H1 H2]]]; auto.
    apply upd_In in H1 as [H1|[y [H1 ->]]]; eauto. apply remove1_In in H2. eauto 6.
Qed.

Lemma wstep_next w a w' : wstep w a = Some w' -> w_next w <= w_next w' /\
  (registers a = false -> w_next w' = w_next w /\ w_listeners w' = w_listeners w) /\
  (registers a = true -> w_next w' = S (w_next w) /\ w_listeners w' = w_listeners w ++ [w_next w]).
Proof.
  destruct a; simpl; intro E;
  repeat match type of E with context [if ?c then _ else _] => destruct c end;
  try (destruct (nth_error (w_objs w) o); [|discriminate]); inversion E; subst; simpl; repeat split; auto; try discriminate; lia.
Qed.

(** Invariant: the weak pointers, in increasing order, contain every live callback and only existing ones. *)
Record WInv (w : world) : Prop := {
  wi_sorted : StronglySorted lt (w_listeners w);
  wi_lt : forall t, In t (w_listeners w) -> t < w_next w;
  wi_alive : forall t, alive w t -> In t (w_listeners w);
}.

Lemma winit_inv : WInv winit.
Proof. constructor; simpl. - constructor. - tauto. - intros t [[]|[ts [[] _]]]. Qed.

Lemma sorted_snoc l x : StronglySorted lt l -> (forall t, In t l -> t < x) -> StronglySorted lt (l ++ [x]).
Proof.
  induction 1 as [|a l S IH F]; intro H; simpl. - repeat constructor.
  - constructor. + apply IH. intros; apply H; simpl; auto.
    + apply Forall_app. split; auto. repeat constructor. apply H; simpl; auto.
Qed.

Lemma wstep_inv w a w' : WInv w -> wstep w a = Some w' -> WInv w'.
Proof.
  intros [S Lt A] E. destruct (wstep_next _ _ _ E) as [_ [N R]]. destruct (registers a) eqn:Ra.
  - destruct (R eq_refl) as [R1 R2]. constructor; rewrite ?R1, ?R2.
    + apply sorted_snoc; auto.
    + intros t Ht. apply in_app_iff in Ht as [Ht|[<-|[]]]; auto. apply Lt in Ht. lia.
    + intros t Ht. apply in_app_iff. destruct (wstep_alive _ _ _ _ E Ht) as [K| ->]; simpl; auto.
  - destruct (N eq_refl) as [N1 N2]. constructor; rewrite ?N1, ?N2; auto.
    intros t Ht. destruct (wstep_alive _ _ _ _ E Ht) as [K| ->]; auto.
    (* the new number is not alive, since nothing was registered *)
    exfalso. clear -E Ht Ra A Lt. 
    assert (~ alive w (w_next w)) as D by (intro K; apply A, Lt in K; lia).
    destruct a; simpl in *; try discriminate;
    repeat match type of E with context [if ?c then _ else _] => destruct c eqn:? end; try discriminate;
    try (destruct (nth_error (w_objs w) o) eqn:?; [|discriminate]); inversion E; subst; unfold alive in *; simpl in *; apply D; clear D.
    + destruct Ht as [H|H]; auto. apply in_app_iff in H as [H|[->|[]]]; auto. left. apply memb_In; auto.
    + destruct Ht as [H|H]; auto. apply remove1_In in H; auto.
    + auto.
    + destruct Ht as [H|H]; auto. apply remove1_In in H; auto.
    + destruct Ht as [H|[ts [H1 H2]]]; auto. apply in_app_iff in H1 as [H1|[<-|[]]]; eauto. destruct H2.
    + destruct Ht as [H|[ts [H1 H2]]]; auto. apply in_app_iff in H1 as [H1|[<-|[]]]; eauto. apply nth_error_In in Heqo0. eauto.
    + destruct Ht as [H|[ts [H1 H2]]]; auto. apply upd_In in H1 as [H1|[y [H1 ->]]]; eauto. destruct H2.
    + destruct Ht as [H|[ts [H1 H2]]]; auto. apply upd_In in H1 as [H1|[y [H1 ->]]]; eauto. apply removelast_In in H2. eauto 6.
    + destruct Ht as [H|[ts [H1 H2]]]; auto. apply upd_In in H1 as [H1|[y [H1 ->]]]; eauto. apply remove1_In in H2. eauto 6.
Qed.

Lemma filter_sorted f l : StronglySorted lt l -> StronglySorted lt (filter f l).
Proof.
  induction 1 as [|a l S IH F]; simpl; [constructor|]. destruct (f a); auto. constructor; auto.
  rewrite Forall_forall in *. intros x Hx. apply filter_In in Hx. apply F; tauto.
Qed.

Lemma trim_inv w : WInv w -> WInv (trim w).
Proof.
  intros [S Lt A]. constructor; simpl.
  - apply filter_sorted; auto.
  - intros t H. apply filter_In in H. apply Lt; tauto.
  - intros t H. apply filter_In. split. + apply A; exact H. + apply alive_aliveb; exact H.
Qed.

Lemma cbRun_inv l : forall w w', WInv w -> cbRun w l = Some w' ->
  WInv w' /\ w_next w' = w_next w /\ w_listeners w' = w_listeners w /\ (forall t, t < w_next w -> alive w' t -> alive w t).
Proof.
  induction l as [|a l IH]; intros w w' I E; simpl in E.
  - inversion E; subst; auto.
  - unfold cbStep in E. destruct (registers a) eqn:R; try discriminate. destruct (wstep w a) as [w1|] eqn:W; try discriminate.
    destruct (wstep_next _ _ _ W) as [_ [N _]]. destruct (N R) as [N1 N2].
    destruct (IH w1 w' (wstep_inv _ _ _ I W) E) as [K1 [K2 [K3 K4]]].
    repeat split; try congruence; try apply K1. intros t Ht At. apply K4 in At; [|lia].
    destruct (wstep_alive _ _ _ _ W At); auto. lia.
Qed.

(** The loop over a list [ls] of callbacks. *)
Lemma notifyLoop_spec eff ls : forall w w' c, WInv w -> StronglySorted lt ls -> (forall t, In t ls -> t < w_next w) ->
  notifyLoop eff w ls = Some (w', c) ->
  WInv w' /\ w_next w' = w_next w /\ StronglySorted lt c /\
  (forall t, t < w_next w -> alive w' t -> alive w t) /\
  (forall t, In t c -> In t ls /\ alive w t) /\
  (forall t, In t ls -> alive w' t -> In t c).
Proof.
  induction ls as [|t ls IH]; intros w w' c I S Lt E; simpl in E.
  - inversion E; subst. repeat split; auto; try constructor; try apply I; simpl in *; tauto.
  - inversion S as [|? ? S' F]; subst. destruct (aliveb w t) eqn:Al.
    + destruct (cbRun w (eff t)) as [w1|] eqn:C; try discriminate.
      destruct (cbRun_inv _ _ _ I C) as [I1 [N1 [L1 A1]]].
      destruct (notifyLoop eff w1 ls) as [[w2 c2]|] eqn:NL; try discriminate. simpl in E. inversion E; subst.
      destruct (IH w1 w' c2 I1 S') as [K1 [K2 [K3 [K4 [K5 K6]]]]]; auto. { intros; rewrite N1; apply Lt; simpl; auto. }
      rewrite N1 in *. split; auto. split; [congruence|]. split.
      { constructor; auto. rewrite Forall_forall in *. intros x Hx. apply F. apply K5; auto. }
      split. { intros x Hx Ax. apply A1; auto. }
      split.
      { intros x [<-|Hx]. - split; simpl; auto. apply alive_aliveb; auto.
        - destruct (K5 x Hx) as [P1 P2]. split; simpl; auto. apply A1; auto. apply Lt; simpl; auto. }
      { intros x [<-|Hx] Ax; simpl; auto. }
    + destruct (IH w w' c I S') as [K1 [K2 [K3 [K4 [K5 K6]]]]]; auto. { intros; apply Lt; simpl; auto. }
      split; auto. split; auto. split; auto. split; auto. split.
      { intros x Hx. destruct (K5 x Hx). simpl; auto. }
      { intros x [<-|Hx] Ax; auto. exfalso. apply aliveb_false in Al. apply Al. apply K4; auto. apply Lt; simpl; auto. }
Qed.

Lemma notify_spec eff w w' c : WInv w -> notify eff w = Some (w', c) ->
  WInv w' /\ w_next w' = w_next w /\ StronglySorted lt c /\
  (forall t, t < w_next w -> alive w' t -> alive w t) /\
  (forall t, In t c -> alive w t) /\
  (forall t, alive w' t -> In t c).
Proof.
  intros I E. unfold notify in E. pose proof (trim_inv _ I) as It.
  destruct (notifyLoop_spec eff (w_listeners (trim w)) (trim w) w' c It) as [K1 [K2 [K3 [K4 [K5 K6]]]]]; auto; try apply It.
  assert (forall t, alive w' t -> alive w t) as B.
  { intros t Ht. pose proof (wi_alive _ K1 _ Ht) as L. apply (wi_lt _ K1) in L. rewrite K2 in L. apply K4; auto. }
  split; auto. split; auto. split; auto. split; auto. split.
  - intros t Ht. destruct (K5 t Ht) as [_ P]. exact P.
  - intros t Ht. apply K6; auto. apply (wi_alive _ It). apply B in Ht. exact Ht.
Qed.

(** Callbacks without effects on tokens. *)
Lemma notifyLoop_pure w ls : notifyLoop (fun _ => []) w ls = Some (w, filter (aliveb w) ls).
Proof. induction ls as [|t ls IH]; simpl; auto. destruct (aliveb w t); rewrite IH; auto. Qed.

Lemma sorted_filter_seq (f : nat -> bool) n : StronglySorted lt (filter f (seq 0 n)).
Proof.
  apply filter_sorted. generalize 0 as a. induction n as [|n IH]; intro a; simpl; constructor; auto.
  apply Forall_forall. intros x Hx. apply in_seq in Hx. lia.
Qed.

Lemma sorted_ext l : forall l', StronglySorted lt l -> StronglySorted lt l' -> (forall t, In t l <-> In t l') -> l = l'.
Proof.
  induction l as [|a l IH]; intros [|b l'] S S' H; auto.
  - exfalso. apply (H b). simpl; auto.
  - exfalso. apply (H a). simpl; auto.
  - inversion S; inversion S'; subst. rewrite Forall_forall in *.
    assert (a = b) as ->.
    { destruct (proj1 (H a) (or_introl eq_refl)) as [->|Ha]; auto.
      destruct (proj2 (H b) (or_introl eq_refl)) as [->|Hb]; auto. specialize (H3 _ Hb). specialize (H7 _ Ha). lia. }
    f_equal. apply IH; auto. intro t. split; intro Ht.
    + destruct (proj1 (H t) (or_intror Ht)) as [<-|K]; auto. specialize (H3 _ Ht). lia.
    + destruct (proj2 (H t) (or_intror Ht)) as [<-|K]; auto. specialize (H7 _ Ht). lia.
Qed.

Lemma notify_pure w : WInv w -> exists w', notify (fun _ => []) w = Some (w', filter (aliveb w) (seq 0 (w_next w))).
Proof.
  intro I. unfold notify. rewrite notifyLoop_pure. eexists. do 2 f_equal. simpl.
  apply sorted_ext. - apply filter_sorted, filter_sorted, I. - apply sorted_filter_seq.
  - intro t. rewrite !filter_In. change (aliveb (trim w) t) with (aliveb w t). rewrite in_seq. split.
    + intros [[A B] _]. apply (wi_lt _ I) in A. split; auto. lia.
    + intros [A B]. split; auto. split; auto. apply (wi_alive _ I), alive_aliveb; auto.
Qed.

Lemma wrun_inv h : forall w w' cs, WInv w -> wrun w h = Some (w', cs) ->
  WInv w' /\ w_next w <= w_next w' /\ (forall t, t < w_next w -> alive w' t -> alive w t) /\
  (forall c t, In c cs -> In t c -> t < w_next w -> alive w t).
Proof.
  induction h as [|[a|eff] h IH]; intros w w' cs I E; simpl in E.
  - inversion E; subst. repeat split; auto; try apply I. simpl; tauto.
  - destruct (wstep w a) as [w1|] eqn:W; try discriminate. pose proof (wstep_inv _ _ _ I W) as I1.
    destruct (wstep_next _ _ _ W) as [N _]. destruct (IH _ _ _ I1 E) as [K1 [K2 [K3 K4]]].
    assert (forall t, t < w_next w -> alive w1 t -> alive w t) as B.
    { intros t Ht At. destruct (wstep_alive _ _ _ _ W At); auto; lia. }
    repeat split; try apply K1; try lia.
    + intros t Ht At. apply B; auto. apply K3; auto. lia.
    + intros c t Hc Ht Hl. apply B; auto. eapply K4; eauto. lia.
  - destruct (notify eff w) as [[w1 c1]|] eqn:N; try discriminate.
    destruct (notify_spec _ _ _ _ I N) as [I1 [N1 [_ [A1 [C1 _]]]]].
    destruct (wrun w1 h) as [[w2 cs2]|] eqn:R; try discriminate. simpl in E; inversion E; subst.
    destruct (IH _ _ _ I1 R) as [K1 [K2 [K3 K4]]]. rewrite N1 in *.
    repeat split; try apply K1; auto.
    intros c t [<-|Hc] Ht Hl; auto. apply A1; auto. eapply K4; eauto.
Qed.
