(** Properties C14 and C15. *)

From Coq Require Import List Arith Bool Lia Sorted.
From Verif Require Import Broadcast_Model Broadcast_Spec Broadcast_Proofs.
Import ListNotations.

(** ** C14: notify invokes exactly the callbacks that are alive, once, in registration order *)

(** Callbacks that do not touch tokens, after every history (whose own callbacks may touch tokens).  An increasing list of
    registration numbers is in registration order and free of repetitions. *)
Theorem C14_notify_exact : forall h w cs, wrun winit h = Some (w, cs) ->
  exists w' c, notify (fun _ => []) w = Some (w', c) /\ StronglySorted lt c /\ forall t, In t c <-> alive w t.
Proof.
  intros h w cs E. destruct (wrun_inv _ _ _ _ winit_inv E) as [I _].
  destruct (notify_pure w I) as [w' N]. exists w', (filter (aliveb w) (seq 0 (w_next w))).
  split; auto. split; [apply sorted_filter_seq|]. intro t. rewrite filter_In, alive_aliveb, in_seq. split; [tauto|].
  intro A. split; auto. apply (wi_alive _ I) in A. apply (wi_lt _ I) in A. lia.
Qed.

(** Callbacks that release or copy tokens while the notification runs: every callback alive at the end was invoked, every invoked
    callback was alive when notify was called, each at most once, in order. *)
Theorem C14_notify_with_releases : forall h w cs eff w' c, wrun winit h = Some (w, cs) -> notify eff w = Some (w', c) ->
  StronglySorted lt c /\ (forall t, In t c -> alive w t) /\ (forall t, alive w' t -> In t c).
Proof.
  intros h w cs eff w' c E N. destruct (wrun_inv _ _ _ _ winit_inv E) as [I _].
  destruct (notify_spec _ _ _ _ I N) as [_ [_ [S [_ [C1 C2]]]]]. auto.
Qed.

(** A callback released by an earlier callback of the same notification is not invoked. *)
Lemma notifyLoop_app eff ls1 ls2 : forall w w' c, notifyLoop eff w (ls1 ++ ls2) = Some (w', c) ->
  exists w1 c1 c2, notifyLoop eff w ls1 = Some (w1, c1) /\ notifyLoop eff w1 ls2 = Some (w', c2) /\ c = c1 ++ c2.
Proof.
  induction ls1 as [|t ls1 IH]; intros w w' c E; simpl in *.
  - exists w, [], c. auto.
  - destruct (aliveb w t); auto.
    destruct (cbRun w (eff t)) as [wa|]; try discriminate.
    destruct (notifyLoop eff wa (ls1 ++ ls2)) as [[wb cb]|] eqn:N; try discriminate. simpl in E. inversion E; subst.
    destruct (IH _ _ _ N) as [w1 [c1 [c2 [A [B ->]]]]]. exists w1, (t :: c1), c2. rewrite A. auto.
Qed.

Theorem C14_released_during_notify : forall h w cs eff ls1 t ls2 w1 c1 w' c,
  wrun winit h = Some (w, cs) -> w_listeners (trim w) = ls1 ++ t :: ls2 ->
  notifyLoop eff (trim w) ls1 = Some (w1, c1) -> ~ alive w1 t -> notify eff w = Some (w', c) -> ~ In t c.
Proof.
  intros h w cs eff ls1 t ls2 w1 c1 w' c E L N1 D N. destruct (wrun_inv _ _ _ _ winit_inv E) as [I _].
  unfold notify in N. rewrite L in N. apply notifyLoop_app in N as [wx [cx [c2 [A [B ->]]]]].
  rewrite N1 in A. inversion A; subst wx cx. simpl in B. rewrite (proj2 (aliveb_false w1 t) D) in B.
  pose proof (trim_inv _ I) as It. pose proof (wi_sorted _ It) as S. rewrite L in S.
  assert (forall u, In u (ls1 ++ t :: ls2) -> u < w_next (trim w)) as Lt by (rewrite <- L; apply It).
  assert (StronglySorted lt ls1 /\ StronglySorted lt ls2 /\ Forall (fun u => u < t) ls1 /\ Forall (lt t) ls2) as [S1 [S2 [F1 F2]]].
  { clear -S. induction ls1 as [|a l IH]; simpl in S; inversion S; subst.
    - repeat split; auto. constructor.
    - destruct (IH H1) as [P1 [P2 [P3 P4]]]. apply Forall_app in H2 as [H2 H3]. inversion H3; subst. repeat split; auto; constructor; auto. }
  destruct (notifyLoop_spec eff ls1 (trim w) w1 c1 It S1) as [I1 [N2 [_ [_ [C1 _]]]]]; auto.
  { intros; apply Lt. apply in_app_iff; auto. }
  destruct (notifyLoop_spec eff ls2 w1 w' c2 I1 S2) as [_ [_ [_ [_ [C2 _]]]]]; auto.
  { intros; rewrite N2; apply Lt. apply in_app_iff; simpl; auto. }
  rewrite Forall_forall in F1, F2. intro K. apply in_app_iff in K as [K|K].
  - apply C1 in K as [K _]. apply F1 in K. lia.
  - apply C2 in K as [K _]. apply F2 in K. lia.
Qed.

Print Assumptions C14_notify_exact.
Print Assumptions C14_notify_with_releases.
Print Assumptions C14_released_during_notify.

(** Three callbacks, the middle one released before and the last one released by the first. *)
Example C14_ex : option_map snd (wrun winit [Act Register; Act Register; Act Register; Notify (fun _ => []); Act (DropToken 1);
    Notify (fun t => if t =? 0 then [DropToken 2] else [])]) = Some [[0; 1; 2]; [0]].
Proof. reflexivity. Qed.

(** ** C15: unregistering silences a callback *)

(** As stated (whoever else holds the token) it is false: unregisterListener resets its own copy only. *)
Theorem C15_unregister_copy_refuted : exists h,
  option_map snd (wrun winit h) = Some [[0]] /\ h = [Act Register; Act (Unregister 0); Notify (fun _ => [])].
Proof. eexists; split; [|reflexivity]. reflexivity. Qed.

(** The returned token of subscribe keeps the callback alive after unSubscribe, as does a copy of the Listener after
    unSubscribeAll. *)
Theorem C15_unsubscribe_kept_token_refuted : exists h1 h2,
  option_map snd (wrun winit h1) = Some [[0]] /\
  h1 = [Act NewListener; Act (Subscribe 0 true); Act (UnSubscribe 0 0); Notify (fun _ => [])] /\
  option_map snd (wrun winit h2) = Some [[0]] /\
  h2 = [Act NewListener; Act (Subscribe 0 false); Act (CopyListener 0); Act (UnSubscribeAll 0); Notify (fun _ => [])].
Proof. do 2 eexists; repeat split; reflexivity. Qed.

(** Once no owner is left the callback is never invoked again, whatever happens later. *)
Theorem C15_no_owner_silent_partial : forall h w cs t, wrun winit h = Some (w, cs) -> t < w_next w -> ~ alive w t ->
  forall h' w' cs', wrun w h' = Some (w', cs') -> forall c, In c cs' -> ~ In t c.
Proof.
  intros h w cs t E Ht D h' w' cs' E' c Hc Hin. destruct (wrun_inv _ _ _ _ winit_inv E) as [I _].
  destruct (wrun_inv _ _ _ _ I E') as [_ [_ [_ K]]]. apply D. eapply K; eauto.
Qed.

Lemma count_remove1 x l : count_occ Nat.eq_dec l x <= 1 -> ~ In x (remove1 x l).
Proof.
  induction l as [|a l IH]; simpl; auto. destruct (Nat.eq_dec a x) as [->|N].
  - rewrite Nat.eqb_refl. intros H K. apply (count_occ_In Nat.eq_dec) in K. lia.
  - apply Nat.eqb_neq in N as N'. rewrite N'. intros H [K|K]; auto. apply IH; auto.
Qed.

Lemma count_concat_upd x f (ll : list (list nat)) : forall o ts, nth_error ll o = Some ts ->
  count_occ Nat.eq_dec (concat (upd ll o f)) x + count_occ Nat.eq_dec ts x =
  count_occ Nat.eq_dec (concat ll) x + count_occ Nat.eq_dec (f ts) x.
Proof.
  induction ll as [|l ll IH]; intros [|o] ts; simpl; try discriminate; intro E.
  - inversion E; subst. rewrite !count_occ_app. lia.
  - rewrite !count_occ_app. specialize (IH _ _ E). lia.
Qed.

Lemma alive_owners w t : alive w t <-> owners w t > 0.
Proof.
  unfold alive, owners. split.
  - intros [H|[ts [A B]]]. + apply (count_occ_In Nat.eq_dec) in H. lia.
    + assert (In t (concat (w_objs w))) as K by (apply in_concat; eauto). apply (count_occ_In Nat.eq_dec) in K. lia.
  - intro H. destruct (count_occ Nat.eq_dec (w_user w) t) eqn:C.
    + right. assert (count_occ Nat.eq_dec (concat (w_objs w)) t > 0) as K by lia. apply count_occ_In in K. apply in_concat in K as [ts [A B]]. eauto.
    + left. apply (count_occ_In Nat.eq_dec). lia.
Qed.

Lemma count_remove1' x l : In x l -> S (count_occ Nat.eq_dec (remove1 x l) x) = count_occ Nat.eq_dec l x.
Proof.
  induction l as [|a l IH]; simpl; [tauto|]. destruct (Nat.eq_dec a x) as [->|N].
  - rewrite Nat.eqb_refl. auto.
  - apply Nat.eqb_neq in N as N'. rewrite N'. intros [K|K]; [congruence|]. simpl. destruct (Nat.eq_dec a x); [congruence|]. auto.
Qed.

(** Which calls release one owner: moving the token into unregisterListener, and unSubscribe of a listener that holds it. *)
Theorem C15_unregister_last_owner_partial : forall h w cs t w1, wrun winit h = Some (w, cs) -> owners w t = 1 ->
  (wstep w (UnregisterMoved t) = Some w1 \/
   (exists o ts, nth_error (w_objs w) o = Some ts /\ In t ts /\ wstep w (UnSubscribe o t) = Some w1)) ->
  forall h' w' cs', wrun w1 h' = Some (w', cs') -> forall c, In c cs' -> ~ In t c.
Proof.
  intros h w cs t w1 E O H h' w' cs' E' c Hc. destruct (wrun_inv _ _ _ _ winit_inv E) as [I _].
  assert (exists a, wstep w a = Some w1) as [a W] by (destruct H as [H|[o [ts [_ [_ H]]]]]; eauto).
  assert (t < w_next w1) as Lt.
  { apply wstep_next in W as [W _]. assert (alive w t) as A by (apply alive_owners; lia). apply (wi_alive _ I), (wi_lt _ I) in A. lia. }
  assert (~ alive w1 t) as D.
  { rewrite alive_owners. unfold owners in *. destruct H as [H|[o [ts [N [Ht H]]]]]; simpl in H.
    - destruct (memb t (w_user w)) eqn:M; inversion H; subst; simpl. apply memb_In in M. apply count_remove1' in M. lia.
    - destruct (o <? length (w_objs w)); inversion H; subst; simpl.
      pose proof (count_concat_upd t (remove1 t) _ _ _ N). apply count_remove1' in Ht. lia. }
  assert (wrun winit (h ++ [Act a]) = Some (w1, cs)) as E1.
  { clear -E W. revert E. generalize winit as w0. revert cs. induction h as [|[b|eff] h IH]; intros cs w0 E; simpl in *.
    - inversion E; subst. rewrite W. auto.
    - destruct (wstep w0 b); try discriminate; auto.
    - destruct (notify eff w0) as [[w2 c2]|]; try discriminate. destruct (wrun w2 h) as [[w3 c3]|] eqn:R; try discriminate.
      simpl in E. inversion E; subst. rewrite (IH _ _ R). auto. }
  eapply C15_no_owner_silent_partial; eauto.
Qed.

Print Assumptions C15_unregister_copy_refuted.
Print Assumptions C15_unsubscribe_kept_token_refuted.
Print Assumptions C15_no_owner_silent_partial.
Print Assumptions C15_unregister_last_owner_partial.

Example C15_ex : exists w cs w1, wrun winit [Act Register; Act NewListener; Act (Subscribe 0 false); Notify (fun _ => [])] = Some (w, cs) /\
  owners w 0 = 1 /\ wstep w (UnregisterMoved 0) = Some w1 /\
  option_map snd (wrun w1 [Notify (fun _ => []); Act (UnSubscribe 0 1); Notify (fun _ => [])]) = Some [[1]; []].
Proof. do 3 eexists; repeat split; reflexivity. Qed.
