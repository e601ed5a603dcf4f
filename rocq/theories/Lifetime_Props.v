(** C123, C124: objects that listen. *)

From Coq Require Import List Arith Bool Lia.
From Verif Require Import Lifetime_Model.
Import ListNotations.

Section Spec.
  Context {D M : Type}.
  Variable handle : M -> D -> D.

  (** What a user expects: every object has the broadcasters it subscribed to and its data; a message of a broadcaster is handled by every
      existing object as often as the object has subscribed, and by nothing else *)
  Definition ideal := list (option (list nat * D)).
  Inductive item := Plain (a : op D M) | SubscribeElement (o b : nat).
  Definition lookup (w : ideal) (o : nat) := match nth_error w o with Some x => x | None => None end.
  Fixpoint repeatedly (n : nat) (f : D -> D) (d : D) : D := match n with O => d | S n => f (repeatedly n f d) end.
  Definition receives (b : nat) (m : M) (x : option (list nat * D)) : option (list nat * D) :=
    match x with Some (bs, d) => Some (bs, repeatedly (count_occ Nat.eq_dec bs b) (handle m) d) | None => None end.
  Definition idealStep (w : ideal) (i : item) : option ideal :=
    match i with
    | Plain (New d) => Some (w ++ [Some ([], d)])
    | Plain (SubscribeTo o b) => match lookup w o with Some (bs, d) => Some (setObject w o (Some (bs ++ [b], d))) | None => None end
    | SubscribeElement o b => match lookup w o with Some (bs, d) => Some (setObject w o (Some (bs ++ [b], d)) ++ [None]) | None => None end
    | Plain (Destroy o) => match lookup w o with Some _ => Some (setObject w o None) | None => None end
    | Plain (UnSubscribeAll o) => match lookup w o with Some (_, d) => Some (setObject w o (Some ([], d))) | None => None end
    | Plain (Notify b m) => Some (map (receives b m) w)
    | Plain (Copy _) | Plain (Move _) => None
    end.
  Fixpoint idealRun (w : ideal) (h : list item) : option ideal :=
    match h with [] => Some w | i :: h => match idealStep w i with Some w => idealRun w h | None => None end end.

  (** What the program does *)
  Definition itemOps (w : world D) (i : item) : list (op D M) :=
    match i with Plain a => [a] | SubscribeElement o b => subscribeElement (length (objects w)) o b end.
  Fixpoint itemsRun (w : world D) (h : list item) : outcome D :=
    match h with [] => Ok w | i :: h => match run handle w (itemOps w i) with Ok w => itemsRun w h | r => r end end.

  (** Data of the existing objects *)
  Definition dataOf (l : list (option (list nat * D))) : list (option D) := map (option_map snd) l.

  Lemma set_length (l : list (option (list nat * D))) o x : length (setObject l o x) = length l.
  Proof. revert o; induction l as [|y l IH]; intros [|o]; cbn; auto. Qed.
  Lemma nth_set_same (l : list (option (list nat * D))) o x : o < length l -> nth_error (setObject l o x) o = Some x.
  Proof. revert o; induction l as [|y l IH]; intros [|o] H; cbn in *; try lia; auto. apply IH. lia. Qed.
  Lemma nth_set_other (l : list (option (list nat * D))) o x p : p <> o -> nth_error (setObject l o x) p = nth_error l p.
  Proof. revert o p; induction l as [|y l IH]; intros [|o] [|p] H; cbn in *; try congruence; auto. Qed.
  Lemma lookup_valid (l : list (option (list nat * D))) o x : lookup l o = Some x -> nth_error l o = Some (Some x) /\ o < length l.
  Proof. unfold lookup. destruct (nth_error l o) eqn:E; [|discriminate]. intros ->. split; [reflexivity|]. apply nth_error_Some. congruence. Qed.

  (** The simulation *)
  Record related (w : world D) (a : ideal) : Prop := mkRelated {
    rl_length : length (objects w) = length a;
    rl_dead : forall o, nth_error (objects w) o = Some None <-> nth_error a o = Some None;
    rl_live : forall o ts d, nth_error (objects w) o = Some (Some (ts, d)) ->
      exists bs, nth_error a o = Some (Some (bs, d)) /\ NoDup ts /\
        map Some bs = map (fun t => option_map fst (nth_error (cells w) t)) ts /\
        (forall t, In t ts -> option_map snd (nth_error (cells w) t) = Some o)
  }.

  Lemma related_lookup w a o : related w a -> match lookup a o with
    | Some (bs, d) => exists ts, getObject w o = Some (ts, d)
    | None => getObject w o = None end.
  Proof.
    intros R. unfold lookup, getObject. destruct (nth_error a o) as [[[bs d]|]|] eqn:E.
    - destruct (nth_error (objects w) o) as [[[ts d']|]|] eqn:F.
      + destruct (rl_live _ _ R _ _ _ F) as (bs' & H & _). rewrite E in H. injection H as <- <-. exists ts. reflexivity.
      + apply (rl_dead _ _ R) in F. congruence.
      + apply nth_error_None in F. assert (o < length a) by (apply nth_error_Some; congruence). rewrite (rl_length _ _ R) in F. lia.
    - apply (rl_dead _ _ R) in E. rewrite E. reflexivity.
    - apply nth_error_None in E. rewrite <- (rl_length _ _ R) in E. apply nth_error_None in E. rewrite E. reflexivity.
  Qed.
  Lemma getObject_nth (w : world D) o x : getObject w o = Some x -> nth_error (objects w) o = Some (Some x) /\ o < length (objects w).
  Proof. exact (lookup_valid (objects w) o x). Qed.

  (** Changing one object *)
  Lemma related_set w a o ts d bs : related w a -> o < length (objects w) -> NoDup ts ->
    map Some bs = map (fun t => option_map fst (nth_error (cells w) t)) ts -> (forall t, In t ts -> option_map snd (nth_error (cells w) t) = Some o) ->
    related (mkWorld (cells w) (setObject (objects w) o (Some (ts, d)))) (setObject a o (Some (bs, d))).
  Proof.
    intros R Ho N B C. assert (Ha : o < length a) by (rewrite <- (rl_length _ _ R); exact Ho). constructor; cbn.
    - rewrite !set_length. apply (rl_length _ _ R).
    - intros p. destruct (Nat.eq_dec p o) as [->|Hp]; [rewrite !nth_set_same by assumption; split; discriminate|]. rewrite !nth_set_other by assumption. apply (rl_dead _ _ R).
    - intros p ts' d'. destruct (Nat.eq_dec p o) as [->|Hp].
      + rewrite !nth_set_same by assumption. intros [= <- <-]. exists bs. auto.
      + rewrite !nth_set_other by assumption. apply (rl_live _ _ R).
  Qed.
  Lemma related_kill w a o : related w a -> related (mkWorld (cells w) (setObject (objects w) o None)) (setObject a o None).
  Proof.
    intros R. constructor; cbn.
    - rewrite !set_length. apply (rl_length _ _ R).
    - intros p. destruct (Nat.eq_dec p o) as [->|Hp]; [|rewrite !nth_set_other by assumption; apply (rl_dead _ _ R)].
      destruct (le_lt_dec (length (objects w)) o) as [L|L].
      + assert (nth_error (setObject (objects w) o None) o = None) by (apply nth_error_None; rewrite set_length; lia).
        assert (nth_error (setObject a o None) o = None) by (apply nth_error_None; rewrite set_length, <- (rl_length _ _ R); lia). split; congruence.
      + rewrite !nth_set_same; [split; reflexivity|rewrite <- (rl_length _ _ R); exact L|exact L].
    - intros p ts d. destruct (Nat.eq_dec p o) as [->|Hp]; [|rewrite !nth_set_other by assumption; apply (rl_live _ _ R)].
      intros H. exfalso. destruct (le_lt_dec (length (objects w)) o) as [L|L].
      + assert (nth_error (setObject (objects w) o None) o = None) by (apply nth_error_None; rewrite set_length; lia). congruence.
      + rewrite nth_set_same in H by exact L. discriminate.
  Qed.
  Lemma related_new w a x : related w a -> match x with Some (ts, _) => ts = [] | None => True end ->
    related (mkWorld (cells w) (objects w ++ [x])) (a ++ [x]).
  Proof.
    intros R Hx. constructor; cbn.
    - rewrite !app_length. cbn. rewrite (rl_length _ _ R). reflexivity.
    - intros p. destruct (lt_dec p (length (objects w))) as [L|L].
      + rewrite !nth_error_app1; [apply (rl_dead _ _ R)|rewrite <- (rl_length _ _ R); exact L|exact L].
      + rewrite !nth_error_app2; [rewrite (rl_length _ _ R); split; auto|rewrite <- (rl_length _ _ R); lia|lia].
    - intros p ts d. destruct (lt_dec p (length (objects w))) as [L|L].
      + rewrite !nth_error_app1; [apply (rl_live _ _ R)|rewrite <- (rl_length _ _ R); exact L|exact L].
      + rewrite !nth_error_app2; [|rewrite <- (rl_length _ _ R); lia|lia]. rewrite (rl_length _ _ R). destruct (p - length a) as [|k]; cbn; [|destruct k; discriminate].
        intros [= ->]. subst ts. exists []. split; [reflexivity|]. split; [constructor|]. split; [reflexivity|intros t []].
  Qed.
  Lemma related_cell w a c : related w a -> related (mkWorld (cells w ++ [c]) (objects w)) a.
  Proof.
    intros R. constructor; cbn; [apply (rl_length _ _ R)|apply (rl_dead _ _ R)|]. intros o ts d H. destruct (rl_live _ _ R _ _ _ H) as (bs & A & N & B & C).
    assert (K : forall t, In t ts -> nth_error (cells w ++ [c]) t = nth_error (cells w) t).
    { intros t Ht. apply nth_error_app1. apply nth_error_Some. specialize (C t Ht). destruct (nth_error (cells w) t); [discriminate|discriminate C]. }
    exists bs. split; [exact A|]. split; [exact N|]. split; [rewrite B; apply map_ext_in; intros t Ht; rewrite K by exact Ht; reflexivity|].
    intros t Ht. rewrite K by exact Ht. apply C, Ht.
  Qed.
  Lemma related_subscribe w a o b ts d bs : related w a -> getObject w o = Some (ts, d) -> lookup a o = Some (bs, d) ->
    related (mkWorld (cells w ++ [(b, o)]) (setObject (objects w) o (Some (ts ++ [length (cells w)], d)))) (setObject a o (Some (bs ++ [b], d))).
  Proof.
    intros R G L. destruct (getObject_nth _ _ _ G) as (G1 & G2). destruct (lookup_valid _ _ _ L) as (L1 & L2).
    assert (R' := related_cell w a (b, o) R). destruct (rl_live _ _ R' o ts d G1) as (bs' & A & N & B & C). rewrite L1 in A. injection A as <-.
    assert (Fresh : ~ In (length (cells w)) ts).
    { destruct (rl_live _ _ R o ts d G1) as (_ & _ & _ & _ & C0). intros Hin. specialize (C0 _ Hin). assert (X : nth_error (cells w) (length (cells w)) = None) by (apply nth_error_None; lia). rewrite X in C0. discriminate. }
    assert (Last : nth_error (cells w ++ [(b, o)]) (length (cells w)) = Some (b, o)) by (rewrite nth_error_app2, Nat.sub_diag by lia; reflexivity).
    apply (related_set _ _ o (ts ++ [length (cells w)]) d (bs ++ [b]) R' G2).
    - apply NoDup_Add with (a := length (cells w)) (l := ts); [|split; assumption]. rewrite <- (app_nil_r ts) at 1. apply Add_app.
    - rewrite !map_app. cbn [map cells] in *. rewrite B, Last. reflexivity.
    - intros t Ht. apply in_app_or in Ht. destruct Ht as [Ht|[<-|[]]]; [apply C, Ht|]. cbn [cells]. rewrite Last. reflexivity.
  Qed.

  (** Delivery of a message: tokens and cells do not change, so the loop delivers to the owners of the living cells *)
  Definition sameTokens (w w' : world D) : Prop := cells w' = cells w /\ map (option_map fst) (objects w') = map (option_map fst) (objects w).
  Lemma alive_tokens w w' t : sameTokens w w' -> alive w' t = alive w t.
  Proof.
    intros (_ & E). unfold alive. revert E. generalize (objects w) (objects w'). clear. induction l as [|[[ts d]|] l IH]; intros [|[[ts' d']|] l'] E; try discriminate; auto.
    - cbn in E |- *. injection E as -> E. rewrite (IH _ E). reflexivity.
    - cbn in E |- *. injection E as E. apply (IH _ E).
  Qed.
  Lemma alive_owner w a t : related w a -> alive w t = true -> exists o ts d, nth_error (objects w) o = Some (Some (ts, d)) /\ In t ts /\ option_map snd (nth_error (cells w) t) = Some o.
  Proof.
    intros R H. unfold alive in H. apply existsb_exists in H. destruct H as ([[ts d]|] & Hin & H); [|discriminate]. apply existsb_exists in H. destruct H as (t' & Ht & E). apply Nat.eqb_eq in E. subst t'.
    apply In_nth_error in Hin. destruct Hin as (o & Ho). exists o, ts, d. split; [exact Ho|]. split; [exact Ht|]. destruct (rl_live _ _ R _ _ _ Ho) as (bs & _ & _ & _ & C). apply C, Ht.
  Qed.
  Lemma owner_alive (w : world D) o ts d t : nth_error (objects w) o = Some (Some (ts, d)) -> In t ts -> alive w t = true.
  Proof. intros H Ht. unfold alive. apply existsb_exists. exists (Some (ts, d)). split; [apply nth_error_In in H; exact H|]. apply existsb_exists. exists t. split; [exact Ht|apply Nat.eqb_refl]. Qed.

  (** tokens of an object among the cells t, t+1, ... *)
  Definition due (b : nat) (w : world D) (from : nat) (ts : list nat) : nat :=
    length (filter (fun t => (from <=? t) && match nth_error (cells w) t with Some (b', _) => b' =? b | None => false end) ts).

  Lemma due_split b (w : world D) k ts : NoDup ts -> due b w k ts = due b w (S k) ts + (if in_dec Nat.eq_dec k ts then match nth_error (cells w) k with Some (b', _) => if b' =? b then 1 else 0 | None => 0 end else 0).
  Proof.
    unfold due. induction ts as [|t ts IH]; intros N; [reflexivity|]. inversion N as [|? ? N1 N2]; subst. specialize (IH N2). cbn [filter].
    destruct (Nat.eq_dec t k) as [->|Ht].
    - rewrite Nat.leb_refl. assert (S k <=? k = false) as -> by (apply Nat.leb_gt; lia). cbn [andb].
      destruct (in_dec Nat.eq_dec k (k :: ts)) as [_|H]; [|exfalso; apply H; left; reflexivity]. destruct (in_dec Nat.eq_dec k ts) as [H|_]; [contradiction|].
      destruct (nth_error (cells w) k) as [[b' o']|]; [destruct (b' =? b)|]; cbn [length]; lia.
    - assert (E : (k <=? t) = (S k <=? t)) by (apply Bool.eq_iff_eq_true; rewrite !Nat.leb_le; lia). rewrite E.
      assert (I : (if in_dec Nat.eq_dec k (t :: ts) then 1 else 0) = (if in_dec Nat.eq_dec k ts then 1 else 0)).
      { destruct (in_dec Nat.eq_dec k (t :: ts)) as [H|H], (in_dec Nat.eq_dec k ts) as [H'|H']; auto; exfalso; [destruct H; [congruence|contradiction]|apply H; right; exact H']. }
      destruct (in_dec Nat.eq_dec k (t :: ts)), (in_dec Nat.eq_dec k ts); try discriminate; destruct (_ && _); cbn [length]; lia.
  Qed.

  Lemma repeatedly_comm n f d : repeatedly n f (f d) = f (repeatedly n f d).
  Proof. induction n; cbn; [reflexivity|]. rewrite IHn. reflexivity. Qed.

  Lemma delivered b m w0 a : related w0 a -> forall cs t w, sameTokens w0 w -> skipn t (cells w0) = cs ->
    exists w', notifyFrom handle b m w t cs = Ok w' /\ sameTokens w0 w' /\
      forall o ts d, nth_error (objects w) o = Some (Some (ts, d)) -> nth_error (objects w') o = Some (Some (ts, repeatedly (due b w0 t ts) (handle m) d)).
  Proof.
    intros R. induction cs as [|[b' o'] cs IH]; intros t w ST Hs.
    - exists w. split; [reflexivity|]. split; [exact ST|]. intros o ts d Ho. replace (due b w0 t ts) with 0; [exact Ho|]. unfold due. symmetry. apply length_zero_iff_nil.
      assert (L : length (cells w0) <= t). { destruct (le_lt_dec (length (cells w0)) t) as [L|L]; [exact L|]. exfalso. assert (X : length (skipn t (cells w0)) = length (cells w0) - t) by apply skipn_length. rewrite Hs in X. cbn in X. lia. }
      clear - L. induction ts as [|x ts IHt]; [reflexivity|]. cbn. destruct (t <=? x) eqn:E; cbn; [|exact IHt]. apply Nat.leb_le in E. assert (nth_error (cells w0) x = None) as -> by (apply nth_error_None; lia). exact IHt.
    - assert (Ht : nth_error (cells w0) t = Some (b', o')).
      { rewrite <- (firstn_skipn t (cells w0)). assert (Lt : t < length (cells w0)). { destruct (le_lt_dec (length (cells w0)) t) as [L|L]; [|exact L]. rewrite skipn_all2 in Hs by exact L. discriminate. }
        rewrite nth_error_app2; rewrite firstn_length_le by lia; [|lia]. rewrite Nat.sub_diag, Hs. reflexivity. }
      assert (Hs' : skipn (S t) (cells w0) = cs). { clear - Hs. revert t Hs. generalize (cells w0). induction l as [|c l IHl]; intros [|t] Hs; cbn in *; try discriminate; [injection Hs as _ ->; reflexivity|]. apply IHl in Hs. exact Hs. }
      assert (ND : forall o ts d, nth_error (objects w) o = Some (Some (ts, d)) -> exists d0, nth_error (objects w0) o = Some (Some (ts, d0))).
      { intros o ts d Ho. destruct ST as (_ & E). assert (X : nth_error (map (option_map fst) (objects w)) o = Some (Some ts)) by (rewrite nth_error_map, Ho; reflexivity).
        rewrite E, nth_error_map in X. destruct (nth_error (objects w0) o) as [[[ts0 d0]|]|]; cbn in X; try discriminate. injection X as ->. exists d0. reflexivity. }
      cbn [notifyFrom]. rewrite (alive_tokens w0 w t ST).
      destruct ((b' =? b) && alive w0 t) eqn:E.
      + apply andb_true_iff in E. destruct E as (Eb & Ea). destruct (alive_owner w0 a t R Ea) as (o & ts & d0 & Ho & Hin & Hc). rewrite Ht in Hc. cbn in Hc. injection Hc as ->.
        (* the object is there *)
        assert (Hw : exists d, nth_error (objects w) o = Some (Some (ts, d))).
        { destruct ST as (_ & E'). assert (X : nth_error (map (option_map fst) (objects w)) o = Some (Some ts)) by (rewrite E', nth_error_map, Ho; reflexivity).
          rewrite nth_error_map in X. destruct (nth_error (objects w) o) as [[[ts1 d1]|]|]; cbn in X; try discriminate. injection X as ->. exists d1. reflexivity. }
        destruct Hw as (d & Hw). unfold call, getObject. rewrite Hw.
        assert (Lo : o < length (objects w)) by (apply nth_error_Some; congruence).
        set (w1 := mkWorld (cells w) (setObject (objects w) o (Some (ts, handle m d)))).
        assert (ST1 : sameTokens w0 w1).
        { destruct ST as (Ec & Em). split; [exact Ec|]. cbn. rewrite <- Em. clear - Hw. revert o Hw. generalize (objects w). induction l as [|x l IHl]; intros [|o] Hw; cbn in *; try discriminate; [injection Hw as ->; reflexivity|]. f_equal. apply IHl, Hw. }
        destruct (IH (S t) w1 ST1 Hs') as (w' & N & ST' & Dl). exists w'. split; [exact N|]. split; [exact ST'|].
        intros p ts' d' Hp. destruct (ND p ts' d' Hp) as (d0' & Hp0). destruct (rl_live _ _ R _ _ _ Hp0) as (bs & _ & Nd & _ & C).
        rewrite (due_split b w0 t ts' Nd), Ht, Eb. destruct (Nat.eq_dec p o) as [->|Hpo].
        * rewrite Hw in Hp. injection Hp as <- <-. destruct (in_dec Nat.eq_dec t ts) as [_|H]; [|contradiction].
          rewrite (Dl o ts (handle m d)); [|cbn; apply nth_set_same, Lo]. rewrite repeatedly_comm, Nat.add_1_r. reflexivity.
        * destruct (in_dec Nat.eq_dec t ts') as [H|_]; [exfalso; specialize (C t H); rewrite Ht in C; cbn in C; congruence|]. rewrite Nat.add_0_r. apply Dl. cbn. rewrite nth_set_other by exact Hpo. exact Hp.
      + destruct (IH (S t) w ST Hs') as (w' & N & ST' & Dl). exists w'. split; [exact N|]. split; [exact ST'|].
        intros p ts' d' Hp. destruct (ND p ts' d' Hp) as (d0' & Hp0). destruct (rl_live _ _ R _ _ _ Hp0) as (bs & _ & Nd & _ & C).
        rewrite (due_split b w0 t ts' Nd), Ht. rewrite (Dl p ts' d' Hp). do 4 f_equal.
        destruct (in_dec Nat.eq_dec t ts') as [H|_]; [|lia]. apply andb_false_iff in E. destruct E as [E|E]; [rewrite E; lia|].
        rewrite (owner_alive w0 p ts' d0' t Hp0 H) in E. discriminate.
  Qed.

  Lemma due_count (w : world D) b ts bs : map Some bs = map (fun t => option_map fst (nth_error (cells w) t)) ts -> due b w 0 ts = count_occ Nat.eq_dec bs b.
  Proof.
    unfold due. revert bs. induction ts as [|t ts IH]; intros [|c bs] H; cbn in H; try discriminate; [reflexivity|]. injection H as H1 H2. cbn [filter count_occ]. replace (0 <=? t) with true by reflexivity. cbn [andb].
    specialize (IH bs H2). destruct (nth_error (cells w) t) as [[b' o']|]; cbn in H1; [|discriminate]. injection H1 as <-.
    destruct (c =? b) eqn:E; destruct (Nat.eq_dec c b) as [Q|Q]; try (apply Nat.eqb_eq in E; congruence); try (apply Nat.eqb_neq in E; congruence); cbn [length]; rewrite IH; reflexivity.
  Qed.

  Lemma related_notify w a b m : related w a -> exists w', notifyFrom handle b m w 0 (cells w) = Ok w' /\ related w' (map (receives b m) a).
  Proof.
    intros R. destruct (delivered b m w a R (cells w) 0 w (conj eq_refl eq_refl) eq_refl) as (w' & N & (Ec & Em) & Dl). exists w'. split; [exact N|].
    assert (Len : length (objects w') = length (objects w)) by (rewrite <- (map_length (option_map fst) (objects w')), Em, map_length; reflexivity).
    assert (Dead : forall o, nth_error (objects w') o = Some None <-> nth_error (objects w) o = Some None).
    { intros o. assert (X : nth_error (map (option_map fst) (objects w')) o = nth_error (map (option_map fst) (objects w)) o) by (rewrite Em; reflexivity). rewrite !nth_error_map in X.
      destruct (nth_error (objects w') o) as [[[ts d]|]|], (nth_error (objects w) o) as [[[ts' d']|]|]; cbn in X; split; intros; try discriminate; auto. }
    constructor.
    - rewrite map_length, Len. apply (rl_length _ _ R).
    - intros o. rewrite Dead, (rl_dead _ _ R o), nth_error_map. destruct (nth_error a o) as [[[bs d]|]|]; cbn; split; intros; try discriminate; auto.
    - intros o ts d' H. destruct (nth_error (objects w) o) as [[[ts0 d]|]|] eqn:E.
      + assert (Q := Dl o ts0 d E). rewrite H in Q. injection Q as -> ->. destruct (rl_live _ _ R o ts0 d E) as (bs & A & Nd & B & C). exists bs.
        rewrite nth_error_map, A. cbn. rewrite (due_count w b ts0 bs B). rewrite Ec. auto.
      + apply Dead in E. congruence.
      + apply nth_error_None in E. assert (o < length (objects w')) by (apply nth_error_Some; congruence). lia.
  Qed.

  Lemma set_app_last (l : list (option (list nat * D))) x y : setObject (l ++ [x]) (length l) y = l ++ [y].
  Proof. induction l as [|z l IH]; cbn; [reflexivity|]. f_equal. exact IH. Qed.
  Lemma nth_last (l : list (option (list nat * D))) x : nth_error (l ++ [x]) (length l) = Some x.
  Proof. rewrite nth_error_app2, Nat.sub_diag by lia. reflexivity. Qed.

  Lemma related_item w a i a' : related w a -> idealStep a i = Some a' -> exists w', run handle w (itemOps w i) = Ok w' /\ related w' a'.
  Proof.
    intros R H. destruct i as [[d|o b|o|o|o|o|b m]|o b]; cbn [idealStep] in H; try discriminate; cbn [itemOps]; unfold subscribeElement; cbn [run perform].
    - injection H as <-. eexists. split; [reflexivity|]. apply related_new; [exact R|reflexivity].
    - assert (L := related_lookup w a o R). destruct (lookup a o) as [[bs d]|] eqn:E; [|discriminate]. destruct L as (ts & G). rewrite G. injection H as <-. eexists. split; [reflexivity|]. apply related_subscribe; assumption.
    - assert (L := related_lookup w a o R). destruct (lookup a o) as [[bs d]|] eqn:E; [|discriminate]. destruct L as (ts & G). rewrite G. injection H as <-. eexists. split; [reflexivity|]. apply related_kill; assumption.
    - assert (L := related_lookup w a o R). destruct (lookup a o) as [[bs d]|] eqn:E; [|discriminate]. destruct L as (ts & G). rewrite G. injection H as <-. eexists. split; [reflexivity|].
      apply related_set; [exact R|apply (getObject_nth _ _ _ G)|constructor|reflexivity|intros t []].
    - injection H as <-. destruct (related_notify w a b m R) as (w' & N & R'). rewrite N. exists w'. split; [reflexivity|exact R'].
    - assert (L := related_lookup w a o R). destruct (lookup a o) as [[bs d]|] eqn:E; [|discriminate]. destruct L as (ts & G). rewrite G. injection H as <-.
      assert (R1 := related_subscribe w a o b ts d bs R G E). set (w1 := mkWorld (cells w ++ [(b, o)]) _) in *.
      assert (G1 : getObject w1 o = Some (ts ++ [length (cells w)], d)) by (unfold getObject, w1; cbn; rewrite nth_set_same; [reflexivity|apply (getObject_nth _ _ _ G)]).
      rewrite G1. assert (Len : length (objects w1) = length (objects w)) by (unfold w1; cbn; apply set_length). unfold getObject at 1. cbn [objects]. rewrite <- Len, nth_last, set_app_last.
      eexists. split; [reflexivity|]. apply (related_new w1 _ None R1 I).
  Qed.
  Lemma related_items h : forall w a a', related w a -> idealRun a h = Some a' -> exists w', itemsRun w h = Ok w' /\ related w' a'.
  Proof.
    induction h as [|i h IH]; intros w a a' R H; cbn in H |- *; [injection H as <-; exists w; auto|].
    destruct (idealStep a i) as [a1|] eqn:E; [|discriminate]. destruct (related_item w a i a1 R E) as (w1 & -> & R1). exact (IH w1 a1 a' R1 H).
  Qed.
  Lemma related_data w a : related w a -> dataOf (objects w) = dataOf a.
  Proof.
    intros R. apply nth_ext with (d := None) (d' := None); [unfold dataOf; rewrite !map_length; apply (rl_length _ _ R)|]. intros n Hn. unfold dataOf in *. rewrite map_length in Hn.
    destruct (nth_error (objects w) n) as [[[ts d]|]|] eqn:E.
    - destruct (rl_live _ _ R n ts d E) as (bs & A & _). rewrite (nth_indep _ None (option_map snd (Some (ts, d)))) by (rewrite map_length; exact Hn).
      rewrite (nth_indep (map _ a) None (option_map snd (Some (bs, d)))) by (rewrite map_length, <- (rl_length _ _ R); exact Hn). rewrite !map_nth, (nth_error_nth _ _ _ E), (nth_error_nth _ _ _ A). reflexivity.
    - assert (A := proj1 (rl_dead _ _ R n) E). change None with (@option_map (list nat * D) D snd None). rewrite !map_nth, (nth_error_nth _ _ _ E), (nth_error_nth _ _ _ A). reflexivity.
    - apply nth_error_None in E. lia.
  Qed.

  Lemma related_initial : related initial [].
  Proof. constructor; cbn; [reflexivity|intros [|o]; cbn; split; discriminate|intros [|o] ts d H; discriminate]. Qed.

  (** C123: as long as no listener is copied or moved - except for the copy that subscribing an element returns and the caller drops -, no
      callback refers to an object that does not exist, and in every history every object has handled exactly the messages of the broadcasters
      that it has subscribed to, as often as it has subscribed *)
  Theorem C123_no_copies_partial h a : idealRun [] h = Some a -> exists w, itemsRun initial h = Ok w /\ dataOf (objects w) = dataOf a.
  Proof. intros H. destruct (related_items h initial [] a related_initial H) as (w & E & R). exists w. split; [exact E|apply related_data, R]. Qed.

  (** C124: a control routine that is made by the factory: in every history before (without copies), every element of the assembler is
      subscribed once more to the nonlinear solver, and nothing else changes *)
  Theorem C124_factory h a w fes b : idealRun [] h = Some a -> itemsRun initial h = Ok w ->
    (forall o, In o fes -> exists x, lookup a o = Some x) ->
    exists w', run handle w (create (length (objects w)) fes b) = Ok w' /\
    related w' (map (fun p => option_map (fun x => (fst x ++ repeat b (count_occ Nat.eq_dec fes (fst p)), snd x)) (snd p)) (combine (seq 0 (length a)) a) ++ repeat None (length fes)).
  Proof.
    intros Ha Hw Hf. destruct (related_items h initial [] a related_initial Ha) as (w0 & E & R). rewrite Hw in E. injection E as <-. clear Ha Hw h.
    assert (Gen : forall fes w a, related w a -> (forall o, In o fes -> exists x, lookup a o = Some x) -> exists w' a', run handle w (create (length (objects w)) fes b) = Ok w' /\ related w' a' /\
       length a' = length a + length fes /\ (forall o, o < length a -> nth_error a' o = match nth_error a o with Some (Some (bs, d)) => Some (Some (bs ++ repeat b (count_occ Nat.eq_dec fes o), d)) | r => r end) /\
       (forall o, length a <= o < length a' -> nth_error a' o = Some None)).
    { clear. induction fes as [|o fes IH]; intros w a R Hf.
      - exists w, a. split; [reflexivity|]. split; [exact R|]. split; [cbn; lia|]. split; [|lia]. intros o Ho. destruct (nth_error a o) as [[[bs d]|]|]; auto. cbn. rewrite app_nil_r. reflexivity.
      - destruct (Hf o (or_introl eq_refl)) as ([bs d] & L). set (a1 := setObject a o (Some (bs ++ [b], d)) ++ [None]).
        assert (S1 : idealStep a (SubscribeElement o b) = Some a1) by (cbn; rewrite L; reflexivity).
        destruct (related_item w a _ a1 R S1) as (w1 & E1 & R1). destruct (lookup_valid _ _ _ L) as (L1 & L2).
        assert (Len1 : length a1 = S (length a)) by (unfold a1; rewrite app_length, set_length; cbn; lia).
        assert (A1 : forall p, p < length a -> p <> o -> nth_error a1 p = nth_error a p) by (intros p Hp Hpo; unfold a1; rewrite nth_error_app1 by (rewrite set_length; exact Hp); apply nth_set_other, Hpo).
        assert (A2 : nth_error a1 o = Some (Some (bs ++ [b], d))) by (unfold a1; rewrite nth_error_app1 by (rewrite set_length; exact L2); apply nth_set_same, L2).
        assert (A3 : nth_error a1 (length a) = Some None) by (unfold a1; rewrite nth_error_app2 by (rewrite set_length; lia); rewrite set_length, Nat.sub_diag; reflexivity).
        destruct (IH w1 a1 R1) as (w' & a' & E' & R' & Len' & A' & B').
        { intros p Hp. destruct (Hf p (or_intror Hp)) as (x & Lp). destruct (lookup_valid _ _ _ Lp) as (P1 & P2). unfold lookup. destruct (Nat.eq_dec p o) as [->|Hpo]; [rewrite A2; eexists; reflexivity|]. rewrite (A1 p P2 Hpo), P1. eexists; reflexivity. }
        exists w', a'. split.
        + cbn [create]. cbn [itemOps] in E1. assert (App : forall h1 w h2 w1, run handle w h1 = Ok w1 -> run handle w (h1 ++ h2) = run handle w1 h2).
          { clear. induction h1 as [|x h1 IHh]; intros w h2 w1 H; cbn in H |- *; [injection H as <-; reflexivity|]. destruct (perform handle w x); try discriminate. apply IHh, H. }
          rewrite (App _ _ _ _ E1). replace (S (length (objects w))) with (length (objects w1)); [exact E'|]. rewrite (rl_length _ _ R1), Len1, (rl_length _ _ R). reflexivity.
        + split; [exact R'|]. split; [rewrite Len', Len1; cbn; lia|]. split.
          * intros p Hp. rewrite (A' p) by lia. cbn [count_occ]. destruct (Nat.eq_dec o p) as [<-|Hpo].
            -- rewrite A2, L1. rewrite <- app_assoc. reflexivity.
            -- rewrite (A1 p Hp) by congruence. reflexivity.
          * intros p Hp. destruct (Nat.eq_dec p (length a)) as [->|Hpa]; [rewrite (A' (length a)) by lia; rewrite A3; reflexivity|]. apply B'. lia. }
    destruct (Gen fes w a R Hf) as (w' & a' & E' & R' & Len' & A' & B'). exists w'. split; [exact E'|].
    match goal with |- related w' ?x => replace x with a'; [exact R'|] end.
    assert (Lc : length (combine (seq 0 (length a)) a) = length a) by (rewrite combine_length, seq_length; lia).
    apply nth_ext with (d := None) (d' := None); [rewrite app_length, map_length, repeat_length, Lc; exact Len'|]. intros n Hn.
    destruct (lt_dec n (length a)) as [L|L].
    - rewrite app_nth1 by (rewrite map_length, Lc; exact L). specialize (A' n L).
      set (f := fun p : nat * option (list nat * D) => option_map (fun x => (fst x ++ repeat b (count_occ Nat.eq_dec fes (fst p)), snd x)) (snd p)).
      rewrite (nth_indep (map f _) None (f (0, None))) by (rewrite map_length, Lc; exact L). rewrite map_nth. rewrite combine_nth by apply seq_length. rewrite seq_nth by exact L. cbn [Nat.add].
      destruct (nth_error a n) as [x|] eqn:En; [|apply nth_error_None in En; lia]. rewrite (nth_error_nth a n None En).
      destruct x as [[bs d]|]; rewrite (nth_error_nth _ _ None A'); reflexivity.
    - rewrite app_nth2 by (rewrite map_length, Lc; lia). rewrite nth_repeat. apply nth_error_nth. apply B'. lia.
  Qed.

  (** C124: so after one call of the factory every element handles every message of the solver once *)
  Theorem C124_once a fes b m o d : NoDup fes -> In o fes -> lookup a o = Some ([], d) ->
    nth_error (map (receives b m) (map (fun p => option_map (fun x => (fst x ++ repeat b (count_occ Nat.eq_dec fes (fst p)), snd x)) (snd p)) (combine (seq 0 (length a)) a) ++ repeat None (length fes))) o
      = Some (Some ([b], handle m d)).
  Proof.
    intros N Hin L. destruct (lookup_valid _ _ _ L) as (L1 & L2). assert (Lc : length (combine (seq 0 (length a)) a) = length a) by (rewrite combine_length, seq_length; lia).
    rewrite nth_error_map, nth_error_app1 by (rewrite map_length, Lc; exact L2). rewrite nth_error_map.
    assert (C : nth_error (combine (seq 0 (length a)) a) o = Some (o, Some ([], d))).
    { rewrite (nth_error_nth' _ (0, None)) by (rewrite Lc; exact L2). rewrite combine_nth by apply seq_length. rewrite seq_nth by exact L2. rewrite (nth_error_nth _ _ _ L1). reflexivity. }
    rewrite C. cbn. rewrite (proj1 (NoDup_count_occ' Nat.eq_dec fes) N o Hin). cbn. destruct (Nat.eq_dec b b); [|congruence]. reflexivity.
  Qed.
End Spec.

(** C123: the temporary that is subscribed, copied and destroyed: the next message reaches an object that does not exist *)
Theorem C123_temporary_refuted {D M} (handle : M -> D -> D) d b m : run handle initial (temporary 0 d b ++ [Notify b m]) = Undefined.
Proof. cbn. rewrite Nat.eqb_refl. reflexivity. Qed.
(** C123: so do messages after objects in a vector were moved to a larger one *)
Theorem C123_moved_refuted {D M} (handle : M -> D -> D) d b m : run handle initial [New d; SubscribeTo 0 b; Move 0; Destroy 0; Notify b m] = Undefined.
Proof. cbn. rewrite Nat.eqb_refl. reflexivity. Qed.
(** C123: a copy of a listener handles no messages, it makes the original handle them even after that has unsubscribed *)
Theorem C123_copy_refuted {D M} (handle : M -> D -> D) d b m : exists w,
  run handle initial [New d; SubscribeTo 0 b; Copy 0; UnSubscribeAll 0; Notify b m] = Ok w /\ dataOf (objects w) = [Some (handle m d); Some d].
Proof. eexists. split; [cbn; rewrite Nat.eqb_refl; reflexivity|reflexivity]. Qed.

(** C124: two control routines made with the same solver and assembler: every correction is applied twice to the elements *)
Theorem C124_twice_refuted {D M} (handle : M -> D -> D) d b m : exists w,
  run handle initial ([New d] ++ create 1 [0] b ++ create 2 [0] b ++ [Notify b m]) = Ok w /\ dataOf (objects w) = [Some (handle m (handle m d)); None; None].
Proof. eexists. split; [cbn; rewrite Nat.eqb_refl; reflexivity|reflexivity]. Qed.

(** A history that meets the hypotheses: two loggers, two elements, a listener that ends *)
Example C123_example : exists a w, let h := [Plain (New 0); Plain (New 100); SubscribeElement 0 7; Plain (SubscribeTo 1 7); Plain (SubscribeTo 1 8); Plain (Notify 7 1); Plain (UnSubscribeAll 1);
    Plain (Notify 8 10); Plain (Notify 7 3); Plain (Destroy 0); Plain (Notify 7 5)] in
  idealRun Nat.add [] h = Some a /\ itemsRun Nat.add initial h = Ok w /\ dataOf (objects w) = [None; Some 101; None].
Proof. do 2 eexists. split; [reflexivity|]. split; reflexivity. Qed.
Print Assumptions C123_no_copies_partial.
Print Assumptions C124_factory.
Print Assumptions C124_once.
