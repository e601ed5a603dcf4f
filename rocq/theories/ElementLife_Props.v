(** Properties C150 and C151: element objects that are used again. *)

From Coq Require Import List ZArith Bool Lia.
From Verif Require Import ElementLife_Model.
Import ListNotations.
Local Open Scope Z_scope.

(** ** What a user expects an element object to be

    The number of parameters chosen last, the grid element bound last, the integration rule given with it, and the updates of the state since then, in order.
    Operations that threw an exception had no effect. *)
Section Wanted.
Context {element points request correction : Type}.
Notation op := (operation element points request correction).
Record wanted := mkWanted { w_number : Z; w_bound : option (element * option points); w_updates : list (request * correction) }.

Definition wants (w : wanted) (o : op * bool) : wanted :=
  match o with
  | (Bind e, true) => mkWanted (w_number w) (Some (e, None)) []
  | (BindRule r e, true) => mkWanted (w_number w) (Some (e, Some r)) []
  | (SetType n, true) => mkWanted n (w_bound w) []
  | (Update q c, true) => mkWanted (w_number w) (w_bound w) (w_updates w ++ [(q, c)])
  | (_, false) => w
  end.

(** A new object that is used in the shortest way *)
Definition shortest (w : wanted) : list op :=
  match w_bound w with None => [] | Some (e, None) => [Bind e] | Some (e, Some r) => [BindRule r e] end ++ map (fun u => Update (fst u) (snd u)) (w_updates w).

(** every operation of the history succeeded *)
Definition allDone (t : list (op * bool)) : Prop := forall o b, In (o, b) t -> b = true.

(** the element was bound always with an integration rule, or never *)
Definition ruleAlways (l : list op) : Prop := forall e, ~ In (Bind e) l.
Definition ruleNever (l : list op) : Prop := forall r e, ~ In (BindRule r e) l.
(** only available numbers of parameters are asked for *)
Definition asks (ok : Z -> bool) (l : list op) : Prop := forall n, In (SetType n) l -> ok n = true.
End Wanted.
Arguments wanted : clear implicits.

Lemma history_app {S O : Type} (apply : S -> O -> result S) l1 : forall l2 s,
  history apply s (l1 ++ l2) = match history apply s l1 with
    | Some (s1, t1) => match history apply s1 l2 with Some (s2, t2) => Some (s2, t1 ++ t2) | None => None end
    | None => None end.
Proof.
  induction l1 as [|o l1 IH]; intros l2 s; cbn [history app]; [destruct (history apply s l2) as [[? ?]|]; reflexivity|].
  destruct (apply s o) as [s1|s1|]; [| |reflexivity]; rewrite IH; destruct (history apply s1 l1) as [[s2 t2]|]; auto;
    destruct (history apply s2 l2) as [[s3 t3]|]; reflexivity.
Qed.

(** A history that ends with one more operation *)
Lemma history_snoc {S O : Type} (apply : S -> O -> result S) l o s s1 t1 : history apply s l = Some (s1, t1) ->
  history apply s (l ++ [o]) = match apply s1 o with Done s2 => Some (s2, t1 ++ [(o, true)]) | Throws s2 => Some (s2, t1 ++ [(o, false)]) | Undefined => None end.
Proof. intros H. rewrite history_app, H. cbn [history]. destruct (apply s1 o); reflexivity. Qed.

Section Enhanced.
Context {element points request correction output ivar : Type}.
Variables (dim : nat) (nodes : element -> nat) (defaultRule : element -> points) (gradients : bool) (zero : Z -> ivar)
  (sameSize : request -> correction -> bool)
  (step : element -> points -> Z * option element -> request -> correction -> ivar -> ivar).
Notation op := (operation element points request correction).
Notation av := (available dim gradients).
Notation apply := (applyEas dim nodes defaultRule gradients zero sameSize step false).
Notation make n := (makeEas (element := element) (points := points) dim gradients zero false n).
Notation life := (@easLife element points ivar).

(** a new object, used in the shortest way, all operations succeed *)
Definition fresh (w : wanted element points request correction) (s : life) : Prop :=
  exists s0 t, make (w_number w) = Done s0 /\ history apply s0 (shortest w) = Some (s, t) /\ allDone t.

Lemma makes n : make n = Done (mkEasLife None None 0 None None (0, None) n (zero 0)).
Proof. unfold makeEas, setEASType, applicable. cbn. destruct (enhanceable dim 0); cbn; rewrite andb_false_r; reflexivity. Qed.

(** the form of the states *)
Definition form (s : life) (w : wanted element points request correction) : Prop :=
  parameters s = w_number w /\ av (w_number w) = true /\
  match w_bound w with
  | None => view s = None /\ rule s = None /\ nodesKnown s = 0%nat /\ used s = None /\ geometry s = None /\ modes s = (0, None) /\ alpha s = zero 0
  | Some (e, r) => view s = Some e /\ rule s = r /\ nodesKnown s = nodes e /\ used s = Some (match r with Some r => r | None => defaultRule e end) /\
                   geometry s = Some e /\ modes s = (w_number w, Some e)
  end.

Lemma form_bind s w (r : option points) e : form s w -> rule s = r ->
  exists s', apply s (Bind e) = Done s' /\ form s' (mkWanted (w_number w) (Some (e, r)) []) /\
    s' = mkEasLife (Some e) r (nodes e) (Some (match r with Some r => r | None => defaultRule e end)) (Some e) (w_number w, Some e) (w_number w) (zero (w_number w)).
Proof.
  intros (P & A & _) R. cbn. unfold bindEas, bindEnhanced, bindElastic. cbn. rewrite P, A, R. eexists. split; [reflexivity|]. split; [|reflexivity].
  split; [reflexivity|]. split; [exact A|]. cbn. auto 10.
Qed.

Lemma form_bindrule s w r e : form s w ->
  exists s', apply s (BindRule r e) = Done s' /\ form s' (mkWanted (w_number w) (Some (e, Some r)) []) /\
    s' = mkEasLife (Some e) (Some r) (nodes e) (Some r) (Some e) (w_number w, Some e) (w_number w) (zero (w_number w)).
Proof.
  intros (P & A & _). cbn. unfold bindRuleEas, bindEas, bindEnhanced, bindElastic. cbn. rewrite P, A. eexists. split; [reflexivity|]. split; [|reflexivity].
  split; [reflexivity|]. split; [exact A|]. cbn. auto 10.
Qed.

Lemma fresh_bound n e r s : av n = true ->
  (fresh (mkWanted n (Some (e, r)) []) s <->
   s = mkEasLife (Some e) r (nodes e) (Some (match r with Some r => r | None => defaultRule e end)) (Some e) (n, Some e) n (zero n)).
Proof.
  intros A. unfold fresh, shortest. cbn [w_number w_bound w_updates map]. rewrite makes, app_nil_r.
  assert (E : history apply (mkEasLife None None 0 None None (0, None) n (zero 0)) (match r with None => [Bind e] | Some r => [BindRule r e] end)
    = Some (mkEasLife (Some e) r (nodes e) (Some (match r with Some r => r | None => defaultRule e end)) (Some e) (n, Some e) n (zero n),
        [(match r with None => Bind e | Some r => BindRule r e end, true)])).
  { destruct r; cbn; unfold bindRuleEas, bindEas, bindEnhanced, bindElastic; cbn; rewrite A; reflexivity. }
  split.
  - intros (s0 & t & H1 & H2 & _). injection H1 as <-. destruct r; rewrite E in H2; injection H2 as <- <-; reflexivity.
  - intros ->. destruct r; eexists _, _; (split; [reflexivity|]; split; [exact E|]); intros o b [H|[]]; congruence.
Qed.

Lemma fresh_update w s q c s' : fresh w s -> apply s (Update q c) = Done s' -> fresh (mkWanted (w_number w) (w_bound w) (w_updates w ++ [(q, c)])) s'.
Proof.
  intros (s0 & t & M & H & D) A. exists s0, (t ++ [(Update q c, true)]). split; [exact M|]. split.
  - unfold shortest. cbn [w_bound w_updates]. rewrite map_app, app_assoc. cbn [map fst snd]. rewrite (history_snoc _ _ _ _ _ _ H), A. reflexivity.
  - intros o b I. apply in_app_or in I as [I|[I|[]]]; [eauto|congruence].
Qed.

Lemma form_update s w q c s' : form s w -> apply s (Update q c) = Done s' -> form s' (mkWanted (w_number w) (w_bound w) (w_updates w ++ [(q, c)])).
Proof.
  intros (P & A & B) H. cbn [applyEas] in H. unfold updateEas in H.
  destruct (applicable dim s); cbn [negb] in H; [|discriminate]. destruct (fst (modes s) =? 0) eqn:Z0.
  - injection H as <-. split; [exact P|]. split; [exact A|exact B].
  - destruct (sameSize q c); cbn [negb] in H; [|discriminate]. destruct (view s) as [e|] eqn:V; [|discriminate]. destruct (used s) as [ps|] eqn:U; [|discriminate].
    injection H as <-. split; [exact P|]. split; [exact A|]. cbn [w_bound]. destruct (w_bound w) as [[e0 r]|]; [|destruct B as (B & _); congruence].
    cbn. exact B.
Qed.

Lemma form_throw s w o s' : form s w -> asks av [o] -> apply s o = Throws s' -> s' = s.
Proof.
  intros F K H. destruct o as [e|r e|n|q c].
  - destruct (form_bind s w (rule s) e F eq_refl) as (x & E & _). congruence.
  - destruct (form_bindrule s w r e F) as (x & E & _). congruence.
  - cbn [applyEas] in H. unfold setEASType in H. destruct (negb (n =? 0) && negb (applicable dim s)); [congruence|].
    specialize (K n (or_introl eq_refl)). rewrite K in H. destruct (geometry s); discriminate.
  - cbn [applyEas] in H. unfold updateEas in H. destruct (negb (applicable dim s)); [congruence|]. destruct (fst (modes s) =? 0); [discriminate|].
    destruct (negb (sameSize q c)); [congruence|]. destruct (view s), (used s); discriminate.
Qed.

Lemma form_set s w n s' : form s w -> av n = true -> apply s (SetType n) = Done s' ->
  form s' (mkWanted n (w_bound w) []) /\ fresh (mkWanted n (w_bound w) []) s'.
Proof.
  intros (P & A & B) K H. cbn [applyEas] in H. unfold setEASType in H. destruct (negb (n =? 0) && negb (applicable dim s)); [discriminate|].
  destruct (w_bound w) as [[e r]|] eqn:W.
  - destruct B as (B1 & B2 & B3 & B4 & B5 & B6). rewrite B5, K in H. injection H as <-. rewrite B1, B2, B3, B4. split.
    + split; [reflexivity|]. split; [exact K|]. cbn. auto 10.
    + apply fresh_bound; [exact K|reflexivity].
  - destruct B as (B1 & B2 & B3 & B4 & B5 & B6 & B7). rewrite B5, B1, B2, B3, B4, B6 in H. cbn in H. injection H as <-. split.
    + split; [reflexivity|]. split; [exact K|]. cbn. auto 10.
    + eexists _, []. rewrite makes. split; [reflexivity|]. split; [reflexivity|]. intros o b [].
Qed.

Lemma reuse n0 s0 : av n0 = true -> make n0 = Done s0 -> forall l s t, asks av l -> ruleAlways l \/ ruleNever l ->
  history apply s0 l = Some (s, t) ->
  let w := fold_left wants t (mkWanted n0 None []) in form s w /\ fresh w s /\ (ruleNever l -> rule s = None).
Proof.
  intros A0 M l. induction l as [|o l IH] using rev_ind; intros s t K R H.
  { cbn in H. injection H as <- <-. cbn. rewrite makes in M. injection M as <-. split; [|split; [|reflexivity]].
    - split; [reflexivity|]. split; [exact A0|]. cbn. auto 10.
    - eexists _, []. rewrite makes. split; [reflexivity|]. split; [reflexivity|]. intros o b []. }
  assert (K1 : asks av l) by (intros n I; apply K, in_or_app; auto).
  assert (K2 : asks av [o]) by (intros n I; apply K, in_or_app; auto).
  assert (R1 : ruleAlways l \/ ruleNever l).
  { destruct R as [R|R]; [left; intros e I; apply (R e), in_or_app; auto|right; intros r e I; apply (R r e), in_or_app; auto]. }
  destruct (history apply s0 l) as [[s1 t1]|] eqn:E; [|rewrite history_app, E in H; discriminate].
  destruct (IH s1 t1 K1 R1 eq_refl) as (F & Fr & N). rewrite (history_snoc _ _ _ _ _ _ E) in H. cbv zeta. set (w := fold_left wants t1 (mkWanted n0 None [])) in *.
  assert (N1 : ruleNever (l ++ [o]) -> rule s1 = None) by (intros Q; apply N; intros r e I; apply (Q r e), in_or_app; auto).
  destruct (apply s1 o) as [s2|s2|] eqn:Ap; [|clear R|discriminate]; injection H as <- <-; rewrite fold_left_app; cbn [fold_left]; fold w.
  - destruct o as [e|r e|n|q c]; cbn [wants].
    + assert (R2 : ruleNever (l ++ [Bind e])) by (destruct R as [R|R]; [exfalso; apply (R e), in_or_app; right; left; reflexivity|exact R]).
      destruct (form_bind s1 w None e F (N1 R2)) as (s3 & E3 & F3 & V). rewrite Ap in E3. injection E3 as <-. split; [exact F3|]. split.
      * apply fresh_bound; [apply F|exact V].
      * intros _. rewrite V. reflexivity.
    + destruct (form_bindrule s1 w r e F) as (s3 & E3 & F3 & V). rewrite Ap in E3. injection E3 as <-. split; [exact F3|]. split.
      * apply fresh_bound; [apply F|exact V].
      * intros Q. exfalso. apply (Q r e), in_or_app. right. left. reflexivity.
    + destruct (form_set s1 w n s2 F (K2 n (or_introl eq_refl)) Ap) as (F3 & Fr3). split; [exact F3|]. split; [exact Fr3|].
      intros Q. specialize (N1 Q). destruct F3 as (_ & _ & B). cbn [w_bound] in B. destruct F as (_ & _ & B').
      destruct (w_bound w) as [[e r]|]; [|apply B]. destruct B as (_ & B & _), B' as (_ & B' & _). congruence.
    + split; [exact (form_update s1 w q c s2 F Ap)|]. split; [exact (fresh_update w s1 q c s2 Fr Ap)|].
      intros Q. specialize (N1 Q). assert (F3 := form_update s1 w q c s2 F Ap). destruct F3 as (_ & _ & B). cbn [w_bound] in B. destruct F as (_ & _ & B').
      destruct (w_bound w) as [[e r]|]; [|apply B]. destruct B as (_ & B & _), B' as (_ & B' & _). congruence.
  - assert (s2 = s1) as -> by exact (form_throw s1 w o s2 F K2 Ap).
    assert (W : wants w (o, false) = w) by (destruct o; reflexivity). rewrite W. auto.
Qed.

(** C150: after every history, with exceptions caught, the object is in the state of a new one that is used in the shortest way *)
Theorem C150_enhanced_partial : forall n0 s0 l s t, av n0 = true -> make n0 = Done s0 -> asks av l -> ruleAlways l \/ ruleNever l ->
  history apply s0 l = Some (s, t) -> fresh (fold_left wants t (mkWanted n0 None [])) s.
Proof. intros n0 s0 l s t A M K R H. apply (reuse n0 s0 A M l s t K R H). Qed.

(** ** C151: elements that cannot be enhanced *)
Variable value : calculation -> element -> points -> Z * option element -> ivar -> request -> output.
Notation calculate := (calculateEas dim value).
Definition supported (e : element) : Prop := (dim = 2%nat /\ (nodes e = 4%nat \/ nodes e = 9%nat)) \/ (dim = 3%nat /\ nodes e = 8%nat).

Lemma enhanceable_spec e : enhanceable dim (nodes e) = true <-> supported e.
Proof.
  unfold enhanceable, supported. rewrite !orb_true_iff, !andb_true_iff, !Nat.eqb_eq. tauto.
Qed.

(** forces, matrices and energies of a bound element are refused exactly if there are parameters and the element is not supported (the energy: if there are parameters) *)
Theorem C151_refused_partial : forall n0 s0 l s t e r q, av n0 = true -> make n0 = Done s0 -> asks av l -> ruleAlways l \/ ruleNever l ->
  history apply s0 l = Some (s, t) -> w_bound (fold_left wants t (mkWanted n0 None [])) = Some (e, r) ->
  let n := w_number (fold_left wants t (mkWanted n0 None [])) in
  (calculate s Forces q = Refused <-> n <> 0 /\ ~ supported e) /\
  (calculate s Matrix q = Refused <-> n <> 0 /\ ~ supported e) /\
  (calculate s Energy q = Refused <-> n <> 0) /\
  (forall c, n <> 0 -> ~ supported e -> updateEas dim sameSize step s q c = Throws s).
Proof.
  intros n0 s0 l s t e r q A M K R H B. cbv zeta. destruct (reuse n0 s0 A M l s t K R H) as (F & _ & _). cbv zeta in F.
  destruct F as (_ & _ & F). rewrite B in F. destruct F as (V & _ & N & U & _ & Mo).
  set (n := w_number _) in *.
  assert (Ap : applicable dim s = true <-> n = 0 \/ supported e).
  { unfold applicable. rewrite orb_true_iff, N, Mo, enhanceable_spec. cbn [fst]. rewrite Z.eqb_eq. tauto. }
  assert (Dec : supported e \/ ~ supported e) by (rewrite <- enhanceable_spec; destruct (enhanceable dim (nodes e)); auto).
  unfold calculateEas, updateEas. rewrite V, U, Mo. cbn [fst].
  destruct (applicable dim s) eqn:E; cbn [negb].
  - assert (Q : n = 0 \/ supported e) by (apply Ap; reflexivity). split; [split; [discriminate|tauto]|]. split; [split; [discriminate|tauto]|]. split.
    + destruct (Z.eqb_spec n 0) as [->|Ne]; split; try discriminate; tauto.
    + tauto.
  - assert (Q : ~ (n = 0 \/ supported e)) by (intro X; apply Ap in X; discriminate). repeat split; auto; tauto.
Qed.

(** ** Which numbers of strain parameters an element accepts: none, and those of the modes for its dimension and kind of strain *)
Definition acceptedStrain : list Z :=
  if gradients then (if Nat.eqb dim 2 then [0; 4] else [0; 9]) else (if Nat.eqb dim 2 then [0; 4; 5; 7; 11] else [0; 9; 21]).
Theorem C151_accepted_strain : dim = 2%nat \/ dim = 3%nat -> forall n e r, exists s0, make n = Done s0 /\
  ((exists s, apply s0 (Bind e) = Done s) <-> In n acceptedStrain) /\
  ((exists s, apply s0 (BindRule r e) = Done s) <-> In n acceptedStrain) /\
  (~ In n acceptedStrain -> exists s, apply s0 (Bind e) = Throws s) /\
  forall k s, apply s0 (Bind e) = Done s -> supported e -> ((exists s', apply s (SetType k) = Done s') <-> In k acceptedStrain).
Proof.
  intros D n e r. assert (A : forall k, av k = true <-> In k acceptedStrain).
  { intros k. unfold available, acceptedStrain. destruct (Z.eqb_spec k 0) as [->|Ne].
    - split; [intros _|reflexivity]. destruct gradients, (Nat.eqb dim 2); left; reflexivity.
    - destruct D as [-> | ->], gradients; cbn; rewrite ?orb_true_iff, ?Z.eqb_eq; intuition congruence. }
  eexists. split; [apply makes|]. unfold applyEas, bindRuleEas, bindEas, bindElastic, bindEnhanced. cbn [view rule nodesKnown used geometry modes parameters alpha].
  split; [|split; [|split]].
  - rewrite <- A. destruct (av n); split; intros H; [reflexivity|eexists; reflexivity|destruct H; discriminate|discriminate].
  - rewrite <- A. destruct (av n); split; intros H; [reflexivity|eexists; reflexivity|destruct H; discriminate|discriminate].
  - rewrite <- A. intros H. destruct (av n); [congruence|eexists; reflexivity].
  - intros k s H P. destruct (av n); [|discriminate]. injection H as <-. rewrite <- A. unfold setEASType, applicable. cbn [nodesKnown geometry].
    apply enhanceable_spec in P. rewrite P. cbn [orb negb]. rewrite andb_false_r.
    destruct (av k); split; intros H; [reflexivity|eexists; reflexivity|destruct H; discriminate|discriminate].
Qed.
End Enhanced.
Print Assumptions C150_enhanced_partial.
Print Assumptions C151_refused_partial.

(** ** Witnesses: elements are given by their number of nodes, an integration rule by its number of points; a calculation reports what it worked with *)
Definition w_nodes (e : nat) : nat := e.
Definition w_rule (e : nat) : nat := match e with 4%nat => 4%nat | _ => 9%nat end.
Definition w_value (k : calculation) (e ps : nat) (m : Z * option nat) (a : list Z) (q : unit) : nat * nat * (Z * option nat) * list Z := (e, ps, m, a).
Definition w_zero (n : Z) : list Z := repeat 0 (Z.to_nat n).
Definition w_step (e ps : nat) (m : Z * option nat) (q : unit) (c : Z) (a : list Z) : list Z := map (fun x => x + c) a.
Notation w_apply := (applyEas (element := nat) (points := nat) 2 w_nodes w_rule false w_zero (fun (_ : unit) (_ : Z) => true) w_step false).
Notation w_make := (makeEas (element := nat) (points := nat) 2 false w_zero false).

(** Non-vacuity: an object is bound, changed, updated, bound again and updated *)
Example C150_applies : exists s0 s t, w_make 4 = Done s0 /\
  history w_apply s0 [Bind 4%nat; SetType 5; Update tt 7; Bind 9%nat; SetType 7; Update tt 3; Update tt 2] = Some (s, t) /\
  fold_left wants t (mkWanted 4 None []) = mkWanted 7 (Some (9%nat, None)) [(tt, 3); (tt, 2)] /\
  alpha s = [5; 5; 5; 5; 5; 5; 5] /\ modes s = (7, Some 9%nat).
Proof. eexists _, _, _. split; [vm_compute; reflexivity|]. split; [vm_compute; reflexivity|]. repeat split. Qed.
(** ... and one with a triangle, whose update is refused *)
Example C151_applies : exists s0 s t, w_make 0 = Done s0 /\
  history w_apply s0 [Bind 3%nat; SetType 4; Update tt 7] = Some (s, t) /\ t = [(Bind 3%nat, true); (SetType 4, true); (Update tt 7, false)] /\ ~ supported 2 w_nodes 3%nat.
Proof. eexists _, _, _. split; [vm_compute; reflexivity|]. split; [vm_compute; reflexivity|]. split; [reflexivity|]. unfold supported, w_nodes. lia. Qed.

(** C150 is false if an integration rule was given once: it is used for all elements bound later *)
Theorem C150_rule_refuted : exists s0 s t, w_make 4 = Done s0 /\
  history w_apply s0 [BindRule 1%nat 4%nat; Bind 9%nat] = Some (s, t) /\ allDone t /\
  (forall s', fresh 2 w_nodes w_rule false w_zero (fun _ _ => true) w_step (fold_left wants t (mkWanted 4 None [])) s' -> used s' = Some 9%nat) /\
  used s = Some 1%nat /\ calculateEas 2 w_value s Forces tt = Returned (9%nat, 1%nat, (4, Some 9%nat), [0; 0; 0; 0]).
Proof.
  eexists _, _, _. split; [vm_compute; reflexivity|]. split; [vm_compute; reflexivity|]. split; [intros o b [H|[H|[]]]; congruence|]. split; [|split; reflexivity].
  intros s' (s0 & t & H1 & H2 & _). injection H1 as <-. cbn in H2. injection H2 as <- _. reflexivity.
Qed.

(** C150 is false if a number of parameters was refused: it is remembered.  The next binding throws and leaves an object that mixes the modes and the internal
    variables of the old element with the new element. *)
Theorem C150_refused_refuted : exists s0 s t, w_make 4 = Done s0 /\
  history w_apply s0 [Bind 4%nat; Update tt 7; SetType 3; Bind 9%nat] = Some (s, t) /\
  t = [(Bind 4%nat, true); (Update tt 7, true); (SetType 3, false); (Bind 9%nat, false)] /\
  calculateEas 2 w_value s Forces tt = Returned (9%nat, 9%nat, (4, Some 4%nat), [7; 7; 7; 7]).
Proof. eexists _, _, _. split; [vm_compute; reflexivity|]. split; [vm_compute; reflexivity|]. split; reflexivity. Qed.

(** C150 is false if the enhancement is listed before the elastic skill: the constructor reads the number of nodes of a skill that does not exist yet *)
Theorem C150_order_refuted : forall {element points ivar : Type} dim gradients (zero : Z -> ivar) n, n <> 0 ->
  makeEas (element := element) (points := points) dim gradients zero true n = Undefined.
Proof. intros. unfold makeEas. destruct (Z.eqb_spec n 0); [contradiction|reflexivity]. Qed.

(** C151 is false for results at points: they are computed for elements that cannot be enhanced.  That an enhancement is not supported is not noticed when it is chosen. *)
Theorem C151_result_refuted : exists s0 s t, w_make 4 = Done s0 /\ history w_apply s0 [Bind 3%nat] = Some (s, t) /\ allDone t /\ ~ supported 2 w_nodes 3%nat /\
  calculateEas 2 w_value s Forces tt = Refused /\ calculateEas 2 w_value s At tt = Returned (3%nat, 9%nat, (4, Some 3%nat), [0; 0; 0; 0]).
Proof.
  eexists _, _, _. split; [vm_compute; reflexivity|]. split; [vm_compute; reflexivity|]. split; [intros o b [H|[]]; congruence|]. split; [unfold supported, w_nodes; lia|]. split; reflexivity.
Qed.
Print Assumptions C150_rule_refuted.
Print Assumptions C150_refused_refuted.
Print Assumptions C150_order_refuted.
Print Assumptions C151_result_refuted.

(** ** Assumed stresses *)
Section Assumed.
Context {element points request correction output ivar strain : Type}.
Variables (dim : nat) (nodes : element -> nat) (defaultRule : element -> points) (zero : Z -> ivar) (pointsOf : element -> points -> list nat) (noStrain : strain)
  (inversion : element -> points -> Z * option element -> ivar -> nat -> strain -> strain)
  (sameSize : request -> correction -> bool)
  (step : element -> points -> Z * option element -> list strain -> request -> correction -> ivar -> ivar).
(** the inversion of the material does not depend on the strain with which it starts *)
Hypothesis independent : forall e ps m b i x y, inversion e ps m b i x = inversion e ps m b i y.
Notation op := (operation element points request correction).
Notation av := (stressAvailable dim).
Notation apply := (applyAs dim nodes defaultRule zero pointsOf noStrain inversion sameSize step).
Notation make n := (makeAs (element := element) (points := points) (strain := strain) dim zero n).
Notation life := (@asLife element points ivar strain).

Definition freshStress (w : wanted element points request correction) (s : life) : Prop :=
  exists t, history apply (make (w_number w)) (shortest w) = Some (s, t) /\ allDone t.

Definition restRule (e : element) (r : option points) : points := match r with Some r => r | None => defaultRule e end.
Definition initialStrains (e : element) (ps : points) (n : Z) : list strain :=
  map (fun i => inversion e ps (n, Some e) (zero n) i noStrain) (pointsOf e ps).
Definition bound (n : Z) (e : element) (r : option points) : life :=
  mkAsLife (Some e) r (nodes e) (Some (restRule e r)) (Some e) (n, Some e) n (zero n) (initialStrains e (restRule e r) n).

Lemma invert_any e ps m b is : forall l, length l = length is ->
  invertAll inversion e ps m b is l = map (fun i => inversion e ps m b i noStrain) is.
Proof. induction is as [|i is IH]; intros [|a l] L; try discriminate; cbn; [reflexivity|]. rewrite IH by (injection L; auto). f_equal. apply independent. Qed.
Lemma resize_length k : forall l, length (resize noStrain k l) = k.
Proof. induction k as [|k IH]; intros [|a l]; cbn; auto. Qed.

Definition stressForm (s : life) (w : wanted element points request correction) : Prop :=
  aParameters s = w_number w /\ av (w_number w) = true /\
  match w_bound w with
  | None => s = make (w_number w) /\ w_updates w = []
  | Some (e, r) => aView s = Some e /\ aRule s = r /\ aNodes s = nodes e /\ aUsed s = Some (restRule e r) /\ aGeometry s = Some e /\ aModes s = (w_number w, Some e)
  end.

Lemma rule_of s w : stressForm s w -> aRule s = match w_bound w with Some (_, r) => r | None => None end.
Proof. intros (_ & _ & B). destruct (w_bound w) as [[e r]|]; [apply B|]. destruct B as (-> & _). reflexivity. Qed.

Lemma stress_bind s w r e : stressForm s w -> aRule s = r -> apply s (Bind e) = Done (bound (w_number w) e r).
Proof.
  intros (P & A & _) R. cbn. unfold bindAs, initializeStress. cbn. rewrite P, A, R. unfold bound, initialStrains, restRule. do 2 f_equal.
  apply invert_any, resize_length.
Qed.
Lemma stress_bindrule s w r e : stressForm s w -> apply s (BindRule r e) = Done (bound (w_number w) e (Some r)).
Proof.
  intros (P & A & _). cbn. unfold bindRuleAs, bindAs, initializeStress. cbn. rewrite P, A. unfold bound, initialStrains, restRule. do 2 f_equal.
  apply invert_any, resize_length.
Qed.
Lemma form_bound n e r : av n = true -> stressForm (bound n e r) (mkWanted n (Some (e, r)) []).
Proof. intros A. split; [reflexivity|]. split; [exact A|]. cbn. auto 10. Qed.
Lemma form_make n : av n = true -> stressForm (make n) (mkWanted n None []).
Proof. intros A. split; [reflexivity|]. split; [exact A|]. cbn. auto. Qed.

Lemma freshStress_bound n e r : av n = true -> freshStress (mkWanted n (Some (e, r)) []) (bound n e r).
Proof.
  intros A. unfold freshStress, shortest. cbn [w_number w_bound w_updates map]. rewrite app_nil_r. assert (F := form_make n A).
  destruct r as [r|]; cbn [history].
  - rewrite (stress_bindrule _ _ r e F). eexists. split; [reflexivity|]. intros o b [H|[]]; congruence.
  - rewrite (stress_bind _ _ None e F eq_refl). eexists. split; [reflexivity|]. intros o b [H|[]]; congruence.
Qed.

Lemma freshStress_update w s q c s' : freshStress w s -> apply s (Update q c) = Done s' -> freshStress (mkWanted (w_number w) (w_bound w) (w_updates w ++ [(q, c)])) s'.
Proof.
  intros (t & H & D) A. exists (t ++ [(Update q c, true)]). split.
  - unfold shortest. cbn [w_bound w_updates w_number]. rewrite map_app, app_assoc. cbn [map fst snd]. rewrite (history_snoc _ _ _ _ _ _ H), A. reflexivity.
  - intros o b I. apply in_app_or in I as [I|[I|[]]]; [eauto|congruence].
Qed.

Lemma stressForm_update s w q c s' : stressForm s w -> apply s (Update q c) = Done s' ->
  stressForm s' (mkWanted (w_number w) (w_bound w) (w_updates w ++ [(q, c)])).
Proof.
  intros (P & A & B) H. cbn [applyAs] in H. unfold updateAs in H.
  destruct (stressApplicable dim s); cbn [negb] in H; [|discriminate]. destruct (sameSize q c); cbn [negb] in H; [|discriminate].
  destruct (aView s) as [e|] eqn:V; [|discriminate]. destruct (aUsed s) as [ps|] eqn:U; [|discriminate].
  injection H as <-. split; [exact P|]. split; [exact A|]. cbn [w_bound]. destruct (w_bound w) as [[e0 r]|]; [|destruct B as (-> & _); discriminate].
  cbn. exact B.
Qed.

Lemma stressForm_set s w n s' : stressForm s w -> av n = true -> apply s (SetType n) = Done s' ->
  exists e r, w_bound w = Some (e, r) /\ s' = bound n e r.
Proof.
  intros (P & A & B) K H. cbn [applyAs] in H. unfold setAssumedStressType in H. destruct (negb (stressApplicable dim s)); [discriminate|].
  destruct (w_bound w) as [[e r]|] eqn:W; [|destruct B as (-> & _); discriminate].
  destruct B as (B1 & B2 & B3 & B4 & B5 & B6). rewrite B1, B4, B5, K in H. unfold initializeStress in H. cbn in H. injection H as <-.
  exists e, r. split; [reflexivity|]. unfold bound, initialStrains. rewrite B2, B3. f_equal. apply invert_any, resize_length.
Qed.

Lemma stressForm_throw s w o s' : stressForm s w -> asks av [o] -> apply s o = Throws s' -> s' = s.
Proof.
  intros F K H. destruct o as [e|r e|n|q c].
  - rewrite (stress_bind s w (aRule s) e F eq_refl) in H. discriminate.
  - rewrite (stress_bindrule s w r e F) in H. discriminate.
  - cbn [applyAs] in H. unfold setAssumedStressType in H. destruct (negb (stressApplicable dim s)); [congruence|].
    specialize (K n (or_introl eq_refl)). rewrite K in H. destruct (aGeometry s), (aView s), (aUsed s); discriminate.
  - cbn [applyAs] in H. unfold updateAs in H. destruct (negb (stressApplicable dim s)); [congruence|]. destruct (negb (sameSize q c)); [congruence|].
    destruct (aView s), (aUsed s); discriminate.
Qed.

Lemma reuse_stress n0 : av n0 = true -> forall l s t, asks av l -> ruleAlways l \/ ruleNever l ->
  history apply (make n0) l = Some (s, t) ->
  let w := fold_left wants t (mkWanted n0 None []) in stressForm s w /\ freshStress w s /\ (ruleNever l -> aRule s = None).
Proof.
  intros A0 l. induction l as [|o l IH] using rev_ind; intros s t K R H.
  { cbn in H. injection H as <- <-. cbn [fold_left]. split; [apply form_make, A0|]. split; [|reflexivity].
    exists []. split; [reflexivity|]. intros o b []. }
  assert (K1 : asks av l) by (intros n I; apply K, in_or_app; auto).
  assert (K2 : asks av [o]) by (intros n I; apply K, in_or_app; auto).
  assert (R1 : ruleAlways l \/ ruleNever l).
  { destruct R as [R|R]; [left; intros e I; apply (R e), in_or_app; auto|right; intros r e I; apply (R r e), in_or_app; auto]. }
  destruct (history apply (make n0) l) as [[s1 t1]|] eqn:E; [|rewrite history_app, E in H; discriminate].
  destruct (IH s1 t1 K1 R1 eq_refl) as (F & Fr & N). rewrite (history_snoc _ _ _ _ _ _ E) in H. cbv zeta. set (w := fold_left wants t1 (mkWanted n0 None [])) in *.
  assert (N1 : ruleNever (l ++ [o]) -> aRule s1 = None) by (intros Q; apply N; intros r e I; apply (Q r e), in_or_app; auto).
  destruct (apply s1 o) as [s2|s2|] eqn:Ap; [|clear R|discriminate]; injection H as <- <-; rewrite fold_left_app; cbn [fold_left]; fold w.
  - destruct o as [e|r e|n|q c]; cbn [wants].
    + assert (R2 : ruleNever (l ++ [Bind e])) by (destruct R as [R|R]; [exfalso; apply (R e), in_or_app; right; left; reflexivity|exact R]).
      rewrite (stress_bind s1 w None e F (N1 R2)) in Ap. injection Ap as <-. assert (A := proj1 (proj2 F)).
      split; [apply form_bound, A|]. split; [apply freshStress_bound, A|reflexivity].
    + rewrite (stress_bindrule s1 w r e F) in Ap. injection Ap as <-. assert (A := proj1 (proj2 F)).
      split; [apply form_bound, A|]. split; [apply freshStress_bound, A|]. intros Q. exfalso. apply (Q r e), in_or_app. right. left. reflexivity.
    + assert (A : av n = true) by (apply K2; left; reflexivity). destruct (stressForm_set s1 w n s2 F A Ap) as (e & r & W & ->). rewrite W.
      split; [apply form_bound, A|]. split; [apply freshStress_bound, A|]. intros Q. specialize (N1 Q). rewrite (rule_of _ _ F), W in N1. subst r. reflexivity.
    + assert (F2 := stressForm_update s1 w q c s2 F Ap). split; [exact F2|]. split; [exact (freshStress_update w s1 q c s2 Fr Ap)|].
      intros Q. specialize (N1 Q). rewrite (rule_of _ _ F2). cbn [w_bound]. rewrite <- (rule_of _ _ F). exact N1.
  - assert (s2 = s1) as -> by exact (stressForm_throw s1 w o s2 F K2 Ap).
    assert (W : wants w (o, false) = w) by (destruct o; reflexivity). rewrite W. auto.
Qed.

Theorem C150_stress_partial : forall n0 l s t, av n0 = true -> asks av l -> ruleAlways l \/ ruleNever l ->
  history apply (make n0) l = Some (s, t) -> freshStress (fold_left wants t (mkWanted n0 None [])) s.
Proof. intros n0 l s t A K R H. apply (reuse_stress n0 A l s t K R H). Qed.

(** forces, matrices and energies are refused exactly for elements that are not supported *)
Variable value : calculation -> element -> points -> Z * option element -> list strain -> ivar -> request -> output.
Definition stressSupported (e : element) : Prop := (dim = 2%nat /\ nodes e = 4%nat) \/ (dim = 3%nat /\ nodes e = 8%nat).
Theorem C151_stress_partial : forall n0 l s t e r q k, av n0 = true -> asks av l -> ruleAlways l \/ ruleNever l ->
  history apply (make n0) l = Some (s, t) -> w_bound (fold_left wants t (mkWanted n0 None [])) = Some (e, r) -> k <> At ->
  (calculateAs dim value s k q = Refused <-> ~ stressSupported e).
Proof.
  intros n0 l s t e r q k A K R H B Nk. destruct (reuse_stress n0 A l s t K R H) as (F & _ & _). cbv zeta in F.
  destruct F as (_ & _ & F). rewrite B in F. destruct F as (V & _ & N & U & _ & _).
  assert (Ap : stressApplicable dim s = true <-> stressSupported e).
  { unfold stressApplicable, stressSupported. rewrite N, orb_true_iff, !andb_true_iff, !Nat.eqb_eq. tauto. }
  unfold calculateAs. rewrite V, U. destruct k; try congruence; (destruct (stressApplicable dim s); cbn [negb];
    [split; [discriminate|intros X; exfalso; apply X, Ap; reflexivity]|split; [intros _ X; apply Ap in X; discriminate|reflexivity]]).
Qed.

(** ** Which numbers of stress parameters an element accepts: those of the modes for its dimension *)
Definition acceptedStress : list Z := if Nat.eqb dim 2 then [5] else [18; 24; 30].
Theorem C151_accepted_stress : dim = 2%nat \/ dim = 3%nat -> forall n e r,
  ((exists s, apply (make n) (Bind e) = Done s) <-> In n acceptedStress) /\
  ((exists s, apply (make n) (BindRule r e) = Done s) <-> In n acceptedStress) /\
  (~ In n acceptedStress -> exists s, apply (make n) (Bind e) = Throws s) /\
  forall n0 s, apply (make n0) (Bind e) = Done s -> stressSupported e -> ((exists s', apply s (SetType n) = Done s') <-> In n acceptedStress).
Proof.
  intros D n e r. assert (A : forall k, av k = true <-> In k acceptedStress).
  { intros k. unfold stressAvailable, acceptedStress. destruct D as [-> | ->]; cbn; rewrite ?orb_true_iff, ?Z.eqb_eq; intuition congruence. }
  unfold applyAs, bindRuleAs, bindAs, makeAs. cbn [aParameters aRule aView aNodes aUsed aGeometry aModes aBeta aStrains].
  split; [|split; [|split]].
  - rewrite <- A. destruct (av n); split; intros H; [reflexivity|eexists; reflexivity|destruct H; discriminate|discriminate].
  - rewrite <- A. destruct (av n); split; intros H; [reflexivity|eexists; reflexivity|destruct H; discriminate|discriminate].
  - rewrite <- A. intros H. destruct (av n); [congruence|eexists; reflexivity].
  - intros n0 s H P. destruct (av n0); [|discriminate]. injection H as <-. rewrite <- A. unfold setAssumedStressType.
    assert (Ap : forall x, aNodes x = nodes e -> stressApplicable dim (x : life) = true).
    { intros x X. unfold stressApplicable. rewrite X, orb_true_iff, !andb_true_iff, !Nat.eqb_eq. unfold stressSupported in P. tauto. }
    rewrite Ap by reflexivity. cbn [negb initializeStress aGeometry aView aUsed].
    destruct (av n); split; intros H; [reflexivity|eexists; reflexivity|destruct H; discriminate|discriminate].
Qed.
End Assumed.
Print Assumptions C151_accepted_strain.
Print Assumptions C151_accepted_stress.
Print Assumptions C150_stress_partial.
Print Assumptions C151_stress_partial.

(** Non-vacuity: strains are the stress parameters doubled, whatever the start *)
Example C150_stress_applies : exists s t,
  history (applyAs (element := nat) (points := nat) 3 w_nodes (fun _ => 2%nat) w_zero (fun _ ps => seq 0 ps) 0 (fun _ _ _ b i _ => 2 * nth i b 0) (fun (_ : unit) (_ : Z) => true)
    (fun _ _ _ _ _ c b => map (fun x => x + c) b) ) (makeAs 3 w_zero 18) [SetType 24; Bind 8%nat; Update tt 7; SetType 24; Update tt 3; BindRule 1%nat 8%nat; Update tt 2; SetType 18; Update tt 1] = Some (s, t) /\
  aBeta s = repeat 1 18 /\ aStrains s = [2] /\ aUsed s = Some 1%nat /\ nth 0 t (Bind 0%nat, true) = (SetType 24, false).
Proof. eexists _, _. split; [vm_compute; reflexivity|]. repeat split. Qed.
