(** C139: assemblers bound to requirements in Python. *)

From Coq Require Import List Arith Bool Lia.
From Verif Require Import PythonBinding_Model.
Import ListNotations.

(** ** Specification: what the calls so far say, the last call first *)
Section History.
Context {SV PM : Type}.
Notation call := (call SV PM).

Definition creates (c : call) : bool :=
  match c with
  | makeArray _ | makeScalar _ | createRequirement | makeAssembler | makeManipulator _ | makeWriter _ | requirementOf _ => true
  | _ => false
  end.
Definition created (past : list call) : nat := length (filter creates past).

(** The last content of an array or Scalar *)
Fixpoint arrayAt (past : list call) (x : nat) : option SV :=
  match past with
  | [] => None
  | makeArray v :: past => if x =? created past then Some v else arrayAt past x
  | setArray y v :: past => if x =? y then Some v else arrayAt past x
  | _ :: past => arrayAt past x
  end.
Fixpoint scalarAt (past : list call) (x : nat) : option PM :=
  match past with
  | [] => None
  | makeScalar p :: past => if x =? created past then Some p else scalarAt past x
  | setScalar y p :: past => if x =? y then Some p else scalarAt past x
  | _ :: past => scalarAt past x
  end.
(** The requirement to which an assembler, or the assembler it was copied from, was bound last *)
Fixpoint boundTo (past : list call) (a : nat) : option nat :=
  match past with
  | [] => None
  | bind b r :: past => if a =? b then Some r else boundTo past a
  | makeManipulator b :: past => boundTo past (if a =? created past then b else a)
  | _ :: past => boundTo past a
  end.
(** The solution and the load factor that were inserted last, with the content they had then *)
Fixpoint solutionIn (past : list call) (r : nat) : option SV :=
  match past with
  | [] => None
  | insertSolution q x :: past => if r =? q then arrayAt past x else solutionIn past r
  | requirementOf a :: past =>
      if r =? created past then match boundTo past a with Some q => solutionIn past q | None => None end else solutionIn past r
  | _ :: past => solutionIn past r
  end.
Fixpoint parameterIn (past : list call) (r : nat) : option PM :=
  match past with
  | [] => None
  | insertParameter q x :: past => if r =? q then scalarAt past x else parameterIn past r
  | requirementOf a :: past =>
      if r =? created past then match boundTo past a with Some q => parameterIn past q | None => None end else parameterIn past r
  | _ :: past => parameterIn past r
  end.
(** The assembler that is used: that of a writer, or the object itself *)
Fixpoint assemblerOf (past : list call) (x : nat) : nat :=
  match past with
  | [] => x
  | makeWriter a :: past => if x =? created past then a else assemblerOf past x
  | _ :: past => assemblerOf past x
  end.

(** The object still has a name *)
Fixpoint hasName (past : list call) (x : nat) : bool :=
  match past with
  | [] => false
  | forget y :: past => negb (x =? y) && hasName past x
  | c :: past => (creates c && (x =? created past)) || hasName past x
  end.

(** What an evaluation of the object [x] has to use *)
Definition required (past : list call) (x : nat) : option (SV * PM) :=
  match boundTo past (assemblerOf past x) with
  | Some r => match solutionIn past r, parameterIn past r with Some s, Some p => Some (s, p) | _, _ => None end
  | None => None
  end.

(** ** Proof: the state agrees with the history *)
Definition agrees (past : list call) (h : heap SV PM) (x : nat) (o : object SV PM) : Prop :=
  match o with
  | anArray v => arrayAt past x = Some v /\ assemblerOf past x = x /\ boundTo past x = None
  | aScalar p => scalarAt past x = Some p /\ assemblerOf past x = x /\ boundTo past x = None
  | aRequirement s p => solutionIn past x = s /\ parameterIn past x = p /\ assemblerOf past x = x /\ boundTo past x = None
  | anAssembler b => boundTo past x = b /\ assemblerOf past x = x /\ (forall r, b = Some r -> exists s p, look h r = Some (aRequirement s p))
  | aWriter a => assemblerOf past x = a /\ exists b, look h a = Some (anAssembler b)
  end.
Record describes (past : list call) (h : heap SV PM) : Prop := {
  d_length : length (objects h) = created past;
  d_names : forall x, isNamed h x = hasName past x;
  d_bound : forall x, In x (names h) -> x < length (objects h);
  d_objects : forall x o, look h x = Some o -> agrees past h x o;
  d_fresh : forall x, created past <= x -> arrayAt past x = None /\ scalarAt past x = None /\ boundTo past x = None /\
              solutionIn past x = None /\ parameterIn past x = None /\ assemblerOf past x = x }.

Lemma isNamed_in (h : heap SV PM) x : isNamed h x = true <-> In x (names h).
Proof.
  unfold isNamed. rewrite existsb_exists. split; [intros (y & I & E); apply Nat.eqb_eq in E; now subst|].
  intros I. exists x. split; [exact I|apply Nat.eqb_refl].
Qed.
Lemma named_cons n ns x (os : list (object SV PM)) : isNamed (mkHeap os (n :: ns)) x = (x =? n) || isNamed (mkHeap os ns) x.
Proof. reflexivity. Qed.

Lemma length_setNth (l : list (object SV PM)) x o : length (setNth l x o) = length l.
Proof. revert x. induction l as [|a l IH]; intros [|x]; cbn; auto. Qed.
Lemma look_store (h : heap SV PM) x o y : x < length (objects h) -> look (store h x o) y = if y =? x then Some o else look h y.
Proof.
  unfold look, store. cbn. destruct h as [l ns]. cbn. revert x y. induction l as [|a l IH]; intros x y L; cbn in L; [lia|].
  destruct x as [|x]; destruct y as [|y]; cbn; auto. apply IH. lia.
Qed.
Lemma look_create (h : heap SV PM) o y : look (create h o) y = if y =? length (objects h) then Some o else look h y.
Proof.
  unfold look, create. cbn. destruct (Nat.eqb_spec y (length (objects h))) as [->|N].
  - rewrite nth_error_app2, Nat.sub_diag by lia. reflexivity.
  - destruct (lt_dec y (length (objects h))) as [L|L]; [now rewrite nth_error_app1|].
    rewrite nth_error_app2 by lia. destruct (y - length (objects h)) as [|k] eqn:E; [lia|]. 
    assert (nth_error (objects h) y = None) as -> by (apply nth_error_None; lia). cbn. now destruct k.
Qed.
Lemma look_bound (h : heap SV PM) x o : look h x = Some o -> x < length (objects h).
Proof. unfold look. intros H. apply nth_error_Some. congruence. Qed.

Ltac eqbs := repeat match goal with
  | |- context [?a =? ?b] => destruct (Nat.eqb_spec a b); subst; try lia; try congruence
  end.

Lemma created_cons c past : created (c :: past) = (if creates c then 1 else 0) + created past.
Proof. unfold created. cbn. destruct (creates c); reflexivity. Qed.


Definition same (past past' : list call) (x : nat) : Prop :=
  arrayAt past' x = arrayAt past x /\ scalarAt past' x = scalarAt past x /\ boundTo past' x = boundTo past x /\
  solutionIn past' x = solutionIn past x /\ parameterIn past' x = parameterIn past x /\ assemblerOf past' x = assemblerOf past x.

(** Objects keep their kind *)
Definition keepsKind (h h' : heap SV PM) : Prop :=
  (forall r s p, look h r = Some (aRequirement s p) -> exists s' p', look h' r = Some (aRequirement s' p')) /\
  (forall r b, look h r = Some (anAssembler b) -> exists b', look h' r = Some (anAssembler b')).

Lemma agrees_same past past' h h' x o : same past past' x -> keepsKind h h' -> agrees past h x o -> agrees past' h' x o.
Proof.
  intros (A & Sc & B & So & Pa & As) (K1 & K2) G. destruct o; cbn in *; rewrite ?A, ?Sc, ?B, ?So, ?Pa, ?As; try exact G.
  - destruct G as (G1 & G2 & G3). split; [exact G1|]. split; [exact G2|]. intros r E. destruct (G3 r E) as (s & p & X). exact (K1 r s p X).
  - destruct G as (G1 & b & X). split; [exact G1|]. exact (K2 _ b X).
Qed.

Lemma create_describes past h c o : describes past h -> creates c = true ->
  (forall x, x <> created past -> same past (c :: past) x) -> agrees (c :: past) (create h o) (created past) o ->
  describes (c :: past) (create h o).
Proof.
  intros [L N B O F] C SM G.
  assert (CC : created (c :: past) = S (created past)) by (rewrite created_cons, C; reflexivity).
  assert (K : keepsKind h (create h o)).
  { split; intros r x; [intros p E; exists x, p|intros E; exists x]; assert (X := look_bound h r _ E); rewrite look_create; eqbs. }
  constructor.
  - rewrite CC. cbn. rewrite app_length. cbn. lia.
  - intros x. unfold create. rewrite named_cons. change (isNamed (mkHeap (objects h ++ [o]) (names h)) x) with (isNamed h x).
    rewrite N, L. destruct c; cbn in *; try discriminate; reflexivity.
  - intros x. cbn. rewrite app_length. cbn. intros [<- | I]; [lia|]. assert (X := B x I). lia.
  - intros x o' E. rewrite look_create in E. destruct (Nat.eqb_spec x (length (objects h))) as [->|NE].
    + inversion E; subst o'. rewrite L. exact G.
    + apply (agrees_same past (c :: past) h (create h o) x o' (SM x ltac:(lia)) K), O, E.
  - intros x Hx. rewrite CC in Hx. destruct (SM x ltac:(lia)) as (-> & -> & -> & -> & -> & ->). apply F. lia.
Qed.

Lemma store_describes past h c x o o' : describes past h -> creates c = false -> (forall y, c <> forget y) ->
  look h x = Some o -> keepsKind h (store h x o') ->
  (forall y, y <> x -> same past (c :: past) y) -> agrees (c :: past) (store h x o') x o' ->
  describes (c :: past) (store h x o').
Proof.
  intros [L N B O F] C NF E K SM G. assert (X := look_bound h x o E).
  assert (CC : created (c :: past) = created past) by (rewrite created_cons, C; reflexivity).
  constructor.
  - rewrite CC. cbn. now rewrite length_setNth.
  - intros y. change (isNamed (store h x o') y) with (isNamed h y). rewrite N. destruct c; cbn in *; try discriminate; try reflexivity.
    exfalso. now apply (NF x0).
  - intros y. cbn. rewrite length_setNth. apply B.
  - intros y o'' Ey. rewrite look_store in Ey by assumption. destruct (Nat.eqb_spec y x) as [->|NE].
    + inversion Ey; subst o''. exact G.
    + apply (agrees_same past (c :: past) h _ y o'' (SM y NE) K), O, Ey.
  - intros y Hy. rewrite CC in Hy. destruct (SM y ltac:(lia)) as (-> & -> & -> & -> & -> & ->). apply F, Hy.
Qed.

Ltac frame := intros; unfold same; cbn; repeat split; eqbs.

Lemma run1_describes past h c h' : describes past h -> run1 h c = Done h' -> describes (c :: past) h'.
Proof.
  intros D R. unfold run1 in R. destruct (forallb (isNamed h) (arguments c)) eqn:A; [|discriminate].
  assert (F := d_fresh past h D (created past) (le_n _)). destruct F as (F1 & F2 & F3 & F4 & F5 & F6).
  assert (OB := d_objects past h D). assert (DL := d_length past h D).
  destruct c.
  - inversion R; subst h'. apply create_describes; [exact D|reflexivity|frame|]. cbn. rewrite Nat.eqb_refl. auto.
  - destruct (look h x) as [[w| | | | ]|] eqn:E; inversion R; subst h'. assert (G := OB x _ E). cbn in G.
    eapply store_describes; [exact D|reflexivity|congruence|exact E| |frame|].
    + assert (X := look_bound h x _ E). split; intros r y; [intros p Er; exists y, p|intros Er; exists y]; rewrite look_store by exact X; eqbs.
    + cbn. rewrite Nat.eqb_refl. intuition.
  - inversion R; subst h'. apply create_describes; [exact D|reflexivity|frame|]. cbn. rewrite Nat.eqb_refl. auto.
  - destruct (look h x) as [[ |w| | | ]|] eqn:E; inversion R; subst h'. assert (G := OB x _ E). cbn in G.
    eapply store_describes; [exact D|reflexivity|congruence|exact E| |frame|].
    + assert (X := look_bound h x _ E). split; intros r y; [intros q Er; exists y, q|intros Er; exists y]; rewrite look_store by exact X; eqbs.
    + cbn. rewrite Nat.eqb_refl. intuition.
  - inversion R; subst h'. apply create_describes; [exact D|reflexivity|frame|]. cbn. auto.
  - destruct (look h r) as [[ | |s0 p0| | ]|] eqn:E; try discriminate. destruct (look h x) as [[w| | | | ]|] eqn:E2; inversion R; subst h'.
    assert (G := OB r _ E). assert (G2 := OB x _ E2). cbn in G, G2.
    eapply store_describes; [exact D|reflexivity|congruence|exact E| |frame|].
    + assert (X := look_bound h r _ E). split; intros q y; [intros q0 Er|intros Er]; rewrite look_store by exact X; eqbs; eauto.
    + cbn. rewrite Nat.eqb_refl. intuition.
  - destruct (look h r) as [[ | |s0 p0| | ]|] eqn:E; try discriminate. destruct (look h x) as [[ |w| | | ]|] eqn:E2; inversion R; subst h'.
    assert (G := OB r _ E). assert (G2 := OB x _ E2). cbn in G, G2.
    eapply store_describes; [exact D|reflexivity|congruence|exact E| |frame|].
    + assert (X := look_bound h r _ E). split; intros q y; [intros q0 Er|intros Er]; rewrite look_store by exact X; eqbs; eauto.
    + cbn. rewrite Nat.eqb_refl. intuition.
  - inversion R; subst h'. apply create_describes; [exact D|reflexivity|frame|]. cbn. repeat split; auto. intros r Y. discriminate.
  - destruct (look h a) as [[ | | |b| ]|] eqn:E; inversion R; subst h'. assert (G := OB a _ E). cbn in G.
    apply create_describes; [exact D|reflexivity|frame|]. cbn. rewrite Nat.eqb_refl. destruct G as (G1 & G2 & G3). repeat split; auto.
    intros r Er. destruct (G3 r Er) as (s & p & X). exists s, p. rewrite look_create. assert (Y := look_bound h r _ X). eqbs.
  - destruct (look h a) as [[ | | |b| ]|] eqn:E; inversion R; subst h'.
    apply create_describes; [exact D|reflexivity|frame|]. cbn. rewrite Nat.eqb_refl. split; [reflexivity|].
    exists b. rewrite look_create. assert (Y := look_bound h a _ E). eqbs.
  - destruct (look h a) as [[ | | |b| ]|] eqn:E; try discriminate. destruct (look h r) as [[ | |s0 p0| | ]|] eqn:E2; inversion R; subst h'.
    assert (G := OB a _ E). cbn in G. assert (X := look_bound h a _ E).
    eapply store_describes; [exact D|reflexivity|congruence|exact E| |frame|].
    + split; intros q y; [intros q0 Er|intros Er]; rewrite look_store by exact X; eqbs; eauto.
    + cbn. rewrite Nat.eqb_refl. repeat split; [apply G|]. intros q Q. inversion Q; subst q. exists s0, p0. rewrite look_store by exact X. eqbs.
  - destruct (look h a) as [[ | | |[r|]| ]|] eqn:E; try discriminate. destruct (isNamed h r); [|discriminate].
    destruct (look h r) as [[ | |s0 p0| | ]|] eqn:E2; inversion R; subst h'.
    assert (G := OB a _ E). assert (G2 := OB r _ E2). cbn in G, G2. destruct G as (GB & _ & _).
    apply create_describes; [exact D|reflexivity|frame|]. cbn. rewrite Nat.eqb_refl, GB. intuition.
  - inversion R; subst h'. destruct D as [L N B O F]. constructor; cbn.
    + exact L.
    + intros y. rewrite <- N. unfold isNamed. cbn. clear. induction (names h) as [|n ns IH]; cbn; [now rewrite andb_false_r|].
      destruct (Nat.eqb_spec n x); cbn; rewrite IH; eqbs; cbn; auto.
    + intros y I. apply filter_In in I. apply B, I.
    + intros y o E. apply (agrees_same past (forget x :: past) h _ y o); [frame| |apply O, E]. split; eauto.
    + intros y Hy. apply F. exact Hy.
Qed.

Lemma run_snoc (cs : list call) c h0 h : run h0 (cs ++ [c]) = Done h -> exists h1, run h0 cs = Done h1 /\ run1 h1 c = Done h.
Proof.
  revert h0. induction cs as [|d cs IH]; cbn; intros h0 H.
  - exists h0. split; [reflexivity|]. destruct (run1 h0 c); [exact H|discriminate|discriminate].
  - destruct (run1 h0 d) as [h1| |]; [|discriminate|discriminate]. exact (IH h1 H).
Qed.
Lemma run_describes cs : forall h, run empty cs = Done h -> describes (rev cs) h.
Proof.
  induction cs as [|c cs IH] using rev_ind; intros h R.
  - inversion R. constructor; cbn.
    + reflexivity.
    + reflexivity.
    + tauto.
    + intros x o H. unfold look in H. cbn in H. destruct x; discriminate.
    + intros x _. repeat split.
  - destruct (run_snoc cs c empty h R) as (h1 & R1 & R2). rewrite rev_app_distr. cbn. exact (run1_describes _ h1 c h (IH h1 R1) R2).
Qed.

(** ** Claims *)

(** After any program without exceptions: an evaluation of a named assembler, manipulator or writer whose requirement still has a name uses what was inserted last into the
    requirement it was bound to last, and raises an error if it was not bound or something was never inserted *)
Theorem C139_partial : forall cs h x, run empty cs = Done h ->
  (forall r, boundTo (rev cs) (assemblerOf (rev cs) x) = Some r -> hasName (rev cs) r = true) ->
  evaluate h x = match required (rev cs) x with Some (s, p) => Sees s p | None => Error end.
Proof.
  intros cs h x R HN. assert (D := run_describes cs h R). set (past := rev cs) in *. clearbody past.
  assert (OB := d_objects past h D).
  assert (EA : forall a, assemblerOf past x = a -> (forall w, look h a <> Some (aWriter w)) -> evaluateAssembler h a = match required past x with Some (s, p) => Sees s p | None => Error end).
  { intros a EA NW. unfold required. rewrite EA in HN |- *. unfold evaluateAssembler. destruct (look h a) as [o|] eqn:E.
    - assert (G := OB a o E). destruct o as [v|p|s p|b|w]; cbn in G.
      + destruct G as (_ & _ & ->). reflexivity.
      + destruct G as (_ & _ & ->). reflexivity.
      + destruct G as (_ & _ & _ & ->). reflexivity.
      + destruct G as (G1 & _ & G3). rewrite G1. destruct b as [r|]; [|reflexivity].
        rewrite (d_names past h D), (HN r G1). destruct (G3 r eq_refl) as (s & p & Er). rewrite Er.
        assert (Gr := OB r _ Er). cbn in Gr. destruct Gr as (-> & -> & _). destruct s, p; reflexivity.
      + exfalso. now apply (NW w).
    - assert (X : created past <= a). { rewrite <- (d_length past h D). apply nth_error_None. exact E. }
      destruct (d_fresh past h D a X) as (_ & _ & -> & _). reflexivity. }
  unfold evaluate. destruct (look h x) as [o|] eqn:E.
  - assert (G := OB x o E). destruct o as [v|p|s p|b|w]; cbn in G; [apply EA; [apply G|congruence]..|].
    destruct G as (G1 & b & G2). apply EA; [exact G1|congruence].
  - apply EA; [|congruence]. apply (d_fresh past h D x). rewrite <- (d_length past h D). apply nth_error_None. exact E.
Qed.

(** If the requirement has no name any more, the behaviour is undefined *)
Theorem C139_gone : forall cs h x r, run empty cs = Done h -> boundTo (rev cs) (assemblerOf (rev cs) x) = Some r -> hasName (rev cs) r = false ->
  evaluate h x = Undefined.
Proof.
  intros cs h x r R HB HN. assert (D := run_describes cs h R). set (past := rev cs) in *. clearbody past.
  assert (OB := d_objects past h D).
  assert (EA : forall a, assemblerOf past x = a -> (forall w, look h a <> Some (aWriter w)) -> evaluateAssembler h a = Undefined).
  { intros a EA NW. rewrite EA in HB. unfold evaluateAssembler. destruct (look h a) as [o|] eqn:E.
    - assert (G := OB a o E). destruct o as [v|p|s p|b|w]; cbn in G; try (exfalso; intuition congruence).
      destruct G as (G1 & _ & G3). rewrite HB in G1. subst b. now rewrite (d_names past h D), HN.
    - assert (X : created past <= a) by (rewrite <- (d_length past h D); apply nth_error_None; exact E).
      destruct (d_fresh past h D a X) as (_ & _ & Y & _). congruence. }
  unfold evaluate. destruct (look h x) as [o|] eqn:E.
  - assert (G := OB x o E). destruct o as [v|p|s p|b|w]; cbn in G; [apply EA; [apply G|congruence]..|].
    destruct G as (G1 & b & G2). apply EA; [exact G1|congruence].
  - apply EA; [|congruence]. apply (d_fresh past h D x). rewrite <- (d_length past h D). apply nth_error_None. exact E.
Qed.
End History.

Print Assumptions C139_partial.
Print Assumptions C139_gone.

(** ** Refuted: a function that makes the requirement, binds the assembler and returns it *)
Theorem C139_refuted : exists h, run (SV := nat) (PM := nat) empty
    [makeAssembler; createRequirement; makeArray 5; insertSolution 1 2; makeScalar 7; insertParameter 1 3; bind 0 1; forget 1] = Done h /\
  In 0 (names h) /\ evaluate h 0 = Undefined.
Proof. eexists. split; [reflexivity|]. split; [cbn; tauto|reflexivity]. Qed.
Print Assumptions C139_refuted.

(** While the requirement has a name; changes of the array and of the Scalar after inserting them have no effect, a manipulator has its own binding, a writer that of its assembler *)
Definition program : list (call nat nat) :=
  [makeAssembler; createRequirement; makeArray 5; insertSolution 1 2; makeScalar 7; insertParameter 1 3; setScalar 3 8; setArray 2 6;
   bind 0 1; makeManipulator 0; createRequirement; insertSolution 5 2; insertParameter 5 3; makeWriter 0; bind 0 5; forget 3; forget 2].
Example C139_example : exists h, run empty program = Done h /\
  evaluate h 0 = Sees 6 8 /\ evaluate h 4 = Sees 5 7 /\ evaluate h 6 = Sees 6 8 /\ required (rev program) 4 = Some (5, 7).
Proof. eexists. split; [reflexivity|]. repeat split. Qed.
Example C139_example_hypothesis : forall x, In x [0; 4; 6] -> forall r, boundTo (rev program) (assemblerOf (rev program) x) = Some r -> hasName (rev program) r = true.
Proof. intros x [<- | [<- | [<- | []]]] r E; cbn in E; inversion E; reflexivity. Qed.
