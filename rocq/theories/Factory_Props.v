(** What a user relies on: functions made from assemblers (C132), solvers made by the factory (C133), references returned by functions (C134). *)

From Coq Require Import List Bool Arith Lia.
From Verif Require Import Factory_Model.
Import ListNotations.

Section Props.
Context {Req SA VA MA X : Type}.
Notation assembler := (@assembler Req SA VA MA X).
Notation state := (@state Req SA VA MA X).
Notation command := (@command Req SA VA MA X).
Notation affordances := (@affordances SA VA MA).
Notation argument := (@argument Req SA VA MA X).

(** What a function has to give: the energy if there is a scalar affordance, forces and stiffness, all of the assembler [o] with the affordances and the option *)
Definition expected (o : assembler) (aff : affordances) (b : dbc) (derivative : nat) (r : Req) : option X :=
  match scalarAff aff, derivative with
  | Some s, 0 => Some (a_scalar o r s)
  | Some _, 1 | None, 0 => Some (a_vector o r (vectorAff aff) b)
  | Some _, 2 | None, 1 => Some (a_matrix o r (matrixAff aff) b)
  | _, _ => None
  end.
(** The function [f] can be evaluated and gives it *)
Definition gives (st : state) (f : nat) (o : assembler) (aff : affordances) (b : dbc) : Prop :=
  forall d r, match expected o aff b d r with
              | Some x => exists st' a s, evaluate st f d r = Value st' a s /\ read st' a s = Some x
              | None => evaluate st f d r = NoSuchDerivative
              end.

Definition sameResults (o o' : assembler) : Prop := a_scalar o = a_scalar o' /\ a_vector o = a_vector o' /\ a_matrix o = a_matrix o'.
Lemma same_refl o : sameResults o o. Proof. repeat split. Qed.

Lemma set_other {A} : forall (l : list A) i j a, i <> j -> nth_error (set l i a) j = nth_error l j.
Proof. induction l as [|b l IH]; intros [|i] [|j] a H; cbn; auto; try lia. Qed.
Lemma set_same {A} : forall (l : list A) i a, i < length l -> nth_error (set l i a) i = Some a.
Proof. induction l as [|b l IH]; intros [|i] a H; cbn in *; auto; try lia. apply IH. lia. Qed.

(** The states differ in nothing that functions depend on *)
Definition keeps (st st' : state) : Prop :=
  (forall i f, nth_error (funs st) i = Some f -> nth_error (funs st') i = Some f) /\
  (forall a o, nth_error (objs st) a = Some o -> exists o', nth_error (objs st') a = Some o' /\ sameResults o o').
Lemma keeps_refl st : keeps st st.
Proof. split; auto. intros a o H. exists o. split; auto using same_refl. Qed.
Lemma keeps_trans st1 st2 st3 : keeps st1 st2 -> keeps st2 st3 -> keeps st1 st3.
Proof.
  intros [A B] [C D]. split; auto. intros a o H. destruct (B a o H) as [o' [H' [S1 [S2 S3]]]]. destruct (D a o' H') as [o'' [H'' [T1 [T2 T3]]]]. exists o''. split; auto. repeat split; congruence.
Qed.
Lemma keeps_objs st st' : funs st' = funs st -> objs st' = objs st -> keeps st st'.
Proof. intros E1 E2. split; [rewrite E1; auto|]. rewrite E2. intros a o H. exists o. split; auto using same_refl. Qed.
Lemma keeps_more st st' l1 l2 : funs st' = funs st ++ l1 -> objs st' = objs st ++ l2 -> keeps st st'.
Proof.
  intros E1 E2. split; [intros i f H|intros a o H; exists o; split; auto using same_refl]; rewrite ?E1, ?E2, nth_error_app1; auto; apply nth_error_Some; congruence.
Qed.
Lemma fill_keeps st a s x : keeps st (fill st a s x).
Proof.
  unfold fill. destruct (nth_error (objs st) a) as [o|] eqn:E; [|apply keeps_refl]. split; [auto|]. cbn [objs withObjs]. intros b p H. destruct (Nat.eq_dec a b) as [->|N].
  - rewrite set_same by (apply nth_error_Some; congruence). eexists. split; [reflexivity|]. rewrite E in H. inversion H. repeat split.
  - rewrite set_other by auto. exists p. split; auto using same_refl.
Qed.
Lemma evaluate_keeps st f d r st' a s : evaluate st f d r = Value st' a s -> keeps st st'.
Proof.
  unfold evaluate. intro E. destruct (nth_error (funs st) f) as [g|]; [|discriminate]. destruct (alive st (f_target g)); [|discriminate].
  destruct (nth_error (objs st) (f_target g)) as [o|]; [|discriminate]. cbv zeta in E.
  destruct (scalarAff (f_aff g)); destruct d as [|[|[|d]]]; inversion E; subst; apply fill_keeps.
Qed.
Lemma take_keeps st (arg : argument) a owns st' : take st arg = Some (a, owns, st') -> keeps st st'.
Proof.
  destruct arg as [v|v|b|b|o]; cbn [take]; intro E.
  - destruct (nth_error (vars st) v) as [[| |b]|]; inversion E; subst; apply keeps_refl.
  - destruct (nth_error (vars st) v) as [[| |b]|]; inversion E; subst; apply keeps_objs; reflexivity.
  - inversion E; subst; apply keeps_refl.
  - inversion E; subst; apply keeps_refl.
  - inversion E; subst. apply (keeps_more _ _ [] [o]); [cbn; rewrite app_nil_r; reflexivity|reflexivity].
Qed.
Lemma makeFun_keeps st a owns aff b st' f : makeFun st a owns aff b = Made st' f -> keeps st st'.
Proof. unfold makeFun. intro E. inversion E; subst. eapply (keeps_more _ _ [_] []); [reflexivity|cbn; rewrite app_nil_r; reflexivity]. Qed.
Lemma op1_keeps st (arg : argument) st' : (exists f, op1 st arg = Made st' f) \/ op1 st arg = Throws st' -> keeps st st'.
Proof.
  unfold op1. destruct (take st arg) as [[[a owns] st1]|] eqn:T; [|intros [[f E]|E]; discriminate]. apply take_keeps in T.
  destruct (nth_error (objs st1) a) as [x|]; [|intros [[f E]|E]; discriminate].
  destruct (a_aff x), (a_dbc x); intros [[f E]|E]; try discriminate; try (inversion E; subst; auto; fail); apply makeFun_keeps in E; eauto using keeps_trans.
Qed.
Lemma run_keeps st (c : command) st' : run st c = Some st' -> keeps st st'.
Proof.
  destruct c as [o|v a|v|a aff o|s|f|arg aff o|f v|f v|f d r]; cbn [run]; intro E.
  - inversion E; subst. apply (keeps_more _ _ [] [o]); [cbn; rewrite app_nil_r; reflexivity|reflexivity].
  - destruct (alive st a); inversion E; subst. apply keeps_objs; reflexivity.
  - inversion E; subst. apply keeps_objs; reflexivity.
  - destruct (alive st a); [|discriminate]. destruct (nth_error (objs st) a) as [x|] eqn:Hx; inversion E; subst. split; [auto|]. cbn [objs withObjs]. intros b p H. destruct (Nat.eq_dec a b) as [->|N].
    + rewrite set_same by (apply nth_error_Some; congruence). eexists. split; [reflexivity|]. rewrite Hx in H. inversion H. repeat split.
    + rewrite set_other by auto. exists p. split; auto using same_refl.
  - inversion E; subst. apply keeps_objs; reflexivity.
  - inversion E; subst. apply keeps_objs; reflexivity.
  - unfold op3 in E. destruct (take st arg) as [[[a owns] st1]|] eqn:T; [|discriminate]. apply take_keeps in T. destruct (makeFun st1 a owns aff o) eqn:M; inversion E; subst; [apply makeFun_keeps in M; eauto using keeps_trans|discriminate M].
  - unfold withForce in E. destruct (nth_error (factories st) f) as [[s|]|]; inversion E; subst. apply keeps_objs; reflexivity.
  - unfold create in E. destruct (nth_error (factories st) f) as [[s|]|]; try discriminate. destruct (op1 st (Lvalue v)) as [st1 g|st1|] eqn:O; inversion E; subst; clear E.
    + apply keeps_trans with st1; [apply (op1_keeps st (Lvalue v)); left; eauto|apply keeps_objs; reflexivity].
    + apply (op1_keeps st (Lvalue v)); right; auto.
  - destruct (evaluate st f d r) eqn:V; inversion E; subst; [eapply evaluate_keeps; eauto|apply keeps_refl].
Qed.
Lemma runs_keeps : forall (cs : list command) st st', runs st cs = Some st' -> keeps st st'.
Proof. induction cs as [|c cs IH]; cbn [runs]; intros st st' E; [inversion E; subst; apply keeps_refl|]. destruct (run st c) as [st1|] eqn:R; [|discriminate]. apply run_keeps in R. apply IH in E. eauto using keeps_trans. Qed.

Lemma read_fill (st : state) a o s x : nth_error (objs st) a = Some o -> read (fill st a s x) a s = Some x.
Proof. intro H. unfold fill, read. rewrite H. cbn [objs withObjs]. rewrite set_same by (apply nth_error_Some; congruence). cbn. destruct s as [|[]|[]]; reflexivity. Qed.

Lemma gives_entry (st : state) f a owns aff b o : nth_error (funs st) f = Some (mkFun a owns aff b) -> nth_error (objs st) a = Some o -> alive st a = true -> gives st f o aff b.
Proof.
  intros Hf Ho Al d r. unfold expected, evaluate. rewrite Hf. cbn [f_target f_aff f_dbc]. rewrite Al, Ho. cbv zeta.
  destruct (scalarAff aff); destruct d as [|[|[|d]]]; auto; do 3 eexists; (split; [reflexivity|eapply read_fill; eauto]).
Qed.
Lemma gives_same st f o o' aff b : sameResults o o' -> gives st f o' aff b -> gives st f o aff b.
Proof. intros [E1 [E2 E3]] H d r. specialize (H d r). unfold expected in *. rewrite E1, E2, E3. exact H. Qed.
Lemma owner_alive (st : state) f a aff b : nth_error (funs st) f = Some (mkFun a true aff b) -> alive st a = true.
Proof. intro H. unfold alive. apply orb_true_iff. right. apply existsb_exists. exists (mkFun a true aff b). split; [eapply nth_error_In; eauto|]. cbn. apply Nat.eqb_refl. Qed.

(** The function is there and lasts: whatever happens later it gives the results of the assembler with these affordances and this option *)
Definition lasting (out : outcome) (o : assembler) (aff : affordances) (b : dbc) : Prop :=
  exists st f, out = Made st f /\ forall (cs : list command) st', runs st cs = Some st' -> gives st' f o aff b.

(** How assemblers are passed in: the object meant, which exists.  Plain pointers are treated below. *)
Definition passes (st : state) (arg : argument) (o : assembler) : Prop :=
  match arg with
  | Lvalue v | Moved v => exists a, nth_error (vars st) v = Some (Points a) /\ nth_error (objs st) a = Some o
  | Temporary a => nth_error (objs st) a = Some o
  | Plain _ => False
  | Object o' => o' = o
  end.
Lemma passes_take st arg o : passes st arg o -> exists a st', take st arg = Some (a, true, st') /\ nth_error (objs st') a = Some o.
Proof.
  destruct arg as [v|v|a|a|o']; cbn [passes take].
  - intros [a [-> H]]. eauto.
  - intros [a [-> H]]. do 2 eexists. split; [reflexivity|]. exact H.
  - eauto.
  - tauto.
  - intros ->. do 2 eexists. split; [reflexivity|]. cbn. rewrite nth_error_app2, Nat.sub_diag by lia. reflexivity.
Qed.
Lemma makeFun_lasting st a o aff b : nth_error (objs st) a = Some o -> lasting (makeFun st a true aff b) o aff b.
Proof.
  intro H. do 2 eexists. split; [reflexivity|]. intros cs st' R. apply runs_keeps in R as [K1 K2]. destruct (K2 a o) as [o' [Ho' S]]; [exact H|].
  apply (gives_same _ _ _ o' _ _ S). assert (nth_error (funs st') (length (funs st)) = Some (mkFun a true aff b)) as Hf.
  { apply K1. cbn. rewrite nth_error_app2, Nat.sub_diag by lia. reflexivity. }
  eapply gives_entry; eauto using owner_alive.
Qed.

(** op(as, affordances, option) *)
Theorem C132_explicit : forall st arg o aff b, passes st arg o -> lasting (op3 st arg aff b) o aff b.
Proof. intros st arg o aff b P. unfold op3. destruct (passes_take st arg o P) as [a [st' [-> H]]]. apply makeFun_lasting. auto. Qed.

(** op(as): what the assembler is bound to at this time, or an exception *)
Theorem C132_bound : forall st arg o, passes st arg o ->
  match a_aff o, a_dbc o with Some aff, Some b => lasting (op1 st arg) o aff b | _, _ => exists st', op1 st arg = Throws st' end.
Proof.
  intros st arg o P. unfold op1. destruct (passes_take st arg o P) as [a [st' [-> H]]]. rewrite H. destruct (a_aff o), (a_dbc o); try (eexists; reflexivity). apply makeFun_lasting. auto.
Qed.

(** op(as, option): the same if the argument is an lvalue *)
Theorem C132_option_partial : forall st v o b, passes st (Lvalue v) o ->
  match a_aff o with Some aff => lasting (op2 st (Lvalue v) b) o aff b | None => exists st', op2 st (Lvalue v) b = Throws st' end.
Proof.
  intros st v o b P. unfold op2. destruct P as [a [Hv Ho]]. cbn [take]. rewrite Hv, Hv, Ho. destruct (a_aff o); [apply makeFun_lasting; auto|eexists; reflexivity].
Qed.

(** A plain pointer: as long as the assembler exists, that is, while some shared pointer to it exists; afterwards evaluating is undefined *)
Definition exists_ (st : state) (a : nat) : Prop :=
  (exists v, nth_error (vars st) v = Some (Points a)) \/ (exists g f, nth_error (funs st) g = Some f /\ f_owns f = true /\ f_target f = a).
Lemma alive_exists st a : alive st a = true <-> exists_ st a.
Proof.
  unfold alive, exists_. rewrite orb_true_iff, !existsb_exists. split.
  - intros [(x & I & H)|(f & I & H)].
    + left. destruct x as [| |b]; try discriminate. apply Nat.eqb_eq in H. subst b. apply In_nth_error in I. exact I.
    + right. apply In_nth_error in I as [g I]. apply andb_true_iff in H as [H1 H2]. apply Nat.eqb_eq in H2. eauto.
  - intros [(v & H)|(g & f & H & H1 & H2)]; apply nth_error_In in H.
    + left. eexists. split; [exact H|]. cbn. apply Nat.eqb_refl.
    + right. exists f. split; [exact H|]. rewrite H1, H2. apply Nat.eqb_refl.
Qed.
Theorem C132_plain : forall st a o aff b, nth_error (objs st) a = Some o ->
  exists st1 f, op3 st (Plain a) aff b = Made st1 f /\ forall (cs : list command) st', runs st1 cs = Some st' ->
    (exists_ st' a -> gives st' f o aff b) /\ (~ exists_ st' a -> forall d r, evaluate st' f d r = UndefinedValue).
Proof.
  intros st a o aff b H. do 2 eexists. split; [reflexivity|]. intros cs st' R. apply runs_keeps in R as [K1 K2]. destruct (K2 a o) as [o' [Ho' S]]; [exact H|].
  assert (Hf : nth_error (funs st') (length (funs st)) = Some (mkFun a false aff b)) by (apply K1; cbn; rewrite nth_error_app2, Nat.sub_diag by lia; reflexivity).
  rewrite <- alive_exists. split.
  - intros Al. apply (gives_same _ _ _ o' _ _ S). eapply gives_entry; eauto.
  - intros N d r. unfold evaluate. rewrite Hf. cbn [f_target]. destruct (alive st' a); [congruence|reflexivity].
Qed.

(** ** C133 *)

(** The command leaves the pointer variable and the factory as they are *)
Definition leaves (v factory : nat) (c : command) : Prop :=
  match c with
  | Assign w _ | Destroy w | Make (Moved w) _ _ => w <> v
  | DestroyFactory f => f <> factory
  | _ => True
  end.
Lemma op1_vars (st : state) v st' : (exists f, op1 st (Lvalue v) = Made st' f) \/ op1 st (Lvalue v) = Throws st' -> vars st' = vars st /\ factories st' = factories st /\ solvers st' = solvers st.
Proof.
  unfold op1. cbn [take]. destruct (nth_error (vars st) v) as [[| |a]|]; try (intros [[f E]|E]; discriminate).
  destruct (nth_error (objs st) a) as [x|]; [|intros [[f E]|E]; discriminate]. destruct (a_aff x), (a_dbc x); intros [[f E]|E]; try discriminate; inversion E; subst; auto.
Qed.
Lemma run_leaves v w factory st (c : command) st' : leaves v factory c -> leaves w factory c -> run st c = Some st' ->
  forall x y z, nth_error (vars st) v = Some x -> nth_error (vars st) w = Some y -> nth_error (factories st) factory = Some z ->
  nth_error (vars st') v = Some x /\ nth_error (vars st') w = Some y /\ nth_error (factories st') factory = Some z.
Proof.
  intros L L' E x y z Hv Hw Hz.
  destruct c as [o|u a|u|a aff o|s|f|arg aff o|f u|f u|f d r]; cbn [run leaves] in *.
  - inversion E; subst. cbn [vars factories]. rewrite !nth_error_app1 by (apply nth_error_Some; congruence). auto.
  - destruct (alive st a); inversion E; subst. cbn [vars factories withVars]. rewrite !set_other by auto. auto.
  - inversion E; subst. cbn [vars factories withVars]. rewrite !set_other by auto. auto.
  - destruct (alive st a); [|discriminate]. destruct (nth_error (objs st) a); inversion E; subst. auto.
  - inversion E; subst. cbn [vars factories withFactories]. rewrite nth_error_app1 by (apply nth_error_Some; congruence). auto.
  - inversion E; subst. cbn [vars factories withFactories]. rewrite set_other by auto. auto.
  - unfold op3 in E. destruct arg as [u|u|b|b|p]; cbn [take] in E.
    + destruct (nth_error (vars st) u) as [[| |b]|]; inversion E; subst; auto.
    + destruct (nth_error (vars st) u) as [[| |b]|]; inversion E; subst. cbn [vars factories withFuns withVars]. rewrite !set_other by auto. auto.
    + inversion E; subst; auto.
    + inversion E; subst; auto.
    + inversion E; subst; auto.
  - unfold withForce in E. destruct (nth_error (factories st) f) as [[s|]|]; inversion E; subst. cbn [vars factories withFactories]. rewrite nth_error_app1 by (apply nth_error_Some; congruence). auto.
  - unfold create in E. destruct (nth_error (factories st) f) as [[s|]|]; try discriminate. destruct (op1 st (Lvalue u)) as [st1 g|st1|] eqn:O; inversion E; subst; clear E.
    + destruct (op1_vars st u st1) as [E1 [E2 _]]; [left; eauto|]. cbn [vars factories]. rewrite E1, E2. auto.
    + destruct (op1_vars st u st') as [E1 [E2 _]]; [right; auto|]. rewrite E1, E2. auto.
  - destruct (evaluate st f d r) as [st1 a s| |] eqn:V; inversion E; subst; auto. assert (vars st' = vars st /\ factories st' = factories st) as [-> ->]; auto.
    unfold evaluate in V. destruct (nth_error (funs st) f) as [g|]; [|discriminate]. destruct (alive st (f_target g)); [|discriminate]. destruct (nth_error (objs st) (f_target g)) as [o|] eqn:Ho; [|discriminate]. cbv zeta in V.
    destruct (scalarAff (f_aff g)); destruct d as [|[|[|d]]]; inversion V; subst; unfold fill; rewrite Ho; auto.
Qed.
Lemma runs_leaves v w factory : forall (cs : list command) st st', Forall (leaves v factory) cs -> Forall (leaves w factory) cs -> runs st cs = Some st' ->
  forall x y z, nth_error (vars st) v = Some x -> nth_error (vars st) w = Some y -> nth_error (factories st) factory = Some z ->
  nth_error (vars st') v = Some x /\ nth_error (vars st') w = Some y /\ nth_error (factories st') factory = Some z.
Proof.
  induction cs as [|c cs IH]; cbn [runs]; intros st st' F F' E x y z Hv Hw Hz; [inversion E; subst; auto|]. destruct (run st c) as [st1|] eqn:R; [|discriminate].
  destruct (run_leaves v w factory st c st1 (Forall_inv F) (Forall_inv F') R x y z Hv Hw Hz) as [A [B C]]. apply (IH st1 st' (Forall_inv_tail F) (Forall_inv_tail F') E); auto.
Qed.

(** The solver made with a factory and a bound assembler: its function gives the results of the assembler for ever; when it corrects the solution it
    uses the update function of the settings and this assembler, and for the forces of inhomogeneous boundary conditions the assembler given for
    them, as long as the factory and the pointer variables exist unchanged. *)
Theorem C133_solver_partial : forall st factory v z a o aff b,
  nth_error (factories st) factory = Some (Some z) -> nth_error (vars st) v = Some (Points a) -> nth_error (objs st) a = Some o -> a_aff o = Some aff -> a_dbc o = Some b ->
  exists st1 n s, create st factory v = Made st1 n /\ nth_error (solvers st1) n = Some s /\
  forall (cs : list command) st', runs st1 cs = Some st' ->
    gives st' (v_fun s) o aff b /\
    (Forall (leaves v factory) cs -> usedUpdate st' s = Some (s_update z, a)) /\
    (forall w c, s_force z = Some w -> nth_error (vars st) w = Some (Points c) -> Forall (leaves v factory) cs -> Forall (leaves w factory) cs -> usedForce st' s = Some (Some c)) /\
    (s_force z = None -> usedForce st' s = Some None).
Proof.
  intros st factory v z a o aff b Hf Hv Ho Ha Hb. unfold create. rewrite Hf. unfold op1. cbn [take]. rewrite Hv, Ho, Ha, Hb. unfold makeFun. do 3 eexists. split; [reflexivity|]. split.
  { cbn. rewrite nth_error_app2, Nat.sub_diag by lia. reflexivity. }
  intros cs st' R. cbn [v_fun v_var v_factory v_force usedForce]. split; [|split; [|split]].
  - destruct (makeFun_lasting st a o aff b Ho) as [st2 [f [E L]]]. unfold makeFun in E. inversion E; subst; clear E. apply runs_keeps in R as [K1 K2].
    destruct (K2 a o) as [o' [Ho' S]]; [exact Ho|]. apply (gives_same _ _ _ o' _ _ S). assert (nth_error (funs st') (length (funs st)) = Some (mkFun a true aff b)) as Hn.
    { apply K1. cbn. rewrite nth_error_app2, Nat.sub_diag by lia. reflexivity. }
    eapply gives_entry; eauto using owner_alive.
  - intro F. destruct (runs_leaves v v factory cs _ st' F F R (Points a) (Points a) (Some z) Hv Hv Hf) as [A [_ C]]. unfold usedUpdate. cbn [v_factory v_var]. rewrite A, C. reflexivity.
  - intros w c Hz Hw F F'. unfold usedForce. cbn [v_force]. rewrite Hz. destruct (runs_leaves v w factory cs _ st' F F' R (Points a) (Points c) (Some z) Hv Hw Hf) as [_ [B _]]. rewrite B. reflexivity.
  - intro Hz. unfold usedForce. cbn [v_force]. rewrite Hz. reflexivity.
Qed.

(** withIDBCForceFunction: the solver made with the new factory has the update function of the old one and the force function given *)
Theorem C133_force_partial : forall st factory v w z a c o aff b st0 factory',
  nth_error (factories st) factory = Some (Some z) -> nth_error (vars st) v = Some (Points a) -> nth_error (vars st) w = Some (Points c) ->
  nth_error (objs st) a = Some o -> a_aff o = Some aff -> a_dbc o = Some b -> withForce st factory w = Some (st0, factory') ->
  exists st1 n s, create st0 factory' v = Made st1 n /\ nth_error (solvers st1) n = Some s /\
  forall (cs : list command) st', runs st1 cs = Some st' -> gives st' (v_fun s) o aff b /\
    (Forall (leaves v factory') cs -> usedUpdate st' s = Some (s_update z, a)) /\
    (Forall (leaves v factory') cs -> Forall (leaves w factory') cs -> usedForce st' s = Some (Some c)).
Proof.
  intros st factory v w z a c o aff b st0 factory' Hf Hv Hw Ho Ha Hb W. unfold withForce in W. rewrite Hf in W. injection W as <- <-.
  destruct (C133_solver_partial (withFactories st (factories st ++ [Some (mkSettings (s_update z) (Some w))])) (length (factories st)) v (mkSettings (s_update z) (Some w)) a o aff b)
    as (st1 & n & s & E & Es & H); auto.
  { cbn. rewrite nth_error_app2, Nat.sub_diag by lia. reflexivity. }
  exists st1, n, s. split; [exact E|]. split; [exact Es|]. intros cs st' R. destruct (H cs st' R) as (H1 & H2 & H3 & _). split; [exact H1|]. split; [exact H2|].
  intros F F'. apply (H3 w c eq_refl Hw F F').
Qed.

(** ** C134 *)

(** The history does not evaluate into the slot *)
Fixpoint quiet (a : nat) (s : slot) (st : state) (cs : list command) : Prop :=
  match cs with
  | [] => True
  | c :: cs =>
    match c with Evaluate f d r => forall st' s', evaluate st f d r = Value st' a s' -> s' <> s | _ => True end /\
    match run st c with Some st' => quiet a s st' cs | None => True end
  end.
Lemma read_objs (st st' : state) a s : objs st' = objs st -> read st' a s = read st a s.
Proof. intro E. unfold read. rewrite E. reflexivity. Qed.
Lemma read_more (st st' : state) l a s x : objs st' = objs st ++ l -> read st a s = Some x -> read st' a s = Some x.
Proof. intros E H. unfold read in *. rewrite E. destruct (nth_error (objs st) a) eqn:N; [|discriminate]. rewrite nth_error_app1 by (apply nth_error_Some; congruence). rewrite N. auto. Qed.
Lemma read_take st (arg : argument) b owns st' a s x : take st arg = Some (b, owns, st') -> read st a s = Some x -> read st' a s = Some x.
Proof.
  intros T H. destruct arg as [v|v|c|c|o]; cbn [take] in T.
  - destruct (nth_error (vars st) v) as [[| |c]|]; inversion T; subst; auto.
  - destruct (nth_error (vars st) v) as [[| |c]|]; inversion T; subst; auto.
  - inversion T; subst; auto.
  - inversion T; subst; auto.
  - inversion T; subst. eapply read_more; eauto. reflexivity.
Qed.
Lemma read_fill_other (st : state) b s' y a s x : (b = a -> s' <> s) -> read st a s = Some x -> read (fill st b s' y) a s = Some x.
Proof.
  intros N H. unfold fill. destruct (nth_error (objs st) b) as [o|] eqn:E; auto. unfold read in *. cbn [objs withObjs]. destruct (Nat.eq_dec b a) as [->|Ne].
  - rewrite set_same by (apply nth_error_Some; congruence). rewrite E in H. cbn. specialize (N eq_refl). destruct s' as [|[]|[]], s as [|[]|[]]; auto; congruence.
  - rewrite set_other by auto. exact H.
Qed.
Lemma read_run a s x st (c : command) st' : match c with Evaluate f d r => forall st' s', evaluate st f d r = Value st' a s' -> s' <> s | _ => True end ->
  run st c = Some st' -> read st a s = Some x -> read st' a s = Some x.
Proof.
  intros Q E H. destruct c as [o|v b|v|b aff o|z|f|arg aff o|f v|f v|f d r]; cbn [run] in E.
  - inversion E; subst. eapply read_more; eauto. reflexivity.
  - destruct (alive st b); inversion E; subst. auto.
  - inversion E; subst. auto.
  - destruct (alive st b); [|discriminate]. destruct (nth_error (objs st) b) as [y|] eqn:Hb; inversion E; subst. unfold read in *. cbn [objs withObjs]. destruct (Nat.eq_dec b a) as [->|Ne].
    + rewrite set_same by (apply nth_error_Some; congruence). rewrite Hb in H. auto.
    + rewrite set_other by auto. exact H.
  - inversion E; subst. auto.
  - inversion E; subst. auto.
  - unfold op3 in E. destruct (take st arg) as [[[b owns] st1]|] eqn:T; [|discriminate]. cbn in E. inversion E; subst. apply (read_take _ _ _ _ _ a s x T) in H. auto.
  - unfold withForce in E. destruct (nth_error (factories st) f) as [[z|]|]; inversion E; subst. auto.
  - unfold create in E. destruct (nth_error (factories st) f) as [[z|]|]; try discriminate. unfold op1 in E. cbn [take] in E. destruct (nth_error (vars st) v) as [[| |b]|]; try discriminate.
    destruct (nth_error (objs st) b) as [y|]; [|discriminate]. destruct (a_aff y), (a_dbc y); inversion E; subst; auto.
  - destruct (evaluate st f d r) as [st1 b s'| |] eqn:V; inversion E; subst; auto.
    assert (b = a -> s' <> s) as N by (intros ->; eapply Q; reflexivity). clear Q.
    unfold evaluate in V. destruct (nth_error (funs st) f) as [g|]; [|discriminate]. destruct (alive st (f_target g)); [|discriminate]. destruct (nth_error (objs st) (f_target g)) as [o|]; [|discriminate]. cbv zeta in V.
    destruct (scalarAff (f_aff g)); destruct d as [|[|[|d]]]; inversion V; subst; apply read_fill_other; auto.
Qed.
(** What a function returned stays the same until the same quantity of the same assembler is evaluated again with the same option. *)
Theorem C134_reference_partial : forall a s x (cs : list command) st st', read st a s = Some x -> quiet a s st cs -> runs st cs = Some st' -> read st' a s = Some x.
Proof.
  intros a s x. induction cs as [|c cs IH]; cbn [runs quiet]; intros st st' H Q E; [inversion E; subst; auto|]. destruct (run st c) as [st1|] eqn:R; [|discriminate]. destruct Q as [Q1 Q2].
  apply (IH st1 st'); auto. eapply read_run; eauto.
Qed.
End Props.

(** ** Concrete cases: requirements are numbers, the assembler returns them plus 100 (forces) or plus 200 (stiffness), another one plus 300 or 400 *)
Definition aff0 : @affordances nat nat nat := mkAff (Some 0) 0 0.
Definition asm (k : nat) (bound : bool) : @assembler nat nat nat nat nat :=
  mkAsm (if bound then Some aff0 else None) (if bound then Some Reduced else None) (fun r _ => r + k) (fun r _ _ => r + 100 + k) (fun r _ _ => r + 200 + k) (fun _ => None).
Definition start : @state nat nat nat nat nat := mkState [asm 0 true; asm 1000 true] [Points 0; Points 1] [] [Some (mkSettings 7 None)] [].

Example C132_example : passes start (Lvalue 0) (asm 0 true) /\ passes start (Moved 0) (asm 0 true) /\
  exists st f st', op1 start (Lvalue 0) = Made st f /\ runs st [Bind 0 None None; Destroy 0; Evaluate f 1 5] = Some st' /\ read st' 0 (VectorSlot Reduced) = Some 105.
Proof. split; [eexists; split; reflexivity|]. split; [eexists; split; reflexivity|]. do 3 eexists. split; [reflexivity|]. split; reflexivity. Qed.

(** With a moved or temporary pointer op(as, option) asks a null pointer, although the assembler exists and is bound *)
Theorem C132_option_refuted : exists (st : @state nat nat nat nat nat) arg o aff, passes st arg o /\ a_aff o = Some aff /\ op2 st arg Full = Undefined /\
  (exists st1 f, op1 st arg = Made st1 f) /\ op2 st (Temporary 0) Full = Undefined.
Proof. exists start, (Moved 0), (asm 0 true), aff0. split; [eexists; split; reflexivity|]. split; [reflexivity|]. split; [reflexivity|]. split; [do 2 eexists; reflexivity|reflexivity]. Qed.

Example C133_example : exists st1 n s st', create start 0 0 = Made st1 n /\ nth_error (solvers st1) n = Some s /\
  runs st1 [NewFactory (mkSettings 8 None); Destroy 1; Evaluate (v_fun s) 1 5] = Some st' /\ usedUpdate st' s = Some (7, 0).
Proof. do 4 eexists. split; [reflexivity|]. split; [reflexivity|]. split; reflexivity. Qed.

(** A solver is unusable after its factory or the pointer variable has gone, and after an assignment to the variable it uses another assembler for
    the corrections than for the forces. *)
Theorem C133_lifetime_refuted : exists st1 n s, create start 0 0 = Made st1 n /\ nth_error (solvers st1) n = Some s /\
  (exists st', runs st1 [DestroyFactory 0] = Some st' /\ usedUpdate st' s = None) /\
  (exists st', runs st1 [Destroy 0] = Some st' /\ usedUpdate st' s = None) /\
  (exists st', runs st1 [Assign 0 1] = Some st' /\ usedUpdate st' s = Some (7, 1) /\ gives st' (v_fun s) (asm 0 true) aff0 Reduced).
Proof.
  destruct (C133_solver_partial start 0 0 (mkSettings 7 None) 0 (asm 0 true) aff0 Reduced) as [st1 [n [s [E [Hs G]]]]]; try reflexivity. inversion E; subst. inversion Hs; subst.
  do 3 eexists. split; [reflexivity|]. split; [reflexivity|]. split; [eexists; split; reflexivity|]. split; [eexists; split; reflexivity|]. eexists. split; [reflexivity|]. split; [reflexivity|].
  apply (G [Assign 0 1] _ eq_refl).
Qed.
(** The temporary factory of withIDBCForceFunction(...).create(...) is gone after the statement *)
Theorem C133_temporary_refuted : exists st0 f st1 n s, withForce start 0 0 = Some (st0, f) /\ create st0 f 0 = Made st1 n /\ nth_error (solvers st1) n = Some s /\
  exists st', runs st1 [DestroyFactory f] = Some st' /\ usedUpdate st' s = None /\ usedForce st' s = Some (Some 0).
Proof. do 5 eexists. split; [reflexivity|]. split; [reflexivity|]. split; [reflexivity|]. eexists. split; [reflexivity|]. split; reflexivity. Qed.

(** The second evaluation changes what the first one returned *)
Theorem C134_overwritten_refuted : exists st f st1 a s st2 s2, op1 start (Lvalue 0) = Made st f /\ evaluate st f 1 5 = Value st1 a s /\ read st1 a s = Some 105 /\
  evaluate st1 f 1 6 = Value st2 a s2 /\ read st2 a s = Some 106.
Proof. do 7 eexists. split; [reflexivity|]. split; [reflexivity|]. split; [reflexivity|]. split; reflexivity. Qed.
Example C134_example : exists st f st1 st2, op1 start (Lvalue 0) = Made st f /\ evaluate st f 1 5 = Value st1 0 (VectorSlot Reduced) /\ read st1 0 (VectorSlot Reduced) = Some 105 /\
  quiet 0 (VectorSlot Reduced) st1 [Evaluate f 2 6; Evaluate f 0 9] /\ runs st1 [Evaluate f 2 6; Evaluate f 0 9] = Some st2 /\ read st2 0 (VectorSlot Reduced) = Some 105.
Proof.
  do 4 eexists. split; [reflexivity|]. split; [reflexivity|]. split; [reflexivity|]. split; [|split; reflexivity]. cbn. split; [intros st' s' E; inversion E; discriminate|]. split; [intros st' s' E; inversion E; discriminate|exact I].
Qed.
Print Assumptions C132_explicit.
Print Assumptions C132_bound.
Print Assumptions C132_option_partial.
Print Assumptions C132_plain.
Print Assumptions C132_option_refuted.
Print Assumptions C133_solver_partial.
Print Assumptions C133_lifetime_refuted.
Print Assumptions C133_temporary_refuted.
Print Assumptions C134_reference_partial.
Print Assumptions C134_overwritten_refuted.
