(** Property C175: updates of elements in Python and the assemblers made from them. *)

From Coq Require Import List Arith Bool Lia ZArith.
From Verif Require Import PythonState_Model.
Import ListNotations.

(** ** Specification: the corrections an element was given, in order *)
Fixpoint corrections {State Dx} (e : nat) (cs : list (@call State Dx)) : list Dx :=
  match cs with
  | [] => []
  | updateState e' dx :: cs => if e =? e' then dx :: corrections e cs else corrections e cs
  | _ :: cs => corrections e cs
  end.
(** The elements of a list are what [f] says *)
Definition listed {A} (f : nat -> option A) (l : list nat) (l' : list A) : Prop := map f l = map Some l'.

Section Props.
Context {State Dx : Type}.
Variable step : State -> Dx -> State.
Notation call := (@call State Dx). Notation heap := (@heap State).
Notation run := (run step). Notation run1 := (run1 step).

Lemma setNth_length (h : heap) x o : length (setNth h x o) = length h.
Proof. revert x. induction h as [|a h IH]; intros [|x]; cbn; auto. Qed.
Lemma setNth_same (h : heap) x o : x < length h -> nth_error (setNth h x o) x = Some o.
Proof. revert x. induction h as [|a h IH]; intros [|x]; cbn; intros; try lia; auto. apply IH. lia. Qed.
Lemma setNth_other (h : heap) x y o : x <> y -> nth_error (setNth h x o) y = nth_error h y.
Proof. revert x y. induction h as [|a h IH]; intros [|x] [|y]; cbn; intros; try lia; auto. Qed.

Lemma run_app (h : heap) cs cs' : run h (cs ++ cs') = match run h cs with Some h => run h cs' | None => None end.
Proof. revert h. induction cs as [|c cs IH]; intros h; cbn; [reflexivity|]. destruct (run1 h c); auto. Qed.

Lemma cast_listed (h : heap) fes l : castElements h fes = Some l <-> listed (elementState h) fes l.
Proof.
  unfold listed. revert l. induction fes as [|e fes IH]; intros l; cbn.
  - destruct l; cbn; split; congruence.
  - destruct (elementState h e) as [s|]; [|split; [discriminate|destruct l; discriminate]].
    destruct (castElements h fes) as [l'|].
    + assert (I := proj1 (IH l') eq_refl). rewrite I. destruct l as [|s1 l]; cbn; [split; discriminate|]. split; [intros [= <- <-]; reflexivity|].
      intros [= <- E]. f_equal. f_equal. revert l E. clear. induction l' as [|x l' IH]; intros [|y l]; cbn; try discriminate; [reflexivity|].
      intros [= <- E]. f_equal. apply IH, E.
    + split; [discriminate|]. destruct l as [|s1 l]; cbn; [discriminate|]. intros [= _ E]. apply IH in E. discriminate.
Qed.

(** Calls keep the assemblers and the kind of every object *)
Lemma run1_keeps (h h' : heap) c x : run1 h c = Some h' -> x < length h ->
  match nth_error h x with
  | Some (anElement s) => nth_error h' x = Some (anElement (fold_left step (corrections x [c]) s))
  | o => nth_error h' x = o
  end.
Proof.
  intros E Hx.
  assert (App : forall o, h' = h ++ [o] -> nth_error h' x = nth_error h x) by (intros o ->; apply nth_error_app1, Hx).
  destruct c as [s|e dx|fes|a|a]; cbn in E.
  - injection E as <-. rewrite (App (anElement s) eq_refl). cbn. destruct (nth_error h x) as [[]|]; reflexivity.
  - unfold elementState in E. destruct (nth_error h e) as [[s| |]|] eqn:He; try discriminate. injection E as <-. cbn [corrections].
    destruct (Nat.eqb_spec x e) as [->|N].
    + rewrite He. cbn. apply setNth_same, Hx.
    + rewrite setNth_other by congruence. destruct (nth_error h x) as [[]|]; reflexivity.
  - destruct fes as [|e fes]; [discriminate|]. destruct (castElements h (e :: fes)) as [l|]; [|discriminate]. injection E as <-.
    rewrite (App (anAssembler l) eq_refl). cbn. destruct (nth_error h x) as [[]|]; reflexivity.
  - destruct (nth_error h a) as [[|l|]|]; try discriminate. injection E as <-. rewrite (App (anAssembler l) eq_refl). cbn. destruct (nth_error h x) as [[]|]; reflexivity.
  - destruct (nth_error h a) as [[|l|]|]; try discriminate. injection E as <-. rewrite (App (aWriter a) eq_refl). cbn. destruct (nth_error h x) as [[]|]; reflexivity.
Qed.
Lemma run1_length (h h' : heap) c : run1 h c = Some h' -> length h <= length h'.
Proof.
  destruct c as [s|e dx|fes|a|a]; cbn; intros E.
  - injection E as <-. rewrite app_length. lia.
  - destruct (elementState h e); [|discriminate]. injection E as <-. rewrite setNth_length. lia.
  - destruct fes as [|e fes]; [discriminate|]. destruct (castElements h (e :: fes)); [|discriminate]. injection E as <-. rewrite app_length. lia.
  - destruct (nth_error h a) as [[]|]; try discriminate; injection E as <-. rewrite app_length. lia.
  - destruct (nth_error h a) as [[]|]; try discriminate; injection E as <-. rewrite app_length. lia.
Qed.
Lemma corrections_cons x (c : call) cs : corrections x (c :: cs) = corrections x [c] ++ corrections x cs.
Proof. destruct c; cbn; try reflexivity. destruct (x =? e); reflexivity. Qed.
Lemma run_keeps cs : forall (h h' : heap) x, run h cs = Some h' -> x < length h ->
  match nth_error h x with
  | Some (anElement s) => nth_error h' x = Some (anElement (fold_left step (corrections x cs) s))
  | o => nth_error h' x = o
  end.
Proof.
  induction cs as [|c cs IH]; intros h h' x E Hx; cbn [run PythonState_Model.run] in E.
  - injection E as <-. cbn. destruct (nth_error h x) as [[]|]; reflexivity.
  - destruct (run1 h c) as [h1|] eqn:E1; [|discriminate]. assert (K := run1_keeps h h1 c x E1 Hx).
    assert (L := run1_length h h1 c E1). assert (I := IH h1 h' x E ltac:(lia)). rewrite corrections_cons.
    destruct (nth_error h x) as [[s|l|a]|]; rewrite K in I; try exact I. rewrite fold_left_app. exact I.
Qed.

(** A Python element has taken all its corrections, whatever else was done *)
Theorem C175_elements cs1 s cs2 h1 h : run [] cs1 = Some h1 -> run [] (cs1 ++ makeFE s :: cs2) = Some h ->
  elementState h (length h1) = Some (fold_left step (corrections (length h1) cs2) s).
Proof.
  intros E1 E. rewrite run_app, E1 in E. cbn [PythonState_Model.run PythonState_Model.run1] in E.
  assert (K := run_keeps cs2 _ h (length h1) E ltac:(rewrite app_length; cbn; lia)).
  rewrite nth_error_app2, Nat.sub_diag in K by lia. cbn in K. unfold elementState. rewrite K. reflexivity.
Qed.

(** An assembler, a manipulator made from it and a writer use the states that the elements had when the assembler was made *)
Theorem C175_states_partial cs1 fes cs2 h1 h : run [] cs1 = Some h1 -> run [] (cs1 ++ makeAssembler fes :: cs2) = Some h ->
  exists l, listed (elementState h1) fes l /\ uses h (length h1) = Some l /\
  forall x, (exists before after, cs2 = before ++ makeManipulator (length h1) :: after /\ option_map (@length _) (run [] (cs1 ++ makeAssembler fes :: before)) = Some x) \/
            (exists before after, cs2 = before ++ makeWriter (length h1) :: after /\ option_map (@length _) (run [] (cs1 ++ makeAssembler fes :: before)) = Some x) ->
  uses h x = Some l.
Proof.
  intros E1 E. assert (E' := E). rewrite run_app, E1 in E. cbn [PythonState_Model.run PythonState_Model.run1] in E.
  destruct fes as [|e fes]; [discriminate|]. destruct (castElements h1 (e :: fes)) as [l|] eqn:C; [|discriminate]. cbn [option_map] in E.
  set (h2 := h1 ++ [anAssembler l]) in *.
  assert (L2 : length h1 < length h2) by (unfold h2; rewrite app_length; cbn; lia).
  assert (N2 : nth_error h2 (length h1) = Some (anAssembler l)) by (unfold h2; rewrite nth_error_app2, Nat.sub_diag by lia; reflexivity).
  assert (K := run_keeps cs2 h2 h (length h1) E L2). rewrite N2 in K.
  exists l. split; [apply cast_listed, C|split; [unfold uses; rewrite K; reflexivity|]].
  intros x [(before & after & -> & Hx)|(before & after & -> & Hx)].
  - rewrite run_app, E1 in Hx. cbn [PythonState_Model.run PythonState_Model.run1] in Hx. rewrite C in Hx. cbn [option_map] in Hx. fold h2 in Hx.
    rewrite run_app in E. destruct (run h2 before) as [h3|] eqn:E3; [|discriminate]. cbn in Hx. injection Hx as <-.
    assert (K3 := run_keeps before h2 h3 (length h1) E3 L2). rewrite N2 in K3.
    cbn [PythonState_Model.run PythonState_Model.run1] in E. rewrite K3 in E.
    assert (K4 := run_keeps after _ h (length h3) E ltac:(rewrite app_length; cbn; lia)). rewrite nth_error_app2, Nat.sub_diag in K4 by lia. cbn in K4.
    unfold uses. rewrite K4. reflexivity.
  - rewrite run_app, E1 in Hx. cbn [PythonState_Model.run PythonState_Model.run1] in Hx. rewrite C in Hx. cbn [option_map] in Hx. fold h2 in Hx.
    rewrite run_app in E. destruct (run h2 before) as [h3|] eqn:E3; [|discriminate]. cbn in Hx. injection Hx as <-.
    assert (K3 := run_keeps before h2 h3 (length h1) E3 L2). rewrite N2 in K3.
    cbn [PythonState_Model.run PythonState_Model.run1] in E. rewrite K3 in E.
    assert (K4 := run_keeps after _ h (length h3) E ltac:(rewrite app_length; cbn; lia)). rewrite nth_error_app2, Nat.sub_diag in K4 by lia. cbn in K4.
    unfold uses. rewrite K4, K. reflexivity.
Qed.

(** ... which are the present ones as long as no element was updated after that *)
Theorem C175_unchanged_partial cs1 fes cs2 h1 h : run [] cs1 = Some h1 -> run [] (cs1 ++ makeAssembler fes :: cs2) = Some h ->
  (forall e, In e fes -> corrections e cs2 = []) -> exists l, uses h (length h1) = Some l /\ listed (elementState h) fes l.
Proof.
  intros E1 E N. destruct (C175_states_partial cs1 fes cs2 h1 h E1 E) as (l & L & U & _). exists l. split; [exact U|].
  unfold listed in *. rewrite <- L. apply map_ext_in. intros e He.
  rewrite run_app, E1 in E. change (makeAssembler fes :: cs2) with ([makeAssembler fes] ++ cs2) in E.
  assert (Se : exists s, elementState h1 e = Some s).
  { assert (I : In (elementState h1 e) (map Some l)) by (rewrite <- L; apply in_map, He). apply in_map_iff in I. destruct I as (s & <- & _). eauto. }
  destruct Se as (s & Se). assert (Hlt : e < length h1).
  { apply nth_error_Some. unfold elementState in Se. destruct (nth_error h1 e); discriminate. }
  assert (K := run_keeps _ h1 h e E Hlt). unfold elementState in *. destruct (nth_error h1 e) as [[s'| |]|]; try discriminate.
  rewrite K. cbn [app]. change (corrections e (makeAssembler fes :: cs2)) with (corrections e cs2). rewrite (N e He). reflexivity.
Qed.
End Props.
Print Assumptions C175_elements.
Print Assumptions C175_states_partial.
Print Assumptions C175_unchanged_partial.

(** False in general: an update changes the element only *)
Theorem C175_refuted {State Dx} (step : State -> Dx -> State) s dx : step s dx <> s ->
  exists h, run step [] [makeFE s; makeAssembler [0]; updateState 0 dx] = Some h /\
  elementState h 0 = Some (step s dx) /\ uses h 1 = Some [s] /\ ~ listed (elementState h) [0] [s].
Proof.
  intros N. eexists. split; [reflexivity|split; [reflexivity|split; [reflexivity|]]]. unfold listed. cbn. intros [= E]. contradiction.
Qed.
Print Assumptions C175_refuted.

(** ** The Newton iteration of the Python tests *)
Section NewtonProps.
Context {State Dx V M : Type}.
Variables (gradient : list State -> V -> V) (hessian : list State -> V -> M) (solve : M -> V -> V) (minus : V -> V -> V) (small : V -> bool) (full : V -> Dx).

(** Newton's iteration for functions that depend on the solution only; the residual that is tested belongs to the solution before the last correction *)
Fixpoint plainNewton (g : V -> V) (k : V -> M) (n : nat) (d : V) : bool * V :=
  let d' := minus d (solve (k d) (g d)) in
  if small (g d) then (true, d') else match n with 0 => (false, d') | S n => plainNewton g k n d' end.

Lemma updateAll_uses (step : State -> Dx -> State) (h h' : @heap State) fes dx x : updateAllElements step h fes dx = Some h' -> uses h' x = uses h x.
Proof.
  revert h. induction fes as [|e fes IH]; intros h E; cbn [updateAllElements] in E; [injection E as <-; reflexivity|].
  destruct (run1 step h (updateState e dx)) as [h1|] eqn:E1; [|discriminate]. rewrite (IH h1 E). clear IH E.
  cbn in E1. unfold elementState in E1. destruct (nth_error h e) as [[s| |]|] eqn:He; try discriminate. injection E1 as <-.
  assert (Nth : forall y, match nth_error h y with Some (anElement _) => exists s', nth_error (setNth h e (anElement (step s dx))) y = Some (anElement s')
    | o => nth_error (setNth h e (anElement (step s dx))) y = o end).
  { intros y. destruct (Nat.eq_dec e y) as [<-|N].
    - rewrite He. exists (step s dx). apply setNth_same. apply nth_error_Some. rewrite He. discriminate.
    - rewrite setNth_other by assumption. destruct (nth_error h y) as [[]|]; eauto. }
  unfold uses. assert (Nx := Nth x). destruct (nth_error h x) as [[s1|l|a]|].
  - destruct Nx as (s' & ->). reflexivity.
  - rewrite Nx. reflexivity.
  - rewrite Nx. assert (Na := Nth a). destruct (nth_error h a) as [[s1|l|b]|]; [destruct Na as (s' & ->); reflexivity|rewrite Na; reflexivity..].
  - rewrite Nx. reflexivity.
Qed.

(** Whatever updateState does: the iteration solves the equations with the internal variables the elements had when the assembler was made *)
Theorem C175_newton (step : State -> Dx -> State) n (h : @heap State) a fes l d b d' h' : uses h a = Some l ->
  newton step gradient hessian solve minus small full n h a fes d = Some (b, d', h') -> plainNewton (gradient l) (hessian l) n d = (b, d').
Proof.
  revert h d. induction n as [|n IH]; intros h d U E; cbn [newton plainNewton] in *; rewrite U in E;
  destruct (updateAllElements step h fes (full (solve (hessian l d) (gradient l d)))) as [h1|] eqn:E1; try discriminate;
  destruct (small (gradient l d)); try (injection E as <- <- _; reflexivity).
  apply (IH h1); [rewrite (updateAll_uses _ _ _ _ _ _ E1); exact U|exact E].
Qed.
End NewtonProps.
Print Assumptions C175_newton.

(** So success does not mean equilibrium with the internal variables of the elements *)
Theorem C175_newton_refuted : exists (step : Z -> Z -> Z) gradient (hessian : list Z -> Z -> unit) fes a h d h',
  uses h a = Some [1%Z] /\ listed (elementState h) fes [1%Z] /\
  newton step gradient hessian (fun _ R => R) Z.sub (fun R => Z.eqb R 0) (fun d => d) 100 h a fes 0%Z = Some (true, d, h') /\
  exists l, listed (elementState h') fes l /\ gradient l d <> 0%Z.
Proof.
  exists Z.add, (fun l d => (d - fold_right Z.add 0 l)%Z), (fun _ _ => tt), [0], 1, [anElement 1%Z; anAssembler [1%Z]], 1%Z, [anElement 0%Z; anAssembler [1%Z]].
  split; [reflexivity|split; [reflexivity|split; [reflexivity|]]]. exists [0%Z]. split; [reflexivity|]. cbn. discriminate.
Qed.
Print Assumptions C175_newton_refuted.

(** The hypotheses are met: two elements, one updated before and one after the assembler was made *)
Example C175_applies : let cs1 := [makeFE 1%Z; makeFE 2%Z; updateState 0 5%Z] in let cs2 := [updateState 1 7%Z; makeManipulator 2; makeWriter 2] in
  exists h, run Z.add [] (cs1 ++ makeAssembler [0; 1] :: cs2) = Some h /\ uses h 2 = Some [6%Z; 2%Z] /\ uses h 3 = Some [6%Z; 2%Z] /\ uses h 4 = Some [6%Z; 2%Z] /\
  elementState h 1 = Some 9%Z.
Proof. eexists. split; [reflexivity|]. repeat split. Qed.
