(** Property C176: which degrees of freedom fixBoundaryDOFs fixes. *)

From Coq Require Import List Arith Bool Lia Permutation.
From Verif Require Import Assembler_Model Assembler_Proofs FixBoundary_Model.
Import ListNotations.

(** ** Specification *)
Section Spec.
Context {Element Intersection Path : Type}.
Variable grid : list Element.
Variable boundary : Element -> list Intersection.
Variable dofs : Path -> Element -> Intersection -> list nat.
Variable index : Element -> nat -> nat.

(** The degree of freedom k is the i-th of element e and lies on the part s of the boundary *)
Definition liesOn (p : Path) (k : nat) (e : Element) (s : Intersection) (i : nat) : Prop :=
  In e grid /\ In s (boundary e) /\ In i (dofs p e s) /\ index e i = k.
(** A function which fixes what a condition selects, and one which assigns the condition *)
Definition fixIf (sel : nat -> Element -> Intersection -> bool) : @callback Element Intersection :=
  onIntersection (fun fl i e s => if sel i e s then put fl (index e i) true else Some fl).
Definition assignIf (sel : nat -> Element -> Intersection -> bool) : @callback Element Intersection :=
  onIntersection (fun fl i e s => put fl (index e i) (sel i e s)).
Definition fixed (fl : list bool) (k : nat) : Prop := nth_error fl k = Some true.
End Spec.

Section Props.
Context {Element Intersection Path : Type}.
Variable grid : list Element.
Variable boundary : Element -> list Intersection.
Variable dofs : Path -> Element -> Intersection -> list nat.
Variable index : Element -> nat -> nat.
Notation fixB := (fixBoundaryDOFs grid boundary dofs index).
Notation visits := (visits grid boundary dofs).
Notation liesOn := (liesOn grid boundary dofs index).
(** All indices are indices of the basis *)
Definition within (p : Path) (n : nat) : Prop := forall k e s i, liesOn p k e s i -> k < n.

Lemma in_visits p e s i : In (e, s, i) (visits p) <-> In e grid /\ In s (boundary e) /\ In i (dofs p e s).
Proof.
  unfold FixBoundary_Model.visits. rewrite in_flat_map. split.
  - intros (e' & He & H). apply in_flat_map in H. destruct H as (s' & Hs & H). apply in_map_iff in H. destruct H as (i' & [= <- <- <-] & Hi). auto.
  - intros (He & Hs & Hi). exists e. split; [exact He|]. apply in_flat_map. exists s. split; [exact Hs|]. apply in_map_iff. eauto.
Qed.

Lemma nth_put fl k (b : bool) fl' : put fl k b = Some fl' -> length fl' = length fl /\ forall j, nth_error fl' j = if j =? k then Some b else nth_error fl j.
Proof.
  unfold put. destruct (Nat.ltb_spec k (length fl)) as [H|]; [|discriminate]. intros [= <-]. revert k H. induction fl as [|a fl IH]; intros [|k] H; cbn in *; try lia.
  - split; [reflexivity|]. intros [|j]; reflexivity.
  - destruct (IH k ltac:(lia)) as [L N]. split; [lia|]. intros [|j]; [reflexivity|]. exact (N j).
Qed.

Lemma fold_fixIf sel (l : list (Element * Intersection * nat)) : forall fl, (forall e s i, In (e, s, i) l -> index e i < length fl) ->
  exists fl', foldM (invoke index (fixIf index sel)) fl l = Some fl' /\ length fl' = length fl /\
  forall k, fixed fl' k <-> fixed fl k \/ exists e s i, In (e, s, i) l /\ index e i = k /\ sel i e s = true.
Proof.
  unfold fixed. induction l as [|[[e s] i] l IH]; intros fl W; cbn.
  - exists fl. split; [reflexivity|split; [reflexivity|]]. intros k. split; [auto|]. intros [H|(? & ? & ? & [] & _)]. exact H.
  - destruct (sel i e s) eqn:Sel.
    + destruct (put fl (index e i) true) as [fl1|] eqn:P; [|exfalso; rewrite put_spec in P; [discriminate|apply (W e s); left; reflexivity]].
      destruct (nth_put _ _ _ _ P) as [L N]. destruct (IH fl1) as (fl' & E & L' & H'); [intros; rewrite L; eapply W; right; eassumption|].
      exists fl'. split; [exact E|split; [lia|]]. intros k. rewrite H', N. split.
      * intros [H|(e' & s' & i' & I & K)]; [|right; exists e', s', i'; auto]. destruct (Nat.eqb_spec k (index e i)); [right; exists e, s, i; auto|auto].
      * intros [H|(e' & s' & i' & [[= <- <- <-]|I] & K & Q)].
        -- left. destruct (k =? index e i); auto.
        -- left. rewrite <- K, Nat.eqb_refl. reflexivity.
        -- right. exists e', s', i'. auto.
    + destruct (IH fl) as (fl' & E & L' & H'); [intros; eapply W; right; eassumption|].
      exists fl'. split; [exact E|split; [exact L'|]]. intros k. rewrite H'. split.
      * intros [H|(e' & s' & i' & I & K)]; [auto|right; exists e', s', i'; auto].
      * intros [H|(e' & s' & i' & [[= <- <- <-]|I] & K & Q)]; [auto|congruence|right; exists e', s', i'; auto].
Qed.

(** A function that fixes the selected degrees of freedom fixes exactly those which lie on a selected part of the boundary, besides the ones fixed before *)
Theorem C176_selected p sel fl : within p (length fl) ->
  exists fl', fixB p (fixIf index sel) fl = Some fl' /\ length fl' = length fl /\
  forall k, fixed fl' k <-> fixed fl k \/ exists e s i, liesOn p k e s i /\ sel i e s = true.
Proof.
  intros W. destruct (fold_fixIf sel (visits p) fl) as (fl' & E & L & H).
  { intros e s i I. apply in_visits in I. apply (W _ e s i). unfold FixBoundary_Props.liesOn. tauto. }
  exists fl'. split; [exact E|split; [exact L|]]. intros k. rewrite H. unfold FixBoundary_Props.liesOn. split.
  - intros [F|(e & s & i & I & K)]; [auto|]. apply in_visits in I. right. exists e, s, i. tauto.
  - intros [F|(e & s & i & I & K)]; [auto|]. right. exists e, s, i. rewrite in_visits. tauto.
Qed.

(** The three signatures agree: a function of the global index does what the same function does that asks the local view for it *)
Theorem C176_signatures p f fl : fixB p (onGlobal f) fl = fixB p (onLocal (fun fl i e => f fl (index e i))) fl /\
  forall g, fixB p (onLocal g) fl = fixB p (onIntersection (fun fl i e _ => g fl i e)) fl.
Proof. split; [|intros g]; unfold fixBoundaryDOFs; apply foldM_ext; intros ? [[e s] i] _; reflexivity. Qed.

(** Degrees of freedom that do not lie on the boundary keep their flag if the function writes no other flag than the one it is called for *)
Definition ownFlagOnly (c : @callback Element Intersection) : Prop := forall fl fl' e s i k, invoke index c fl (e, s, i) = Some fl' -> k <> index e i -> nth_error fl' k = nth_error fl k.
Theorem C176_interior p c fl fl' k : ownFlagOnly c -> fixB p c fl = Some fl' -> (forall e s i, ~ liesOn p k e s i) -> nth_error fl' k = nth_error fl k.
Proof.
  intros O E N. unfold fixBoundaryDOFs in E.
  assert (N' : forall e s i, In (e, s, i) (visits p) -> k <> index e i) by (intros e s i I ->; apply in_visits in I; apply (N e s i); unfold FixBoundary_Props.liesOn; tauto).
  revert fl E N'. clear N. generalize (visits p). induction l as [|[[e s] i] l IH]; intros fl E N; cbn [foldM] in E; [congruence|].
  destruct (invoke index c fl (e, s, i)) as [fl1|] eqn:E1; [|discriminate]. rewrite (IH fl1 E) by (intros; eapply N; right; eassumption).
  apply (O _ _ _ _ _ _ E1). apply (N e s). left. reflexivity.
Qed.

(** Fixing the boundary of every child of the basis is fixing that of the basis *)
Definition children (p : Path) (ps : list Path) : Prop := forall e s i, In i (dofs p e s) <-> exists q, In q ps /\ In i (dofs q e s).
Theorem C176_subspaces p ps sel fl fl1 fl2 : children p ps -> within p (length fl) -> fixB p (fixIf index sel) fl = Some fl1 ->
  foldM (fun fl q => fixB q (fixIf index sel) fl) fl ps = Some fl2 -> forall k, fixed fl1 k <-> fixed fl2 k.
Proof.
  intros C W E1 E2 k. destruct (C176_selected p sel fl W) as (fl1' & E & _ & H). rewrite E1 in E. injection E as <-. rewrite H. clear E1 H.
  assert (G : forall ps fl fl2, (forall q, In q ps -> within q (length fl)) -> foldM (fun fl q => fixB q (fixIf index sel) fl) fl ps = Some fl2 ->
    fixed fl2 k <-> fixed fl k \/ exists q e s i, In q ps /\ liesOn q k e s i /\ sel i e s = true).
  { clear. induction ps as [|q ps IH]; intros fl fl2 W E; cbn [foldM] in E.
    - injection E as <-. split; [auto|]. intros [H|(? & ? & ? & ? & [] & _)]. exact H.
    - destruct (C176_selected q sel fl (W q (or_introl eq_refl))) as (fl1 & E1 & L1 & H1). rewrite E1 in E.
      rewrite (IH fl1 fl2); [|intros; rewrite L1; apply W; right; assumption|exact E]. rewrite H1. split.
      + intros [[H|(e & s & i & H)]|(q' & e & s & i & I & H)]; [auto|right; exists q, e, s, i|right; exists q', e, s, i]; cbn; tauto.
      + intros [H|(q' & e & s & i & [<-|I] & H)]; [auto|left; right; exists e, s, i; exact H|right; exists q', e, s, i; auto]. }
  rewrite (G ps fl fl2); [| |exact E2].
  - split; (intros [H|H]; [auto|right]).
    + destruct H as (e & s & i & (He & Hs & Hi & K) & Q). apply C in Hi. destruct Hi as (q & Hq & Hi). exists q, e, s, i. unfold FixBoundary_Props.liesOn. tauto.
    + destruct H as (q & e & s & i & Hq & (He & Hs & Hi & K) & Q). exists e, s, i. unfold FixBoundary_Props.liesOn. split; [|exact Q]. split; [exact He|split; [exact Hs|split; [|exact K]]]. apply C. eauto.
  - intros q Hq k' e s i (He & Hs & Hi & K). apply (W k' e s i). split; [exact He|split; [exact Hs|split; [|exact K]]]. apply C. eauto.
Qed.

(** In Python: functions of two, three and four parameters without default values act like the C++ functions, any other number raises an exception and changes nothing *)
Theorem C176_python p f fl : withDefault f = 0 ->
  (required f = 2 -> pyFixBoundaryDOFs grid boundary dofs index p f fl = option_map (fun fl => (fl, false)) (fixB p (onGlobal (fun fl k => body f fl k [])) fl)) /\
  (required f = 3 -> pyFixBoundaryDOFs grid boundary dofs index p f fl = option_map (fun fl => (fl, false)) (fixB p (onLocal (fun fl i e => body f fl i [aView e])) fl)) /\
  (required f = 4 -> pyFixBoundaryDOFs grid boundary dofs index p f fl = option_map (fun fl => (fl, false)) (fixB p (onIntersection (fun fl i e s => body f fl i [aView e; anIntersection s])) fl)) /\
  (required f < 2 \/ 4 < required f -> pyFixBoundaryDOFs grid boundary dofs index p f fl = Some (fl, true)).
Proof.
  intros D. unfold pyFixBoundaryDOFs, forwardCorrectFunction. rewrite D, Nat.add_0_r.
  split; [intros ->; reflexivity|split; [intros ->; reflexivity|split; [intros ->; reflexivity|]]].
  intros R. destruct (required f) as [|[|[|[|[|n]]]]]; try reflexivity; lia.
Qed.
End Props.
Print Assumptions C176_selected.
Print Assumptions C176_signatures.
Print Assumptions C176_interior.
Print Assumptions C176_subspaces.
Print Assumptions C176_python.

(** The order in which the elements are visited does not matter *)
Theorem C176_order {Element Intersection Path} (grid grid' : list Element) (boundary boundary' : Element -> list Intersection) (dofs : Path -> _) index p sel fl fl1 fl2 :
  Permutation grid grid' -> (forall e, Permutation (boundary e) (boundary' e)) -> within grid boundary dofs index p (length fl) ->
  fixBoundaryDOFs grid boundary dofs index p (fixIf index sel) fl = Some fl1 -> fixBoundaryDOFs grid' boundary' dofs index p (fixIf index sel) fl = Some fl2 -> fl1 = fl2.
Proof.
  intros G B W E1 E2.
  assert (Same : forall k e s i, liesOn grid boundary dofs index p k e s i <-> liesOn grid' boundary' dofs index p k e s i).
  { intros k e s i. unfold liesOn. split; intros (He & Hs & H); (split; [|split; [|exact H]]).
    - eapply Permutation_in; eassumption.
    - eapply Permutation_in; [apply B|exact Hs].
    - eapply Permutation_in; [apply Permutation_sym, G|exact He].
    - eapply Permutation_in; [apply Permutation_sym, B|exact Hs]. }
  assert (W' : within grid' boundary' dofs index p (length fl)) by (intros k e s i H; eapply W, Same, H).
  destruct (C176_selected grid boundary dofs index p sel fl W) as (f1 & E & L1 & H1). rewrite E1 in E. injection E as <-.
  destruct (C176_selected grid' boundary' dofs index p sel fl W') as (f2 & E & L2 & H2). rewrite E2 in E. injection E as <-.
  apply nth_ext with (d := false) (d' := false); [congruence|]. intros k Hk.
  assert (K : fixed fl1 k <-> fixed fl2 k).
  { rewrite H1, H2. split; (intros [?|(e & s & i & H & Q)]; [auto|right; exists e, s, i; split; [apply Same, H|exact Q]]). }
  unfold fixed in K. rewrite (nth_error_nth' fl1 false Hk), (nth_error_nth' fl2 false) in K by congruence.
  destruct (nth k fl1 false), (nth k fl2 false); try reflexivity; destruct K as [K K']; [discriminate (K eq_refl)|discriminate (K' eq_refl)].
Qed.
Print Assumptions C176_order.

(** False for a function which assigns its condition: at a corner the intersection which is visited last decides.  One element with two
    intersections which share the degree of freedom 1; the first one is selected. *)
Theorem C176_assignment_refuted : exists (boundary boundary' : unit -> list bool) dofs sel fl1 fl2,
  (forall e, Permutation (boundary e) (boundary' e)) /\
  fixBoundaryDOFs [tt] boundary dofs (fun _ i => i) tt (assignIf (fun _ i => i) sel) [false; false; false] = Some fl1 /\
  fixBoundaryDOFs [tt] boundary' dofs (fun _ i => i) tt (assignIf (fun _ i => i) sel) [false; false; false] = Some fl2 /\
  liesOn [tt] boundary dofs (fun _ i => i) tt 1 tt true 1 /\ sel 1 tt true = true /\ ~ fixed fl1 1 /\ fixed fl2 1.
Proof.
  exists (fun _ => [true; false]), (fun _ => [false; true]), (fun _ _ s => if s : bool then [0; 1] else [1; 2]), (fun _ _ s => s).
  eexists _, _. split; [intros; apply perm_swap|]. split; [reflexivity|]. split; [reflexivity|]. unfold liesOn, fixed. cbn. repeat split; auto. discriminate.
Qed.
Print Assumptions C176_assignment_refuted.

(** In Python a parameter with a default value counts: a function of the flags and an index with one such parameter is called with local indices *)
Theorem C176_default_refuted : exists (f : @pyFunction nat unit) fl1 fl2, required f = 2 /\ withDefault f = 1 /\
  (forall fl k l, body f fl k l = put fl k true) /\
  (** one element, whose two degrees of freedom have the global indices 2 and 3; both lie on the boundary *)
  pyFixBoundaryDOFs [0] (fun _ => [tt]) (fun _ _ _ => [0; 1]) (fun _ i => 2 + i) tt f [false; false; false; false] = Some (fl1, false) /\
  fixBoundaryDOFs [0] (fun _ => [tt]) (fun _ _ _ => [0; 1]) (fun _ i => 2 + i) tt (onGlobal (fun fl k => put fl k true)) [false; false; false; false] = Some fl2 /\
  fixed fl2 2 /\ ~ fixed fl1 2 /\ fixed fl1 0.
Proof.
  exists (mkPy 2 1 (fun fl k _ => put fl k true)). eexists _, _. split; [reflexivity|split; [reflexivity|split; [reflexivity|split; [reflexivity|split; [reflexivity|]]]]].
  unfold fixed. cbn. repeat split. discriminate.
Qed.
Print Assumptions C176_default_refuted.

(** The hypotheses are met: two elements with a common degree of freedom, one selected part of the boundary each *)
Example C176_applies : let grid := [0; 1] in let boundary := fun e : nat => [e; e + 2] in let dofs := fun (_ : unit) (e s : nat) => [s - e; 1] in let index := fun e i => e + i in
  within grid boundary dofs index tt 4 /\
  fixBoundaryDOFs grid boundary dofs index tt (fixIf index (fun _ _ s => s =? 0)) [false; false; false; false] = Some [true; true; false; false].
Proof.
  cbn. split; [|reflexivity]. intros k e s i (He & Hs & Hi & <-). cbn in *.
  destruct He as [<-|[<-|[]]]; cbn in *; repeat (destruct Hs as [<-|Hs]; [cbn in *; repeat (destruct Hi as [<-|Hi]; [lia|]); contradiction|]); contradiction.
Qed.
