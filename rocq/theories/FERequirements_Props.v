(** C33, C34, C66: requirements and affordances. *)

From Coq Require Import List Arith Bool Lia.
From Verif Require Import FERequirements_Model FERequirements_Spec FERequirements_Proofs.
Import ListNotations.

Section Props.
Context {SV PM : Type}.
Variable add : SV -> SV -> SV.

(** C33, C66: every program observes what the value semantics says, and runs into undefined behaviour exactly when it
    uses an object that is not alive or a reference whose value was replaced. *)
Theorem C33_value_semantics : forall os : list (op SV PM), runAll add emptyProg os = specAll add noVals os.
Proof. intros os. apply same_all, RR_empty. Qed.

(** A read after operations on other objects returns what it returned before: no copy shares storage. *)
Theorem C33_independent : forall (before after : list (op SV PM)) (i : nat) bs,
  Forall (fun o => mayChange o i = false) after ->
  runAll add emptyProg (before ++ [ReadSolution i; ReadParameter i] ++ after ++ [ReadSolution i; ReadParameter i]) = Some bs ->
  exists pre mid x y, bs = pre ++ [x; y] ++ mid ++ [x; y] /\ length pre = length before.
Proof.
  intros before after i bs F. rewrite C33_value_semantics.
  assert (W : forall (a : vals SV PM) k, made a <= k -> objs a k = None -> True) by auto.
  assert (FR : forall k, made (noVals : vals SV PM) <= k -> objs (noVals : vals SV PM) k = None) by auto.
  revert FR. generalize (noVals : vals SV PM). clear W. revert bs. induction before as [|o os IH]; intros bs a FR; simpl.
  - unfold withSol at 1. destruct (objs a i) as [b|] eqn:Ei; [|discriminate].
    assert (Li : i < made a). { destruct (le_lt_dec (made a) i) as [G|G]; auto. rewrite FR in Ei by auto. discriminate. }
    assert (G : forall (af : list (op SV PM)) (a : vals SV PM) cs, i < made a -> objs a i = Some b ->
              Forall (fun o => mayChange o i = false) af ->
              specAll add a (af ++ [ReadSolution i; ReadParameter i]) = Some cs ->
              exists mid, cs = mid ++ [match o_sol b with Some v => OSol v | None => OThrown end;
                                       match o_par b with Some v => OPar v | None => OThrown end]).
    { clear. induction af as [|o af IH]; intros a cs L H F; simpl.
      - unfold withSol, withPar. rewrite H. destruct (o_sol b); simpl; rewrite H; destruct (o_par b); simpl;
        intros E; injection E as <-; exists []; reflexivity.
      - inversion F; subst. destruct (spec1 add a o) as [[a' c]|] eqn:K; [|discriminate].
        destruct (spec_frame add _ _ _ _ _ _ L H H2 K) as [H' L'].
        destruct (specAll add a' _) as [ds|] eqn:D; [|discriminate]. intros E; injection E as <-.
        destruct (IH _ _ L' H' H3 D) as [mid ->]. now exists (c :: mid). }
    destruct (o_sol b) as [v|] eqn:Es; simpl; unfold withPar; rewrite Ei; destruct (o_par b) as [p|] eqn:Ep; simpl;
    destruct (specAll add a (after ++ _)) as [ds|] eqn:D; try discriminate;
    destruct (G _ _ _ Li Ei F D) as [mid ->]; rewrite ?Es, ?Ep; intros E; injection E as <-;
    exists [], mid; do 2 eexists; split; reflexivity.
  - destruct (spec1 add a o) as [[a' c]|] eqn:K; [|discriminate].
    destruct (specAll add a' _) as [ds|] eqn:D; [|discriminate]. intros E; injection E as <-.
    assert (FR' : forall k, made a' <= k -> objs a' k = None).
    { clear - FR K. intros k.
      destruct o; simpl in K; unfold newSol, newPar, withSol, withPar in K;
      repeat match type of K with
        | context [match ?t with _ => _ end] => destruct t eqn:?; try discriminate
        end; try discriminate; injection K as <- <-; simpl; auto; intros L;
      unfold upd; match goal with |- context [?u =? ?w] => destruct (Nat.eqb_spec u w) end; subst; auto; try lia;
      try (apply FR; lia);
      match goal with H : objs a ?x = Some _ |- _ => rewrite FR in H by auto; discriminate end. }
    destruct (IH _ _ FR' D) as (pre & mid & x & y & -> & Len).
    exists (c :: pre), mid, x, y. simpl. auto.
Qed.

(** Reading what was never inserted is an error, and populated() tells whether both reads succeed. *)
Theorem C33_populated : forall (os : list (op SV PM)) (i : nat) bs x y b,
  runAll add emptyProg (os ++ [ReadSolution i; ReadParameter i; Populated i]) = Some (bs ++ [x; y; b]) ->
  b = OBool true /\ (exists v, x = OSol v) /\ (exists p, y = OPar p) \/
  b = OBool false /\ (x = OThrown \/ y = OThrown).
Proof.
  intros os i bs x y b. rewrite C33_value_semantics. generalize (noVals : vals SV PM). revert bs.
  induction os as [|o os IH]; intros bs a; simpl.
  - unfold withSol. destruct (objs a i) as [ob|] eqn:Ei; [|discriminate].
    assert (Tl : forall (u v w : obs SV PM), Some [u; v; w] = Some (bs ++ [x; y; b]) -> x = u /\ y = v /\ b = w).
    { intros u v w E. injection E as E. destruct bs as [|? bs]; [injection E as -> -> ->; auto|].
      exfalso. apply (f_equal (@length _)) in E. rewrite app_length in E. simpl in E. lia. }
    destruct (o_sol ob) as [v|] eqn:Es; simpl; unfold withPar; rewrite Ei; destruct (o_par ob) as [p|] eqn:Ep; simpl;
    rewrite Ei, Es, ?Ep; intros E; apply Tl in E; destruct E as (-> & -> & ->); eauto 10.
  - destruct (spec1 add a o) as [[a' c]|] eqn:K; [|discriminate].
    destruct (specAll add a' _) as [ds|] eqn:D; [|discriminate]. intros E; injection E as E.
    destruct bs as [|c' bs].
    + exfalso. simpl in E. injection E as _ E.
      assert (Ln : forall us (a : vals SV PM) cs, specAll add a us = Some cs -> length cs = length us).
      { clear. induction us as [|u us IH]; simpl; intros a cs; [injection 1 as <-; auto|].
        destruct (spec1 add a u) as [[a' c]|]; [|discriminate]. destruct (specAll add a' us) eqn:E; [|discriminate].
        injection 1 as <-. simpl. f_equal. eauto. }
      apply Ln in D. rewrite app_length in D. simpl in D. subst ds. simpl in D. lia.
    + injection E as _ E. subst ds. eapply IH, D.
Qed.
End Props.
Print Assumptions C33_value_semantics.
Print Assumptions C33_independent.
Print Assumptions C33_populated.

(** Copy, write through both, read both *)
Example C33_example :
  runAll Nat.add emptyProg
    [Construct 1 10; CopyConstruct 0; PlusEq 0 4; SetParameter 1 20; ReadSolution 0; ReadSolution 1; ReadParameter 0;
     ReadParameter 1; Assign 0 1; SetSolution 1 9; ReadSolution 0; Default; ReadSolution 2; Populated 2]
  = Some [ODone; ODone; OSol 5; ODone; OSol 5; OSol 1; OPar 10; OPar 20; ODone; ODone; OSol 1; ODone; OThrown; OBool false].
Proof. reflexivity. Qed.

Example C33_independent_example :
  runAll Nat.add emptyProg
    ([Construct 1 10; CopyConstruct 0] ++ [ReadSolution 1; ReadParameter 1] ++ [PlusEq 0 4; Destroy 0] ++
     [ReadSolution 1; ReadParameter 1])
  = Some [ODone; ODone; OSol 1; OPar 10; OSol 5; ODone; OSol 1; OPar 10].
Proof. reflexivity. Qed.

(** C66: a reference taken from an object stays usable as long as the object lives: false, assignment and insertion
    replace the storage instead of the value. *)
Theorem C66_assignment_refuted : exists (v p : nat),
  runAll Nat.add emptyProg [Construct v p; Construct 2 20; TakeSolution 0; ReadSolutionRef 0] <> None /\
  runAll Nat.add emptyProg [Construct v p; Construct 2 20; TakeSolution 0; Assign 0 1; ReadSolution 0; ReadSolutionRef 0] = None.
Proof. exists 1, 10. split; [discriminate|reflexivity]. Qed.
Print Assumptions C66_assignment_refuted.

Theorem C66_insertion_refuted : exists (v p : nat),
  runAll Nat.add emptyProg [Construct v p; TakeSolution 0; InsertSolution 0 3; ReadSolution 0] <> None /\
  runAll Nat.add emptyProg [Construct v p; TakeSolution 0; InsertSolution 0 3; ReadSolution 0; ReadSolutionRef 0] = None.
Proof. exists 1, 10. split; [discriminate|reflexivity]. Qed.
Print Assumptions C66_insertion_refuted.

(** C34: the conversions follow the table of what belongs together, commute, and give noAffordance otherwise. *)
Theorem C34_conversions :
  (forall s v m, belongTogether s v m ->
     vectorAffordanceOfMatrix m = v /\ scalarAffordanceOfMatrix m = s /\ scalarAffordanceOfVector v = s) /\
  (forall m, scalarAffordanceOfVector (vectorAffordanceOfMatrix m) = scalarAffordanceOfMatrix m) /\
  (forall m, (forall s v, ~ belongTogether s v m) -> vectorAffordanceOfMatrix m = vNo /\ scalarAffordanceOfMatrix m = sNo) /\
  (forall v, (forall s m, ~ belongTogether s v m) -> scalarAffordanceOfVector v = sNo).
Proof.
  repeat split; try (destruct H; reflexivity).
  - now destruct m.
  - destruct m; try reflexivity; exfalso; eapply H; constructor.
  - destruct m; try reflexivity; exfalso; eapply H; constructor.
  - intros v H. destruct v; try reflexivity; exfalso; eapply H; constructor.
Qed.
Print Assumptions C34_conversions.

(** A collection answers hasAffordance for exactly the affordances in it *)
Theorem C34_has : forall c a, hasAffordance c a = true <->
  match a with
  | AScalar x => c_scalar c = Some x
  | AVector x => c_vector c = Some x
  | AMatrix x => c_matrix c = Some x
  end.
Proof.
  intros [s v m] [x|x|x]; simpl.
  - destruct s as [y|]; [|split; discriminate]. destruct x, y; simpl; split; intros H; try discriminate; auto.
  - destruct v as [y|]; [|split; discriminate]. destruct x, y; simpl; split; intros H; try discriminate; auto.
  - destruct m as [y|]; [|split; discriminate]. destruct x, y; simpl; split; intros H; try discriminate; auto.
Qed.
Print Assumptions C34_has.

Theorem C34_elastoStatics : exists s v m,
  c_scalar elastoStatics = Some s /\ c_vector elastoStatics = Some v /\ c_matrix elastoStatics = Some m /\
  belongTogether s v m.
Proof. do 3 eexists. do 3 (split; [reflexivity|]). constructor. Qed.
Print Assumptions C34_elastoStatics.

(** A collection that was not given affordances has exactly the empty affordances of its kinds, and offers nothing that an element computes *)
Theorem C34_default : forall hs hv hm a,
  (hasAffordance (defaultCollection hs hv hm) a = true <->
   match a with
   | AScalar x => hs = true /\ scalarAff_val x = 0 | AVector x => hv = true /\ vectorAff_val x = 0 | AMatrix x => hm = true /\ matrixAff_val x = 0
   end) /\
  (hasAffordance (defaultCollection hs hv hm) a = true -> forall s v m, belongTogether s v m -> a <> AScalar s /\ a <> AVector v /\ a <> AMatrix m).
Proof.
  intros hs hv hm a. split.
  - destruct a as [x|x|x]; cbn; [destruct hs|destruct hv|destruct hm]; destruct x; cbn; split; try discriminate; intuition discriminate.
  - intros H. destruct a as [x|x|x]; cbn in H; [destruct hs|destruct hv|destruct hm]; try discriminate; destruct x; try discriminate;
      intros s v m B; destruct B; repeat split; discriminate.
Qed.
Print Assumptions C34_default.
