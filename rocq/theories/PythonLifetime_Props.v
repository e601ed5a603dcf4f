(** C137: Python objects and what they need. *)

From Coq Require Import List Arith Bool Lia.
From Verif Require Import PythonLifetime_Model.
Import ListNotations.

(** ** Specification *)

(** An object exists if it has a name or an existing object keeps it *)
Inductive exists_in (h : heap) : nat -> Prop :=
| by_name x : In x (names h) -> exists_in h x
| by_object x y : exists_in h x -> In y (keeps (get h x)) -> exists_in h y.

(** A named object can be used if all it dereferences exists *)
Definition usable (h : heap) (x : nat) : Prop := forall y, In y (reads (get h x)) -> exists_in h y.

(** ** Refuted: an element with a boundary load whose load and patch have gone out of scope *)
Definition history := [makeBasis; makePatch; makeLoad 1; makeFE 0 [2]; makeAssembler [3]; forget 1; forget 2].

Lemma names_only h : (forall x, In x (names h) -> forall y, In y (keeps (get h x)) -> In y (names h)) ->
  forall x, exists_in h x -> In x (names h).
Proof. intros H x E. induction E as [x I | x y E IH K]; [exact I|]. exact (H x IH y K). Qed.

Theorem C137_refuted : forall nb, exists h, run nb empty history = Some h /\ In 3 (names h) /\ In 4 (names h) /\
  ~ usable h 3 /\ ~ usable h 4.
Proof.
  intros nb. eexists. split; [reflexivity|]. cbn. split; [auto|]. split; [auto|].
  assert (N : ~ exists_in (mkHeap [mkObject [] [] [] false; mkObject [] [] [] false; mkObject [1] [1] [] false; mkObject [0] [1] [0] true;
     mkObject [] [1] [0] nb] [4; 3; 0]) 1).
  { intros E. apply names_only in E.
    - cbn in E. intuition lia.
    - cbn. intros x [<- | [<- | [<- | []]]] y Hy; cbn in Hy; intuition lia. }
  split; intros U; apply N, U; cbn; auto.
Qed.
Print Assumptions C137_refuted.

(** With nodes that read the basis, also an assembler whose elements have gone *)
Theorem C137_basis_refuted : exists h, run true empty [makeBasis; makeFE 0 []; makeAssembler [1]; forget 0; forget 1] = Some h /\ In 2 (names h) /\ ~ usable h 2.
Proof.
  eexists. split; [reflexivity|]. split; [cbn; auto|]. intros U.
  assert (E := U 0 ltac:(cbn; auto)). apply names_only in E.
  - cbn in E. intuition lia.
  - cbn. intros x [<- | []] y []. 
Qed.
Print Assumptions C137_basis_refuted.

(** ** What holds *)
Section Histories.
Variable nb : bool.

(** [reached cs h]: the heap after the calls *)
Definition reached (cs : list call) (h : heap) := run nb empty cs = Some h.

Lemma run_snoc cs c h0 h : run nb h0 (cs ++ [c]) = Some h -> exists h1, run nb h0 cs = Some h1 /\ run1 nb h1 c = Some h.
Proof.
  revert h0. induction cs as [|d cs IH]; cbn; intros h0 H.
  - exists h0. split; [reflexivity|]. destruct (run1 nb h0 c); [exact H|discriminate].
  - destruct (run1 nb h0 d) as [h1|]; [|discriminate]. exact (IH h1 H).
Qed.

Lemma isNamed_in h x : isNamed h x = true -> In x (names h).
Proof. unfold isNamed. intros H. apply existsb_exists in H. destruct H as (y & I & E). apply Nat.eqb_eq in E. now subst. Qed.
Lemma args_named h c : forallb (isNamed h) (arguments c) = true -> forall x, In x (arguments c) -> In x (names h).
Proof. intros H x I. rewrite forallb_forall in H. apply isNamed_in, H, I. Qed.

(** References point to older objects, names to objects *)
Definition ordered (h : heap) : Prop :=
  (forall x, In x (names h) -> x < length (objects h)) /\
  forall x o, nth_error (objects h) x = Some o -> forall y, In y (keeps o) \/ In y (patches o) \/ In y (bases o) -> y < x.

Lemma get_nth h x : x < length (objects h) -> nth_error (objects h) x = Some (get h x).
Proof. intros H. unfold get. now apply nth_error_nth'. Qed.
Lemma get_out h x : length (objects h) <= x -> get h x = mkObject [] [] [] false.
Proof. intros H. unfold get. now apply nth_overflow. Qed.
Lemma older h x y : ordered h -> In y (keeps (get h x)) \/ In y (patches (get h x)) \/ In y (bases (get h x)) -> y < x.
Proof.
  intros (_ & O) H. destruct (lt_dec x (length (objects h))) as [L|L].
  - exact (O x _ (get_nth h x L) y H).
  - rewrite get_out in H by lia. cbn in H. intuition.
Qed.

Lemma made_ordered h c o : ordered h -> forallb (isNamed h) (arguments c) = true -> made nb h c = Some o ->
  forall y, In y (keeps o) \/ In y (patches o) \/ In y (bases o) -> y < length (objects h).
Proof.
  intros O A M y H. assert (N := args_named h c A). destruct O as (ON & OO).
  assert (B : forall x, In x (arguments c) -> forall y, In y (patches (get h x)) \/ In y (bases (get h x)) -> y < length (objects h)).
  { intros x Hx z Hz. assert (z < x) by (apply (older h x z); [split; assumption|tauto]). assert (x < length (objects h)) by (apply ON, N, Hx). lia. }
  destruct c; inversion M; subst o; cbn in H, N, B.
  - tauto.
  - tauto.
  - destruct H as [[<- | []] | [[<- | []] | []]]; apply ON, N; auto.
  - destruct H as [[<- | []] | [H | [<- | []]]]; [apply ON, N; auto| |apply ON, N; auto].
    apply in_flat_map in H. destruct H as (l & Hl & Hy). apply (B l); auto.
  - destruct H as [[] | [H | H]]; apply in_flat_map in H; destruct H as (l & Hl & Hy); apply (B l); auto.
  - destruct H as [[] | H]; apply (B assembler); auto.
  - destruct H as [[<- | []] | H]; [apply ON, N; auto|]. apply (B assembler); auto.
Qed.

Lemma run1_ordered h c h' : ordered h -> run1 nb h c = Some h' -> ordered h'.
Proof.
  intros O R. unfold run1 in R. destruct (forallb (isNamed h) (arguments c)) eqn:A; [|discriminate].
  destruct (made nb h c) as [o|] eqn:M.
  - inversion R; subst h'. split; cbn.
    + intros x [<- | I]; rewrite app_length; cbn; [lia|]. assert (x < length (objects h)) by (apply (proj1 O), I). lia.
    + intros x o' E y H. destruct (lt_dec x (length (objects h))) as [L|L].
      * rewrite nth_error_app1 in E by assumption. exact (proj2 O x o' E y H).
      * rewrite nth_error_app2 in E by lia. destruct (x - length (objects h)) as [|k] eqn:K; [|destruct k; discriminate].
        inversion E; subst o'. assert (y < length (objects h)) by (apply (made_ordered h c o O A M y H)). lia.
  - destruct c; try discriminate. inversion R; subst h'. split; cbn; [|exact (proj2 O)].
    intros y I. apply filter_In in I. apply (proj1 O), I.
Qed.
Lemma reached_ordered cs h : reached cs h -> ordered h.
Proof.
  revert h. induction cs as [|c cs IH] using rev_ind; intros h R.
  - inversion R. split; cbn; [tauto|]. intros x o E. destruct x; discriminate.
  - destruct (run_snoc cs c empty h R) as (h1 & R1 & R2). exact (run1_ordered h1 c h (IH h1 R1) R2).
Qed.

(** Objects do not change *)
Lemma get_old h o ns x : x < length (objects h) -> get (mkHeap (objects h ++ [o]) ns) x = get h x.
Proof. intros L. unfold get. cbn. now apply app_nth1. Qed.
Lemma get_new h o ns : get (mkHeap (objects h ++ [o]) ns) (length (objects h)) = o.
Proof. unfold get. cbn. rewrite app_nth2 by lia. now rewrite Nat.sub_diag. Qed.

Lemma exists_mono h h' : (forall x, In x (names h) -> In x (names h')) -> (forall x y, In y (keeps (get h x)) -> In y (keeps (get h' x))) ->
  forall x, exists_in h x -> exists_in h' x.
Proof.
  intros N K x E. induction E as [x I | x y E IH Ky]; [apply by_name, N, I|]. apply (by_object h' x y IH), K, Ky.
Qed.
Lemma grow_keeps h o ns x y : In y (keeps (get h x)) -> In y (keeps (get (mkHeap (objects h ++ [o]) ns) x)).
Proof.
  intros H. destruct (lt_dec x (length (objects h))) as [L|L].
  - now rewrite get_old.
  - rewrite get_out in H by lia. destruct H.
Qed.
Lemma exists_bound h x : ordered h -> exists_in h x -> x < length (objects h).
Proof.
  intros O E. induction E as [x I | x y E IH K]; [apply (proj1 O), I|].
  assert (y < x) by (apply (older h x y O); auto). lia.
Qed.

(** ** What an object was made with *)
Definition isForget (c : call) : bool := match c with forget _ => true | _ => false end.
(** The calls that made the objects, in order *)
Definition creations (cs : list call) : list call := filter (fun c => negb (isForget c)) cs.

(** Object [l] is a boundary load that [x] was made with, directly or through elements and assemblers *)
Inductive madeWith (cr : list call) : nat -> nat -> Prop :=
| mw_load x p : nth_error cr x = Some (makeLoad p) -> madeWith cr x x
| mw_fe x b ls l k : nth_error cr x = Some (makeFE b ls) -> In l ls -> madeWith cr l k -> madeWith cr x k
| mw_assembler x es e k : nth_error cr x = Some (makeAssembler es) -> In e es -> madeWith cr e k -> madeWith cr x k
| mw_manipulator x a k : nth_error cr x = Some (makeManipulator a) -> madeWith cr a k -> madeWith cr x k
| mw_writer x a k : nth_error cr x = Some (makeWriter a) -> madeWith cr a k -> madeWith cr x k.
(** Object [e] is an element that [x] was made with *)
Inductive madeOf (cr : list call) : nat -> nat -> Prop :=
| mo_fe x b ls : nth_error cr x = Some (makeFE b ls) -> madeOf cr x x
| mo_assembler x es e k : nth_error cr x = Some (makeAssembler es) -> In e es -> madeOf cr e k -> madeOf cr x k
| mo_manipulator x a k : nth_error cr x = Some (makeManipulator a) -> madeOf cr a k -> madeOf cr x k
| mo_writer x a k : nth_error cr x = Some (makeWriter a) -> madeOf cr a k -> madeOf cr x k.

Lemma nth_more {A} (l l' : list A) x a : nth_error l x = Some a -> nth_error (l ++ l') x = Some a.
Proof. intros H. rewrite nth_error_app1; [exact H|]. apply nth_error_Some. rewrite H. discriminate. Qed.
Lemma madeWith_more cr cr' x k : madeWith cr x k -> madeWith (cr ++ cr') x k.
Proof.
  induction 1; [eapply mw_load|eapply mw_fe|eapply mw_assembler|eapply mw_manipulator|eapply mw_writer]; eauto using @nth_more.
Qed.
Lemma madeOf_more cr cr' x k : madeOf cr x k -> madeOf (cr ++ cr') x k.
Proof. induction 1; [eapply mo_fe|eapply mo_assembler|eapply mo_manipulator|eapply mo_writer]; eauto using @nth_more. Qed.
Lemma creations_snoc cs c : creations (cs ++ [c]) = creations cs ++ (if isForget c then [] else [c]).
Proof. unfold creations. rewrite filter_app. cbn. now destruct (isForget c). Qed.

(** Patches are kept by the loads, bases by the elements, and only elements read bases unless nodes do *)
Definition traced (cs : list call) (h : heap) : Prop :=
  length (creations cs) = length (objects h) /\
  forall x, x < length (objects h) ->
    (forall p, In p (patches (get h x)) -> exists l, madeWith (creations cs) x l /\ In p (keeps (get h l))) /\
    (forall b, In b (bases (get h x)) -> exists e, madeOf (creations cs) x e /\ In b (keeps (get h e))) /\
    (callsBases (get h x) = true -> nb = true \/ exists b ls, nth_error (creations cs) x = Some (makeFE b ls)).

Lemma madeWith_bound cr x k : madeWith cr x k -> x < length cr.
Proof. intros H. apply nth_error_Some. destruct H; congruence. Qed.
Lemma made_forget h c o : made nb h c = Some o -> isForget c = false.
Proof. destruct c; [reflexivity..|discriminate]. Qed.

Lemma run1_traced cs h c h' : ordered h -> traced cs h -> run1 nb h c = Some h' -> traced (cs ++ [c]) h'.
Proof.
  intros O (HL & T) R. unfold run1 in R. destruct (forallb (isNamed h) (arguments c)) eqn:A; [|discriminate].
  unfold traced. rewrite creations_snoc.
  destruct (made nb h c) as [o|] eqn:M.
  - inversion R; subst h'. clear R. rewrite (made_forget h c o M). cbn [objects]. rewrite !app_length, HL. cbn [length].
    split; [reflexivity|]. intros x Hx.
    assert (N : nth_error (creations cs ++ [c]) (length (objects h)) = Some c) by (rewrite nth_error_app2, HL, Nat.sub_diag by lia; reflexivity).
    set (h' := mkHeap (objects h ++ [o]) (length (objects h) :: names h)).
    assert (KP : forall y k, In k (keeps (get h y)) -> In k (keeps (get h' y))).
    { intros y k K. destruct (lt_dec y (length (objects h))) as [L|L]; [unfold h'; now rewrite get_old|]. rewrite get_out in K by lia. destruct K. }
    assert (TP : forall y p, y < length (objects h) -> In p (patches (get h y)) -> exists l, madeWith (creations cs ++ [c]) y l /\ In p (keeps (get h' l))).
    { intros y p Hy Hp. destruct (proj1 (T y Hy) p Hp) as (l & Ml & Kl). exists l. split; [apply madeWith_more, Ml|apply KP, Kl]. }
    assert (TB : forall y b, y < length (objects h) -> In b (bases (get h y)) -> exists e, madeOf (creations cs ++ [c]) y e /\ In b (keeps (get h' e))).
    { intros y b Hy Hb. destruct (proj1 (proj2 (T y Hy)) b Hb) as (l & Ml & Kl). exists l. split; [apply madeOf_more, Ml|apply KP, Kl]. }
    destruct (lt_dec x (length (objects h))) as [L|L].
    + unfold h'. rewrite get_old by assumption. split; [|split].
      * intros p. apply TP, L.
      * intros b. apply TB, L.
      * intros H. destruct (proj2 (proj2 (T x L)) H) as [E|(b & ls & E)]; [auto|right; exists b, ls; apply nth_more, E].
    + assert (x = length (objects h)) as -> by lia. 
      assert (AB : forall y, In y (arguments c) -> y < length (objects h)) by (intros y Hy; apply (proj1 O), (args_named h c A y Hy)).
      assert (G : get h' (length (objects h)) = o) by apply get_new.
      rewrite !G. clearbody h'.
      destruct c; [injection M as M; rewrite <- M in G |- *; clear M ..|discriminate M]; cbn in AB, G |- *.
      * split; [tauto|]. split; [tauto|discriminate].
      * split; [tauto|]. split; [tauto|discriminate].
      * split; [|split; [tauto|discriminate]]. intros p [<- | []]. exists (length (objects h)). split; [eapply mw_load, N|]. rewrite G. cbn. auto.
      * split; [|split].
        -- intros p Hp. apply in_flat_map in Hp. destruct Hp as (l & Hl & Hp). destruct (TP l p (AB l (or_intror Hl)) Hp) as (k & Mk & Kk).
           exists k. split; [eapply mw_fe; eauto|exact Kk].
        -- intros b [<- | []]. exists (length (objects h)). split; [eapply mo_fe, N|]. rewrite G. cbn. auto.
        -- intros _. right. eauto.
      * split; [|split; [|auto]].
        -- intros p Hp. apply in_flat_map in Hp. destruct Hp as (l & Hl & Hp). destruct (TP l p (AB l Hl) Hp) as (k & Mk & Kk).
           exists k. split; [eapply mw_assembler; eauto|exact Kk].
        -- intros p Hp. apply in_flat_map in Hp. destruct Hp as (l & Hl & Hp). destruct (TB l p (AB l Hl) Hp) as (k & Mk & Kk).
           exists k. split; [eapply mo_assembler; eauto|exact Kk].
      * split; [|split; [|auto]].
        -- intros p Hp. destruct (TP assembler p (AB assembler (or_introl eq_refl)) Hp) as (k & Mk & Kk). exists k. split; [eapply mw_manipulator; eauto|exact Kk].
        -- intros p Hp. destruct (TB assembler p (AB assembler (or_introl eq_refl)) Hp) as (k & Mk & Kk). exists k. split; [eapply mo_manipulator; eauto|exact Kk].
      * split; [|split; [|auto]].
        -- intros p Hp. destruct (TP assembler p (AB assembler (or_introl eq_refl)) Hp) as (k & Mk & Kk). exists k. split; [eapply mw_writer; eauto|exact Kk].
        -- intros p Hp. destruct (TB assembler p (AB assembler (or_introl eq_refl)) Hp) as (k & Mk & Kk). exists k. split; [eapply mo_writer; eauto|exact Kk].
  - destruct c; try discriminate. inversion R; subst h'. cbn [isForget objects]. rewrite app_nil_r. split; [exact HL|]. exact T.
Qed.
Lemma reached_traced cs h : reached cs h -> traced cs h.
Proof.
  revert h. induction cs as [|c cs IH] using rev_ind; intros h R.
  - inversion R. split; [reflexivity|]. cbn. intros x Hx. lia.
  - destruct (run_snoc cs c empty h R) as (h1 & R1 & R2). exact (run1_traced cs h1 c h (reached_ordered cs h1 R1) (IH h1 R1) R2).
Qed.

(** ** Claims *)

(** After any calls: a named object is usable if the boundary loads it was made with exist, and, where nodes read the basis, its elements do *)
Theorem C137_partial : forall cs h x, reached cs h -> In x (names h) ->
  (forall l, madeWith (creations cs) x l -> exists_in h l) -> (nb = true -> forall e, madeOf (creations cs) x e -> exists_in h e) ->
  usable h x.
Proof.
  intros cs h x R I HL HE y Hy. destruct (reached_traced cs h R) as (_ & T). assert (O := reached_ordered cs h R).
  destruct (T x (proj1 O x I)) as (TP & TB & TC). unfold reads in Hy. apply in_app_iff in Hy. destruct Hy as [Hy | Hy].
  - destruct (TP y Hy) as (l & Ml & Kl). exact (by_object h l y (HL l Ml) Kl).
  - destruct (callsBases (get h x)) eqn:C; [|destruct Hy]. destruct (TB y Hy) as (e & Me & Ke).
    apply (by_object h e y); [|exact Ke]. destruct nb eqn:N; [now apply HE|]. destruct (TC eq_refl) as [X|(b & ls & X)]; [discriminate|].
    (* an element is made of itself only *)
    inversion Me; subst; try congruence. now apply by_name.
Qed.

(** Elements without boundary loads, boundary loads and what is made of them need no other name *)
Theorem C137_alone : forall cs h x, reached cs h -> In x (names h) -> (forall l, madeWith (creations cs) x l -> l = x) ->
  nb = false \/ (forall e, madeOf (creations cs) x e -> e = x) -> usable h x.
Proof.
  intros cs h x R I HL HE. apply (C137_partial cs h x R I).
  - intros l Ml. rewrite (HL l Ml). now apply by_name.
  - intros N e Me. destruct HE as [F | HE]; [congruence|]. rewrite (HE e Me). now apply by_name.
Qed.
End Histories.
Print Assumptions C137_partial.
Print Assumptions C137_alone.

(** The element of the history above, while the load still has a name: the patch may be forgotten *)
Definition shortHistory := [makeBasis; makePatch; makeLoad 1; makeFE 0 [2]; makeAssembler [3]; forget 1; forget 0; forget 3].
Example C137_example : exists h, reached false shortHistory h /\ names h = [4; 2] /\ usable h 4.
Proof.
  assert (exists h, reached false shortHistory h /\ names h = [4; 2]) as (h & R & N) by (eexists; split; reflexivity).
  exists h. split; [exact R|]. split; [exact N|]. apply (C137_partial false shortHistory h 4 R); [rewrite N; cbn; auto| |discriminate].
  intros l Ml. cbn in Ml. apply by_name. rewrite N. cbn.
  inversion Ml as [x p E | x b ls l' k E | x es e k E I M | x a k E | x a k E]; subst; try discriminate E.
  injection E as <-. destruct I as [<- | []].
  inversion M as [x p F | x b ls l' k F I Q | x es e k F | x a k F | x a k F]; subst; try discriminate F.
  injection F as <- <-. destruct I as [<- | []].
  inversion Q as [x p G | x b ls l' k G | x es e k G | x a k G | x a k G]; subst; try discriminate G. auto.
Qed.
