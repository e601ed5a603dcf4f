(** C140, C141, C142: materials in Python: their parameters, calls with a strain measure and their options. *)

From Coq Require Import List Arith ZArith Reals Lra Lia Bool String FunctionalExtensionality.
From Verif Require Import Tensor_Model Tensor_Spec Tensor_Props LinearAlgebra_Model SVK_Model SVK_Spec SVK_Props VanishingStress_Model VanishingStress_Props.
From Verif Require Import Conversions_Model Conversions_Spec Conversions_Props Lame_Model Lame_Props PythonMaterial_Model.
Import ListNotations.
Local Open Scope R_scope.

(** ** C140 *)
(** Specification: the elastic constant of each name *)
Definition constantNamed (c : constants) (name : string) : option R :=
  if String.eqb name "E" then Some (cE c) else if String.eqb name "nu" then Some (cNu c) else if String.eqb name "mu" then Some (cMu c)
  else if String.eqb name "K" then Some (cK c) else if String.eqb name "Lambda" then Some (cLambda c) else None.

(** The two names given, in any order *)
Definition names (kw : kwargs) (a b : string) : Prop :=
  map fst kw = [a; b] \/ map fst kw = [b; a].
Definition accepted : list (string * string) :=
  [("E", "nu"); ("E", "mu"); ("E", "K"); ("E", "Lambda"); ("K", "Lambda"); ("Lambda", "mu")]%string.

(** All keywords are constants of the material *)
Definition consistent (c : constants) (kw : kwargs) : Prop :=
  forall n v, In (n, v) kw -> exists x, constantNamed c n = Some x /\ v = Number x.

(** C140: whatever accepted pair of constants describes a material, in either order, the material created has the Lame constants of
    that material. *)
Theorem C140_parameters : forall c kw a b,
  material c -> In (a, b) accepted -> names kw a b -> consistent c kw -> sameDouble (cNu c) (1 / 2) = false ->
  extractMaterialParameters kw = Value (Finite (cLambda c), cMu c).
Proof.
  intros c kw a b M I N C D.
  assert (K : exists p q, kw = [p; q] /\ (fst p = a /\ fst q = b \/ fst p = b /\ fst q = a)).
  { destruct kw as [|p [|q [|r kw]]]; destruct N as [N|N]; try discriminate; injection N as N1 N2; exists p, q; auto. }
  destruct K as ([pn pv] & [qn qv] & -> & K).
  destruct (C pn pv (or_introl eq_refl)) as (x & X1 & ->).
  destruct (C qn qv (or_intror (or_introl eq_refl))) as (y & Y1 & ->). clear C N.
  assert (L : forall vp, describes vp c -> toLamesFirstParameter vp = Finite (cLambda c) /\ toShearModulus vp = cMu c).
  { intros vp Hd. destruct (C53_conversions c vp M Hd) as (_ & H2 & _ & _ & _ & H6). split; auto. apply H6.
    destruct vp; cbn; auto. destruct Hd as [_ ->]. exact D. }
  cbn [fst] in K.
  repeat (destruct I as [I|I]; [injection I as <- <-; destruct K as [[-> ->]|[-> ->]]; cbn in X1, Y1; injection X1 as <-; injection Y1 as <-;
    unfold extractMaterialParameters; cbn [List.length Nat.eqb findConversion conversionMap contains lookup String.eqb Ascii.eqb Bool.eqb andb];
    unfold convertMaterialParameters, lameParameters, castBoth; cbn [lookup String.eqb Ascii.eqb Bool.eqb];
    try (match goal with |- Value (toLamesFirstParameter ?vp, _) = _ => destruct (L vp (conj eq_refl eq_refl)) as [-> ->] end); reflexivity|]).
  destruct I.
Qed.
Print Assumptions C140_parameters.

Lemma contains_names kw a b : contains kw a = true -> contains kw b = true -> a <> b -> List.length kw = 2%nat -> names kw a b.
Proof.
  intros A B N L. destruct kw as [|[p v] [|[q w] [|]]]; try discriminate. unfold names. cbn [map fst].
  unfold contains in *. cbn [lookup] in *.
  destruct (String.eqb_spec p a); destruct (String.eqb_spec p b); destruct (String.eqb_spec q a); destruct (String.eqb_spec q b);
    try discriminate; subst; auto; congruence.
Qed.

(** C140: nothing else is accepted: a material is only created from two numbers with accepted names *)
Theorem C140_rejected : forall kw r, extractMaterialParameters kw = Value r ->
  List.length kw = 2%nat /\ (exists a b, In (a, b) accepted /\ names kw a b) /\
  forall n v, In (n, v) kw -> NoDup (map fst kw) -> exists x, v = Number x.
Proof.
  intros kw r H. unfold extractMaterialParameters in H. destruct (Nat.eqb_spec (List.length kw) 2) as [L|]; [|discriminate].
  split; [exact L|].
  assert (P : exists a b, In (a, b) accepted /\ contains kw a = true /\ contains kw b = true /\ a <> b /\ castBoth kw a b <> None).
  { unfold conversionMap in H. cbn [findConversion] in H.
    assert (U : forall a b (f : R * R -> outcome (extended * R)), In (a, b) accepted -> a <> b -> (contains kw a && contains kw b)%bool = true ->
      match castBoth kw a b with Some xy => f xy | None => CastError end = Value r ->
      exists a b, In (a, b) accepted /\ contains kw a = true /\ contains kw b = true /\ a <> b /\ castBoth kw a b <> None).
    { intros a b f I N K Q. apply andb_true_iff in K. exists a, b. repeat split; try tauto. destruct (castBoth kw a b); discriminate. }
    repeat (match type of H with (if ?c then _ else _) = _ => destruct c eqn:K end;
      [first [eapply (U _ _ (fun xy => let (x, y) := xy in _)) | eapply U]; [| |exact K|exact H]; [cbn; tauto|discriminate]|clear K]).
    discriminate. }
  destruct P as (a & b & I & A & B & N & Q). assert (NN := contains_names kw a b A B N L).
  split; [eauto|]. intros n v In1 ND.
  destruct kw as [|[p v1] [|[q v2] [|]]]; try discriminate. unfold castBoth in Q. cbn [lookup] in Q.
  unfold names in NN. cbn [map fst] in NN.
  assert (Hpq : p <> q). { cbn in ND. inversion ND as [|? ? H1]; subst. intros ->. apply H1. now left. }
  destruct NN as [NN|NN]; injection NN as -> ->.
  - rewrite String.eqb_refl in Q. destruct (String.eqb_spec a b); [congruence|]. rewrite String.eqb_refl in Q.
    destruct v1, v2; try congruence; destruct In1 as [E|[E|[]]]; injection E as _ <-; eauto.
  - rewrite String.eqb_refl in Q. destruct (String.eqb_spec b a); [congruence|]. rewrite String.eqb_refl in Q.
    destruct v1, v2; try congruence; destruct In1 as [E|[E|[]]]; injection E as _ <-; eauto.
Qed.
Print Assumptions C140_rejected.

(** The full claim, that the combinations the error message calls valid are accepted, fails for (Lambda, nu). *)
Theorem C140_message_refuted : exists c kw a b,
  material c /\ In (a, b) combinationsInMessage /\ names kw a b /\ consistent c kw /\ sameDouble (cNu c) (1 / 2) = false /\
  extractMaterialParameters kw = IOError.
Proof.
  exists {| cLambda := 1; cMu := 1; cE := 5 / 2; cNu := 1 / 4; cK := 5 / 3; cM := 3 |}, [("Lambda", Number 1); ("nu", Number (1 / 4))]%string,
    "Lambda"%string, "nu"%string.
  destruct C53_applies as (A & _ & B). split; [exact A|]. split; [cbn; tauto|]. split; [left; reflexivity|].
  split; [|split; [exact B|reflexivity]].
  intros n v [E|[E|[]]]; injection E as <- <-; eexists; split; reflexivity.
Qed.
Print Assumptions C140_message_refuted.

Example C140_applies :
  let c := {| cLambda := 1; cMu := 1; cE := 5 / 2; cNu := 1 / 4; cK := 5 / 3; cM := 3 |} in
  let kw := [("nu", Number (1 / 4)); ("E", Number (5 / 2))]%string in
  material c /\ In ("E", "nu")%string accepted /\ names kw "E" "nu" /\ consistent c kw /\ sameDouble (cNu c) (1 / 2) = false.
Proof.
  destruct C53_applies as (A & _ & B). split; [exact A|]. split; [cbn; tauto|]. split; [right; reflexivity|]. split; [|exact B].
  intros n v [E|[E|[]]]; injection E as <- <-; eexists; split; reflexivity.
Qed.

(** ** C141 *)
Definition storable (tag : strainTag) : Prop := tag = greenLagrangian \/ tag = rightCauchyGreenTensor.

Lemma strainOf_symmetric F tag : storable tag -> symmetric 3 (strainOf 3 tag F).
Proof.
  intros T i j _ _. assert (H : rightCauchyGreenOf 3 F i j = rightCauchyGreenOf 3 F j i) by (cbn; ring).
  destruct T as [->| ->]; unfold strainOf; rewrite H; auto. unfold identity. now rewrite Nat.eqb_sym.
Qed.

Lemma transform_measures msqrt own tag F v :
  storable own -> storable tag -> represents true (Vector6 v) (strainOf 3 tag F) ->
  exists e, transformStrain3 msqrt tag own (Vector6 v) = Some e /\ eqm 3 e (strainOf 3 own F).
Proof.
  intros O T H.
  destruct (C47_voigt msqrt tag own (Vector6 v) (strainOf 3 tag F) (strainOf_symmetric F tag T) H T O) as (x & y & X & Y & XY).
  exists x. split; auto. eapply eqm_trans; [exact XY|].
  destruct (C47_direct 3 msqrt tag own F (strainOf 3 tag F)) as (y' & Y' & G).
  - destruct T; congruence.
  - destruct O; congruence.
  - intros ?. destruct O; congruence.
  - intros [Q _]. destruct O; congruence.
  - apply eqm_refl.
  - rewrite Y in Y'. injection Y' as <-. exact G.
Qed.

(** C141: a nonlinear material called from Python with the right Cauchy-Green tensor or the Green-Lagrange strain of a deformation, six
    components, is evaluated at the strain of that deformation in its own measure: the result does not depend on the measure. *)
Theorem C141_measures : forall (T : Type) msqrt own (f : rmat -> T) F tag v,
  storable own -> storable tag -> represents true (Vector6 v) (strainOf 3 tag F) ->
  exists e, materialFunction T msqrt own f tag v = Value (Some (f e)) /\ eqm 3 e (strainOf 3 own F).
Proof.
  intros T msqrt own f F tag v O S H. destruct (transform_measures msqrt own tag F v O S H) as (e & E & G).
  exists e. split; auto. unfold materialFunction, callWith. destruct O as [->| ->]; destruct S as [->| ->]; cbn [strainTag_eqb negb]; now rewrite E.
Qed.
Print Assumptions C141_measures.

(** C141: a linear material called with linear strains is evaluated at these strains *)
Theorem C141_linear : forall (T : Type) msqrt (f : rmat -> T) E v, symmetric 3 E -> represents true (Vector6 v) E ->
  exists e, materialFunction T msqrt linear f linear v = Value (Some (f e)) /\ eqm 3 e E.
Proof.
  intros T msqrt f E v S H. destruct (maybeFrom true (Vector6 v) E S H) as (A & EA & G). exists A. split; [|exact G].
  unfold materialFunction, callWith, transformStrain3. rewrite EA. reflexivity.
Qed.
Print Assumptions C141_linear.

(** C141: all other combinations raise, none reads the numbers as another strain *)
Theorem C141_raises : forall (T : Type) msqrt own (f : rmat -> T) tag v,
  (storable own /\ ~ storable tag) \/ (own = linear /\ tag <> linear) ->
  materialFunction T msqrt own f tag v = MathError /\ planeStrainFunction T msqrt own f tag v = MathError.
Proof.
  intros T msqrt own f tag v [[O N]|[-> N]].
  - destruct O as [->| ->]; destruct tag; try (split; reflexivity); exfalso; apply N; unfold storable; auto.
  - destruct tag; try (split; reflexivity). congruence.
Qed.
Print Assumptions C141_raises.

(** Plane deformation: the third direction is kept *)
Definition planeDeformation (F : rmat) : Prop :=
  F 2%nat 2%nat = 1 /\ F 0%nat 2%nat = 0 /\ F 1%nat 2%nat = 0 /\ F 2%nat 0%nat = 0 /\ F 2%nat 1%nat = 0.
(** The three components given: 11, 22 and twice 12 *)
Definition planeVoigt (v : nat -> R) (E : rmat) : Prop :=
  v 0%nat = E 0%nat 0%nat /\ v 1%nat = E 1%nat 1%nat /\ v 2%nat = 2 * E 0%nat 1%nat.

Lemma enlarged_plane v s : exists A, maybeFromVoigt (Vector6 (enlargeVector planeStrainFree v)) s = Some A /\
  eq3 A (entries [[v 0%nat; v 2%nat * factorFrom s; 0]; [v 2%nat * factorFrom s; v 1%nat; 0]; [0; 0; 0]]).
Proof.
  cbn [maybeFromVoigt]. destruct (fromVoigt6 (enlargeVector planeStrainFree v) s) as (m & -> & Hm & ->).
  eexists. split; [reflexivity|]. intros i j Hi Hj. rewrite Hm by auto.
  cases i; cases j; cbn; ring.
Qed.

(** C141: a plane strain material called with three components of the right Cauchy-Green tensor or the Green-Lagrange strain of a plane
    deformation evaluates the wrapped material at the strain of that deformation. *)
Theorem C141_plane_strain : forall (T : Type) msqrt own (f : rmat -> T) F tag v,
  storable own -> storable tag -> planeDeformation F -> planeVoigt v (strainOf 3 tag F) ->
  exists e, planeStrainFunction T msqrt own f tag v = Value (Some (f e)) /\ eqm 3 e (strainOf 3 own F).
Proof.
  intros T msqrt own f F tag v O S (F22 & F02 & F12 & F20 & F21) (V0 & V1 & V2).
  destruct (enlarged_plane v true) as (A & EA & HA).
  assert (G : exists e, planeStrainArgument msqrt own tag v = Some e /\ eqm 3 e (strainOf 3 own F)).
  { unfold planeStrainArgument, transformStrain3. rewrite EA.
    assert (A00 := HA 0%nat 0%nat). assert (A01 := HA 0%nat 1%nat). assert (A10 := HA 1%nat 0%nat). assert (A11 := HA 1%nat 1%nat).
    cbn in A00, A01, A10, A11. specialize (A00 ltac:(lia) ltac:(lia)). specialize (A01 ltac:(lia) ltac:(lia)).
    specialize (A10 ltac:(lia) ltac:(lia)). specialize (A11 ltac:(lia) ltac:(lia)).
    unfold factorFrom in *. rewrite V0 in A00. rewrite V2 in A01, A10. rewrite V1 in A11. clear HA V0 V1 V2.
    destruct O as [->| ->]; destruct S as [->| ->]; cbn; (eexists; split; [reflexivity|]); intros i j Hi Hj; cases i; cases j;
      cbn in *; unfold mscale, madd, msub, kron, setE, rightCauchyGreenOf, identity in *; cbn in *;
      rewrite ?A00, ?A01, ?A10, ?A11, ?F22, ?F02, ?F12, ?F20, ?F21; try lra; field. }
  destruct G as (e & E & G). exists e. split; auto.
  unfold planeStrainFunction. destruct O as [->| ->]; destruct S as [->| ->]; cbn [strainTag_eqb negb]; now rewrite E.
Qed.
Print Assumptions C141_plane_strain.

Example C141_applies : exists F v w,
  planeDeformation F /\ F 0%nat 1%nat <> 0 /\ represents true (Vector6 v) (strainOf 3 greenLagrangian F) /\
  planeVoigt w (strainOf 3 rightCauchyGreenTensor F).
Proof.
  exists (entries [[1; 1; 0]; [0; 1; 0]; [0; 0; 1]]),
    (voigtVector 3 true (strainOf 3 greenLagrangian (entries [[1; 1; 0]; [0; 1; 0]; [0; 0; 1]]))),
    (fun i => match i with 0%nat => 1 | 1%nat => 2 | _ => 2 end).
  split; [repeat split|]. split; [cbn; lra|]. split; [intros k Hk; reflexivity|].
  unfold planeVoigt; cbn. repeat split; unfold rightCauchyGreenOf; cbn; ring.
Qed.

(** ** C142 *)
(** C142, part that holds: with a tolerance of at least 1e-8 the fixed diagonal stresses of the reduced materials are within it.
    Missing: smaller tolerances, among them the default 1e-12 of the Python functions. *)
Theorem C142_tolerance_partial : forall stress moduli factor unitStart inverse tol E E',
  1 / 10 ^ 8 <= tol ->
  (asPlaneStress stress moduli factor unitStart inverse tol E = Some E' -> Rabs (stress E' 2%nat) <= tol) /\
  (asShellMaterial stress moduli factor unitStart inverse tol E = Some E' -> Rabs (stress E' 2%nat) <= tol) /\
  (asBeamMaterial stress moduli factor unitStart inverse tol E = Some E' -> Rabs (stress E' 1%nat) <= tol /\ Rabs (stress E' 2%nat) <= tol).
Proof.
  intros st mo fa us inv tol E E' L.
  assert (W : forall x, Rabs x <= defaultTol -> Rabs x <= tol) by (unfold defaultTol; intros; lra).
  split; [|split]; intros H; eapply C70_reduction_partial in H as (G & _ & _).
  - apply W, G; [cbn; tauto|lia].
  - cbn. intros k [<-|[<-|[<-|[]]]] K; try lia; cbn; tauto.
  - apply W, G; [cbn; tauto|lia].
  - cbn. intros k [<-|[]] K; cbn; tauto.
  - split; apply W, G; cbn; (tauto || lia).
  - cbn. intros k [<-|[<-|[]]] K; cbn; tauto.
Qed.
Print Assumptions C142_tolerance_partial.

(** The full claim, for every tolerance, fails: the argument is not used.  St. Venant-Kirchhoff material with the default tolerance of
    the Python function and a strain of 1e-9. *)
Theorem C142_tolerance_refuted : exists lambda mu E, 0 < mu /\ 0 < 3 * lambda + 2 * mu /\
  forall inverse, exists E',
  asPlaneStress (svkStress lambda mu) (svkModuli lambda mu) 1 false inverse (1 / 10 ^ 12) E = Some E' /\
  1 / 10 ^ 12 < Rabs (svkStress lambda mu E' 2%nat).
Proof.
  assert (P : 0 < 1 / 10 ^ 9 <= 1 / 10 ^ 8 /\ 1 / 10 ^ 12 < 1 / 10 ^ 9) by lra. revert P. generalize (1 / 10 ^ 9) as x. intros x P.
  exists 1, 1, (entries [[x; 0; 0]; [0; 0; 0]; [0; 0; 0]]). split; [lra|]. split; [lra|]. intros inverse.
  eexists. split.
  - unfold asPlaneStress, reducedStrain. apply reduce_zero.
    unfold normOf, residualOf, initUnknownStrains, svkStress; cbn; unfold trace; cbn.
    match goal with |- sqrt ?y <= _ => replace y with (x ^ 2) by field end.
    rewrite sqrt_pow2 by lra. unfold defaultTol. lra.
  - unfold initUnknownStrains, svkStress; cbn; unfold trace; cbn.
    match goal with |- _ < Rabs ?y => replace y with x by field end. rewrite Rabs_pos_eq; lra.
Qed.
Print Assumptions C142_tolerance_refuted.

(** The optional keyword of the Muesli materials: a tag is set exactly if the option asks for it *)
Definition hasTag (p : properties) (tag : string) : Prop := exists x, In (tag, x) p.
Definition requested (default : bool) (option : option bool) : bool := match option with Some b => b | None => default end.

(** C142, part that holds: Mooney-Rivlin materials; the other two without the keyword or with True *)
Theorem C142_options_partial : forall a b c d option,
  (hasTag (mooney a b c option) "incompressible" <-> requested false option = true) /\
  (option <> Some false ->
   (hasTag (arrudaBoyce a b c option) "compressible" <-> requested true option = true) /\
   (hasTag (yeoh a b c d option) "compressible" <-> requested true option = true)).
Proof.
  intros a b c d o. split; [|intros N; split].
  - unfold mooney. destruct o as [[]|]; cbn; unfold hasTag; cbn; split; auto; intros H; try discriminate H; try (exists 0; tauto);
      destruct H as (x & H); repeat (destruct H as [H|H]; [discriminate|]); destruct H.
  - destruct o as [[]|]; try congruence; split; auto; intros _; exists 0; cbn; tauto.
  - destruct o as [[]|]; try congruence; split; auto; intros _; exists 0; cbn; tauto.
Qed.
Print Assumptions C142_options_partial.

(** Arruda-Boyce and Yeoh materials created with compressible=False are compressible *)
Theorem C142_options_refuted : exists a b c d,
  hasTag (arrudaBoyce a b c (Some false)) "compressible" /\ hasTag (yeoh a b c d (Some false)) "compressible".
Proof. exists 1, 1, 1, 1. split; exists 0; cbn; tauto. Qed.
Print Assumptions C142_options_refuted.

(** The parameters have the values that were passed, whatever the option *)
Definition hasParameter (p : properties) (name : string) (x : R) : Prop := In (name, x) p /\ forall y, In (name, y) p -> y = x.
Theorem C142_parameters : forall a b c d option,
  (hasParameter (mooney a b c option) "alpha0" a /\ hasParameter (mooney a b c option) "alpha1" b /\ hasParameter (mooney a b c option) "alpha2" c) /\
  (hasParameter (arrudaBoyce a b c option) "c1" a /\ hasParameter (arrudaBoyce a b c option) "lambdam" b /\ hasParameter (arrudaBoyce a b c option) "bulk" c) /\
  (hasParameter (yeoh a b c d option) "c1" a /\ hasParameter (yeoh a b c d option) "c2" b /\ hasParameter (yeoh a b c d option) "c3" c /\
   hasParameter (yeoh a b c d option) "bulk" d).
Proof.
  intros a b c d o.
  repeat split; try (destruct o as [[]|]; cbn; tauto);
    intros y H; destruct o as [[]|]; cbn in H; repeat (destruct H as [H|H]; [congruence|]); destruct H.
Qed.
Print Assumptions C142_parameters.
