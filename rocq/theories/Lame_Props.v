(** Property C53: conversions between elastic constants. *)

From Coq Require Import Reals Lra Lia.
From Verif Require Import Deviatoric_Model Lame_Model.
Local Open Scope R_scope.

(** Specification: the constants of an isotropic linear elastic material are defined by experiments on its law
    sigma = lambda (e1 + e2 + e3) I + 2 mu e, in principal strains. *)

Definition stressOf (lambda mu : R) (e : R * R * R) : R * R * R :=
  let '(e1, e2, e3) := e in
  let t := lambda * (e1 + e2 + e3) in (t + 2 * mu * e1, t + 2 * mu * e2, t + 2 * mu * e3).

Record constants := { cLambda : R; cMu : R; cE : R; cNu : R; cK : R; cM : R }.

Definition material (c : constants) : Prop :=
  (* stable material *)
  0 < cMu c /\ 0 < 3 * cLambda c + 2 * cMu c /\
  (* uniaxial tension: a strain 1 with lateral contraction nu needs the stress E and no lateral stress *)
  stressOf (cLambda c) (cMu c) (1, - cNu c, - cNu c) = (cE c, 0, 0) /\
  (* volume change *)
  stressOf (cLambda c) (cMu c) (1 / 3, 1 / 3, 1 / 3) = (cK c, cK c, cK c) /\
  (* uniaxial strain *)
  fst (fst (stressOf (cLambda c) (cMu c) (1, 0, 0))) = cM c.

(** The pairs a user can describe a material with *)
Definition describes (vp : valuePair) (c : constants) : Prop :=
  match vp with
  | YoungsModulusAndPoissonsRatio E nu => E = cE c /\ nu = cNu c
  | YoungsModulusAndShearModulus E mu => E = cE c /\ mu = cMu c
  | YoungsModulusAndBulkModulus E K => E = cE c /\ K = cK c
  | YoungsModulusAndLamesFirstParameter E lambda => E = cE c /\ lambda = cLambda c
  | BulkModulusAndLamesFirstParameter K lambda => K = cK c /\ lambda = cLambda c
  | LamesFirstParameterAndShearModulus lambda mu => lambda = cLambda c /\ mu = cMu c
  end.

Lemma material_formulas c : material c ->
  0 < cMu c /\ 0 < 3 * cLambda c + 2 * cMu c /\ 0 < cLambda c + cMu c /\
  cNu c = cLambda c / (2 * (cLambda c + cMu c)) /\ cE c = cMu c * (3 * cLambda c + 2 * cMu c) / (cLambda c + cMu c) /\
  cK c = cLambda c + 2 * cMu c / 3 /\ cM c = cLambda c + 2 * cMu c.
Proof.
  intros (A & B & C & D & E). assert (F : 0 < cLambda c + cMu c) by lra.
  unfold stressOf in *. cbn [fst] in E. injection C as C1 C2. injection D as D1. 
  assert (N : cNu c = cLambda c / (2 * (cLambda c + cMu c))).
  { apply (Rmult_eq_reg_r (2 * (cLambda c + cMu c))); [|lra]. unfold Rdiv. rewrite Rmult_assoc, Rinv_l, Rmult_1_r by lra. lra. }
  repeat split; try assumption; try lra.
  rewrite <- C1, N. field. lra.
Qed.

Lemma calcR_value l m : 0 < m -> 0 < 3 * l + 2 * m ->
  calcR (m * (3 * l + 2 * m) / (l + m)) l = (3 * l * l + 4 * l * m + 2 * m * m) / (l + m).
Proof.
  intros A B. unfold calcR.
  replace (_ + _) with (((3 * l * l + 4 * l * m + 2 * m * m) / (l + m)) ^ 2) by (field; lra).
  rewrite sqrt_pow2; [reflexivity|]. apply Rlt_le, Rdiv_lt_0_compat; [|lra].
  replace (3 * l * l + 4 * l * m + 2 * m * m) with (3 * (l + 2 / 3 * m) ^ 2 + 2 / 3 * m ^ 2) by field.
  assert (P := pow2_ge_0 (l + 2 / 3 * m)). assert (Q : 0 < m ^ 2) by now apply pow_lt. lra.
Qed.

Definition distinguishable (vp : valuePair) : Prop :=
  match vp with YoungsModulusAndPoissonsRatio _ nu => sameDouble nu (1 / 2) = false | _ => True end.

(** C53: whatever pair describes a material, all constants computed from it are those of the material *)
Theorem C53_conversions c vp :
  material c -> describes vp c ->
  toBulkModulus vp = cK c /\ toShearModulus vp = cMu c /\ toPWaveModulus vp = cM c /\
  toPoissonsRatio vp = cNu c /\ toYoungsModulus vp = cE c /\
  (distinguishable vp -> toLamesFirstParameter vp = Finite (cLambda c)).
Proof.
  intros M D. destruct (material_formulas c M) as (A & B & S & N & E & K & W).
  assert (X : cMu c + (cLambda c + cMu c) <> 0) by lra.
  destruct vp as [e n|e m|e k|e l|k l|l m]; destruct D as [-> ->]; cbn [toBulkModulus toShearModulus toPWaveModulus toPoissonsRatio toYoungsModulus toLamesFirstParameter distinguishable].
  - rewrite W, K, E, N. do 5 (split; [field; lra|]).
    intros ->. f_equal. field. lra.
  - assert (Z : 3 * cMu c - cE c = cMu c * cMu c / (cLambda c + cMu c)) by (rewrite E; field; lra).
    rewrite Z, W, K, E, N. do 5 (split; [try reflexivity; field; repeat split; lra|]). intros _. f_equal. field. repeat split; lra.
  - assert (Z : 9 * cK c - cE c = (3 * cLambda c + 2 * cMu c) * (3 * cLambda c + 2 * cMu c) / (cLambda c + cMu c)) by (rewrite E, K; field; lra).
    rewrite Z, W, E, N, K. do 5 (split; [try reflexivity; field; repeat split; lra|]). intros _. f_equal. field. repeat split; lra.
  - rewrite W, E, N, K, calcR_value by assumption.
    assert (0 < 3 * cLambda c * cLambda c + 4 * cLambda c * cMu c + 2 * cMu c * cMu c).
    { replace (_ + _) with (3 * (cLambda c + 2 / 3 * cMu c) ^ 2 + 2 / 3 * cMu c ^ 2) by field.
      assert (P := pow2_ge_0 (cLambda c + 2 / 3 * cMu c)). assert (Q : 0 < cMu c ^ 2) by now apply pow_lt. lra. }
    repeat split; try (field; lra).
    field. repeat split; try lra.
    replace (_ + _) with (4 * (cLambda c + cMu c) ^ 2) by ring. assert (0 < (cLambda c + cMu c) ^ 2) by now apply pow_lt. lra.
  - rewrite W, E, N, K. do 5 (split; [try reflexivity; field; repeat split; lra|]). reflexivity.
  - rewrite W, E, N, K. do 5 (split; [try reflexivity; field; repeat split; lra|]). reflexivity.
Qed.
Print Assumptions C53_conversions.

(** All materials are described by each kind of pair *)
Example C53_applies :
  material {| cLambda := 1; cMu := 1; cE := 5 / 2; cNu := 1 / 4; cK := 5 / 3; cM := 3 |} /\
  describes (YoungsModulusAndLamesFirstParameter (5 / 2) 1) {| cLambda := 1; cMu := 1; cE := 5 / 2; cNu := 1 / 4; cK := 5 / 3; cM := 3 |} /\
  distinguishable (YoungsModulusAndPoissonsRatio (5 / 2) (1 / 4)).
Proof.
  unfold material, describes, distinguishable, stressOf; cbn. repeat split; try lra.
  - f_equal; [f_equal|]; lra.
  - f_equal; [f_equal|]; lra.
  - unfold sameDouble, floatEq, rleb. destruct Rle_dec as [H|]; [exfalso|reflexivity].
    rewrite Rabs_minus_sym, !Rabs_pos_eq, Rmax_right in H; lra.
Qed.

(** C53: Lame's first parameter is infinite exactly for a Poisson's ratio within eight units in the last place of 1/2 *)
Theorem C53_incompressible E nu :
  let near := Rabs (nu - 1 / 2) <= 8 / 2 ^ 52 * Rmax (Rabs nu) (1 / 2) in
  (near -> toLamesFirstParameter (YoungsModulusAndPoissonsRatio E nu) = Infinity) /\
  (~ near -> toLamesFirstParameter (YoungsModulusAndPoissonsRatio E nu) = Finite (E * nu / ((1 + nu) * (1 - 2 * nu)))).
Proof.
  intros near. unfold near. cbn [toLamesFirstParameter]. unfold sameDouble, floatEq, rleb. rewrite (Rabs_pos_eq (1 / 2)) by lra.
  unfold Rdiv at 3 7. destruct Rle_dec as [H|H]; split; intros X; auto; now contradict H.
Qed.
Print Assumptions C53_incompressible.

(** C53: the two helpers invert each other *)
Theorem C53_roundtrip E nu :
  0 < E -> - 1 < nu < 1 / 2 -> sameDouble nu (1 / 2) = false ->
  exists lambda mu, toLamesFirstParameterAndShearModulus E nu = (Finite lambda, mu) /\
    toYoungsModulusAndPoissonsRatio lambda mu = (E, nu).
Proof.
  intros P N D. unfold toLamesFirstParameterAndShearModulus, toYoungsModulusAndPoissonsRatio.
  cbn [toLamesFirstParameter toShearModulus toYoungsModulus toPoissonsRatio]. rewrite D.
  eexists; eexists. split; [reflexivity|].
  assert (F : E * nu / ((1 + nu) * (1 - 2 * nu)) + E / (2 * (1 + nu)) = E / (2 * (1 + nu) * (1 - 2 * nu))) by (field; lra).
  f_equal.
  - rewrite F. field. lra.
  - rewrite F. field. lra.
Qed.
Print Assumptions C53_roundtrip.

Theorem C53_roundtrip_back lambda mu :
  0 < mu -> 0 < 3 * lambda + 2 * mu ->
  let '(E, nu) := toYoungsModulusAndPoissonsRatio lambda mu in
  sameDouble nu (1 / 2) = false -> toLamesFirstParameterAndShearModulus E nu = (Finite lambda, mu).
Proof.
  intros A B. unfold toLamesFirstParameterAndShearModulus, toYoungsModulusAndPoissonsRatio.
  cbn [toLamesFirstParameter toShearModulus toYoungsModulus toPoissonsRatio]. intros ->.
  f_equal; [f_equal|]; field; lra.
Qed.
Print Assumptions C53_roundtrip_back.

(** C53: stable constants are exactly E > 0 and -1 < nu < 1/2 *)
Theorem C53_admissible c : material c -> 0 < cE c /\ - 1 < cNu c < 1 / 2 /\ 0 < cK c /\ 0 < cM c.
Proof.
  intros M. destruct (material_formulas c M) as (A & B & S & N & E & K & W).
  rewrite W, E, N, K. repeat split.
  - apply Rdiv_lt_0_compat; [|lra]. apply Rmult_lt_0_compat; lra.
  - apply (Rmult_lt_reg_r (2 * (cLambda c + cMu c))); [lra|]. unfold Rdiv. rewrite Rmult_assoc, Rinv_l; lra.
  - apply (Rmult_lt_reg_r (2 * (cLambda c + cMu c))); [lra|]. unfold Rdiv. rewrite Rmult_assoc, Rinv_l; lra.
  - lra.
  - lra.
Qed.
Print Assumptions C53_admissible.
