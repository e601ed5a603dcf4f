(** C119: Lambert's function. *)

From Coq Require Import Reals Lra Lia Bool Arith.
From Coquelicot Require Import Coquelicot.
From Verif Require Import LambertW_Model LambertW_Proofs.
Local Open Scope R_scope.

(** The value of the principal branch *)
Definition principal (z w : R) : Prop := -1 <= w /\ w * exp w = z.

(** The iterates *)
Fixpoint iterates (z x : R) (n : nat) : R := match n with O => x | S n => iterates z (halley z x) n end.

(** C119: arguments that are not above the branch point; -1/e is compared with a tolerance *)
Theorem C119_arguments cmp n eps : 0 <= cmp ->
  lambertW0 cmp NaN n eps = Returned NaN /\ lambertW0 cmp (Infinite false) n eps = Returned (Infinite false) /\
  lambertW0 cmp (Finite branchPoint) n eps = Returned (Finite (-1)) /\
  (forall z, z < branchPoint - cmp * Rabs z -> cmp <= 1 -> lambertW0 cmp (Finite z) n eps = InvalidState) /\
  (forall z, lambertW0 cmp (Finite z) n eps = InvalidState -> z < branchPoint).
Proof.
  intros Hc. split; [reflexivity|split; [reflexivity|split; [|split]]].
  - unfold lambertW0, floatEq. rewrite Rminus_eq_0, Rabs_R0. destruct (Rle_dec _ _) as [H|H]; [reflexivity|]. exfalso. apply H. apply Rmult_le_pos; [exact Hc|].
    eapply Rle_trans; [apply Rabs_pos|apply Rmax_l].
  - intros z Hz H1. unfold lambertW0, floatEq. assert (B : branchPoint < 0) by (rewrite branch_exp; assert (P := exp_pos (-1)); lra).
    assert (A : 0 <= cmp * Rabs z) by (apply Rmult_le_pos; [exact Hc|apply Rabs_pos]).
    destruct (Rle_dec _ _) as [H|H].
    + exfalso. rewrite (Rabs_left (z - branchPoint)) in H by lra. rewrite Rmax_left in H; [lra|]. rewrite !Rabs_left by lra. lra.
    + destruct (Rlt_dec z branchPoint); [reflexivity|lra].
  - intros z. unfold lambertW0. destruct (floatEq cmp z branchPoint); [discriminate|]. destruct (Rlt_dec z branchPoint) as [L|L]; [intros; exact L|].
    generalize (initialGuess cmp z) 0. induction n as [|n IH]; intros x l; cbn; [discriminate|]. destruct (_ || _); [discriminate|apply IH].
Qed.

(** C119: minus infinity is returned, not refused *)
Theorem C119_arguments_refuted : exists z, (forall cmp n eps, lambertW0 cmp z n eps <> InvalidState) /\ z = Infinite true.
Proof. exists (Infinite true). split; [|reflexivity]. intros. discriminate. Qed.

Section Iteration.
  Variables (cmp z w : R).
  Hypothesis value : principal z w.
  Hypothesis above : - exp (-1) < z.

  Lemma w_above : -1 < w.
  Proof. destruct value as (H & E). destruct H as [H|H]; [exact H|]. rewrite <- H in E. lra. Qed.

  Lemma step_props x : -1 < x -> (x < w -> 0 <= x) ->
    -1 < halley z x /\ (halley z x < w -> 0 <= halley z x) /\ (w <= halley z x <= x \/ x <= halley z x <= w).
  Proof.
    intros Hx Hb. destruct (halley_between w x w_above Hx) as (A & B & C). assert (E := proj2 value). rewrite E in A, B, C. assert (W := w_above).
    destruct (Rtotal_order x w) as [L|[L|L]].
    - specialize (B L). specialize (Hb L). split; [lra|split; [intros; lra|right; lra]].
    - specialize (C L). split; [lra|split; [intros; lra|left; lra]].
    - specialize (A L). split; [lra|split; [intros; lra|left; lra]].
  Qed.

  Lemma iterates_props n : forall x, -1 < x -> (x < w -> 0 <= x) -> let y := iterates z x n in
    -1 < y /\ (y < w -> 0 <= y) /\ (w <= y <= x \/ x <= y <= w).
  Proof.
    induction n as [|n IH]; intros x Hx Hb y; unfold y; cbn.
    - split; [exact Hx|split; [exact Hb|]]. destruct (Rle_lt_dec w x); [left|right]; lra.
    - destruct (step_props x Hx Hb) as (Hx' & Hb' & S). destruct (IH _ Hx' Hb') as (P & Q & T). split; [exact P|split; [exact Q|]]. lra.
  Qed.
  Lemma iterates_succ n : forall x, iterates z x (S n) = halley z (iterates z x n).
  Proof. induction n as [|n IH]; intros x; [reflexivity|]. cbn. rewrite <- IH. reflexivity. Qed.

  (** C119: no division of the iteration is by zero, and every iterate lies between the one before and the solution *)
  Theorem C119_bracket n : let x := iterates z (initialGuess cmp z) n in let y := iterates z (initialGuess cmp z) (S n) in
    exp x * (x + 1) <> 0 /\ exp x * (x + 1) - 1 / 2 * (exp x * (x + 2) / (exp x * (x + 1))) * (x * exp x - z) <> 0 /\
    (w <= y <= x \/ x <= y <= w).
  Proof.
    cbv zeta. rewrite iterates_succ. destruct (guess_domain cmp z w (proj1 value) (proj2 value) above) as (G1 & G2).
    destruct (iterates_props n _ G1 G2) as (P & Q & _). set (x := iterates z (initialGuess cmp z) n) in *. destruct (step_props x P Q) as (_ & _ & S).
    assert (Px := exp_pos x). split; [|split; [|exact S]].
    - assert (0 < exp x * (x + 1)) by nra. lra.
    - assert (D := divisor_pos z x P (Rlt_le _ _ above)).
      assert (E : exp x * (x + 1) - 1 / 2 * (exp x * (x + 2) / (exp x * (x + 1))) * (x * exp x - z) = divisor z x / (2 * (x + 1))) by (unfold divisor; field; split; lra).
      rewrite E. assert (0 < divisor z x / (2 * (x + 1))) by (apply Rdiv_lt_0_compat; lra). lra.
  Qed.

  (** C119: the iterates converge to the solution *)
  Theorem C119_converges : is_lim_seq (iterates z (initialGuess cmp z)) w.
  Proof.
    destruct (guess_domain cmp z w (proj1 value) (proj2 value) above) as (G1 & G2). set (x0 := initialGuess cmp z) in *.
    assert (I := fun n => iterates_props n x0 G1 G2). cbv zeta in I.
    assert (Lim : exists l, is_lim_seq (iterates z x0) (Rbar.Finite l) /\ -1 < l).
    { assert (Mono : forall n, let x := iterates z x0 n in w <= iterates z x0 (S n) <= x \/ x <= iterates z x0 (S n) <= w).
      { intros n. cbv zeta. rewrite iterates_succ. destruct (I n) as (P & Q & _). exact (proj2 (proj2 (step_props _ P Q))). }
      destruct (Rle_lt_dec w x0) as [L|L].
      - assert (Lo : forall n, w <= iterates z x0 n) by (intros n; destruct (I n) as (_ & _ & T); lra).
        destruct (ex_finite_lim_seq_decr (iterates z x0) w) as (l & Hl).
        + intros n. specialize (Mono n). cbv zeta in Mono. specialize (Lo n). lra.
        + exact Lo.
        + exists l. split; [exact Hl|]. assert (X := is_lim_seq_le (fun _ => w) (iterates z x0) (Rbar.Finite w) (Rbar.Finite l) Lo (is_lim_seq_const w) Hl). cbn in X. assert (W := w_above). lra.
      - assert (Hi : forall n, iterates z x0 n <= w /\ x0 <= iterates z x0 n) by (intros n; destruct (I n) as (_ & _ & T); lra).
        destruct (ex_finite_lim_seq_incr (iterates z x0) w) as (l & Hl).
        + intros n. specialize (Mono n). cbv zeta in Mono. destruct (Hi n). lra.
        + intros n. apply Hi.
        + exists l. split; [exact Hl|]. assert (X := is_lim_seq_le (fun _ => x0) (iterates z x0) (Rbar.Finite x0) (Rbar.Finite l) (fun n => proj2 (Hi n)) (is_lim_seq_const x0) Hl). cbn in X. lra. }
    destruct Lim as (l & Hl & Hl1).
    assert (C : continuity_pt (halley z) l).
    { assert (Pl := exp_pos l). assert (D := divisor_pos z l Hl1 (Rlt_le _ _ above)).
      assert (E : exp l * (l + 1) - 1 / 2 * (exp l * (l + 2) / (exp l * (l + 1))) * (l * exp l - z) = divisor z l / (2 * (l + 1))) by (unfold divisor; field; split; lra).
      apply continuity_pt_filterlim, (ex_derive_continuous (K := R_AbsRing) (V := R_NormedModule) (halley z)). unfold halley. auto_derive. split; [|split; [|exact Logic.I]].
      - assert (0 < exp l * (l + 1)) by nra. lra.
      - assert (0 < divisor z l / (2 * (l + 1))) by (apply Rdiv_lt_0_compat; lra). unfold Rminus, Rdiv in *. lra. }
    assert (F : halley z l = l).
    { assert (X : is_lim_seq (fun n => halley z (iterates z x0 n)) (halley z l)) by (apply (is_lim_seq_continuous (halley z)); assumption).
      assert (Y : is_lim_seq (fun n => halley z (iterates z x0 n)) l).
      { apply is_lim_seq_ext with (fun n => iterates z x0 (S n)); [intros; apply iterates_succ|]. apply is_lim_seq_incr_1 in Hl. exact Hl. }
      apply is_lim_seq_unique in X. apply is_lim_seq_unique in Y. rewrite X in Y. injection Y as Y. exact Y. }
    destruct (halley_between w l w_above Hl1) as (A & B & _). rewrite (proj2 value), F in A, B.
    replace w with l; [exact Hl|]. destruct (Rtotal_order l w) as [L|[L|L]]; [specialize (B L); lra|exact L|specialize (A L); lra].
  Qed.

  (** C119: with enough iterations a value is returned *)
  Theorem C119_terminates eps : 0 <= cmp -> 0 < eps -> exists N, forall n, (N <= n)%nat -> exists r, lambertW0 cmp (Finite z) n eps = Returned (Finite r).
  Proof.
    intros Hc He. assert (Pos : forall d b, d <= b -> floatLe cmp d b = true).
    { intros d b L. unfold floatLe, floatGt. destruct (Rlt_dec b d); [lra|reflexivity]. }
    assert (Some : exists k, floatLe cmp (Rabs (iterates z (initialGuess cmp z) (S k) - iterates z (initialGuess cmp z) k)) (3 * eps * Rabs (iterates z (initialGuess cmp z) k)) = true).
    { destruct (Req_dec w 0) as [W0|W0].
      - assert (Z0 : z = 0) by (rewrite <- (proj2 value), W0; lra). exists O. apply Pos. rewrite Z0. unfold initialGuess, floatGt. destruct (Rlt_dec 1 0); [lra|]. cbn [andb iterates].
        rewrite Rmult_0_r. replace (halley 0 0) with 0 by (unfold halley; cbv zeta; rewrite exp_0; field; lra). rewrite Rminus_eq_0, Rabs_R0. lra.
      - assert (L := C119_converges). assert (L' := L). apply is_lim_seq_incr_1 in L'. set (x := iterates z (initialGuess cmp z)) in *.
        assert (D : is_lim_seq (fun k => 3 * eps * Rabs (x k) - Rabs (x (S k) - x k)) (3 * eps * Rabs w - 0)).
        { apply is_lim_seq_minus'.
          - apply (is_lim_seq_scal_l (fun k => Rabs (x k)) (3 * eps) (Rabs w)). apply (is_lim_seq_abs x w L).
          - replace 0 with (Rabs (w - w)) by (rewrite Rminus_eq_0; apply Rabs_R0). apply (is_lim_seq_abs (fun k => x (S k) - x k) (w - w)). apply is_lim_seq_minus'; assumption. }
        assert (P : 0 < 3 * eps * Rabs w - 0) by (assert (0 < Rabs w) by (apply Rabs_pos_lt, W0); nra).
        apply is_lim_seq_spec in D. destruct (D (mkposreal _ P)) as (k & Hk). specialize (Hk k (le_n _)). cbn [pos] in Hk. exists k. apply Pos. apply Rabs_def2 in Hk. destruct Hk as (Ha & Hb). cbn [pos] in Hb. unfold x in *. lra. }
    destruct Some as (k & Hk). exists (S k). intros n Hn. unfold lambertW0. destruct (floatEq cmp z branchPoint); [eexists; reflexivity|].
    destruct (Rlt_dec z branchPoint) as [B|B]; [exfalso; rewrite branch_exp in B; lra|]. revert Hk n Hn. generalize (initialGuess cmp z) 0. induction k as [|k IH]; intros x last Hk n Hn.
    - destruct n as [|n]; [lia|]. cbn in Hk |- *. rewrite Hk. eexists. reflexivity.
    - destruct n as [|n]; [lia|]. cbn [iterate]. cbv zeta. destruct (_ || _); [eexists; reflexivity|]. apply IH; [exact Hk|lia].
  Qed.

  (** A returned value is an iterate, and the tests that stopped the iteration *)
  Lemma iterate_returns eps n : forall x last r, iterate cmp eps z x last n = Returned (Finite r) ->
    exists k, (k < n)%nat /\ r = iterates z x (S k) /\
      let xk := iterates z x k in let lastk := match k with O => last | S j => Rabs (iterates z x (S j) - iterates z x j) end in
      (floatLe cmp (Rabs (r - xk)) (3 * eps * Rabs xk) = true \/ floatEq cmp (Rabs (r - xk)) lastk = true) /\
      (forall j, (j < k)%nat -> floatLe cmp (Rabs (iterates z x (S j) - iterates z x j)) (3 * eps * Rabs (iterates z x j)) = false).
  Proof.
    induction n as [|n IH]; intros x last r; [discriminate|]. cbn. destruct (_ || _) eqn:E.
    - intros [= <-]. exists O. split; [lia|split; [reflexivity|]]. cbn. split; [apply orb_prop, E|lia].
    - apply orb_false_iff in E. destruct E as (E1 & E2). intros H. destruct (IH _ _ _ H) as (k & Hk & -> & St & Bf). exists (S k). split; [lia|split; [reflexivity|]]. split.
      + cbn in St |- *. destruct k; exact St.
      + intros [|j] Hj; [exact E1|apply (Bf j); lia].
  Qed.

  (** C119: a value that is returned is an iterate; it lies between the initial guess and the solution; if the last correction is less
      than 1/2, the error is less than the last correction *)
  Theorem C119_result eps n r : lambertW0 cmp (Finite z) n eps = Returned (Finite r) -> floatEq cmp z branchPoint = false ->
    let x0 := initialGuess cmp z in exists k, (k < n)%nat /\ r = iterates z x0 (S k) /\ (w <= r <= x0 \/ x0 <= r <= w) /\
    (Rabs (r - iterates z x0 k) < 1 / 2 -> Rabs (r - w) <= 9 / 11 * Rabs (r - iterates z x0 k)).
  Proof.
    unfold lambertW0. intros H Hf. rewrite Hf in H. destruct (Rlt_dec z branchPoint); [discriminate|]. cbv zeta.
    destruct (iterate_returns eps n _ _ _ H) as (k & Hk & Er & _). exists k. split; [exact Hk|split; [exact Er|]].
    destruct (guess_domain cmp z w (proj1 value) (proj2 value) above) as (G1 & G2).
    destruct (iterates_props (S k) _ G1 G2) as (_ & _ & T). rewrite <- Er in T. split; [exact T|]. intros Hs.
    destruct (iterates_props k _ G1 G2) as (P & Q & _). rewrite iterates_succ in Er. set (x := iterates z (initialGuess cmp z) k) in *.
    destruct (correction w x w_above P Q) as (C1 & C2). destruct (step_props x P Q) as (_ & _ & St). rewrite (proj2 value) in C1, C2. rewrite <- Er in *.
    assert (N : Rabs (x - w) <= 1) by (apply Rnot_lt_le; intros L; specialize (C2 ltac:(lra)); lra). specialize (C1 N).
    destruct St as [St|St].
    - rewrite (Rabs_right (x - w)), (Rabs_minus_sym r x), (Rabs_right (x - r)) in * by lra. rewrite Rabs_right by lra. lra.
    - rewrite (Rabs_minus_sym x w), (Rabs_right (w - x)), (Rabs_right (r - x)) in * by lra. rewrite Rabs_minus_sym, Rabs_right by lra. lra.
  Qed.

  (** C119: outside of the interval from 1 to exp(1/10) = 1.105..., and for arguments that are not taken for the branch point, the error is
      at most 3 eps relative to the last iterate, for every eps and every number of iterations after which a value is returned *)
  Theorem C119_accuracy_partial eps n r : lambertW0 cmp (Finite z) n eps = Returned (Finite r) -> floatEq cmp z branchPoint = false ->
    0 <= cmp < 1 / 20 -> 0 <= eps -> z <= 1 \/ exp (1 / 10) <= z ->
    exists k, (k < n)%nat /\ Rabs (r - w) <= 3 * eps * Rabs (iterates z (initialGuess cmp z) k).
  Proof.
    unfold lambertW0. intros H Hf Hc He Hz. rewrite Hf in H. destruct (Rlt_dec z branchPoint); [discriminate|].
    assert (Near := guess_near cmp z w (proj1 value) (proj2 value) above Hc Hz).
    destruct (guess_domain cmp z w (proj1 value) (proj2 value) above) as (G1 & G2). set (x0 := initialGuess cmp z) in *.
    destruct (iterate_returns eps n _ _ _ H) as (k & Hk & Er & St & Bf). cbv zeta in St. exists k. split; [exact Hk|].
    assert (Nk : forall j, Rabs (iterates z x0 j - w) <= 1).
    { intros j. destruct (iterates_props j x0 G1 G2) as (_ & _ & T). apply Rabs_le_between in Near. apply Rabs_le. lra. }
    (* the error after a correction *)
    assert (Err : forall j, let d := Rabs (iterates z x0 (S j) - iterates z x0 j) in Rabs (iterates z x0 (S j) - w) <= 9 / 11 * d /\ d <= Rabs (iterates z x0 j - w)).
    { intros j. cbv zeta. rewrite iterates_succ. destruct (iterates_props j x0 G1 G2) as (P & Q & _). specialize (Nk j). set (x := iterates z x0 j) in *.
      destruct (correction w x w_above P Q) as (C1 & _). rewrite (proj2 value) in C1. specialize (C1 Nk). destruct (step_props x P Q) as (_ & _ & S).
      destruct S as [S|S].
      - rewrite (Rabs_right (x - w)), (Rabs_minus_sym (halley z x) x), (Rabs_right (x - halley z x)) in * by lra. rewrite Rabs_right by lra. lra.
      - rewrite (Rabs_minus_sym x w), (Rabs_right (w - x)), (Rabs_right (halley z x - x)) in * by lra. rewrite (Rabs_minus_sym _ w), Rabs_right by lra. lra. }
    assert (Small : forall d b, 0 <= d -> 0 <= b -> floatLe cmp d b = true -> 9 / 11 * d <= b).
    { intros d b Hd Hb. unfold floatLe, floatGt. destruct (Rlt_dec b d) as [L|L]; cbn [andb negb]; [|intros; lra]. unfold floatEq. destruct (Rle_dec _ _) as [Q|Q]; cbn; [intros _|discriminate].
      rewrite (Rabs_right (d - b)) in Q by lra. rewrite (Rabs_right d), (Rabs_right b), Rmax_left in Q by lra. nra. }
    destruct (Err k) as (E1 & E2). rewrite <- Er in E1, E2. set (d := Rabs (r - iterates z x0 k)) in *. assert (Hd : 0 <= d) by apply Rabs_pos.
    assert (Hb : 0 <= 3 * eps * Rabs (iterates z x0 k)) by (apply Rmult_le_pos; [lra|apply Rabs_pos]).
    destruct St as [St|St]; [specialize (Small d _ Hd Hb St); lra|].
    assert (D0 : d = 0).
    { unfold floatEq in St. destruct (Rle_dec _ _) as [Q|Q]; [clear St|discriminate]. destruct k as [|j].
      - rewrite Rminus_0_r, Rabs_R0, (Rabs_right d), Rmax_left in Q by lra. nra.
      - destruct (Err j) as (F1 & _). set (l := Rabs (iterates z x0 (S j) - iterates z x0 j)) in *. assert (Hl : 0 <= l) by apply Rabs_pos.
        assert (d <= 9 / 11 * l) by lra. rewrite (Rabs_right d), (Rabs_right l), Rmax_right in Q by lra. rewrite (Rabs_left1 (d - l)) in Q by lra. nra. }
    rewrite D0 in E1. lra.
  Qed.
End Iteration.

(** The hypotheses can be met: W(e) = 1 and W(0) = 0 *)
Example C119_applies : principal (exp 1) 1 /\ principal 0 0 /\ - exp (-1) < 0 /\ exp (1 / 10) <= exp 1.
Proof.
  assert (P := exp_pos (-1)). unfold principal. split; [split; lra|]. split; [split; lra|]. split; [lra|]. left. apply exp_increasing. lra.
Qed.
Example C119_value cmp n eps : 0 <= cmp < 1 / 20 -> 0 <= eps -> lambertW0 cmp (Finite 0) (S n) eps = Returned (Finite 0).
Proof.
  intros Hc He. unfold lambertW0. assert (B := branch_exp). assert (P := exp_pos (-1)).
  assert (F : floatEq cmp 0 branchPoint = false).
  { unfold floatEq. destruct (Rle_dec _ _) as [Q|Q]; [exfalso|reflexivity]. rewrite (Rabs_right (0 - branchPoint)), Rabs_R0, (Rabs_left branchPoint), Rmax_right in Q by lra. nra. }
  rewrite F. destruct (Rlt_dec 0 branchPoint); [lra|]. cbn. unfold initialGuess, floatGt. destruct (Rlt_dec 1 0); [lra|]. cbn [andb]. rewrite Rmult_0_r.
  assert (H : halley 0 0 = 0) by (unfold halley; cbv zeta; rewrite exp_0; field; lra).
  rewrite H, Rminus_eq_0, Rabs_R0. unfold floatLe, floatGt. rewrite Rmult_0_r. destruct (Rlt_dec 0 0); [lra|]. reflexivity.
Qed.
Print Assumptions C119_arguments.
Print Assumptions C119_bracket.
Print Assumptions C119_converges.
Print Assumptions C119_result.
Print Assumptions C119_accuracy_partial.
Print Assumptions C119_terminates.
