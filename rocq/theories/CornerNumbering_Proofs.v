(** Lemmas about elements whose corners are numbered in another way: condensed matrices, and the modes under the symmetries of the square and
    the cube. *)

From Coq Require Import Reals Arith Bool List Lia Lra Permutation.
From Coquelicot Require Import Coquelicot.
From Verif Require Import Tensor_Spec Tensor_Model Tensor_Props Conversions_Spec Conversions_Model Conversions_Props Element_Spec Element_Model Element_Proofs Element_Props.
From Verif Require Import Eas_Spec Eas_Model Eas_Proofs Eas_Props EasStrains_Props EasModes_Props.
From Verif Require Import AssumedStress_Model AssumedStress_Proofs AssumedStressModes_Props CornerNumbering_Spec.
Import ListNotations.
Local Open Scope R_scope.

(** ** Matrices *)
Section Congruence.
  Variables (p : nat) (P Pi D D' Z Z' : nat -> nat -> R).
  Hypothesis HP : isInverse p P Pi.
  Hypothesis HD : eqm p D' (mul p (mt P) (mul p D P)).
  Hypothesis HZ : isInverse p D Z.
  Hypothesis HZ' : isInverse p D' Z'.

  Lemma congruent_inverse : eqm p (mul p P (mul p Z' (mt P))) Z.
  Proof.
    destruct HP as (P1 & P2), HZ as (_ & Z2), HZ' as (Z1 & _).
    assert (A : eqm p (mul p D (mul p P Z')) (mt Pi)).
    { eapply eqm_trans; [apply eqm_sym, mul_id_l|].
      eapply eqm_trans; [apply (mul_ext p identity (mul p (mt Pi) (mt P)) (mul p D (mul p P Z')) (mul p D (mul p P Z'))); [|apply eqm_refl]|].
      - rewrite <- mt_mul. intros i j Hi Hj. unfold mt. rewrite P1 by assumption. unfold identity. now rewrite Nat.eqb_sym.
      - rewrite mul_assoc. eapply eqm_trans; [apply mul_ext; [apply eqm_refl|]|apply mul_id_r].
        rewrite <- (mul_assoc p D P Z'), <- (mul_assoc p (mt P)).
        eapply eqm_trans; [apply mul_ext; [apply eqm_sym, HD|apply eqm_refl]|]. intros i j Hi Hj. now apply Z1. }
    eapply eqm_trans; [apply eqm_sym, mul_id_l|].
    eapply eqm_trans; [apply (mul_ext p identity (mul p Z D) (mul p P (mul p Z' (mt P))) (mul p P (mul p Z' (mt P)))); [|apply eqm_refl]|].
    - intros i j Hi Hj. symmetry. now apply Z2.
    - rewrite mul_assoc. eapply eqm_trans; [apply mul_ext; [apply eqm_refl|]|apply mul_id_r].
      rewrite <- (mul_assoc p P Z'), <- (mul_assoc p D).
      eapply eqm_trans; [apply mul_ext; [exact A|apply eqm_refl]|]. rewrite <- mt_mul.
      intros i j Hi Hj. unfold mt. rewrite P1 by assumption. unfold identity. now rewrite Nat.eqb_sym.
  Qed.

  Variables x x' y y' : nat -> R.
  Hypothesis Hx : forall q, (q < p)%nat -> x' q = sum p (fun r => P r q * x r).
  Hypothesis Hy : forall q, (q < p)%nat -> y' q = sum p (fun r => P r q * y r).

  Lemma mul_apply A B (z : nat -> R) i : sum p (fun r => mul p A B i r * z r) = sum p (fun q => A i q * sum p (fun r => B q r * z r)).
  Proof.
    unfold mul. rewrite (sum_ext p _ (fun r => sum p (fun k => A i k * (B k r * z r)))) by (intros; rewrite <- sum_mul_r; apply sum_ext; intros; ring).
    rewrite sum_swap. apply sum_ext. intros. apply sum_mul_l.
  Qed.
  Lemma solve_same i : (i < p)%nat -> sum p (fun q => P i q * sum p (fun r => Z' q r * y' r)) = sum p (fun r => Z i r * y r).
  Proof.
    intros Hi.
    rewrite (sum_ext p (fun r => Z i r * y r) (fun r => mul p P (mul p Z' (mt P)) i r * y r)) by (intros; rewrite congruent_inverse by assumption; reflexivity).
    rewrite mul_apply. apply sum_ext. intros q Hq. rewrite mul_apply. f_equal. apply sum_ext. intros r Hr. rewrite Hy by assumption. reflexivity.
  Qed.
  Lemma product_same : sum p (fun q => sum p (fun r => x' q * Z' q r * y' r)) = sum p (fun q => sum p (fun r => x q * Z q r * y r)).
  Proof.
    rewrite (sum_ext p (fun q => sum p (fun r => x q * Z q r * y r)) (fun q => sum p (fun i => x q * (P q i * sum p (fun r => Z' i r * y' r))))).
    2:{ intros q Hq. rewrite sum_mul_l, solve_same, <- sum_mul_l by assumption. apply sum_ext. intros. ring. }
    rewrite (sum_swap p p (fun q i => x q * (P q i * sum p (fun r => Z' i r * y' r)))). apply sum_ext. intros i Hi. rewrite (Hx i Hi).
    rewrite (sum_ext p (fun r => _ * Z' i r * y' r) (fun r => sum p (fun q => P q i * x q) * (Z' i r * y' r))) by (intros; ring).
    rewrite sum_mul_l, <- sum_mul_r. apply sum_ext. intros. ring.
  Qed.
End Congruence.

Lemma sumP_permutation {A} (l l' : list A) f : Permutation l l' -> sumP l f = sumP l' f.
Proof. induction 1; cbn; lra. Qed.
Lemma sumP_pairs {A} (Q : A -> A -> Prop) (l l' : list A) f f' : List.Forall2 Q l l' -> (forall x x', Q x x' -> f' x' = f x) -> sumP l' f' = sumP l f.
Proof. intros H E. induction H as [|x x' l l' Hx H IH]; [reflexivity|]. cbn. now rewrite (E _ _ Hx), IH. Qed.

(** ** Two elements whose strains agree *)
Section Twins.
  Variables (d n s p : nat) (points points' : list point) (nu : nat -> nat) (P Pi : nat -> nat -> R).
  Hypothesis dpos : (0 < d)%nat.
  Variables (stress : (nat -> R) -> nat -> R) (tangent : (nat -> R) -> nat -> nat -> R).
  Variables E E' : point -> (nat -> R) -> (nat -> R) -> nat -> R.
  Variables E_d E_d' : point -> (nat -> R) -> (nat -> R) -> nat -> nat -> nat -> R.
  Variables E_a E_a' : point -> (nat -> R) -> (nat -> R) -> nat -> nat -> R.
  Variables E_dd E_dd' : point -> (nat -> R) -> (nat -> R) -> (nat -> R) -> nat -> nat -> nat -> nat -> R.
  Variables E_aa E_aa' : point -> (nat -> R) -> (nat -> R) -> (nat -> R) -> nat -> nat -> R.
  Variables E_ad E_ad' : point -> (nat -> R) -> (nat -> R) -> (nat -> R) -> nat -> nat -> nat -> R.
  Variables u u' a a' : nat -> R.
  Let N := (d * n)%nat.
  Let index k := (d * nu (k / d) + k mod d)%nat.

  Definition agree (gp gp' : point) : Prop :=
    integrationElement gp' * weight gp' = integrationElement gp * weight gp /\
    (forall m, (m < s)%nat -> E' gp' u' a' m = E gp u a m) /\
    (forall i m k, (i < n)%nat -> (m < s)%nat -> (k < d)%nat -> E_d' gp' u' a' i m k = E_d gp u a (nu i) m k) /\
    (forall m q, (m < s)%nat -> (q < p)%nat -> E_a' gp' u' a' m q = sum p (fun r => P r q * E_a gp u a m r)) /\
    (forall S S' i j k l, (forall m, (m < s)%nat -> S' m = S m) -> (i < n)%nat -> (j < n)%nat -> (k < d)%nat -> (l < d)%nat ->
       E_dd' gp' u' a' S' i j k l = E_dd gp u a S (nu i) (nu j) k l) /\
    (forall S S' q r, (forall m, (m < s)%nat -> S' m = S m) -> (q < p)%nat -> (r < p)%nat ->
       E_aa' gp' u' a' S' q r = sum p (fun i => P i q * sum p (fun j => E_aa gp u a S i j * P j r))) /\
    (forall S S' i q k, (forall m, (m < s)%nat -> S' m = S m) -> (i < n)%nat -> (q < p)%nat -> (k < d)%nat ->
       E_ad' gp' u' a' S' i q k = sum p (fun r => P r q * E_ad gp u a S (nu i) r k)).

  Hypothesis Hnu : forall i, (i < n)%nat -> (nu i < n)%nat.
  Hypothesis stress_local : forall e e', (forall m, (m < s)%nat -> e' m = e m) -> forall m, (m < s)%nat -> stress e' m = stress e m.
  Hypothesis tangent_local : forall e e', (forall m, (m < s)%nat -> e' m = e m) -> forall m o, (m < s)%nat -> (o < s)%nat -> tangent e' m o = tangent e m o.
  Hypothesis pairs : exists l, Permutation points l /\ List.Forall2 agree l points'.

  Lemma twin_sum f f' : (forall gp gp', agree gp gp' -> f' gp' = f gp) -> sumP points' f' = sumP points f.
  Proof. intros H. destruct pairs as (l & Hl & HF). rewrite (sumP_permutation _ _ f Hl). exact (sumP_pairs _ _ _ _ _ HF H). Qed.

  Lemma index_facts k : (k < N)%nat -> (index k < N)%nat /\ (index k / d = nu (k / d))%nat /\ (index k mod d = k mod d)%nat /\ (k / d < n)%nat /\ (k mod d < d)%nat.
  Proof.
    intros Hk. unfold index, N in *. assert (k / d < n)%nat by (apply Nat.div_lt_upper_bound; lia). assert (k mod d < d)%nat by (apply Nat.mod_upper_bound; lia).
    specialize (Hnu (k / d)%nat H). repeat split; try assumption.
    - nia.
    - rewrite (Nat.mul_comm d), Nat.div_add_l by lia. rewrite (Nat.div_small (k mod d)) by assumption. lia.
    - rewrite (Nat.mul_comm d), Nat.add_comm, Nat.mod_add by lia. now apply Nat.mod_small.
  Qed.

  Let force' := easForces d n s points' stress E' E_d'.
  Let force := easForces d n s points stress E E_d.
  Let K' := easStiffness d n s points' stress tangent E' E_d' E_dd' u' a'.
  Let K := easStiffness d n s points stress tangent E E_d E_dd u a.
  Let D' := easD s points' stress tangent E' E_a' E_aa' u' a'.
  Let D := easD s points stress tangent E E_a E_aa u a.
  Let L' := easL d n s points' stress tangent E' E_d' E_a' E_ad' u' a'.
  Let L := easL d n s points stress tangent E E_d E_a E_ad u a.
  Let rest' := easRtilde s points' stress E' E_a' u' a'.
  Let rest := easRtilde s points stress E E_a u a.

  Lemma twin_force f f' k : (k < N)%nat -> f' k = f (index k) -> force' u' a' f' k = force u a f (index k).
  Proof.
    intros Hk Hf. destruct (index_facts k Hk) as (Hi & Ed & Em & Hn & Hd). unfold force', force. rewrite !forces_sum by assumption. rewrite Hf. f_equal.
    apply twin_sum. intros gp gp' (V & He & Hed & _). unfold vol. rewrite V. f_equal. rewrite Ed, Em. apply sum_ext. intros m Hm.
    rewrite Hed by assumption. f_equal. now apply stress_local.
  Qed.
  Lemma twin_stiffness k l : (k < N)%nat -> (l < N)%nat -> K' zeroMatrix k l = K zeroMatrix (index k) (index l).
  Proof.
    intros Hk Hl. destruct (index_facts k Hk) as (Hi & Ed & Em & Hn & Hd). destruct (index_facts l Hl) as (Hi' & Ed' & Em' & Hn' & Hd').
    unfold K', K. rewrite !stiffness_sum by assumption. unfold zeroMatrix. f_equal.
    apply twin_sum. intros gp gp' (V & He & Hed & _ & Hdd & _). unfold vol. rewrite V. f_equal. rewrite Ed, Em, Ed', Em'. f_equal.
    - apply sum_ext. intros m Hm. apply sum_ext. intros o Ho. rewrite !Hed by assumption. rewrite (tangent_local _ _ He) by assumption. reflexivity.
    - apply Hdd; try assumption. exact (stress_local _ _ He).
  Qed.
  Lemma twin_rest q : (q < p)%nat -> rest' q = sum p (fun r => P r q * rest r).
  Proof.
    intros Hq. unfold rest', rest.
    rewrite (sum_ext p _ (fun r => sumP points (fun gp => P r q * (sum s (fun m => E_a gp u a m r * stress (E gp u a) m) * vol gp)))).
    2:{ intros r _. rewrite rtilde_sum, Rmult_comm, <- sumP_mul_r. apply sumP_ext. intros. ring. }
    rewrite rtilde_sum, <- sumP_swap. apply twin_sum. intros gp gp' (V & He & _ & Hea & _). unfold vol. rewrite V.
    rewrite (sum_ext p _ (fun r => sum s (fun m => P r q * E_a gp u a m r * stress (E gp u a) m) * (integrationElement gp * weight gp))).
    2:{ intros r _. rewrite <- Rmult_assoc, <- sum_mul_l. f_equal. apply sum_ext. intros. ring. }
    rewrite sum_mul_r. f_equal. rewrite sum_swap. apply sum_ext. intros m Hm. rewrite sum_mul_r. rewrite Hea by assumption. f_equal. now apply stress_local.
  Qed.
  Lemma twin_l q k : (q < p)%nat -> (k < N)%nat -> L' q k = sum p (fun r => P r q * L r (index k)).
  Proof.
    intros Hq Hk. destruct (index_facts k Hk) as (Hi & Ed & Em & Hn & Hd). unfold L', L. rewrite l_sum by assumption.
    rewrite (sum_ext p _ (fun r => sumP points (fun gp => P r q * ((sum s (fun m => sum s (fun o => E_a gp u a m r * tangent (E gp u a) m o * E_d gp u a (index k / d)%nat o (index k mod d))) +
       E_ad gp u a (stress (E gp u a)) (index k / d)%nat r (index k mod d)) * vol gp)))).
    2:{ intros r _. rewrite l_sum by assumption. rewrite Rmult_comm, <- sumP_mul_r. apply sumP_ext. intros. ring. }
    rewrite <- sumP_swap. apply twin_sum. intros gp gp' (V & He & Hed & Hea & _ & _ & Had). unfold vol. rewrite V, Ed, Em.
    rewrite (sum_ext p _ (fun r => (sum s (fun m => sum s (fun o => P r q * E_a gp u a m r * (tangent (E gp u a) m o * E_d gp u a (nu (k / d)%nat) o (k mod d)))) +
       P r q * E_ad gp u a (stress (E gp u a)) (nu (k / d)%nat) r (k mod d)) * (integrationElement gp * weight gp))).
    2:{ intros r _. rewrite <- Rmult_assoc, Rmult_plus_distr_l, <- sum_mul_l. f_equal. f_equal. apply sum_ext. intros. rewrite <- sum_mul_l. apply sum_ext. intros. ring. }
    rewrite sum_mul_r, sum_add. f_equal. f_equal.
    - symmetry. rewrite sum_swap. apply sum_ext. intros m Hm. rewrite sum_swap. apply sum_ext. intros o Ho. rewrite sum_mul_r, Hea, Hed, (tangent_local _ _ He) by assumption. ring.
    - apply Had; try assumption. exact (stress_local _ _ He).
  Qed.
  Lemma twin_d : eqm p D' (mul p (mt P) (mul p D P)).
  Proof.
    intros q t Hq Ht. unfold D', D, mul, mt. rewrite d_sum.
    rewrite (sum_ext p _ (fun r => sum p (fun j => sumP points (fun gp => P r q * P j t * ((sum s (fun m => sum s (fun o => E_a gp u a m r * tangent (E gp u a) m o * E_a gp u a o j)) +
      E_aa gp u a (stress (E gp u a)) r j) * vol gp))))).
    2:{ intros r _. rewrite <- sum_mul_l. apply sum_ext. intros j _. rewrite d_sum.
        rewrite (sumP_ext points (fun gp => P r q * P j t * _) (fun gp => (sum s (fun m => sum s (fun o => E_a gp u a m r * tangent (E gp u a) m o * E_a gp u a o j)) +
          E_aa gp u a (stress (E gp u a)) r j) * vol gp * (P r q * P j t))) by (intros; ring). rewrite sumP_mul_r. ring. }
    rewrite (sum_ext p _ (fun r => sumP points (fun gp => sum p (fun j => P r q * P j t * ((sum s (fun m => sum s (fun o => E_a gp u a m r * tangent (E gp u a) m o * E_a gp u a o j)) +
      E_aa gp u a (stress (E gp u a)) r j) * vol gp))))) by (intros; now rewrite sumP_swap).
    rewrite <- sumP_swap. apply twin_sum. intros gp gp' (V & He & _ & Hea & _ & Haa & _). unfold vol. rewrite V.
    rewrite (sum_ext p _ (fun r => sum p (fun j => sum s (fun m => sum s (fun o => P r q * E_a gp u a m r * tangent (E gp u a) m o * (P j t * E_a gp u a o j))) +
       P r q * (E_aa gp u a (stress (E gp u a)) r j * P j t)) * (integrationElement gp * weight gp))).
    2:{ intros r _. rewrite <- sum_mul_r. apply sum_ext. intros j _. rewrite <- Rmult_assoc, Rmult_plus_distr_l, <- sum_mul_l. f_equal. f_equal; [|ring].
        apply sum_ext. intros. rewrite <- sum_mul_l. apply sum_ext. intros. ring. }
    rewrite sum_mul_r. f_equal. rewrite (sum_ext p _ _ (fun r _ => sum_add p _ _)). rewrite sum_add. f_equal.
    - rewrite (sum_ext p _ (fun r => sum s (fun m => sum s (fun o => P r q * E_a gp u a m r * (tangent (E gp u a) m o * E_a' gp' u' a' o t))))).
      2:{ intros r _. rewrite sum_swap. apply sum_ext. intros m _. rewrite sum_swap. apply sum_ext. intros o Ho. rewrite sum_mul_l, <- Hea by assumption. ring. }
      symmetry. rewrite sum_swap. apply sum_ext. intros m Hm. rewrite sum_swap. apply sum_ext. intros o Ho. rewrite sum_mul_r, <- Hea by assumption.
      rewrite (tangent_local _ _ He) by assumption. ring.
    - rewrite (Haa (stress (E gp u a))) by (try assumption; exact (stress_local _ _ He)). apply sum_ext. intros. now rewrite sum_mul_l.
  Qed.

  Variables inverse : (nat -> nat -> R) -> nat -> nat -> R.
  Hypothesis HP : isInverse p P Pi.
  Hypothesis HZ : isInverse p D (inverse D).
  Hypothesis HZ' : isInverse p D' (inverse D').

  Lemma twin_vector f f' k : (k < N)%nat -> (forall k, (k < N)%nat -> f' k = f (index k)) ->
    easVectorImpl d n s p points' stress tangent E' E_d' E_a' E_aa' E_ad' inverse u' a' f' k =
    easVectorImpl d n s p points stress tangent E E_d E_a E_aa E_ad inverse u a f (index k).
  Proof.
    intros Hk Hf. unfold easVectorImpl. f_equal; [apply (twin_force f f' k Hk), Hf, Hk|].
    apply (product_same p P Pi D D' _ _ HP twin_d HZ HZ' (fun q => L q (index k)) (fun q => L' q k) rest rest').
    - intros q Hq. now apply twin_l.
    - intros q Hq. now apply twin_rest.
  Qed.

  Lemma twin_update du du' q : (q < p)%nat -> (forall k, (k < N)%nat -> du' k = du (index k)) ->
    (forall f, sum N (fun k => f (index k)) = sum N f) -> (forall q, (q < p)%nat -> a q = sum p (fun r => P q r * a' r)) ->
    sum p (fun r => P q r * easUpdateImpl d n s p points' stress tangent E' E_d' E_a' E_aa' E_ad' inverse u' du' a' r) =
    easUpdateImpl d n s p points stress tangent E E_d E_a E_aa E_ad inverse u du a q.
  Proof.
    intros Hq Hdu reindex Ha. unfold easUpdateImpl. rewrite (Ha q Hq).
    rewrite (sum_ext p _ (fun r => P q r * a' r + - (P q r * sum p (fun r0 => inverse D' r r0 * (rest' r0 + sum N (fun k => L' r0 k * du' k)))))) by (intros; unfold D', rest', L', N; ring).
    rewrite sum_add. unfold Rminus. f_equal.
    rewrite (sum_ext p _ (fun r => -1 * (P q r * sum p (fun r0 => inverse D' r r0 * (rest' r0 + sum N (fun k => L' r0 k * du' k)))))) by (intros; ring).
    rewrite sum_mul_l.
    rewrite (solve_same p P Pi D D' (inverse D) (inverse D') HP twin_d HZ HZ' (fun q => rest q + sum N (fun k => L q k * du k)) (fun q => rest' q + sum N (fun k => L' q k * du' k))).
    - fold D rest L N. ring.
    - intros r Hr. rewrite (twin_rest r Hr).
      rewrite (sum_ext p (fun i => P i r * (_ + _)) (fun i => P i r * rest i + sum N (fun k => P i r * L i (index k) * du (index k)))).
      2:{ intros i _. rewrite Rmult_plus_distr_l. f_equal. rewrite <- (reindex (fun k => L i k * du k)), <- sum_mul_l. apply sum_ext. intros. ring. }
      rewrite sum_add. f_equal. rewrite sum_swap. apply sum_ext. intros k Hk. rewrite twin_l, Hdu by assumption. now rewrite sum_mul_r.
    - exact Hq.
  Qed.

  (** The matrix; the upper triangle is copied to the lower one *)
  Hypothesis SK : symmetric N (K zeroMatrix).
  Hypothesis SD : symmetric p D.

  Lemma inverse_transposed (A B : nat -> nat -> R) : isInverse p A B -> symmetric p A -> symmetric p B.
  Proof.
    intros (H1 & H2) S. assert (X : eqm p (mt B) B).
    { assert (T : eqm p (mul p (mt B) A) identity).
      { intros i j Hi Hj. transitivity (mul p A B j i); [|rewrite H1 by assumption; unfold identity; now rewrite Nat.eqb_sym].
        unfold mul, mt. apply sum_ext. intros k Hk. rewrite (S k j) by assumption. ring. }
      eapply eqm_trans; [apply eqm_sym, mul_id_r|]. eapply eqm_trans; [apply mul_ext; [apply eqm_refl|]|].
      - intros i j Hi Hj. symmetry. exact (H1 i j Hi Hj).
      - rewrite <- mul_assoc. eapply eqm_trans; [apply mul_ext; [exact T|apply eqm_refl]|apply mul_id_l]. }
    intros i j Hi Hj. symmetry. exact (X i j Hi Hj).
  Qed.
  Lemma twin_matrix k l : (k < N)%nat -> (l < N)%nat ->
    easMatrixImpl d n s p points' stress tangent E' E_d' E_a' E_dd' E_aa' E_ad' inverse u' a' zeroMatrix k l =
    easMatrixImpl d n s p points stress tangent E E_d E_a E_dd E_aa E_ad inverse u a zeroMatrix (index k) (index l).
  Proof.
    intros Hk Hl. assert (Hi := proj1 (index_facts k Hk)). assert (Hj := proj1 (index_facts l Hl)).
    assert (SZ := inverse_transposed _ _ HZ SD).
    assert (SD' : symmetric p D').
    { intros q r Hq Hr. rewrite (twin_d q r), (twin_d r q) by assumption. unfold mul, mt.
      rewrite (sum_ext p _ (fun i => sum p (fun j => P i q * (D i j * P j r)))) by (intros; now rewrite sum_mul_l).
      rewrite (sum_ext p (fun i => P i r * _) (fun i => sum p (fun j => P i r * (D i j * P j q)))) by (intros; now rewrite sum_mul_l).
      rewrite sum_swap. apply sum_ext. intros i Hi'. apply sum_ext. intros j Hj'. rewrite (SD j i) by assumption. ring. }
    assert (SZ' := inverse_transposed _ _ HZ' SD').
    assert (flat : forall (KK : nat -> nat -> R) LL (ZZ : nat -> nat -> R) k l, KK l k = KK k l -> symmetric p ZZ ->
      (if (l <? k)%nat then (if (l <=? k)%nat then KK l k - sum p (fun q => sum p (fun r => LL q l * ZZ q r * LL r k)) else KK l k)
       else (if (k <=? l)%nat then KK k l - sum p (fun q => sum p (fun r => LL q k * ZZ q r * LL r l)) else KK k l)) =
      KK k l - sum p (fun q => sum p (fun r => LL q k * ZZ q r * LL r l))).
    { clear. intros KK LL ZZ k l S SZ. destruct (Nat.ltb_spec l k).
      - destruct (Nat.leb_spec l k); [|lia]. rewrite S. f_equal. rewrite sum_swap. apply sum_ext. intros q Hq. apply sum_ext. intros r Hr. rewrite (SZ r q) by assumption. ring.
      - destruct (Nat.leb_spec k l); [reflexivity|lia]. }
    unfold easMatrixImpl, condense. cbv zeta. fold D D' L L' (K zeroMatrix) (K' zeroMatrix).
    rewrite !flat; try assumption.
    - f_equal; [now apply twin_stiffness|].
      apply (product_same p P Pi D D' _ _ HP twin_d HZ HZ' (fun q => L q (index k)) (fun q => L' q k) (fun q => L q (index l)) (fun q => L' q l)); intros q Hq; now apply twin_l.
    - now apply SK.
    - rewrite !twin_stiffness by assumption. now apply SK.
  Qed.
End Twins.

(** ** The modes *)

(** The symmetries are composed of exchanges of neighbouring coordinates and of reflections *)
Definition exchange0 (a b : nat) : R := if (b =? match a with 0 => 1 | 1 => 0 | _ => a end)%nat then 1 else 0.
Definition exchange1 (a b : nat) : R := if (b =? match a with 1 => 2 | 2 => 1 | _ => a end)%nat then 1 else 0.
Definition reflect (k a b : nat) : R := if (b =? a)%nat then (if (a =? k)%nat then -1 else 1) else 0.

Section Generated.
  Variables (d : nat) (Q : (nat -> nat -> R) -> Prop).
  Hypothesis Qext : forall W W', eqm d W W' -> Q W -> Q W'.
  Hypothesis Qmul : forall V W, Q V -> Q W -> Q (mul d V W).
  Hypothesis Qid : Q identity.
  Hypothesis Qreflect : forall k, (k < d)%nat -> Q (reflect k).
  Hypothesis Q0 : (2 <= d)%nat -> Q exchange0.
  Hypothesis Q1 : (3 <= d)%nat -> Q exchange1.

  Definition factor (k : nat) (x : R) (a b : nat) : R := if (b =? a)%nat then (if (a =? k)%nat then x else 1) else 0.
  Lemma Qfactor k x : (k < d)%nat -> x = 1 \/ x = -1 -> Q (factor k x).
  Proof.
    intros Hk [->| ->]; [|exact (Qreflect k Hk)]. eapply Qext; [|exact Qid]. intros a b _ _. unfold factor, identity.
    rewrite (Nat.eqb_sym a b). destruct (b =? a)%nat, (a =? k)%nat; reflexivity.
  Qed.

  Lemma generated W : (d = 2 \/ d = 3)%nat -> signedPermutation d W -> Q W.
  Proof.
    intros Hd (pi & sg & Hpi & Hinj & Hsg & HW).
    assert (QM : Q (fun a b => if (b =? pi a)%nat then 1 else 0)).
    { destruct Hd as [Hd|Hd]; rewrite Hd in *.
      - assert (A0 := Hpi 0%nat ltac:(lia)). assert (A1 := Hpi 1%nat ltac:(lia)).
        assert (D01 : pi 0%nat <> pi 1%nat) by (intros X; apply Hinj in X; lia).
        assert (C : (pi 0 = 0 /\ pi 1 = 1 \/ pi 0 = 1 /\ pi 1 = 0)%nat) by lia.
        destruct C as [(C0 & C1)|(C0 & C1)].
        + eapply Qext; [|exact Qid]. intros a b Ha Hb. cases a; rewrite ?C0, ?C1; cases b; reflexivity.
        + eapply Qext; [|exact (Q0 (le_n 2))]. intros a b Ha Hb. cases a; rewrite ?C0, ?C1; cases b; reflexivity.
      - assert (A0 := Hpi 0%nat ltac:(lia)). assert (A1 := Hpi 1%nat ltac:(lia)). assert (A2 := Hpi 2%nat ltac:(lia)).
        assert (D01 : pi 0%nat <> pi 1%nat) by (intros X; apply Hinj in X; lia).
        assert (D02 : pi 0%nat <> pi 2%nat) by (intros X; apply Hinj in X; lia).
        assert (D12 : pi 1%nat <> pi 2%nat) by (intros X; apply Hinj in X; lia).
        assert (E0 := Q0 ltac:(lia)). assert (E1 := Q1 ltac:(lia)).
        assert (C : (pi 0 = 0 /\ pi 1 = 1 /\ pi 2 = 2 \/ pi 0 = 1 /\ pi 1 = 0 /\ pi 2 = 2 \/ pi 0 = 0 /\ pi 1 = 2 /\ pi 2 = 1 \/
          pi 0 = 2 /\ pi 1 = 0 /\ pi 2 = 1 \/ pi 0 = 1 /\ pi 1 = 2 /\ pi 2 = 0 \/ pi 0 = 2 /\ pi 1 = 1 /\ pi 2 = 0)%nat) by lia.
        destruct C as [(C0 & C1 & C2)|[(C0 & C1 & C2)|[(C0 & C1 & C2)|[(C0 & C1 & C2)|[(C0 & C1 & C2)|(C0 & C1 & C2)]]]]].
        + eapply Qext; [|exact Qid]. intros a b Ha Hb. cases a; rewrite ?C0, ?C1, ?C2; cases b; reflexivity.
        + eapply Qext; [|exact E0]. intros a b Ha Hb. cases a; rewrite ?C0, ?C1, ?C2; cases b; reflexivity.
        + eapply Qext; [|exact E1]. intros a b Ha Hb. cases a; rewrite ?C0, ?C1, ?C2; cases b; reflexivity.
        + eapply Qext; [|exact (Qmul _ _ E0 E1)]. intros a b Ha Hb. cases a; rewrite ?C0, ?C1, ?C2; cases b; cbv [mul sum exchange0 exchange1 Nat.eqb]; ring.
        + eapply Qext; [|exact (Qmul _ _ E1 E0)]. intros a b Ha Hb. cases a; rewrite ?C0, ?C1, ?C2; cases b; cbv [mul sum exchange0 exchange1 Nat.eqb]; ring.
        + eapply Qext; [|exact (Qmul _ _ E0 (Qmul _ _ E1 E0))]. intros a b Ha Hb. cases a; rewrite ?C0, ?C1, ?C2; cases b; cbv [mul sum exchange0 exchange1 Nat.eqb]; ring. }
    destruct Hd as [Hd|Hd].
    - assert (F0 := Qfactor 0 (sg 0%nat) ltac:(lia) (Hsg 0%nat ltac:(lia))). assert (F1 := Qfactor 1 (sg 1%nat) ltac:(lia) (Hsg 1%nat ltac:(lia))).
      eapply Qext; [|exact (Qmul _ _ (Qmul _ _ F0 F1) QM)]. rewrite Hd in *. intros a b Ha Hb. rewrite HW by assumption.
      cases a; unfold mul, factor; cbn [sum Nat.eqb]; destruct (b =? pi 0%nat)%nat, (b =? pi 1%nat)%nat; ring.
    - assert (F0 := Qfactor 0 (sg 0%nat) ltac:(lia) (Hsg 0%nat ltac:(lia))). assert (F1 := Qfactor 1 (sg 1%nat) ltac:(lia) (Hsg 1%nat ltac:(lia))).
      assert (F2 := Qfactor 2 (sg 2%nat) ltac:(lia) (Hsg 2%nat ltac:(lia))).
      eapply Qext; [|exact (Qmul _ _ (Qmul _ _ (Qmul _ _ F0 F1) F2) QM)]. rewrite Hd in *. intros a b Ha Hb. rewrite HW by assumption.
      cases a; unfold mul, factor; cbn [sum Nat.eqb]; destruct (b =? pi 0%nat)%nat, (b =? pi 1%nat)%nat, (b =? pi 2%nat)%nat; ring.
  Qed.
End Generated.

(** The transformation of strains *)
Lemma transformation_ext d J J' m k : (d = 2 \/ d = 3)%nat -> eqm d J J' -> (m < voigtLength d)%nat -> (k < voigtLength d)%nat ->
  transformationMatrix d J m k = transformationMatrix d J' m k.
Proof.
  intros [->| ->] H Hm Hk; unfold transformationMatrix; cbn [Nat.eqb].
  - change (voigtLength 2) with 3%nat in *. assert (G : forall a b, (a < 2)%nat -> (b < 2)%nat -> J a b = J' a b) by exact H.
    cases m; cases k; unfold transformationMatrix2; cbn; rewrite !G by lia; reflexivity.
  - change (voigtLength 3) with 6%nat in *. assert (G : forall a b, (a < 3)%nat -> (b < 3)%nat -> J a b = J' a b) by exact H.
    cases m; cases k; unfold transformationMatrix3; cbn; rewrite !G by lia; reflexivity.
Qed.
Lemma transformation_mul d J K m k : (d = 2 \/ d = 3)%nat -> (m < voigtLength d)%nat -> (k < voigtLength d)%nat ->
  transformationMatrix d (mul d J K) m k = mul (voigtLength d) (transformationMatrix d J) (transformationMatrix d K) m k.
Proof.
  intros [->| ->] Hm Hk; unfold transformationMatrix; cbn [Nat.eqb]; [exact (proj1 (C38_multiplicative2 J K m k Hm Hk))|exact (proj1 (C38_multiplicative3 J K m k Hm Hk))].
Qed.
Lemma transformation_id d m k : (d = 2 \/ d = 3)%nat -> (m < voigtLength d)%nat -> (k < voigtLength d)%nat -> transformationMatrix d identity m k = identity m k.
Proof.
  intros [->| ->] Hm Hk; unfold transformationMatrix; cbn [Nat.eqb]; [exact (proj2 (C38_multiplicative2 identity identity m k Hm Hk))|exact (proj2 (C38_multiplicative3 identity identity m k Hm Hk))].
Qed.

(** Tables of the modes that are exchanged, and of those that change their signs *)
Definition column (t : list (nat * bool)) (q : nat) : nat * bool := nth q t (0%nat, true).
Definition signOf (b : bool) : R := if b then 1 else -1.
Definition exchangeOf (t : list (nat * bool)) (r q : nat) : R := if (r =? fst (column t q))%nat then signOf (snd (column t q)) else 0.
Definition involution (p : nat) (t : list (nat * bool)) : bool :=
  forallb (fun q => let (r, b) := column t q in (r <? p)%nat && (fst (column t r) =? q)%nat && Bool.eqb (snd (column t r)) b) (seq 0 p).
Lemma involution_facts p t q : involution p t = true -> (q < p)%nat ->
  (fst (column t q) < p)%nat /\ fst (column t (fst (column t q))) = q /\ snd (column t (fst (column t q))) = snd (column t q).
Proof.
  intros H Hq. unfold involution in H. rewrite forallb_forall in H. specialize (H q ltac:(apply in_seq; lia)). destruct (column t q) as (r, b). cbn [fst snd].
  rewrite !andb_true_iff, Nat.ltb_lt, Nat.eqb_eq, Bool.eqb_true_iff in H. tauto.
Qed.
Lemma exchange_inverse p t : involution p t = true -> isInverse p (exchangeOf t) (exchangeOf t).
Proof.
  intros H. assert (X : forall i j, (i < p)%nat -> (j < p)%nat -> mul p (exchangeOf t) (exchangeOf t) i j = identity i j).
  { intros i j Hi Hj. unfold mul. destruct (involution_facts p t j H Hj) as (B & E & S).
    rewrite (sum_pick p (fst (column t j))); [|assumption|].
    - unfold exchangeOf. rewrite E, S, Nat.eqb_refl. unfold identity. destruct (i =? j)%nat, (snd (column t j)); unfold signOf; ring.
    - intros k _ Hk. unfold exchangeOf at 2. destruct (Nat.eqb_spec k (fst (column t j))); [contradiction|ring]. }
  split; exact X.
Qed.
Lemma exchange_sum p t q (f : nat -> R) : involution p t = true -> (q < p)%nat ->
  sum p (fun r => exchangeOf t r q * f r) = signOf (snd (column t q)) * f (fst (column t q)).
Proof.
  intros H Hq. destruct (involution_facts p t q H Hq) as (B & _). rewrite (sum_pick p (fst (column t q))); [|assumption|].
  - unfold exchangeOf. now rewrite Nat.eqb_refl.
  - intros k _ Hk. unfold exchangeOf. destruct (Nat.eqb_spec k (fst (column t q))); [contradiction|ring].
Qed.

(** In the new coordinates the modes are combinations of the transformed old ones *)
Definition strainModes (d p : nat) (M : point -> nat -> nat -> R) (W : nat -> nat -> R) : Prop := exists P Pi, isInverse p P Pi /\
  forall gp gp', sameSpot d W gp gp' -> forall m q, (m < voigtLength d)%nat -> (q < p)%nat ->
  M gp' m q = sum (voigtLength d) (fun k => transformationMatrix d W m k * sum p (fun r => P r q * M gp k r)).
Definition stressModes (d p : nat) (M : point -> nat -> nat -> R) (W : nat -> nat -> R) : Prop := exists P Pi, isInverse p P Pi /\
  forall gp gp', sameSpot d W gp gp' -> forall m q, (m < voigtLength d)%nat -> (q < p)%nat ->
  sum (voigtLength d) (fun k => transformationMatrix d W k m * M gp' k q) = sum p (fun r => P r q * M gp m r).

Lemma identity_inverse p : isInverse p identity identity.
Proof. split; intros i j Hi Hj; exact (mul_id_l p identity i j Hi Hj). Qed.
Lemma mul_inverse p A Ai B Bi : isInverse p A Ai -> isInverse p B Bi -> isInverse p (mul p A B) (mul p Bi Ai).
Proof.
  intros (A1 & A2) (B1 & B2). split.
  - assert (X : eqm p (mul p (mul p A B) (mul p Bi Ai)) identity); [|exact X]. rewrite mul_assoc, <- (mul_assoc p B).
    eapply eqm_trans; [apply mul_ext; [apply eqm_refl|eapply eqm_trans; [apply mul_ext; [exact B1|apply eqm_refl]|apply mul_id_l]]|exact A1].
  - assert (X : eqm p (mul p (mul p Bi Ai) (mul p A B)) identity); [|exact X]. rewrite mul_assoc, <- (mul_assoc p Ai).
    eapply eqm_trans; [apply mul_ext; [apply eqm_refl|eapply eqm_trans; [apply mul_ext; [exact A2|apply eqm_refl]|apply mul_id_l]]|exact B2].
Qed.

Definition between (d : nat) (W : nat -> nat -> R) (gp : point) : point :=
  {| weight := weight gp; integrationElement := integrationElement gp; position := fun a => (sum d (fun b => W a b * (2 * position gp b - 1)) + 1) / 2 |}.
Lemma spot_mul d V W gp gp' : sameSpot d (mul d V W) gp gp' -> sameSpot d W gp (between d W gp) /\ sameSpot d V (between d W gp) gp'.
Proof.
  intros H. assert (X : forall a, 2 * position (between d W gp) a - 1 = sum d (fun b => W a b * (2 * position gp b - 1))) by (intros; cbn; field).
  split; [intros a _; apply X|]. intros a Ha. rewrite (H a Ha), mul_apply. apply sum_ext. intros q _. now rewrite X.
Qed.
Lemma spot_ext d W W' gp gp' : eqm d W W' -> sameSpot d W' gp gp' -> sameSpot d W gp gp'.
Proof. intros E H a Ha. rewrite (H a Ha). apply sum_ext. intros b Hb. now rewrite E. Qed.

Section Closure.
  Variables (d p : nat) (M : point -> nat -> nat -> R).
  Hypothesis Hd : (d = 2 \/ d = 3)%nat.
  (** the values depend on the coordinates only *)
  Hypothesis Mlocal : forall gp gp', (forall a, (a < d)%nat -> position gp' a = position gp a) -> forall m q, M gp' m q = M gp m q.
  Let s := voigtLength d.

  Lemma spot_id gp gp' : sameSpot d identity gp gp' -> forall m q, M gp' m q = M gp m q.
  Proof. intros H. apply Mlocal. intros a Ha. specialize (H a Ha). rewrite sum_id_l in H by assumption. lra. Qed.

  Lemma strain_ext W W' : eqm d W W' -> strainModes d p M W -> strainModes d p M W'.
  Proof.
    intros E (P & Pi & HP & H). exists P, Pi. split; [exact HP|]. intros gp gp' Hs m q Hm Hq. rewrite (H gp gp' (spot_ext d W W' gp gp' E Hs) m q Hm Hq).
    apply sum_ext. intros k Hk. rewrite (transformation_ext d W W') by assumption. reflexivity.
  Qed.
  Lemma strain_mul V W : strainModes d p M V -> strainModes d p M W -> strainModes d p M (mul d V W).
  Proof.
    intros (P & Pi & HP & H) (P' & Pi' & HP' & H'). exists (mul p P' P), (mul p Pi Pi'). split; [now apply mul_inverse|].
    intros gp gp' Hs m q Hm Hq. destruct (spot_mul d V W gp gp' Hs) as (S1 & S2). rewrite (H _ _ S2 m q Hm Hq). fold s.
    rewrite (sum_ext s (fun k => transformationMatrix d (mul d V W) m k * _) (fun k => mul s (transformationMatrix d V) (transformationMatrix d W) m k * sum p (fun r => mul p P' P r q * M gp k r))) by (intros; rewrite transformation_mul by assumption; reflexivity).
    rewrite mul_apply. apply sum_ext. intros k Hk. f_equal.
    rewrite (sum_ext p _ (fun r => sum s (fun l => transformationMatrix d W k l * sum p (fun j => P' j r * P r q * M gp l j)))).
    2:{ intros r Hr. rewrite (H' _ _ S1 k r Hk Hr). rewrite <- sum_mul_l. apply sum_ext. intros l _. rewrite <- !sum_mul_l. apply sum_ext. intros. ring. }
    rewrite sum_swap. apply sum_ext. intros l Hl. rewrite sum_mul_l. f_equal. rewrite sum_swap. apply sum_ext. intros j _. unfold mul. now rewrite sum_mul_r.
  Qed.
  Lemma strain_id : strainModes d p M identity.
  Proof.
    exists identity, identity. split; [apply identity_inverse|]. intros gp gp' Hs m q Hm Hq. rewrite (spot_id gp gp' Hs). fold s.
    rewrite (sum_ext s _ (fun k => identity m k * M gp k q)); [now rewrite sum_id_l|]. intros k Hk. rewrite transformation_id by assumption. f_equal.
    rewrite (sum_ext p _ (fun r => identity q r * M gp k r)) by (intros; unfold identity; now rewrite Nat.eqb_sym). now rewrite sum_id_l.
  Qed.
  Lemma stress_ext W W' : eqm d W W' -> stressModes d p M W -> stressModes d p M W'.
  Proof.
    intros E (P & Pi & HP & H). exists P, Pi. split; [exact HP|]. intros gp gp' Hs m q Hm Hq. rewrite <- (H gp gp' (spot_ext d W W' gp gp' E Hs) m q Hm Hq).
    apply sum_ext. intros k Hk. rewrite (transformation_ext d W W') by assumption. reflexivity.
  Qed.
  Lemma stress_mul V W : stressModes d p M V -> stressModes d p M W -> stressModes d p M (mul d V W).
  Proof.
    intros (P & Pi & HP & H) (P' & Pi' & HP' & H'). exists (mul p P' P), (mul p Pi Pi'). split; [now apply mul_inverse|].
    intros gp gp' Hs m q Hm Hq. destruct (spot_mul d V W gp gp' Hs) as (S1 & S2). fold s.
    rewrite (sum_ext s _ (fun k => sum s (fun l => transformationMatrix d W l m * (transformationMatrix d V k l * M gp' k q)))).
    2:{ intros k Hk. rewrite transformation_mul by assumption. unfold mul. rewrite <- sum_mul_r. apply sum_ext. intros. ring. }
    rewrite sum_swap.
    rewrite (sum_ext s _ (fun l => sum p (fun r => P r q * (transformationMatrix d W l m * M (between d W gp) l r)))).
    2:{ intros l Hl. rewrite sum_mul_l. fold s in H. rewrite (H _ _ S2 l q Hl Hq). rewrite <- sum_mul_l. apply sum_ext. intros. ring. }
    rewrite sum_swap.
    rewrite (sum_ext p _ (fun r => sum p (fun j => P' j r * P r q * M gp m j))).
    2:{ intros r Hr. rewrite sum_mul_l. fold s in H'. rewrite (H' _ _ S1 m r Hm Hr). rewrite <- sum_mul_l. apply sum_ext. intros. ring. }
    rewrite sum_swap. apply sum_ext. intros j _. unfold mul. now rewrite sum_mul_r.
  Qed.
  Lemma stress_id : stressModes d p M identity.
  Proof.
    exists identity, identity. split; [apply identity_inverse|]. intros gp gp' Hs m q Hm Hq. fold s.
    rewrite (sum_ext s _ (fun k => identity m k * M gp k q)).
    - rewrite sum_id_l by assumption. rewrite (sum_ext p _ (fun r => identity q r * M gp m r)) by (intros; unfold identity; now rewrite Nat.eqb_sym). now rewrite sum_id_l.
    - intros k Hk. rewrite transformation_id by assumption. rewrite (spot_id gp gp' Hs). unfold identity. now rewrite Nat.eqb_sym.
  Qed.

  Lemma strain_table W t : involution p t = true ->
    (forall gp gp', sameSpot d W gp gp' -> forall m q, (m < voigtLength d)%nat -> (q < p)%nat ->
       M gp' m q = signOf (snd (column t q)) * sum (voigtLength d) (fun k => transformationMatrix d W m k * M gp k (fst (column t q)))) ->
    strainModes d p M W.
  Proof.
    intros I H. exists (exchangeOf t), (exchangeOf t). split; [now apply exchange_inverse|]. intros gp gp' Hs m q Hm Hq. rewrite (H gp gp' Hs m q Hm Hq).
    rewrite <- sum_mul_l. apply sum_ext. intros k _. rewrite (exchange_sum p t q (fun r => M gp k r)) by assumption. ring.
  Qed.
  Lemma stress_table W t : involution p t = true ->
    (forall gp gp', sameSpot d W gp gp' -> forall m q, (m < voigtLength d)%nat -> (q < p)%nat ->
       sum (voigtLength d) (fun k => transformationMatrix d W k m * M gp' k q) = signOf (snd (column t q)) * M gp m (fst (column t q))) ->
    stressModes d p M W.
  Proof.
    intros I H. exists (exchangeOf t), (exchangeOf t). split; [now apply exchange_inverse|]. intros gp gp' Hs m q Hm Hq. rewrite (H gp gp' Hs m q Hm Hq).
    now rewrite (exchange_sum p t q (fun r => M gp m r)).
  Qed.
End Closure.

(** The coordinates of the second element for each of these symmetries *)
Lemma spot2 gp gp' W : sameSpot 2 W gp gp' ->
  position gp' 0%nat = (W 0%nat 0%nat * (2 * position gp 0%nat - 1) + W 0%nat 1%nat * (2 * position gp 1%nat - 1) + 1) / 2 /\
  position gp' 1%nat = (W 1%nat 0%nat * (2 * position gp 0%nat - 1) + W 1%nat 1%nat * (2 * position gp 1%nat - 1) + 1) / 2.
Proof. intros H. assert (H0 := H 0%nat ltac:(lia)). assert (H1 := H 1%nat ltac:(lia)). cbv [sum] in H0, H1. split; lra. Qed.
Lemma spot3 gp gp' W : sameSpot 3 W gp gp' ->
  let x b := 2 * position gp b - 1 in
  position gp' 0%nat = (W 0%nat 0%nat * x 0%nat + W 0%nat 1%nat * x 1%nat + W 0%nat 2%nat * x 2%nat + 1) / 2 /\
  position gp' 1%nat = (W 1%nat 0%nat * x 0%nat + W 1%nat 1%nat * x 1%nat + W 1%nat 2%nat * x 2%nat + 1) / 2 /\
  position gp' 2%nat = (W 2%nat 0%nat * x 0%nat + W 2%nat 1%nat * x 1%nat + W 2%nat 2%nat * x 2%nat + 1) / 2.
Proof.
  intros H. assert (H0 := H 0%nat ltac:(lia)). assert (H1 := H 1%nat ltac:(lia)). assert (H2 := H 2%nat ltac:(lia)). cbv [sum] in H0, H1, H2. cbv zeta. repeat split; lra.
Qed.
