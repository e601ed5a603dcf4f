(** Hyperelastic materials along a line of right Cauchy-Green tensors. *)

From Coq Require Import Reals List ZArith Bool Lia Lra FunctionalExtensionality.
From Coquelicot Require Import Coquelicot.
From Verif Require Import Tensor_Model Tensor_Spec Tensor_Props SVK_Spec Conversions_Spec Conversions_Props NeoHooke_Model NeoHooke_Props
  Volumetric_Model Volumetric_Props Deviatoric_Model Deviatoric_Spec Deviatoric_Proofs Deviatoric_Props
  Hyperelastic_Model Hyperelastic_Spec Spectral_Proofs Stretches_Proofs.
Import ListNotations.
Local Open Scope R_scope.

(** ** Determinants *)
Lemma det_weighted N e : det3 (fun i j => sum 3 (fun k => N i k * e k * N j k)) = det3 N ^ 2 * (e 0%nat * e 1%nat * e 2%nat).
Proof. unfold det3. cbn [sum]. ring. Qed.

Lemma det3_eqm A B : eqm 3 A B -> det3 A = det3 B.
Proof. intros E. unfold det3. rewrite !E by lia. reflexivity. Qed.

Lemma det_orthogonal N : orthogonalMatrix N -> det3 N ^ 2 = 1.
Proof.
  intros [_ H]. transitivity (det3 (fun i j => sum 3 (fun k => N i k * 1 * N j k))); [rewrite (det_weighted N (fun _ => 1)); ring|].
  transitivity (det3 identity); [|unfold det3, identity; cbn; ring].
  apply det3_eqm. intros i j Hi Hj. rewrite <- (H i j Hi Hj). unfold mul, transpose. apply sum_ext. intros; ring.
Qed.

Lemma det_decomposition C e N : decomposition C e N -> det3 C = e 0%nat * e 1%nat * e 2%nat.
Proof. intros (_ & O & E). rewrite (det3_eqm _ _ E), det_weighted, (det_orthogonal N O). ring. Qed.

Lemma prod_sqrt C e N : decomposition C e N -> (forall i, (i < 3)%nat -> 0 <= e i) -> prod3 (fun i => sqrt (e i)) = sqrt (det3 C).
Proof.
  intros D P. rewrite (det_decomposition C e N D). unfold prod3.
  assert (P0 := P 0%nat ltac:(lia)). assert (P1 := P 1%nat ltac:(lia)). assert (P2 := P 2%nat ltac:(lia)).
  rewrite !sqrt_mult; auto. now apply Rmult_le_pos.
Qed.

(** A positive product of roots means positive eigenvalues *)
Lemma prod_positive e : 0 < prod3 (fun i => sqrt (e i)) -> forall i, (i < 3)%nat -> 0 < e i.
Proof.
  intros H i Hi. destruct (Rlt_or_le 0 (e i)) as [|L]; [assumption|exfalso].
  unfold prod3 in H. index i Hi; rewrite (sqrt_neg_0 _ L) in H; lra.
Qed.

(** Off-diagonal second derivatives depend on the two stretches only *)
Lemma second_values f l i k i' k' Hs : secondImpl f l = Value Hs -> i <> k -> i' <> k' -> l i = l i' -> l k = l k' -> Hs i k = Hs i' k'.
Proof.
  intros S Nk Nk' Ei Ek. assert (B : Nat.eqb i k = false) by now apply Nat.eqb_neq. assert (B' : Nat.eqb i' k' = false) by now apply Nat.eqb_neq.
  destruct f; cbn [secondImpl] in S; try (injection S as <-).
  - reflexivity.
  - unfold blatzKoSecond. now rewrite B, B', Ei, Ek.
  - unfold ogdenTotalSecond. now rewrite B, B'.
  - unfold ogdenSecond in S. destruct writePowSums; [|discriminate]. injection S as <-. unfold deviatoricStretches. now rewrite B, B', Ei, Ek.
  - unfold invariantSecond, dW1, dW2, ddW1, ddW2. now rewrite B, B', Ei, Ek.
  - destruct checkJm; [discriminate|]. injection S as <-. unfold gentSecond, dW1, ddW1. now rewrite B, B', Ei, Ek.
  - unfold arrudaSecond, dW1, ddW1. now rewrite B, B', Ei, Ek.
Qed.

Lemma decomposition_vector C e N : decomposition C e N -> decomposition C (vector3 e) N.
Proof.
  intros (A & O & E). split; [exact A|split; [exact O|]]. intros i j Hi Hj. rewrite (E i j Hi Hj). apply sum_ext. intros k Hk.
  unfold vector3. apply Nat.ltb_lt in Hk. now rewrite Hk.
Qed.

Section Material.
Variable eig : rmat -> option ((nat -> R) * rmat).
Hypothesis Heig : solvesSymmetric eig.

(** The results of the solver along C + t H *)
Definition values (C H : rmat) (t : R) : nat -> R := match eig (shift C H t) with Some (e, _) => vector3 e | None => fun _ => 0 end.
Definition vectors (C H : rmat) (t : R) : rmat := match eig (shift C H t) with Some (_, N) => N | None => fun _ _ => 0 end.

Lemma shift_symmetric C H t : symmetric 3 C -> symmetric 3 H -> symmetric 3 (shift C H t).
Proof. intros SC SH i j Hi Hj. unfold shift. now rewrite (SC i j Hi Hj), (SH i j Hi Hj). Qed.

Lemma shift_0 C H : shift C H 0 = C.
Proof. apply functional_extensionality. intros i. apply functional_extensionality. intros j. unfold shift. ring. Qed.

Lemma along C H t : symmetric 3 C -> symmetric 3 H ->
  (exists e, eig (shift C H t) = Some (e, vectors C H t) /\ values C H t = vector3 e) /\ decomposition (shift C H t) (values C H t) (vectors C H t).
Proof.
  intros SC SH. destruct (Heig (shift C H t) (shift_symmetric C H t SC SH)) as (e & N & E & D).
  unfold values, vectors. rewrite E. split; [now exists e|now apply decomposition_vector].
Qed.

Lemma at0 C H : symmetric 3 C -> symmetric 3 H -> decomposition C (values C H 0) (vectors C H 0).
Proof. intros SC SH. destruct (along C H 0 SC SH) as [_ D]. now rewrite shift_0 in D. Qed.

Definition lam (C H : rmat) (t : R) : stretches := fun i => sqrt (values C H t i).

Lemma stretches_at C H t : symmetric 3 C -> symmetric 3 H -> principalStretches eig (shift C H t) = Returns (lam C H t, vectors C H t).
Proof. intros SC SH. unfold principalStretches. destruct (along C H t SC SH) as [(e & E & V) _]. unfold lam. now rewrite E, V. Qed.

Section Line.
Variables (m : hyperelastic) (C H : rmat).
Hypothesis SC : symmetric 3 C.
Hypothesis SH : symmetric 3 H.
Hypothesis PJ : 0 < prod3 (lam C H 0).

Let a := values C H 0.
Let b := values C H.
Let N := vectors C H 0.
Let M := vectors C H.
Let l := lam C H 0.
Let DA : decomposition C a N := at0 C H SC SH.
Let DB t : decomposition (shift C H t) (b t) (M t) := proj2 (along C H t SC SH).

Lemma a_positive i : (i < 3)%nat -> 0 < a i.
Proof. apply prod_positive. exact PJ. Qed.
Lemma l_positive : positiveStretches l.
Proof. unfold positiveStretches, l, lam. repeat split; apply sqrt_lt_R0, a_positive; lia. Qed.
Lemma l_square i : (i < 3)%nat -> l i ^ 2 = a i.
Proof. intros Hi. unfold l, lam. fold a. rewrite <- Rsqr_pow2. apply Rsqr_sqrt, Rlt_le. now apply a_positive. Qed.

Lemma b_positive : locally 0 (fun t => forall i, (i < 3)%nat -> 0 < b t i).
Proof.
  assert (V : forall i, (i < 3)%nat -> locally 0 (fun t => 0 < b t i)).
  { intros i Hi. assert (A := a_positive i Hi). assert (Q := values_Oh C H a N b M DA DB i Hi).
    generalize (Oh_vanishing _ Q (a i / 2) ltac:(lra)). apply filter_imp. intros t B. cbn beta in B.
    apply Rabs_le_between in B. lra. }
  assert (V0 := V 0%nat ltac:(lia)). assert (V1 := V 1%nat ltac:(lia)). assert (V2 := V 2%nat ltac:(lia)).
  generalize (filter_and _ _ V0 (filter_and _ _ V1 V2)). apply filter_imp. intros t (A & B & D) i Hi. index i Hi; assumption.
Qed.

Lemma lam_expansion i : (i < 3)%nat -> oh (fun t => lam C H t i - l i - / (2 * l i) * (b t i - a i)).
Proof.
  intros Hi. apply (expansion_one sqrt (a i) (/ (2 * l i)) (fun t => b t i)).
  - unfold l, lam. fold a. assert (P := a_positive i Hi). auto_derive; [exact P|]. field. apply Rgt_not_eq, sqrt_lt_R0, P.
  - exact (values_Oh C H a N b M DA DB i Hi).
Qed.

Lemma Oh_plus f g : Oh f -> Oh g -> Oh (fun t => f t + g t).
Proof.
  intros (K & KP & F) (L & LP & G). exists (K + L). split; [lra|].
  generalize (filter_and _ _ F G). apply filter_imp. intros t [A B]. eapply Rle_trans; [apply Rabs_triang|]. lra.
Qed.
Lemma Oh_scale c f : Oh f -> Oh (fun t => c * f t).
Proof.
  intros (K & KP & F). exists (Rabs c * K). split; [apply Rmult_le_pos; auto using Rabs_pos|].
  generalize F. apply filter_imp. intros t A. rewrite Rabs_mult, Rmult_assoc. apply Rmult_le_compat_l; auto using Rabs_pos.
Qed.
Lemma Oh_ext f g : (forall t, f t = g t) -> Oh f -> Oh g.
Proof. intros E (K & KP & F). exists K. split; auto. generalize F. apply filter_imp. intros t A. rewrite <- E. exact A. Qed.

Lemma lam_Oh i : (i < 3)%nat -> Oh (fun t => lam C H t i - l i).
Proof.
  intros Hi. apply (Oh_ext (fun t => (lam C H t i - l i - / (2 * l i) * (b t i - a i)) + / (2 * l i) * (b t i - a i))); [intros; ring|].
  apply Oh_plus; [apply oh_Oh; now apply lam_expansion|]. apply Oh_scale. exact (values_Oh C H a N b M DA DB i Hi).
Qed.

(** A function of the stretches, expanded in the eigenvalues *)
Lemma function_expansion w D : nearby l (fun l' => gradient w l' (D l')) -> (forall i, (i < 3)%nat -> cont (fun l => D l i) l) ->
  oh (fun t => w (lam C H t) - w l - sum 3 (fun i => D l i / (2 * l i) * (b t i - a i))).
Proof.
  intros G Co. assert (E := expansion_path w D l (lam C H) G Co lam_Oh).
  apply (oh_ext (fun t => (w (lam C H t) - w l - sum 3 (fun i => D l i * (lam C H t i - l i))) +
    sum 3 (fun i => D l i * (lam C H t i - l i - / (2 * l i) * (b t i - a i))))).
  { intros t. rewrite !sum_3. unfold Rdiv. ring. }
  apply oh_plus; [exact E|]. apply oh_sum. intros i Hi. apply mult_oh; [apply bounded_const|]. now apply lam_expansion.
Qed.

(** ** The volumetric part *)
Lemma J_det : locally 0 (fun t => prod3 (lam C H t) = sqrt (det3 (shift C H t))).
Proof.
  generalize b_positive. apply filter_imp. intros t P. apply (prod_sqrt _ _ (M t)); [exact (DB t)|]. intros; now apply Rlt_le, P.
Qed.
Lemma det_positive : 0 < det3 C.
Proof.
  rewrite (det_decomposition C a N DA). assert (A0 := a_positive 0 ltac:(lia)). assert (A1 := a_positive 1 ltac:(lia)). assert (A2 := a_positive 2 ltac:(lia)).
  apply Rmult_lt_0_compat; [now apply Rmult_lt_0_compat|assumption].
Qed.
Lemma J_at0 : prod3 l = sqrt (det3 C).
Proof. apply (prod_sqrt C a N DA). intros; now apply Rlt_le, a_positive. Qed.

Lemma J_derive : is_derive (fun t => sqrt (det3 (shift C H t))) 0 (prod3 l / 2 * contract 3 (inv3 C) H).
Proof.
  assert (P := det_positive). assert (D := det_derive C H SC SH ltac:(lra)).
  assert (E0 : det3 (shift C H 0) = det3 C) by now rewrite shift_0.
  eapply derive_at; [|apply (is_derive_comp sqrt (fun t => det3 (shift C H t)) 0 (/ (2 * sqrt (det3 C)))); [|exact D]].
  - rewrite J_at0. unfold scal; simpl; unfold mult; simpl. assert (Q : 0 < sqrt (det3 C)) by now apply sqrt_lt_R0.
    set (r := sqrt (det3 C)) in *. replace (det3 C) with (r * r) by (apply sqrt_sqrt; lra). field. lra.
  - rewrite E0. auto_derive; [exact P|]. field. apply Rgt_not_eq, sqrt_lt_R0, P.
Qed.

Lemma volumetric_energy_derive : admissible (vol m) ->
  is_derive (fun t => volEnergy (bulk m) (vol m) (sqrt (det3 (shift C H t)))) 0
    (contract 3 (transformVolumetricStresses (volFirst (bulk m) (vol m) (prod3 l)) C (prod3 l)) H / 2).
Proof.
  intros Adm. assert (P : 0 < prod3 l) by exact PJ.
  destruct (C49_derivatives (bulk m) (vol m) (prod3 l) Adm P) as [D _].
  eapply derive_at; [|apply (is_derive_comp (volEnergy (bulk m) (vol m)) (fun t => sqrt (det3 (shift C H t))) 0 (volFirst (bulk m) (vol m) (prod3 l)));
    [rewrite shift_0, <- J_at0; exact D|exact J_derive]].
  unfold scal; simpl; unfold mult; simpl. unfold contract, transformVolumetricStresses. rewrite !sum_3. field.
Qed.

(** ** The deviatoric part *)
Lemma inner_product s : contract 3 (transformDeviatoricStresses s N) H = sum 3 (fun i => s i * inBases N H N i i).
Proof. unfold contract, transformDeviatoricStresses, inBases. cbn [sum]. ring. Qed.

Lemma values_equal i j : a i = a j -> l i = l j.
Proof. intros E. unfold l, lam. fold a. now rewrite E. Qed.

Lemma deviatoric_energy_derive : validExponents (dev m) -> energyImpl (dev m) l <> Throws ->
  exists s, devStresses (dev m) l = Value s /\
  is_derive (fun t => valueOf 0 (devEnergy (dev m) (lam C H t))) 0 (contract 3 (transformDeviatoricStresses s N) H / 2).
Proof.
  intros V T. assert (P := l_positive). destruct (C51_stresses (dev m) l P V T) as (w & s & _ & Es & _).
  exists s. split; [exact Es|]. apply oh_derive. rewrite inner_product.
  set (D := fun (l : stretches) i => l i * valueOf (fun _ => 0) (devStresses (dev m) l) i).
  assert (E := function_expansion (fun l => valueOf 0 (devEnergy (dev m) l)) D).
  assert (E' : oh (fun t => valueOf 0 (devEnergy (dev m) (lam C H t)) - valueOf 0 (devEnergy (dev m) l) - sum 3 (fun i => D l i / (2 * l i) * (b t i - a i)))).
  { apply E.
    - generalize (filter_and _ _ (positive_nearby l P) (throws_nearby (dev m) l P T)). apply filter_imp. intros l' [P' T'].
      destruct (C51_stresses (dev m) l' P' V T') as (w' & s' & _ & Es' & G). unfold D. rewrite Es'. exact G.
    - intros i Hi. unfold D. apply (cont_mult (fun l => l i) (fun l => valueOf (fun _ => 0) (devStresses (dev m) l) i)); [now apply cont_coord|].
      now apply first_continuous. }
  clear E. assert (Dl : forall i, (i < 3)%nat -> D l i / (2 * l i) = s i / 2).
  { intros i Hi. unfold D. rewrite Es. cbn [valueOf]. field. now apply l_ne. }
  assert (W := weighted C H a N b M DA DB (fun i => s i / 2)).
  assert (W' : oh (fun t => sum 3 (fun i => s i / 2 * (b t i - a i)) - t * sum 3 (fun i => s i / 2 * inBases N H N i i))).
  { apply W. intros i j Hi Hj Eij. destruct (stresses_first _ _ _ Es) as (d & Ed & Ds). rewrite !Ds.
    rewrite (first_equal _ _ i j d (values_equal i j Eij) Ed), (values_equal i j Eij). reflexivity. }
  apply (oh_ext (fun t => (valueOf 0 (devEnergy (dev m) (lam C H t)) - valueOf 0 (devEnergy (dev m) l) - sum 3 (fun i => D l i / (2 * l i) * (b t i - a i)))
    + (sum 3 (fun i => s i / 2 * (b t i - a i)) - t * sum 3 (fun i => s i / 2 * inBases N H N i i)))); [|now apply oh_plus].
  intros t. fold l. rewrite !sum_3, !Dl by lia. unfold Rdiv. ring.
Qed.

Lemma detF_returns t : 0 < prod3 (lam C H t) -> detF (lam C H t) = Returns (prod3 (lam C H t)).
Proof. intros P. unfold detF. destruct (Rle_dec (prod3 (lam C H t)) 0); [lra|reflexivity]. Qed.

Lemma prod_locally : locally 0 (fun t => 0 < prod3 (lam C H t)).
Proof.
  generalize b_positive. apply filter_imp. intros t P. apply prod3_pos. unfold lam. repeat split; apply sqrt_lt_R0, P; lia.
Qed.

Lemma throws_locally : energyImpl (dev m) l <> Throws -> locally 0 (fun t => energyImpl (dev m) (lam C H t) <> Throws).
Proof.
  intros T. destruct (throws_nearby (dev m) l l_positive T) as (d & Dp & Q).
  assert (V : forall i, (i < 3)%nat -> locally 0 (fun t => Rabs (lam C H t i - l i) < d)).
  { intros i Hi. generalize (Oh_vanishing _ (lam_Oh i Hi) (d / 2) ltac:(lra)). apply filter_imp. intros t B. cbn beta in B. lra. }
  assert (V0 := V 0%nat ltac:(lia)). assert (V1 := V 1%nat ltac:(lia)). assert (V2 := V 2%nat ltac:(lia)).
  generalize (filter_and _ _ V0 (filter_and _ _ V1 V2)). apply filter_imp. intros t (A & B & D). apply Q. intros i Hi. index i Hi; assumption.
Qed.

(** ** The stresses *)
(** Moduli of normal components of different directions depend on the stretches in these directions only *)
Lemma normal_values L i k i' k' : devTangent (dev m) l = Value L -> i <> k -> i' <> k' -> a i = a i' -> a k = a k' -> L i i k k = L i' i' k' k'.
Proof.
  intros T Nk Nk' Ei Ek. destruct (tangent_parts _ _ _ T) as (s & Hs & _ & S & Q & _). rewrite !Q.
  rewrite (second_values _ _ i k i' k' Hs S Nk Nk' (values_equal i i' Ei) (values_equal k k' Ek)).
  now rewrite (values_equal i i' Ei), (values_equal k k' Ek).
Qed.
Lemma normal_equal L i k : devTangent (dev m) l = Value L -> a i = a k -> L i i i i = L k k k k.
Proof.
  intros T Ei. destruct (tangent_parts _ _ _ T) as (s & Hs & _ & S & Q & _). rewrite !Q.
  now rewrite (second_equal _ _ i k Hs (values_equal i k Ei) S), (values_equal i k Ei).
Qed.

(** Another direction with the same eigenvalue *)
Definition partner (i : nat) : option nat := find (fun k => negb (Nat.eqb k i) && reqb (a k) (a i)) [0%nat; 1%nat; 2%nat].
Lemma partner_some i k : partner i = Some k -> k <> i /\ a k = a i /\ (k < 3)%nat.
Proof.
  intros E. apply find_some in E as [I E]. apply andb_prop in E as [E1 E2]. apply negb_true_iff, Nat.eqb_neq in E1.
  unfold reqb in E2. destruct Req_EM_T; [|discriminate]. cbn in I. repeat split; auto. lia.
Qed.
Lemma partner_none i k : partner i = None -> (k < 3)%nat -> k <> i -> a k <> a i.
Proof.
  intros E Hk Nk Eq. assert (X := find_none _ _ E k). cbn beta in X. unfold reqb in X.
  destruct (Req_EM_T (a k) (a i)) as [|N']; [|contradiction]. apply Nat.eqb_neq in Nk. rewrite Nk in X. cbn in X.
  assert (true = false); [apply X; lia|discriminate].
Qed.

Definition dpart (L : rtensor4) (i k : nat) : R :=
  if Nat.eqb i k then match partner i with Some j => L i i j j / 2 | None => 0 end else L i i k k / 2.
Definition cpart (L : rtensor4) (i : nat) : R := L i i i i / 2 - dpart L i i.

Lemma dpart_equal L i j k n : devTangent (dev m) l = Value L -> (i < 3)%nat -> (j < 3)%nat -> (k < 3)%nat -> (n < 3)%nat ->
  a i = a j -> a k = a n -> dpart L i k = dpart L j n.
Proof.
  intros T Hi Hj Hk Hn Eij Ekn. unfold dpart.
  destruct (Nat.eqb_spec i k) as [<-|Nik]; destruct (Nat.eqb_spec j n) as [<-|Njn].
  - destruct (partner i) as [p|] eqn:Pi; destruct (partner j) as [r|] eqn:Pj.
    + apply partner_some in Pi as (? & ? & ?). apply partner_some in Pj as (? & ? & ?). f_equal. apply (normal_values L); auto; congruence.
    + apply partner_some in Pi as (Np & Ep & Hp). exfalso. destruct (Nat.eq_dec i j) as [<-|Nij].
      * exact (partner_none i p Pj Hp Np Ep).
      * exact (partner_none j i Pj Hi Nij Eij).
    + apply partner_some in Pj as (Np & Ep & Hp). exfalso. destruct (Nat.eq_dec j i) as [->|Nij].
      * exact (partner_none i r Pi Hp Np Ep).
      * exact (partner_none i j Pi Hj Nij (eq_sym Eij)).
    + reflexivity.
  - destruct (partner i) as [p|] eqn:Pi.
    + apply partner_some in Pi as (? & ? & ?). f_equal. apply (normal_values L); auto; congruence.
    + exfalso. destruct (Nat.eq_dec j i) as [->|Nij].
      * apply (partner_none i n Pi Hn); auto.
      * apply (partner_none i j Pi Hj); auto.
  - destruct (partner j) as [p|] eqn:Pj.
    + apply partner_some in Pj as (? & ? & ?). f_equal. apply (normal_values L); auto; congruence.
    + exfalso. destruct (Nat.eq_dec i j) as [->|Nij].
      * apply (partner_none j k Pj Hk); auto.
      * apply (partner_none j i Pj Hi); auto.
  - f_equal. apply (normal_values L); auto.
Qed.

Lemma cpart_equal L i j : devTangent (dev m) l = Value L -> (i < 3)%nat -> (j < 3)%nat -> a i = a j -> cpart L i = cpart L j.
Proof. intros T Hi Hj E. unfold cpart. now rewrite (normal_equal L i j T E), (dpart_equal L i j i j T Hi Hj Hi Hj E E). Qed.

Lemma parts_sum L j (x : nat -> R) : (j < 3)%nat ->
  cpart L j * x j + sum 3 (fun k => dpart L j k * x k) = sum 3 (fun k => L j j k k / 2 * x k).
Proof.
  intros Hj. unfold cpart. rewrite !sum_3. index j Hj; unfold dpart at 2 3 4; cbn [Nat.eqb]; unfold dpart; cbn [Nat.eqb]; ring.
Qed.

Definition stretchStress (t : R) (j : nat) : R := valueOf (fun _ => 0) (devStresses (dev m) (lam C H t)) j.

Lemma stress_expansion L j : validExponents (dev m) -> energyImpl (dev m) l <> Throws -> fewTerms (dev m) -> devTangent (dev m) l = Value L -> (j < 3)%nat ->
  oh (fun t => stretchStress t j - stretchStress 0 j - cpart L j * (b t j - a j) - sum 3 (fun k => dpart L j k * (b t k - a k))).
Proof.
  intros V T F TL Hj. assert (P := l_positive).
  set (D := fun (l : stretches) k => l k * valueOf (fun _ _ _ _ => 0) (devTangent (dev m) l) j j k k).
  assert (E : oh (fun t => stretchStress t j - stretchStress 0 j - sum 3 (fun i => D l i / (2 * l i) * (b t i - a i)))).
  { apply (function_expansion (fun l => valueOf (fun _ => 0) (devStresses (dev m) l) j) D).
    - generalize (filter_and _ _ (positive_nearby l P) (throws_nearby (dev m) l P T)). apply filter_imp. intros l' [P' T'].
      destruct (C51_derivatives (dev m) l' P' V F T') as (w' & s' & L' & _ & _ & TL' & _ & G). unfold D. rewrite TL'. exact (G j Hj).
    - intros i Hi. unfold D. apply (cont_mult (fun l => l i) (fun l => valueOf (fun _ _ _ _ => 0) (devTangent (dev m) l) j j i i)); [now apply cont_coord|].
      now apply second_continuous. }
  apply (oh_ext (fun t => stretchStress t j - stretchStress 0 j - sum 3 (fun i => D l i / (2 * l i) * (b t i - a i)))); [|exact E].
  intros t. assert (Q := parts_sum L j (fun k => b t k - a k) Hj). cbn beta in Q.
  assert (Dl : forall i, (i < 3)%nat -> D l i / (2 * l i) = L j j i i / 2).
  { intros i Hi. unfold D. rewrite TL. cbn [valueOf]. field. now apply l_ne. }
  rewrite (sum_ext 3 (fun i => D l i / (2 * l i) * (b t i - a i)) (fun k => L j j k k / 2 * (b t k - a k))); [rewrite <- Q; ring|].
  intros i Hi. now rewrite Dl.
Qed.

(** The shear moduli of the code are the off-diagonal coefficients *)
Definition separated : Prop := forall i k, (i < 3)%nat -> (k < 3)%nat -> a i = a k \/ floatEq (1 / 10 ^ 8) (l i) (l k) = false.

Lemma shear_modulus L i k : separated -> devTangent (dev m) l = Value L -> (i < 3)%nat -> (k < 3)%nat -> i <> k ->
  L i k i k = gamma a (stretchStress 0) (cpart L) i k.
Proof.
  intros Sep T Hi Hk Nik. destruct (tangent_parts _ _ _ T) as (s & Hs & Fs & S & Q & D). rewrite (D i k Nik). unfold gamma.
  destruct (Req_EM_T (a i) (a k)) as [E|E].
  - rewrite (values_equal i k E), floatEq_refl. unfold cpart, dpart. rewrite Nat.eqb_refl.
    destruct (partner i) as [p|] eqn:Pi.
    + apply partner_some in Pi as (Np & Ep & Hp). rewrite (normal_values L i p i k T) by (auto; congruence). unfold Rdiv; ring.
    + exfalso. apply (partner_none i k Pi Hk); auto.
  - destruct (Sep i k Hi Hk) as [E'|E']; [contradiction|]. rewrite E'.
    unfold stretchStress. fold l. unfold devStresses. rewrite Fs. cbn [valueOf].
    rewrite (l_square i Hi), (l_square k Hk). reflexivity.
Qed.

Lemma back_transform S p q : (p < 3)%nat -> (q < 3)%nat ->
  S p q = sum 3 (fun i => sum 3 (fun k => N p i * inBases N S N i k * N q k)).
Proof.
  intros Hp Hq. destruct DA as (_ & [N1 N2] & _).
  transitivity (sum 3 (fun u => mul 3 N (transpose N) p u * sum 3 (fun v => mul 3 N (transpose N) q v * S u v))).
  - rewrite (sum_ext 3 _ (fun u => identity p u * S u q)); [now rewrite (sum_id_l 3 p (fun u => S u q))|].
    intros u Hu. rewrite (N2 p u Hp Hu). f_equal. rewrite (sum_ext 3 _ (fun v => identity q v * S u v)); [now rewrite (sum_id_l 3 q (fun v => S u v))|].
    intros v Hv. now rewrite (N2 q v Hq Hv).
  - unfold inBases, mul, transpose. cbn [sum]. ring.
Qed.

Lemma inBases_symmetric i k : inBases N H N i k = inBases N H N k i.
Proof.
  unfold inBases. rewrite sum_swap. apply sum_ext. intros p Hp. apply sum_ext. intros q Hq. rewrite (SH p q) by auto. ring.
Qed.

Lemma moduli_apply L p q : apply4 3 (transformDeviatoricTangentModuli L N) H p q =
  sum 3 (fun i => sum 3 (fun k => N p i * ((if Nat.eqb i k then sum 3 (fun j => L i i j j * inBases N H N j j) else 0) +
    (if Nat.eqb i k then 0 else 2 * L i k i k * inBases N H N i k)) * N q k)).
Proof.
  transitivity (sum 3 (fun i => sum 3 (fun k => L i i k k * (N p i * N q i) * inBases N H N k k +
    (if Nat.eqb i k then 0 else L i k i k * (N p i * N q k) * (inBases N H N i k + inBases N H N k i))))).
  - unfold apply4, transformDeviatoricTangentModuli, loop3, inBases. cbn [sum Nat.eqb]. ring.
  - rewrite !sum_3. rewrite (inBases_symmetric 1 0), (inBases_symmetric 2 0), (inBases_symmetric 2 1). cbn [Nat.eqb]. ring.
Qed.

Lemma deviatoric_stress_derive L p q : validExponents (dev m) -> energyImpl (dev m) l <> Throws -> fewTerms (dev m) ->
  devTangent (dev m) l = Value L -> separated -> (p < 3)%nat -> (q < 3)%nat ->
  is_derive (fun t => transformDeviatoricStresses (stretchStress t) (M t) p q) 0 (apply4 3 (transformDeviatoricTangentModuli L N) H p q / 2).
Proof.
  intros V T F TL Sep Hp Hq.
  set (Hn := fun i k => inBases N H N i k).
  assert (E : forall i k, (i < 3)%nat -> (k < 3)%nat ->
    oh (fun t => inBases N (transformDeviatoricStresses (stretchStress t) (M t)) N i k - identity i k * stretchStress 0 i -
      t * (gamma a (stretchStress 0) (cpart L) i k * Hn i k + identity i k * sum 3 (fun n => dpart L i n * Hn n n)))).
  { intros i k Hi Hk.
    apply (oh_ext (fun t => sum 3 (fun j => stretchStress t j * overlap N (M t) i j * overlap N (M t) k j) - identity i k * stretchStress 0 i -
      t * (gamma a (stretchStress 0) (cpart L) i k * Hn i k + identity i k * sum 3 (fun n => dpart L i n * Hn n n)))).
    { intros t. rewrite <- inBases_both. f_equal. f_equal. apply inBases_ext. intros x y _ _. unfold transformDeviatoricStresses. now rewrite sum_3. }
    apply (tensor_expansion C H a N b M DA DB stretchStress (stretchStress 0) (cpart L) (dpart L)); auto.
    - intros x y Hx Hy Exy. unfold stretchStress. fold l. unfold devStresses. destruct (firstImpl (dev m) l) as [s| |] eqn:Fs; cbn [valueOf]; try reflexivity.
      rewrite (first_equal _ _ x y s (values_equal x y Exy) Fs), (values_equal x y Exy). reflexivity.
    - intros x y Hx Hy Exy. now apply cpart_equal.
    - intros x y u v Hx Hy Hu Hv Exy Euv. now apply dpart_equal.
    - intros j Hj. now apply stress_expansion. }
  apply oh_derive.
  apply (oh_ext (fun t => sum 3 (fun i => sum 3 (fun k => N p i * N q k *
    (inBases N (transformDeviatoricStresses (stretchStress t) (M t)) N i k - identity i k * stretchStress 0 i -
      t * (gamma a (stretchStress 0) (cpart L) i k * Hn i k + identity i k * sum 3 (fun n => dpart L i n * Hn n n))))))).
  2:{ apply oh_sum. intros i Hi. apply oh_sum. intros k Hk. apply mult_oh; [apply bounded_const|now apply E]. }
  intros t. rewrite (back_transform (transformDeviatoricStresses (stretchStress t) (M t)) p q Hp Hq).
  rewrite moduli_apply.
  replace (transformDeviatoricStresses (stretchStress 0) (M 0) p q) with (sum 3 (fun i => sum 3 (fun k => N p i * N q k * (identity i k * stretchStress 0 i)))).
  2:{ unfold transformDeviatoricStresses, identity. change (M 0) with N. cbn [sum Nat.eqb]. ring. }
  transitivity (sum 3 (fun i => sum 3 (fun k => N p i * inBases N (transformDeviatoricStresses (stretchStress t) (M t)) N i k * N q k))
    - sum 3 (fun i => sum 3 (fun k => N p i * N q k * (identity i k * stretchStress 0 i)))
    - t * sum 3 (fun i => sum 3 (fun k => N p i * N q k * (gamma a (stretchStress 0) (cpart L) i k * Hn i k + identity i k * sum 3 (fun n => dpart L i n * Hn n n))))).
  { cbn [sum]. ring. }
  f_equal. f_equal. unfold Rdiv. rewrite <- sum_mul_r. apply sum_ext. intros i Hi. rewrite <- sum_mul_r. apply sum_ext. intros k Hk.
  unfold identity. destruct (Nat.eqb_spec i k) as [<-|Nik].
  - assert (G : gamma a (stretchStress 0) (cpart L) i i = cpart L i) by (unfold gamma; destruct Req_EM_T; [reflexivity|now exfalso]).
    rewrite G. assert (Q := parts_sum L i (fun k => Hn k k) Hi). cbn beta in Q. rewrite Rmult_1_l, Q. fold (Hn i i).
    rewrite !sum_3. unfold Hn. field.
  - rewrite <- (shear_modulus L i k Sep TL Hi Hk Nik). unfold Hn. field.
Qed.

Lemma volumetric_stress_derive p q : admissible (vol m) -> (p < 3)%nat -> (q < 3)%nat ->
  is_derive (fun t => transformVolumetricStresses (volFirst (bulk m) (vol m) (sqrt (det3 (shift C H t)))) (shift C H t) (sqrt (det3 (shift C H t))) p q) 0
    (apply4 3 (transformVolumetricTangentModuli (volFirst (bulk m) (vol m) (prod3 l)) (volSecond (bulk m) (vol m) (prod3 l)) C (prod3 l)) H p q / 2).
Proof.
  intros Adm Hp Hq. assert (P : 0 < prod3 l) by exact PJ. assert (PD := det_positive).
  destruct (C49_derivatives (bulk m) (vol m) (prod3 l) Adm P) as [_ D2].
  assert (Dj := J_derive). assert (Di := inv_derive C H p q SC SH ltac:(lra) Hp Hq).
  set (J := fun t => sqrt (det3 (shift C H t))) in *. assert (J0 : J 0 = prod3 l) by (unfold J; rewrite shift_0; symmetry; apply J_at0).
  assert (Du : is_derive (fun t => volFirst (bulk m) (vol m) (J t)) 0 (volSecond (bulk m) (vol m) (prod3 l) * (prod3 l / 2 * contract 3 (inv3 C) H))).
  { eapply derive_at; [|apply (is_derive_comp (volFirst (bulk m) (vol m)) J 0 (volSecond (bulk m) (vol m) (prod3 l))); [rewrite J0; exact D2|exact Dj]].
    unfold scal; simpl; unfold mult; simpl. ring. }
  unfold transformVolumetricStresses.
  assert (Dm := is_derive_mult (fun t => J t * volFirst (bulk m) (vol m) (J t)) (fun t => inv3 (shift C H t) p q) 0 _ _ (is_derive_mult J (fun t => volFirst (bulk m) (vol m) (J t)) 0 _ _ Dj Du Rmult_comm) Di Rmult_comm).
  eapply derive_at; [|exact Dm]. unfold plus, mult; simpl. rewrite shift_0, J0.
  assert (SI := inv3_sym C SC).
  unfold apply4, transformVolumetricTangentModuli, contract, mul, dyadic, symTwoSlots, shuffled, swapSlots, fourthOrderIKJL. cbn.
  rewrite (SI 1%nat 0%nat), (SI 2%nat 0%nat), (SI 2%nat 1%nat) by lia.
  rewrite (SH 1%nat 0%nat), (SH 2%nat 0%nat), (SH 2%nat 1%nat) by lia.
  set (I := inv3 C) in *. clearbody I.
  assert (S1 := SI 1%nat 0%nat ltac:(lia) ltac:(lia)). assert (S2 := SI 2%nat 0%nat ltac:(lia) ltac:(lia)). assert (S3 := SI 2%nat 1%nat ltac:(lia) ltac:(lia)).
  cases p; cases q; rewrite ?S1, ?S2, ?S3; field.
Qed.

End Line.
End Material.
