Set Warnings "-notation-overridden,-ambiguous-paths".
From mathcomp Require Import ssreflect ssrfun ssrbool eqtype ssrnat seq fintype bigop ssralg matrix.
From Verif Require Import Newton_Model Condensation_Model Condensation_Spec.
Import GRing.Theory.
Local Open Scope ring_scope.

Lemma addMirrored_sym (F : fieldType) n (K X : 'M[F]_n) : K^T = K -> X^T = X -> addMirrored F n K X = K + X.
Proof.
move=> hK hX; apply/matrixP=> i j; rewrite !mxE.
have eK : K j i = K i j by rewrite -[in LHS]hK mxE.
have eX : X j i = X i j by rewrite -[in LHS]hX mxE.
case: ifP => [-> //|h]. have -> : (j <= i)%N by case: (leqP j i) => // h'; rewrite (ltnW h') in h.
by rewrite eK eX.
Qed.

Lemma condense_sym (F : fieldType) p n (D : 'M[F]_p) (L : 'M[F]_(p, n)) : D^T = D -> (L^T *m invmx D *m L)^T = L^T *m invmx D *m L.
Proof. by move=> hD; rewrite !trmx_mul trmxK trmx_inv hD mulmxA. Qed.

Section Global.
Variables (F : fieldType) (N : nat).
Implicit Types (x : 'cV[F]_N).

Lemma scatterM_mul n (dofs : 'I_n -> 'I_N) (K : 'M[F]_n) x : scatterM F N n dofs K *m x = scatterV F N n dofs (K *m gather F N n dofs x).
Proof.
apply/matrixP=> I Z; rewrite ord1 !mxE.
under eq_bigr do rewrite mxE mulr_suml.
rewrite exchange_big; apply: eq_bigr => i _ /=.
rewrite mxE [RHS](partition_big dofs xpredT) //=.
apply: eq_bigr => J _; rewrite mulr_suml; apply: eq_bigr => j /eqP <-. by rewrite mxE.
Qed.

Lemma scatterV_D n (dofs : 'I_n -> 'I_N) (r s : 'cV[F]_n) : scatterV F N n dofs (r + s) = scatterV F N n dofs r + scatterV F N n dofs s.
Proof. apply/matrixP=> I Z; rewrite !mxE -big_split /=. by apply: eq_bigr => i _; rewrite mxE. Qed.

Lemma fullM_mul (c : 'I_N -> bool) (A : 'M[F]_N) x i : (fullM F N c A *m x) i ord0 =
  if c i then x i ord0 else \sum_j (if c j then 0 else A i j * x j ord0).
Proof.
rewrite mxE; case: ifP => ci.
  rewrite (bigD1 i) //= mxE ci eqxx mul1r big1 ?addr0 // => j ne. by rewrite mxE ci /= eq_sym (negbTE ne) mul0r.
apply: eq_bigr => j _; rewrite mxE ci /=; case: ifP => // cj.
have -> : (i == j) = false by apply/eqP=> e; rewrite e cj in ci. by rewrite mul0r.
Qed.
End Global.

Section Blocks.
Variables (F : fieldType) (N m : nat) (c : 'I_N -> bool) (els : 'I_m -> linearised F N).
Notation E k := (els k).
Notation dofs k := (l_dofs F N (els k)).

(** What an element contributes after condensation. *)
Definition condM k : 'M[F]_(l_n F N (E k)) := addMirrored F _ (l_K _ _ (E k)) (- ((l_L _ _ (E k))^T *m invmx (l_D _ _ (E k)) *m l_L _ _ (E k))).
Definition condV k : 'cV[F]_(l_n F N (E k)) := l_f _ _ (E k) - (l_L _ _ (E k))^T *m invmx (l_D _ _ (E k)) *m l_r _ _ (E k).
Definition condA : 'M[F]_N := fullM F N c (\sum_k scatterM F N _ (dofs k) (condM k)).
Definition condR : 'cV[F]_N := fullV F N c (\sum_k scatterV F N _ (dofs k) (condV k)).
Definition condDa (dx : 'cV[F]_N) k : 'cV[F]_(l_p F N (E k)) :=
  - (invmx (l_D _ _ (E k)) *m (l_r _ _ (E k) + l_L _ _ (E k) *m gather F N _ (dofs k) dx)).

Hypothesis symK : forall k, (l_K _ _ (E k))^T = l_K _ _ (E k).
Hypothesis symD : forall k, (l_D _ _ (E k))^T = l_D _ _ (E k).
Hypothesis symB : forall k, l_B _ _ (E k) = (l_L _ _ (E k))^T.
Hypothesis unitD : forall k, l_D _ _ (E k) \in unitmx.

Lemma internal_eq dx k a :
  l_L _ _ (E k) *m gather F N _ (dofs k) dx + l_D _ _ (E k) *m a + l_r _ _ (E k) = 0 <-> a = condDa dx k.
Proof.
rewrite /condDa; split=> [h|->].
  have e : l_D _ _ (E k) *m a = - (l_r _ _ (E k) + l_L _ _ (E k) *m gather F N _ (dofs k) dx).
    by apply/eqP; rewrite -addr_eq0 addrA addrC addrA h.
  by rewrite -[LHS](mulKmx (unitD k)) e mulmxN.
by rewrite mulmxN mulKVmx // opprD addrA [X in X + _]addrAC subrr sub0r addNr.
Qed.

(** Forces of an element after eliminating its internal variables. *)
Lemma eliminated dx k :
  l_K _ _ (E k) *m gather F N _ (dofs k) dx + l_B _ _ (E k) *m condDa dx k + l_f _ _ (E k) = condM k *m gather F N _ (dofs k) dx + condV k.
Proof.
rewrite /condM /condV /condDa symB addMirrored_sym //; last by rewrite linearN /= condense_sym.
rewrite mulmxN mulmxA mulmxDr mulmxDl mulNmx opprD !mulmxA addrA.
set p1 := l_K _ _ _ *m _; set p2 := _ *m l_r _ _ _; set p3 := _ *m gather _ _ _ _ _; set p4 := l_f _ _ _.
by rewrite -!addrA; congr (_ + _); rewrite addrCA; congr (_ + _); rewrite addrC.
Qed.

Lemma zero_on (c' : 'I_N -> bool) (A : 'M[F]_N) (x : 'cV[F]_N) i : (forall j, c' j -> x j ord0 = 0) ->
  \sum_j (if c' j then 0 else A i j * x j ord0) = (A *m x) i ord0.
Proof. move=> h; rewrite mxE; apply: eq_bigr => j _; case: ifP => // cj. by rewrite h // mulr0. Qed.

Lemma assembled dx i :
  ((\sum_k scatterM F N _ (dofs k) (condM k)) *m dx) i ord0 + (\sum_k scatterV F N _ (dofs k) (condV k)) i ord0 =
  \sum_k \sum_(j | dofs k j == i) (l_K _ _ (E k) *m gather F N _ (dofs k) dx + l_B _ _ (E k) *m condDa dx k + l_f _ _ (E k)) j ord0.
Proof.
rewrite mulmx_suml !summxE -big_split /=; apply: eq_bigr => k _.
by rewrite eliminated scatterM_mul !mxE -big_split /=; apply: eq_bigr => j _; rewrite [RHS]mxE.
Qed.

(** The condensed equations and the update of the internal variables are the block equations. *)
Lemma condensation dx da :
  blockNewton F N m c els dx da <-> condA *m dx = - condR /\ (forall k, da k = condDa dx k).
Proof.
split.
- move=> [h0 [h1 h2]]. have hda k : da k = condDa dx k by apply/internal_eq; apply: h2.
  split=> //. apply/matrixP=> i z; rewrite ord1 fullM_mul; case: ifP => ci.
    by rewrite !mxE ci oppr0 h0.
  rewrite zero_on // [RHS]mxE. apply/eqP; rewrite -addr_eq0 [X in _ + X]mxE ci assembled. apply/eqP. rewrite -[RHS](h1 i) ?ci //.
  apply: eq_bigr => k _; apply: eq_bigr => j _. by rewrite hda.
- move=> [h hda].
  have h0 i : c i -> dx i ord0 = 0.
    move=> ci. have := congr1 (fun M : 'cV[F]_N => M i ord0) h. by rewrite fullM_mul ci => ->; rewrite !mxE ci oppr0.
  split=> //; split=> [i ci|k]; last by rewrite hda; apply/internal_eq.
  have := congr1 (fun M : 'cV[F]_N => M i ord0) h. rewrite fullM_mul (negbTE ci) zero_on // => e.
  transitivity (((\sum_k scatterM F N _ (dofs k) (condM k)) *m dx) i ord0 + (\sum_k scatterV F N _ (dofs k) (condV k)) i ord0).
    rewrite assembled; apply: eq_bigr => k _; apply: eq_bigr => j _. by rewrite hda.
  by rewrite e !mxE (negbTE ci) addNr.
Qed.
End Blocks.
