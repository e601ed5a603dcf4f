(** Lemmas about the model of inhomogeneous Dirichlet conditions. *)
Set Warnings "-notation-overridden,-ambiguous-paths".
From Coq Require Import ZArith List.
From mathcomp Require Import ssreflect ssrfun ssrbool eqtype ssrnat seq fintype bigop ssralg matrix.
From Verif Require Import Newton_Model Control_Model Condensation_Model Idbc_Model.
Import GRing.Theory.
Local Open Scope ring_scope.

Section Treat.
Variables (F : fieldType) (n : nat) (c : 'I_n -> bool).
Notation treatV := (treatV F n c).
Notation treatM := (treatM F n c).
Notation expandV := (expandV F n c).

Lemma treatV_lin o k (a b : 'cV[F]_n) : treatV o (a + k *: b) = treatV o a + k *: treatV o b.
Proof. by case: o; apply/matrixP=> i j; rewrite !mxE //; case: (c i); rewrite ?mulr0 ?addr0. Qed.
Lemma treatV0 o : treatV o 0 = 0.
Proof. by case: o; apply/matrixP=> i j; rewrite !mxE //; case: (c i). Qed.
Lemma treatVD o (a b : 'cV[F]_n) : treatV o (a + b) = treatV o a + treatV o b.
Proof. by rewrite -[b]scale1r treatV_lin !scale1r. Qed.
Lemma treatVN o (a : 'cV[F]_n) : treatV o (- a) = - treatV o a.
Proof. by rewrite -scaleN1r -[_ *: a]add0r treatV_lin treatV0 add0r scaleN1r. Qed.

Lemma freeDof_free i : c (freeDof n c i) = false.
Proof. by apply: negbTE; have := enum_valP i. Qed.

Lemma expandV0 o : expandV o 0 = 0.
Proof. by case: o => //; apply/matrixP=> i j; rewrite !mxE big1 // => k _; rewrite mxE. Qed.

(** A correction computed with the treated matrix is zero at constrained dofs and solves the free equations of the raw one. *)
Lemma treat_solution o (K : 'M[F]_n) b t : treatM o K *m b = treatV o t ->
  treatV o (K *m expandV o b) = treatV o t /\ forall i, c i -> expandV o b i ord0 = 0.
Proof.
case: o b => /= b /matrixP h.
  have z i : c i -> b i ord0 = 0.
    move=> ci. have := h i ord0. rewrite !mxE ci (bigD1 i) //= mxE ci eqxx mul1r big1 ?addr0 // => j ne.
    by rewrite mxE ci eq_sym (negbTE ne) mul0r.
  split=> //. apply/matrixP=> i j; rewrite ord1 -h !mxE. case ci: (c i).
    rewrite (bigD1 i) //= mxE ci eqxx mul1r z // add0r big1 // => k ne.
    by rewrite mxE ci eq_sym (negbTE ne) mul0r.
  apply: eq_bigr => k _; rewrite mxE ci /=. by case ck: (c k) => //; rewrite z // !mulr0.
split=> [|i ci]; last first.
  by rewrite mxE big1 // => k /eqP e; move: (freeDof_free k); rewrite e ci.
apply/matrixP=> i j; rewrite ord1 -h !mxE.
under eq_bigr => J _ do rewrite mxE big_distrr /=.
rewrite (exchange_big_dep predT) //=. apply: eq_bigr => k _.
by rewrite (big_pred1 (freeDof n c k)) ?mxE // => J; rewrite eq_sym.
Qed.
End Treat.
