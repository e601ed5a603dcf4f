(** Property C165: interpolated fields have the components of their basis. *)

From Coq Require Import List Arith Lia.
From Verif Require Import FieldShape_Model FieldShape_Spec.
Import ListNotations.

Lemma composite_paths n k : (fix go (i : nat) (bs : list preBasis) := match bs with [] => [] | b :: bs => map (cons i) (scalarPaths b) ++ go (S i) bs end) k (repeat ScalarBasis n) =
  map (fun i => [i]) (seq k n).
Proof. revert k. induction n as [|n IH]; intros k; [reflexivity|]. cbn. now rewrite IH. Qed.
Lemma flat_single n k : flat_map (fun i : nat => map (cons i) [[]]) (seq k n) = map (fun i => [i]) (seq k n).
Proof. revert k. induction n as [|n IH]; intros k; [reflexivity|]. cbn. now rewrite IH. Qed.

Lemma vector_fits b : vectorValued b -> exists c, resultContainerPre b = Some c /\ numbers c = scalarPaths b /\ sizeOfContainer c = length (scalarPaths b).
Proof.
  intros [|n|n].
  - exists Double. repeat split.
  - exists (Array n Double). split; [reflexivity|]. split; [reflexivity|]. cbn [scalarPaths sizeOfContainer]. now rewrite flat_single, map_length, seq_length.
  - exists (Array (S n) Double). split; [cbn; now rewrite repeat_length|]. split.
    + change (scalarPaths (CompositeBasis (repeat ScalarBasis (S n)))) with
        ((fix go (i : nat) (bs : list preBasis) := match bs with [] => [] | b :: bs => map (cons i) (scalarPaths b) ++ go (S i) bs end) 0 (repeat ScalarBasis (S n))).
      rewrite composite_paths. cbn [numbers]. apply flat_single.
    + change (scalarPaths (CompositeBasis (repeat ScalarBasis (S n)))) with
        ((fix go (i : nat) (bs : list preBasis) := match bs with [] => [] | b :: bs => map (cons i) (scalarPaths b) ++ go (S i) bs end) 0 (repeat ScalarBasis (S n))).
      now rewrite composite_paths, map_length, seq_length.
Qed.

(** C165: fields of scalar and vector bases, of components of vectors and of the parts of a composite have exactly the components of the basis *)
Theorem C165_components_partial u : supported u -> fits u.
Proof.
  intros [b Hb|n i Hi|bs i b Hn Hb].
  - destruct (vector_fits b Hb) as (c & E & N & L). exists b, c, (sizeOfContainer c). unfold interpolationType, resultContainer. now rewrite E.
  - exists ScalarBasis, Double, 1. apply Nat.ltb_lt in Hi. unfold meant, at_path. rewrite Hi. repeat split.
  - destruct (vector_fits b Hb) as (c & E & N & L). exists b, c, (sizeOfContainer c). unfold interpolationType, resultContainer, resultContainerSSB, meant, at_path. rewrite Hn. now rewrite E.
Qed.
Print Assumptions C165_components_partial.

(** C165: a scalar component of the displacements of a composite of displacements and pressure is a scalar basis, yet its field has as many
    components as there are displacements *)
Theorem C165_component_of_composite_refuted n i (rest : list preBasis) : i < n ->
  let u := Subspace (CompositeBasis (PowerBasis n ScalarBasis :: rest)) [0; i] in
  meant u = Some ScalarBasis /\ interpolationType u = Some (Array n Double, n) /\ (n <> 1 -> ~ fits u).
Proof.
  intros Hi u. assert (M : meant u = Some ScalarBasis) by (apply Nat.ltb_lt in Hi; unfold u, meant, at_path; cbn [nth_error]; now rewrite Hi).
  split; [exact M|]. split; [reflexivity|]. intros N1 (b & c & size & B & T & _ & L). rewrite M in B. injection B as <-. cbn in T. injection T as <- <-. now cbn in L.
Qed.
Print Assumptions C165_component_of_composite_refuted.

(** C165: a composite of displacements and one more scalar is given the components of the first part for every part *)
Theorem C165_composite_refuted n : n <> 1 ->
  let u := Whole (CompositeBasis [PowerBasis n ScalarBasis; ScalarBasis]) in
  interpolationType u = Some (Array 2 (Array n Double), 2) /\ ~ fits u.
Proof.
  intros Hn u. split; [reflexivity|]. intros (b & c & size & B & T & N & L). injection B as <-. cbn in T. injection T as <- <-. clear L.
  assert (X : In [1] (numbers (Array 2 (Array n Double)))).
  { rewrite N. cbn [scalarPaths map app]. apply in_app_iff. right. now left. }
  cbn in X. rewrite flat_single in X. apply in_app_iff in X as [X|X]; [|apply in_app_iff in X as [X|[]]]; apply in_map_iff in X as (? & X & Y); apply in_map_iff in Y as (? & <- & _); discriminate.
Qed.
Print Assumptions C165_composite_refuted.

Example C165_applies : supported (Subspace (CompositeBasis [PowerBasis 3 ScalarBasis; ScalarBasis]) [0]) /\
  interpolationType (Subspace (CompositeBasis [PowerBasis 3 ScalarBasis; ScalarBasis]) [0]) = Some (Array 3 Double, 3) /\
  interpolationType (Subspace (CompositeBasis [PowerBasis 3 ScalarBasis; ScalarBasis]) [1]) = Some (Double, 1) /\
  scalarPaths (PowerBasis 3 ScalarBasis) = [[0]; [1]; [2]].
Proof. repeat split. refine (s_part _ 0 (PowerBasis 3 ScalarBasis) _ (vv_power 3)); reflexivity. Qed.
