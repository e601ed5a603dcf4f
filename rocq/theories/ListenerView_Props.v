(** Property C171: what the listeners of a Newton-Raphson solver are told. *)

From Coq Require Import List Arith ZArith Bool Lia.
From Verif Require Import Newton_Model Newton_Spec.
Import ListNotations.
Local Open Scope Z_scope.

Section View.
  Context {T D R' J C W : Type}.
  Variables (gt : T -> T -> bool) (inf : T) (res : D -> R') (jac : D -> J) (rnorm : R' -> T) (cnorm : C -> T) (lsolve : J -> R' -> C)
    (update : D -> C -> D) (inhomogeneous : option ((D -> R' -> R') * (D -> D))) (listen : nlmsg -> nlinfo T -> C -> D -> W -> W).
  Let idbc : option ((W -> D -> R' -> R') * (D -> D)) := option_map (fun p => (fun _ => fst p, snd p)) inhomogeneous.
  Let solve := nrSolve gt inf (fun _ => res) (fun _ => jac) rnorm cnorm lsolve update idbc listen.

  (** ** Specification: the sequence of a Newton method, from the start x *)
  Definition forcesOf (x : D) : R' := match inhomogeneous with Some (add, _) => add x (res x) | None => res x end.
  Definition synchronised (x : D) : D := match inhomogeneous with Some (_, sync) => sync x | None => x end.
  (** the solution and the right-hand side after k iterations *)
  Fixpoint newton (x : D) (k : nat) : D * R' :=
    match k with
    | O => (x, forcesOf x)
    | S k => let (y, r) := newton x k in let y' := synchronised (update y (lsolve (jac y) r)) in (y', res y')
    end.
  Definition solution (x : D) (k : nat) : D := fst (newton x k).
  Definition correction (x : D) (k : nat) : C := lsolve (jac (solution x k)) (snd (newton x k)).

  (** the norm and the correction of the iteration before, and the number of iterations known before it ends *)
  Definition normBefore (x : D) (k : nat) : T := match k with O => inf | S k => cnorm (correction x k) end.
  Definition correctionBefore (c : C) (x : D) (k : nat) : C := match k with O => c | S k => correction x k end.
  Definition countBefore (k : nat) : Z := match k with O => -1 | _ => Z.of_nat k end.

  (** What is told in iteration k *)
  Definition toldIn (c : C) (x : D) (k : nat) : list (nlmsg * nlinfo T * C * D) :=
    let here := solution x k in let next := solution x (S k) in let dc := correction x k in
    [ (ITERATION_STARTED, mkInfo true (rnorm (res here)) (normBefore x k) (countBefore k), correctionBefore c x k, here);
      (CORRECTION_UPDATED, mkInfo true (rnorm (res here)) (cnorm dc) (countBefore k), dc, here);
      (CORRECTIONNORM_UPDATED, mkInfo true (rnorm (res here)) (cnorm dc) (countBefore k), dc, next);
      (SOLUTION_CHANGED, mkInfo true (rnorm (res here)) (cnorm dc) (countBefore k), dc, next);
      (RESIDUALNORM_UPDATED, mkInfo true (rnorm (res next)) (cnorm dc) (countBefore k), dc, next);
      (ITERATION_ENDED, mkInfo true (rnorm (res next)) (cnorm dc) (Z.of_nat (S k)), dc, next) ].

  Definition toldBy (c : C) (x : D) (n : nat) (success : bool) : list (nlmsg * nlinfo T * C * D) :=
    (INIT, mkInfo false inf inf (-1), c, x) :: flat_map (toldIn c x) (seq 0 n) ++
    if success then [(FINISHED_SUCESSFULLY, mkInfo true (rnorm (res (solution x n))) (normBefore x n) (Z.of_nat n), correctionBefore c x n, solution x n)] else [].

  (** ** Proofs *)
  Lemma emit_eq msg d c i w tr : exists w', emit listen msg (mkNR d c i w tr) = mkNR d c i w' (tr ++ [(msg, i, c, d)]).
  Proof. eexists. reflexivity. Qed.

  Lemma body_eq iter d r c suc r0 c0 it w tr : let cc := lsolve (jac d) r in let d' := synchronised (update d cc) in exists w',
    nrBody (fun _ => res) (fun _ => jac) rnorm cnorm lsolve update idbc listen iter r (jac d) (mkNR d c (mkInfo suc r0 c0 it) w tr) =
    (mkNR d' cc (mkInfo suc (rnorm (res d')) (cnorm cc) (iter + 1)) w'
       (tr ++ [(ITERATION_STARTED, mkInfo suc r0 c0 it, c, d); (CORRECTION_UPDATED, mkInfo suc r0 (cnorm cc) it, cc, d);
               (CORRECTIONNORM_UPDATED, mkInfo suc r0 (cnorm cc) it, cc, d'); (SOLUTION_CHANGED, mkInfo suc r0 (cnorm cc) it, cc, d');
               (RESIDUALNORM_UPDATED, mkInfo suc (rnorm (res d')) (cnorm cc) it, cc, d');
               (ITERATION_ENDED, mkInfo suc (rnorm (res d')) (cnorm cc) (iter + 1), cc, d')]), res d', jac d', rnorm (res d')).
  Proof.
    intros cc d'. unfold nrBody. fold cc.
    destruct (emit_eq ITERATION_STARTED d c (mkInfo suc r0 c0 it) w tr) as (w1 & E1). rewrite E1. cbv zeta. cbn [s_d s_c s_info s_w s_trace i_success i_res i_corr i_iter]. fold cc.
    match goal with |- context [emit listen CORRECTION_UPDATED (mkNR ?a ?b ?c ?d ?e)] => destruct (emit_eq CORRECTION_UPDATED a b c d e) as (w2 & E2); rewrite E2 end.
    cbn [s_d s_c s_info s_w s_trace i_success i_res i_corr i_iter].
    replace (match idbc with None => update d cc | Some (_, sync) => sync (update d cc) end) with d' by (unfold d', synchronised, idbc; destruct inhomogeneous as [[? ?]|]; reflexivity).
    match goal with |- context [emit listen CORRECTIONNORM_UPDATED (mkNR ?a ?b ?c ?d ?e)] => destruct (emit_eq CORRECTIONNORM_UPDATED a b c d e) as (w3 & E3); rewrite E3 end.
    match goal with |- context [emit listen SOLUTION_CHANGED (mkNR ?a ?b ?c ?d ?e)] => destruct (emit_eq SOLUTION_CHANGED a b c d e) as (w4 & E4); rewrite E4 end.
    unfold setInfo. cbn [s_d s_c s_info s_w s_trace i_success i_res i_corr i_iter].
    match goal with |- context [emit listen RESIDUALNORM_UPDATED (mkNR ?a ?b ?c ?d ?e)] => destruct (emit_eq RESIDUALNORM_UPDATED a b c d e) as (w5 & E5); rewrite E5 end.
    cbn [s_d s_c s_info s_w s_trace i_success i_res i_corr i_iter].
    match goal with |- context [emit listen ITERATION_ENDED (mkNR ?a ?b ?c ?d ?e)] => destruct (emit_eq ITERATION_ENDED a b c d e) as (w6 & E6); rewrite E6 end.
    exists w6. rewrite <- !app_assoc. reflexivity.
  Qed.

  Lemma newton_next x k : newton x (S k) = (solution x (S k), res (solution x (S k))) /\ solution x (S k) = synchronised (update (solution x k) (correction x k)).
  Proof. unfold solution, correction. cbn [newton]. destruct (newton x k) as [y r] eqn:E. cbn. split; [reflexivity|]. unfold solution. rewrite E. reflexivity. Qed.

  (** The state at the beginning of iteration k *)
  Lemma loop_told st c x fuel : forall k rn w iter s',
    nrLoop gt (fun _ => res) (fun _ => jac) rnorm cnorm lsolve update idbc listen fuel st (Z.of_nat k) (snd (newton x k)) (jac (solution x k)) rn
      (mkNR (solution x k) (correctionBefore c x k) (mkInfo true (rnorm (res (solution x k))) (normBefore x k) (countBefore k)) w
         ((INIT, mkInfo false inf inf (-1), c, x) :: flat_map (toldIn c x) (seq 0 k))) = Some (iter, s') ->
    exists n w', iter = Z.of_nat n /\
      s' = mkNR (solution x n) (correctionBefore c x n) (mkInfo true (rnorm (res (solution x n))) (normBefore x n) (countBefore n)) w'
         ((INIT, mkInfo false inf inf (-1), c, x) :: flat_map (toldIn c x) (seq 0 n)).
  Proof.
    induction fuel as [|fuel IH]; intros k rn w iter s' H; cbn [nrLoop] in H; destruct (nrCond gt st rn (Z.of_nat k)).
    - discriminate H.
    - injection H as <- <-. exists k, w. auto.
    - destruct (body_eq (Z.of_nat k) (solution x k) (snd (newton x k)) (correctionBefore c x k) true (rnorm (res (solution x k))) (normBefore x k) (countBefore k) w
        ((INIT, mkInfo false inf inf (-1), c, x) :: flat_map (toldIn c x) (seq 0 k))) as (w' & E).
      rewrite E in H. clear E. destruct (newton_next x k) as (N1 & N2). fold (correction x k) in H. rewrite <- N2 in H.
      replace (Z.of_nat k + 1) with (Z.of_nat (S k)) in H by lia.
      apply (IH (S k) (rnorm (res (solution x (S k)))) w'). rewrite N1. cbn [snd].
      rewrite seq_S, flat_map_app. cbn [flat_map]. rewrite app_nil_r. cbn [correctionBefore normBefore countBefore Nat.add]. exact H.
    - injection H as <- <-. exists k, w. auto.
  Qed.

  (** C171: the listeners are told the start, then in every iteration the solution, the correction, their norms and the number of
      iterations at that moment, and at the end, in case of success, the result *)
  Theorem C171_told st x c w s : solve st x c w = Some s ->
    exists n, i_iter (s_info s) = Z.of_nat n /\ s_d s = solution x n /\ s_trace s = toldBy c x n (i_success (s_info s)).
  Proof.
    intros H. unfold solve, nrSolve in H.
    destruct (emit_eq INIT x c (mkInfo false inf inf (-1)) w []) as (w0 & E0).
    assert (St : nrStart inf (fun _ => res) (fun _ => jac) rnorm idbc listen x c w =
      (mkNR (solution x 0) (correctionBefore c x 0) (mkInfo true (rnorm (res (solution x 0))) (normBefore x 0) (countBefore 0)) w0
         ((INIT, mkInfo false inf inf (-1), c, x) :: flat_map (toldIn c x) (seq 0 0)), snd (newton x 0), jac (solution x 0), rnorm (snd (newton x 0)))).
    { unfold nrStart. rewrite E0. cbv zeta. unfold setInfo, idbc, forcesOf, solution. cbn. unfold forcesOf. destruct inhomogeneous as [[? ?]|]; reflexivity. }
    rewrite St in H. clear St. change 0 with (Z.of_nat 0) in H.
    destruct (nrLoop _ _ _ _ _ _ _ _ _ _ _ _ _ _ _ _) as [[iter s']|] eqn:E; [|discriminate].
    destruct (loop_told st c x _ 0%nat _ _ _ _ E) as (n & w' & -> & ->). injection H as <-. exists n.
    unfold nrFinish. cbn [s_info i_success i_res i_corr setInfo]. unfold toldBy.
    destruct (Z.of_nat n =? nr_maxIter st).
    - cbn [setInfo s_info i_iter i_success s_d s_trace s_c s_w]. rewrite app_nil_r. auto.
    - unfold setInfo. cbn [s_d s_c s_info s_w s_trace].
      match goal with |- context [emit listen FINISHED_SUCESSFULLY (mkNR ?a ?b ?c ?d ?e)] => destruct (emit_eq FINISHED_SUCESSFULLY a b c d e) as (w7 & E7); rewrite E7 end.
      cbn [s_info i_iter i_success s_d s_trace]. auto.
  Qed.
End View.

(** ** Cases *)
(** Solving x - 5 = 0 for integers with half of the Newton step, from 0: three iterations *)
Definition halving (maxIter : Z) := nrSolve Z.gtb 1000 (fun _ : nat => fun x => x - 5) (fun _ => fun _ : Z => 2) Z.abs Z.abs (fun j r => - (r / j)) Z.add None
  (fun _ _ _ _ w => S w) (mkNRSettings 0 maxIter 0) 0 77 0%nat.

Example C171_applies : exists s, halving 20 = Some s /\ s_d s = 5 /\ i_success (s_info s) = true /\
  s_trace s = toldBy 1000 (fun x => x - 5) (fun _ => 2) Z.abs Z.abs (fun j r => - (r / j)) Z.add None 77 0 3 true /\
  nth_error (s_trace s) 12 = Some (ITERATION_ENDED, mkInfo true 1 1 2, 1, 4).
Proof. eexists. split; [vm_compute; reflexivity|]. vm_compute. auto. Qed.

(** A listener cannot rely on the flag for success while the solver is running: it is set throughout a solve that fails *)
Theorem C171_success_refuted : ~ (forall (maxIter : Z) s e, halving maxIter = Some s -> In e (s_trace s) ->
  i_success (infoOf e) = true -> i_success (s_info s) = true).
Proof.
  intros H. destruct (halving 1) as [s|] eqn:E; [|vm_compute in E; discriminate E].
  vm_compute in E. injection E as <-. specialize (H 1 _ (ITERATION_ENDED, mkInfo true 2 3 1, 3, 3) ltac:(vm_compute; reflexivity)).
  cbn in H. discriminate H; [|reflexivity]. do 6 right. left. reflexivity.
Qed.

(** With inhomogeneous boundary conditions the first residual norm that is told is not the one of the system that is solved next:
    the forces of the prescribed displacements are missing. Here the norm told is 0, and the solver still iterates. *)
Definition prescribed := nrSolve Z.gtb 1000 (fun _ : nat => fun x => x - 5) (fun _ => fun _ : Z => 1) Z.abs Z.abs (fun j r => - (r / j)) Z.add
  (Some (fun _ _ r => r + 3, fun x => x)) (fun _ _ _ _ w => S w) (mkNRSettings 0 20 0) 5 77 0%nat.

Theorem C171_first_norm_refuted : ~ (forall s e, prescribed = Some s -> In e (s_trace s) -> msgOf e = ITERATION_STARTED -> i_res (infoOf e) > 0).
Proof.
  intros H. destruct prescribed as [s|] eqn:E; [|vm_compute in E; discriminate E].
  vm_compute in E. injection E as <-. specialize (H _ (ITERATION_STARTED, mkInfo true 0 1000 (-1), 77, 5) eq_refl).
  cbn in H. enough (0 > 0) by lia. apply H; [|reflexivity]. right. left. reflexivity.
Qed.

Print Assumptions C171_told.
Print Assumptions C171_success_refuted.
Print Assumptions C171_first_norm_refuted.
