From Coq Require Import List ZArith Bool Lia.
From Verif Require Import Newton_Model Control_Model Control_Spec.
Import ListNotations.
Local Open Scope Z_scope.

Lemma sumIter_app {T} (a b : list (nlinfo T)) : sumIter (a ++ b) = sumIter a + sumIter b.
Proof. unfold sumIter. induction a as [|x a IH]; simpl; [lia|]. rewrite IH. lia. Qed.

Lemma stops_cons {T} (i : nlinfo T) l : i_success i = true -> stopsAtFirstFailure l -> stopsAtFirstFailure (i :: l).
Proof. intros H S [|k] j E L; simpl in *. - inversion E; subst; auto. - apply (S k); auto. lia. Qed.

Lemma stops_single {T} (i : nlinfo T) : stopsAtFirstFailure [i].
Proof. intros k j E L. simpl in L. lia. Qed.

Section Control.
Context {T X W : Type}.
Variable listen : cmsg -> cinfo T -> Z -> T -> X * T -> W -> W.

Lemma stepParams_app (a b : list (cmsg * cinfo T * Z * T * (X * T))) : stepParams (a ++ b) = stepParams a ++ stepParams b.
Proof. unfold stepParams. rewrite filter_app, map_app. auto. Qed.

Lemma updateAndNotify_spec i (s : cState) : let s' := updateAndNotify listen i s in
  k_x s' = k_x s /\ k_p s' = k_p s /\ k_step s' = k_step s /\ k_size s' = k_size s /\
  c_success (k_info s') = c_success (k_info s) /\ c_infos (k_info s') = c_infos (k_info s) ++ [i] /\ c_total (k_info s') = c_total (k_info s) + i_iter i /\
  exists tr, k_trace s' = k_trace s ++ tr /\ map cmsgOf tr = [CSOLUTION_CHANGED; STEP_ENDED] /\ stepParams tr = [k_p s] /\ Forall (fun e => cstepOf e = k_step s) tr.
Proof.
  unfold updateAndNotify, cemit; simpl. repeat split; auto. eexists. rewrite <- app_assoc. split; [reflexivity|]. repeat split; auto. all: repeat constructor.
Qed.

(** What happens from some point on: [l] the solver informations added, [c] the final one. *)
Record Progress (l : list (nlinfo T)) (s s' : cState (T:=T) (X:=X) (W:=W)) (tr : list (cmsg * cinfo T * Z * T * (X * T))) : Prop := {
  pr_infos : c_infos (k_info s') = c_infos (k_info s) ++ l;
  pr_total : c_total (k_info s') = c_total (k_info s) + sumIter l;
  pr_stops : stopsAtFirstFailure l;
  pr_trace : k_trace s' = k_trace s ++ tr;
}.

Variables (tadd : T -> T -> T) (t0 : T).
Variable solve : X -> T -> T -> W -> X * W * nlinfo T.
Variable sync : X -> T -> X.

Lemma addTimes_S p st k : addTimes tadd p st (S k) = addTimes tadd (tadd p st) st k.
Proof. reflexivity. Qed.

Lemma lcLoop_spec st n : forall ls s, c_success (k_info s) = false -> exists l tr, let s' := lcLoop listen tadd solve sync n st ls s in
  Progress l s s' tr /\ (length l <= n)%nat /\
  c_success (k_info s') = forallb i_success l /\ (forallb i_success l = true -> length l = n) /\
  map cmsgOf tr = concat (repeat stepBlock (length l)) ++ (if forallb i_success l then [CONTROL_ENDED] else []) /\
  stepParams tr = map (addTimes tadd (k_p s) st) (seq 1 (length l)) /\
  k_p s' = addTimes tadd (k_p s) st (length l) /\
  (forall e, In e tr -> cmsgOf e = CONTROL_ENDED -> c_success (cinfoOf e) = false).
Proof.
  induction n as [|n IH]; intros ls s Sf.
  - exists [], [(CONTROL_ENDED, k_info s, k_step s, k_size s, (k_x s, k_p s))]. cbn. repeat split; auto.
    + rewrite app_nil_r; auto. + unfold sumIter; simpl; lia. + intros k i E L. destruct k; discriminate.
    + intros e [<-|[]] _. auto.
  - cbn [lcLoop].
    set (s1 := cemit listen STEP_STARTED _).
    assert (k_x s1 = k_x s /\ k_p s1 = k_p s /\ k_info s1 = k_info s /\ exists e, cmsgOf e = STEP_STARTED /\ k_trace s1 = k_trace s ++ [e]) as [A1 [A2 [A3 [e [Me A4]]]]].
    { subst s1. unfold cemit; simpl. repeat split; auto. eexists. split; [|reflexivity]. reflexivity. }
    clearbody s1. cbv zeta. rewrite A1, A2. destruct (solve (k_x s) (tadd (k_p s) st) st (k_w s1)) as [[x w] i].
    set (x' := if i_iter i =? 0 then sync x (tadd (k_p s) st) else x).
    set (s2 := updateAndNotify listen i _).
    assert (k_p s2 = tadd (k_p s) st /\ c_success (k_info s2) = false /\ c_infos (k_info s2) = c_infos (k_info s) ++ [i] /\
       c_total (k_info s2) = c_total (k_info s) + i_iter i /\
       exists tr, k_trace s2 = k_trace s ++ tr /\ map cmsgOf tr = stepBlock /\ stepParams tr = [tadd (k_p s) st]) as [B1 [B2 [B3 [B4 [tr1 [B5 [B6 B7]]]]]]].
    { subst s2. match goal with |- context [updateAndNotify listen i ?s0] => destruct (updateAndNotify_spec i s0) as [_ [H1 [_ [_ [H2 [H3 [H4 [tr [H5 [H6 [H7 _]]]]]]]]]]] end.
      rewrite H1, H2, H3, H4, H5. simpl in *. rewrite A3, A4 in *. repeat split; auto. exists (e :: tr).
      rewrite <- app_assoc. split; [reflexivity|]. split; [simpl; rewrite Me, H6; reflexivity|].
      change (e :: tr) with ([e] ++ tr). rewrite stepParams_app, H7. unfold stepParams; simpl. rewrite Me. reflexivity. }
    clearbody s2. destruct (i_success i) eqn:Si.
    + destruct (IH (ls + 1) s2 B2) as [l [tr [[P1 P2 P3 P4] [L [C1 [C2 [M [Q [K F]]]]]]]]].
      exists (i :: l), (tr1 ++ tr). cbv zeta. split; [|split; [|split; [|split; [|split; [|split; [|split]]]]]].
      * constructor. -- rewrite P1, B3, <- app_assoc; auto. -- rewrite P2, B4. unfold sumIter; simpl. lia.
        -- apply stops_cons; auto. -- rewrite P4, B5, app_assoc; auto.
      * simpl. lia.
      * simpl. rewrite Si. auto.
      * simpl. rewrite Si. simpl. intro H. rewrite (C2 H). auto.
      * rewrite map_app, B6, M. simpl. rewrite Si. auto.
      * rewrite stepParams_app, B7, Q, B1. simpl. f_equal. rewrite <- (seq_shift (length l) 1), map_map. reflexivity.
      * rewrite K, B1. reflexivity.
      * intros e0 He Hm. apply in_app_iff in He as [He|He]; auto.
        exfalso. assert (In (cmsgOf e0) stepBlock) as Hb by (rewrite <- B6; apply in_map; auto). rewrite Hm in Hb. simpl in Hb. intuition discriminate.
    + exists [i], tr1. cbv zeta. simpl. rewrite Si. simpl.
      split. { constructor; auto. -- rewrite B4. unfold sumIter; simpl; lia. -- apply stops_single. }
      split; [lia|]. split; auto. split; [discriminate|]. split; [rewrite B6; reflexivity|]. split; [rewrite B7; reflexivity|]. split; [auto|].
      intros e0 He Hm. exfalso. assert (In (cmsgOf e0) stepBlock) as Hb by (rewrite <- B6; apply in_map; auto).
      rewrite Hm in Hb. simpl in Hb. intuition discriminate.
Qed.

Lemma lcRun_spec n st x p w : exists l1 l tr, let s' := lcRun listen tadd t0 solve sync (n, st) x p w in
  c_infos (k_info s') = l1 :: l /\ k_trace s' = tr /\ stopsAtFirstFailure (l1 :: l) /\ (length l <= Z.to_nat n)%nat /\
  c_total (k_info s') = sumIter (l1 :: l) /\
  c_success (k_info s') = forallb i_success (l1 :: l) /\ (forallb i_success (l1 :: l) = true -> length l = Z.to_nat n) /\
  map cmsgOf tr = cprotocol (S (length l)) (forallb i_success (l1 :: l)) /\
  stepParams tr = p :: map (addTimes tadd p st) (seq 1 (length l)) /\
  k_p s' = addTimes tadd p st (length l) /\
  (forall e, In e tr -> cmsgOf e = CONTROL_ENDED -> c_success (cinfoOf e) = false).
Proof.
  unfold lcRun.
  set (s0 := cemit listen STEP_STARTED _).
  assert (k_x s0 = x /\ k_p s0 = p /\ k_info s0 = mkCInfo false [] 0 /\ map cmsgOf (k_trace s0) = [CONTROL_STARTED; STEP_STARTED] /\ stepParams (k_trace s0) = []) as [A1 [A2 [A3 [A4 A5]]]].
  { subst s0. unfold cemit; simpl. repeat split; auto. }
  clearbody s0. destruct (solve (k_x s0) (k_p s0) t0 (k_w s0)) as [[x1 w1] i].
  set (s1 := updateAndNotify listen i _).
  assert (k_p s1 = p /\ c_success (k_info s1) = false /\ c_infos (k_info s1) = [i] /\ c_total (k_info s1) = i_iter i /\
     map cmsgOf (k_trace s1) = CONTROL_STARTED :: stepBlock /\ stepParams (k_trace s1) = [p]) as [B1 [B2 [B3 [B4 [B6 B7]]]]].
  { subst s1. match goal with |- context [updateAndNotify listen i ?s0] => destruct (updateAndNotify_spec i s0) as [_ [H1 [_ [_ [H2 [H3 [H4 [tr [H5 [H6 [H7 _]]]]]]]]]]] end.
    rewrite H1, H2, H3, H4, H5. simpl in *. rewrite A3 in *. simpl. repeat split; auto; try lia.
    - rewrite map_app, A4, H6. reflexivity. - rewrite stepParams_app, A5, H7, A2. reflexivity. }
  clearbody s1. destruct (i_success i) eqn:Si.
  - match goal with |- context [lcLoop listen tadd solve sync (Z.to_nat n) st 0 ?s2] =>
      assert (k_p s2 = p /\ c_success (k_info s2) = false /\ c_infos (k_info s2) = [i] /\ c_total (k_info s2) = i_iter i /\ k_trace s2 = k_trace s1) as [D1 [D2 [D3 [D4 D5]]]] by (repeat split; auto);
      set (s2' := s2) in *; clearbody s2'; destruct (lcLoop_spec st (Z.to_nat n) 0 s2' D2) as [l [tr [[P1 P2 P3 P4] [L [C1 [C2 [M [Q [K F]]]]]]]]] end.
    exists i, l, (k_trace s1 ++ tr). cbv zeta. split; [rewrite P1, D3; auto|]. split; [rewrite P4, D5; auto|].
    split; [apply stops_cons; auto|]. split; auto. split; [rewrite P2, D4; unfold sumIter; simpl; lia|].
    simpl. rewrite Si. simpl. split; auto. split; auto. split.
    { rewrite map_app, B6, M. unfold cprotocol. simpl. reflexivity. }
    split. { rewrite stepParams_app, B7, Q, D1. reflexivity. }
    split; [rewrite K, D1; auto|].
    intros e He Hm. apply in_app_iff in He as [He|He]; auto. exfalso.
    assert (In (cmsgOf e) (CONTROL_STARTED :: stepBlock)) as Hb by (rewrite <- B6; apply in_map; auto). rewrite Hm in Hb. simpl in Hb. intuition discriminate.
  - exists i, [], (k_trace s1). cbv zeta. simpl. rewrite Si, B3, B4, B2, B7, B1. simpl. repeat split; auto; try lia; try discriminate.
    + apply stops_single. 
    + intros e He Hm. exfalso.
      assert (In (cmsgOf e) (CONTROL_STARTED :: stepBlock)) as Hb by (rewrite <- B6; apply in_map; auto). rewrite Hm in Hb. simpl in Hb. intuition discriminate.
Qed.

(** ** Path following *)
Context {V PF : Type}.
Variable psolve : PF -> X * T -> subArgs T V -> W -> (X * T) * subArgs T V * W * nlinfo T.
Variable initialPrediction : PF -> X * T -> subArgs T V -> W -> PF * (X * T) * subArgs T V.
Variable intermediatePrediction : PF -> X * T -> subArgs T V -> option ((X * T) * subArgs T V).
Variable adaptive : Z -> nlinfo T -> T -> option T.
Variable zeroArgs : X -> subArgs T V.

Notation pfSolve' := (pfSolve listen psolve).
Notation pfLoop' := (pfLoop listen psolve intermediatePrediction adaptive).
Notation pfRun' := (pfRun listen t0 psolve initialPrediction intermediatePrediction adaptive zeroArgs).

Definition resState (r : pfResult (T:=T) (X:=X) (W:=W) (V:=V) (PF:=PF)) : cState := match r with Finished s _ _ => s | Threw s => s end.
Definition finished (r : pfResult (T:=T) (X:=X) (W:=W) (V:=V) (PF:=PF)) : bool := match r with Finished _ _ _ => true | Threw _ => false end.

Lemma pfSolve_spec pf a s : exists s' a' i, pfSolve' pf a s = (s', a', i) /\
  c_success (k_info s') = c_success (k_info s) /\ c_infos (k_info s') = c_infos (k_info s) ++ [i] /\ c_total (k_info s') = c_total (k_info s) + i_iter i /\
  exists tr, k_trace s' = k_trace s ++ tr /\ map cmsgOf tr = [CSOLUTION_CHANGED; STEP_ENDED].
Proof.
  unfold pfSolve. destruct (psolve pf (k_x s, k_p s) a (k_w s)) as [[[req a'] w] i].
  do 3 eexists. split; [reflexivity|].
  match goal with |- context [updateAndNotify listen i ?s0] => destruct (updateAndNotify_spec i s0) as [_ [H1 [_ [_ [H2 [H3 [H4 [tr [H5 [H6 [H7 _]]]]]]]]]]] end.
  rewrite H2, H3, H4, H5. simpl. repeat split; auto. eauto.
Qed.

Lemma pfLoop_spec n : forall ls pf a i0 s, c_success (k_info s) = false -> exists l tr, let r := pfLoop' n ls pf a i0 s in let s' := resState r in
  Progress l s s' tr /\ (length l <= n)%nat /\
  c_success (k_info s') = finished r && forallb i_success l /\ (c_success (k_info s') = true -> length l = n) /\
  (finished r = false -> forallb i_success l = true /\ (length l < n)%nat) /\
  map cmsgOf tr = concat (repeat stepBlock (length l)) ++ (if c_success (k_info s') then [CONTROL_ENDED] else []).
Proof.
  induction n as [|n IH]; intros ls pf a i0 s Sf.
  - exists [], [(CONTROL_ENDED, k_info s, k_step s, k_size s, (k_x s, k_p s))]. cbn. repeat split; auto; try discriminate.
    + rewrite app_nil_r; auto. + unfold sumIter; simpl; lia. + intros k i E L. destruct k; discriminate.
  - cbn [pfLoop]. cbv zeta.
    destruct (adaptive ls i0 (a_stepSize a)) as [st|].
    2:{ exists [], []. cbn. rewrite Sf. repeat split; auto; try discriminate; try lia. + rewrite app_nil_r; auto. + unfold sumIter; simpl; lia.
        + intros k i E L. destruct k; discriminate. + rewrite app_nil_r; auto. }
    cbn [k_x k_p].
    destruct (intermediatePrediction pf (k_x s, k_p s) (withStep a st ls)) as [[req a2]|].
    2:{ exists [], []. cbn. rewrite Sf. repeat split; auto; try discriminate; try lia. + rewrite app_nil_r; auto. + unfold sumIter; simpl; lia.
        + intros k i E L. destruct k; discriminate. + rewrite app_nil_r; auto. }
    set (s2 := cemit listen STEP_STARTED _).
    assert (k_info s2 = k_info s /\ exists e, cmsgOf e = STEP_STARTED /\ k_trace s2 = k_trace s ++ [e]) as [A3 [e [Me A4]]].
    { subst s2. unfold cemit; simpl. repeat split; auto. eexists. split; [|reflexivity]. reflexivity. }
    clearbody s2. destruct (pfSolve_spec pf a2 s2) as [s3 [a3 [i [E [H1 [H2 [H3 [tr1 [H4 H5]]]]]]]]]. rewrite E. rewrite A3 in *. rewrite A4 in *.
    assert (k_trace s3 = k_trace s ++ (e :: tr1)) as B5 by (rewrite H4, <- app_assoc; auto).
    assert (map cmsgOf (e :: tr1) = stepBlock) as B6 by (simpl; rewrite Me, H5; auto).
    destruct (i_success i) eqn:Si.
    + assert (c_success (k_info s3) = false) as B2 by congruence.
      destruct (IH (ls + 1) pf a3 i s3 B2) as [l [tr [[P1 P2 P3 P4] [L [C1 [C2 [C3 M]]]]]]].
      exists (i :: l), ((e :: tr1) ++ tr). split; [|split; [|split; [|split; [|split]]]].
      * constructor. -- rewrite P1, H2, <- app_assoc; auto. -- rewrite P2, H3. unfold sumIter; simpl. lia.
        -- apply stops_cons; auto. -- rewrite P4, B5, app_assoc; auto.
      * simpl. lia.
      * simpl. rewrite Si. auto.
      * intro H. simpl. rewrite (C2 H). auto.
      * intro H. destruct (C3 H) as [Q1 Q2]. simpl. rewrite Si. split; auto. lia.
      * rewrite map_app, B6, M. reflexivity.
    + exists [i], (e :: tr1). simpl. rewrite Si. simpl. rewrite H1, Sf. split; [|split; [|split; [|split; [|split]]]]; auto; try lia; try discriminate.
      * constructor; auto. -- rewrite H3. unfold sumIter; simpl; lia. -- apply stops_single.
Qed.

Lemma pfRun_spec n st pf x p w : 0 < n -> exists l1 l, let r := pfRun' n st pf x p w in let s' := resState r in
  c_infos (k_info s') = l1 :: l /\ stopsAtFirstFailure (l1 :: l) /\ (length l <= Z.to_nat n)%nat /\
  c_total (k_info s') = sumIter (l1 :: l) /\
  c_success (k_info s') = finished r && forallb i_success (l1 :: l) /\
  (c_success (k_info s') = true -> length l = Z.to_nat n) /\
  map cmsgOf (k_trace s') = cprotocol (S (length l)) (c_success (k_info s')).
Proof.
  intro Hn. unfold pfRun. cbv zeta.
  set (s0 := cemit listen STEP_STARTED _).
  assert (k_x s0 = x /\ k_p s0 = p /\ k_info s0 = mkCInfo false [] 0 /\ map cmsgOf (k_trace s0) = [CONTROL_STARTED; STEP_STARTED]) as [A1 [A2 [A3 A4]]].
  { subst s0. unfold cemit; simpl. repeat split; auto. }
  clearbody s0.
  match goal with |- context [pfSolve' pf ?aa s0] => destruct (pfSolve_spec pf aa s0) as [s2 [a2 [i [E [H1 [H2 [H3 [tr1 [H4 H5]]]]]]]]] end. rewrite E.
  rewrite A3 in *. simpl in H1, H2, H3.
  assert (map cmsgOf (k_trace s2) = CONTROL_STARTED :: stepBlock) as B6 by (rewrite H4, map_app, A4, H5; auto).
  destruct (i_success i) eqn:Si.
  - set (s3 := cemit listen STEP_STARTED _).
    assert (k_info s3 = k_info s2 /\ exists e, cmsgOf e = STEP_STARTED /\ k_trace s3 = k_trace s2 ++ [e]) as [C3 [e [Me C4]]].
    { subst s3. unfold cemit; simpl. repeat split; auto. eexists. split; [|reflexivity]. reflexivity. }
    clearbody s3. destruct (initialPrediction pf (k_x s3, k_p s3) a2 (k_w s3)) as [[pf' req] a3].
    match goal with |- context [pfSolve' pf' a3 ?sx] => destruct (pfSolve_spec pf' a3 sx) as [s4 [a4 [i' [E' [G1 [G2 [G3 [tr2 [G4 G5]]]]]]]]] end. rewrite E'.
    simpl in G1, G2, G3, G4. rewrite C3 in *. rewrite H1 in G1. rewrite H2 in G2. rewrite H3 in G3.
    assert (map cmsgOf (k_trace s4) = CONTROL_STARTED :: stepBlock ++ stepBlock) as D6.
    { rewrite G4, C4, !map_app, B6, G5. simpl. rewrite Me. reflexivity. }
    destruct (i_success i') eqn:Si'.
    + destruct (pfLoop_spec (Z.to_nat (n - 1)) 1 pf' a4 i' s4 G1) as [l [tr [[P1 P2 P3 P4] [L [Q1 [Q2 [Q3 M]]]]]]].
      exists i, (i' :: l). split; [rewrite P1, G2; auto|]. split; [apply stops_cons; auto; apply stops_cons; auto|].
      split; [simpl; lia|]. split; [rewrite P2, G3; unfold sumIter; simpl; lia|].
      split. { rewrite Q1. simpl. rewrite Si, Si'. auto. }
      split. { intro H. apply Q2 in H. simpl. lia. }
      rewrite P4, map_app, D6, M. unfold cprotocol. simpl. reflexivity.
    + exists i, [i']. simpl. rewrite Si, Si'. simpl. rewrite G1. split; [auto|]. split; [apply stops_cons; auto; apply stops_single|].
      split; [lia|]. split; [rewrite G3; unfold sumIter; simpl; lia|]. split; auto. split; [discriminate|]. rewrite D6. reflexivity.
  - exists i, []. simpl. rewrite Si. simpl. rewrite H1, H2. split; auto. split; [apply stops_single|]. split; [lia|].
    split; [rewrite H3; unfold sumIter; simpl; lia|]. split; auto. split; [discriminate|]. rewrite B6. reflexivity.
Qed.

End Control.
