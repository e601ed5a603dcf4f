(** C120-C122: what is written to files. *)

From Coq Require Import List Arith Bool String Lia.
From Verif Require Import Output_Model.
Import ListNotations.
Local Open Scope string_scope.

Section Files.
  Context {State V var vec : Type}.
  Variables (read : State -> var -> vec) (interpolate : vec -> V).
  Variable moves : bool.
  Notation field := (field State V).
  Notation writer := (writer State V).

  (** Requests of a user.  A result has a name and a value in every state *)
  Inductive request :=
  | AddResultFunction (rvalue : bool) (name : string) (g : State -> V) (tag : dataTag)
  | AddResult (name : string) (g : State -> V) (tag : dataTag)
  | AddAllResults (results : list (string * (State -> V))) (tag : dataTag)
  | AddInterpolation (c : coefficients (var := var) (vec := vec)) (name : string) (tag : dataTag).

  Definition perform (w : writer) (r : request) : writer :=
    match r with
    | AddResultFunction rv n g t => addResultFunction moves rv w (mkField n (Some g)) t
    | AddResult n g t => addResult moves w (mkField n (Some g)) t
    | AddAllResults l t => addAllResults moves w (map (fun p => mkField (fst p) (Some (snd p))) l) t
    | AddInterpolation c n t => addInterpolation read interpolate w c n t
    end.

  Definition tagOf (r : request) : dataTag :=
    match r with AddResultFunction _ _ _ t => t | AddResult _ _ t => t | AddAllResults _ t => t | AddInterpolation _ _ t => t end.

  (** What the user wants in the file: the fields for cells or points, with the values of the time of writing; interpolations of
      temporary vectors have the values of these *)
  Definition wanted (cell : bool) (t : dataTag) : Prop :=
    if cell then t = asCellData \/ t = asCellAndPointData else t = asPointData \/ t = asCellAndPointData.
  Inductive expected (cell : bool) (s : State) : list request -> list (string * V) -> Prop :=
  | exp_nil : expected cell s [] []
  | exp_skip r rs l : ~ wanted cell (tagOf r) -> expected cell s rs l -> expected cell s (r :: rs) l
  | exp_function rv n g t rs l : wanted cell t -> expected cell s rs l -> expected cell s (AddResultFunction rv n g t :: rs) ((n, g s) :: l)
  | exp_result n g t rs l : wanted cell t -> expected cell s rs l -> expected cell s (AddResult n g t :: rs) ((n, g s) :: l)
  | exp_all rest t rs l : wanted cell t -> expected cell s rs l ->
      expected cell s (AddAllResults rest t :: rs) (map (fun p => (fst p, snd p s)) rest ++ l)
  | exp_variable x n t rs l : wanted cell t -> expected cell s rs l -> expected cell s (AddInterpolation (Lvalue x) n t :: rs) ((n, interpolate (read s x)) :: l)
  | exp_temporary v n t rs l : wanted cell t -> expected cell s rs l -> expected cell s (AddInterpolation (Rvalue v) n t :: rs) ((n, interpolate v) :: l).

  (** Requests that pass a pointer that is used twice *)
  Definition usedTwice (r : request) : Prop :=
    match r with
    | AddResultFunction rv _ _ t => rv = true /\ t = asCellAndPointData
    | AddResult _ _ t => t = asCellAndPointData
    | AddAllResults l t => l <> [] /\ t = asCellAndPointData
    | AddInterpolation _ _ _ => False
    end.

  Lemma evaluateAll_app (s : State) a b : evaluateAll (V := V) s (a ++ b) =
    match evaluateAll s a, evaluateAll s b with Some x, Some y => Some (x ++ y)%list | _, _ => None end.
  Proof.
    induction a as [|[n f] a IH]; cbn [app evaluateAll]; [destruct (evaluateAll s b); reflexivity|]. rewrite IH. cbn.
    destruct f; [|reflexivity]. destruct (evaluateAll s a); [|reflexivity]. destruct (evaluateAll s b); reflexivity.
  Qed.
  Lemma evaluateAll_fields s (l : list (string * (State -> V))) :
    evaluateAll s (map (fun p => mkField (fst p) (Some (snd p))) l) = Some (map (fun p => (fst p, snd p s)) l).
  Proof. induction l as [|[n g] l IH]; [reflexivity|]. cbn. rewrite IH. reflexivity. Qed.

  (** The fields one request adds *)
  Definition appends (w w' : writer) (c p : list field) : Prop := cells w' = (cells w ++ c)%list /\ points w' = (points w ++ p)%list.

  Lemma all_appends (t : dataTag) l : moves = false \/ t <> asCellAndPointData \/ l = [] -> forall w,
    let fs := map (fun p => mkField (fst p) (Some (snd p))) l in
    appends w (addAllResults moves w fs t) (match t with asPointData => [] | _ => fs end) (match t with asCellData => [] | _ => fs end).
  Proof.
    intros H. induction l as [|[n g] l IH]; intros w fs; unfold fs; cbn [map].
    - unfold addAllResults, appends. cbn. destruct t; rewrite ?app_nil_r; auto.
    - unfold addAllResults. cbn [fold_left].
      assert (H' : moves = false \/ t <> asCellAndPointData \/ l = []) by (destruct H as [H|[H|H]]; [left; exact H|right; left; exact H|discriminate]).
      specialize (IH H' (addResult moves w (mkField n (Some g)) t)). cbv zeta in IH. unfold appends, addAllResults in IH |- *.
      destruct IH as (Ic & Ip). cbn [fst snd]. rewrite Ic, Ip. unfold addResult, addResultFunction, forwarded. cbn [fst snd].
      destruct t; cbn; rewrite <- ?app_assoc; cbn; try (split; reflexivity).
      destruct H as [H|[H|H]]; [|congruence|discriminate]. rewrite H. cbn. split; reflexivity.
  Qed.

  Lemma performed r : moves = false \/ ~ usedTwice r -> forall w, exists c p, appends w (perform w r) c p /\
    forall s (cell : bool), exists l, evaluateAll s (if cell then c else p) = Some l /\
      (forall rs m, expected cell s rs m -> expected cell s (r :: rs) (l ++ m)%list).
  Proof.
    intros H w. destruct r as [rv n g t|n g t|l t|c n t]; cbn [perform].
    - exists (match t with asPointData => [] | _ => [mkField n (Some g)] end), (match t with asCellData => [] | _ => [mkField n (Some g)] end). split.
      + unfold appends, addResultFunction, forwarded. destruct t; cbn; rewrite ?app_nil_r; try (split; reflexivity).
        destruct H as [H|H]; [rewrite H, andb_false_r; split; reflexivity|]. destruct rv; [exfalso; apply H; split; reflexivity|]. split; reflexivity.
      + intros s [|]; destruct t; cbn; eexists; (split; [reflexivity|]); intros rs m Hm; cbn;
          first [apply exp_function; [cbn; auto|exact Hm]|apply exp_skip; [cbn; intros [X|X]; discriminate|exact Hm]].
    - exists (match t with asPointData => [] | _ => [mkField n (Some g)] end), (match t with asCellData => [] | _ => [mkField n (Some g)] end). split.
      + unfold appends, addResult, addResultFunction, forwarded. destruct t; cbn; rewrite ?app_nil_r; try (split; reflexivity).
        destruct H as [H|H]; [rewrite H; split; reflexivity|]. exfalso; apply H; reflexivity.
      + intros s [|]; destruct t; cbn; eexists; (split; [reflexivity|]); intros rs m Hm; cbn;
          first [apply exp_result; [cbn; auto|exact Hm]|apply exp_skip; [cbn; intros [X|X]; discriminate|exact Hm]].
    - set (fs := map (fun p => mkField (fst p) (Some (snd p))) l).
      exists (match t with asPointData => [] | _ => fs end), (match t with asCellData => [] | _ => fs end). split.
      + apply (all_appends t l). destruct H as [H|H]; [left; exact H|]. destruct l; [right; right; reflexivity|].
        right. left. intros ->. apply H. split; [discriminate|reflexivity].
      + intros s [|]; destruct t; unfold fs; rewrite ?evaluateAll_fields; cbn [evaluateAll]; eexists; (split; [reflexivity|]); intros rs m Hm;
          first [apply exp_all; [cbn; auto|exact Hm]|apply exp_skip; [cbn; intros [X|X]; discriminate|exact Hm]].
    - set (f := mkField n (Some (makeFunction read interpolate c))).
      exists (match t with asPointData => [] | _ => [f] end), (match t with asCellData => [] | _ => [f] end). split.
      + unfold appends, addInterpolation. fold f. destruct t; cbn; rewrite ?app_nil_r; split; reflexivity.
      + intros s [|]; destruct t, c; cbn; eexists; (split; [reflexivity|]); intros rs m Hm; cbn;
          first [apply exp_variable; [cbn; auto|exact Hm]|apply exp_temporary; [cbn; auto|exact Hm]|apply exp_skip; [cbn; intros [X|X]; discriminate|exact Hm]].
  Qed.

  Lemma performed_all rs : (forall r, In r rs -> moves = false \/ ~ usedTwice r) -> forall w, exists c p, appends w (fold_left perform rs w) c p /\
    forall s (cell : bool), exists l, evaluateAll s (if cell then c else p) = Some l /\ expected cell s rs l.
  Proof.
    induction rs as [|r rs IH]; intros H w.
    - exists [], []. split; [unfold appends; cbn; rewrite !app_nil_r; split; reflexivity|]. intros s []; exists []; split; try reflexivity; constructor.
    - cbn [fold_left]. destruct (performed r (H r (or_introl eq_refl)) w) as (c & p & (A1 & A2) & E). destruct (IH (fun r Hr => H r (or_intror Hr)) (perform w r)) as (c' & p' & (B1 & B2) & F).
      exists (c ++ c')%list, (p ++ p')%list. split; [unfold appends; rewrite B1, B2, A1, A2, !app_assoc; split; reflexivity|].
      intros s cell. destruct (E s cell) as (l & El & Xl). destruct (F s cell) as (m & Em & Xm). exists (l ++ m)%list. split; [|apply Xl, Xm].
      assert (Q : evaluateAll s ((if cell then c else p) ++ (if cell then c' else p')) = Some (l ++ m)%list) by (rewrite evaluateAll_app, El, Em; reflexivity).
      destruct cell; exact Q.
  Qed.

  (** C120: for every sequence of requests and every state at the time of writing, the file has exactly the fields that were asked for,
      in the order of the requests, with the values of the time of writing; unless a result was asked for both as cell and point data
      and the library moves from pointers *)
  Theorem C120_fields_partial rs s : (forall r, In r rs -> moves = false \/ ~ usedTwice r) ->
    exists c p, write (fold_left perform rs (mkWriter [] [])) s = Some (c, p) /\ expected true s rs c /\ expected false s rs p.
  Proof.
    intros H. destruct (performed_all rs H (mkWriter [] [])) as (c & p & (A1 & A2) & E). cbn in A1, A2.
    destruct (E s true) as (l & El & Xl). destruct (E s false) as (m & Em & Xm). exists l, m. unfold write. rewrite A1, A2. cbn in El, Em. rewrite El, Em. auto.
  Qed.

  (** C120: if the library moves from the pointers it is given, a result that is asked for as cell and point data cannot be written *)
  Theorem C120_moved_refuted : moves = true -> forall n g s, write (fold_left perform [AddResult n g asCellAndPointData] (mkWriter [] [])) s = None.
  Proof. intros M n g s. cbn. unfold addResult, addResultFunction, forwarded. rewrite M. reflexivity. Qed.
End Files.

(** C120: the interpolation of the python writer adds point and cell data for every tag *)
Theorem C120_python_refuted : exists tag s c p,
  write (addInterpolationPython (fun (s : unit) (x : unit) => x) (fun v => v) (mkWriter [] []) (Lvalue tt) "u" tag) s = Some (c, p) /\ tag = asPointData /\ c <> [].
Proof. exists asPointData, tt. do 2 eexists. split; [reflexivity|]. split; [reflexivity|discriminate]. Qed.
(** what it does *)
Theorem C120_python_partial {State V var vec : Type} (read : State -> var -> vec) (interpolate : vec -> V) w x n tag s c p :
  write w s = Some (c, p) ->
  write (addInterpolationPython read interpolate w (Lvalue x) n tag) s =
    Some (c ++ [(n, interpolate (read s x))], p ++ [(n, interpolate (read s x))])%list.
Proof.
  unfold write, addInterpolationPython. rewrite !orb_true_r. cbn. destruct (evaluateAll s (cells w)) as [a|] eqn:A; [|discriminate]. destruct (evaluateAll s (points w)) as [b|] eqn:B; [|discriminate].
  intros [= <- <-]. rewrite !evaluateAll_app, A, B. cbn. reflexivity.
Qed.

(** A sequence of requests that meets the hypothesis, and what is written *)
Example C120_example :
  let rs := [AddResult "stress" (fun s : nat => 10 * s) asCellData; AddInterpolation (Lvalue tt) "displacement" asCellAndPointData;
             AddResultFunction false "strain" (fun s => s + 1) asCellAndPointData; AddAllResults [("a", fun s => s); ("b", fun s => 2 * s)] asPointData] in
  (forall r, In r rs -> ~ usedTwice r) /\
  write (fold_left (perform (fun s _ => s) (fun v => 100 + v) true) rs (mkWriter [] [])) 3 =
    Some ([("stress", 30); ("displacement", 103); ("strain", 4)], [("displacement", 103); ("strain", 4); ("a", 3); ("b", 6)]).
Proof.
  cbv zeta. split; [|reflexivity]. intros r [<-|[<-|[<-|[<-|[]]]]] H; cbn in H; try contradiction; try discriminate; destruct H; discriminate.
Qed.
Print Assumptions C120_fields_partial.

Section ControlFiles.
  Context {vec V : Type}.
  Variables (interpolate : vec -> V) (prefix name : string).
  Notation event := (controlMessage * (nat -> vec) * nat)%type.
  Definition changes (h : list event) : list event := filter (fun e => match fst (fst e) with SOLUTION_CHANGED => true | _ => false end) h.

  Lemma run_files h : forall w, 
    map (fun f => fst f) (snd (run interpolate prefix name w h)) = map (fun k => (prefix, k)) (seq (step w) (List.length (changes h))) /\
    (forall k e, nth_error (changes h) k = Some e -> exists fs, nth_error (snd (run interpolate prefix name w h)) k = Some (prefix, step w + k, fs) /\
       fs = map (fun d => (fst d, interpolate (snd (fst e) (snd d)))) (vertexData w ++ map (fun e => (name, snd e)) (firstn (S k) (changes h)))%list).
  Proof.
    induction h as [|[[m mem] x] h IH]; intros w.
    - cbn. split; [reflexivity|]. intros [|k] e; discriminate.
    - cbn [run]. destruct m; cbn [update]; try (cbn [changes filter fst]; fold (changes h); specialize (IH w); destruct (run interpolate prefix name w h) as [w' fs]; cbn [snd app] in IH |- *; exact IH).
      cbn [changes filter fst]; fold (changes h).
      specialize (IH (mkControlWriter (S (step w)) (vertexData w ++ [(name, x)])%list)). destruct (run interpolate prefix name _ h) as [w' fs]. cbn [snd step vertexData] in IH. destruct IH as (I1 & I2).
      cbn [snd app map List.length seq]. rewrite I1. split; [reflexivity|].
      intros [|k] e He.
      + cbn in He. injection He as <-. eexists. split; [cbn; rewrite Nat.add_0_r; reflexivity|]. reflexivity.
      + cbn [nth_error] in He. destruct (I2 k e He) as (gs & G1 & G2). exists gs. split; [cbn [nth_error]; rewrite Nat.add_succ_r; exact G1|]. rewrite G2. rewrite <- app_assoc. reflexivity.
  Qed.

  (** C121: one file is written for every change of the solution and for no other message, numbered consecutively from zero *)
  Theorem C121_files h : map (fun f => fst f) (snd (run interpolate prefix name newControlWriter h)) = map (fun k => (prefix, k)) (seq 0 (List.length (changes h))).
  Proof. exact (proj1 (run_files h newControlWriter)). Qed.

  (** C121: the last field of each file is the solution at the time of the message *)
  Theorem C121_last_field h k e : nth_error (changes h) k = Some e ->
    exists fs, nth_error (snd (run interpolate prefix name newControlWriter h)) k = Some (prefix, k, fs ++ [(name, interpolate (snd (fst e) (snd e)))])%list.
  Proof.
    intros He. destruct (proj2 (run_files h newControlWriter) k e He) as (fs & F1 & F2). cbn [step newControlWriter Nat.add vertexData app] in F1, F2.
    assert (S : firstn (S k) (changes h) = (firstn k (changes h) ++ [e])%list).
    { revert He. generalize (changes h). clear. induction k; intros [|a l] He; cbn in He |- *; try discriminate; [injection He as ->; reflexivity|]. f_equal. apply IHk, He. }
    rewrite S, !map_app in F2. cbn in F2. eexists. rewrite F1, F2. reflexivity.
  Qed.

  (** C121: but there are as many fields as files so far; if all messages refer to the same vector they all show its present value *)
  Theorem C121_one_field_partial h k e x : nth_error (changes h) k = Some e -> (forall e, In e (changes h) -> snd e = x) ->
    exists fs, nth_error (snd (run interpolate prefix name newControlWriter h)) k = Some (prefix, k, fs) /\ List.length fs = S k /\
      forall f, In f fs -> f = (name, interpolate (snd (fst e) x)).
  Proof.
    intros He Hx. destruct (proj2 (run_files h newControlWriter) k e He) as (fs & F1 & F2). cbn [step newControlWriter Nat.add vertexData app] in F1, F2. exists fs. split; [exact F1|]. split.
    - rewrite F2, !map_length, firstn_length. assert (k < List.length (changes h)) by (apply nth_error_Some; congruence). lia.
    - intros f Hf. rewrite F2, map_map in Hf. apply in_map_iff in Hf. destruct Hf as (e' & <- & Hf). cbn. rewrite (Hx e'); [reflexivity|].
      rewrite <- (firstn_skipn (S k) (changes h)). apply in_or_app. left. exact Hf.
  Qed.
End ControlFiles.

Theorem C121_one_field_refuted : exists h : list (controlMessage * (nat -> nat) * nat), exists file,
  nth_error (snd (run (fun v => v) "p" "u" newControlWriter h)) 1 = Some file /\ List.length (snd file) = 2.
Proof.
  exists [(CONTROL_STARTED, fun _ => 0, 0); (SOLUTION_CHANGED, fun _ => 1, 0); (STEP_ENDED, fun _ => 1, 0); (SOLUTION_CHANGED, fun _ => 2, 0)]. eexists. split; reflexivity.
Qed.
Example C121_example : snd (run (fun v : nat => v) "p" "u" newControlWriter
  [(CONTROL_STARTED, fun _ => 0, 0); (SOLUTION_CHANGED, fun _ => 1, 0); (STEP_ENDED, fun _ => 1, 0); (SOLUTION_CHANGED, fun _ => 2, 0)]) =
  [("p", 0, [("u", 1)]); ("p", 1, [("u", 2); ("u", 2)])].
Proof. reflexivity. Qed.
Print Assumptions C121_last_field.

Section Elements.
  Context {geometry FE Req P R : Type}.
  Variable sameGeometry : geometry -> geometry -> bool.
  Hypothesis sameGeometry_ok : forall a b, sameGeometry a b = true <-> a = b.
  Variable calculateAt : FE -> Req -> P -> list R.

  Lemma filter_shorter {T} (f : T -> bool) l : List.length (filter f l) <= List.length l.
  Proof. induction l as [|a l IH]; cbn; [lia|]. destruct (f a); cbn; lia. Qed.
  Lemma firstn_all_same t l : (forall x, In x l -> x = t) -> filter (sameGeometry t) l = l.
  Proof. induction l as [|a l IH]; intros H; [reflexivity|]. cbn. rewrite (proj2 (sameGeometry_ok t a)); [f_equal; apply IH; intros; apply H; right; assumption|]. symmetry. apply H. left. reflexivity. Qed.

  (** C122: the finite element that is asked is that of the element, for all elements, exactly if all elements have the same geometry type *)
  Theorem C122_element_partial (types : list geometry) :
    (forall p, p < List.length types -> index sameGeometry types p = p) <-> (forall a b, In a types -> In b types -> a = b).
  Proof.
    split.
    - intros H. assert (K : forall p t u, nth_error types 0 = Some t -> nth_error types p = Some u -> u = t).
      { intros p t u H0 Hp. assert (L : p < List.length types) by (apply nth_error_Some; congruence). specialize (H p L). unfold index in H. rewrite Hp in H.
        destruct types as [|a l]; [discriminate|]. cbn in H0. injection H0 as ->. destruct p as [|p]; [cbn in Hp; congruence|].
        cbn [firstn filter] in H. destruct (sameGeometry u t) eqn:E; [apply sameGeometry_ok, E|]. exfalso.
        assert (B : List.length (filter (sameGeometry u) (firstn p l)) <= p). { eapply Nat.le_trans; [apply filter_shorter|rewrite firstn_length; lia]. } lia. }
      intros a b Ha Hb. destruct types as [|t l]; [destruct Ha|]. apply In_nth_error in Ha. apply In_nth_error in Hb. destruct Ha as (i & Ha). destruct Hb as (j & Hb).
      rewrite (K i t a eq_refl Ha), (K j t b eq_refl Hb). reflexivity.
    - intros H p Hp. unfold index. destruct (nth_error types p) as [t|] eqn:E; [|apply nth_error_None in E; lia].
      rewrite firstn_all_same; [rewrite firstn_length; lia|]. intros x Hx. apply H; [rewrite <- (firstn_skipn p types); apply in_or_app; left; exact Hx|]. apply nth_error_In in E. exact E.
  Qed.

  (** C122: with one geometry type, every component that exists at an element is the one of this element, for the requirement at the
      time of evaluation; and all components up to ncomps can be evaluated if all elements have the same number of components *)
  Theorem C122_value_partial types fes req comp p local fe v : (forall a b, In a types -> In b types -> a = b) -> List.length fes = List.length types ->
    nth_error fes p = Some fe -> nth_error (calculateAt fe req local) comp = Some v -> evaluate sameGeometry calculateAt types fes req comp p local = Value v.
  Proof.
    intros H L Hf Hv. unfold evaluate. rewrite (proj2 (C122_element_partial types) H p); [rewrite Hf, Hv; reflexivity|]. rewrite <- L. apply nth_error_Some. congruence.
  Qed.
  Theorem C122_components types fes req zero n : ncomps calculateAt zero fes req = Value n ->
    (forall fe fe' x x', In fe fes -> In fe' fes -> List.length (calculateAt fe req x) = List.length (calculateAt fe' req x')) ->
    List.length fes = List.length types -> forall comp p local, p < List.length types -> comp < n -> exists v, evaluate sameGeometry calculateAt types fes req comp p local = Value v.
  Proof.
    unfold ncomps. intros Hn Hs L comp p local Hp Hc. destruct (nth_error fes 0) as [fe0|] eqn:E0; [|discriminate]. injection Hn as <-. unfold evaluate.
    assert (I : index sameGeometry types p <= p).
    { unfold index. destruct (nth_error types p); [|lia]. eapply Nat.le_trans; [apply filter_shorter|rewrite firstn_length; lia]. }
    destruct (nth_error fes (index sameGeometry types p)) as [fe|] eqn:E; [|apply nth_error_None in E; lia].
    destruct (nth_error (calculateAt fe req local) comp) as [v|] eqn:Ev; [exists v; reflexivity|]. apply nth_error_None in Ev. exfalso.
    rewrite (Hs fe fe0 local zero (nth_error_In _ _ E) (nth_error_In _ _ E0)) in Ev. lia.
  Qed.
  (** C122: without elements the number of components cannot be asked for *)
  Theorem C122_no_elements zero req : ncomps calculateAt zero [] req = OutOfRange.
  Proof. reflexivity. Qed.
End Elements.

(** C122: on a grid with triangles and quadrilaterals the results of another element are written *)
Theorem C122_mixed_refuted : exists (types : list bool) (fes : list nat) p, nth_error fes p = Some 20 /\
  evaluate Bool.eqb (fun fe (_ _ : unit) => [fe]) types fes tt 0 p tt = Value 10.
Proof. exists [false; true], [10; 20], 1. split; reflexivity. Qed.
Example C122_example : evaluate Bool.eqb (fun fe (_ _ : unit) => [fe; fe + 1]) [true; true; true] [10; 20; 30] tt 1 2 tt = Value 31.
Proof. reflexivity. Qed.
Print Assumptions C122_element_partial.
Print Assumptions C122_components.
