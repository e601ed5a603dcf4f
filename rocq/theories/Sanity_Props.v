(** What a user relies on: tensor product quadrature (C129), polynomial fits (C130) and the checks of derivatives (C131). *)

From Coq Require Import List Reals Bool Arith ZArith Lra Lia Psatz.
From Verif Require Import Utils_Model Utils_Proofs Sanity_Model.
Import ListNotations.
Local Open Scope R_scope.

(** ** C129 *)

(** What a rule gives for a function *)
Definition integrate {X} (rule : list (X * R)) (f : X -> R) : R := fold_right (fun p s => snd p * f (fst p) + s) 0 rule.

Lemma integrate_app {X} (l1 l2 : list (X * R)) f : integrate (l1 ++ l2) f = integrate l1 f + integrate l2 f.
Proof. unfold integrate. induction l1 as [|p l1 IH]; cbn [app fold_right]; [ring|]. rewrite IH. ring. Qed.

(** The rule gives for every function what the base rule gives for the results of the one-dimensional rule *)
Theorem C129_iterated : forall base oned f, integrate (tensorProduct base oned) f = integrate base (fun x => integrate oned (fun z => f (x ++ [z]))).
Proof.
  intros base oned f. unfold tensorProduct. induction base as [|[x w] base IH]; [reflexivity|]. cbn [flat_map]. rewrite integrate_app, IH. clear IH.
  transitivity (w * integrate oned (fun z => f (x ++ [z])) + integrate base (fun x => integrate oned (fun z => f (x ++ [z])))); [|reflexivity]. f_equal.
  unfold integrate. cbn [fst snd]. induction oned as [|[z v] oned IH]; cbn [map fold_right fst snd]; [ring|]. rewrite IH. ring.
Qed.

(** If both rules are exact for a class of functions, so is the product for the functions that are in the second class along the new direction and
    whose integrals in this direction are in the first class. *)
Theorem C129_exact : forall base oned (P : (list R -> R) -> Prop) (Q : (R -> R) -> Prop) (Ib : (list R -> R) -> R) (I1 : (R -> R) -> R),
  (forall g, P g -> integrate base g = Ib g) -> (forall g, Q g -> integrate oned g = I1 g) ->
  forall f, (forall x, Q (fun z => f (x ++ [z]))) -> P (fun x => I1 (fun z => f (x ++ [z]))) ->
  integrate (tensorProduct base oned) f = Ib (fun x => I1 (fun z => f (x ++ [z]))).
Proof.
  intros base oned P Q Ib I1 Eb E1 f Hq Hp. rewrite C129_iterated, <- (Eb _ Hp). clear - E1 Hq. unfold integrate at 1 3. induction base as [|p base IH]; cbn [fold_right]; auto.
  rewrite IH, (E1 _ (Hq (fst p))). reflexivity.
Qed.

(** All pairs of points, those of the one-dimensional rule running fastest; the weights are the products *)
Theorem C129_points : forall base oned i j, (i < length base)%nat -> (j < length oned)%nat ->
  length (tensorProduct base oned) = (length base * length oned)%nat /\
  nth (i * length oned + j) (tensorProduct base oned) ([], 0) =
    (fst (nth i base ([], 0)) ++ [fst (nth j oned (0, 0))], snd (nth i base ([], 0)) * snd (nth j oned (0, 0))).
Proof.
  intros base oned i j Hi Hj. unfold tensorProduct. split.
  - clear. induction base as [|b base IH]; cbn [flat_map length]; auto. rewrite app_length, map_length, IH. lia.
  - revert i Hi. induction base as [|b base IH]; intros i Hi; cbn [length] in Hi; [lia|]. cbn [flat_map]. destruct i as [|i].
    + cbn [Nat.mul Nat.add]. rewrite app_nth1 by (rewrite map_length; lia).
      rewrite (nth_indep _ _ (fst b ++ [fst (0, 0)], snd b * snd (0, 0))) by (rewrite map_length; lia).
      rewrite (map_nth (fun o => (fst b ++ [fst o], snd b * snd o))). reflexivity.
    + rewrite app_nth2 by (rewrite map_length; lia). rewrite map_length. replace (S i * length oned + j - length oned)%nat with (i * length oned + j)%nat by lia.
      rewrite IH by lia. reflexivity.
Qed.

(** Midpoint rule on the square times the two-point trapezium rule *)
(** The order for a number of points: a Gauss-Legendre rule with n points is exact up to degree 2n-1, so that a rule of order p has p/2 + 1 points.
    The rule of the returned order has the given number of points, and no higher order has. *)
Definition gaussPoints (order : Z) : Z := (order / 2 + 1)%Z.
Theorem C129_order : forall n, (1 <= n)%Z -> gaussPoints (orderOfPoints n) = n /\ forall p, gaussPoints p = n -> (p <= orderOfPoints n)%Z.
Proof.
  intros n Hn. unfold gaussPoints, orderOfPoints. split.
  - replace (2 * n - 1)%Z with (1 + (n - 1) * 2)%Z by lia. rewrite Z.div_add by lia. change (1 / 2)%Z with 0%Z. lia.
  - intros p E. assert (p / 2 = n - 1)%Z by lia. pose proof (Z.mul_div_le p 2 ltac:(lia)). pose proof (Z.mod_pos_bound p 2 ltac:(lia)). pose proof (Z.div_mod p 2 ltac:(lia)). lia.
Qed.

Example C129_example : tensorProduct [([1/2; 1/2], 1)] [(0, 1/2); (1, 1/2)] = [([1/2; 1/2; 0], 1 * (1/2)); ([1/2; 1/2; 1], 1 * (1/2))] /\
  integrate (tensorProduct [([1/2; 1/2], 1)] [(0, 1/2); (1, 1/2)]) (fun x => nth 0 x 0 * nth 2 x 0) = 1/4.
Proof. split; [reflexivity|]. cbn. lra. Qed.

(** ** C130 *)

(** The polynomial with the given coefficients, lowest first; the sum of the squared distances from the data *)
Fixpoint peval (c : list R) (x : R) : R := match c with [] => 0 | a :: c => a + x * peval c x end.
Definition squares (c x y : list R) : R := fold_right (fun p s => (peval c (fst p) - snd p) ^ 2 + s) 0 (combine x y).

(** The contract of the QR decomposition: a least squares solution *)
Definition leastSquares (lsq : list (list R) -> list R -> list R) : Prop :=
  forall A y m, A <> [] -> length A = length y -> Forall (fun row => length row = m) A ->
  length (lsq A y) = m /\ forall c, length c = m -> norm (minus (mulVec A (lsq A y)) y) <= norm (minus (mulVec A c) y).

Lemma powers_length x : forall n p, length (powers x p n) = n.
Proof. induction n; intro p; cbn; auto. Qed.
Lemma powers_dot x : forall c p, dot (powers x p (length c)) c = p * peval c x.
Proof. unfold dot. induction c as [|a c IH]; intro p; cbn in *; [ring|]. rewrite IH. ring. Qed.
Lemma residual_squares deg : forall x y c, length x = length y -> length c = S deg ->
  dot (minus (mulVec (vandermonde x deg) c) y) (minus (mulVec (vandermonde x deg) c) y) = squares c x y.
Proof.
  intros x y c L Lc. unfold squares, vandermonde, mulVec, minus, dot. revert y L. induction x as [|a x IH]; intros [|b y] L; try discriminate; [reflexivity|].
  cbn [map combine fold_right fst snd]. rewrite IH by (cbn in L; congruence). f_equal.
  change (fold_right Rplus 0 (map (fun ab => fst ab * snd ab) (combine (powers a 1 (S deg)) c))) with (dot (powers a 1 (S deg)) c).
  rewrite <- Lc, powers_dot. ring.
Qed.
Lemma squares_nonneg c x y : 0 <= squares c x y.
Proof. unfold squares. induction (combine x y) as [|p l IH]; cbn [fold_right]; [lra|]. pose proof (pow2_ge_0 (peval c (fst p) - snd p)). lra. Qed.

Lemma fit_min lsq : leastSquares lsq -> forall x y deg, x <> [] -> length x = length y ->
  length (fst (polyfit lsq x y deg)) = S deg /\ snd (polyfit lsq x y deg) = sqrt (squares (fst (polyfit lsq x y deg)) x y) /\
  forall c, length c = S deg -> squares (fst (polyfit lsq x y deg)) x y <= squares c x y.
Proof.
  intros H x y deg Ne L. unfold polyfit. cbn [fst snd]. destruct (H (vandermonde x deg) y (S deg)) as [Hl Hm].
  { unfold vandermonde. destruct x; [contradiction|discriminate]. }
  { unfold vandermonde. rewrite map_length. auto. }
  { unfold vandermonde. apply Forall_map, Forall_forall. intros. apply powers_length. }
  split; auto. unfold norm in *. rewrite residual_squares by auto. split; auto. intros c Hc. specialize (Hm c Hc).
  rewrite !residual_squares in Hm by auto. apply sqrt_le_0; auto using squares_nonneg.
Qed.

(** The fit has the degree asked for, no polynomial of this degree is closer to the data, and the error is the distance. *)
Theorem C130_least_squares : forall lsq, leastSquares lsq -> forall x y deg, x <> [] -> length x = length y ->
  let '(c, e) := polyfit lsq x y deg in
  length c = S deg /\ e = sqrt (squares c x y) /\ forall c', length c' = S deg -> squares c x y <= squares c' x y.
Proof. intros lsq H x y deg Ne L. generalize (fit_min lsq H x y deg Ne L). destruct (polyfit lsq x y deg). auto. Qed.

(** Division by (x - r) *)
Fixpoint quot (c : list R) (r : R) : list R := match c with [] => [] | _ :: c => match c with [] => [] | _ => peval c r :: quot c r end end.
Lemma quot_spec r x : forall c, peval c x = peval c r + (x - r) * peval (quot c r) x.
Proof.
  induction c as [|a c IH]; cbn [peval quot]; [ring|]. destruct c as [|b c]; [cbn; ring|]. cbn [peval]. cbn [peval] in IH. rewrite IH at 1. ring.
Qed.
Lemma quot_length r : forall c, length (quot c r) = pred (length c).
Proof. induction c as [|a c IH]; auto. destruct c as [|b c]; auto. cbn [quot length] in *. cbn [quot] in IH. rewrite IH. reflexivity. Qed.
Lemma quot_zero r : forall c, peval c r = 0 -> Forall (eq 0) (quot c r) -> Forall (eq 0) c.
Proof.
  induction c as [|a c IH]; intros E H; constructor.
  - destruct c as [|b c]; [cbn in E; lra|]. cbn [quot] in H. apply Forall_inv in H. cbn [peval] in E, H. rewrite <- H in E. lra.
  - destruct c as [|b c]; auto. change (quot (a :: b :: c) r) with (peval (b :: c) r :: quot (b :: c) r) in H. apply IH; [symmetry; exact (Forall_inv H)|exact (Forall_inv_tail H)].
Qed.
Lemma roots_zero : forall xs c, NoDup xs -> (length c <= length xs)%nat -> (forall x, In x xs -> peval c x = 0) -> Forall (eq 0) c.
Proof.
  induction xs as [|r xs IH]; intros c Nd Lc H.
  - destruct c; [constructor|cbn in Lc; lia].
  - apply (quot_zero r); [apply H; left; auto|]. inversion Nd as [|? ? Ni Nd']; subst. apply IH; auto.
    + rewrite quot_length. cbn [length] in Lc. lia.
    + intros x Hx. assert (x <> r) as Ne by (intro; subst; contradiction). generalize (quot_spec r x c). rewrite (H x), (H r) by (cbn; auto). intro E.
      assert ((x - r) * peval (quot c r) x = 0) as E' by lra. apply Rmult_integral in E'. destruct E'; [lra|auto].
Qed.
Lemma peval_sub : forall c d x, length c = length d -> peval (minus c d) x = peval c x - peval d x.
Proof. unfold minus. induction c as [|a c IH]; intros [|b d] x L; try discriminate; cbn in *; [ring|]. rewrite IH by congruence. ring. Qed.
Lemma minus_zero : forall c d, length c = length d -> Forall (eq 0) (minus c d) -> c = d.
Proof.
  unfold minus. induction c as [|a c IH]; intros [|b d] L H; try discriminate; auto. cbn in H. f_equal; [apply Forall_inv in H; lra|]. apply IH; [cbn in L; congruence|]. exact (Forall_inv_tail H).
Qed.
Lemma squares_zero c : forall x y, length x = length y -> squares c x y = 0 -> y = map (peval c) x.
Proof.
  unfold squares. induction x as [|a x IH]; intros [|b y] L E; try discriminate; auto. cbn [combine fold_right map fst snd] in *.
  change (fold_right (fun p s => (peval c (fst p) - snd p) ^ 2 + s) 0 (combine x y)) with (squares c x y) in *.
  pose proof (squares_nonneg c x y). pose proof (pow2_ge_0 (peval c a - b)). f_equal; [|apply IH; [cbn in L; congruence|unfold squares in *; lra]].
  assert ((peval c a - b) ^ 2 = 0) as E2 by lra. assert (peval c a - b = 0) by nra. lra.
Qed.
Lemma squares_self c : forall x, squares c x (map (peval c) x) = 0.
Proof. unfold squares. induction x as [|a x IH]; cbn [map combine fold_right fst snd]; auto. rewrite IH. ring. Qed.

Lemma fit_exact lsq : leastSquares lsq -> forall c x xs, NoDup xs -> incl xs x -> (1 <= length c <= length xs)%nat ->
  polyfit lsq x (map (peval c) x) (pred (length c)) = (c, 0).
Proof.
  intros H c x xs Nd In Lc. destruct (fit_min lsq H x (map (peval c) x) (pred (length c))) as [L [E M]]; [|rewrite map_length; auto|].
  { destruct xs as [|t xs]; [cbn in Lc; lia|]. intro; subst. exact (In t (or_introl eq_refl)). }
  destruct (polyfit lsq x (map (peval c) x) (pred (length c))) as [c' e]. cbn [fst snd] in *. specialize (M c ltac:(lia)). rewrite squares_self in M.
  pose proof (squares_nonneg c' x (map (peval c) x)). assert (squares c' x (map (peval c) x) = 0) as Z by lra. rewrite Z, sqrt_0 in E. subst e. f_equal.
  apply squares_zero in Z; [|rewrite map_length; auto]. apply minus_zero; [lia|]. apply (roots_zero xs); auto.
  { unfold minus. rewrite map_length, combine_length. lia. }
  intros t Ht. rewrite peval_sub by lia. apply In in Ht. clear - Z Ht. induction x as [|a x IH]; [destruct Ht|]. cbn [map] in Z. inversion Z. destruct Ht as [->|Ht]; [lra|auto].
Qed.

(** Data on a polynomial are reproduced, given as many different points as coefficients. *)
Theorem C130_reproduces : forall lsq, leastSquares lsq -> forall c x xs, NoDup xs -> incl xs x -> (1 <= length c <= length xs)%nat ->
  polyfit lsq x (map (peval c) x) (pred (length c)) = (c, 0).
Proof. exact fit_exact. Qed.

(** The contract can be met: Gram-Schmidt, column by column *)
Fixpoint gs (n : nat) (A : list (list R)) (y : list R) : list R :=
  match n with
  | O => []
  | S n => let a := map (hd 0) A in let B := map (@tl R) A in let ra := minus a (mulVec B (gs n B a)) in
    if Req_EM_T (dot ra ra) 0 then 0 :: gs n B y
    else let c := dot ra y / dot ra ra in c :: gs n B (minus y (map (Rmult c) a))
  end.
Lemma gs_length : forall n A y, length (gs n A y) = n.
Proof. induction n; intros A y; cbn [gs]; auto. destruct (Req_EM_T _ 0); cbn [length]; rewrite IHn; auto. Qed.
Lemma dot_sym : forall a b, dot a b = dot b a.
Proof. unfold dot. induction a as [|x a IH]; intros [|y b]; cbn; auto. rewrite IH. ring. Qed.
Lemma dot_minus : forall a b c, length a = length b -> length b = length c -> dot (minus a b) c = dot a c - dot b c.
Proof. unfold dot, minus. induction a as [|x a IH]; intros [|y b] [|z c] L1 L2; try discriminate; cbn; [ring|]. rewrite IH by (cbn in *; congruence). ring. Qed.
Lemma dot_scale k : forall a b, dot (map (Rmult k) a) b = k * dot a b.
Proof. unfold dot. induction a as [|x a IH]; intros [|y b]; cbn; try ring. rewrite IH. ring. Qed.
Lemma minus_length a b : length a = length b -> length (minus a b) = length a.
Proof. intro L. unfold minus. rewrite map_length, combine_length. lia. Qed.
Lemma dot_self_zero : forall a, dot a a = 0 -> forall b, dot a b = 0.
Proof.
  assert (forall a, 0 <= dot a a) as P. { unfold dot. induction a as [|x a IH]; cbn; [lra|]. nra. }
  induction a as [|x a IH]; intros E [|y b]; auto. unfold dot in *. cbn in *. specialize (P a). unfold dot in P. assert (x = 0) by nra. subst. rewrite IH by nra. ring.
Qed.
Lemma dot_nonneg a : 0 <= dot a a.
Proof. unfold dot. induction a as [|x a IH]; cbn; [lra|]. nra. Qed.
Lemma dot_column n : forall A z k v, Forall (fun row => length row = S n) A -> length z = length A ->
  dot z (mulVec A (k :: v)) = k * dot z (map (hd 0) A) + dot z (mulVec (map (@tl R) A) v).
Proof.
  induction A as [|row A IH]; intros [|x z] k v F L; try discriminate; [unfold dot; cbn; ring|]. unfold dot, mulVec in *. cbn [map combine fold_right fst snd]. rewrite IH; [|exact (Forall_inv_tail F)|cbn in L; congruence].
  pose proof (Forall_inv F) as Hr. destruct row as [|r row]; [discriminate|]. cbn. ring.
Qed.
Lemma mulVec_length A c : length (mulVec A c) = length A.
Proof. unfold mulVec. apply map_length. Qed.

Lemma gs_orthogonal : forall n A y v, Forall (fun row => length row = n) A -> length y = length A -> length v = n ->
  dot (minus y (mulVec A (gs n A y))) (mulVec A v) = 0.
Proof.
  induction n as [|n IH]; intros A y v F Ly Lv.
  - destruct v; [|discriminate]. rewrite dot_sym. clear - F. revert y. unfold dot. induction A as [|row A IH]; intro y; [reflexivity|].
    pose proof (Forall_inv F) as Hr. destruct row; [|discriminate]. destruct y as [|b y]; [reflexivity|]. unfold mulVec, minus in *. cbn [map combine fold_right fst snd].
    rewrite IH by exact (Forall_inv_tail F). unfold dot. cbn. ring.
  - destruct v as [|k v]; [discriminate|]. assert (length v = n) as Lv' by (cbn in Lv; congruence). cbn [gs].
    set (a := map (hd 0) A). set (B := map (@tl R) A). set (ra := minus a (mulVec B (gs n B a))).
    assert (Forall (fun row => length row = n) B) as FB. { unfold B. apply Forall_map. eapply Forall_impl; [|exact F]. intros [|r row] Hr; cbn in *; congruence. }
    assert (length a = length A) as La by (unfold a; apply map_length). assert (length B = length A) as LB by (unfold B; apply map_length).
    assert (forall w, length w = n -> dot ra (mulVec B w) = 0) as Ora by (intros w Hw; apply IH; auto; congruence).
    assert (length ra = length A) as Lra by (unfold ra; rewrite minus_length; [auto|rewrite mulVec_length; congruence]).
    assert (forall z, length z = length A -> dot z a = dot ra z + dot z (mulVec B (gs n B a))) as Ea.
    { intros z Hz. unfold ra. rewrite dot_minus, (dot_sym a z), (dot_sym (mulVec B _) z); [ring|rewrite mulVec_length; congruence|rewrite mulVec_length; congruence]. }
    destruct (Req_EM_T (dot ra ra) 0) as [E|E]; cbv zeta.
    + set (r := minus y (mulVec A (0 :: gs n B y))). assert (length r = length A) as Lr by (unfold r; rewrite minus_length; [auto|rewrite mulVec_length; auto]).
      assert (forall w, length w = n -> dot r (mulVec B w) = 0) as Or.
      { intros w Hw. unfold r. rewrite dot_minus by (rewrite ?mulVec_length; congruence). rewrite (dot_sym (mulVec A _)), (dot_column n) by (auto; rewrite mulVec_length; auto).
        fold a B. generalize (IH B y w FB ltac:(congruence) Hw). rewrite dot_minus by (rewrite ?mulVec_length; congruence). rewrite (dot_sym (mulVec B w) (mulVec B (gs n B y))). lra. }
      rewrite (dot_column n) by auto. fold a B. rewrite (Or v Lv'), (Ea r Lr), (Or _ (gs_length _ _ _)), (dot_self_zero ra E). ring.
    + set (c := dot ra y / dot ra ra). set (g := gs n B (minus y (map (Rmult c) a))). set (r := minus y (mulVec A (c :: g))).
      assert (length r = length A) as Lr by (unfold r; rewrite minus_length; [auto|rewrite mulVec_length; auto]).
      assert (forall z, length z = length A -> dot r z = dot y z - c * dot a z - dot (mulVec B g) z) as Er.
      { intros z Hz. unfold r. rewrite dot_minus by (rewrite ?mulVec_length; congruence). rewrite (dot_sym (mulVec A _)), (dot_column n) by auto. fold a B. rewrite (dot_sym z a), (dot_sym z (mulVec B g)). ring. }
      assert (forall w, length w = n -> dot r (mulVec B w) = 0) as Or.
      { intros w Hw. rewrite Er by (rewrite mulVec_length; auto). assert (length (minus y (map (Rmult c) a)) = length A) as Lm by (rewrite minus_length; rewrite ?map_length; congruence).
        generalize (IH B (minus y (map (Rmult c) a)) w FB ltac:(congruence) Hw). fold g. rewrite dot_minus by (rewrite ?mulVec_length; congruence).
        rewrite dot_minus by (rewrite ?map_length, ?mulVec_length; congruence). rewrite dot_scale. lra. }
      rewrite (dot_column n) by auto. fold a B. rewrite (Or v Lv'), (Ea r Lr), (Or _ (gs_length _ _ _)), (dot_sym ra r), (Er ra Lra).
      rewrite (dot_sym (mulVec B g)), (Ora g (gs_length _ _ _)), (dot_sym a ra), (Ea ra Lra), (Ora _ (gs_length _ _ _)), (dot_sym y ra). unfold c. field. auto.
Qed.
Lemma mulVec_minus n : forall A c d, Forall (fun row => length row = n) A -> length c = n -> length d = n -> mulVec A (minus c d) = minus (mulVec A c) (mulVec A d).
Proof.
  intros A c d F Lc Ld. unfold mulVec at 1. unfold minus at 2. unfold mulVec. induction F as [|row A Hr F IH]; [reflexivity|]. cbn [map combine fst snd]. rewrite IH. f_equal.
  rewrite (dot_sym row), dot_minus by congruence. rewrite (dot_sym c), (dot_sym d). reflexivity.
Qed.
Lemma norm_minus_sym : forall a b, norm (minus a b) = norm (minus b a).
Proof. intros a b. unfold norm. f_equal. unfold dot, minus. revert b. induction a as [|x a IH]; intros [|y b]; cbn; auto. rewrite IH. ring. Qed.
Example C130_contract_example : exists lsq, leastSquares lsq.
Proof.
  exists (fun A y => gs (length (hd [] A)) A y). intros A y m Ne L F. assert (length (hd [] A) = m) as -> by (destruct A; [contradiction|exact (Forall_inv F)]).
  split; [apply gs_length|]. intros c Hc. set (g := gs m A y). assert (length g = m) as Lg by apply gs_length. rewrite (norm_minus_sym _ y), (norm_minus_sym _ y). unfold norm.
  apply sqrt_le_1_alt. set (r := minus y (mulVec A g)). set (q := minus y (mulVec A c)).
  assert (length r = length A) as Lr by (unfold r; rewrite minus_length; rewrite ?mulVec_length; congruence).
  assert (length q = length A) as Lq by (unfold q; rewrite minus_length; rewrite ?mulVec_length; congruence).
  pose proof (gs_orthogonal m A y (minus g c) F (eq_sym L) ltac:(rewrite minus_length; congruence)) as O. fold g r in O. rewrite (mulVec_minus m) in O by auto.
  pose proof (dot_nonneg (minus q r)) as N. rewrite dot_minus in N by (rewrite ?minus_length; congruence).
  rewrite dot_sym, dot_minus in O by (rewrite ?mulVec_length; congruence).
  assert (forall z, length z = length A -> dot q z = dot r z + dot (mulVec A g) z - dot (mulVec A c) z) as Eq.
  { intros z Hz. unfold q, r. rewrite !dot_minus by (rewrite ?mulVec_length; congruence). ring. }
  rewrite (dot_sym q), (dot_sym r (minus q r)), !dot_minus in N by (rewrite ?minus_length; congruence). rewrite (dot_sym r q) in N.
  pose proof (Eq r Lr) as E1. lra.
Qed.

(** A line through three points on it *)
Example C130_example : forall lsq, leastSquares lsq -> polyfit lsq [0; 1; 3] [2; 5; 11] 1 = ([2; 3], 0).
Proof.
  intros lsq H. replace [2; 5; 11] with (map (peval [2; 3]) [0; 1; 3]) by (cbn; repeat f_equal; ring). apply (C130_reproduces lsq H [2; 3] _ [0; 1]).
  - constructor; [|constructor; [|constructor]]; cbn; intuition lra.
  - intros t [<-|[<-|[]]]; cbn; auto.
  - cbn. lia.
Qed.

(** ** C131 *)

(** Sums over pairs of position and residual *)
Definition sumf {A} (f : A -> R) (l : list A) : R := fold_right (fun a s => f a + s) 0 l.
Lemma sumf_ext {A} (f g : A -> R) l : (forall a, In a l -> f a = g a) -> sumf f l = sumf g l.
Proof. unfold sumf. induction l as [|a l IH]; intro H; cbn; auto. rewrite (H a) by (left; auto). rewrite IH; auto. intros; apply H; right; auto. Qed.
Lemma sumf_lin {A} (f g h k : A -> R) a b c d l : sumf (fun p => a * f p + b * g p + c * h p + d * k p) l = a * sumf f l + b * sumf g l + c * sumf h l + d * sumf k l.
Proof. unfold sumf. induction l as [|p l IH]; cbn; [ring|]. rewrite IH. ring. Qed.
Lemma sumf_nonneg {A} (f : A -> R) l : (forall a, In a l -> 0 <= f a) -> 0 <= sumf f l.
Proof. unfold sumf. induction l as [|a l IH]; intro H; cbn; [lra|]. assert (0 <= f a) by (apply H; left; auto). assert (0 <= fold_right (fun a s => f a + s) 0 l) by (apply IH; intros; apply H; right; auto). lra. Qed.
Lemma sumf_pos {A} (f : A -> R) l a : (forall a, In a l -> 0 <= f a) -> In a l -> 0 < f a -> 0 < sumf f l.
Proof.
  induction l as [|b l IH]; intros H Ha P; [destruct Ha|]. unfold sumf in *. cbn. assert (0 <= f b) by (apply H; left; auto).
  assert (0 <= fold_right (fun a s => f a + s) 0 l) by (apply (sumf_nonneg f); intros; apply H; right; auto).
  destruct Ha as [->|Ha]; [lra|]. assert (0 < fold_right (fun a s => f a + s) 0 l) by (apply IH; auto; intros; apply H; right; auto). lra.
Qed.

(** Chebyshev: residuals that increase with the position and sum to zero are correlated with it *)
Lemma chebyshev {A} (x r : A -> R) (l : list A) p q :
  (forall a b, In a l -> In b l -> 0 <= (r a - r b) * (x a - x b)) -> In p l -> In q l -> 0 < (r p - r q) * (x p - x q) ->
  sumf r l = 0 -> 0 < sumf (fun a => r a * x a) l.
Proof.
  intros M Hp Hq P Z.
  assert (forall a, sumf (fun b => (r a - r b) * (x a - x b)) l = INR (length l) * (r a * x a) - r a * sumf x l - x a * sumf r l + sumf (fun b => r b * x b) l) as I.
  { intro a. unfold sumf. clear. induction l as [|b l IH]; [cbn; ring|]. cbn [fold_right]. rewrite IH. change (length (b :: l)) with (S (length l)). rewrite S_INR. ring. }
  assert (0 < sumf (fun a => sumf (fun b => (r a - r b) * (x a - x b)) l) l) as D.
  { apply (sumf_pos _ _ p); auto. - intros a Ha. apply sumf_nonneg. auto. - apply (sumf_pos _ _ q); auto. }
  rewrite (sumf_ext _ (fun a => INR (length l) * (r a * x a) + (- sumf x l) * r a + (- sumf r l) * x a + sumf (fun b => r b * x b) l * 1)) in D by (intros; rewrite I; ring).
  rewrite (sumf_lin (fun a => r a * x a) r x (fun _ => 1)) in D. rewrite Z in D.
  assert (sumf (fun _ : A => 1) l = INR (length l)) as E by (unfold sumf; clear; induction l as [|a l IH]; [reflexivity|]; cbn [fold_right]; rewrite IH; change (length (a :: l)) with (S (length l)); rewrite S_INR; ring).
  rewrite E in D. assert (0 < INR (length l)) as L. { apply lt_0_INR. destruct l; [destruct Hp|cbn; lia]. }
  nra.
Qed.

(** The residuals of a least squares line are orthogonal to constants and to the positions *)
Lemma squares_sum c x y : squares c x y = sumf (fun p => (peval c (fst p) - snd p) ^ 2) (combine x y).
Proof. reflexivity. Qed.
Lemma line_normal lsq x y : leastSquares lsq -> x <> [] -> length x = length y ->
  exists a b, fst (polyfit lsq x y 1) = [a; b] /\
  sumf (fun p => snd p - a - b * fst p) (combine x y) = 0 /\ sumf (fun p => (snd p - a - b * fst p) * fst p) (combine x y) = 0.
Proof.
  intros H Ne L. destruct (fit_min lsq H x y 1 Ne L) as [Lc [_ M]]. destruct (fst (polyfit lsq x y 1)) as [|a [|b [|? ?]]]; try discriminate. exists a, b. split; auto.
  set (l := combine x y) in *. set (r := fun p : R * R => snd p - a - b * fst p).
  assert (forall v : R * R -> R, (forall e, exists a' b', forall p, peval [a'; b'] (fst p) - snd p = e * v p - r p) -> sumf (fun p => r p * v p) l = 0) as K.
  { intros v Hv. set (B := sumf (fun p => r p * v p) l). set (A := sumf (fun p => v p * v p) l).
    assert (0 <= A) as HA by (apply sumf_nonneg; intros; nra).
    assert (forall e, 0 <= e * e * A - 2 * e * B) as Q.
    { intro e. destruct (Hv e) as [a' [b' E]]. specialize (M [a'; b'] eq_refl). rewrite !squares_sum in M. fold l in M.
      rewrite (sumf_ext (fun p => (peval [a'; b'] (fst p) - snd p) ^ 2) (fun p => e * e * (v p * v p) + (- 2 * e) * (r p * v p) + 1 * (r p * r p) + 0 * 0)) in M by (intros p _; rewrite E; ring).
      rewrite (sumf_ext (fun p => (peval [a; b] (fst p) - snd p) ^ 2) (fun p => r p * r p)) in M by (intros p _; unfold r; cbn; ring).
      rewrite (sumf_lin (fun p => v p * v p) (fun p => r p * v p) (fun p => r p * r p) (fun _ => 0)) in M. fold A B in M. lra. }
    specialize (Q (B / (A + 1))). replace (B / (A + 1) * (B / (A + 1)) * A - 2 * (B / (A + 1)) * B) with (- (B * B) * ((A + 2) / ((A + 1) * (A + 1)))) in Q by (field; lra).
    assert (0 < (A + 2) / ((A + 1) * (A + 1))) as Pq by (apply Rdiv_lt_0_compat; nra). assert (B * B = 0) as BB by nra. apply Rmult_integral in BB. tauto. }
  split.
  - rewrite (sumf_ext _ (fun p => r p * 1)) by (intros; unfold r; ring). apply K. intro e. exists (a + e), b. intro p. unfold r. cbn. ring.
  - apply (K (fun p => fst p)). intro e. exists a, (b + e). intro p. unfold r. cbn. ring.
Qed.

(** [g] does not decrease with the position *)
Definition rising (l : list (R * R)) (k : R) : Prop := forall p q, In p l -> In q l -> fst p <= fst q -> snd p - k * fst p <= snd q - k * fst q.
Definition falling (l : list (R * R)) (k : R) : Prop := forall p q, In p l -> In q l -> fst p <= fst q -> snd q - k * fst q <= snd p - k * fst p.
Lemma opposite_signs (a b : R) : a <= 0 -> b <= 0 -> 0 <= a * b.
Proof. intros. nra. Qed.
Lemma opposite_signs_strict (a b : R) : a < 0 -> b < 0 -> 0 < a * b.
Proof. intros. nra. Qed.
Lemma tilt (k b d : R) : b < k -> 0 <= d -> 0 <= (k - b) * d.
Proof. intros. apply Rmult_le_pos; lra. Qed.
Lemma tilt_strict (k b d : R) : b < k -> 0 < d -> 0 < (k - b) * d.
Proof. intros. apply Rmult_lt_0_compat; lra. Qed.
Lemma slope_ge lsq x y k p q : leastSquares lsq -> length x = length y -> In p (combine x y) -> In q (combine x y) -> fst p < fst q ->
  (rising (combine x y) k -> k <= nth 1 (fst (polyfit lsq x y 1)) 0) /\ (falling (combine x y) k -> nth 1 (fst (polyfit lsq x y 1)) 0 <= k).
Proof.
  intros H L Hp Hq Lt. destruct (line_normal lsq x y H) as [a [b [-> [Z0 Z1]]]]; auto. { intro; subst; destruct Hp. } cbn [nth].
  set (l := combine x y) in *. split; intro Mo.
  - destruct (Rle_lt_dec k b) as [|Lb]; auto. exfalso.
    assert (0 < sumf (fun p => (snd p - a - b * fst p) * fst p) l); [|lra].
    apply (chebyshev (fun p => fst p) (fun p => snd p - a - b * fst p) l p q); auto.
    + intros u v Hu Hv. destruct (Rle_lt_dec (fst u) (fst v)) as [C|C]; [generalize (Mo u v Hu Hv C) (tilt k b (fst v - fst u) Lb ltac:(lra)); intros; apply opposite_signs; lra|].
      generalize (Mo v u Hv Hu ltac:(lra)) (tilt k b (fst u - fst v) Lb ltac:(lra)). intros. apply Rmult_le_pos; lra.
    + generalize (Mo p q Hp Hq ltac:(lra)) (tilt_strict k b (fst q - fst p) Lb ltac:(lra)). intros. apply opposite_signs_strict; lra.
  - destruct (Rle_lt_dec b k) as [|Lb]; auto. exfalso.
    assert (0 < sumf (fun p => (a + b * fst p - snd p) * fst p) l) as P.
    { apply (chebyshev (fun p => fst p) (fun p => a + b * fst p - snd p) l p q); auto.
      + intros u v Hu Hv. destruct (Rle_lt_dec (fst u) (fst v)) as [C|C]; [generalize (Mo u v Hu Hv C) (tilt b k (fst v - fst u) Lb ltac:(lra)); intros; apply opposite_signs; lra|].
        generalize (Mo v u Hv Hu ltac:(lra)) (tilt b k (fst u - fst v) Lb ltac:(lra)). intros. apply Rmult_le_pos; lra.
      + generalize (Mo p q Hp Hq ltac:(lra)) (tilt_strict b k (fst q - fst p) Lb ltac:(lra)). intros. apply opposite_signs_strict; lra.
      + rewrite (sumf_ext _ (fun p => (-1) * (snd p - a - b * fst p) + 0 * 0 + 0 * 0 + 0 * 0)) by (intros; ring). rewrite (sumf_lin (fun p => snd p - a - b * fst p) (fun _ => 0) (fun _ => 0) (fun _ => 0)). rewrite Z0. ring. }
    rewrite (sumf_ext _ (fun p => (-1) * ((snd p - a - b * fst p) * fst p) + 0 * 0 + 0 * 0 + 0 * 0)) in P by (intros; ring).
    rewrite (sumf_lin (fun p => (snd p - a - b * fst p) * fst p) (fun _ => 0) (fun _ => 0) (fun _ => 0)) in P. lra.
Qed.

(** Some window is chosen, whatever the residuals *)
Lemma minFrom_bound {T} (ltb : T -> T -> bool) : forall l best besti i, (besti < i)%nat -> (minFrom ltb best besti i l < i + length l)%nat.
Proof. induction l as [|e l IH]; intros best besti i H; cbn [minFrom length]; [lia|]. destruct (ltb e best); (eapply Nat.lt_le_trans; [apply IH; lia|lia]). Qed.
Lemma line_found {T P} (ltb : T -> T -> bool) (fit : list T -> list T -> P * T) x y m : (m < length x)%nat -> length x = length y ->
  exists i, (i + m < length x)%nat /\ findLineSegment ltb fit x y (Z.of_nat m) = Some (fst (fit (firstn (S m) (skipn i x)) (firstn (S m) (skipn i y))), i, (i + m)%nat).
Proof.
  intros Lx Ly. unfold findLineSegment. destruct (Z.ltb_spec (Z.of_nat (length x)) (Z.of_nat m)); [lia|]. destruct (Z.ltb_spec (Z.of_nat m) 0); [lia|]. cbn [orb]. rewrite Nat2Z.id.
  destruct (fits_from_ok fit x y m (length x - m) 0) as (r & E & L & K); try lia. rewrite E.
  assert (min_element ltb (map snd r) < length x - m)%nat as B.
  { destruct r as [|[p e] r]; [cbn in L; lia|]. cbn [map min_element]. eapply Nat.lt_le_trans; [apply minFrom_bound; lia|]. rewrite map_length. cbn in L. lia. }
  exists (min_element ltb (map snd r)). split; [lia|]. rewrite (K _ B). destruct (fit _ _); reflexivity.
Qed.

Lemma steps_length : length steps = 100%nat.
Proof. unfold steps. rewrite map_length, seq_length. reflexivity. Qed.
Definition step (i : nat) : R := Rpower 10 (-8 + 6 * INR i / 99).
Lemma steps_nth i : (i < 100)%nat -> nth i steps 0 = step i.
Proof. intro H. rewrite (nth_indep _ _ (step 0)) by (rewrite steps_length; auto). unfold steps. rewrite (map_nth step). rewrite seq_nth by lia. reflexivity. Qed.
Lemma step_pos i : 0 < step i.
Proof. apply exp_pos. Qed.
Lemma steps_pos : Forall (Rlt 0) steps.
Proof. apply Forall_forall. intros t Ht. unfold steps in Ht. apply in_map_iff in Ht as [i [<- _]]. apply (step_pos i). Qed.
Lemma ln10_pos : 0 < ln 10.
Proof. rewrite <- ln_1. apply ln_increasing; lra. Qed.

Definition lg (y : R) : R := ln y / ln 10.
Lemma lg_step i : lg (step i) = -8 + 6 * INR i / 99.
Proof. unfold lg, step, Rpower. rewrite ln_exp. field. pose proof ln10_pos. lra. Qed.
Lemma lg_le s t : 0 < s -> s <= t -> lg s <= lg t.
Proof. intros P L. unfold lg. apply Rmult_le_compat_r; [left; apply Rinv_0_lt_compat, ln10_pos|]. destruct L as [L| ->]; [left; apply ln_increasing; auto|lra]. Qed.
Lemma lg_lt s t : 0 < s -> s < t -> lg s < lg t.
Proof. intros P L. unfold lg. apply Rmult_lt_compat_r; [apply Rinv_0_lt_compat, ln10_pos|]. apply ln_increasing; auto. Qed.
Lemma lg_le_inv s t : 0 < s -> 0 < t -> lg s <= lg t -> s <= t.
Proof. intros P Q L. destruct (Rle_lt_dec s t); auto. apply lg_lt in r; auto. lra. Qed.
Lemma numbers_log l : Forall (Rlt 0) l -> numbers (map log10 l) = Some (map lg l).
Proof. induction 1 as [|a l H F IH]; auto. cbn [map numbers]. unfold log10 at 1. destruct (Rlt_dec 0 a) as [_|N]; [|lra]. rewrite IH. reflexivity. Qed.
Lemma Forall_part {A} (P : A -> Prop) n i l : Forall P l -> Forall P (firstn n (skipn i l)).
Proof. intro H. rewrite <- (firstn_skipn i l) in H. apply Forall_app in H as [_ H]. rewrite <- (firstn_skipn n (skipn i l)) in H. apply Forall_app in H as [H _]. exact H. Qed.

(** The slope for positive errors is that of a least squares line through eleven consecutive points *)
Lemma slope_of_window lsq ys : length ys = 100%nat -> Forall (Rlt 0) ys -> exists i, (i < 90)%nat /\
  returnSlope lsq ys false = Some (if Rlt_dec (maxAbs (firstn 11 (skipn i ys))) (1 / 10000000000) then Infinite
                                   else Finite (nth 1 (fst (polyfit lsq (map lg (firstn 11 (skipn i steps))) (map lg (firstn 11 (skipn i ys))) 1)) 0)).
Proof.
  intros L P. unfold returnSlope.
  destruct (line_found ltbNaN (polyfitNaN lsq) (map log10 steps) (map log10 ys) rangeSize) as [i [Hi E]]; [rewrite map_length, steps_length; unfold rangeSize; lia|rewrite !map_length, steps_length; auto|].
  rewrite E. rewrite map_length, steps_length in Hi. unfold rangeSize in *. exists i. split; [lia|]. replace (i + 10 + 1 - i)%nat with 11%nat by lia.
  destruct (Rlt_dec _ _); auto. do 2 f_equal. rewrite !skipn_map, !firstn_map. unfold polyfitNaN. rewrite !numbers_log by (apply Forall_part; auto using steps_pos).
  destruct (polyfit _ _ _ _) as [c e]. reflexivity.
Qed.

Lemma window_pairs (E : R -> R) W : combine (map lg W) (map lg (map E W)) = map (fun t => (lg t, lg (E t))) W.
Proof. induction W as [|t W IH]; cbn; auto. rewrite IH. reflexivity. Qed.
Lemma in_window i t : In t (firstn 11 (skipn i steps)) -> exists j, (j < 100)%nat /\ t = step j.
Proof.
  intro H. assert (In t steps) as K. { rewrite <- (firstn_skipn i steps). apply in_or_app. right. rewrite <- (firstn_skipn 11 (skipn i steps)). apply in_or_app. left. auto. }
  unfold steps in K. apply in_map_iff in K as [j [<- Hj]]. apply in_seq in Hj. exists j. split; [lia|reflexivity].
Qed.
Lemma window_member i j : (i < 90)%nat -> (j <= 10)%nat -> In (step (i + j)) (firstn 11 (skipn i steps)).
Proof.
  intros Hi Hj. rewrite <- (steps_nth (i + j)) by lia. 
  replace (nth (i + j) steps 0) with (nth j (firstn 11 (skipn i steps)) 0).
  - apply nth_In. rewrite firstn_length, skipn_length, steps_length. lia.
  - transitivity (nth j (skipn i steps) 0).
    + rewrite <- (firstn_skipn 11 (skipn i steps)) at 2. rewrite app_nth1; auto. rewrite firstn_length, skipn_length, steps_length. lia.
    + rewrite <- (firstn_skipn i steps) at 2. rewrite app_nth2; rewrite firstn_length, steps_length; [f_equal; lia|lia].
Qed.
Lemma step_mono i j : (i < j)%nat -> step i < step j.
Proof. intro H. unfold step. apply Rpower_lt; [lra|]. apply lt_INR in H. lra. Qed.
Lemma step_range j : (j < 100)%nat -> 1 / 100000000 <= step j <= 1 / 100.
Proof.
  intro H. assert (lg (1 / 100) = -2) as E2.
  { unfold lg. replace (1 / 100) with (/ (10 * 10)) by lra. rewrite ln_Rinv, ln_mult by lra. field. pose proof ln10_pos. lra. }
  assert (lg (1 / 100000000) = -8) as E8.
  { unfold lg. replace (1 / 100000000) with (/ (10 ^ 8)) by lra. rewrite ln_Rinv, ln_pow by lra. cbn [INR]. field. pose proof ln10_pos. lra. }
  assert (INR j <= 99). { replace 99 with (INR 99) by (cbn; lra). apply le_INR. lia. } pose proof (pos_INR j).
  split; (apply lg_le_inv; [try lra; apply step_pos|try lra; apply step_pos|rewrite lg_step; lra]).
Qed.
Lemma lg_ratio y t k : 0 < y -> 0 < t -> lg (y / Rpower t k) = lg y - k * lg t.
Proof.
  intros Hy Ht. unfold lg, Rdiv at 2. rewrite ln_mult; auto; [|apply Rinv_0_lt_compat, exp_pos]. rewrite ln_Rinv by apply exp_pos. unfold Rpower. rewrite ln_exp. field. pose proof ln10_pos. lra.
Qed.

(** How the errors [E] depend on the step size: [E t / t^k] does not decrease, or does not increase, on the range of step sizes *)
Definition atLeastOrder (E : R -> R) (k : R) : Prop := forall s t, 1 / 100000000 <= s <= t -> t <= 1 / 100 -> E s / Rpower s k <= E t / Rpower t k.
Definition atMostOrder (E : R -> R) (k : R) : Prop := forall s t, 1 / 100000000 <= s <= t -> t <= 1 / 100 -> E t / Rpower t k <= E s / Rpower s k.

Lemma slope_bounds lsq (E : R -> R) : leastSquares lsq -> (forall t, 1 / 100000000 <= t <= 1 / 100 -> 0 < E t) ->
  exists i s, (i < 90)%nat /\
  returnSlope lsq (map E steps) false = Some (if Rlt_dec (maxAbs (map E (firstn 11 (skipn i steps)))) (1 / 10000000000) then Infinite else Finite s) /\
  (forall k, atLeastOrder E k -> k <= s) /\ (forall k, atMostOrder E k -> s <= k).
Proof.
  intros H P. destruct (slope_of_window lsq (map E steps)) as [i [Hi Es]].
  { rewrite map_length. apply steps_length. }
  { apply Forall_map, Forall_forall. intros t Ht. unfold steps in Ht. apply in_map_iff in Ht as [j [<- Hj]]. apply P, step_range. apply in_seq in Hj. lia. }
  rewrite skipn_map, firstn_map in Es. rewrite Es. set (W := firstn 11 (skipn i steps)). exists i, (nth 1 (fst (polyfit lsq (map lg W) (map lg (map E W)) 1)) 0). split; auto. split; auto.
  assert (forall t, In t W -> 1 / 100000000 <= t <= 1 / 100) as Hw. { intros t Ht. apply in_window in Ht as [j [Hj ->]]. apply step_range. auto. }
  assert (forall k, (rising (combine (map lg W) (map lg (map E W))) k -> k <= nth 1 (fst (polyfit lsq (map lg W) (map lg (map E W)) 1)) 0) /\
                    (falling (combine (map lg W) (map lg (map E W))) k -> nth 1 (fst (polyfit lsq (map lg W) (map lg (map E W)) 1)) 0 <= k)) as S.
  { intro k. apply (slope_ge lsq _ _ k (lg (step (i + 0)), lg (E (step (i + 0)))) (lg (step (i + 1)), lg (E (step (i + 1))))); auto.
    - rewrite !map_length. auto.
    - rewrite window_pairs. apply (in_map (fun t => (lg t, lg (E t)))). apply window_member; lia.
    - rewrite window_pairs. apply (in_map (fun t => (lg t, lg (E t)))). apply window_member; lia.
    - cbn [fst]. apply lg_lt; [apply step_pos|]. apply step_mono. lia. }
  assert (forall t k, In t W -> lg (E t) - k * lg t = lg (E t / Rpower t k) /\ 0 < E t / Rpower t k) as R1.
  { intros t k Ht. specialize (Hw t Ht). specialize (P t Hw). split; [symmetry; apply lg_ratio; lra|]. apply Rdiv_lt_0_compat; auto. apply exp_pos. }
  split; intros k Hk; destruct (S k) as [S1 S2]; [apply S1|apply S2]; rewrite window_pairs; intros p q Hp Hq Le;
    apply in_map_iff in Hp as [s [<- Hs]]; apply in_map_iff in Hq as [t [<- Ht]]; cbn [fst snd] in *;
    destruct (R1 s k Hs) as [-> Ps]; destruct (R1 t k Ht) as [-> Pt]; apply lg_le; auto; apply Hk; try (apply Hw; auto); split; try (apply Hw; auto);
    (pose proof (Hw s Hs); pose proof (Hw t Ht); apply lg_le_inv; [lra|lra|auto]).
Qed.

Lemma slope_zero lsq : returnSlope lsq (map (fun _ => 0) steps) false = Some Infinite.
Proof.
  unfold returnSlope.
  destruct (line_found ltbNaN (polyfitNaN lsq) (map log10 steps) (map log10 (map (fun _ => 0) steps)) rangeSize) as [i [Hi E]]; [rewrite map_length, steps_length; unfold rangeSize; lia|rewrite !map_length, steps_length; auto|].
  rewrite E. destruct (Rlt_dec _ _) as [|N]; auto. exfalso. apply N. rewrite skipn_map, firstn_map. generalize (firstn (i + rangeSize + 1 - i) (skipn i steps)). intro l.
  assert (maxAbs (map (fun _ => 0) l) = 0) as ->; [|lra]. induction l as [|a l IH]; cbn; auto. unfold maxAbs in *. cbn in IH. rewrite IH, Rabs_R0. apply Rmax_left. lra.
Qed.

Lemma maxAbs_ge l y : In y l -> y <= maxAbs l.
Proof. unfold maxAbs. induction l as [|a l IH]; intro H; [destruct H|]. cbn. destruct H as [->|H]; [eapply Rle_trans; [apply Rle_abs|apply Rmax_l]|]. eapply Rle_trans; [apply IH; auto|apply Rmax_r]. Qed.
Lemma maxAbs_lt l b : 0 < b -> (forall y, In y l -> Rabs y < b) -> maxAbs l < b.
Proof. intro Pb. unfold maxAbs. induction l as [|a l IH]; intro H; cbn; auto. apply Rmax_lub_lt; [apply H; left; auto|apply IH; intros; apply H; right; auto]. Qed.

(** The update can be taken back *)
Definition undone {X V} (update : X -> V -> X) (scale : R -> V -> V) (b : V) (x : X) : Prop := forall t, update (update x (scale t b)) (scale (- t) b) = x.
Lemma evaluations_map {X V} (update : X -> V -> X) scale value b x ts : undone update scale b x ->
  evaluations update scale value b x ts = map (fun t => value (update x (scale t b)) t) ts.
Proof. intro U. induction ts as [|t ts IH]; cbn; auto. rewrite U, IH. reflexivity. Qed.

(** The error of an approximation is zero, or behaves like a power of the step size that is at least the expected one (up to the tolerance) *)
Definition smallError (order tol : R) (E : R -> R) : Prop :=
  (forall t, 1 / 100000000 <= t <= 1 / 100 -> E t = 0) \/
  ((forall t, 1 / 100000000 <= t <= 1 / 100 -> 0 < E t) /\ exists k, order * (1 - tol) <= k /\ atLeastOrder E k).
(** It behaves like a power less than expected and can be told from rounding *)
Definition largeError (order tol : R) (E : R -> R) : Prop :=
  (forall t, 1 / 100000000 <= t <= 1 / 100 -> 0 < E t) /\ (exists k, k < order * (1 - tol) /\ atMostOrder E k) /\
  (forall t, 4 / 100000000 <= t <= 1 / 100 -> 1 / 10000000000 <= E t).

Lemma step_10 : 4 / 100000000 <= step 10 <= 5 / 100000000.
Proof.
  assert (step 10 = Rpower 10 (20 / 33) / 100000000) as ->.
  { unfold step. replace (-8 + 6 * INR 10 / 99) with (20 / 33 + - INR 8) by (cbn; lra). rewrite Rpower_plus, Rpower_Ropp, Rpower_pow by lra. unfold Rdiv. f_equal. f_equal. ring. }
  assert (forall a, 0 < a -> (a ^ 33 <= 10 ^ 20 -> a <= Rpower 10 (20 / 33)) /\ (10 ^ 20 <= a ^ 33 -> Rpower 10 (20 / 33) <= a)) as H.
  { intros a Pa. assert (Rpower a 33 = a ^ 33) as E1 by (rewrite <- Rpower_pow by lra; f_equal; cbn; lra). assert (Rpower (Rpower 10 (20 / 33)) 33 = 10 ^ 20) as E2.
    { rewrite Rpower_mult. rewrite <- Rpower_pow by lra. f_equal. cbn. lra. }
    rewrite <- E1, <- E2. split; intro L.
    - destruct (Rle_lt_dec a (Rpower 10 (20 / 33))) as [|K]; auto. exfalso. assert (Rpower (Rpower 10 (20 / 33)) 33 < Rpower a 33); [|lra]. apply Rlt_Rpower_l; [lra|]. split; auto. apply exp_pos.
    - destruct (Rle_lt_dec (Rpower 10 (20 / 33)) a) as [|K]; auto. exfalso. assert (Rpower a 33 < Rpower (Rpower 10 (20 / 33)) 33); [|lra]. apply Rlt_Rpower_l; [lra|]. split; auto. }
  assert (4 <= Rpower 10 (20 / 33)) by (apply H; lra). assert (Rpower 10 (20 / 33) <= 5) by (apply H; lra). lra.
Qed.

Lemma check_pass {X V} lsq (update : X -> V -> X) scale tol order value b x : leastSquares lsq -> undone update scale b x -> 0 < order -> 0 <= tol ->
  smallError order tol (fun t => value (update x (scale t b)) t) -> check lsq update scale tol order value b x false = Some true.
Proof.
  intros H U Po Pt S. unfold check. rewrite (evaluations_map _ _ _ _ _ _ U). set (E := fun t => value (update x (scale t b)) t) in *.
  destruct S as [Z|[P [k [Hk A]]]].
  - rewrite (map_ext_in E (fun _ => 0)); [rewrite slope_zero; reflexivity|]. intros t Ht. apply Z. unfold steps in Ht. apply in_map_iff in Ht as [j [<- Hj]]. apply in_seq in Hj. apply step_range. lia.
  - destruct (slope_bounds lsq E H P) as [i [s [Hi [-> [B _]]]]]. specialize (B k A). destruct (Rlt_dec (maxAbs _) _); [reflexivity|]. cbn [floatLe]. destruct (Rlt_dec order s) as [|N]; [reflexivity|].
    destruct (Rle_dec _ _) as [|N2]; [reflexivity|]. exfalso. apply N2. rewrite Rabs_pos_eq by lra. apply Rle_trans with (tol * order); [lra|]. apply Rmult_le_compat_l; auto. eapply Rle_trans; [apply Rle_abs|apply Rmax_l].
Qed.
Lemma check_fail {X V} lsq (update : X -> V -> X) scale tol order value b x : leastSquares lsq -> undone update scale b x -> 0 < order -> 0 <= tol < 1 ->
  largeError order tol (fun t => value (update x (scale t b)) t) -> check lsq update scale tol order value b x false = Some false.
Proof.
  intros H U Po Pt [P [[k [Hk A]] Big]]. unfold check. rewrite (evaluations_map _ _ _ _ _ _ U). set (E := fun t => value (update x (scale t b)) t) in *.
  destruct (slope_bounds lsq E H P) as [i [s [Hi [-> [_ B]]]]]. specialize (B k A). destruct (Rlt_dec (maxAbs _) _) as [L|_].
  { exfalso. assert (In (E (step (i + 10))) (map E (firstn 11 (skipn i steps)))) as K by (apply in_map, window_member; lia). apply maxAbs_ge in K.
    assert (1 / 10000000000 <= E (step (i + 10))); [|lra]. apply Big. split; [|apply step_range; lia]. destruct (Nat.eq_dec i 0) as [->|Ne]; [apply step_10|]. pose proof (step_mono 10 (i + 10) ltac:(lia)). pose proof step_10. lra. }
  cbn [floatLe]. assert (s < order) by nra. destruct (Rlt_dec order s) as [|_]; [lra|]. destruct (Rle_dec _ _) as [C|]; [|reflexivity]. exfalso.
  rewrite (Rabs_pos_eq (order - s)), (Rabs_pos_eq order) in C by lra. unfold Rmax in C. destruct (Rle_dec order (Rabs s)) as [D|D]; [|lra].
  unfold Rabs in *. destruct (Rcase_abs s); nra.
Qed.

(** The gradient check without drawing: it passes if the linear approximation is of second order, and fails if it is of lower order and the errors
    can be told from zero.  What lies between is not covered. *)
Theorem C131_gradient_partial : forall {X V} lsq (update : X -> V -> X) scale tol f g b x, leastSquares lsq -> undone update scale b x -> 0 <= tol < 1 ->
  let E t := Rabs (f (update x (scale t b)) - f x - t * g) in
  (smallError 2 tol E -> checkGradient lsq update scale tol f g b x false = Some true) /\
  (largeError 2 tol E -> checkGradient lsq update scale tol f g b x false = Some false).
Proof. intros. split; intro K; [apply check_pass|apply check_fail]; auto; lra. Qed.

Theorem C131_jacobian_partial : forall {X V} lsq (update : X -> V -> X) scale tol error b x, leastSquares lsq -> undone update scale b x -> 0 <= tol < 1 ->
  let E t := error (update x (scale t b)) t in
  (smallError 2 tol E -> checkJacobian lsq update scale tol error b x false = Some true) /\
  (largeError 2 tol E -> checkJacobian lsq update scale tol error b x false = Some false).
Proof. intros. split; intro K; [apply check_pass|apply check_fail]; auto; lra. Qed.

Theorem C131_hessian_partial : forall {X V} lsq (update : X -> V -> X) scale tol f g h b x, leastSquares lsq -> undone update scale b x -> 0 <= tol < 1 ->
  let E t := Rabs (f (update x (scale t b)) - f x - t * g - t ^ 2 / 2 * h) in
  (smallError 3 tol E -> checkHessian lsq update scale tol f g h b x false = Some true) /\
  (largeError 3 tol E -> checkHessian lsq update scale tol f g h b x false = Some false).
Proof.
  intros X V lsq update scale tol f g h b x H U T E.
  assert (forall t, E t = (fun y t => Rabs (f y - f x - t * g - 1 / 2 * t * t * h)) (update x (scale t b)) t) as EE by (intro t; unfold E; f_equal; field).
  assert (forall P : (R -> R) -> Prop, (forall a c, (forall t, a t = c t) -> P a -> P c) -> P E -> P (fun t => (fun y t => Rabs (f y - f x - t * g - 1 / 2 * t * t * h)) (update x (scale t b)) t)) as Tr by (intros P HP HE; apply (HP E); auto).
  split; intro K; [apply check_pass|apply check_fail]; auto; try lra.
  - apply (Tr (smallError 3 tol)); auto. intros a c Eac [Z|[P [k [Hk A]]]]; [left; intros; rewrite <- Eac; auto|right]. split; [intros; rewrite <- Eac; auto|]. exists k. split; auto. intros s t Hs Ht. rewrite <- !Eac. auto.
  - apply (Tr (largeError 3 tol)); auto. intros a c Eac [P [[k [Hk A]] B]]. split; [intros; rewrite <- Eac; auto|]. split; [|intros; rewrite <- Eac; auto]. exists k. split; auto. intros s t Hs Ht. rewrite <- !Eac. auto.
Qed.

(** Powers of the step size *)
Lemma power_order c k : 0 <= c -> atLeastOrder (fun t => c * t ^ k) (INR k) /\ atMostOrder (fun t => c * t ^ k) (INR k).
Proof.
  intro Pc. assert (forall t, 0 < t -> c * t ^ k / Rpower t (INR k) = c) as E.
  { intros t Ht. rewrite Rpower_pow by auto. field. apply pow_nonzero. lra. }
  split; intros s t Hs Ht; rewrite !E by lra; lra.
Qed.
Lemma power_small c k order tol : 0 <= c -> order * (1 - tol) <= INR k -> smallError order tol (fun t => c * t ^ k).
Proof.
  intros Pc Hk. destruct (Req_dec c 0) as [->|Ne]; [left; intros; ring|right]. split.
  - intros t Ht. apply Rmult_lt_0_compat; [lra|]. apply pow_lt. lra.
  - exists (INR k). split; auto. apply power_order. auto.
Qed.
Lemma smallError_ext order tol (a c : R -> R) : (forall t, 0 < t -> c t = a t) -> smallError order tol a -> smallError order tol c.
Proof.
  intros E [Z|[P [k [Hk A]]]]; [left; intros; rewrite E by lra; auto|right]. split; [intros; rewrite E by lra; auto|]. exists k. split; auto. intros s t Hs Ht. rewrite !E by lra. auto.
Qed.

(** A polynomial along the direction: the right derivatives pass *)
Theorem C131_polynomial : forall {X V} lsq (update : X -> V -> X) scale f g h a k b x, leastSquares lsq -> undone update scale b x -> (2 <= k)%nat ->
  ((forall t, 0 < t -> f (update x (scale t b)) = f x + t * g + a * t ^ k) -> checkGradient lsq update scale (1/100) f g b x false = Some true) /\
  ((3 <= k)%nat -> (forall t, 0 < t -> f (update x (scale t b)) = f x + t * g + t ^ 2 / 2 * h + a * t ^ k) -> checkHessian lsq update scale (1/100) f g h b x false = Some true).
Proof.
  intros X V lsq update scale f g h a k b x H U Hk. split.
  - intro E. apply (C131_gradient_partial lsq update scale (1/100) f g b x); auto; [lra|]. apply (smallError_ext _ _ (fun t => Rabs a * t ^ k)).
    + intros t Ht. rewrite E by auto. replace (f x + t * g + a * t ^ k - f x - t * g) with (a * t ^ k) by ring. rewrite Rabs_mult, (Rabs_pos_eq (t ^ k)); auto. apply pow_le. lra.
    + apply power_small; [apply Rabs_pos|]. apply le_INR in Hk. cbn in Hk. lra.
  - intros Hk3 E. apply (C131_hessian_partial lsq update scale (1/100) f g h b x); auto; [lra|]. apply (smallError_ext _ _ (fun t => Rabs a * t ^ k)).
    + intros t Ht. rewrite E by auto. replace (f x + t * g + t ^ 2 / 2 * h + a * t ^ k - f x - t * g - t ^ 2 / 2 * h) with (a * t ^ k) by ring. rewrite Rabs_mult, (Rabs_pos_eq (t ^ k)); auto. apply pow_le. lra.
    + apply power_small; [apply Rabs_pos|]. apply le_INR in Hk3. cbn in Hk3. lra.
Qed.

Example C131_example : forall lsq, leastSquares lsq -> undone Rplus Rmult 1 4 /\
  checkGradient lsq Rplus Rmult (1/100) (fun x => 5 * x ^ 2 + 2 * x) 42 1 4 false = Some true.
Proof.
  intros lsq H. assert (undone Rplus Rmult 1 4) as U by (intro t; ring). split; auto. apply (C131_polynomial lsq Rplus Rmult (fun x => 5 * x ^ 2 + 2 * x) 42 0 5 2 1 4); auto. intros t Ht. ring.
Qed.

(** A linear function with a gradient wrong by at least 1/400 along the direction fails *)
Example C131_wrong_example : forall lsq, leastSquares lsq -> forall a g, 1 / 400 <= Rabs (a - g) ->
  undone Rplus Rmult 1 0 /\ checkGradient lsq Rplus Rmult (1/100) (fun x => a * x) g 1 0 false = Some false.
Proof.
  intros lsq H a g Hd. assert (undone Rplus Rmult 1 0) as U by (intro t; ring). split; auto. apply (C131_gradient_partial lsq Rplus Rmult (1/100) (fun x => a * x) g 1 0); auto; [lra|].
  assert (forall t, 0 < t -> Rabs (a * (0 + t * 1) - a * 0 - t * g) = Rabs (a - g) * t) as E.
  { intros t Ht. replace (a * (0 + t * 1) - a * 0 - t * g) with ((a - g) * t) by ring. rewrite Rabs_mult, (Rabs_pos_eq t) by lra. reflexivity. }
  split; [|split].
  - intros t Ht. rewrite E by lra. apply Rmult_lt_0_compat; lra.
  - exists (INR 1). split; [cbn; lra|]. intros s t Hs Ht. rewrite !E by lra. destruct (power_order (Rabs (a - g)) 1 ltac:(lra)) as [_ A]. specialize (A s t Hs Ht). cbn [pow] in A. rewrite !Rmult_1_r in A. exact A.
  - intros t Ht. rewrite E by lra. apply Rle_trans with (1 / 400 * (4 / 100000000)); [lra|]. apply Rmult_le_compat; lra.
Qed.

(** Whatever the derivative given, functions with errors below 1e-10 pass: the gradient of x / 10^9 may be given as zero, and the Hessian of
    x^2 / 10^6 too. *)
Lemma check_tiny {X V} lsq (update : X -> V -> X) scale tol order value b x : undone update scale b x ->
  (forall t, 1 / 100000000 <= t <= 1 / 100 -> 0 < value (update x (scale t b)) t < 1 / 10000000000) -> check lsq update scale tol order value b x false = Some true.
Proof.
  intros U T. unfold check. rewrite (evaluations_map _ _ _ _ _ _ U). set (E := fun t => value (update x (scale t b)) t) in *.
  assert (forall t, In t steps -> 1 / 100000000 <= t <= 1 / 100) as Hs by (intros t Ht; unfold steps in Ht; apply in_map_iff in Ht as [j [<- Hj]]; apply in_seq in Hj; apply step_range; lia).
  destruct (slope_of_window lsq (map E steps)) as [i [Hi ->]].
  { rewrite map_length. apply steps_length. }
  { apply Forall_map, Forall_forall. intros t Ht. apply T. auto. }
  destruct (Rlt_dec _ _) as [|N]; [reflexivity|]. exfalso. apply N. rewrite skipn_map, firstn_map. apply maxAbs_lt; [lra|]. intros y Hy. apply in_map_iff in Hy as [t [<- Ht]].
  apply in_window in Ht as [j [Hj ->]]. pose proof (T _ (step_range j Hj)) as K. fold (E (step j)) in K. rewrite Rabs_pos_eq; unfold E in *; lra.
Qed.
Theorem C131_tiny_refuted : forall lsq, undone Rplus Rmult 1 0 /\
  checkGradient lsq Rplus Rmult (1/100) (fun x => x / 10 ^ 9) 0 1 0 false = Some true /\
  checkHessian lsq Rplus Rmult (1/100) (fun x => x ^ 2 / 10 ^ 6 / 2) 0 0 1 0 false = Some true.
Proof.
  intro lsq. assert (undone Rplus Rmult 1 0) as U by (intro t; ring). split; auto. split; apply check_tiny; auto; intros t Ht.
  - rewrite Rabs_pos_eq; lra.
  - rewrite Rabs_pos_eq; nra.
Qed.

(** A wrong gradient also passes where the curvature is large: that of x + 10^10 x^2 at zero may be given as 0 instead of 1 *)
Lemma exp_tangent z : 1 + z <= exp z.
Proof. destruct (Req_dec z 0) as [->|N]; [rewrite exp_0; lra|]. left. apply exp_ineq1. auto. Qed.
Lemma weighted w y : 0 <= w <= 1 -> exp (w * y) <= 1 - w + w * exp y.
Proof.
  intro W. assert (1 <= (1 - w) * exp (- (w * y)) + w * exp ((1 - w) * y)) as K.
  { generalize (exp_tangent (- (w * y))) (exp_tangent ((1 - w) * y)). intros K1 K2.
    apply (Rmult_le_compat_l (1 - w)) in K1; [|lra]. apply (Rmult_le_compat_l w) in K2; [|lra]. nra. }
  pose proof (exp_pos (w * y)) as P. apply (Rmult_le_compat_r (exp (w * y))) in K; [|lra].
  replace (((1 - w) * exp (- (w * y)) + w * exp ((1 - w) * y)) * exp (w * y)) with ((1 - w) * (exp (- (w * y)) * exp (w * y)) + w * (exp ((1 - w) * y) * exp (w * y))) in K by ring.
  rewrite <- !exp_plus in K. replace (- (w * y) + w * y) with 0 in K by ring. replace ((1 - w) * y + w * y) with y in K by ring. rewrite exp_0 in K. lra.
Qed.
Theorem C131_curved_refuted : forall lsq, leastSquares lsq -> exists f g, derivable_pt_lim f 0 1 /\ g <> 1 /\ undone Rplus Rmult 1 0 /\
  checkGradient lsq Rplus Rmult (1/100) f g 1 0 false = Some true.
Proof.
  intros lsq H. exists (fun x => x + 10 ^ 10 * x ^ 2), 0. split; [|split; [lra|]].
  { replace 1 with (1 + 10 ^ 10 * (INR 2 * 0 ^ 1)) by (cbn; lra). apply derivable_pt_lim_plus; [apply derivable_pt_lim_id|]. apply derivable_pt_lim_scal. apply (derivable_pt_lim_pow 0 2). }
  assert (undone Rplus Rmult 1 0) as U by (intro t; ring). split; auto. apply (C131_gradient_partial lsq Rplus Rmult (1/100) (fun x => x + 10 ^ 10 * x ^ 2) 0 1 0); auto; [lra|].
  assert (forall t, 0 < t -> Rabs (0 + t * 1 + 10 ^ 10 * (0 + t * 1) ^ 2 - (0 + 10 ^ 10 * 0 ^ 2) - t * 0) = t * (1 + 10 ^ 10 * t)) as E.
  { intros t Ht. replace (0 + t * 1 + 10 ^ 10 * (0 + t * 1) ^ 2 - (0 + 10 ^ 10 * 0 ^ 2) - t * 0) with (t * (1 + 10 ^ 10 * t)) by ring. apply Rabs_pos_eq. nra. }
  right. split; [intros t Ht; rewrite E by lra; nra|]. exists (2 * (1 - 1/100)). split; [lra|]. intros s t Hs Ht. rewrite !E by lra.
  set (k := 2 * (1 - 1/100)). set (y := ln t - ln s).
  assert (0 <= y) as Hy. { unfold y. destruct Hs as [S1 [S2| <-]]; [|lra]. assert (ln s < ln t) by (apply ln_increasing; lra). lra. }
  assert (t = s * exp y) as Et. { unfold y, Rminus. rewrite exp_plus, exp_Ropp, !exp_ln by lra. field. lra. }
  assert (Rpower t k = Rpower s k * exp (k * y)) as Ep. { unfold Rpower, y. rewrite <- exp_plus. f_equal. ring. }
  rewrite Ep. set (p := Rpower s k). assert (0 < p) as Pp by apply exp_pos. pose proof (exp_pos (k * y)) as Pk. apply (Rmult_le_reg_r (p * exp (k * y))); [nra|].
  replace (s * (1 + 10 ^ 10 * s) / p * (p * exp (k * y))) with (s * (1 + 10 ^ 10 * s) * exp (k * y)) by (field; lra).
  replace (t * (1 + 10 ^ 10 * t) / (p * exp (k * y)) * (p * exp (k * y))) with (t * (1 + 10 ^ 10 * t)) by (field; lra).
  set (m := 10 ^ 10 * s). assert (100 <= m) as Hm by (unfold m; lra). assert (10 ^ 10 * t = m * exp y) as -> by (rewrite Et; unfold m; ring).
  assert (exp (k * y) <= exp y * ((1 + m * exp y) / (1 + m))) as B.
  { replace (k * y) with (y + (k - 1) * y) by ring. rewrite exp_plus. apply Rmult_le_compat_l; [left; apply exp_pos|].
    apply Rle_trans with (exp (m / (1 + m) * y)).
    - assert ((k - 1) * y <= m / (1 + m) * y) as L. { apply Rmult_le_compat_r; auto. apply (Rmult_le_reg_r (1 + m)); [lra|]. replace (m / (1 + m) * (1 + m)) with m by (field; lra). unfold k. lra. }
      destruct L as [L| ->]; [left; apply exp_increasing; auto|lra].
    - eapply Rle_trans; [apply weighted|right; field; lra]. split; [apply Rmult_le_pos; [lra|left; apply Rinv_0_lt_compat; lra]|]. apply (Rmult_le_reg_r (1 + m)); [lra|]. replace (m / (1 + m) * (1 + m)) with m by (field; lra). lra. }
  rewrite Et at 1. apply (Rmult_le_compat_l (s * (1 + m))) in B; [|apply Rmult_le_pos; lra].
  replace (s * (1 + m) * (exp y * ((1 + m * exp y) / (1 + m)))) with (s * exp y * (1 + m * exp y)) in B by (field; lra). exact B.
Qed.

(** With drawing, which is the default, every check writes past the end of a vector *)
Lemma setAt_length {A} : forall (l : list A) i a l', setAt l i a = Some l' -> (i < length l)%nat /\ length l' = length l.
Proof.
  induction l as [|b l IH]; intros i a l' E; [destruct i; discriminate|]. destruct i as [|i]; cbn in *; [inversion E; cbn; lia|]. destruct (setAt l i a) eqn:S; [|discriminate]. inversion E. apply IH in S. cbn. lia.
Qed.
Lemma fill_length : forall l target i t', fill target i l = Some t' -> l = [] \/ (i + length l <= length target)%nat.
Proof.
  induction l as [|r l IH]; intros target i t' E; auto. right. cbn [fill] in E. destruct (setAt target i r) eqn:S; [|discriminate]. apply setAt_length in S as [B L]. apply IH in E. cbn [length]. destruct E as [->|E]; cbn; lia.
Qed.
Theorem C131_draw_refuted : forall {X V} lsq (update : X -> V -> X) scale tol f g h b x error,
  checkGradient lsq update scale tol f g b x true = None /\ checkJacobian lsq update scale tol error b x true = None /\ checkHessian lsq update scale tol f g h b x true = None.
Proof.
  intros X V lsq update scale tol f g h b x error.
  assert (forall order value, check lsq update scale tol order value b x true = None) as K; [|split; [|split]; apply K].
  intros order value. unfold check. assert (length (evaluations update scale value b x steps) = 100%nat) as L. { rewrite <- steps_length. generalize steps. intro l. clear. revert x. induction l as [|t l IH]; intro x; cbn; auto. }
  revert L. generalize (evaluations update scale value b x steps). intros ys L. unfold returnSlope.
  destruct (line_found ltbNaN (polyfitNaN lsq) (map log10 steps) (map log10 ys) rangeSize) as [i [Hi ->]]; [rewrite map_length, steps_length; unfold rangeSize; lia|rewrite !map_length, steps_length; auto|].
  rewrite map_length, steps_length in Hi. replace (i + rangeSize + 1 - i)%nat with 11%nat by (unfold rangeSize; lia).
  destruct (fill (repeat 0 rangeSize) 0 (firstn 11 (skipn i steps))) as [t|] eqn:F; [|reflexivity]. exfalso. apply fill_length in F. rewrite repeat_length, firstn_length, skipn_length, steps_length in F. unfold rangeSize in *.
  destruct F as [F|F]; [|lia]. apply (f_equal (@length R)) in F. rewrite firstn_length, skipn_length, steps_length in F. cbn [length] in F. lia.
Qed.
Print Assumptions C129_iterated.
Print Assumptions C129_exact.
Print Assumptions C129_points.
Print Assumptions C130_least_squares.
Print Assumptions C130_reproduces.
Print Assumptions C131_gradient_partial.
Print Assumptions C131_jacobian_partial.
Print Assumptions C131_hessian_partial.
Print Assumptions C131_polynomial.
Print Assumptions C131_tiny_refuted.
Print Assumptions C131_curved_refuted.
Print Assumptions C131_draw_refuted.
