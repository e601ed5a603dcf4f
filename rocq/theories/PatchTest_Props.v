(** Property C168: the patch test of structures of displacement-based solids. *)

From Coq Require Import List Arith ZArith Bool Reals Lia Lra.
From Coquelicot Require Import Coquelicot.
From Verif Require Import FEHelper_Model Assembler_Model Assembler_Spec Assembler_Proofs Assembler_Props.
From Verif Require Import Tensor_Spec Conversions_Props Element_Spec Element_Model Element_Proofs Element_Props Truss_Props TrussSkill_Props
  Objectivity_Spec Objectivity_Props AssemblyMesh_Model AssemblyMesh_Props StructureNewton_Model StructureNewton_Props StructureReactions_Props LinearStructure_Props.
Import ListNotations.
Local Open Scope R_scope.

(** ** Specification *)

(** The stress tensor with the Voigt components S *)
Definition stressTensor (d : nat) (S : nat -> R) (p q : nat) : R :=
  sum (voigtLength d) (fun m => let (i, j) := component d m in if ((i =? p) && (j =? q) || (i =? q) && (j =? p))%nat%bool then S m else 0).

(** The nominal stress, the deformation gradient F times the stress tensor *)
Definition nominalStress (d : nat) (F : nat -> nat -> R) (S : nat -> R) (a q : nat) : R := sum d (fun p => F a p * stressTensor d S p q).

Section Patch.
  Variables (d nodes : nat) (flags : list bool) (mesh : list meshElement) (dofAt : nat -> nat -> nat) (X : nat -> nat -> R).
  Variables (nodesOf : meshElement -> list nat) (pointsOf : meshElement -> list point) (dNOf : meshElement -> point -> nat -> nat -> R).
  Let n := length flags.
  Let s := voigtLength d.

  (** A displacement field with the same gradient G everywhere *)
  Definition uniformField (c : nat -> R) (G : nat -> nat -> R) (U : nat -> R) : Prop :=
    forall m a, (m < nodes)%nat -> (a < d)%nat -> U (dofAt m a) = c a + sum d (fun b => G a b * X m b).

  (** Elements between the nodes of the structure, whose shape functions represent the places X of their nodes *)
  Definition patchMesh : Prop :=
    numbered d nodes n dofAt /\
    forall e, In e mesh -> connects d nodes dofAt e (nodesOf e) /\
      (exists m ls, me_children e = map Leaf ls /\ ls <> [] /\ forall l, In l ls -> length l = m) /\
      (forall i, In i (me_dofs e) -> (i < n)%nat) /\
      forall gp, In gp (pointsOf e) -> shapeDerivatives d (length (nodesOf e)) (fun i => X (nth i (nodesOf e) 0%nat)) (dNOf e) gp.

  (** The integral over the structure, by the quadrature of its elements, of derivative q of the shape function of node m.
      By Gauss' theorem it is zero for nodes inside the structure when the quadrature is exact. *)
  Definition surface (m q : nat) : R :=
    sumP mesh (fun e => sum (length (nodesOf e)) (fun i => if (nth i (nodesOf e) 0 =? m)%nat then sumP (pointsOf e) (fun gp => dNOf e gp i q * vol gp) else 0)).
  Definition inside (m : nat) : Prop := forall q, (q < d)%nat -> surface m q = 0.

  (** Every dof that is not constrained belongs to a node inside *)
  Definition supportedOutside : Prop := forall i, free flags i -> exists m a, (m < nodes)%nat /\ (a < d)%nat /\ i = dofAt m a /\ inside m.

  (** The elements have the forces of displacement-based solids: of Green-Lagrange strains and any material, *)
  Definition greenLagrangeForces (stress : (nat -> R) -> nat -> R) (U : nat -> R) : Prop :=
    forall e, In e mesh -> let nn := length (nodesOf e) in let u := localOf n e U in
      forall k, (k < d * nn)%nat ->
        skillVector (me_skill e) u zeroVector k =
        nonlinearVector d nn s (pointsOf e) (glStrain d nn (dNOf e)) (glBop d nn (dNOf e)) stress false u zeroVector k.
  (** or of small strains and the material matrix C *)
  Definition smallStrainForces (C : nat -> nat -> R) (U : nat -> R) : Prop :=
    forall e, In e mesh -> let nn := length (nodesOf e) in let u := localOf n e U in
      forall k, (k < d * nn)%nat ->
        skillVector (me_skill e) u zeroVector k =
        linearVector d nn s (pointsOf e) (smallStrain d nn (dNOf e)) (smallBop d (dNOf e)) (fun _ => C) false u zeroVector k.

  Definition uniformStrain (G : nat -> nat -> R) : nat -> R := strainVector d (greenLagrangeOf d G).
  Definition uniformSmallStrain (G : nat -> nat -> R) : nat -> R := strainVector d (fun a b => / 2 * (G a b + G b a)).

  (** ** Proofs *)
  Hypothesis d3 : (0 < d <= 3)%nat.

  Lemma local_node e U i a : patchMesh -> In e mesh -> (i < length (nodesOf e))%nat -> (a < d)%nat -> localOf n e U (d * i + a)%nat = U (dofAt (nth i (nodesOf e) 0%nat) a).
  Proof.
    intros (_ & M) He Hi Ha. destruct (M e He) as ((_ & L & E) & Pb & Rg & _). rewrite localOf_dofs by (try assumption; rewrite L; nia). now rewrite E.
  Qed.

  (** C168: all elements have the displacement gradient G *)
  Theorem C168_gradient c G U e gp k a : patchMesh -> uniformField c G U -> In e mesh -> In gp (pointsOf e) -> (k < d)%nat -> (a < d)%nat ->
    displacementGradientOf d (length (nodesOf e)) (dNOf e gp) (localOf n e U) k a = G k a.
  Proof.
    intros P Uf He Hgp Hk Ha. assert (P2 := P). destruct P2 as (Nu & M). destruct (M e He) as ((In' & L & E) & _ & _ & Sh).
    destruct (Sh gp Hgp a Ha) as (Z & D). unfold displacementGradientOf.
    rewrite (sum_ext _ _ (fun i => dNOf e gp i a * c k + sum d (fun b => G k b * (X (nth i (nodesOf e) 0%nat) b * dNOf e gp i a)))).
    - rewrite sum_add, sum_mul_r, Z, sum_swap.
      rewrite (sum_ext d _ (fun b => identity a b * G k b)).
      + rewrite sum_id_l by assumption. ring.
      + intros b Hb. rewrite sum_mul_l, (D b Hb). unfold identity. rewrite (Nat.eqb_sym b a). ring.
    - intros i Hi. rewrite (local_node e U i k P He Hi Hk), Uf by (try assumption; apply In', nth_In, Hi).
      rewrite Rmult_plus_distr_r, <- sum_mul_r. f_equal; [ring|]. apply sum_ext. intros. ring.
  Qed.

  Lemma cb m : (fst (component d m) < d /\ snd (component d m) < d)%nat. Proof. apply (component_bound d 0); lia. Qed.

  (** C168: and the strain of G *)
  Theorem C168_strain c G U e gp m : patchMesh -> uniformField c G U -> In e mesh -> In gp (pointsOf e) ->
    glStrain d (length (nodesOf e)) (dNOf e) gp (localOf n e U) m = uniformStrain G m /\
    smallStrain d (length (nodesOf e)) (dNOf e) gp (localOf n e U) m = uniformSmallStrain G m.
  Proof.
    intros P Uf He Hgp. unfold glStrain, smallStrain, uniformStrain, uniformSmallStrain, strainVector. destruct (cb m) as (Ha & Hb).
    destruct (component d m) as (a, b). cbn [fst snd] in *.
    assert (Q := fun k l => C168_gradient c G U e gp k l P Uf He Hgp). unfold greenLagrangeOf.
    rewrite !Q by assumption. rewrite (sum_ext d _ (fun k => G k a * G k b)) by (intros; now rewrite !Q). split; reflexivity.
  Qed.

  (** The raw forces of a structure all of whose elements have the same nominal stress P *)
  Lemma uniform_forces P U m a : patchMesh -> (m < nodes)%nat -> (a < d)%nat ->
    (forall e i b, In e mesh -> (i < length (nodesOf e))%nat -> (b < d)%nat ->
       skillVector (me_skill e) (localOf n e U) zeroVector (d * i + b)%nat = sum d (fun q => P b q * sumP (pointsOf e) (fun gp => dNOf e gp i q * vol gp))) ->
    forcesAt flags mesh U (dofAt m a) = sum d (fun q => P a q * surface m q).
  Proof.
    intros (Nu & M) Hm Ha F. unfold forcesAt, answer.
    assert (W : wfElements n (toElements n mesh)) by (apply wf_any; intros e He; apply (M e He)).
    fold n. rewrite (ask_raw_vector flags mesh U W) by (apply (Nu m a); assumption). fold n. rewrite vecEntry_sum.
    rewrite (sum_ext d _ (fun q => sumP mesh (fun e => P a q * sum (length (nodesOf e)) (fun i => if (nth i (nodesOf e) 0 =? m)%nat then sumP (pointsOf e) (fun gp => dNOf e gp i q * vol gp) else 0))))
      by (intros; symmetry; apply sumP_mul_l).
    rewrite <- sumP_swap. apply sumP_ext. intros e He. destruct (M e He) as ((In' & L & E) & _).
    rewrite L, sum_blocks. rewrite (sum_ext d _ (fun q => sum (length (nodesOf e)) (fun i => if (nth i (nodesOf e) 0 =? m)%nat then P a q * sumP (pointsOf e) (fun gp => dNOf e gp i q * vol gp) else 0)))
      by (intros; rewrite <- sum_mul_l; apply sum_ext; intros; destruct (_ =? _)%nat; ring).
    rewrite (sum_swap d). apply sum_ext. intros i Hi. assert (Hn : (nth i (nodesOf e) 0 < nodes)%nat) by (apply In', nth_In, Hi).
    rewrite (sum_pick d a); [|assumption|].
    - unfold dofOf. rewrite E by assumption. destruct (Nat.eqb_spec (nth i (nodesOf e) 0%nat) m) as [Eq|Ne].
      + rewrite Eq, Nat.eqb_refl. unfold forceOf. now rewrite F.
      + destruct (Nat.eqb_spec (dofAt (nth i (nodesOf e) 0%nat) a) (dofAt m a)) as [Eq|].
        * destruct (Nu _ a Hn Ha) as (_ & J). destruct (J m a Hm Ha Eq). contradiction.
        * rewrite sum_zero; [ring|]. reflexivity.
    - intros b Hb Nb. unfold dofOf. rewrite E by assumption. destruct (Nat.eqb_spec (dofAt (nth i (nodesOf e) 0%nat) b) (dofAt m a)) as [Eq|]; [|reflexivity].
      destruct (Nu _ b Hn Hb) as (_ & J). destruct (J m a Hm Ha Eq). contradiction.
  Qed.

  Lemma nominal (F : nat -> nat -> R) (dn S : nat -> R) a : (a < d)%nat ->
    sum s (fun m => strainVector d (fun p q => / 2 * (F a p * dn q + F a q * dn p)) m * S m) = sum d (fun q => nominalStress d F S a q * dn q).
  Proof.
    intros Ha. unfold s, nominalStress, stressTensor, strainVector.
    assert (D : d = 1%nat \/ d = 2%nat \/ d = 3%nat) by lia. clear -D. destruct D as [->|[->| ->]]; cbn; field.
  Qed.

  (** C168: the forces at the dofs are those of one nominal stress; they vanish at the nodes inside *)
  Theorem C168_forces stress c G U m a : patchMesh -> uniformField c G U -> greenLagrangeForces stress U ->
    (forall e e', (forall k, (k < s)%nat -> e k = e' k) -> forall k, (k < s)%nat -> stress e k = stress e' k) -> (m < nodes)%nat -> (a < d)%nat ->
    forcesAt flags mesh U (dofAt m a) =
    sum d (fun q => nominalStress d (fun k l => identity k l + G k l) (stress (uniformStrain G)) a q * surface m q).
  Proof.
    intros P Uf Gf On Hm Ha. apply uniform_forces; [assumption..|]. intros e i b He Hi Hb. set (ns := nodesOf e) in *.
    assert (Hk : (d * i + b < d * length ns)%nat) by nia. rewrite (Gf e He) by exact Hk. fold ns. unfold nonlinearVector. rewrite vector_sum by (try assumption; lia).
    unfold zeroVector at 1. rewrite Rplus_0_l.
    rewrite (sum_ext d _ (fun q => sumP (pointsOf e) (fun gp => nominalStress d (fun k l => identity k l + G k l) (stress (uniformStrain G)) b q * dNOf e gp i q * vol gp)))
      by (intros; rewrite <- sumP_mul_l; apply sumP_ext; intros; ring).
    rewrite <- sumP_swap. apply sumP_ext. intros gp Hgp. unfold pointVector. destruct (block_index d i b Hb) as (-> & ->). rewrite sum_mul_r. f_equal.
    rewrite <- nominal by assumption. apply sum_ext. intros k Hk'. f_equal.
    - unfold glBop, glFirst, strainVector. destruct (cb k) as (Hp & Hq). destruct (component d k) as (p, q). cbn [fst snd] in *.
      rewrite !(C168_gradient c G U e gp) by assumption. reflexivity.
    - apply On; [|exact Hk']. intros l _. apply (C168_strain c G U e gp l P Uf He Hgp).
  Qed.

  Theorem C168_small_forces C c G U m a : patchMesh -> uniformField c G U -> smallStrainForces C U -> (m < nodes)%nat -> (a < d)%nat ->
    forcesAt flags mesh U (dofAt m a) = sum d (fun q => stressTensor d (apply s C (uniformSmallStrain G)) a q * surface m q).
  Proof.
    intros P Uf Gf Hm Ha. apply uniform_forces; [assumption..|]. intros e i b He Hi Hb. set (ns := nodesOf e) in *.
    assert (Hk : (d * i + b < d * length ns)%nat) by nia. rewrite (Gf e He) by exact Hk. fold ns. unfold linearVector. rewrite vector_sum by (try assumption; lia).
    unfold zeroVector at 1. rewrite Rplus_0_l.
    rewrite (sum_ext d _ (fun q => sumP (pointsOf e) (fun gp => stressTensor d (apply s C (uniformSmallStrain G)) b q * dNOf e gp i q * vol gp)))
      by (intros; rewrite <- sumP_mul_l; apply sumP_ext; intros; ring).
    rewrite <- sumP_swap. apply sumP_ext. intros gp Hgp. unfold pointVector. destruct (block_index d i b Hb) as (-> & ->). rewrite sum_mul_r. f_equal.
    rewrite (sum_ext d _ (fun q => nominalStress d identity (apply s C (uniformSmallStrain G)) b q * dNOf e gp i q))
      by (intros; unfold nominalStress; rewrite sum_id_l by assumption; ring).
    rewrite <- nominal by assumption. apply sum_ext. intros k Hk'. f_equal.
    unfold linearStress_, apply. apply sum_ext. intros l _. f_equal. apply (C168_strain c G U e gp l P Uf He Hgp).
  Qed.

  (** C168: a uniform field with the dofs of the nodes outside constrained is in equilibrium *)
  Theorem C168_equilibrium c G U : patchMesh -> uniformField c G U -> supportedOutside ->
    ((exists stress, greenLagrangeForces stress U /\ forall e e', (forall k, (k < s)%nat -> e k = e' k) -> forall k, (k < s)%nat -> stress e k = stress e' k) \/
     exists C, smallStrainForces C U) -> equilibrium flags mesh U.
  Proof.
    intros P Uf So F i Fi. destruct (So i Fi) as (m & a & Hm & Ha & -> & Is). destruct F as [(st & F & On)|(C & F)].
    - rewrite (C168_forces st c G U m a) by assumption. apply sum_zero. intros q Hq. rewrite (Is q Hq). ring.
    - rewrite (C168_small_forces C c G U m a) by assumption. apply sum_zero. intros q Hq. rewrite (Is q Hq). ring.
  Qed.

  (** Linear solids with one material matrix *)
  Definition solidOf (C : nat -> nat -> R) (e : meshElement) : skill :=
    linearSkill d (length (nodesOf e)) s (pointsOf e) (smallStrain d (length (nodesOf e)) (dNOf e)) (smallBop d (dNOf e)) C.
  Definition linearPatch (C : nat -> nat -> R) : Prop :=
    symmetric s C /\ (forall v, (exists m, (m < s)%nat /\ v m <> 0) -> 0 < form s C v) /\
    forall e, In e mesh -> me_skill e = mixin [solidOf C e] /\ forall gp, In gp (pointsOf e) -> 0 < integrationElement gp * weight gp.

  Lemma patch_small C U : linearPatch C -> smallStrainForces C U.
  Proof. intros (_ & _ & L) e He nn u k Hk. destruct (L e He) as (-> & _). reflexivity. Qed.

  Lemma patch_solids C e : patchMesh -> linearPatch C -> In e mesh -> linearSolid d n e (solidOf C e).
  Proof.
    intros (_ & M) (Sy & Pd & L) He. destruct (M e He) as ((_ & Le & _) & Pb & Rg & _). destruct (L e He) as (Sk & Vo).
    exists (length (nodesOf e)), (pointsOf e), (dNOf e), C, []. split; [reflexivity|]. split; [exact Sk|]. split; [intros sk []|]. split; [exact Sy|]. split.
    { intros v. destruct (classicV s v) as [Z|Ex]; [|apply Rlt_le, Pd, Ex]. apply Req_le. symmetry. unfold form. apply sum_zero. intros i Hi. rewrite (Z i Hi). ring. }
    split; [intros gp Hgp; apply Rlt_le, (Vo gp Hgp)|]. split; [exact Le|]. split; [exact Rg|exact Pb].
  Qed.

  (** C168: whatever is in equilibrium with the supports displaced by the uniform field has the strain of G everywhere *)
  Theorem C168_exact C c G U V : patchMesh -> linearPatch C -> uniformField c G U -> supportedOutside ->
    equilibrium flags mesh V -> (forall i, constrained flags i -> V i = U i) ->
    forall e gp m, In e mesh -> In gp (pointsOf e) -> (m < s)%nat ->
      smallStrain d (length (nodesOf e)) (dNOf e) gp (localOf n e V) m = uniformSmallStrain G m.
  Proof.
    intros P L Uf So Ev Eq e gp m He Hgp Hm.
    set (w := fun i => V i - U i).
    assert (Sol := fun e He => patch_solids C e P L He).
    destruct (C162_solids d d3 flags mesh (solidOf C) Sol) as (K & Lm & Fo).
    assert (Eu : equilibrium flags mesh U) by (apply (C168_equilibrium c G U P Uf So); right; exists C; apply patch_small, L).
    assert (Ew : equilibrium flags mesh (plusV U w)).
    { intros i Fi. rewrite <- (Ev i Fi). apply (same_state flags mesh K Lm); [|apply free_lt, Fi]. intros j _. unfold plusV, w. ring. }
    assert (Aw : admissible flags w) by (intros i Ci; unfold w; rewrite (Eq i Ci); ring).
    destruct (C162_unique flags mesh K Lm U w Eu Ew Aw) as (Z & _).
    rewrite (proj1 (Fo w)) in Z.
    assert (Pos : forall e, In e mesh -> 0 <= skillScalar (solidOf C e) (localOf n e w)).
    { intros e' He'. destruct (solid_consistent d d3 flags mesh (solidOf C) Sol e' He') as (_ & _ & _ & _ & _ & _ & _ & _ & Po & _). apply Po. }
    assert (Ze : forall l, (forall e, In e l -> In e mesh) -> sumP l (fun e => skillScalar (solidOf C e) (localOf n e w)) >= 0 /\
      (sumP l (fun e => skillScalar (solidOf C e) (localOf n e w)) = 0 -> forall e, In e l -> skillScalar (solidOf C e) (localOf n e w) = 0)).
    { induction l as [|x l IH]; intros Hl; cbn [sumP]; [split; [lra|intros _ ? []]|].
      destruct (IH (fun e H => Hl e (or_intror H))) as (I1 & I2). assert (Px := Pos x (Hl x (or_introl eq_refl))). split; [lra|].
      intros Zl y [<-|Hy]; [lra|apply I2; [lra|exact Hy]]. }
    assert (Z' : sumP mesh (fun e => skillScalar (solidOf C e) (localOf n e w)) = 0) by (unfold n; lra).
    destruct L as (Sy & Pd & Lp). destruct (Lp e He) as (Sk & Vo).
    assert (N := C162_no_energy d (length (nodesOf e)) (pointsOf e) (dNOf e) C (localOf n e w) Pd Vo (proj2 (Ze mesh (fun _ H => H)) Z' e He) gp m Hgp Hm).
    rewrite <- (proj2 (C168_strain c G U e gp m P Uf He Hgp)). rewrite (strain_of_bop d d3) in *. rewrite (strain_of_bop d d3).
    apply Rminus_diag_uniq. rewrite <- sum_minus. rewrite <- N. apply sum_ext. intros k Hk.
    destruct (proj2 P e He) as ((_ & Le & _) & Pb & Rg & _).
    rewrite !localOf_dofs by (try assumption; rewrite Le; exact Hk). unfold w, smallBop. ring.
  Qed.

  (** C168: so has the state after one Newton step from any state with these supports, if the linear system is solved *)
  Theorem C168_step C c G U o lsolve y : patchMesh -> linearPatch C -> uniformField c G U -> supportedOutside -> o <> Raw ->
    solved flags mesh o lsolve y -> (forall i, constrained flags i -> y i = U i) ->
    let V := updateFunctor flags o y (lsolve (KFunction flags mesh o y) (residualFunction flags mesh o y)) in
    forall e gp m, In e mesh -> In gp (pointsOf e) -> (m < s)%nat ->
      smallStrain d (length (nodesOf e)) (dNOf e) gp (localOf n e V) m = uniformSmallStrain G m.
  Proof.
    intros P L Uf So Ho Sol Eq V.
    destruct (C162_solids d d3 flags mesh (solidOf C) (fun e He => patch_solids C e P L He)) as (K & Lm & _).
    apply (C168_exact C c G U V P L Uf So).
    - apply (C162_one_step flags mesh K Lm o lsolve y Ho Sol).
    - intros i Ci. rewrite <- (Eq i Ci). apply step_supports; try assumption. intros e He. apply (proj2 P e He).
  Qed.
End Patch.
Print Assumptions C168_gradient.
Print Assumptions C168_strain.
Print Assumptions C168_forces.
Print Assumptions C168_small_forces.
Print Assumptions C168_equilibrium.
Print Assumptions C168_exact.
Print Assumptions C168_step.

(** Two rods, of lengths 1 and 2, between nodes at 0, 1 and 3; the ends are supported *)
Definition patchX (m _ : nat) : R := match m with O => 0 | 1%nat => 1 | _ => 3 end.
Definition patchPoint (l : R) : point := {| position := fun _ => / 2; integrationElement := l; weight := 1 |}.
Definition patchDN (gp : point) (i _ : nat) : R := match i with O => - / integrationElement gp | _ => / integrationElement gp end.
Definition patchRod (first : nat) (l : R) : meshElement :=
  mkMeshElement [Leaf [0; 1]%nat] (fun i => (first + i)%nat)
    (mixin [linearSkill 1 2 1 [patchPoint l] (smallStrain 1 2 patchDN) (smallBop 1 patchDN) (fun _ _ => 5)]).
Definition patchRods : list meshElement := [patchRod 0 1; patchRod 1 2].
Definition patchFlags : list bool := [true; false; true].
Definition patchNodes (e : meshElement) : list nat := me_dofs e.
Definition patchPoints (e : meshElement) : list point := match me_dofs e with O :: _ => [patchPoint 1] | _ => [patchPoint 2] end.

Example C168_applies :
  patchMesh 1 3 patchFlags patchRods (fun m _ => m) patchX patchNodes patchPoints (fun _ => patchDN) /\
  linearPatch 1 patchRods patchNodes patchPoints (fun _ => patchDN) (fun _ _ => 5) /\
  uniformField 1 3 (fun m _ => m) patchX (fun _ => 7) (fun _ _ => / 10) (fun m => 7 + / 10 * patchX m 0%nat) /\
  supportedOutside 1 3 patchFlags patchRods (fun m _ => m) patchNodes patchPoints (fun _ => patchDN) /\
  surface patchRods patchNodes patchPoints (fun _ => patchDN) 0 0 = -1 /\
  forcesAt patchFlags patchRods (fun m => 7 + / 10 * patchX m 0%nat) 0%nat = - / 2.
Proof.
  assert (Pm : patchMesh 1 3 patchFlags patchRods (fun m _ => m) patchX patchNodes patchPoints (fun _ => patchDN)).
  { split.
    - intros m a Hm Ha. split; [cbn; lia|]. intros m' b _ Hb E. split; [exact E|lia].
    - intros e He. assert (L : exists f l, e = patchRod f l /\ (f = 0%nat /\ l = 1 \/ f = 1%nat /\ l = 2)) by (destruct He as [<-|[<-|[]]]; do 2 eexists; split; [reflexivity|auto|reflexivity|auto]).
      destruct L as (f & l & -> & L). split; [split; [|split]|split; [|split]].
      + cbn. intros m Hm. intuition lia.
      + reflexivity.
      + cbn. intros i a Hi Ha. destruct a; [|lia]. destruct i as [|[|i]]; [reflexivity|reflexivity|lia].
      + exists 2%nat, [[0; 1]]%nat. split; [reflexivity|split; [discriminate|intros x [<-|[]]; reflexivity]].
      + cbn. intros i Hi. intuition lia.
      + intros gp Hgp a Ha. destruct a; [|lia]. destruct L as [(-> & ->)|(-> & ->)]; destruct Hgp as [<-|[]]; cbn; unfold patchDN, patchX, identity; cbn;
          (split; [field|]; intros k Hk; destruct k; [|lia]; cbn; field). }
  assert (Lp : linearPatch 1 patchRods patchNodes patchPoints (fun _ => patchDN) (fun _ _ => 5)).
  { split; [intros i j _ _; reflexivity|]. split.
    - intros v (m & Hm & Nz). change (voigtLength 1) with 1%nat in *. destruct m; [|lia]. unfold form. cbn. nra.
    - intros e [<-|[<-|[]]]; (split; [reflexivity|]); intros gp [<-|[]]; cbn; lra. }
  assert (Uf : uniformField 1 3 (fun m _ => m) patchX (fun _ => 7) (fun _ _ => / 10) (fun m => 7 + / 10 * patchX m 0%nat)).
  { intros m a _ Ha. destruct a; [|lia]. cbn. ring. }
  assert (S0 : surface patchRods patchNodes patchPoints (fun _ => patchDN) 0 0 = -1).
  { unfold surface. cbn. unfold patchDN, vol. cbn. field. }
  split; [exact Pm|]. split; [exact Lp|]. split; [exact Uf|]. split; [|split; [exact S0|]].
  - intros i Fi. assert (Hi := free_lt _ _ Fi). exists 1%nat, 0%nat. split; [lia|]. split; [lia|].
    split; [destruct i as [|[|[|i]]]; [discriminate Fi|reflexivity|discriminate Fi|cbn in Hi; lia]|].
    intros q Hq. destruct q; [|lia]. unfold surface. cbn. unfold patchDN, vol. cbn. field.
  - rewrite (C168_small_forces 1 3 patchFlags patchRods (fun m _ => m) patchX patchNodes patchPoints (fun _ => patchDN) ltac:(lia) (fun _ _ => 5) (fun _ => 7) (fun _ _ => / 10) _ 0 0 Pm Uf
      (patch_small _ _ _ _ _ _ _ _ Lp)) by lia.
    cbn [sum]. rewrite S0. unfold stressTensor, apply, uniformSmallStrain, strainVector. cbn. field.
Qed.
