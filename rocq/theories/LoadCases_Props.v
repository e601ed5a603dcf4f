(** Property C164: load cases of a linear structure superpose and are reciprocal. *)

From Coq Require Import List Arith ZArith Bool Reals Lia Lra FunctionalExtensionality.
From Coquelicot Require Import Coquelicot.
From Verif Require Import FEHelper_Model Assembler_Model Assembler_Spec Assembler_Proofs Assembler_Props Newton_Model Newton_Spec Newton_Proofs Newton_Props.
From Verif Require Import Tensor_Spec Conversions_Props Element_Spec Element_Model Element_Proofs Element_Props Truss_Model Truss_Props TrussSkill_Props
  AssemblyMesh_Model AssemblyMesh_Props StructureNewton_Model StructureNewton_Props Objectivity_Spec Objectivity_Props StructureReactions_Props LinearStructure_Props.
Import ListNotations.
Local Open Scope R_scope.

(** ** Specification *)

(** A load function of the program: position, load factor, direction.  A load case names the function of every load of a structure. *)
Definition loadCase : Type := nat -> (nat -> R) -> R -> nat -> R.

(** A place where a load acts: the shape functions, the quadrature points and the number of its load function (volume loads; boundary loads
    are the same with points of the boundary, C97) *)
Record loadPlace := mkPlace { l_shape : point -> nat -> R; l_points : list point; l_number : nat }.
(** A linear solid without the load functions *)
Record part := mkPart {
  p_children : list tree; p_index : nat -> nat; p_nodes : nat; p_points : list point; p_dN : point -> nat -> nat -> R; p_C : nat -> nat -> R;
  p_loads : list loadPlace }.

Lemma sumP_add {A} (l : list A) f g : sumP l (fun x => f x + g x) = sumP l f + sumP l g.
Proof. induction l as [|x l IH]; cbn; [ring|]. rewrite IH. ring. Qed.

Section LoadCases.
  Variable d : nat.
  Hypothesis d3 : (0 < d <= 3)%nat.
  Variables (flags : list bool) (parts : list part).
  Let n := length flags.

  Definition elasticOf (q : part) : skill :=
    linearSkill d (p_nodes q) (voigtLength d) (p_points q) (smallStrain d (p_nodes q) (p_dN q)) (smallBop d (p_dN q)) (p_C q).
  Definition loadsOf (c : loadCase) (lambda : R) (q : part) : list skill :=
    map (fun l => volumeSkill d (p_nodes q) (l_shape l) (Some (c (l_number l))) (l_points l) lambda) (p_loads q).
  (** The structure with the loads of a case at a load factor *)
  Definition structure (c : loadCase) (lambda : R) : list meshElement :=
    map (fun q => mkMeshElement (p_children q) (p_index q) (mixin (elasticOf q :: loadsOf c lambda q))) parts.

  (** Every part is a linear solid with nodes and dofs of the structure *)
  Definition wellFormed : Prop := forall q, In q parts ->
    symmetric (voigtLength d) (p_C q) /\ (forall v, 0 <= form (voigtLength d) (p_C q) v) /\
    (forall gp, In gp (p_points q) -> 0 <= integrationElement gp * weight gp) /\
    let dofs := globalIndices (p_index q) (Power (p_children q)) in
    length dofs = (d * p_nodes q)%nat /\ (forall i, In i dofs -> (i < n)%nat) /\
    exists m ls, p_children q = map Leaf ls /\ ls <> [] /\ forall l, In l ls -> length l = m.

  (** The loads of c3 at lambda3 are a times those of c1 at lambda1 plus b times those of c2 at lambda2 *)
  Definition combined (a b : R) (c1 : loadCase) (lambda1 : R) (c2 : loadCase) (lambda2 : R) (c3 : loadCase) (lambda3 : R) : Prop :=
    forall number x k, (k < d)%nat -> c3 number x lambda3 k = a * c1 number x lambda1 k + b * c2 number x lambda2 k.
  Definition combination (a b : R) (U1 U2 : nat -> R) (i : nat) : R := a * U1 i + b * U2 i.
  (** the work of the loads of a case, which are minus the forces of the undeformed structure *)
  Definition workOfLoads (c : loadCase) (lambda : R) (U : nat -> R) : R := - dot n (forcesAt flags (structure c lambda) (fun _ => 0)) U.

  (** ** Proofs *)
  Hypothesis wf : wellFormed.

  Lemma solids_of c lambda : forall e, In e (structure c lambda) -> exists q, In q parts /\ e = mkMeshElement (p_children q) (p_index q) (mixin (elasticOf q :: loadsOf c lambda q)) /\
    linearSolid d n e (elasticOf q).
  Proof.
    intros e He. apply in_map_iff in He as (q & <- & Hq). exists q. split; [exact Hq|split; [reflexivity|]].
    destruct (wf q Hq) as (Sy & Po & Vo & L & B & T). exists (p_nodes q), (p_points q), (p_dN q), (p_C q), (loadsOf c lambda q).
    split; [reflexivity|]. split; [reflexivity|]. split; [|split; [exact Sy|split; [exact Po|split; [exact Vo|split; [exact L|split; [exact B|exact T]]]]]].
    intros sk Hs. apply in_map_iff in Hs as (l & <- & _). do 4 eexists. reflexivity.
  Qed.

  Lemma gradient_linear q gp a b (u1 u2 : nat -> R) k j :
    displacementGradientOf d (p_nodes q) (p_dN q gp) (combination a b u1 u2) k j =
    a * displacementGradientOf d (p_nodes q) (p_dN q gp) u1 k j + b * displacementGradientOf d (p_nodes q) (p_dN q gp) u2 k j.
  Proof. unfold displacementGradientOf, combination. rewrite <- !sum_mul_l, <- sum_add. apply sum_ext. intros. ring. Qed.

  (** C164: strains, and with them the stresses of the linear material, superpose at every point *)
  Theorem C164_strains q gp a b (u1 u2 : nat -> R) m :
    let strain u := smallStrain d (p_nodes q) (p_dN q) gp u in
    strain (combination a b u1 u2) m = a * strain u1 m + b * strain u2 m /\
    linearStress_ (voigtLength d) (fun _ => p_C q) (strain (combination a b u1 u2)) m =
      a * linearStress_ (voigtLength d) (fun _ => p_C q) (strain u1) m + b * linearStress_ (voigtLength d) (fun _ => p_C q) (strain u2) m.
  Proof.
    cbv zeta. assert (S1 : forall m, smallStrain d (p_nodes q) (p_dN q) gp (combination a b u1 u2) m =
      a * smallStrain d (p_nodes q) (p_dN q) gp u1 m + b * smallStrain d (p_nodes q) (p_dN q) gp u2 m).
    { intros i. unfold smallStrain, strainVector. destruct (component d i) as (x, y). rewrite !gradient_linear. destruct (x =? y)%nat; ring. }
    split; [apply S1|]. unfold linearStress_, apply. rewrite <- !sum_mul_l, <- sum_add. apply sum_ext. intros l _. rewrite S1. ring.
  Qed.

  Lemma localOf_linear (e : meshElement) a b U1 U2 k :
    (exists m ls, me_children e = map Leaf ls /\ ls <> [] /\ forall l, In l ls -> length l = m) ->
    (forall i, In i (me_dofs e) -> (i < n)%nat) -> (k < length (me_dofs e))%nat ->
    localOf n e (combination a b U1 U2) k = combination a b (localOf n e U1) (localOf n e U2) k.
  Proof. intros. unfold combination. rewrite !localOf_dofs by assumption. reflexivity. Qed.

  Section Combined.
    Variables (a b : R) (c1 : loadCase) (lambda1 : R) (c2 : loadCase) (lambda2 : R) (c3 : loadCase) (lambda3 : R).
    Hypothesis comb : combined a b c1 lambda1 c2 lambda2 c3 lambda3.

    Lemma part_forces q u1 u2 u3 k : (forall k, (k < d * p_nodes q)%nat -> u3 k = combination a b u1 u2 k) -> (k < d * p_nodes q)%nat ->
      skillVector (mixin (elasticOf q :: loadsOf c3 lambda3 q)) u3 zeroVector k =
      a * skillVector (mixin (elasticOf q :: loadsOf c1 lambda1 q)) u1 zeroVector k + b * skillVector (mixin (elasticOf q :: loadsOf c2 lambda2 q)) u2 zeroVector k.
    Proof.
      intros E Hk.
      assert (Ad : forall c lambda sk, In sk (elasticOf q :: loadsOf c lambda q) -> addsForces (d * p_nodes q) sk).
      { intros c lambda sk [<-|Hs] u force j Hj.
        - unfold elasticOf. cbn [linearSkill skillVector]. unfold linearVector. rewrite !(vector_sum d (p_nodes q) _ _ (proj1 d3)) by exact Hj. unfold zeroVector. ring.
        - apply in_map_iff in Hs as (l & <- & _). cbn [volumeSkill skillVector volumeVector]. rewrite !pointForce_fold by (try exact Hj; apply d3). unfold zeroVector. ring. }
      assert (S1 : forall gp m, smallStrain d (p_nodes q) (p_dN q) gp u3 m =
        a * smallStrain d (p_nodes q) (p_dN q) gp u1 m + b * smallStrain d (p_nodes q) (p_dN q) gp u2 m).
      { intros gp m. rewrite !(strain_of_bop d d3), <- !sum_mul_l, <- sum_add. apply sum_ext. intros j Hj. rewrite E by exact Hj. unfold smallBop, combination. ring. }
      rewrite !(mixin_adds (d * p_nodes q) _ _ zeroVector k (Ad _ _) Hk). unfold zeroVector at 1 3 5. cbn [sumP].
      assert (El : skillVector (elasticOf q) u3 zeroVector k = a * skillVector (elasticOf q) u1 zeroVector k + b * skillVector (elasticOf q) u2 zeroVector k).
      { unfold elasticOf. cbn [linearSkill skillVector]. unfold linearVector. rewrite !(vector_sum d (p_nodes q) _ _ (proj1 d3)) by exact Hk. unfold zeroVector.
        rewrite !Rplus_0_l. induction (p_points q) as [|gp l IH]; cbn [sumP]; [ring|]. rewrite IH.
        assert (X : pointVector d (voigtLength d) (smallBop d (p_dN q)) (linearStress_ (voigtLength d) (fun _ => p_C q) (smallStrain d (p_nodes q) (p_dN q) gp u3)) gp u3 k =
          a * pointVector d (voigtLength d) (smallBop d (p_dN q)) (linearStress_ (voigtLength d) (fun _ => p_C q) (smallStrain d (p_nodes q) (p_dN q) gp u1)) gp u1 k +
          b * pointVector d (voigtLength d) (smallBop d (p_dN q)) (linearStress_ (voigtLength d) (fun _ => p_C q) (smallStrain d (p_nodes q) (p_dN q) gp u2)) gp u2 k).
        { unfold pointVector. rewrite <- !Rmult_assoc, <- !sum_mul_l, <- Rmult_plus_distr_r, <- sum_add. f_equal. apply sum_ext. intros m _.
          assert (Y : linearStress_ (voigtLength d) (fun _ => p_C q) (smallStrain d (p_nodes q) (p_dN q) gp u3) m =
            a * linearStress_ (voigtLength d) (fun _ => p_C q) (smallStrain d (p_nodes q) (p_dN q) gp u1) m +
            b * linearStress_ (voigtLength d) (fun _ => p_C q) (smallStrain d (p_nodes q) (p_dN q) gp u2) m).
          { unfold linearStress_, apply. rewrite <- !sum_mul_l, <- sum_add. apply sum_ext. intros l' _. rewrite S1. ring. }
          rewrite Y. unfold smallBop. ring. }
        rewrite X. ring. }
      assert (Lo : sumP (loadsOf c3 lambda3 q) (fun sk => skillVector sk u3 zeroVector k) =
        a * sumP (loadsOf c1 lambda1 q) (fun sk => skillVector sk u1 zeroVector k) + b * sumP (loadsOf c2 lambda2 q) (fun sk => skillVector sk u2 zeroVector k)).
      { unfold loadsOf. rewrite !sumP_map. induction (p_loads q) as [|l ls IH]; cbn [sumP]; [ring|]. rewrite IH.
        cbn [volumeSkill skillVector volumeVector]. rewrite !pointForce_fold by (try exact Hk; apply d3). unfold zeroVector. rewrite !Rplus_0_l.
        assert (X : sumP (l_points l) (fun gp => - (l_shape l gp (k / d)%nat * c3 (l_number l) (position gp) lambda3 (k mod d) * vol gp)) =
          a * sumP (l_points l) (fun gp => - (l_shape l gp (k / d)%nat * c1 (l_number l) (position gp) lambda1 (k mod d) * vol gp)) +
          b * sumP (l_points l) (fun gp => - (l_shape l gp (k / d)%nat * c2 (l_number l) (position gp) lambda2 (k mod d) * vol gp))).
        { induction (l_points l) as [|gp ps IHp]; cbn [sumP]; [ring|]. rewrite IHp, (comb (l_number l)) by (apply Nat.mod_upper_bound; lia). ring. }
        rewrite X. ring. }
      rewrite El, Lo. ring.
    Qed.

    (** C164: the assembled forces superpose, at the free dofs as well as at the supports *)
    Theorem C164_forces U1 U2 i : (i < n)%nat ->
      forcesAt flags (structure c3 lambda3) (combination a b U1 U2) i =
      a * forcesAt flags (structure c1 lambda1) U1 i + b * forcesAt flags (structure c2 lambda2) U2 i.
    Proof.
      intros Hi.
      assert (F : forall c lambda U, forcesAt flags (structure c lambda) U i =
        sumP parts (fun q => let e := mkMeshElement (p_children q) (p_index q) (mixin (elasticOf q :: loadsOf c lambda q)) in
          sum (length (me_dofs e)) (fun k => if (dofOf e k =? i)%nat then forceOf n e U k else 0))).
      { intros c lambda U. unfold forcesAt, answer. fold n.
        assert (W : wfElements n (toElements n (structure c lambda))).
        { apply wf_any. intros e He. destruct (solids_of c lambda e He) as (q & _ & _ & S). destruct S as (? & ? & ? & ? & ? & _ & _ & _ & _ & _ & _ & _ & Rg & _). exact Rg. }
        rewrite (ask_raw_vector flags (structure c lambda) U W) by exact Hi. fold n. rewrite vecEntry_sum. unfold structure. rewrite sumP_map. reflexivity. }
      rewrite !F, <- !sumP_mul_l, <- sumP_add. apply sumP_ext. intros q Hq. cbv zeta. destruct (wf q Hq) as (_ & _ & _ & L & B & T).
      assert (D : forall sk, me_dofs (mkMeshElement (p_children q) (p_index q) sk) = globalIndices (p_index q) (Power (p_children q))) by reflexivity.
      rewrite !D, L, <- !sum_mul_l, <- sum_add. apply sum_ext. intros k Hk. unfold dofOf. rewrite !D. destruct (_ =? i)%nat; [|ring].
      unfold forceOf. cbn [me_skill]. apply part_forces; [|exact Hk]. intros j Hj.
      rewrite (localOf_linear (mkMeshElement (p_children q) (p_index q) (mixin (elasticOf q :: loadsOf c3 lambda3 q)))); [reflexivity|exact T|exact B|rewrite D, L; exact Hj].
    Qed.

    (** C164: with the combined loads the combined displacements are in equilibrium *)
    Theorem C164_superposition U1 U2 : equilibrium flags (structure c1 lambda1) U1 -> equilibrium flags (structure c2 lambda2) U2 ->
      equilibrium flags (structure c3 lambda3) (combination a b U1 U2).
    Proof. intros E1 E2 i Fi. rewrite C164_forces by (apply free_lt, Fi). rewrite (E1 i Fi), (E2 i Fi). ring. Qed.
  End Combined.

  (** C164: loads that are proportional to the load factor cause proportional displacements and reactions *)
  Theorem C164_load_factor (c : loadCase) (g : nat -> (nat -> R) -> nat -> R) lambda U : (forall number x l k, c number x l k = l * g number x k) ->
    (equilibrium flags (structure c 1) U -> equilibrium flags (structure c lambda) (fun i => lambda * U i)) /\
    forall i, (i < n)%nat -> forcesAt flags (structure c lambda) (fun i => lambda * U i) i = lambda * forcesAt flags (structure c 1) U i.
  Proof.
    intros P. assert (C : combined lambda 0 c 1 c 1 c lambda) by (intros number x k _; rewrite !P; ring).
    assert (E : (fun i => lambda * U i) = combination lambda 0 U U) by (apply functional_extensionality; intros; unfold combination; ring).
    rewrite E. split; [intros H; now apply (C164_superposition _ _ _ _ _ _ _ _ C)|]. intros i Hi. rewrite (C164_forces _ _ _ _ _ _ _ _ C) by exact Hi. ring.
  Qed.

  (** C164: the loads of one case do the same work on the displacements of another as the other way round *)
  Theorem C164_reciprocal c1 lambda1 c2 lambda2 U1 U2 : equilibrium flags (structure c1 lambda1) U1 -> equilibrium flags (structure c2 lambda2) U2 ->
    admissible flags U1 -> admissible flags U2 -> workOfLoads c1 lambda1 U2 = workOfLoads c2 lambda2 U1.
  Proof.
    intros E1 E2 A1 A2. set (none := fun (_ : nat) (_ : nat -> R) (_ : R) (_ : nat) => 0).
    assert (Gd : forall e, In e (structure none 0) -> goodAt n (fun _ => 0) e).
    { intros e He. destruct (solids_of none 0 e He) as (q & _ & _ & S1). apply (solid_good d d3 flags [e] (fun _ => elasticOf q)); [|now left].
      intros e' [<-|[]]. exact S1. }
    destruct (C147_raw flags (structure none 0) (fun _ => 0) Gd) as (_ & _ & _ & J & Sy0).
    assert (exists K, symmetric n K /\ forall c lambda U i, (i < n)%nat -> forcesAt flags (structure c lambda) U i = forcesAt flags (structure c lambda) (fun _ => 0) i + sum n (fun j => K i j * U j)) as (K & Sy & KF).
    { eexists. split; [exact Sy0|]. intros c lambda U i Hi.
      assert (C1 : combined 1 1 c lambda none 0 c lambda) by (intros number x k _; unfold none; ring).
      assert (Q := C164_forces _ _ _ _ _ _ _ _ C1 (fun _ => 0) U i Hi).
      replace (combination 1 1 (fun _ => 0) U) with U in Q by (apply functional_extensionality; intros; unfold combination; ring).
      rewrite Q, !Rmult_1_l. f_equal.
      assert (P : passes n (fun t k => t * U k) (fun _ => 0) U) by (intros k _; split; [ring|auto_derive; [exact I|ring]]).
      specialize (J i Hi _ _ P). cbv beta in J.
      assert (D : is_derive (fun t => t * forcesAt flags (structure none 0) U i) 0 (forcesAt flags (structure none 0) U i)) by (auto_derive; [exact I|ring]).
      assert (Ext : forall t, forcesAt flags (structure none 0) (fun k => t * U k) i = t * forcesAt flags (structure none 0) U i).
      { intros t. assert (C0 : combined t 0 none 0 none 0 none 0) by (intros number x k _; unfold none; ring).
        assert (Q2 := C164_forces _ _ _ _ _ _ _ _ C0 U U i Hi).
        replace (combination t 0 U U) with (fun k => t * U k) in Q2 by (apply functional_extensionality; intros; unfold combination; ring). rewrite Q2. ring. }
      assert (D2 := is_derive_ext _ _ _ _ (fun t => eq_sym (Ext t)) D).
      rewrite <- (is_derive_unique _ _ _ D2). exact (is_derive_unique _ _ _ J). }
    assert (W : forall c lambda U V, equilibrium flags (structure c lambda) U -> admissible flags V -> workOfLoads c lambda V = sum n (fun i => V i * sum n (fun j => K i j * U j))).
    { intros c lambda U V E A. unfold workOfLoads, dot. rewrite <- (Rmult_1_l (sum n _)), Ropp_mult_distr_l, <- sum_mul_l. apply sum_ext. intros i Hi.
      destruct (free_or_constrained flags i Hi) as [Fi|Ci]; [|rewrite (A i Ci); ring]. specialize (E i Fi). rewrite KF in E by exact Hi.
      replace (sum n (fun j => K i j * U j)) with (- forcesAt flags (structure c lambda) (fun _ => 0) i) by lra. ring. }
    rewrite (W _ _ _ _ E1 A2), (W _ _ _ _ E2 A1).
    rewrite (sum_ext n _ (fun i => sum n (fun j => U2 i * (K i j * U1 j)))) by (intros; symmetry; apply sum_mul_l). rewrite sum_swap.
    apply sum_ext. intros j Hj. rewrite <- sum_mul_l. apply sum_ext. intros i Hi. rewrite (Sy i j) by assumption. ring.
  Qed.
End LoadCases.
Print Assumptions C164_strains.
Print Assumptions C164_forces.
Print Assumptions C164_superposition.
Print Assumptions C164_load_factor.
Print Assumptions C164_reciprocal.

(** The rod of C161, fixed at its first node, under a load proportional to the load factor: displacement 3/2 at load factor 1, so 3 at 2 *)
Definition rodPart : part := mkPart [Leaf [0; 1]%nat] (fun i => i) 2 [rodPoint] rodDN (fun _ _ => 2) [mkPlace (fun _ _ => / 2) [rodPoint] 0].
Definition rodCase : loadCase := fun _ _ lambda _ => lambda * 6.
Example C164_applies : wellFormed 1 springFlags [rodPart] /\
  (forall number x l k, rodCase number x l k = l * 6) /\
  equilibrium springFlags (structure 1 [rodPart] rodCase 1) (fun i => match i with O => 0 | _ => 3 / 2 end) /\
  combined 1 2 3 rodCase 1 rodCase 4 rodCase 14 /\ workOfLoads 1 springFlags [rodPart] rodCase 1 (fun _ => 1) = 6.
Proof.
  split; [|split; [|split; [|split]]].
  - intros q [<-|[]]. split; [intros i j _ _; reflexivity|]. split; [intros v; unfold form; cbn; nra|].
    split; [intros gp [<-|[]]; cbn; lra|]. split; [reflexivity|].
    split; [cbn; intros i Hi; intuition lia|]. exists 2%nat, [[0; 1]]%nat. split; [reflexivity|split; [discriminate|intros l [<-|[]]; reflexivity]].
  - reflexivity.
  - intros i Fi. assert (Hi := free_lt _ _ Fi). destruct i as [|[|i]]; [discriminate Fi| |cbn in Hi; lia].
    unfold forcesAt, answer. cbn. unfold pointForce, addSegment, internalForces, linearStress_, apply, displacementDerivative, localOf. cbn.
    unfold smallStrain, smallBop, strainVector, displacementGradientOf, identity, rodDN, rodCase. cbn. field.
  - intros number x k _. unfold rodCase. ring.
  - unfold workOfLoads, dot, forcesAt, answer. cbn. unfold pointForce, addSegment, internalForces, linearStress_, apply, displacementDerivative, localOf. cbn.
    unfold smallStrain, smallBop, strainVector, displacementGradientOf, identity, rodDN, rodCase. cbn. field.
Qed.
