(** Model of the life of an element object with enhanced strains or assumed stresses: ikarus/finiteelements/febase.hh (bind),
    mixin.hh:198 (the skills are bound in the order in which they are listed), mechanics/linearelastic.hh:105-118 (nonlinearelastic.hh:112-125 is the same),
    mechanics/enhancedassumedstrains.hh, mechanics/strainenhancements/easvariants.hh, mechanics/assumedstress.hh, mechanics/assumedstress/asvariants.hh.

    An exception is caught by the caller and the object is used further: the state after the throw is part of the result.  What the integration loops
    compute is a parameter: a function of the bound grid element, of the integration points, of the modes (their number and the grid element they were made
    for), of the internal variables and of the request.  The matrices L_ and G_ are overwritten before every use (setZero) and left out. *)

From Coq Require Import List ZArith Bool.
Import ListNotations.
Local Open Scope Z_scope.

Inductive result (S : Type) := Done (s : S) | Throws (s : S) | Undefined.
Arguments Done {S}. Arguments Throws {S}. Arguments Undefined {S}.

Inductive answer (O : Type) := Returned (o : O) | Refused | NotDefined.
Arguments Returned {O}. Arguments Refused {O}. Arguments NotDefined {O}.

(** What a user does with an element object: bind (febase.hh:112-115), bind with an integration rule (123-126), choose the number of parameters, updateState *)
Inductive operation (element points request correction : Type) :=
| Bind (e : element)
| BindRule (r : points) (e : element)
| SetType (n : Z)
| Update (q : request) (c : correction).
Arguments Bind {_ _ _ _}. Arguments BindRule {_ _ _ _}. Arguments SetType {_ _ _ _}. Arguments Update {_ _ _ _}.

(** Calculations: calculateVector, calculateMatrix, calculateScalar, calculateAt *)
Inductive calculation := Forces | Matrix | Energy | At.

Section Life.
Context {element points request correction output ivar : Type}.
Variables (dim : nat)                                   (** 2 or 3 *)
  (nodes : element -> nat)                              (** number of shape functions, fe.size() *)
  (defaultRule : element -> points).                    (** defaultQuadratureRule(element, 2 * order_) *)
Notation op := (operation element points request correction).

(** ** Enhanced strains *)
Section Enhanced.
Variables (gradients : bool)                            (** the displacement gradient is enhanced, not the strain *)
  (zero : Z -> ivar)                                    (** initializeState, enhancedassumedstrains.hh:373-376 *)
  (sameSize : request -> correction -> bool)            (** 231 *)
  (step : element -> points -> Z * option element -> request -> correction -> ivar -> ivar)        (** 236-243 *)
  (value : calculation -> element -> points -> Z * option element -> ivar -> request -> output).

(** [view]: bound element of the local view; [rule]: febase.hh rule_; [nodesKnown], [used]: numberOfNodes_ and the points of localBasis_;
    [geometry], [modes], [parameters]: geometry_, var_ (number and the geometry it was made with) and numberOfEASParameters_, easvariants.hh:157-159 *)
Record easLife := mkEasLife { view : option element; rule : option points; nodesKnown : nat; used : option points;
  geometry : option element; modes : Z * option element; parameters : Z; alpha : ivar }.

(** createEASType, easvariants.hh:101-156 *)
Definition available (n : Z) : bool :=
  if n =? 0 then true else
  match gradients, dim with
  | false, 2%nat => (n =? 4) || (n =? 5) || (n =? 7) || (n =? 11)
  | false, 3%nat => (n =? 9) || (n =? 21)
  | true, 2%nat => n =? 4
  | true, 3%nat => n =? 9
  | _, _ => false
  end.

(** easApplicabilityCheck, enhancedassumedstrains.hh:248-254 *)
Definition enhanceable (k : nat) : bool := (Nat.eqb k 4 && Nat.eqb dim 2) || (Nat.eqb k 9 && Nat.eqb dim 2) || (Nat.eqb k 8 && Nat.eqb dim 3).
Definition applicable (s : easLife) : bool := enhanceable (nodesKnown s) || (fst (modes s) =? 0).

(** setEASType, enhancedassumedstrains.hh:194-199 and easvariants.hh:87-91 *)
Definition setEASType (s : easLife) (n : Z) : result easLife :=
  if negb (n =? 0) && negb (applicable s) then Throws s else
  let s1 := mkEasLife (view s) (rule s) (nodesKnown s) (used s) (geometry s) (modes s) n (alpha s) in
  match geometry s with
  | None => Done (mkEasLife (view s) (rule s) (nodesKnown s) (used s) None (modes s) n (zero (fst (modes s))))
  | Some g => if available n then Done (mkEasLife (view s) (rule s) (nodesKnown s) (used s) (Some g) (n, Some g) n (zero n)) else Throws s1
  end.

(** The constructor, 82-89: setEASType is called while the skills listed later do not exist yet, numberOfNodes_ is a member of the elastic skill *)
Definition makeEas (enhancedFirst : bool) (n : Z) : result easLife :=
  if enhancedFirst && negb (n =? 0) then Undefined else
  setEASType (mkEasLife None None 0 None None (0, None) 0 (zero 0)) n.

(** linearelastic.hh:105-118 *)
Definition bindElastic (s : easLife) (e : element) : easLife :=
  mkEasLife (view s) (rule s) (nodes e) (Some (match rule s with Some r => r | None => defaultRule e end)) (geometry s) (modes s) (parameters s) (alpha s).
(** enhancedassumedstrains.hh:210-214, easvariants.hh:92-95 *)
Definition bindEnhanced (s : easLife) (e : element) : result easLife :=
  if available (parameters s) then Done (mkEasLife (view s) (rule s) (nodesKnown s) (used s) (Some e) (parameters s, Some e) (parameters s) (zero (parameters s)))
  else Throws (mkEasLife (view s) (rule s) (nodesKnown s) (used s) (Some e) (modes s) (parameters s) (alpha s)).
(** febase.hh:112-115 *)
Definition bindEas (enhancedFirst : bool) (s : easLife) (e : element) : result easLife :=
  let s1 := mkEasLife (Some e) (rule s) (nodesKnown s) (used s) (geometry s) (modes s) (parameters s) (alpha s) in
  if enhancedFirst then match bindEnhanced s1 e with Done s2 => Done (bindElastic s2 e) | r => r end
  else bindEnhanced (bindElastic s1 e) e.
(** 123-126 *)
Definition bindRuleEas (enhancedFirst : bool) (s : easLife) (r : points) (e : element) : result easLife :=
  bindEas enhancedFirst (mkEasLife (view s) (Some r) (nodesKnown s) (used s) (geometry s) (modes s) (parameters s) (alpha s)) e.

(** updateStateImpl, enhancedassumedstrains.hh:225-246 *)
Definition updateEas (s : easLife) (q : request) (c : correction) : result easLife :=
  if negb (applicable s) then Throws s else
  if fst (modes s) =? 0 then Done s else
  if negb (sameSize q c) then Throws s else
  match view s, used s with
  | Some e, Some ps => Done (mkEasLife (view s) (rule s) (nodesKnown s) (used s) (geometry s) (modes s) (parameters s) (step e ps (modes s) q c (alpha s)))
  | _, _ => Undefined
  end.

(** calculateMatrixImpl 257-298, calculateScalarImpl 301-310, calculateVectorImpl 312-347, calculateAtImpl 127-187 (which has no applicability check) *)
Definition calculateEas (s : easLife) (k : calculation) (q : request) : answer output :=
  let go := match view s, used s with Some e, Some ps => Returned (value k e ps (modes s) (alpha s) q) | _, _ => NotDefined end in
  match k with
  | At => go
  | Energy => if negb (applicable s) then Refused else if fst (modes s) =? 0 then go else Refused
  | _ => if negb (applicable s) then Refused else go
  end.

Definition applyEas (enhancedFirst : bool) (s : easLife) (o : op) : result easLife :=
  match o with
  | Bind e => bindEas enhancedFirst s e
  | BindRule r e => bindRuleEas enhancedFirst s r e
  | SetType n => setEASType s n
  | Update q c => updateEas s q c
  end.
End Enhanced.

(** ** Assumed stresses *)
Section Assumed.
Context {strain : Type}.
Variables (zero : Z -> ivar)
  (pointsOf : element -> points -> list nat)            (** the integration points, by index *)
  (noStrain : strain)
  (inversion : element -> points -> Z * option element -> ivar -> nat -> strain -> strain)         (** materialInversion at one point, assumedstress.hh:448-451; the first argument
                                                            of the pair (the inverted tangent) is a function of the same data and left out *)
  (sameSize : request -> correction -> bool)            (** 210 *)
  (step : element -> points -> Z * option element -> list strain -> request -> correction -> ivar -> ivar)   (** 215-223 *)
  (value : calculation -> element -> points -> Z * option element -> list strain -> ivar -> request -> output).

(** as above; [beta] and [strains]: beta_ and strainStates_ *)
Record asLife := mkAsLife { aView : option element; aRule : option points; aNodes : nat; aUsed : option points;
  aGeometry : option element; aModes : Z * option element; aParameters : Z; aBeta : ivar; aStrains : list strain }.

(** createAssumedStressType, asvariants.hh:82-112 *)
Definition stressAvailable (n : Z) : bool :=
  match dim with 2%nat => n =? 5 | 3%nat => (n =? 18) || (n =? 24) || (n =? 30) | _ => false end.
(** the first alternative of the variant, asvariants.hh:20-29 *)
Definition firstModes : Z := match dim with 2%nat => 5 | _ => 18 end.
(** asApplicabilityCheck, assumedstress.hh:229-234 *)
Definition stressApplicable (s : asLife) : bool := (Nat.eqb (aNodes s) 4 && Nat.eqb dim 2) || (Nat.eqb (aNodes s) 8 && Nat.eqb dim 3).

(** std::vector::resize *)
Fixpoint resize (k : nat) (l : list strain) : list strain :=
  match k, l with O, _ => [] | S k, [] => noStrain :: resize k [] | S k, a :: l => a :: resize k l end.

(** calculateMaterialInversion, 443-455 *)
Fixpoint invertAll (e : element) (ps : points) (m : Z * option element) (b : ivar) (is : list nat) (l : list strain) : list strain :=
  match is, l with i :: is, a :: l => inversion e ps m b i a :: invertAll e ps m b is l | _, l => l end.

(** initializeState, 368-374; the element and its integration points are known here *)
Definition initializeStress (s : asLife) (e : element) (ps : points) : asLife :=
  let m := aModes s in let l := resize (length (pointsOf e ps)) (aStrains s) in
  mkAsLife (aView s) (aRule s) (aNodes s) (aUsed s) (aGeometry s) m (aParameters s) (zero (fst m)) (invertAll e ps m (zero (fst m)) (pointsOf e ps) l).

(** constructor, 87-93 *)
Definition makeAs (n : Z) : asLife := mkAsLife None None 0 None None (firstModes, None) n (zero 0) [].

(** febase.hh:112-126, linearelastic.hh:105-118, assumedstress.hh:190-194; the elastic skill is listed first *)
Definition bindAs (s : asLife) (e : element) : result asLife :=
  let ps := match aRule s with Some r => r | None => defaultRule e end in
  if stressAvailable (aParameters s)
  then Done (initializeStress (mkAsLife (Some e) (aRule s) (nodes e) (Some ps) (Some e) (aParameters s, Some e) (aParameters s) (aBeta s) (aStrains s)) e ps)
  else Throws (mkAsLife (Some e) (aRule s) (nodes e) (Some ps) (Some e) (aModes s) (aParameters s) (aBeta s) (aStrains s)).
Definition bindRuleAs (s : asLife) (r : points) (e : element) : result asLife :=
  bindAs (mkAsLife (aView s) (Some r) (aNodes s) (aUsed s) (aGeometry s) (aModes s) (aParameters s) (aBeta s) (aStrains s)) e.

(** setAssumedStressType, assumedstress.hh:176-180, asvariants.hh:71-75 *)
Definition setAssumedStressType (s : asLife) (n : Z) : result asLife :=
  if negb (stressApplicable s) then Throws s else
  let s1 := mkAsLife (aView s) (aRule s) (aNodes s) (aUsed s) (aGeometry s) (aModes s) n (aBeta s) (aStrains s) in
  match aGeometry s, aView s, aUsed s with
  | Some g, Some e, Some ps =>
      if stressAvailable n then Done (initializeStress (mkAsLife (aView s) (aRule s) (aNodes s) (aUsed s) (aGeometry s) (n, Some g) n (aBeta s) (aStrains s)) e ps) else Throws s1
  | _, _, _ => Undefined
  end.

(** updateStateImpl, 205-227 *)
Definition updateAs (s : asLife) (q : request) (c : correction) : result asLife :=
  if negb (stressApplicable s) then Throws s else if negb (sameSize q c) then Throws s else
  match aView s, aUsed s with
  | Some e, Some ps => let b := step e ps (aModes s) (aStrains s) q c (aBeta s) in
      Done (mkAsLife (aView s) (aRule s) (aNodes s) (aUsed s) (aGeometry s) (aModes s) (aParameters s) b (invertAll e ps (aModes s) b (pointsOf e ps) (aStrains s)))
  | _, _ => Undefined
  end.

(** calculateMatrixImpl 236-272, calculateScalarImpl 274-306, calculateVectorImpl 308-341, calculateAtImpl 124-169 (which has no applicability check) *)
Definition calculateAs (s : asLife) (k : calculation) (q : request) : answer output :=
  let go := match aView s, aUsed s with Some e, Some ps => Returned (value k e ps (aModes s) (aStrains s) (aBeta s) q) | _, _ => NotDefined end in
  match k with At => go | _ => if negb (stressApplicable s) then Refused else go end.

Definition applyAs (s : asLife) (o : op) : result asLife :=
  match o with
  | Bind e => bindAs s e
  | BindRule r e => bindRuleAs s r e
  | SetType n => setAssumedStressType s n
  | Update q c => updateAs s q c
  end.
End Assumed.
End Life.

(** A sequence of operations by a caller that catches exceptions: the state reached and which operations succeeded *)
Fixpoint history {S O : Type} (apply : S -> O -> result S) (s : S) (l : list O) : option (S * list (O * bool)) :=
  match l with
  | [] => Some (s, [])
  | o :: l =>
      match apply s o with
      | Done s1 => match history apply s1 l with Some (s2, t) => Some (s2, (o, true) :: t) | None => None end
      | Throws s1 => match history apply s1 l with Some (s2, t) => Some (s2, (o, false) :: t) | None => None end
      | Undefined => None
      end
  end.
