(** Model of the sizes of the vectors in path following of a structure with supports:
    ikarus/controlroutines/pathfollowing.inl, pathfollowingfunctions.hh, ikarus/solver/nonlinearsolver/newtonraphsonwithscalarsubsidiaryfunction.hh
    and the update function of nonlinearsolverfactory.hh.

    Only sizes are kept: [n] dofs of which [m] are free.  How often each solve iterates is a parameter, as it depends on the problem.
    [None]: an operation of Eigen on vectors of different sizes or an access out of range (assertion, undefined behaviour without it).
    Without inhomogeneous Dirichlet conditions; with them only the arc-length function compiles, and the additional vectors have the
    sizes of those here. *)

From Coq Require Import List Arith Bool.
From Verif Require Import Assembler_Model.
Import ListNotations.

Inductive pathFunction := Arc | LoadSubsidiary | Displacement (controlled : list nat).

(** sizes of the global solution, SubsidiaryArgs::DD and SubsidiaryArgs::dfdDD *)
Record pathSizes := mkSizes { zx : nat; zDD : nat; zdf : nat }.

Section Sizes.
  Variables (n m : nat) (o : dbc) (pf : pathFunction).

  (** size of the residual and of the corrections *)
  Definition residualSize : nat := match o with Reduced => m | _ => n end.

  Definition guard (b : bool) {A} (a : option A) : option A := if b then a else None.

  (** updateFunctor, nonlinearsolverfactory.hh:34-42, x of size [x] is updated by a vector of size [b] *)
  Definition updateDefined (x b : nat) : bool :=
    if match o with Reduced => true | _ => false end && (m =? b) then x =? n        (* x += createFullVector(b) *)
    else if (m =? x) && (n =? b) then true                                          (* x += createReducedVector(b) *)
    else x =? b.                                                                    (* x += b *)

  (** operator() of the path-following function, pathfollowingfunctions.hh:103-115, 231-236, 316-324 *)
  Definition evalSizes (computed : bool) (z : pathSizes) : option pathSizes :=
    match pf with
    | Arc => Some (if computed then mkSizes (zx z) (zDD z) (zDD z) else z)
    | LoadSubsidiary => Some z
    | Displacement idx => guard (forallb (fun i => i <? zDD z) idx && forallb (fun i => i <? zdf z) idx) (Some z)
    end.

  (** one iteration, newtonraphsonwithscalarsubsidiaryfunction.hh:255-307: the scalar products with dfdDD, the update and DD += deltaD *)
  Definition iterateSizes (computed : bool) (z : pathSizes) : option pathSizes :=
    guard ((zdf z =? residualSize) && updateDefined (zx z) residualSize && (zDD z =? residualSize)) (evalSizes computed z).

  Fixpoint iterations (k : nat) (computed : bool) (z : pathSizes) : option pathSizes :=
    match k with
    | O => Some z
    | S k' => match iterateSizes computed z with Some z' => iterations k' computed z' | None => None end
    end.

  (** solve, 207-316, with [k] iterations: dfdDD.resizeLike(Fext0), 242; first evaluation, 244 *)
  Definition solveSizes (k : nat) (computed : bool) (z : pathSizes) : option pathSizes :=
    match evalSizes computed (mkSizes (zx z) (zDD z) residualSize) with
    | Some z' => iterations k computed z'
    | None => None
    end.

  (** initialPrediction, pathfollowingfunctions.hh:132-174, 249-254, 337-343 *)
  Definition initialSizes (z : pathSizes) : option pathSizes :=
    match pf with
    | Arc => guard (updateDefined (zx z) residualSize) (Some (mkSizes (zx z) residualSize (zdf z)))
    | LoadSubsidiary => Some z
    | Displacement idx => guard (forallb (fun i => i <? zDD z) idx) (Some (mkSizes (zDD z) (zDD z) (zdf z)))
    end.

  (** intermediatePrediction, 187-195, 269-274, 356-362, after the initial prediction *)
  Definition intermediateSizes (z : pathSizes) : option pathSizes :=
    match pf with
    | Arc => guard (updateDefined (zx z) (zDD z)) (Some z)
    | LoadSubsidiary => Some z
    | Displacement _ => guard (zx z =? zDD z) (Some z)
    end.

  (** pathfollowing.inl:58-71; [counts]: the numbers of iterations of the solves that are made *)
  Fixpoint laterSteps (counts : list nat) (z : pathSizes) : option pathSizes :=
    match counts with
    | [] => Some z
    | k :: counts' =>
        match intermediateSizes z with
        | Some z1 => match solveSizes k true z1 with Some z2 => laterSteps counts' z2 | None => None end
        | None => None
        end
    end.

  (** pathfollowing.inl:28-77; [computed]: the member computedInitialPredictor left by an earlier run; SubsidiaryArgs::setZero,
      pathfollowingfunctions.hh:58-68, gives both vectors the size of the solution *)
  Definition runSizes (computed : bool) (counts : list nat) : option pathSizes :=
    let z0 := mkSizes n n n in
    match counts with
    | [] => Some z0
    | k :: rest =>
        match solveSizes k computed z0 with
        | None => None
        | Some z1 =>
            match rest with
            | [] => Some z1
            | k' :: rest' =>
                match initialSizes z1 with
                | None => None
                | Some z2 => match solveSizes k' true z2 with Some z3 => laterSteps rest' z3 | None => None end
                end
            end
        end
    end.
End Sizes.
