(** Model of the wrappers of Muesli materials, ikarus/finiteelements/mechanics/materials/muesli/mueslifinite.hh, mueslismall.hh and
    mueslihelpers.hh: objects that keep a material point, which every call updates before it reads a result from it.

    External: the Muesli library.  Its elastic material points return energy, stress and moduli as functions of the material properties
    and of the state set last with updateCurrentState; this is the contract expressed by [fEnergy], [fStress], [fModuli] (finite strain)
    and [sEnergy], [sStress], [sModuli] (small strain).  istensor and itensor are Muesli's tensors of nine entries, with the order of
    constructor arguments that mueslihelpers.hh uses. *)

From Coq Require Import List Arith Reals Bool.
From Verif Require Import Tensor_Model SVK_Model Conversions_Model NeoHooke_Model.
Import ListNotations.
Local Open Scope R_scope.

(** A symmetric tensor from its six constructor arguments 00, 11, 22, 12, 20, 01 *)
Definition istensor (a00 a11 a22 a12 a20 a01 : R) : rmat :=
  entries [[a00; a01; a20]; [a01; a11; a12]; [a20; a12; a22]].
(** mueslihelpers.hh 57-59 *)
Definition toistensor (C : rmat) : rmat :=
  istensor (C 0%nat 0%nat) (C 1%nat 1%nat) (C 2%nat 2%nat) (C 1%nat 2%nat) (C 2%nat 0%nat) (C 0%nat 1%nat).
(** A tensor from its nine constructor arguments, row by row *)
Definition itensor (a00 a01 a02 a10 a11 a12 a20 a21 a22 : R) : rmat :=
  entries [[a00; a01; a02]; [a10; a11; a12]; [a20; a21; a22]].
(** 66-68 *)
Definition toitensor (C : rmat) : rmat :=
  itensor (C 0%nat 0%nat) (C 0%nat 1%nat) (C 0%nat 2%nat) (C 1%nat 0%nat) (C 1%nat 1%nat) (C 1%nat 2%nat)
    (C 2%nat 0%nat) (C 2%nat 1%nat) (C 2%nat 2%nat).
(** 76-82, 90-99: copies of the entries, as memory *)
Definition toEigenMatrix (it : rmat) : mat := loop 3 (fun i => loop 3 (fun j m => setM m i j (it i j))) noMat.
Definition toEigenTensor (it : rtensor4) : tensor4 :=
  loop 3 (fun i => loop 3 (fun j => loop 3 (fun k => loop 3 (fun l t => setT t i j k l (it i j k l))))) noTensor.

(** What a call returns *)
Inductive answer := Energy (x : R) | Stresses (m : mat) | Moduli (t : tensor4) | Created (object : nat).
Inductive query := AskEnergy | AskStress | AskModuli.

Section Muesli.
Variable P : Type.                                  (** muesli::materialProperties *)
Variable msqrt : rmat -> rmat.                      (** Eigen's matrix square root *)
Variables (fEnergy : P -> rmat -> R) (fStress : P -> rmat -> rmat) (fModuli : P -> rmat -> rtensor4).
Variables (sEnergy : P -> rmat -> R) (sStress : P -> rmat -> rmat) (sModuli : P -> rmat -> rtensor4).

Inductive kind := Finite | Small.
Record object := { o_kind : kind; o_params : P; o_point : option rmat }.  (** o_point: the current state of the material point *)

Inductive op :=
  | Create (k : kind) (p : P)                       (** mueslifinite.hh 60-63, mueslismall.hh 69-72 *)
  | Copy (o : nat)                                  (** mueslifinite.hh 146-149, mueslismall.hh 154-157 *)
  | Call (q : query) (o : nat) (C : rmat).

(** The process is aborted, or the call is not possible (no such object, or no result without state) *)
Inductive outcome := Step (objects : list object) (a : answer) | Aborts | Invalid.

Fixpoint setAt (l : list object) (n : nat) (x : object) : list object :=
  match l, n with
  | [], _ => []
  | _ :: l, O => x :: l
  | y :: l, Datatypes.S n => y :: setAt l n x
  end.

(** updateState, mueslifinite.hh 156-161, mueslismall.hh 164-167; None: abort *)
Definition updateState (o : object) (C : rmat) : option object :=
  match o_kind o with
  | Finite =>
    if Rle_dec (det3 C) 0 then None
    else match transformStrain 3 msqrt rightCauchyGreenTensor deformationGradient C with
         | Some F => Some {| o_kind := Finite; o_params := o_params o; o_point := Some (toitensor F) |}
         | None => None
         end
  | Small => Some {| o_kind := Small; o_params := o_params o; o_point := Some (toistensor C) |}
  end.

(** mp_->storedEnergy() and so on: mueslifinite.hh 77-133, mueslismall.hh 86-142 *)
Definition readPoint (q : query) (o : object) : option answer :=
  match o_point o with
  | None => None
  | Some s =>
    let p := o_params o in
    Some (match o_kind o, q with
          | Finite, AskEnergy => Energy (fEnergy p s)
          | Finite, AskStress => Stresses (toEigenMatrix (fStress p s))
          | Finite, AskModuli => Moduli (toEigenTensor (fModuli p s))
          | Small, AskEnergy => Energy (sEnergy p s)
          | Small, AskStress => Stresses (toEigenMatrix (sStress p s))
          | Small, AskModuli => Moduli (toEigenTensor (sModuli p s))
          end)
  end.

Definition step (objects : list object) (c : op) : outcome :=
  match c with
  | Create k p => Step (objects ++ [{| o_kind := k; o_params := p; o_point := None |}]) (Created (length objects))
  | Copy n =>
    match nth_error objects n with
    | Some o => Step (objects ++ [{| o_kind := o_kind o; o_params := o_params o; o_point := None |}]) (Created (length objects))
    | None => Invalid
    end
  | Call q n C =>
    match nth_error objects n with
    | None => Invalid
    | Some o =>
      match updateState o C with
      | None => Aborts
      | Some o' => match readPoint q o' with Some a => Step (setAt objects n o') a | None => Invalid end
      end
    end
  end.

(** A program: the answers so far and how it ended *)
Inductive ending := Done | Aborted | Impossible.
Fixpoint run (objects : list object) (program : list op) : list answer * ending :=
  match program with
  | [] => ([], Done)
  | c :: program =>
    match step objects c with
    | Step objects a => let (l, e) := run objects program in (a :: l, e)
    | Aborts => ([], Aborted)
    | Invalid => ([], Impossible)
    end
  end.
End Muesli.
Arguments Create {P}.
Arguments Copy {P}.
Arguments Call {P}.
