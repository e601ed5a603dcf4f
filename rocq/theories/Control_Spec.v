(** Specification side of the control routines: message protocol and bookkeeping. *)

From Coq Require Import List ZArith.
From Verif Require Import Newton_Model Control_Model.
Import ListNotations.
Local Open Scope Z_scope.

Section S.
Context {T X : Type}.
Definition cmsgOf (e : cmsg * cinfo T * Z * T * (X * T)) : cmsg := fst (fst (fst (fst e))).
Definition cinfoOf (e : cmsg * cinfo T * Z * T * (X * T)) : cinfo T := snd (fst (fst (fst e))).
Definition cstepOf (e : cmsg * cinfo T * Z * T * (X * T)) : Z := snd (fst (fst e)).
Definition cparOf (e : cmsg * cinfo T * Z * T * (X * T)) : T := snd (snd e).

(** The messages of one step. *)
Definition stepBlock : list cmsg := [STEP_STARTED; CSOLUTION_CHANGED; STEP_ENDED].

(** A run with [n] solves that is complete iff [done]. *)
Definition cprotocol (n : nat) (done : bool) : list cmsg :=
  CONTROL_STARTED :: concat (repeat stepBlock n) ++ (if done then [CONTROL_ENDED] else []).

(** Load factors seen by listeners of STEP_ENDED. *)
Definition stepParams (tr : list (cmsg * cinfo T * Z * T * (X * T))) : list T :=
  map cparOf (filter (fun e => match cmsgOf e with STEP_ENDED => true | _ => false end) tr).

Definition sumIter (l : list (nlinfo T)) : Z := fold_right (fun i z => i_iter i + z) 0 l.

(** All solves but possibly the last succeeded. *)
Definition stopsAtFirstFailure (l : list (nlinfo T)) : Prop :=
  forall k i, nth_error l k = Some i -> (S k < length l)%nat -> i_success i = true.

(** k additions of [s] to [p]. *)
Fixpoint addTimes (tadd : T -> T -> T) (p s : T) (k : nat) : T := match k with O => p | S k' => addTimes tadd (tadd p s) s k' end.
End S.
