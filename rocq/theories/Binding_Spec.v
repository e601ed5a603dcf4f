(** Specification side of C09 and C10: what a history has bound last, and which callbacks it registered. *)

From Coq Require Import List.
From Verif Require Import Assembler_Model Binding_Model.
Import ListNotations.

Section Spec.
Context {V Ref RV AF : Type}.
Notation op := (op V Ref RV AF).
Notation history := (history V Ref RV AF).

Definition reqOf (o : op) : list Ref := match o with BindAll r _ _ | BindReq r => [r] | _ => [] end.
Definition affOf (o : op) : list affs := match o with BindAll _ a _ | BindAff a => [a] | _ => [] end.
Definition optOf (o : op) : list dbc := match o with BindAll _ _ d | BindOpt d => [d] | _ => [] end.
Definition sOf (o : op) : list scb := match o with BindS f => [f] | _ => [] end.
Definition vOf (o : op) : list vcb := match o with BindV f => [f] | _ => [] end.
Definition mOf (o : op) : list mcb := match o with BindM f => [f] | _ => [] end.

(** Last element of a list. *)
Definition lastOf {A} (l : list A) : option A := hd_error (rev l).

Definition lastReq (h : history) : option Ref := lastOf (flat_map (fun x => reqOf (snd x)) h).
Definition lastAff (h : history) : option affs := lastOf (flat_map (fun x => affOf (snd x)) h).
Definition lastOpt (h : history) : option dbc := lastOf (flat_map (fun x => optOf (snd x)) h).

(** Callbacks registered, oldest first. *)
Definition sCalls (h : history) := flat_map (fun x => sOf (snd x)) h.
Definition vCalls (h : history) := flat_map (fun x => vOf (snd x)) h.
Definition mCalls (h : history) := flat_map (fun x => mOf (snd x)) h.

(** A matrix callback changes values only. *)
Definition keepsPattern (f : mcb (V:=V) (RV:=RV) (AF:=AF)) : Prop := forall q d m,
  srows (f q d m) = srows m /\ scols (f q d m) = scols m /\ souter (f q d m) = souter m /\ sinner (f q d m) = sinner m /\
  length (svals (f q d m)) = length (svals m).
End Spec.
