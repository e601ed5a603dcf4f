(** Specification side of the Newton-Raphson solvers: message protocol. *)

From Coq Require Import List ZArith.
From Verif Require Import Newton_Model.
Import ListNotations.

(** Messages of one iteration. *)
Definition iterationBlock : list nlmsg :=
  [ITERATION_STARTED; CORRECTION_UPDATED; CORRECTIONNORM_UPDATED; SOLUTION_CHANGED; RESIDUALNORM_UPDATED; ITERATION_ENDED].

Definition subsidiaryBlock : list nlmsg :=
  [ITERATION_STARTED; CORRECTION_UPDATED; SOLUTION_CHANGED; CORRECTIONNORM_UPDATED; RESIDUALNORM_UPDATED; ITERATION_ENDED].

(** A complete run with [n] iterations. *)
Definition protocol (block : list nlmsg) (n : nat) (success : bool) : list nlmsg :=
  INIT :: concat (repeat block n) ++ (if success then [FINISHED_SUCESSFULLY] else []).

Section T.
Context {T C D : Type}.
Definition msgOf (e : nlmsg * nlinfo T * C * D) : nlmsg := fst (fst (fst e)).
Definition infoOf (e : nlmsg * nlinfo T * C * D) : nlinfo T := snd (fst (fst e)).
Definition corrOf (e : nlmsg * nlinfo T * C * D) : C := snd (fst e).
Definition solOf (e : nlmsg * nlinfo T * C * D) : D := snd e.

(** Iteration counts seen by listeners of ITERATION_ENDED. *)
Definition endedCounts (tr : list (nlmsg * nlinfo T * C * D)) : list Z :=
  map (fun e => i_iter (infoOf e)) (filter (fun e => match msgOf e with ITERATION_ENDED => true | _ => false end) tr).

(** Corrections announced to the listeners. *)
Definition corrections (tr : list (nlmsg * nlinfo T * C * D)) : list C :=
  map corrOf (filter (fun e => match msgOf e with CORRECTION_UPDATED => true | _ => false end) tr).
End T.
