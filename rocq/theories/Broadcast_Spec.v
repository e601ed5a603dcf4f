(** Specification side of the broadcaster: who owns a callback. *)

From Coq Require Import List.
From Verif Require Import Broadcast_Model.
Import ListNotations.

(** A callback is alive iff the caller or a Listener object owns its token. *)
Definition alive (w : world) (t : nat) : Prop := In t (w_user w) \/ exists ts, In ts (w_objs w) /\ In t ts.

(** Number of owners of a callback. *)
Definition owners (w : world) (t : nat) : nat :=
  count_occ PeanoNat.Nat.eq_dec (w_user w) t + count_occ PeanoNat.Nat.eq_dec (concat (w_objs w)) t.
