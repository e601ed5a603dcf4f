(** What a user of the deviatoric functions relies on, without reference to how they compute. *)

From Coq Require Import Reals.
From Coquelicot Require Import Coquelicot.
Local Open Scope R_scope.

(** g is the gradient of the function w of three variables at l *)
Definition gradient (w : (nat -> R) -> R) (l g : nat -> R) : Prop :=
  forall h : nat -> R,
    is_derive (fun t => w (fun i => l i + t * h i)) 0 (g 0%nat * h 0%nat + g 1%nat * h 1%nat + g 2%nat * h 2%nat).

Definition positiveStretches (l : nat -> R) : Prop := 0 < l 0%nat /\ 0 < l 1%nat /\ 0 < l 2%nat.

Definition kronecker (i j : nat) : R := if Nat.eqb i j then 1 else 0.
