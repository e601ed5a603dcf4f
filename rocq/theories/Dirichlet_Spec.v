(** Specification side of C11-C13. *)

From Coq Require Import List Arith Bool.
From Verif Require Import Assembler_Model Dirichlet_Model.
Import ListNotations.

Section Spec.
Context {V L : Type} (vzero : V) (vadd : V -> V -> V) (ne0 : V -> bool).

(** Prescribed value at dof [i]: the sum of all stored functions there. *)
Definition prescribed (fs : list (bfun (V:=V) (L:=L))) (lam : L) (i : nat) : V := fold_left (fun s f => vadd s (f lam i)) fs vzero.

(** The flag writes of one operation on an object with [n] dofs that has stored [fs]. *)
Definition writesOf (n : nat) (fs : list bfun) (o : dop) : list (nat * bool) :=
  match o with
  | SetSingle _ k b | SetSingleMulti _ k b => [(k, b)]
  | Fix _ ws => ws
  | ResetAll _ => map (fun i => (i, false)) (seq 0 n)
  | StoreIDBC _ f lam => map (fun i => (i, true)) (filter (fun i => ne0 (prescribed (fs ++ [f]) lam i)) (seq 0 n))
  | _ => []
  end.
Definition funsOf (o : dop) : list (bfun (V:=V) (L:=L)) := match o with StoreIDBC _ f _ => [f] | _ => [] end.

(** All writes of a history, oldest first. *)
Fixpoint writes (n : nat) (fs : list bfun) (ops : list dop) : list (nat * bool) :=
  match ops with
  | [] => []
  | o :: ops' => writesOf n fs o ++ writes n (fs ++ funsOf o) ops'
  end.

(** Value of the last write to [i]; a flag that was never written is not set. *)
Definition lastWrite (ws : list (nat * bool)) (i : nat) : bool :=
  match find (fun w => fst w =? i) (rev ws) with Some w => snd w | None => false end.

(** A flag operation on object 0. *)
Definition flagOp0 (o : dop (V:=V) (L:=L)) : Prop :=
  match o with
  | SetSingle i _ _ | SetSingleMulti i _ _ | Fix i _ | ResetAll i | StoreIDBC i _ _ => i = 0
  | _ => False
  end.

(** The object an operation is called on. *)
Definition target (o : dop (V:=V) (L:=L)) : option nat :=
  match o with
  | SetSingle i _ _ | SetSingleMulti i _ _ | Fix i _ | ResetAll i | StoreIDBC i _ _ | Destroy i => Some i
  | New _ | Copy _ => None
  end.

(** Operations that do not go through the backend. *)
Definition direct (o : dop (V:=V) (L:=L)) : Prop :=
  match o with SetSingleMulti _ _ _ | Fix _ _ => False | _ => True end.
End Spec.
