(** Model of Broadcaster (ikarus/utils/broadcaster/broadcaster.hh) and Listener (ikarus/utils/listener/listener.hh).

    Every registered callback lives in a shared_ptr cell, numbered by registration order.  A cell is alive as long as some
    shared_ptr to it exists: one held by the user, or one in the token vector of a Listener object. *)

From Coq Require Import List Arith Bool.
Import ListNotations.

Record world := mkWorld {
  w_next : nat;                (** number of cells created *)
  w_listeners : list nat;      (** broadcaster.hh:71, the weak pointers *)
  w_user : list nat;           (** shared pointers held by the caller (with repetitions for copies) *)
  w_objs : list (list nat);    (** listener.hh:82, token vectors of the Listener objects *)
}.

Definition winit : world := mkWorld 0 [] [] [].

Definition memb (x : nat) (l : list nat) : bool := existsb (Nat.eqb x) l.

(** weak_ptr::expired is the negation; lock succeeds iff alive. *)
Definition aliveb (w : world) (t : nat) : bool := memb t (w_user w) || existsb (memb t) (w_objs w).

(** Removes the first occurrence. *)
Fixpoint remove1 (x : nat) (l : list nat) : list nat :=
  match l with
  | [] => []
  | y :: l' => if y =? x then l' else y :: remove1 x l'
  end.

Fixpoint upd {A} (l : list A) (i : nat) (f : A -> A) : list A :=
  match l, i with
  | [], _ => []
  | x :: l', O => f x :: l'
  | x :: l', S i' => x :: upd l' i' f
  end.

(** Actions other than notify. *)
Inductive act :=
| Register                       (* broadcaster.hh:43-47, the caller keeps the token *)
| CopyToken (t : nat)            (* copy of a shared_ptr by the caller *)
| DropToken (t : nat)            (* the caller destroys or resets one shared_ptr *)
| Unregister (t : nat)           (* broadcaster.hh:52-56, token passed as a copy of the caller's *)
| UnregisterMoved (t : nat)      (* 52-56, the caller's token moved into the parameter *)
| NewListener                    (* a new Listener object *)
| CopyListener (o : nat)         (* implicit copy constructor of Listener *)
| Subscribe (o : nat) (keep : bool)  (* listener.hh:40-46; [keep]: the caller stores the returned token *)
| UnSubscribeAll (o : nat)       (* 51-58; also the destructor of the listener *)
| UnSubscribeLast (o : nat)      (* 63-68 *)
| UnSubscribe (o t : nat).       (* 73-79 *)

(** [None]: the caller uses a token or listener it does not have (the test programs cannot do this). *)
Definition wstep (w : world) (a : act) : option world :=
  match a with
  | Register => Some (mkWorld (S (w_next w)) (w_listeners w ++ [w_next w]) (w_user w ++ [w_next w]) (w_objs w))
  | CopyToken t => if memb t (w_user w) then Some (mkWorld (w_next w) (w_listeners w) (w_user w ++ [t]) (w_objs w)) else None
  | DropToken t => if memb t (w_user w) then Some (mkWorld (w_next w) (w_listeners w) (remove1 t (w_user w)) (w_objs w)) else None
  | Unregister t => if memb t (w_user w) then Some w else None
  | UnregisterMoved t => if memb t (w_user w) then Some (mkWorld (w_next w) (w_listeners w) (remove1 t (w_user w)) (w_objs w)) else None
  | NewListener => Some (mkWorld (w_next w) (w_listeners w) (w_user w) (w_objs w ++ [[]]))
  | CopyListener o =>
      match nth_error (w_objs w) o with
      | Some ts => Some (mkWorld (w_next w) (w_listeners w) (w_user w) (w_objs w ++ [ts]))
      | None => None
      end
  | Subscribe o keep =>
      if o <? length (w_objs w) then
        Some (mkWorld (S (w_next w)) (w_listeners w ++ [w_next w]) (if keep then w_user w ++ [w_next w] else w_user w)
                      (upd (w_objs w) o (fun ts => ts ++ [w_next w])))
      else None
  | UnSubscribeAll o =>
      if o <? length (w_objs w) then Some (mkWorld (w_next w) (w_listeners w) (w_user w) (upd (w_objs w) o (fun _ => []))) else None
  | UnSubscribeLast o =>
      if o <? length (w_objs w) then Some (mkWorld (w_next w) (w_listeners w) (w_user w) (upd (w_objs w) o (@removelast nat))) else None
  | UnSubscribe o t =>
      if o <? length (w_objs w) then Some (mkWorld (w_next w) (w_listeners w) (w_user w) (upd (w_objs w) o (remove1 t))) else None
  end.

(** broadcaster.hh:73-77 *)
Definition trim (w : world) : world := mkWorld (w_next w) (filter (aliveb w) (w_listeners w)) (w_user w) (w_objs w).

(** What a callback does while it runs.  Registering (directly or through subscribe) appends to the vector being iterated, which
    invalidates the loop iterators: undefined behaviour. *)
Definition registers (a : act) : bool := match a with Register | Subscribe _ _ => true | _ => false end.

Definition cbStep (w : world) (a : act) : option world := if registers a then None else wstep w a.

Fixpoint cbRun (w : world) (l : list act) : option world :=
  match l with
  | [] => Some w
  | a :: l' => match cbStep w a with Some w' => cbRun w' l' | None => None end
  end.

(** The loop of notify, 63-67.  [eff t] are the actions callback [t] performs. Result: the new world and the callbacks invoked in order.
    lock() keeps the cell alive during the call only. *)
Fixpoint notifyLoop (eff : nat -> list act) (w : world) (ls : list nat) : option (world * list nat) :=
  match ls with
  | [] => Some (w, [])
  | t :: ls' =>
      if aliveb w t then
        match cbRun w (eff t) with
        | Some w' => option_map (fun p => (fst p, t :: snd p)) (notifyLoop eff w' ls')
        | None => None
        end
      else notifyLoop eff w ls'
  end.

(** broadcaster.hh:61-68 *)
Definition notify (eff : nat -> list act) (w : world) : option (world * list nat) :=
  let w1 := trim w in notifyLoop eff w1 (w_listeners w1).

Inductive event :=
| Act (a : act)
| Notify (eff : nat -> list act).

(** History; result: world and the callback invocations of each notification. *)
Fixpoint wrun (w : world) (h : list event) : option (world * list (list nat)) :=
  match h with
  | [] => Some (w, [])
  | Act a :: h' => match wstep w a with Some w' => wrun w' h' | None => None end
  | Notify eff :: h' =>
      match notify eff w with
      | Some (w', c) => option_map (fun p => (fst p, c :: snd p)) (wrun w' h')
      | None => None
      end
  end.
