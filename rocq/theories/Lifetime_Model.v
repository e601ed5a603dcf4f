(** Model of the objects that listen: loggers, writers and finite elements are Listener objects whose callbacks refer to the object
    itself ([&] captures this): ikarus/utils/listener/listener.hh, controllogger.hh: 26-30, nonlinearsolverlogger.hh: 25-29,
    controlvtkwriter.hh: 47-51, genericlistener.hh: 40-45, ikarus/finiteelements/mechanics/enhancedassumedstrains.hh: 350-359,
    assumedstress.hh: 343-352, and ikarus/controlroutines/controlroutinefactory.hh.

    Broadcast_Model.v describes the tokens in more detail; here the callbacks have effects on the objects they refer to. *)

From Coq Require Import List Arith Bool.
Import ListNotations.

Section Lifetime.
  (** [D]: the data of listening objects (numbers of a logger, internal variables of an element); [M]: messages with their state *)
  Context {D M : Type}.
  (** the update function of the objects *)
  Variable handle : M -> D -> D.

  (** A callback is a cell that is owned by tokens.  For every cell: the broadcaster it is registered at and the object it refers to.
      Objects: the tokens and the data, or [None] if destroyed *)
  Record world := mkWorld { cells : list (nat * nat); objects : list (option (list nat * D)) }.
  Definition initial := mkWorld [] [].

  Inductive op :=
  | New (d : D)
  | SubscribeTo (o b : nat)      (* subscribeTo of the object: listener.hh 40-46 with a lambda that captures this *)
  | Copy (o : nat)               (* implicit copy constructor: tokens and data are copied *)
  | Move (o : nat)               (* implicit move constructor: the tokens are taken; also if a vector of objects grows *)
  | Destroy (o : nat)
  | UnSubscribeAll (o : nat)     (* listener.hh 51-58 *)
  | Notify (b : nat) (m : M).    (* broadcaster.hh 61-68 *)

  (** [Invalid]: the caller uses an object that does not exist; [Undefined]: a callback refers to an object that does not exist *)
  Inductive outcome := Ok (w : world) | Invalid | Undefined.

  Fixpoint setObject (l : list (option (list nat * D))) (o : nat) (x : option (list nat * D)) :=
    match l, o with [], _ => [] | _ :: l, O => x :: l | y :: l, S o => y :: setObject l o x end.
  Definition getObject (w : world) (o : nat) : option (list nat * D) := match nth_error (objects w) o with Some x => x | None => None end.

  (** A cell is kept by the tokens of all objects *)
  Definition alive (w : world) (t : nat) : bool :=
    existsb (fun x => match x with Some (ts, _) => existsb (Nat.eqb t) ts | None => false end) (objects w).

  (** One callback *)
  Definition call (m : M) (w : world) (o : nat) : outcome :=
    match getObject w o with
    | Some (ts, d) => Ok (mkWorld (cells w) (setObject (objects w) o (Some (ts, handle m d))))
    | None => Undefined
    end.
  (** Cells [t], [t+1], ... in the order of registration; callbacks of this model neither subscribe nor destroy anything *)
  Fixpoint notifyFrom (b : nat) (m : M) (w : world) (t : nat) (cs : list (nat * nat)) : outcome :=
    match cs with
    | [] => Ok w
    | (b', o) :: cs =>
        if (b' =? b) && alive w t then match call m w o with Ok w => notifyFrom b m w (S t) cs | r => r end else notifyFrom b m w (S t) cs
    end.

  Definition perform (w : world) (a : op) : outcome :=
    match a with
    | New d => Ok (mkWorld (cells w) (objects w ++ [Some ([], d)]))
    | SubscribeTo o b =>
        match getObject w o with
        | Some (ts, d) => Ok (mkWorld (cells w ++ [(b, o)]) (setObject (objects w) o (Some (ts ++ [length (cells w)], d))))
        | None => Invalid
        end
    | Copy o => match getObject w o with Some x => Ok (mkWorld (cells w) (objects w ++ [Some x])) | None => Invalid end
    | Move o =>
        match getObject w o with
        | Some (ts, d) => Ok (mkWorld (cells w) (setObject (objects w) o (Some ([], d)) ++ [Some (ts, d)]))
        | None => Invalid
        end
    | Destroy o => match getObject w o with Some _ => Ok (mkWorld (cells w) (setObject (objects w) o None)) | None => Invalid end
    | UnSubscribeAll o => match getObject w o with Some (_, d) => Ok (mkWorld (cells w) (setObject (objects w) o (Some ([], d)))) | None => Invalid end
    | Notify b m => notifyFrom b m w 0 (cells w)
    end.
  Fixpoint run (w : world) (h : list op) : outcome :=
    match h with [] => Ok w | a :: h => match perform w a with Ok w => run w h | r => r end end.

  (** auto logger = Logger().subscribeTo(b): subscribeTo returns a reference to the temporary, which is copied and destroyed
      (nonlinearsolverlogger.hh 25-29, controllogger.hh 26-30; used this way in tests/src/testpathfollowing.cpp: 54-55) *)
  Definition temporary (next : nat) (d : D) (b : nat) : list op := [New d; SubscribeTo next b; Copy next; Destroy next].

  (** mixin.hh 312-318: subscribeTo of finite elements returns a copy of the element, which the factory drops *)
  Definition subscribeElement (next : nat) (o b : nat) : list op := [SubscribeTo o b; Copy o; Destroy next].

  (** controlroutinefactory.hh 38-49: create with the nonlinear solver [b] (the control routines take a const reference, so the pointer is kept) for the elements [fes] of the assembler; these listen
      to the solver only (enhancedassumedstrains.hh 352) *)
  Fixpoint create (next : nat) (fes : list nat) (b : nat) : list op :=
    match fes with [] => [] | o :: fes => subscribeElement next o b ++ create (S next) fes b end.
End Lifetime.
Arguments op : clear implicits. Arguments world : clear implicits. Arguments outcome : clear implicits.
