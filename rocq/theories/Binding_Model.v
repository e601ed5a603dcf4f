(** Model of binding an assembler to a requirement, affordances and a Dirichlet option
    (ikarus/assembler/interface.hh) and of assembler manipulators
    (ikarus/assembler/assemblermanipulatorbuildingblocks.hh, assemblermanipulatorfuser.hh), on top of the
    sparse assembler of Assembler_Model.v. *)

From Coq Require Import List Arith Bool.
From Verif Require Import Assembler_Model.
Import ListNotations.

Section Binding.
(** [V] numbers; [Ref] addresses of requirement objects; [RV] contents of a requirement; [AF] affordances. *)
Context {V Ref RV AF : Type} (vzero vone : V) (vadd vmul : V -> V -> V).
Notation Q := (RV * AF)%type.
Notation elt := (element (V:=V) Q).
Notation sparse := (sparse (V:=V)).
Notation spState := (spState (V:=V)).
Notation response := (response (V:=V)).

(** AffordanceCollection with one affordance of each kind, ferequirements.hh:126-203. *)
Record affs := mkAffs { sAff : AF; vAff : AF; mAff : AF }.

(** Callback types, assemblermanipulatorbuildingblocks.hh:40, 86-87, 147-148.  The callback changes the
    quantity in place; the model returns the changed quantity.  The const reference to the base assembler is not an argument
    (callbacks may capture it; what they can read through it is fixed at construction). Callbacks do not throw. *)
Definition scb := Q -> V -> V.
Definition vcb := Q -> dbc -> list V -> list V.
Definition mcb := Q -> dbc -> sparse -> sparse.

(** FlatAssemblerBase members interface.hh:259-265, assembled quantities, and the callback vectors sfs, vfs, mfs
    (buildingblocks.hh:52, 100, 161).  A plain assembler has no callbacks. *)
Record asm := mkAsm {
  a_sp : spState;
  a_req : option Ref;
  a_aff : option affs;
  a_opt : option dbc;
  a_sfs : list scb;
  a_vfs : list vcb;
  a_mfs : list mcb;
}.

(** interface.hh:51-62, 261-265: a new assembler is bound to nothing. *)
Definition freshAsm : asm := mkAsm (spInit vzero) None None None [] [] [].

(** makeAssemblerManipulator, fuser.hh:366-384 with 336-339: the base part is copy-constructed from the assembler. *)
Definition makeManipulator (a : asm) : asm := mkAsm (a_sp a) (a_req a) (a_aff a) (a_opt a) [] [] [].

Inductive op :=
| BindAll (r : Ref) (a : affs) (o : dbc)   (* interface.hh:150-155 *)
| BindReq (r : Ref)                        (* 162-164 *)
| BindAff (a : affs)                       (* 171-173 *)
| BindOpt (o : dbc)                        (* 180 *)
| BindS (f : scb)                          (* buildingblocks.hh:49-51 *)
| BindV (f : vcb)                          (* 97-99 *)
| BindM (f : mcb)                          (* 158-160 *)
| AskBound                                 (* interface.hh:188-193 *)
| AskScalar                                (* 309-312 *)
| AskVector                                (* 389 *)
| AskVectorO (o : dbc)                     (* 377-379 *)
| AskMatrix                                (* 462 *)
| AskMatrixO (o : dbc)                     (* 450-452 *)
| XScalar (r : Ref) (a : AF)               (* 300-302 *)
| XVector (r : Ref) (a : AF) (o : dbc)     (* 355-365 *)
| XMatrix (r : Ref) (a : AF) (o : dbc).    (* 430-440 *)

Inductive outcome :=
| Done
| IsBound (b : bool)
| Data (r : response)
| Throw.

(** The callback loops, buildingblocks.hh:57-58, 105-106, 112-113, 119-120, 166-167, 173-174, 180-181. *)
Definition manipulate (s : asm) (r : request (Q:=Q)) (o : response) : response :=
  match r, o with
  | RScalar q, OScalar x => OScalar (fold_left (fun x f => f q x) (a_sfs s) x)
  | RVector d q, OVector v => OVector (fold_left (fun v f => f q d v) (a_vfs s) v)
  | RMatrix d q, OSparse m => OSparse (fold_left (fun m f => f q d m) (a_mfs s) m)
  | _, _ => o
  end.

(** The assembled quantity is a member of the base and the callbacks receive a reference to it, buildingblocks.hh:56,
    104, 111, 118, 165, 172, 179. *)
Definition store (s : spState) (r : request (Q:=Q)) (o : response) : spState :=
  match r, o with
  | RScalar _, OScalar x => set_scal s x
  | RVector Raw _, OVector v => set_vecRaw s v
  | RVector Full _, OVector v => set_vec s v
  | RVector Reduced _, OVector v => set_vecRed s v
  | RMatrix Raw _, OSparse m => set_raw s (Some m) (st_idx s) (st_preRaw s)
  | RMatrix Full _, OSparse m => set_full s (Some m) (st_idx s) (st_preFull s)
  | RMatrix Reduced _, OSparse m => set_red s (Some m) (st_idxRed s) (st_preRed s)
  | _, _ => s
  end.

Definition set_sp (s : asm) (sp : spState) : asm := mkAsm sp (a_req s) (a_aff s) (a_opt s) (a_sfs s) (a_vfs s) (a_mfs s).

(** get*Impl of the manipulators. [None]: undefined behaviour in the base assembler. *)
Definition request_ (flags : list bool) (els : list elt) (s : asm) (r : request) : option (asm * outcome) :=
  match spStep vzero vone vadd vmul flags els (a_sp s) r with
  | None => None
  | Some (sp, o) => let o' := manipulate s r o in Some (set_sp s (store sp r o'), Data o')
  end.

(** requirement(), affordanceCollection(), dBCOption(): interface.hh:229-256; they throw if the optional is
    empty, before anything is assembled. [hp] gives the current contents of the requirement objects. *)
Definition step (flags : list bool) (els : list elt) (hp : Ref -> RV) (s : asm) (o : op) : option (asm * outcome) :=
  match o with
  | BindAll r a d => Some (mkAsm (a_sp s) (Some r) (Some a) (Some d) (a_sfs s) (a_vfs s) (a_mfs s), Done)
  | BindReq r => Some (mkAsm (a_sp s) (Some r) (a_aff s) (a_opt s) (a_sfs s) (a_vfs s) (a_mfs s), Done)
  | BindAff a => Some (mkAsm (a_sp s) (a_req s) (Some a) (a_opt s) (a_sfs s) (a_vfs s) (a_mfs s), Done)
  | BindOpt d => Some (mkAsm (a_sp s) (a_req s) (a_aff s) (Some d) (a_sfs s) (a_vfs s) (a_mfs s), Done)
  | BindS f => Some (mkAsm (a_sp s) (a_req s) (a_aff s) (a_opt s) (a_sfs s ++ [f]) (a_vfs s) (a_mfs s), Done)
  | BindV f => Some (mkAsm (a_sp s) (a_req s) (a_aff s) (a_opt s) (a_sfs s) (a_vfs s ++ [f]) (a_mfs s), Done)
  | BindM f => Some (mkAsm (a_sp s) (a_req s) (a_aff s) (a_opt s) (a_sfs s) (a_vfs s) (a_mfs s ++ [f]), Done)
  | AskBound =>
      Some (s, match a_req s, a_aff s, a_opt s with Some _, Some _, Some _ => IsBound true | _, _, _ => Throw end)
  | AskScalar =>
      match a_req s, a_aff s with
      | Some r, Some a => request_ flags els s (RScalar (hp r, sAff a))
      | _, _ => Some (s, Throw)
      end
  | AskVectorO d =>
      match a_req s, a_aff s with
      | Some r, Some a => request_ flags els s (RVector d (hp r, vAff a))
      | _, _ => Some (s, Throw)
      end
  | AskVector =>
      match a_opt s with
      | Some d => match a_req s, a_aff s with
                  | Some r, Some a => request_ flags els s (RVector d (hp r, vAff a))
                  | _, _ => Some (s, Throw)
                  end
      | None => Some (s, Throw)
      end
  | AskMatrixO d =>
      match a_req s, a_aff s with
      | Some r, Some a => request_ flags els s (RMatrix d (hp r, mAff a))
      | _, _ => Some (s, Throw)
      end
  | AskMatrix =>
      match a_opt s with
      | Some d => match a_req s, a_aff s with
                  | Some r, Some a => request_ flags els s (RMatrix d (hp r, mAff a))
                  | _, _ => Some (s, Throw)
                  end
      | None => Some (s, Throw)
      end
  | XScalar r a => request_ flags els s (RScalar (hp r, a))
  | XVector r a d => request_ flags els s (RVector d (hp r, a))
  | XMatrix r a d => request_ flags els s (RMatrix d (hp r, a))
  end.

(** A history: operations, each with the contents of the requirement objects at that time. *)
Definition history := list ((Ref -> RV) * op).

Definition run (flags : list bool) (els : list elt) (s : asm) (h : history) : option asm :=
  foldM (fun s ho => option_map fst (step flags els (fst ho) s (snd ho))) s h.

(** Original assembler and manipulator used side by side; [true]: operation on the manipulator. *)
Fixpoint run2 (flags : list bool) (els : list elt) (orig man : asm) (h : list (bool * ((Ref -> RV) * op))) {struct h} : option (asm * asm * list outcome) :=
  match h with
  | [] => Some (orig, man, [])
  | (true, (hp, o)) :: h' =>
      match step flags els hp man o with
      | Some (man', _) => run2 flags els orig man' h'
      | None => None
      end
  | (false, (hp, o)) :: h' =>
      match step flags els hp orig o with
      | Some (orig', x) => option_map (fun p => (fst p, x :: snd p)) (run2 flags els orig' man h')
      | None => None
      end
  end.

(** Outcomes of the operations on one assembler alone. *)
Fixpoint outcomes (flags : list bool) (els : list elt) (s : asm) (h : history) : option (list outcome) :=
  match h with
  | [] => Some []
  | (hp, o) :: h' =>
      match step flags els hp s o with
      | Some (s', x) => option_map (cons x) (outcomes flags els s' h')
      | None => None
      end
  end.
End Binding.

Arguments op : clear implicits. Arguments asm : clear implicits. Arguments history : clear implicits. Arguments outcome : clear implicits.
