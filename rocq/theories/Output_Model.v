(** Model of the output of results: ikarus/io/vtkwriter.hh, ikarus/io/resultfunction.hh, python/ikarus/io/__init__.py and
    ikarus/utils/listener/controlvtkwriter.hh.

    dune-vtk and dune-grid are contracts: a writer keeps the functions it is given in two lists (cells and points) and evaluates
    them when write is called; a discrete function made from an lvalue refers to the vector, one made from an rvalue owns it
    (Dune::wrap_or_move). *)

From Coq Require Import List Arith Bool String.
Import ListNotations.

(** vtkdatatag.hh: 14 *)
Inductive dataTag := asCellData | asPointData | asCellAndPointData.
Definition tagEq (a b : dataTag) : bool :=
  match a, b with asCellData, asCellData | asPointData, asPointData | asCellAndPointData, asCellAndPointData => true | _, _ => false end.

Section Writer.
  (** [State]: everything the functions read when they are evaluated, [V]: what they are evaluated to (all values of a field),
      [var]: names of coefficient vectors of the caller, [vec]: coefficient vectors *)
  Context {State V var vec : Type}.
  (** [read s x]: the vector x in state s; [interpolate]: the field of a basis with the given coefficients *)
  Variables (read : State -> var -> vec) (interpolate : vec -> V).
  (** whether addCellData of dune-vtk moves out of a shared pointer that it is given as an rvalue *)
  Variable moves : bool.

  (** The functions a writer has: a shared pointer that may be null *)
  Record field := mkField { fieldName : string; function : option (State -> V) }.
  Record writer := mkWriter { cells : list field; points : list field }.

  (** Base::addCellData, Base::addPointData *)
  Definition addCellData (w : writer) (f : field) : writer := mkWriter (cells w ++ [f]) (points w).
  Definition addPointData (w : writer) (f : field) : writer := mkWriter (cells w) (points w ++ [f]).

  (** A shared pointer variable after it was passed on by std::forward *)
  Definition forwarded (rvalue : bool) (f : field) : field := if rvalue && moves then mkField (fieldName f) None else f.

  (** vtkwriter.hh: 78-84, addResultFunction; [rvalue]: whether the argument is an rvalue.  The pointer is that of the caller or
      the one addResult has made *)
  Definition addResultFunction (rvalue : bool) (w : writer) (f : field) (tag : dataTag) : writer :=
    let '(w, f) := if tagEq tag asCellData || tagEq tag asCellAndPointData then (addCellData w f, forwarded rvalue f) else (w, f) in
    if tagEq tag asPointData || tagEq tag asCellAndPointData then addPointData w f else w.

  (** 92-97, addResult: makes a result function and passes it on with std::move *)
  Definition addResult (w : writer) (f : field) (tag : dataTag) : writer := addResultFunction true w f tag.

  (** 104-108, addAllResults; [supported]: the result functions of all supported result types of the element, in order *)
  Definition addAllResults (w : writer) (supported : list field) (tag : dataTag) : writer :=
    fold_left (fun w f => addResult w f tag) supported w.

  (** The vector argument of addInterpolation *)
  Inductive coefficients := Lvalue (x : var) | Rvalue (v : vec).
  Definition makeFunction (c : coefficients) : State -> V :=
    match c with Lvalue x => fun s => interpolate (read s x) | Rvalue v => fun _ => interpolate v end.

  (** 124-135, addInterpolation; the function is an lvalue and is copied *)
  Definition addInterpolation (w : writer) (c : coefficients) (name : string) (tag : dataTag) : writer :=
    let f := mkField name (Some (makeFunction c)) in
    let w := if tagEq tag asCellData || tagEq tag asCellAndPointData then addCellData w f else w in
    if tagEq tag asPointData || tagEq tag asCellAndPointData then addPointData w f else w.

  (** python/ikarus/io/__init__.py: 18-25; "dataTag == X or Y" is "(dataTag == X) or Y", and Y, an enumerator, is true *)
  Definition addInterpolationPython (w : writer) (c : coefficients) (name : string) (tag : dataTag) : writer :=
    let f := mkField name (Some (makeFunction c)) in
    let w := if tagEq tag asPointData || true then addPointData w f else w in
    if tagEq tag asCellData || true then addCellData w f else w.

  (** write: evaluates all functions; [None] if one is null (undefined behaviour) *)
  Fixpoint evaluateAll (s : State) (l : list field) : option (list (string * V)) :=
    match l with
    | [] => Some []
    | f :: l =>
        match function f, evaluateAll s l with Some g, Some r => Some ((fieldName f, g s) :: r) | _, _ => None end
    end.
  Definition write (w : writer) (s : State) : option (list (string * V) * list (string * V)) :=
    match evaluateAll s (cells w), evaluateAll s (points w) with Some c, Some p => Some (c, p) | _, _ => None end.
End Writer.
Arguments mkField {State V}. Arguments mkWriter {State V}. Arguments field : clear implicits. Arguments writer : clear implicits.

Section ControlWriter.
  (** controlvtkwriter.hh.  [vec]: solutions, [V]: written fields *)
  Context {vec V : Type}.
  Variable interpolate : vec -> V.

  (** broadcastermessages.hh, ControlMessages *)
  Inductive controlMessage := CONTROL_STARTED | CONTROL_ENDED | STEP_STARTED | STEP_ENDED | SOLUTION_CHANGED.

  (** A file: its name (prefix and number) and its fields *)
  Definition file := (string * nat * list (string * V))%type.

  (** [vertexData]: for every function added, the variable it refers to (65: the discrete function is made from an lvalue) *)
  Record controlWriter := mkControlWriter { step : nat; vertexData : list (string * nat) }.
  Definition newControlWriter := mkControlWriter 0 [].

  (** 73-87, update.  [mem]: the solution vectors, [x]: the one the state of the message refers to *)
  Definition update (prefix name : string) (w : controlWriter) (m : controlMessage) (mem : nat -> vec) (x : nat) : controlWriter * list file :=
    match m with
    | SOLUTION_CHANGED =>
        let data := vertexData w ++ [(name, x)] in
        (mkControlWriter (S (step w)) data, [(prefix, step w, map (fun d => (fst d, interpolate (mem (snd d)))) data)])
    | _ => (w, [])
    end.

  (** A history of messages, each with the vectors at that time and the one that is referred to *)
  Fixpoint run (prefix name : string) (w : controlWriter) (h : list (controlMessage * (nat -> vec) * nat)) : controlWriter * list file :=
    match h with
    | [] => (w, [])
    | (m, mem, x) :: h => let '(w, f) := update prefix name w m mem x in let '(w, fs) := run prefix name w h in (w, f ++ fs)
    end.
End ControlWriter.

Section ResultFunction.
  (** resultfunction.hh.  [geometry]: geometry types of elements, [FE]: finite elements, [Req]: requirements, [P]: local positions,
      [R]: results as vectors *)
  Context {geometry FE Req P : Type} {R : Type}.
  Variable sameGeometry : geometry -> geometry -> bool.
  (** calculateAt<RT>(req, local).asVec() *)
  Variable calculateAt : FE -> Req -> P -> list R.

  Inductive evaluated {T} := Value (v : T) | OutOfRange | Undefined.
  Arguments evaluated : clear implicits.

  (** gridView().indexSet().index(e) for the element at position [p] of the grid view, whose elements have the given types: the
      indices of an index set are consecutive for each geometry type (documentation of Dune::IndexSet), here in the order of the grid view *)
  Definition index (types : list geometry) (p : nat) : nat :=
    match nth_error types p with Some t => List.length (filter (sameGeometry t) (firstn p types)) | None => 0 end.

  (** 80-83 and 151-156 with DefaultUserFunction (32-36): component [comp] at the element at position [p].  finiteElements().at throws
      for indices that are too large; resultArray[comp] is not checked without assertions *)
  Definition evaluate (types : list geometry) (fes : list FE) (req : Req) (comp p : nat) (local : P) : evaluated R :=
    match nth_error fes (index types p) with
    | None => OutOfRange
    | Some fe => match nth_error (calculateAt fe req local) comp with Some v => Value v | None => Undefined end
    end.
  (** 92-99, with DefaultUserFunction *)
  Definition ncomps (zero : P) (fes : list FE) (req : Req) : evaluated nat :=
    match nth_error fes 0 with Some fe => Value (List.length (calculateAt fe req zero)) | None => OutOfRange end.
End ResultFunction.
Arguments evaluated : clear implicits.
