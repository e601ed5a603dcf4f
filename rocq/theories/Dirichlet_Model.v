(** Model of DirichletValues (ikarus/utils/dirichletvalues.hh) and of the update function that the nonlinear
    solver factory installs (ikarus/solver/nonlinearsolver/nonlinearsolverfactory.hh:32-56). *)

From Coq Require Import List Arith Bool.
From Verif Require Import Assembler_Model.
Import ListNotations.

Section Dirichlet.
(** [V] numbers, [ne0 x] is Dune::FloatCmp::ne(x, 0.0), [L] load factors. *)
Context {V L : Type} (vzero : V) (vadd : V -> V -> V) (ne0 : V -> bool).

(** A stored boundary function, already interpolated: its value at every dof for a load factor (dirichletvalues.hh:249-256;
    dofs that the interpolation does not write keep the zero of line 246). *)
Definition bfun := L -> nat -> V.

(** One DirichletValues object, dirichletvalues.hh:283-293.  [o_backend] is the object whose flag vector the
    backend points to: istlVectorBackend keeps the address of the vector it was made from. *)
Record obj := mkObj { o_flags : list bool; o_backend : nat; o_funs : list bfun }.

(** Memory: objects by address, [None] after destruction. *)
Definition heap := list (option obj).

Definition getObj (h : heap) (i : nat) : option obj := match nth_error h i with Some (Some o) => Some o | _ => None end.
Definition putObj (h : heap) (i : nat) (o : option obj) : option heap := put h i o.

Definition write (f : list bool) (w : nat * bool) : option (list bool) := put f (fst w) (snd w).

(** 244-257: [xIh] starts with zeros, the functions are added in the order they were stored. *)
Definition evaluateIDBC (n : nat) (fs : list bfun) (lam : L) : list V :=
  fold_left (fun x f => map (fun i => vadd (nth i x vzero) (f lam i)) (seq 0 n)) fs (repeat vzero n).

(** 295-302: the writes of setInhomogeneousBoundaryConditionFlag. *)
Definition idbcWrites (n : nat) (fs : list bfun) (lam : L) : list (nat * bool) :=
  map (fun i => (i, true)) (filter (fun i => ne0 (nth i (evaluateIDBC n fs lam) vzero)) (seq 0 n)).

Inductive dop :=
| New (n : nat)                                        (* 86-99 *)
| Copy (i : nat)                                       (* implicit copy constructor *)
| Destroy (i : nat)
| SetSingle (i k : nat) (b : bool)                     (* 165-169 *)
| SetSingleMulti (i k : nat) (b : bool)                (* 152-156 *)
| Fix (i : nat) (ws : list (nat * bool))               (* 110-131, 141-144: the writes the callback performs *)
| ResetAll (i : nat)                                   (* 174 *)
| StoreIDBC (i : nat) (f : bfun) (lam : L).            (* 213-222 *)

Definition setFlags (o : obj) (f : list bool) : obj := mkObj f (o_backend o) (o_funs o).

(** Write through the object itself, or through its backend. [None]: undefined behaviour. *)
Definition writeDirect (h : heap) (i : nat) (ws : list (nat * bool)) : option heap :=
  match getObj h i with
  | None => None
  | Some o => match foldM write (o_flags o) ws with
              | Some f => putObj h i (Some (setFlags o f))
              | None => None
              end
  end.
Definition writeBackend (h : heap) (i : nat) (ws : list (nat * bool)) : option heap :=
  match getObj h i with
  | None => None
  | Some o => writeDirect h (o_backend o) ws
  end.

Definition dstep (h : heap) (o : dop) : option heap :=
  match o with
  | New n => Some (h ++ [Some (mkObj (repeat false n) (length h) [])])
  | Copy i => option_map (fun x => h ++ [Some (mkObj (o_flags x) (o_backend x) (o_funs x))]) (getObj h i)
  | Destroy i => match getObj h i with Some _ => putObj h i None | None => None end
  | SetSingle i k b => writeDirect h i [(k, b)]
  | SetSingleMulti i k b => writeBackend h i [(k, b)]
  | Fix i ws => writeBackend h i ws
  | ResetAll i => match getObj h i with
                  | Some x => putObj h i (Some (setFlags x (map (fun _ => false) (o_flags x))))
                  | None => None
                  end
  | StoreIDBC i f lam =>
      match getObj h i with
      | Some x => let fs := o_funs x ++ [f] in
                  match putObj h i (Some (mkObj (o_flags x) (o_backend x) fs)) with
                  | Some h' => writeDirect h' i (idbcWrites (length (o_flags x)) fs lam)
                  | None => None
                  end
      | None => None
      end
  end.

Definition drun (h : heap) (ops : list dop) : option heap := foldM dstep h ops.

(** 187-191 *)
Definition isConstrainedObj (h : heap) (i k : nat) : option bool :=
  match getObj h i with Some o => nth_error (o_flags o) k | None => None end.
(** 180-184 *)
Definition isConstrainedMulti (h : heap) (i k : nat) : option bool :=
  match getObj h i with Some o => isConstrainedObj h (o_backend o) k | None => None end.
(** 194 *)
Definition fixedSize (h : heap) (i : nat) : option nat := option_map (fun o => count_occ bool_dec (o_flags o) true) (getObj h i).
(** 197 *)
Definition dofSize (h : heap) (i : nat) : option nat := option_map (fun o => length (o_flags o)) (getObj h i).

(** * Updates of the solution *)

(** Element-wise +=, with Eigen's size assertion as [None]. *)
Fixpoint vplus (x b : list V) : option (list V) :=
  match x, b with
  | [], [] => Some []
  | x0 :: x', b0 :: b' => option_map (cons (vadd x0 b0)) (vplus x' b')
  | _, _ => None
  end.

(** nonlinearsolverfactory.hh:35-44 with the default update function (defaultfunctions.hh:64-73). *)
Definition updateSolution (flags : list bool) (opt : dbc) (x b : list V) : option (list V) :=
  if (match opt with Reduced => true | _ => false end) && (reducedSize flags =? length b) then
    match createFullVector vzero flags b with Some v => vplus x v | None => None end
  else if (reducedSize flags =? length x) && (size flags =? length b) then
    match createReducedVector flags b with Some v => vplus x v | None => None end
  else vplus x b.

(** nonlinearsolverfactory.hh:46-53. *)
Definition syncSolution (fs : list bfun) (n : nat) (lam : L) (x : list V) : option (list V) :=
  let newInc := evaluateIDBC n fs lam in
  foldM (fun x i => if ne0 (nth i newInc vzero) then put x i (nth i newInc vzero) else Some x) x (seq 0 n).

(** One solver update with prescribed values, newtonraphson.hh:231-237. *)
Definition updateAndSync (flags : list bool) (fs : list bfun) (opt : dbc) (lam : L) (x b : list V) : option (list V) :=
  match updateSolution flags opt x b with
  | Some x' => syncSolution fs (length flags) lam x'
  | None => None
  end.

(** idbcIncrement, common.hh:63-76, with [lplus] the addition of load factors and [vminus] the subtraction of numbers. *)
Definition idbcIncrement (lplus : L -> L -> L) (vminus : V -> V -> V) (fs : list bfun) (n : nat) (lam dlam : L) (x : list V) : option (list V) :=
  option_map (fun y => map (fun p => vminus (fst p) (snd p)) (combine y x)) (syncSolution fs n (lplus lam dlam) x).
End Dirichlet.

Arguments New {V L}. Arguments Copy {V L}. Arguments Destroy {V L}. Arguments SetSingle {V L}. Arguments SetSingleMulti {V L}.
Arguments Fix {V L}. Arguments ResetAll {V L}. Arguments StoreIDBC {V L}.
