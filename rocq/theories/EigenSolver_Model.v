(** Model of ikarus/solver/eigenvaluesolver/generalizedeigensolver.hh: the set-up of the solvers, the book-keeping of compute() and the
    checks. The solvers of Spectra and Eigen are parameters. *)

From Coq Require Import List Arith Bool.
Import ListNotations.

(** The pair of problem sizes, lines 74-75; std::ceil of the double n / 2 is exact *)
Definition nevsPartition (n : nat) : nat * nat := (n - n / 2, n - (n - n / 2)).

(** What a constructor of Spectra::SymGEigsSolver is called with: number of eigenvalues, dimension of the Krylov space *)
Record request := { nev : nat; ncv : nat }.

(** GeneralizedSymEigenSolver for Spectra, lines 78-79 *)
Definition requestSmallest (n : nat) : request :=
  let p := nevsPartition n in {| nev := fst p; ncv := Nat.min (snd p * 2) n |}.
Definition requestGreatest (n : nat) : request :=
  let p := nevsPartition n in {| nev := snd p; ncv := snd p * 2 |}.

(** PartialGeneralizedSymEigenSolver, line 307 *)
Definition requestPartial (n k : nat) : request := {| nev := k; ncv := if 2 * k <=? n then 2 * k else n |}.

(** The check of the constructor of Spectra::SymEigsBase, which raises std::invalid_argument *)
Definition accepted (n : nat) (r : request) : bool := (1 <=? nev r) && (nev r <=? n - 1) && (nev r <? ncv r) && (ncv r <=? n).

(** The outcome of a call *)
Inductive answer (T : Type) := Answer (x : T) | InvalidArgument | InvalidState.
Arguments Answer {T}. Arguments InvalidArgument {T}. Arguments InvalidState {T}.

Section Solver.
  Variable V : Type.
  Variable dflt : V.

  (** One run of a solver of Spectra: whether info() is Successful, and the eigenvalues *)
  Record run := { successful : bool; found : list V }.

  (** The members of GeneralizedSymEigenSolver that change; the vector has n entries *)
  Record solver := { size : nat; eigenvalues_ : list V; computed_ : bool }.

  (** Constructor, lines 71-85 *)
  Definition construct (n : nat) : answer solver :=
    if accepted n (requestSmallest n) && accepted n (requestGreatest n)
    then Answer {| size := n; eigenvalues_ := repeat dflt n; computed_ := false |} else InvalidArgument.

  (** head(k) = x and tail(k) = x *)
  Definition setHead (k : nat) (x v : list V) : list V := firstn k x ++ skipn k v.
  Definition setTail (k : nat) (x v : list V) : list V := firstn (length v - k) v ++ firstn k x.

  (** compute, lines 107-126; smallest and greatest are what the two solvers return *)
  Definition compute (smallest greatest : run) (s : solver) : solver * bool :=
    let ok := successful smallest && successful greatest in
    if ok then
      let p := nevsPartition (size s) in
      let v := setHead (fst p) (found smallest) (eigenvalues_ s) in
      let v := setTail (snd p) (found greatest) v in
      ({| size := size s; eigenvalues_ := v; computed_ := true |}, true)
    else ({| size := size s; eigenvalues_ := eigenvalues_ s; computed_ := false |}, false).

  (** eigenvalues(), lines 133-136 *)
  Definition eigenvalues (s : solver) : answer (list V) := if computed_ s then Answer (eigenvalues_ s) else InvalidState.

  (** PartialGeneralizedSymEigenSolver::eigenvectors, lines 360-364 with assertNev, lines 265-268; vectors k are the first k columns *)
  Definition partialVectors (total : nat) (computed : bool) (vectors : list V) (wanted : option nat) : answer (list V) :=
    match wanted with
    | Some k => if total <? k then InvalidState else if computed then Answer (firstn k vectors) else InvalidState
    | None => if computed then Answer (firstn total vectors) else InvalidState
    end.
End Solver.
Arguments construct {V}. Arguments compute {V}. Arguments eigenvalues {V}. Arguments partialVectors {V}.
Arguments setHead {V}. Arguments setTail {V}. Arguments found {V}. Arguments successful {V}.
Arguments size {V}. Arguments computed_ {V}. Arguments eigenvalues_ {V}.

(** An argument of the constructor: the matrix has dynamic or fixed size and is passed by reference or as a temporary *)
Record argument := { rows : nat; cols : nat; dynamic : bool; temporary : bool }.

(** What is left of an argument after it was forwarded to a member: Eigen's move constructor of a dynamic matrix leaves it empty *)
Definition forwarded (a : argument) : nat * nat := if dynamic a && temporary a then (0, 0) else (rows a, cols a).

Definition mismatch (a b : nat * nat) : bool :=
  negb (snd a =? snd b) || negb (fst a =? fst b) || negb (snd a =? fst a).

(** GeneralizedSymEigenSolver for Eigen, lines 194-201: the members are initialised before the check *)
Definition constructEigen (A B : argument) : answer unit := if mismatch (forwarded A) (forwarded B) then InvalidState else Answer tt.

(** makeIdentitySymEigenSolver, generalizedeigensolverfactory.hh lines 70-76: the identity is passed by reference *)
Definition makeIdentityEigen (A : argument) : answer unit :=
  constructEigen A {| rows := rows A; cols := cols A; dynamic := dynamic A; temporary := false |}.

(** eigenvalues() of the solver for Eigen: compute always reports success, lines 223-227 *)
Definition computeEigen {V} (result : list V) : list V * bool := (result, true).
