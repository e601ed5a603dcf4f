(** Model of the flat assemblers.

    Sources:
    - /repo/ikarus/assembler/interface.hh        (FlatAssemblerBase)
    - /repo/ikarus/assembler/simpleassemblers.inl (all assembly routines)
    - /repo/ikarus/utils/eigensparseaddon.hh      (getLinearIndex)

    The number type is an arbitrary type [V] with arbitrary operations, so that
    nothing proved here relies on algebraic laws unless a theorem names them.
    Out-of-range accesses (undefined behaviour in C++) are the result [None]. *)

From Coq Require Import List Arith Bool Lia.
Import ListNotations.

(** * Flags and the numbering of free dofs *)

(** interface.hh:54-60, the constructor loop filling [constraintsBelow_]:
    before looking at flag [iv] the running counter is appended, then it is
    increased if the dof is constrained. *)
Fixpoint constraintsBelow_loop (counter : nat) (flags : list bool) : list nat :=
  match flags with
  | [] => []
  | b :: t => counter :: constraintsBelow_loop (if b then S counter else counter) t
  end.

Definition constraintsBelow_table (flags : list bool) : list nat :=
  constraintsBelow_loop 0 flags.

(** dirichletvalues.hh:194 [fixedDOFsize]: std::ranges::count(flags, true). *)
Fixpoint fixedDOFsize (flags : list bool) : nat :=
  match flags with
  | [] => 0
  | b :: t => if b then S (fixedDOFsize t) else fixedDOFsize t
  end.

(** interface.hh:74 and dirichletvalues.hh:197. *)
Definition size (flags : list bool) : nat := length flags.

(** interface.hh:68 and 61. *)
Definition reducedSize (flags : list bool) : nat := size flags - fixedDOFsize flags.

(** interface.hh:124; operator[] on a std::vector, out of range is undefined. *)
Definition constraintsBelow (flags : list bool) (i : nat) : option nat :=
  nth_error (constraintsBelow_table flags) i.

(** interface.hh:132 and dirichletvalues.hh:187-191. *)
Definition isConstrained (flags : list bool) (i : nat) : option bool := nth_error flags i.

(** The expression [dof - constraintsBelow(dof)] (simpleassemblers.inl:114, 244-245,
    283, 368).  It is evaluated in size_t; it never wraps because the count is at
    most the index (theorem [C01_constraintsBelow]). *)
Definition reducedIndex (flags : list bool) (i : nat) : option nat :=
  match constraintsBelow flags i with
  | Some k => Some (i - k)
  | None => None
  end.

(** * Element-wise access *)

(** Replace entry [i]; out of range leaves the list (callers test the range). *)
Fixpoint set_nth {A} (l : list A) (i : nat) (x : A) : list A :=
  match l, i with
  | [], _ => []
  | _ :: t, 0 => x :: t
  | h :: t, S j => h :: set_nth t j x
  end.

(** Checked write [l(i) = x]. *)
Definition put {A} (l : list A) (i : nat) (x : A) : option (list A) :=
  if i <? length l then Some (set_nth l i x) else None.

(** Monadic left fold: stops at the first undefined access. *)
Fixpoint foldM {S A} (f : S -> A -> option S) (s : S) (l : list A) : option S :=
  match l with
  | [] => Some s
  | a :: t => match f s a with Some s' => foldM f s' t | None => None end
  end.

Section Values.
Context {V : Type} (vzero vone : V) (vadd vmul : V -> V -> V).

(** Checked accumulation [l(i) += x]. *)
Definition acc (l : list V) (i : nat) (x : V) : option (list V) :=
  match nth_error l i with
  | Some y => Some (set_nth l i (vadd y x))
  | None => None
  end.

(** * createFullVector / createReducedVector *)

(** simpleassemblers.inl:32-39. [i] is the loop variable and [rc] is [reducedCounter]. *)
Fixpoint createFullVector_loop (flags : list bool) (red : list V) (i rc : nat) : option (list V) :=
  match flags with
  | [] => Some []
  | true :: t => option_map (cons vzero) (createFullVector_loop t red (S i) (S rc))
  | false :: t =>
      match nth_error red (i - rc) with
      | Some x => option_map (cons x) (createFullVector_loop t red (S i) rc)
      | None => None
      end
  end.

(** simpleassemblers.inl:27-41; the assert on the size is a precondition. *)
Definition createFullVector (flags : list bool) (red : list V) : option (list V) :=
  if length red =? reducedSize flags then createFullVector_loop flags red 0 0 else None.

(** simpleassemblers.inl:49-55. The destination is allocated uninitialised
    (line 48), hence entries of type [option V], [None] = not yet written. *)
Fixpoint createReducedVector_loop (flags : list bool) (full : list V) (dst : list (option V)) (i rc : nat)
  : option (list (option V)) :=
  match full with
  | [] => Some dst
  | x :: t =>
      match nth_error flags i with
      | None => None
      | Some true => createReducedVector_loop flags t dst (S i) (S rc)
      | Some false =>
          match put dst (i - rc) (Some x) with
          | Some dst' => createReducedVector_loop flags t dst' (S i) rc
          | None => None
          end
      end
  end.

(** Reading a vector that still holds an uninitialised entry is not a value. *)
Fixpoint all_written (l : list (option V)) : option (list V) :=
  match l with
  | [] => Some []
  | Some x :: t => option_map (cons x) (all_written t)
  | None :: _ => None
  end.

(** simpleassemblers.inl:44-57. *)
Definition createReducedVector (flags : list bool) (full : list V) : option (list V) :=
  if length full =? size flags then
    match createReducedVector_loop flags full (repeat None (reducedSize flags)) 0 0 with
    | Some dst => all_written dst
    | None => None
    end
  else None.

(** * Elements *)

(** What an assembler sees of a finite element: its global indices
    (FEHelper::globalIndices) and the results of calculateScalar / calculateVector /
    calculateMatrix for a requirement-and-affordance [Q].  The element matrix is an
    Eigen::MatrixXd, i.e. stored by columns. *)
Record element (Q : Type) := mkElement {
  dofs : list nat;
  escal : Q -> V;
  evec : Q -> list V;
  emat : Q -> list V;
}.
Arguments dofs {Q}. Arguments escal {Q}. Arguments evec {Q}. Arguments emat {Q}.
Context {Q : Type}.
Notation elt := (element Q).

(** Entry (i,j) of a k x k column-major local matrix. *)
Definition local_entry (k : nat) (A : list V) (i j : nat) : option V :=
  if (i <? k) && (j <? k) then nth_error A (i + j * k) else None.

(** * Scalar assembly: simpleassemblers.inl:17-24 *)
Definition getScalar (els : list elt) (q : Q) : V :=
  fold_left (fun s e => vadd s (escal e q)) els vzero.

(** * Vector assembly *)

(** simpleassemblers.inl:72-75: the loop over the dofs of one element with the
    running local index [i]. *)
Fixpoint rawVector_element (v : list V) (ds : list nat) (loc : list V) (i : nat) : option (list V) :=
  match ds with
  | [] => Some v
  | d :: t =>
      match nth_error loc i with
      | Some x => match acc v d x with Some v' => rawVector_element v' t loc (S i) | None => None end
      | None => None
      end
  end.

(** simpleassemblers.inl:60-77. *)
Definition assembleRawVector (n : nat) (els : list elt) (q : Q) : option (list V) :=
  foldM (fun v e => rawVector_element v (dofs e) (evec e q) 0) (repeat vzero n) els.

(** simpleassemblers.inl:90-92 (also dirichletvalues.hh:229-233): zero at constrained dofs. *)
Fixpoint zeroConstrained (flags : list bool) (v : list V) : list V :=
  match flags, v with
  | b :: ft, x :: vt => (if b then vzero else x) :: zeroConstrained ft vt
  | _, _ => v
  end.

(** simpleassemblers.inl:80-84. *)
Definition getRawVector (flags : list bool) (els : list elt) (q : Q) : option (list V) :=
  assembleRawVector (size flags) els q.

(** simpleassemblers.inl:87-94. *)
Definition getVector (flags : list bool) (els : list elt) (q : Q) : option (list V) :=
  option_map (zeroConstrained flags) (assembleRawVector (size flags) els q).

(** simpleassemblers.inl:109-115: [k] is [localConstrainedCounter]; it counts all
    dofs visited so far, constrained or not. *)
Fixpoint reducedVector_element (flags : list bool) (v : list V) (ds : list nat) (loc : list V) (k : nat)
  : option (list V) :=
  match ds with
  | [] => Some v
  | d :: t =>
      match isConstrained flags d with
      | None => None
      | Some true => reducedVector_element flags v t loc (S k)
      | Some false =>
          match reducedIndex flags d, nth_error loc k with
          | Some r, Some x =>
              match acc v r x with
              | Some v' => reducedVector_element flags v' t loc (S k)
              | None => None
              end
          | _, _ => None
          end
      end
  end.

(** simpleassemblers.inl:97-118. *)
Definition getReducedVector (flags : list bool) (els : list elt) (q : Q) : option (list V) :=
  foldM (fun v e => reducedVector_element flags v (dofs e) (evec e q) 0) (repeat vzero (reducedSize flags)) els.

(** * Dense matrices (Eigen::MatrixXd: column-major storage) *)

Record dense := mkDense { drows : nat; dcols : nat; ddata : list V }.

Definition dzero (r c : nat) : dense := mkDense r c (repeat vzero (r * c)).

(** m(r,c) for reading. *)
Definition dget (m : dense) (r c : nat) : option V :=
  if (r <? drows m) && (c <? dcols m) then nth_error (ddata m) (r + c * drows m) else None.

(** m(r,c) += x *)
Definition dacc (m : dense) (r c : nat) (x : V) : option dense :=
  if (r <? drows m) && (c <? dcols m)
  then option_map (mkDense (drows m) (dcols m)) (acc (ddata m) (r + c * drows m) x)
  else None.

(** m(r,c) = x *)
Definition dput (m : dense) (r c : nat) (x : V) : option dense :=
  if (r <? drows m) && (c <? dcols m)
  then option_map (mkDense (drows m) (dcols m)) (put (ddata m) (r + c * drows m) x)
  else None.

(** The local index pairs (i,j) with their global indices in the order of the
    nested loops simpleassemblers.inl:313-319 (rows outside, columns inside). *)
Fixpoint enumerate {A} (i : nat) (l : list A) : list (nat * A) :=
  match l with [] => [] | a :: t => (i, a) :: enumerate (S i) t end.

Definition pairs_rowmajor (ds : list nat) : list ((nat * nat) * (nat * nat)) :=
  flat_map (fun ri => map (fun cj => ((fst ri, fst cj), (snd ri, snd cj))) (enumerate 0 ds)) (enumerate 0 ds).

(** simpleassemblers.inl:313-319. *)
Definition denseRaw_element (q : Q) (m : dense) (e : elt) : option dense :=
  foldM (fun m p =>
           let '((i, j), (r, c)) := p in
           match local_entry (length (dofs e)) (emat e q) i j with
           | Some x => dacc m r c x
           | None => None
           end) m (pairs_rowmajor (dofs e)).

(** simpleassemblers.inl:302-321. *)
Definition assembleRawDense (n : nat) (els : list elt) (q : Q) : option dense :=
  foldM (denseRaw_element q) (dzero n n) els.

(** simpleassemblers.inl:324-328. *)
Definition getRawDense (flags : list bool) (els : list elt) (q : Q) : option dense :=
  assembleRawDense (size flags) els q.

(** [mat_.col(i).setZero()] and [mat_.row(i).setZero()]: one checked write per entry. *)
Definition dense_col_zero (m : dense) (c : nat) : option dense :=
  foldM (fun m r => dput m r c vzero) m (seq 0 (drows m)).
Definition dense_row_zero (m : dense) (r : nat) : option dense :=
  foldM (fun m c => dput m r c vzero) m (seq 0 (dcols m)).

(** The loop [for i in 0..size-1: if (isConstrained(i)) f(i)] used at
    simpleassemblers.inl:159-167 and 334-342. *)
Definition forConstrained {M} (flags : list bool) (f : M -> nat -> option M) (m : M) : option M :=
  foldM (fun m i => match isConstrained flags i with
                    | Some true => f m i
                    | Some false => Some m
                    | None => None
                    end) m (seq 0 (size flags)).

(** simpleassemblers.inl:331-344. *)
Definition getDense (flags : list bool) (els : list elt) (q : Q) : option dense :=
  match assembleRawDense (size flags) els q with
  | None => None
  | Some m0 =>
    match forConstrained flags dense_col_zero m0 with
    | None => None
    | Some m1 =>
      match forConstrained flags dense_row_zero m1 with
      | None => None
      | Some m2 => forConstrained flags (fun m i => dput m i i vone) m2
      end
    end
  end.

(** The pairs of unconstrained local dofs with their reduced global indices, in
    loop order (simpleassemblers.inl:190-200, 237-248, 276-285, 360-372).
    [None] = out-of-range access to the flag or count tables. *)
Definition freeDofs (flags : list bool) (ds : list nat) : option (list (nat * nat)) :=
  foldM (fun l id => match isConstrained flags (snd id) with
                     | Some true => Some l
                     | Some false => option_map (fun r => l ++ [(fst id, r)]) (reducedIndex flags (snd id))
                     | None => None
                     end) [] (enumerate 0 ds).

Definition pairs_free (flags : list bool) (ds : list nat) : option (list ((nat * nat) * (nat * nat))) :=
  option_map (fun fr =>
     flat_map (fun ri => map (fun cj => ((fst ri, fst cj), (snd ri, snd cj))) fr) fr) (freeDofs flags ds).

(** simpleassemblers.inl:360-372. *)
Definition denseReduced_element (flags : list bool) (q : Q) (m : dense) (e : elt) : option dense :=
  match pairs_free flags (dofs e) with
  | None => None
  | Some ps =>
    foldM (fun m p =>
             let '((i, j), (r, c)) := p in
             match local_entry (length (dofs e)) (emat e q) i j with
             | Some x => dacc m r c x
             | None => None
             end) m ps
  end.

(** simpleassemblers.inl:347-375. *)
Definition getReducedDense (flags : list bool) (els : list elt) (q : Q) : option dense :=
  foldM (denseReduced_element flags q) (dzero (reducedSize flags) (reducedSize flags)) els.

(** * Sparse matrices (Eigen::SparseMatrix<double>, column-major, compressed) *)

Record sparse := mkSparse {
  srows : nat;
  scols : nat;
  souter : list nat;  (* m_outerIndex: column c occupies slots souter[c] .. souter[c+1]-1 *)
  sinner : list nat;  (* row index of each slot *)
  svals : list V;     (* coeffs() *)
}.

(** Insertion of a row index in a sorted list without duplicates. *)
Fixpoint insert_sorted (x : nat) (l : list nat) : list nat :=
  match l with
  | [] => [x]
  | y :: t => if x <? y then x :: l else if x =? y then l else y :: insert_sorted x t
  end.

Definition sort_rows (l : list nat) : list nat := fold_right insert_sorted [] l.

(** Rows stored in column [c] after setFromTriplets. *)
Definition column_rows (ts : list (nat * nat)) (c : nat) : list nat :=
  sort_rows (map fst (filter (fun t => snd t =? c) ts)).

Fixpoint prefix_sums (s : nat) (l : list nat) : list nat :=
  match l with [] => [s] | a :: t => s :: prefix_sums (s + a) t end.

(** Eigen's setFromTriplets (simpleassemblers.inl:221, 250) on a matrix resized to
    n x n: sorted compressed columns, duplicates merged.  All triplet values are
    0.0 in the code, so all stored values are zero. [None]: a triplet outside the matrix. *)
Definition setFromTriplets (n : nat) (ts : list (nat * nat)) : option sparse :=
  if forallb (fun t => (fst t <? n) && (snd t <? n)) ts then
    let cols := map (column_rows ts) (seq 0 n) in
    let inner := concat cols in
    Some (mkSparse n n (prefix_sums 0 (map (@length nat) cols)) inner (repeat vzero (length inner)))
  else None.

(** Eigen's CompressedStorage::searchLowerIndex(start, end, key): binary search for
    the first slot in [start,end) whose index is not smaller than the key. [fuel] bounds the
    number of halvings, [None] is out of fuel or an out-of-range read. *)
Fixpoint searchLowerIndex (fuel : nat) (inner : list nat) (start stop key : nat) : option nat :=
  if start <? stop then
    match fuel with
    | 0 => None
    | S fuel' =>
      let mid := Nat.div2 (start + stop) in
      match nth_error inner mid with
      | None => None
      | Some v => if v <? key then searchLowerIndex fuel' inner (S mid) stop key
                  else searchLowerIndex fuel' inner start mid key
      end
    end
  else Some start.

(** eigensparseaddon.hh:19-31. The search runs over [start, end-1). *)
Definition getLinearIndex (m : sparse) (row col : nat) : option nat :=
  if (row <? srows m) && (col <? scols m) then
    match nth_error (souter m) col, nth_error (souter m) (S col) with
    | Some start, Some stop => searchLowerIndex (length (sinner m)) (sinner m) start (stop - 1) row
    | _, _ => None
    end
  else None.

(** Eigen's coeff(row,col): search in the column, zero if the entry is not stored. *)
Definition slots (m : sparse) (col : nat) : list nat :=
  match nth_error (souter m) col, nth_error (souter m) (S col) with
  | Some start, Some stop => seq start (stop - start)
  | _, _ => []
  end.

Definition sget (m : sparse) (row col : nat) : option V :=
  if (row <? srows m) && (col <? scols m) then
    match find (fun p => match nth_error (sinner m) p with Some r => r =? row | None => false end) (slots m col) with
    | Some p => nth_error (svals m) p
    | None => Some vzero
    end
  else None.

Definition with_vals (m : sparse) (v : list V) : sparse :=
  mkSparse (srows m) (scols m) (souter m) (sinner m) v.

(** simpleassemblers.inl:207-222. *)
Definition createOccupationPattern (flags : list bool) (els : list elt) : option sparse :=
  setFromTriplets (size flags) (flat_map (fun e => flat_map (fun i => map (fun j => (i, j)) (dofs e)) (dofs e)) els).

(** simpleassemblers.inl:225-251. *)
Definition createReducedOccupationPattern (flags : list bool) (els : list elt) : option sparse :=
  match foldM (fun l e => option_map (fun ps => l ++ map snd ps) (pairs_free flags (dofs e))) [] els with
  | Some ts => setFromTriplets (reducedSize flags) ts
  | None => None
  end.

Fixpoint mapM {A B} (f : A -> option B) (l : list A) : option (list B) :=
  match l with
  | [] => Some []
  | a :: t => match f a, mapM f t with Some b, Some bs => Some (b :: bs) | _, _ => None end
  end.

(** simpleassemblers.inl:254-265 for one element: columns outside, rows inside. *)
Definition linearDOFs_element (m : sparse) (ds : list nat) : option (list nat) :=
  mapM (fun rc => getLinearIndex m (fst rc) (snd rc)) (flat_map (fun c => map (fun r => (r, c)) ds) ds).

(** simpleassemblers.inl:268-287 for one element. *)
Definition linearDOFsReduced_element (flags : list bool) (m : sparse) (ds : list nat) : option (list nat) :=
  match pairs_free flags ds with
  | Some ps => mapM (fun p => getLinearIndex m (fst (snd p)) (snd (snd p))) ps
  | None => None
  end.

(** simpleassemblers.inl:133-134: the loop over A.reshaped() (column-major), with the
    cached slots of the element; both arrays are read by a running index. *)
Fixpoint scatter (coeffs : list V) (slots : list nat) (vals : list V) {struct vals} : option (list V) :=
  match vals with
  | [] => Some coeffs
  | x :: vt =>
    match slots with
    | [] => None
    | p :: pt => match acc coeffs p x with Some c' => scatter c' pt vt | None => None end
    end
  end.

(** simpleassemblers.inl:121-137. [idx] is elementLinearIndices_; element number k uses entry k,
    which must exist. *)
Fixpoint assembleRawSparse_loop (coeffs : list V) (idx : list (list nat)) (els : list elt) (q : Q) {struct els} : option (list V) :=
  match els with
  | [] => Some coeffs
  | e :: et =>
    match idx with
    | [] => None
    | s :: it => match scatter coeffs s (emat e q) with
                 | Some c' => assembleRawSparse_loop c' it et q
                 | None => None
                 end
    end
  end.

Definition assembleRawSparse (m : sparse) (idx : list (list nat)) (els : list elt) (q : Q) : option sparse :=
  option_map (with_vals m) (assembleRawSparse_loop (repeat vzero (length (svals m))) idx els q).

(** simpleassemblers.inl:189-200 for one element: running [linearIndex] into the cached
    reduced slots, entries A(r,c) in loop order. *)
Definition reducedSparse_element (flags : list bool) (coeffs : list V) (s : list nat) (e : elt) (q : Q) : option (list V) :=
  match pairs_free flags (dofs e) with
  | None => None
  | Some ps =>
    match mapM (fun p => local_entry (length (dofs e)) (emat e q) (fst (fst p)) (snd (fst p))) ps with
    | Some vals => scatter coeffs s vals
    | None => None
    end
  end.

(** simpleassemblers.inl:178-202. *)
Fixpoint assembleReducedSparse_loop (flags : list bool) (coeffs : list V) (idx : list (list nat)) (els : list elt) (q : Q) {struct els}
  : option (list V) :=
  match els with
  | [] => Some coeffs
  | e :: et =>
    match idx with
    | [] => None
    | s :: it => match reducedSparse_element flags coeffs s e q with
                 | Some c' => assembleReducedSparse_loop flags c' it et q
                 | None => None
                 end
    end
  end.

(** [spMat_.col(i) *= 0] and [spMat_.row(i) *= 0]: every stored entry of the column (row) is
    multiplied by zero. simpleassemblers.inl:159-164. *)
Definition mul_slot (v : list V) (p : nat) : option (list V) :=
  match nth_error v p with Some y => Some (set_nth v p (vmul y vzero)) | None => None end.

Definition sparse_col_zero (m : sparse) (c : nat) : option sparse :=
  option_map (with_vals m) (foldM mul_slot (svals m) (slots m c)).

Definition row_slots (m : sparse) (r : nat) : list nat :=
  filter (fun p => match nth_error (sinner m) p with Some x => x =? r | None => false end)
         (seq 0 (length (sinner m))).

Definition sparse_row_zero (m : sparse) (r : nat) : option sparse :=
  option_map (with_vals m) (foldM mul_slot (svals m) (row_slots m r)).

(** [spMat_.diagonal()[i] = 1], simpleassemblers.inl:165-167.  If the diagonal entry is stored it is
    overwritten.  Eigen requires that it is stored ("all diagonal entries must already exist, otherwise an assertion will
    be raised", documentation of SparseMatrix::diagonal; without assertions the search returns -1 and the value before the
    first one is written): [None]. *)
Definition sparse_diag_one (m : sparse) (i : nat) : option sparse :=
  match find (fun p => match nth_error (sinner m) p with Some r => r =? i | None => false end) (slots m i) with
  | Some p => option_map (with_vals m) (put (svals m) p vone)
  | None => None
  end.

(** * The sparse assembler as a state machine *)

(** simpleassemblers.hh:45-48 (scal_), 90-92 (vector caches), 158-166 (sparse caches). A matrix that was never
    initialised is [None]. *)
Record spState := mkSpState {
  st_scal : V;
  st_vecRaw : list V;
  st_vec : list V;
  st_vecRed : list V;
  st_raw : option sparse;
  st_full : option sparse;
  st_red : option sparse;
  st_idx : list (list nat);
  st_idxRed : list (list nat);
  st_preRaw : bool;
  st_preFull : bool;
  st_preRed : bool;
}.

(** Default member initialisers, simpleassemblers.hh:48, 90-92, 158-166. *)
Definition spInit : spState :=
  mkSpState vzero [] [] [] None None None [] [] false false false.

Inductive dbc := Raw | Reduced | Full.

Inductive request :=
| RScalar (q : Q)
| RVector (o : dbc) (q : Q)
| RMatrix (o : dbc) (q : Q).

Inductive response :=
| OScalar (x : V)
| OVector (v : list V)
| OSparse (m : sparse)
| ODense (m : dense).

(** simpleassemblers.inl:290-293 with 207-222 and 254-265: build the pattern, then append the slots of all elements to
    elementLinearIndices_ (emplace_back, never cleared). *)
Definition preProcessSparse (flags : list bool) (els : list elt) (idx : list (list nat)) : option (sparse * list (list nat)) :=
  match createOccupationPattern flags els with
  | None => None
  | Some m => match mapM (fun e => linearDOFs_element m (dofs e)) els with
              | Some new => Some (m, idx ++ new)
              | None => None
              end
  end.

(** simpleassemblers.inl:296-299 with 225-251 and 268-287. *)
Definition preProcessSparseReduced (flags : list bool) (els : list elt) (idx : list (list nat)) : option (sparse * list (list nat)) :=
  match createReducedOccupationPattern flags els with
  | None => None
  | Some m => match mapM (fun e => linearDOFsReduced_element flags m (dofs e)) els with
              | Some new => Some (m, idx ++ new)
              | None => None
              end
  end.

Definition set_scal s x := mkSpState x (st_vecRaw s) (st_vec s) (st_vecRed s) (st_raw s) (st_full s) (st_red s) (st_idx s) (st_idxRed s) (st_preRaw s) (st_preFull s) (st_preRed s).
Definition set_vecRaw s x := mkSpState (st_scal s) x (st_vec s) (st_vecRed s) (st_raw s) (st_full s) (st_red s) (st_idx s) (st_idxRed s) (st_preRaw s) (st_preFull s) (st_preRed s).
Definition set_vec s x := mkSpState (st_scal s) (st_vecRaw s) x (st_vecRed s) (st_raw s) (st_full s) (st_red s) (st_idx s) (st_idxRed s) (st_preRaw s) (st_preFull s) (st_preRed s).
Definition set_vecRed s x := mkSpState (st_scal s) (st_vecRaw s) (st_vec s) x (st_raw s) (st_full s) (st_red s) (st_idx s) (st_idxRed s) (st_preRaw s) (st_preFull s) (st_preRed s).
Definition set_raw s m idx b := mkSpState (st_scal s) (st_vecRaw s) (st_vec s) (st_vecRed s) m (st_full s) (st_red s) idx (st_idxRed s) b (st_preFull s) (st_preRed s).
Definition set_full s m idx b := mkSpState (st_scal s) (st_vecRaw s) (st_vec s) (st_vecRed s) (st_raw s) m (st_red s) idx (st_idxRed s) (st_preRaw s) b (st_preRed s).
Definition set_red s m idx b := mkSpState (st_scal s) (st_vecRaw s) (st_vec s) (st_vecRed s) (st_raw s) (st_full s) m (st_idx s) idx (st_preRaw s) (st_preFull s) b.

(** simpleassemblers.inl:140-149. *)
Definition getRawSparse (flags : list bool) (els : list elt) (s : spState) (q : Q) : option (spState * sparse) :=
  let s1 := if st_preRaw s then Some s
            else option_map (fun mi => set_raw s (Some (fst mi)) (snd mi) true) (preProcessSparse flags els (st_idx s)) in
  match s1 with
  | None => None
  | Some s1 =>
    match st_raw s1 with
    | None => None
    | Some m => option_map (fun m' => (set_raw s1 (Some m') (st_idx s1) (st_preRaw s1), m')) (assembleRawSparse m (st_idx s1) els q)
    end
  end.

(** simpleassemblers.inl:152-169. *)
Definition getSparse (flags : list bool) (els : list elt) (s : spState) (q : Q) : option (spState * sparse) :=
  let s1 := if st_preFull s then Some s
            else option_map (fun mi => set_full s (Some (fst mi)) (snd mi) true) (preProcessSparse flags els (st_idx s)) in
  match s1 with
  | None => None
  | Some s1 =>
    match st_full s1 with
    | None => None
    | Some m =>
      match assembleRawSparse m (st_idx s1) els q with
      | None => None
      | Some m0 =>
        match forConstrained flags sparse_col_zero m0 with
        | None => None
        | Some m1 =>
          match forConstrained flags sparse_row_zero m1 with
          | None => None
          | Some m2 =>
            option_map (fun m3 => (set_full s1 (Some m3) (st_idx s1) (st_preFull s1), m3)) (forConstrained flags sparse_diag_one m2)
          end
        end
      end
    end
  end.

(** simpleassemblers.inl:172-204. *)
Definition getReducedSparse (flags : list bool) (els : list elt) (s : spState) (q : Q) : option (spState * sparse) :=
  let s1 := if st_preRed s then Some s
            else option_map (fun mi => set_red s (Some (fst mi)) (snd mi) true) (preProcessSparseReduced flags els (st_idxRed s)) in
  match s1 with
  | None => None
  | Some s1 =>
    match st_red s1 with
    | None => None
    | Some m =>
      option_map (fun c => let m' := with_vals m c in (set_red s1 (Some m') (st_idxRed s1) (st_preRed s1), m'))
        (assembleReducedSparse_loop flags (repeat vzero (length (svals m))) (st_idxRed s1) els q)
    end
  end.

(** interface.hh:300-302, 355-365, 430-440: dispatch of one request. *)
Definition spStep (flags : list bool) (els : list elt) (s : spState) (r : request) : option (spState * response) :=
  match r with
  | RScalar q => let x := getScalar els q in Some (set_scal s x, OScalar x)
  | RVector Raw q => option_map (fun v => (set_vecRaw s v, OVector v)) (getRawVector flags els q)
  | RVector Full q => option_map (fun v => (set_vec s v, OVector v)) (getVector flags els q)
  | RVector Reduced q => option_map (fun v => (set_vecRed s v, OVector v)) (getReducedVector flags els q)
  | RMatrix Raw q => option_map (fun p => (fst p, OSparse (snd p))) (getRawSparse flags els s q)
  | RMatrix Full q => option_map (fun p => (fst p, OSparse (snd p))) (getSparse flags els s q)
  | RMatrix Reduced q => option_map (fun p => (fst p, OSparse (snd p))) (getReducedSparse flags els s q)
  end.

Definition spRun (flags : list bool) (els : list elt) (s : spState) (h : list request) : option spState :=
  foldM (fun s r => option_map fst (spStep flags els s r)) s h.

(** * The dense assembler: its members are overwritten completely by every request
    (setZero / resize), simpleassemblers.inl:302-375; the stored values are therefore not part of the state. *)
Definition denseRequest (flags : list bool) (els : list elt) (r : request) : option response :=
  match r with
  | RScalar q => Some (OScalar (getScalar els q))
  | RVector Raw q => option_map OVector (getRawVector flags els q)
  | RVector Full q => option_map OVector (getVector flags els q)
  | RVector Reduced q => option_map OVector (getReducedVector flags els q)
  | RMatrix Raw q => option_map ODense (getRawDense flags els q)
  | RMatrix Full q => option_map ODense (getDense flags els q)
  | RMatrix Reduced q => option_map ODense (getReducedDense flags els q)
  end.

End Values.

Arguments mkElement {V Q}. Arguments dofs {V Q}. Arguments escal {V Q}. Arguments evec {V Q}. Arguments emat {V Q}.
Arguments mkDense {V}. Arguments drows {V}. Arguments dcols {V}. Arguments ddata {V}.
Arguments mkSparse {V}. Arguments srows {V}. Arguments scols {V}. Arguments souter {V}. Arguments sinner {V}. Arguments svals {V}.
