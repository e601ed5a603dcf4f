(** Model of ikarus/utils/tensorutils.hh over the real numbers.

    Matrices and tensors are memories: an entry is [None] until it is written (Eigen does not initialise). *)

From Coq Require Import List Arith ZArith Reals Bool.
From Verif Require Import Utils_Model.
Import ListNotations.
Local Open Scope R_scope.

Definition mat := nat -> nat -> option R.
Definition tensor4 := nat -> nat -> nat -> nat -> option R.

Definition noMat : mat := fun _ _ => None.
Definition noTensor : tensor4 := fun _ _ _ _ => None.
Definition setM (m : mat) (i j : nat) (x : R) : mat := fun a b => if ((a =? i) && (b =? j))%nat then Some x else m a b.
Definition setT (t : tensor4) (i j k l : nat) (x : R) : tensor4 :=
  fun a b c d => if ((a =? i) && (b =? j) && (c =? k) && (d =? l))%nat then Some x else t a b c d.

(** Values that are read *)
Definition rmat := nat -> nat -> R.
Definition rtensor4 := nat -> nat -> nat -> nat -> R.

(** A for loop *)
Fixpoint loop {S : Type} (n : nat) (body : nat -> S -> S) (s : S) : S :=
  match n with O => s | S n => body n (loop n body s) end.

(** 180-202, None: __builtin_unreachable *)
Definition toVoigtIndex (dim i j : nat) : option nat :=
  (if dim =? 2 then
     if i =? j then Some i
     else if ((i =? 0) && (j =? 1)) || ((i =? 1) && (j =? 0)) then Some 2
     else None
   else
     if i =? j then Some i
     else if ((i =? 1) && (j =? 2)) || ((i =? 2) && (j =? 1)) then Some 3
     else if ((i =? 0) && (j =? 2)) || ((i =? 2) && (j =? 0)) then Some 4
     else if ((i =? 0) && (j =? 1)) || ((i =? 1) && (j =? 0)) then Some 5
     else None)%nat.

(** 343-369 *)
Definition fromVoigtIndex (dim i : nat) : option (nat * nat) :=
  (if dim =? 3 then
     if i <? 3 then Some (i, i)
     else if i =? 3 then Some (1, 2)
     else if i =? 4 then Some (0, 2)
     else if i =? 5 then Some (0, 1)
     else None
   else
     if i <? 2 then Some (i, i)
     else if i =? 2 then Some (0, 1)
     else None)%nat.

(** 219-227; a 6x6 matrix *)
Definition toVoigtTensor (ft : rtensor4) : mat :=
  loop 3 (fun i => loop 3 (fun j => loop 3 (fun k => loop 3 (fun l m =>
    match toVoigtIndex 3 i j, toVoigtIndex 3 k l with
    | Some a, Some b => setM m a b (ft i j k l)
    | _, _ => m
    end)))) noMat.

Definition factorTo (isStrain : bool) : R := if isStrain then 2 else 1.
Definition factorFrom (isStrain : bool) : R := if isStrain then 1 / 2 else 1.

(** A vector as memory *)
Definition vec := nat -> option R.
Definition setV (v : vec) (i : nat) (x : R) : vec := fun a => if (a =? i)%nat then Some x else v a.
Definition noVec : vec := fun _ => None.

(** 248-276 *)
Definition toVoigt (size : nat) (E : rmat) (isStrain : bool) : vec :=
  let f := factorTo isStrain in
  let v := loop size (fun i v => setV v i (E i i)) noVec in
  if (size =? 2)%nat then setV v 2 (E 0%nat 1%nat * f)
  else if (size =? 3)%nat then
    setV (setV (setV v size (E 1%nat 2%nat * f)) (size + 1) (E 0%nat 2%nat * f)) (size + 2) (E 0%nat 1%nat * f)
  else v.

(** 301-302: the number of rows of the matrix, from the length of the vector *)
Definition matrixSize (size : nat) : option nat :=
  match ct_sqrt 127 100 (Z.of_nat (1 + 8 * size)) with
  | Some r => Some (Z.to_nat ((r - 1) / 2))
  | None => None
  end.

(** 293-326 *)
Definition fromVoigt (size : nat) (v : nat -> R) (isStrain : bool) : option (nat * mat) :=
  match matrixSize size with
  | None => None
  | Some n =>
    let f := factorFrom isStrain in
    let m := loop n (fun i m => setM m i i (v i)) noMat in
    Some (n,
      if (n =? 2)%nat then setM (setM m 1 0 (v 2%nat * f)) 0 1 (v 2%nat * f)
      else if (n =? 3)%nat then
        let m := setM (setM m 1 2 (v n * f)) 2 1 (v n * f) in
        let m := setM (setM m 0 2 (v (n + 1)%nat * f)) 2 0 (v (n + 1)%nat * f) in
        setM (setM m 0 1 (v (n + 2)%nat * f)) 1 0 (v (n + 2)%nat * f)
      else m)
  end.

(** 382-395, size 3 (dim 2) or 6 (dim 3) *)
Definition fromVoigtMatrix (size : nat) (C : rmat) : option (nat * tensor4) :=
  match matrixSize size with
  | None => None
  | Some dim =>
    Some (dim, loop size (fun i => loop size (fun j t =>
      match fromVoigtIndex dim i, fromVoigtIndex dim j with
      | Some (a, b), Some (c, d) => setT t a b c d (C i j)
      | _, _ => t
      end)) noTensor)
  end.

Definition entries (rows : list (list R)) : rmat := fun i j => nth j (nth i rows []) 0.

(** 408-425; J is geometry.jacobianTransposed *)
Definition transformationMatrix2 (J : rmat) : rmat :=
  let J11 := J 0%nat 0%nat in let J12 := J 0%nat 1%nat in
  let J21 := J 1%nat 0%nat in let J22 := J 1%nat 1%nat in
  entries
    [[J11 * J11; J12 * J12; J11 * J12];
     [J21 * J21; J22 * J22; J21 * J22];
     [2 * J11 * J21; 2 * J12 * J22; J21 * J12 + J11 * J22]].

(** 438-465 *)
Definition transformationMatrix3 (J : rmat) : rmat :=
  let J11 := J 0%nat 0%nat in let J12 := J 0%nat 1%nat in let J13 := J 0%nat 2%nat in
  let J21 := J 1%nat 0%nat in let J22 := J 1%nat 1%nat in let J23 := J 1%nat 2%nat in
  let J31 := J 2%nat 0%nat in let J32 := J 2%nat 1%nat in let J33 := J 2%nat 2%nat in
  entries
    [[J11 * J11; J12 * J12; J13 * J13; J12 * J13; J11 * J13; J11 * J12];
     [J21 * J21; J22 * J22; J23 * J23; J22 * J23; J21 * J23; J21 * J22];
     [J31 * J31; J32 * J32; J33 * J33; J32 * J33; J31 * J33; J31 * J32];
     [2 * J21 * J31; 2 * J22 * J32; 2 * J23 * J33; J22 * J33 + J32 * J23; J31 * J23 + J21 * J33; J21 * J32 + J31 * J22];
     [2 * J11 * J31; 2 * J12 * J32; 2 * J13 * J33; J12 * J33 + J32 * J13; J11 * J33 + J31 * J13; J11 * J32 + J31 * J12];
     [2 * J11 * J21; 2 * J12 * J22; 2 * J13 * J23; J12 * J23 + J22 * J13; J11 * J23 + J21 * J13; J11 * J22 + J12 * J21]].

(** Fourth-order tensors, all entries are written.
    [kron a b] is the number (a == b). *)
Definition kron (a b : nat) : R := if (a =? b)%nat then 1 else 0.

(** 47-51 *)
Definition dyadic (A B : rmat) : rtensor4 := fun i j k l => A i j * B k l.
(** 73-81 *)
Definition symmetricIdentityFourthOrder : rtensor4 := fun i j k l => / 2 * (kron i k * kron j l + kron i l * kron j k).
(** 95-103 *)
Definition symmetricFourthOrder (A B : rmat) : rtensor4 := fun i j k l => / 2 * (A i k * B j l + A i l * B j k).
(** 114-121 *)
Definition identityFourthOrder (dim : nat) : rtensor4 :=
  loop dim (fun i => loop dim (fun k t => fun a b c d =>
    if ((a =? i) && (b =? i) && (c =? k) && (d =? k))%nat then 1 else t a b c d)) (fun _ _ _ _ => 0).
(** 135-147 *)
Definition fourthOrderIKJL (A B : rmat) : rtensor4 := fun i j k l => A i k * B j l.

(** 158-164: slots p and q are swapped in the list 0,1,2,3, then shuffle: entry (i0,..,i3) of the shuffled tensor is the
    entry of the tensor whose slot shuffle[n] has index i_n *)
Definition swapSlots (p q n : nat) : nat := (if n =? p then q else if n =? q then p else n)%nat.
Definition shuffled (t : rtensor4) (sh : nat -> nat) : rtensor4 :=
  fun i j k l =>
    let idx := [i; j; k; l] in
    (* position in the source: slot sh n of the source has index idx n *)
    let at_ s := nth (if (sh 0 =? s)%nat then 0 else if (sh 1 =? s)%nat then 1 else if (sh 2 =? s)%nat then 2 else 3)%nat idx 0%nat in
    t (at_ 0%nat) (at_ 1%nat) (at_ 2%nat) (at_ 3%nat).
Definition symTwoSlots (t : rtensor4) (p q : nat) : rtensor4 :=
  fun i j k l => / 2 * (t i j k l + shuffled t (swapSlots p q) i j k l).
