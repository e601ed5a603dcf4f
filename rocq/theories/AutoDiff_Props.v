(** What a user relies on: elements with automatic differentiation (C135). *)

From Coq Require Import Reals Lra FunctionalExtensionality.
From Coquelicot Require Import Coquelicot.
From Verif Require Import AutoDiff_Model.
Local Open Scope R_scope.

(** The displacements moved by [t] along dof [j] *)
Definition along (u : vec) (j : nat) (t : R) : vec := fun i => if Nat.eqb i j then u i + t else u i.
Definition partial (f : vec -> R) (u : vec) (j : nat) (l : R) : Prop := is_derive (fun t => f (along u j t)) 0 l.

(** The contract of the library: what it returns are the derivatives, if they exist *)
Definition differentiates gradient jacobian hessian : Prop :=
  (forall f u j l, partial f u j l -> gradient f u j = l) /\
  (forall (f : vec -> vec) u i j l, partial (fun x => f x i) u j l -> jacobian f u i j = l) /\
  (forall f (g : vec -> vec) u i j l, (forall x k, partial f x k (g x k)) -> partial (fun x => g x i) u j l -> hessian f u i j = l).

(** Energy, forces and stiffness of an element with these functions; [e], [g], [k] at the increment *)
Definition consistent (e : vec -> R) (g : vec -> vec) (k : vec -> mat) : Prop :=
  (forall x j, partial e x j (g x j)) /\ (forall x i j, partial (fun y => g y i) x j (k x i j)).
(** The element implements some of the three *)
Definition implements (fe : element) e g k : Prop :=
  (scalarImpl fe = None \/ scalarImpl fe = Some e) /\ (vectorImpl fe = None \/ vectorImpl fe = Some g) /\ (matrixImpl fe = None \/ matrixImpl fe = Some k).

Section Contract.
Variables (gradient : (vec -> R) -> vec -> vec) (jacobian : (vec -> vec) -> vec -> mat) (hessian : (vec -> R) -> vec -> mat).

(** Whichever functions the element implements, and whether differentiation is forced or not: into zero vectors and matrices the wrapper writes forces
    and stiffness of the element.  It exists if the element implements a lower one. *)
Theorem C135_zero_partial : forall fe e g k force, differentiates gradient jacobian hessian -> consistent e g k -> implements fe e g k ->
  (forall v, calculateVector gradient force fe zero = Some v -> v = g zero) /\
  (forall h, calculateMatrix jacobian hessian force fe (fun _ _ => 0) = Some h -> h = k zero) /\
  (forall s, calculateScalar fe = Some s -> s = e zero) /\
  (scalarImpl fe = Some e -> calculateVector gradient force fe zero <> None /\ calculateMatrix jacobian hessian force fe (fun _ _ => 0) <> None).
Proof.
  intros fe e g k force [Dg [Dj Dh]] [C1 C2] [I1 [I2 I3]].
  assert (forall l, gradient e zero = l -> l = g zero) as G by (intros l <-; apply functional_extensionality; intro j; apply Dg, C1).
  assert (jacobian (fun x i => 0 + g x i) zero = k zero) as J.
  { apply functional_extensionality; intro i. apply functional_extensionality; intro j. apply (Dj (fun x i => 0 + g x i)). eapply is_derive_ext; [|apply C2]. intro t. cbn. ring. }
  assert (hessian e zero = k zero) as H by (apply functional_extensionality; intro i; apply functional_extensionality; intro j; apply (Dh e g); auto).
  unfold calculateVector, calculateMatrix, calculateScalar. destruct I1 as [->| ->], I2 as [->| ->], I3 as [->| ->], force;
    (split; [intros v E; inversion E; subst; clear E; try (apply G; reflexivity); try (apply functional_extensionality; intro; unfold zero; ring)|]);
    (split; [intros h E; inversion E; subst; clear E; auto; try (apply functional_extensionality; intro; apply functional_extensionality; intro; ring)|]);
    (split; [intros s E; inversion E; reflexivity|]); (intro E; try discriminate; split; discriminate).
Qed.

(** What happens to the content of the given vector and matrix: the element's own functions add to it, automatic differentiation replaces it *)
Theorem C135_buffers : forall fe e g k v0 h0, differentiates gradient jacobian hessian -> consistent e g k -> scalarImpl fe = Some e ->
  (vectorImpl fe = Some g -> calculateVector gradient false fe v0 = Some (fun i => v0 i + g zero i)) /\
  (vectorImpl fe = None -> calculateVector gradient false fe v0 = Some (g zero)) /\ calculateVector gradient true fe v0 = Some (g zero) /\
  (matrixImpl fe = Some k -> calculateMatrix jacobian hessian false fe h0 = Some (fun i j => h0 i j + k zero i j)) /\
  (matrixImpl fe = None -> (vectorImpl fe = None \/ vectorImpl fe = Some g) -> calculateMatrix jacobian hessian false fe h0 = Some (k zero)).
Proof.
  intros fe e g k v0 h0 [Dg [Dj Dh]] [C1 C2] Es. unfold calculateVector, calculateMatrix. rewrite Es.
  assert (gradient e zero = g zero) as G by (apply functional_extensionality; intro j; apply Dg, C1).
  split; [intros ->; reflexivity|]. split; [intros ->; rewrite G; reflexivity|]. split; [destruct (vectorImpl fe); rewrite G; reflexivity|]. split; [intros ->; reflexivity|].
  intros -> [->| ->]; f_equal; apply functional_extensionality; intro i; apply functional_extensionality; intro j.
  - apply (Dh e g); auto.
  - apply (Dj (fun x i => 0 + g x i)). eapply is_derive_ext; [|apply C2]. intro t. cbn. ring.
Qed.

(** A spring of stiffness 2 with one dof, moved by 3: forced differentiation and the element's own stiffness differ if the matrix contains 5 *)
Definition springEnergy : vec -> R := fun x => (x 0%nat + 3) * (x 0%nat + 3).
Definition springForce : vec -> vec := fun x i => if Nat.eqb i 0 then 2 * (x 0%nat + 3) else 0.
Definition springStiffness : vec -> mat := fun _ i j => if Nat.eqb i 0 then if Nat.eqb j 0 then 2 else 0 else 0.
Lemma spring_consistent : consistent springEnergy springForce springStiffness.
Proof.
  split.
  - intros x j. unfold partial, springEnergy, springForce, along. destruct j as [|j]; cbn; auto_derive; auto; ring.
  - intros x i j. unfold partial, springForce, springStiffness, along. destruct i as [|i], j as [|j]; cbn; auto_derive; auto; ring.
Qed.
Theorem C135_buffers_refuted : differentiates gradient jacobian hessian -> exists fe e g k h0,
  consistent e g k /\ implements fe e g k /\ exists h h', calculateMatrix jacobian hessian false fe h0 = Some h /\ calculateMatrix jacobian hessian true fe h0 = Some h' /\ h 0%nat 0%nat <> h' 0%nat 0%nat.
Proof.
  intro D. exists (mkElement (Some springEnergy) (Some springForce) (Some springStiffness)), springEnergy, springForce, springStiffness, (fun _ _ => 5).
  split; [exact spring_consistent|]. split; [cbn; repeat split; auto|]. do 2 eexists. split; [reflexivity|]. split; [reflexivity|].
  destruct (C135_zero_partial (mkElement (Some springEnergy) (Some springForce) (Some springStiffness)) springEnergy springForce springStiffness true D spring_consistent) as [_ [M _]]; [cbn; repeat split; auto|].
  rewrite (M _ eq_refl). cbn. lra.
Qed.
End Contract.

(** The contract can be met *)
Definition someGradient (f : vec -> R) (u : vec) : vec := fun j => Derive (fun t => f (along u j t)) 0.
Example C135_example : differentiates someGradient (fun f u i j => Derive (fun t => f (along u j t) i) 0) (fun f u i j => Derive (fun t => someGradient f (along u j t) i) 0).
Proof.
  split; [|split].
  - intros f u j l H. apply is_derive_unique, H.
  - intros f u i j l H. apply is_derive_unique, H.
  - intros f g u i j l Hg H. apply is_derive_unique. eapply is_derive_ext; [|exact H]. intro t. symmetry. apply is_derive_unique, Hg.
Qed.
Print Assumptions C135_zero_partial.
Print Assumptions C135_buffers.
Print Assumptions C135_buffers_refuted.
