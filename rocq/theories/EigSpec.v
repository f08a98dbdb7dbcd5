(* Powers of symmetric matrices. Matrices are functions of row and column below n *)
From Coq Require Import Reals List.
From Verif Require Import CndSpec.
Import ListNotations.
Open Scope R_scope.

Definition mprod (n : nat) (A B : mat) : mat := fun i j => lsum (seq 0 n) (fun k => A i k * B k j).
Fixpoint mpower (n : nat) (A : mat) (k : nat) : mat := match k with O => delta | S k' => mprod n (mpower n A k') A end.
Definition meq (n : nat) (A B : mat) : Prop := forall i j, (i < n)%nat -> (j < n)%nat -> A i j = B i j.
Definition symmetric (n : nat) (A : mat) : Prop := forall i j, (i < n)%nat -> (j < n)%nat -> A i j = A j i.
Definition eigenvalue (n : nat) (A : mat) (l : R) : Prop :=
  exists v : nat -> R, (exists i, (i < n)%nat /\ v i <> 0) /\ forall i, (i < n)%nat -> lsum (seq 0 n) (fun j => A i j * v j) = l * v i.
(* no eigenvalue is negligible beside the limits *)
Definition well_conditioned (n : nat) (rlim alim : R) (A : mat) : Prop :=
  forall l, eigenvalue n A l -> alim <= Rabs l /\ forall m, eigenvalue n A m -> Rabs m * rlim <= Rabs l.
(* a decomposition as np.linalg.eigh gives it *)
Definition decomposes (n : nat) (A : mat) (E : nat -> R) (V : mat) : Prop :=
  inverse n V (fun i j => V j i) /\ forall i j, (i < n)%nat -> (j < n)%nat -> A i j = lsum (seq 0 n) (fun k => V i k * (E k * V j k)).
