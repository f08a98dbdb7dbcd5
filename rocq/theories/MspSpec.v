(* Spectra of several components *)
From Coq Require Import List Arith Reals.
Open Scope R_scope.

Fixpoint sumn (n : nat) (f : nat -> R) : R := match n with O => 0 | S k => sumn k f + f k end.
(* the n by n matrix is symmetric, and no combination of components has a negative power *)
Definition covariance (n : nat) (c : nat -> nat -> R) : Prop :=
  (forall i j, (i < n)%nat -> (j < n)%nat -> c i j = c j i) /\ forall v : nat -> R, 0 <= sumn n (fun i => sumn n (fun j => v i * c i j * v j)).
