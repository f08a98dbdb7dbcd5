(* Linear combinations of correlated variables *)
From Coq Require Import Reals List.
Import ListNotations.
Open Scope R_scope.

Definition lsum (l : list nat) (f : nat -> R) : R := fold_right (fun i s => f i + s) 0 l.
Definition mat := nat -> nat -> R.
(* the covariance of the combinations sum a_i x_i and sum b_i x_i of variables 0 .. n-1 with the covariance C *)
Definition covar (n : nat) (C : mat) (a b : nat -> R) : R := lsum (seq 0 n) (fun i => lsum (seq 0 n) (fun j => a i * C i j * b j)).
Definition delta (i j : nat) : R := if Nat.eqb i j then 1 else 0.
Definition inverse (n : nat) (A B : mat) : Prop :=
  forall i j, (i < n)%nat -> (j < n)%nat -> lsum (seq 0 n) (fun k => A i k * B k j) = delta i j /\ lsum (seq 0 n) (fun k => B i k * A k j) = delta i j.
(* covariances of variables none of which is a combination of the others *)
Definition covariance (n : nat) (C : mat) : Prop :=
  (forall i j, C i j = C j i) /\ (forall a, 0 <= covar n C a a) /\ exists B, inverse n C B.
(* the indices below n that are in the list, and those that are not, in ascending order *)
Definition chosen (n : nat) (inds : list nat) : list nat := filter (fun i => existsb (Nat.eqb i) inds) (seq 0 n).
Definition others (n : nat) (inds : list nat) : list nat := filter (fun i => negb (existsb (Nat.eqb i) inds)) (seq 0 n).
(* what is left of unknown variable number p after the combination of the known ones that A gives is taken away *)
Definition remainder (n : nat) (inds : list nat) (A : mat) (p i : nat) : R :=
  delta i (nth p (others n inds) n) - lsum (seq 0 (length (chosen n inds))) (fun q => A p q * delta i (nth q (chosen n inds) n)).
