(* Principal components *)
From Coq Require Import Reals List Permutation Sorted.
From Verif Require Import CndSpec.
Import ListNotations.
Open Scope R_scope.

(* what np.argsort promises *)
Definition argsort_ok (argsort : nat -> (nat -> R) -> list nat) : Prop :=
  forall n E, Permutation (argsort n E) (seq 0 n) /\ StronglySorted (fun i j => E i <= E j) (argsort n E).
Definition norm2 (n : nat) (a : nat -> R) : R := lsum (seq 0 n) (fun i => a i * a i).
Definition inner (n : nat) (a b : nat -> R) : R := lsum (seq 0 n) (fun i => a i * b i).
(* the sum of the squares of the products with all vectors of the list *)
Definition explained (n : nat) (Q : list (nat -> R)) (a : nat -> R) : R := fold_right (fun q s => inner n q a ^ 2 + s) 0 Q.
