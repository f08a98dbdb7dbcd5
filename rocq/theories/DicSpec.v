(* Repeated independent draws of whole numbers, d k being the probability of k. *)
From Coq Require Import List Reals Arith.
Import ListNotations.
Local Open Scope R_scope.

Fixpoint total (l : list R) : R := match l with [] => 0 | x :: l' => x + total l' end.
Fixpoint points (s : list nat) : nat := match s with [] => O | i :: s' => (i + points s')%nat end.
(* the probability of one sequence of draws *)
Fixpoint weight (d : list R) (s : list nat) : R := match s with [] => 1 | i :: s' => nth i d 0 * weight d s' end.
(* all sequences of n draws of numbers below m *)
Fixpoint draws (m n : nat) : list (list nat) :=
  match n with O => [[]] | S n' => flat_map (fun i => map (cons i) (draws m n')) (seq 0 m) end.
(* the probability that n draws have the sum k *)
Definition chance (d : list R) (n k : nat) : R :=
  total (map (weight d) (filter (fun s => Nat.eqb (points s) k) (draws (length d) n))).
(* throws of n dice with faces 1 to m that have the sum k *)
Fixpoint throws (m n : nat) : list (list nat) :=
  match n with O => [[]] | S n' => flat_map (fun i => map (cons i) (throws m n')) (seq 1 m) end.
Definition ways (m n k : nat) : nat := length (filter (fun s => Nat.eqb (points s) k) (throws m n)).
