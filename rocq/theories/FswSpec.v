(* Sweeps of a scan *)
From Coq Require Import List Arith QArith Qabs.
Import ListNotations.
Open Scope nat_scope.

Definition sample (az : list Q) (i : nat) : Q := nth i az 0%Q.
Definition lowest (az : list Q) (m : Q) : Prop := (exists i, i < length az /\ (sample az i == m)%Q) /\ forall i, i < length az -> (m <= sample az i)%Q.
Definition highest (az : list Q) (m : Q) : Prop := (exists i, i < length az /\ (sample az i == m)%Q) /\ forall i, i < length az -> (sample az i <= m)%Q.
(* how far sample i is from the middle between lo and hi *)
Definition off (az : list Q) (lo hi : Q) (i : nat) : Q := Qabs (sample az i - (hi + lo) / 2).
(* sample i is less than tol of half the width from an end, or beyond *)
Definition near (az : list Q) (tol lo hi : Q) (i : nat) : Prop := i < length az /\ ((hi - lo) / 2 * (1 - tol) < off az lo hi i)%Q.
(* all samples from i to j are near the ends *)
Definition together (az : list Q) (tol lo hi : Q) (i j : nat) : Prop := forall k, Nat.min i j <= k <= Nat.max i j -> near az tol lo hi k.
(* intervals that follow each other without gaps from a to b, none empty *)
Fixpoint tiles (a b : nat) (l : list (nat * nat)) : Prop := match l with [] => a = b | (x, y) :: l' => x = a /\ x < y /\ tiles y b l' end.
