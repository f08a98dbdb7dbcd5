(* Resizing arrays, sums by label, indices *)
From Coq Require Import List Arith ZArith Reals.
From Verif Require Import BrcSpec.
Import ListNotations.
Open Scope nat_scope.

(* axis a, counted from the end if negative, is axis k of ndim *)
Definition is_axis (ndim : nat) (a : Z) (k : nat) : Prop := k < ndim /\ exists q : Z, a = (q * Z.of_nat ndim + Z.of_nat k)%Z.
(* an index that a shape has *)
Definition inside (idx s : list nat) : Prop := Forall2 lt idx s.
(* the sum of the values that have label k *)
Fixpoint labelled (k : Z) (ids : list Z) (a : list R) : R :=
  match ids, a with i :: ids', x :: a' => ((if Z.eq_dec i k then x else 0) + labelled k ids' a')%R | _, _ => 0%R end.
Definition total (l : list R) : R := fold_right Rplus 0%R l.
(* item i of n, counted from the end if negative *)
Definition item (n : nat) (i : Z) : Z := if (i <? 0)%Z then (i + Z.of_nat n)%Z else i.
