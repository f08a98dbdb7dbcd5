(* Rows of iterators and digits of numbers *)
From Coq Require Import List Arith Reals ZArith.
Import ListNotations.
Open Scope R_scope.

(* n has d digits in base ten *)
Definition digits (n d : nat) : Prop := (d = 1 /\ n = 0)%nat \/ (1 <= d /\ 10 ^ (d - 1) <= n < 10 ^ d)%nat.
(* the first k items of every list, in rows *)
Definition rows {A} (k : nat) (l : list (list A)) (r : list (list A)) : Prop :=
  length r = k /\ forall i row, nth_error r i = Some row -> length row = length l /\ forall j a, nth_error row j = Some a -> exists lj, nth_error l j = Some lj /\ nth_error lj i = Some a.
