(* Dealing out things, restricted numbers of pixels *)
From Coq Require Import List Arith ZArith Reals.
Import ListNotations.
Open Scope R_scope.

(* k is a whole number that x may be rounded to *)
Inductive rounding := Floor | Round | Ceil.
Definition rounds (m : rounding) (x : R) (k : Z) : Prop :=
  match m with Floor => IZR k <= x < IZR k + 1 | Round => x - 1 / 2 <= IZR k <= x + 1 / 2 | Ceil => x <= IZR k < x + 1 end.
Definition sum (l : list nat) : nat := fold_right plus 0%nat l.
