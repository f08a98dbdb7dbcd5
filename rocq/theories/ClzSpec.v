(* Colours of values *)
From Coq Require Import List Arith ZArith Reals.
Open Scope R_scope.

Definition vnth (vals : list R) (k : nat) : R := nth k vals 0.
Definition cnth (cols : list Z) (k : nat) : R := IZR (nth k cols 0%Z).
(* a table: at least two values, increasing, with one shade from 0 to 255 for each *)
Definition table (vals : list R) (cols : list Z) : Prop :=
  (2 <= length vals)%nat /\ length cols = length vals /\ (forall i j, (i < j < length vals)%nat -> vnth vals i < vnth vals j) /\ forall c, In c cols -> (0 <= c <= 255)%Z.
(* y is at a on the line through the table, which is level beyond the ends *)
Definition on_line (vals : list R) (cols : list Z) (a y : R) : Prop :=
  (a <= vnth vals 0 /\ y = cnth cols 0) \/
  (vnth vals (length vals - 1) <= a /\ y = cnth cols (length vals - 1)) \/
  exists k, (k + 1 < length vals)%nat /\ vnth vals k <= a <= vnth vals (k + 1) /\ (y - cnth cols k) * (vnth vals (k + 1) - vnth vals k) = (a - vnth vals k) * (cnth cols (k + 1) - cnth cols k).
