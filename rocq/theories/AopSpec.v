(* What contour levels and crossings are, for C63. *)
From Coq Require Import ZArith QArith List.
From Verif Require Import Base.
Import ListNotations.
Local Open Scope Z_scope.

(* a value is above a level if it is at least that large; a missing value (nan) is above none *)
Definition above (v : option Q) (level : Q) : Prop := match v with Some v => (level <= v)%Q | None => False end.
(* level number i (counted from 1) separates the values a and b *)
Definition separates (vals : list Q) (i : Z) (a b : option Q) : Prop :=
  exists l, zget vals (i - 1) = Some l /\ ~ (above a l <-> above b l).
Definition ascending (vals : list Q) : Prop := forall i j a b, zget vals i = Some a -> zget vals j = Some b -> i <= j -> (a <= b)%Q.
