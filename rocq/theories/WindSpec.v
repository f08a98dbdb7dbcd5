(* Specification vocabulary for C23, C66, C67. *)
From Coq Require Import Qabs.
From Verif Require Import Base.

(* a and b differ by a whole number of periods *)
Definition same_angle (p a b : Q) : Prop := exists k : Z, (b == a + inject_Z k * p)%Q.

(* half-open interval *)
Definition within (lo hi x : Q) : Prop := (lo <= x /\ x < hi)%Q.

(* neighbouring entries differ by at most h *)
Definition no_jump (h : Q) (l : list Q) : Prop :=
  forall i x y, nth_error l i = Some x -> nth_error l (S i) = Some y -> (Qabs (y - x) <= h)%Q.
