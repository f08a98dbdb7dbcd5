(* Pairs of sources of two catalogues *)
From Coq Require Import List Arith Reals.
From Verif Require Import RotSpec.
Open Scope R_scope.

(* the angle between two positions {ra,dec} on the sky, from 0 to pi, is the one whose cosine is the scalar product of the directions *)
Definition apart (a b : R * R) (d : R) : Prop := 0 <= d <= PI /\ cos d = dot (dir false a) (dir false b).
(* source j is a closest one to a of the catalogue, and at most tol away *)
Definition closest (cat : list (R * R)) (tol : R) (a : R * R) (j : nat) : Prop :=
  exists d b, nth_error cat j = Some b /\ apart a b d /\ d <= tol /\ forall k c e, nth_error cat k = Some c -> apart a c e -> d <= e.
