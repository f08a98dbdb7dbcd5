(* Areas and rotations on the sphere, over the reals. *)
From Coq Require Import Reals.
From Verif Require Import Base.
Open Scope R_scope.

Fixpoint rsum (l : list R) : R := match l with [] => 0 | x :: l => x + rsum l end.
(* area between two declinations over a right-ascension interval *)
Definition zone_area (dec1 dec2 dra : R) : R := (sin dec2 - sin dec1) * dra.
(* the part of a declination interval that exists on the sphere *)
Definition on_sphere (d : R) : R := Rmax (- PI / 2) (Rmin (PI / 2) d).
