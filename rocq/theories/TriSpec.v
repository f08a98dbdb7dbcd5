(* Triangle waves and overlaps of discs *)
From Coq Require Import Reals.
Open Scope R_scope.

(* the wave with the given period whose slopes are straight: the angle of a sine, over a quarter turn *)
Definition triangle (period x : R) : R := asin (sin (2 * PI * x / period)) / (PI / 2).
(* what a chord seen from the centre under the angle a cuts off from a disc of radius r: the sector less the triangle *)
Definition sector (r a : R) : R := r * r * a / 2.
Definition corner (r a : R) : R := (2 * (r * sin (a / 2))) * (r * cos (a / 2)) / 2.
Definition segment (r a : R) : R := sector r a - corner r a.
(* the length of the chord where the circles meet *)
Definition chord (r d : R) : R := 2 * sqrt (r * r - (d / 2) * (d / 2)).
