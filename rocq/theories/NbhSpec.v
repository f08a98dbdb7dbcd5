(* Directions on the sphere, in radians *)
From Coq Require Import Reals.
Open Scope R_scope.

(* the angle between the directions (t,u) and (t',u') is at most r, for r up to half a turn *)
Definition within (t u t' u' r : R) : Prop := cos r <= sin t * sin t' + cos t * cos t' * cos (u' - u).
Definition degrees (x : R) : R := x * (180 / PI).
