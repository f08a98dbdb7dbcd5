(* Moving along great circles of the sphere. *)
From Coq Require Import Reals.
From Verif Require Import Base RotSpec.
Open Scope R_scope.

Definition add3 (a b : vec) : vec := ((fst (fst a) + fst (fst b), snd (fst a) + snd (fst b)), snd a + snd b).
(* the directions of north and east at a position *)
Definition north_at (dec ra : R) : vec := ((- sin dec * cos ra, - sin dec * sin ra), cos dec).
Definition east_at (ra : R) : vec := ((- sin ra, cos ra), 0).
Definition point (dec ra : R) : vec := dir false (ra, dec).
(* the way a/d to the north and b/d to the east *)
Definition heading (dec ra a b : R) : vec := add3 (scale (a / sqrt (a ^ 2 + b ^ 2)) (north_at dec ra)) (scale (b / sqrt (a ^ 2 + b ^ 2)) (east_at ra)).
(* where one is after going the distance d = |(a,b)| along the great circle that starts that way, and the heading there *)
Definition moved (dec ra a b : R) : vec := add3 (scale (cos (sqrt (a ^ 2 + b ^ 2))) (point dec ra)) (scale (sin (sqrt (a ^ 2 + b ^ 2))) (heading dec ra a b)).
Definition arriving (dec ra a b : R) : vec := add3 (scale (- sin (sqrt (a ^ 2 + b ^ 2))) (point dec ra)) (scale (cos (sqrt (a ^ 2 + b ^ 2))) (heading dec ra a b)).
(* no more than a quarter turn of longitude away from (dec, ra): in the half of the sky around that meridian *)
Definition ahead (ra : R) (v : vec) : Prop := 0 <= dot v ((cos ra, sin ra), 0).
(* Q and U, in the convention of cosmology (from south to east), of light polarized along the direction that is n to the north and e to the east *)
Definition along (n e : R) : R * R := (n ^ 2 - e ^ 2, - (2 * n * e)).
