(* Longitudes that agree up to whole turns. *)
From Verif Require Import Base SliceSpec.

Definition same_lon (a b : Q) : Prop := exists k : Z, (a == b + 360 * inject_Z k)%Q.
(* two wcs give every pixel the same place on the sky, longitudes counted modulo 360 *)
Definition same_sky_mod (w w' : wcs) : Prop :=
  forall p, same_lon (sky_x w' p) (sky_x w p) /\ (sky_y w' p == sky_y w p)%Q.
