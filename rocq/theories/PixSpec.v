(* Specification vocabulary for C05-C08: where the pixels of a box come from. *)
From Verif Require Import Base SliceSpec SboxSpec.

(* position k along an axis of n pixels, on a sky that repeats every w pixels (0: does not repeat) *)
Definition source (w n k : Z) : option Z :=
  let p := if w =? 0 then k else k mod w in if (0 <=? p) && (p <? n) then Some p else None.

(* wrap lengths a caller may ask for: none, or at least the size of the axis *)
Definition wrap_ok (w n : Z) : Prop := w = 0 \/ n <= w /\ 0 < w.

(* a box with step 1 or -1 and its end not before its start *)
Definition unit_box (b : sbox) : Prop := box_ok b /\ Z.abs (snd b) = 1.

(* the sky position of pixel (i,j) of a map with wcs o is that of the box pixel (ky,kx) of a map with wcs w *)
Definition same_sky_at (o w : wcs) (i j ky kx : Z) : Prop :=
  (sky_y o (inject_Z i) == sky_y w (inject_Z ky))%Q /\ (sky_x o (inject_Z j) == sky_x w (inject_Z kx))%Q.

(* the box goes round the sky at most once *)
Definition fits (w : Z) (b : sbox) : Prop := w = 0 \/ zlen (indices b) <= w.
