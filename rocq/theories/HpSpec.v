(* Specification vocabulary for the HEALPix ring scheme. *)
From Coq Require Import ZArith List Lia.
From Verif Require Import Base.
Import ListNotations.
Local Open Scope Z_scope.

(* resolution n has 4n-1 rings; ring y (from the north, from 0) has 4, 8, ..., 4n, ..., 4n, ..., 8, 4 pixels *)
Definition nring (n : Z) : Z := 4 * n - 1.
Definition ring_len (n y : Z) : Z := 4 * Z.min (Z.min (y + 1) n) (4 * n - 1 - y).
(* rings follow each other: ring y starts after all pixels of the rings before it *)
Definition ring_start (n y : Z) : Z := zsum (map (ring_len n) (zrange 0 y)).
Definition is_pix (n y x : Z) : Prop := 0 <= y < nring n /\ 0 <= x < ring_len n y.
(* every second of the equatorial rings starts half a pixel late, and so do all polar ones *)
Definition half_shift (n y : Z) : Z := if (y <? n) || (3 * n - 1 <=? y) then 1 else (y - n) mod 2.

(* The position of a pixel centre in the plane of the HEALPix projection, in units where the
   pixels are diamonds with corners at distance 1 from the centre, x runs over 8n and y points
   south. In the equatorial belt consecutive pixels are 2 apart. A polar ring of 4k pixels
   consists of four runs of k pixels, run s centred on x = n + 2ns. *)
Definition plane (n y x : Z) : Z * Z :=
  let k := Z.min (y + 1) (4 * n - 1 - y) in
  if k <? n then (2 * n * (x / k) + (n - k) + 1 + 2 * (x mod k), y) else (2 * x + half_shift n y, y).
(* q lies one step in diagonal direction (dx,dy) from p: the two diamonds share an edge *)
Definition adjacent (n dx dy : Z) (p q : Z * Z) : Prop :=
  (fst q - fst p - dx) mod (8 * n) = 0 /\ snd q = snd p + dy.
(* the four diagonal directions: north-west, north-east, south-west, south-east *)
Definition directions : list (Z * Z) := [(-1, -1); (1, -1); (-1, 1); (1, 1)].
(* the edge neighbour of pixel (y,x) in direction (dx,dy): the pixel adjacent in the plane; where the
   plane has none, at the gaps between the polar triangles, the edge is glued to that of the
   next pixel of the same ring *)
Definition edge_neighbour (n dx dy y x y' x' : Z) : Prop :=
  is_pix n y' x' /\
  (adjacent n dx dy (plane n y x) (plane n y' x') \/
   ((forall y2 x2, is_pix n y2 x2 -> ~ adjacent n dx dy (plane n y x) (plane n y2 x2)) /\
    y' = y /\ (x' - x - dx) mod ring_len n y = 0)).
