(* Specification vocabulary for C71-C74: pixel selections and geometries. A selection (a,b,k) stands for the pixels
   a, a+k, ... before b: SliceSpec.raw_sel. *)
From Coq Require Import Qabs.
From Verif Require Import Base SliceSpec.

(* a geometry: (ny,nx) and a wcs *)
Definition geometry := ((Z * Z) * wcs)%type.

(* the points run strictly in the direction d (1: upwards, -1: downwards) *)
Fixpoint runs (d : Z) (l : list Q) : Prop :=
  match l with x :: (y :: _) as t => (0 < inject_Z d * (y - x))%Q /\ runs d t | _ => True end.

(* the boxes between consecutive points *)
Fixpoint pairs (l : list Q) : list (Q * Q) :=
  match l with x :: (y :: _) as t => (x, y) :: pairs t | _ => [] end.

(* pixel (y,x) belongs to the geometry *)
Definition has_pixel (g : geometry) (y x : Z) : Prop := 0 <= y < fst (fst g) /\ 0 <= x < snd (fst g).

(* two geometries lie on the same pixel grid: pixel (0,0) of g is pixel (dy,dx) of r's grid *)
Definition on_grid (r g : geometry) (dy dx : Z) : Prop :=
  (cdelt_x (snd g) == cdelt_x (snd r))%Q /\ (cdelt_y (snd g) == cdelt_y (snd r))%Q /\
  (sky_y (snd g) 0 == sky_y (snd r) (inject_Z dy))%Q /\ (sky_x (snd g) 0 == sky_x (snd r) (inject_Z dx))%Q.

(* pixel (y,x) of g and pixel (y',x') of g' are at the same place in the sky *)
Definition same_place (g g' : geometry) (y x y' x' : Z) : Prop :=
  (sky_y (snd g) (inject_Z y) == sky_y (snd g') (inject_Z y'))%Q /\
  (sky_x (snd g) (inject_Z x) == sky_x (snd g') (inject_Z x'))%Q.
