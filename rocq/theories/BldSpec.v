(* What it means for a direction to be at a pixel of a map, by the definition of the coordinate systems (FITS WCS, degrees):
   none of the functions of the library appear here. *)
From Coq Require Import Reals ZArith.
Open Scope R_scope.

Inductive system := Plain | Car | Cea | Mer.
(* reference value, reference pixel (counted from 1) and step along x and y; lam is the parameter of the equal area projection *)
Record rwcs := RWcs { rsys : system; rlam : R; rvx : R; rpx : R; rdx : R; rvy : R; rpy : R; rdy : R }.

Definition rdeg := PI / 180.
(* the height of latitude t over the equator, in degrees *)
Definition height (s : system) (lam t : R) : R :=
  match s with
  | Plain | Car => t
  | Cea => sin (t * rdeg) / lam / rdeg
  | Mer => ln (tan ((90 + t) / 2 * rdeg)) / rdeg
  end.
(* latitude t and longitude u are those that the coordinates (y,x), counted from 0, stand for *)
Definition lies (w : rwcs) (y x t u : R) : Prop :=
  height (rsys w) (rlam w) t = rvy w + (y + 1 - rpy w) * rdy w /\ u = rvx w + (x + 1 - rpx w) * rdx w.
(* the pixel coordinates (y,x), counted from 0, are those of latitude t and longitude u; longitudes come round after 360 degrees *)
Definition at_pixel (w : rwcs) (y x t u : R) : Prop :=
  height (rsys w) (rlam w) t = rvy w + (y + 1 - rpy w) * rdy w /\
  exists k : Z, u + 360 * IZR k = rvx w + (x + 1 - rpx w) * rdx w /\ (rsys w = Plain -> k = 0%Z).
(* latitudes that a projection shows *)
Definition shown (s : system) (t : R) : Prop := match s with Plain | Car => True | Cea | Mer => -90 < t < 90 end.

(* The arguments: a centre or two opposite corners, in the order (dec,ra); one resolution or one for each direction; a reference point *)
Inductive posarg := Centre (y x : R) | Box (y0 x0 y1 x1 : R).
Inductive resarg := Res1 (r : R) | Res2 (ry rx : R).
Inductive refarg := NoRef | Standard | RefAt (dec ra : R).
Definition res_y (r : resarg) : R := match r with Res1 r => r | Res2 ry _ => ry end.
Definition res_x (r : resarg) : R := match r with Res1 r => r | Res2 _ rx => rx end.
(* degrees in the unit of the arguments *)
Definition unit_of (deg : bool) : R := if deg then 1 else 180 / PI.
(* the direction that is to be in the middle of a pixel, if any *)
Definition aligned_with (s : system) (deg force : bool) (ref : refarg) : option (R * R) :=
  match ref, s, force with
  | RefAt dec ra, _, _ => Some (dec * unit_of deg, ra * unit_of deg)
  | _, Plain, _ => None
  | NoRef, _, true => None
  | _, _, _ => Some (0, 0)
  end.

Definition whole (x : R) : Prop := exists k : Z, x = IZR k.
Definition signR (x : R) : R := if Rlt_dec x 0 then -1 else 1.
