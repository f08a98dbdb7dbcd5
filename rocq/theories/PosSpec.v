(* Which pixel a position is in. Angles are in degrees; pixel i of an axis covers the coordinates from i-1/2 to i+1/2. *)
From Coq Require Import Qabs.
From Verif Require Import Base SliceSpec WindSpec.
Open Scope Q_scope.

Definition covers (p : Q) (i : Z) : Prop := inject_Z i - (1 # 2) <= p /\ p < inject_Z i + (1 # 2).
(* the number of pixels in a turn, along an axis with this cdelt *)
Definition turn_len (cdelt : Q) : Q := Qabs (360 / cdelt).
(* p is less than half a turn from the coordinate ref *)
Definition near_ref (cdelt ref p : Q) : Prop := within (ref - turn_len cdelt / 2) (ref + turn_len cdelt / 2) p.
(* the same direction on the sky: the same declination, right ascensions a whole number of turns apart *)
Definition same_dir (a b : Q * Q) : Prop := fst a == fst b /\ same_angle 360 (snd a) (snd b).
Definition same_pair (a b : Q * Q) : Prop := fst a == fst b /\ snd a == snd b.
(* position (dec,ra) lies in pixel (i,j) of the map *)
Definition in_pixel (w : wcs) (pos : Q * Q) (i j : Z) : Prop := exists y x, covers y i /\ covers x j /\ same_dir pos (sky_y w y, sky_x w x).
(* with corner=True coordinates count from the corner of the first pixel instead of its centre *)
Definition corner_off (corner : bool) : Q := if corner then 1 # 2 else 0.
(* the middle of an axis of n pixels, the way sky2pix defines it *)
Definition ref_pix (n : Z) (corner : bool) : Q := inject_Z n / 2 + corner_off corner.
(* two positions that are the same up to whole turns along both axes *)
Definition same_pos (a b : Q * Q) : Prop := same_angle 360 (fst a) (fst b) /\ same_angle 360 (snd a) (snd b).
(* the frequency of Fourier index i among n: negative from the middle on *)
Definition freq_of (n : Z) (d : Q) (i : Z) : Q := inject_Z (if (2 * i <? n)%Z then i else i - n) / (d * inject_Z n).
(* two coordinate systems with the same numbers *)
Definition same_wcs (v w : wcs) : Prop :=
  crval_x v == crval_x w /\ crpix_x v == crpix_x w /\ cdelt_x v == cdelt_x w /\ crval_y v == crval_y w /\ crpix_y v == crpix_y w /\ cdelt_y v == cdelt_y w.
