(* Specification vocabulary for C04: which pixels along an axis a downgraded pixel stands for. *)
From Verif Require Import Base SliceSpec SliceModel BlockSpec DownModel.

(* incl: keep incomplete blocks. Pixel i of the downgraded axis covers [blk_lo, blk_hi) of the
   original axis of n pixels; there are blk_n of them. *)
Definition blk_lo (incl : bool) (f off i : Z) : Z := if incl then block_lo f off i else off + i * f.
Definition blk_hi (incl : bool) (n f off i : Z) : Z := if incl then block_hi n f off i else off + (i + 1) * f.
Definition blk_n (incl : bool) (n f off : Z) : Z := if incl then nblock n f off else (n - off) / f.

(* an axis of n pixels, a factor and an offset that downgrade supports *)
Definition good_axis (incl : bool) (n f off : Z) : Prop :=
  1 <= f /\ 0 <= off <= n /\ 0 < n /\ (f = 1 -> off = 0) /\ (incl = false -> off + f <= n).

(* sum of g over lo <= k < hi *)
Definition qsum_on (g : Z -> Q) (lo hi : Z) : Q := qsum (map g (zrange lo hi)).

(* value of an existing pixel *)
Definition pixq (m : ndmap Q) (y x : Z) : Q := match pixel m y x with Some v => v | None => 0%Q end.

(* pixel centre number X of d is the centre of the f pixels of m it stands for: those starting at
   off + f*X, or one block less when an incomplete block was kept in front *)
Definition centres_match (m : ndmap Q) (d : ndmap Q) fy fx oy ox incl : Prop :=
  (forall X, sky_x (nm_wcs d) X == sky_x (nm_wcs m) (inject_Z ox + inject_Z fx * (X - qb ((0 <? ox) && incl)) + (inject_Z fx - 1) / 2))%Q /\
  (forall Y, sky_y (nm_wcs d) Y == sky_y (nm_wcs m) (inject_Z oy + inject_Z fy * (Y - qb ((0 <? oy) && incl)) + (inject_Z fy - 1) / 2))%Q.

(* same shape, pixel values and sky positions *)
Definition same_map (d m : ndmap Q) : Prop :=
  nm_ny d = nm_ny m /\ nm_nx d = nm_nx m /\
  (forall y x v, pixel m y x = Some v -> exists u, pixel d y x = Some u /\ (u == v)%Q) /\
  (forall p, sky_x (nm_wcs d) p == sky_x (nm_wcs m) p)%Q /\ (forall p, sky_y (nm_wcs d) p == sky_y (nm_wcs m) p)%Q.
