(* Models of enmap.py: subinds, subgeo, submap, fullsky_geometry, band_geometry, thumbnail_geometry, union_geometry,
   map_union, overlap. Angles are in degrees. *)
From Coq Require Import Qabs Qround.
From Verif Require Import Base SliceSpec SliceModel SboxSpec SboxModel WindModel ArrModel PixModel GeoSpec.

Inductive submode := MRound | MFloor | MCeil | MInclusive | MExclusive.

(* enmap.py:483-494 sky2pix along one axis of an affine wcs. The unwinding of safe=2 only adds a whole number of
   turns to all points of a box at once and is left out. *)
Definition s2p (crval crpix cdelt s : Q) : Q := ((s - crval) / cdelt + crpix - 1)%Q.

(* np.sign *)
Definition qsgn (x : Q) : Z := Z.sgn (Qnum x).

(* enmap.py:538-549 skybox2pixbox with include_direction, one axis: the pixel coordinates of both ends, and the sign
   of the step between the first two of the ten points np.linspace puts between them *)
Definition skybox2pixbox (crval crpix cdelt from to : Q) : Q * Q * Z :=
  let p s := s2p crval crpix cdelt s in
  (p from, p to, qsgn (p (from + (to - from) / inject_Z 9) - p from))%Q.

(* enmap.py:241-245: np.round/np.floor/np.ceil of the lower and the upper bound *)
Definition round_lo (m : submode) (x : Q) : Z :=
  match m with MRound => qround x | MFloor | MInclusive => Qfloor x | MCeil | MExclusive => Qceiling x end.
Definition round_hi (m : submode) (x : Q) : Z :=
  match m with MRound => qround x | MFloor | MExclusive => Qfloor x | MCeil | MInclusive => Qceiling x end.

(* enmap.py:212-256 subinds, one axis of n pixels *)
Definition subinds (n : Z) (crval crpix cdelt from to : Q) (m : submode) (cap noflip : bool) (eps : Q) : Z * Z * Z :=
  let '(p0, p1, d) := skybox2pixbox crval crpix cdelt from to in
  let p0 := (p0 + eps)%Q in let p1 := (p1 + eps)%Q in
  let '(p0, p1, d) := if noflip && (d <? 0) then (p1, p0, - d) else (p0, p1, d) in
  let b0 := round_lo m p0 in let b1 := round_hi m p1 in
  if cap then if 0 <? d then (Z.max b0 0, Z.min b1 n, d) else (Z.min b0 (n - 1), Z.max b1 (-1), d)
  else (b0, b1, d).

Definition eps0 : Q := 1 # 10000.

(* subinds for both axes of a wcs; box = ((fromy,fromx),(toy,tox)) *)
Definition subinds2 (shape : Z * Z) (w : wcs) (box : (Q * Q) * (Q * Q)) (m : submode) (cap noflip : bool)
  : (Z * Z * Z) * (Z * Z * Z) :=
  let '((fy, fx), (ty, tx)) := box in
  (subinds (fst shape) (crval_y w) (crpix_y w) (cdelt_y w) fy ty m cap noflip eps0,
   subinds (snd shape) (crval_x w) (crpix_x w) (cdelt_x w) fx tx m cap noflip eps0).

Definition slice_of (b : Z * Z * Z) : pyslice := let '(x, y, s) := b in PS (Some x) (Some y) (Some s).

(* enmap.py:196-210 subgeo with pixbox=None and recenter=False *)
Definition subgeo (g : geometry) (box : (Q * Q) * (Q * Q)) (m : submode) (noflip : bool) : geometry :=
  let '(by_, bx) := subinds2 (fst g) (snd g) box m false noflip in
  slice_geometry (fst g) (snd g) (slice_of by_, slice_of bx) true.

(* enmap.py:183-185 the helper of submap *)
Definition flip_slice (b : Z * Z * Z) : bool * pyslice :=
  let '(b0, b1, d) := b in
  if 0 <=? d then (false, slice_of (b0, b1, d)) else (true, slice_of (b1 - d, b0 - d, - d)).

(* omap[...,::-1,:] and omap[...,:,::-1] *)
Definition rev_sl : pyslice := PS None None (Some (-1)).

(* enmap.py:165-194 submap with iwcs=None and recenter=False; cval is the 0 extract fills with *)
Definition submap {A} (m : fmap A) (box : (Q * Q) * (Q * Q)) (mode : submode) (plain : bool) (wrap : option (Z * Z)) (cval : A)
  : option (fmap A) :=
  let shape := (f_ny (fm_arr m), f_nx (fm_arr m)) in
  let '(by_, bx) := subinds2 shape (fm_wcs m) box mode false false in
  let '(yflip, ysl) := flip_slice by_ in
  let '(xflip, xsl) := flip_slice bx in
  let '(oshape, ow) := slice_geometry shape (fm_wcs m) (ysl, xsl) true in
  match extract m oshape ow plain wrap cval with
  | None => None
  | Some o =>
      let o := if yflip then getmap o rev_sl sl_all else o in
      Some (if xflip then getmap o sl_all rev_sl else o)
  end.

Inductive car_variant := CC | Fejer1.
Definition yoff (v : car_variant) : Z := match v with CC => 1 | Fejer1 => 0 end.

(* enmap.py:1676-1695 fullsky_geometry: the shape and resolution checks. tol is 1e-8 radians in degrees. *)
Definition fullsky_wcs (v : car_variant) (ny nx : Z) (res_x : Q) : wcs :=
  Wcs (res_x / 2) (inject_Z (nx / 2) + (1 # 2)) (- (360 / inject_Z nx))
      0 (inject_Z (ny + 1) / 2) (180 / inject_Z (ny - yoff v)).
Definition fullsky_check (v : car_variant) (ny nx : Z) (ry rx tol : Q) : option geometry :=
  if Qle_bool tol (Qabs (ry * inject_Z (ny - yoff v) - 180)) then None
  else if Qle_bool tol (Qabs (rx * inject_Z nx - 360)) then None
  else Some ((ny, nx), fullsky_wcs v ny nx rx).
(* shape given; a zero number of rows or columns divides by zero *)
Definition fullsky_shape (v : car_variant) (ny nx : Z) (tol : Q) : option geometry :=
  if (ny - yoff v =? 0) || (nx =? 0) then None
  else fullsky_check v ny nx (180 / inject_Z (ny - yoff v)) (360 / inject_Z nx) tol.
(* res given *)
Definition fullsky_res (v : car_variant) (ry rx tol : Q) : option geometry :=
  fullsky_check v (qround (180 / ry + inject_Z (yoff v))) (qround (360 / rx + 0)) ry rx tol.

(* enmap.py:1697-1723 band_geometry, from the full-sky geometry on. fejer1/CC rows are affine in declination, so
   sky2pix of (dec,0) is s2p along y. *)
Definition band_geometry (g : geometry) (dmin dmax : Q) : option geometry :=
  let '((ny, nx), w) := g in
  if Qle_bool dmax dmin then None else
  let p s := qround (s2p (crval_y w) (crpix_y w) (cdelt_y w) s) in
  let start := Z.max (p dmin) 0 in let stop := Z.min (p dmax) ny in
  if (start <? 0) || (ny <=? start) || (stop <? 0) || (ny <=? stop) then None
  else Some (slice_geometry (ny, nx) w (PS (Some start) (Some stop) None, PS None None None) false).

(* enmap.py:1747-1774 thumbnail_geometry, one axis. res carries the sign of the axis; pr is where the projection puts
   the radius along this axis (the intermediate world coordinate, in degrees; r itself for a plain or CAR axis), so that
   wcs_world2pix gives pr/cdelt. *)
Definition thumb (n : Z) (cdelt : Q) : Z * (Q * Q * Q) := (n, (0, inject_Z (n / 2 + 1), cdelt))%Q.
Definition thumb_res_shape (res : Q) (shape : Z) : Z * (Q * Q * Q) := thumb (shape / 2 * 2 + 1) res.
Definition thumb_r_res (pr res : Q) : Z * (Q * Q * Q) := thumb (2 * qround (Qabs (pr / res)) + 1) res.
Definition thumb_r_shape (pr : Q) (dir : Z) (shape : Z) : Z * (Q * Q * Q) :=
  let n := shape / 2 * 2 + 1 in
  let ratio := (inject_Z (n - 1) / (2 * Qabs pr) * inject_Z dir)%Q in
  thumb n (1 / ratio)%Q.

(* utils.py:1261-1268 bounding_box, one axis of a list of boxes *)
Fixpoint zmin_l (x : Z) (l : list Z) : Z := match l with [] => x | y :: t => zmin_l (Z.min x y) t end.
Fixpoint zmax_l (x : Z) (l : list Z) : Z := match l with [] => x | y :: t => zmax_l (Z.max x y) t end.

Definition sub_crpix (w : wcs) (dy dx : Z) : wcs :=
  Wcs (crval_x w) (crpix_x w - inject_Z dx)%Q (cdelt_x w) (crval_y w) (crpix_y w - inject_Z dy)%Q (cdelt_y w).

(* enmap.py:1777-1787 union_geometry; an empty list raises *)
Definition union_geometry (gs : list geometry) : option geometry :=
  match gs with
  | [] => None
  | ref :: rest =>
      let box g := pixbox_of (snd ref) (fst g) (snd g) in
      let y0 g := fst (fst (fst (box g))) in let y1 g := snd (fst (fst (box g))) in
      let x0 g := fst (fst (snd (box g))) in let x1 g := snd (fst (snd (box g))) in
      let ly := zmin_l (y0 ref) (map y0 rest) in let hy := zmax_l (y1 ref) (map y1 rest) in
      let lx := zmin_l (x0 ref) (map x0 rest) in let hx := zmax_l (x1 ref) (map x1 rest) in
      Some ((hy - ly, hx - lx), sub_crpix (snd ref) ly lx)
  end.

Definition geo_of {A} (m : fmap A) : geometry := ((f_ny (fm_arr m), f_nx (fm_arr m)), fm_wcs m).

(* enmap.py:720-728 map_union *)
Definition map_union {A} (m1 m2 : fmap A) (plain : bool) (zero : A) (add : A -> A -> A) : option (fmap A) :=
  match union_geometry [geo_of m1; geo_of m2] with
  | None => None
  | Some ((ny, nx), w) =>
      match full2 ny nx zero with
      | None => None
      | Some a =>
          match insert (FM a w) m1 plain (fun _ b => b) with
          | None => None
          | Some o => insert o m2 plain add
          end
      end
  end.

(* enmap.py:747-757 overlap, one axis: a wrap of 0 counts as none *)
Definition overlap_axis (b0 b1 n w : Z) : Z * Z :=
  let b0 := if (b0 <? 0) && ((w =? 0) || (n <=? b0 + w)) then 0 else b0 in
  let b1 := if (n <? b1) && ((w =? 0) || (b1 - w <=? 0)) then n else b1 in
  (b0, Z.max b1 b0).

(* enmap.py:730-762 overlap with a second geometry *)
Definition overlap (g g2 : geometry) (plain : bool) (wrap : option (Z * Z)) : geometry :=
  let '((y0, y1, _), (x0, x1, _)) := pixbox_of (snd g) (fst g2) (snd g2) in
  let '(wy, wx) := wrap_lens (snd g) (snd (fst g)) plain wrap in
  let '(y0, y1) := overlap_axis y0 y1 (fst (fst g)) wy in
  let '(x0, x1) := overlap_axis x0 x1 (snd (fst g)) wx in
  ((y1 - y0, x1 - x0), sub_crpix (snd g) y0 x0).
