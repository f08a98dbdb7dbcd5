(* Models of enmap.py: pix2sky, sky2pix, posaxes, posmap, skybox2pixbox, pixbox2skybox, contains, pix2l, l2pix and the shortcuts of project,
   for separable geometries, where declination is affine in y and right ascension in x. Angles are in degrees (get_unit is a constant
   factor). wcslib may return a right ascension, or the pixel of one, any whole number of turns off: turn and turn' below, which the theorems
   quantify over. Rows beyond the poles, where wcslib reflects positions, are not modelled. *)
From Coq Require Import Qabs Qround.
From Verif Require Import Base SliceSpec SliceModel WindModel ArrModel PixModel GeoModel.
Open Scope Q_scope.

Definition half (corner : bool) : Q := if corner then 1 # 2 else 0.
(* enmap.py:483-494 pix2sky of a row of points (y,x) *)
Definition pix2sky (plain safe corner : bool) (turn : Q -> Q -> Z) (w : wcs) (pix : list (Q * Q)) : list (Q * Q) :=
  let pix := map (fun p : Q * Q => (fst p - half corner, snd p - half corner)) pix in
  let dec := map (fun p : Q * Q => sky_y w (fst p)) pix in
  let ra := map (fun p : Q * Q => sky_x w (snd p) + (if plain then 0 else 360 * inject_Z (turn (fst p) (snd p)))) pix in
  combine dec (if safe && negb plain then unwind RMiddle 0 360 ra else ra).
(* enmap.py:496-523 sky2pix of a row of points (dec,ra); safe = 0, 1 or 2 *)
Definition sky2pix_axis (plain : bool) (safe : Z) (corner : bool) (n : Z) (cdelt : Q) (wpix : list Q) : list Q :=
  let wpix := map (fun p => p + half corner) wpix in
  if (safe =? 0)%Z || plain then wpix else
  let wrefpix := inject_Z n / 2 + half corner in
  let wn := Qabs (360 / cdelt) in
  if (safe =? 1)%Z then map (rewind wrefpix wn) wpix else unwind RLeft wrefpix wn wpix.
Definition sky2pix (plain : bool) (safe : Z) (corner : bool) (turn' : Q -> Q -> Z) (shape : Z * Z) (w : wcs) (coords : list (Q * Q)) : list (Q * Q) :=
  let py := map (fun c : Q * Q => s2p (crval_y w) (crpix_y w) (cdelt_y w) (fst c)) coords in
  let px := map (fun c : Q * Q => s2p (crval_x w) (crpix_x w) (cdelt_x w) (snd c) + (if plain then 0 else 360 / cdelt_x w * inject_Z (turn' (fst c) (snd c)))) coords in
  combine (sky2pix_axis plain safe corner (fst shape) (cdelt_y w) py) (sky2pix_axis plain safe corner (snd shape) (cdelt_x w) px).

(* enmap.py:471-476 posaxes *)
Definition posaxes (plain safe corner : bool) (turn : Q -> Q -> Z) (shape : Z * Z) (w : wcs) : list Q * list Q :=
  (map fst (pix2sky plain safe corner turn w (map (fun y => (inject_Z y, 0)) (zrange 0 (fst shape)))),
   map snd (pix2sky plain safe corner turn w (map (fun x => (0, inject_Z x)) (zrange 0 (snd shape))))).
(* enmap.py:435-465 posmap, as rows of (dec,ra); bsize is a whole number. A row step of zero raises. *)
Definition posmap (separable plain safe corner : bool) (bsize : Z) (turn : Q -> Q -> Z) (shape : Z * Z) (w : wcs) : option (list (list (Q * Q))) :=
  if separable then
    let '(dec, ra) := posaxes plain safe corner turn shape w in
    Some (map (fun d => map (fun r => (d, r)) ra) dec)
  else
    let rowstep := ((bsize + snd shape - 1) / snd shape)%Z in
    if (rowstep <=? 0)%Z then None else
    let row y := pix2sky plain safe corner turn w (map (fun x => (inject_Z y, inject_Z x)) (zrange 0 (snd shape))) in
    Some (concat (map (fun k => let i1 := (k * rowstep)%Z in let i2 := Z.min (i1 + rowstep) (fst shape) in map row (zrange i1 i2))
                      (zrange 0 ((fst shape + rowstep - 1) / rowstep)%Z))).

(* enmap.py:538-549 skybox2pixbox: ten points from corner to corner, unwound from the first *)
Definition linspace (a b : Q) (k : nat) : Q := a + (b - a) * (inject_Z (Z.of_nat k) / 9).
Definition skybox2pixbox (plain corner : bool) (turn' : Q -> Q -> Z) (shape : Z * Z) (w : wcs) (box : (Q * Q) * (Q * Q)) : option ((Q * Q) * (Q * Q)) :=
  let '((y0, x0), (y1, x1)) := box in
  let pix := sky2pix plain 2 corner turn' shape w (map (fun k => (linspace y0 y1 k, linspace x0 x1 k)) (seq 0 10)) in
  match nth_error pix 0, nth_error pix 9 with Some a, Some b => Some (a, b) | _, _ => None end.
(* enmap.py:551-552 pixbox2skybox: the two corners are a row of two points *)
Definition pixbox2skybox (plain : bool) (turn : Q -> Q -> Z) (w : wcs) (box : (Q * Q) * (Q * Q)) : option ((Q * Q) * (Q * Q)) :=
  match pix2sky plain true false turn w [fst box; snd box] with [a; b] => Some (a, b) | _ => None end.

(* enmap.py:554-559 contains, unit="coord" *)
Definition contains (plain : bool) (turn' : Q -> Q -> Z) (shape : Z * Z) (w : wcs) (pos : list (Q * Q)) : list bool :=
  map (fun p : Q * Q => Qle_bool 0 (fst p) && Qle_bool 0 (snd p) && negb (Qle_bool (inject_Z (fst shape)) (fst p)) && negb (Qle_bool (inject_Z (snd shape)) (snd p)))
      (sky2pix plain 1 false turn' shape w pos).

(* fft.py:334-339 ind2freq and freq2ind; enmap.py:524-536 pix2l and l2pix for one axis of n pixels, with d = pixel size/(2 pi) *)
Definition ind2freq (n : Z) (i d : Q) : Q := (if negb (Qle_bool (inject_Z n / 2) i) then i else - inject_Z n + i) / (d * inject_Z n).
Definition freq2ind (n : Z) (f d : Q) : Q := let j := f * (d * inject_Z n) in if Qle_bool 0 j then j else inject_Z n + j.

(* enmap.py:607-611 the shortcuts of project without force, with border="constant". interp is the interpolation that follows, compat is
   wcsutils.is_compatible. The shape test compares the new shape with itself. *)
Definition wcs_eqb (v w : wcs) : bool :=
  Qeq_bool (crval_x v) (crval_x w) && Qeq_bool (crpix_x v) (crpix_x w) && Qeq_bool (cdelt_x v) (cdelt_x w) &&
  Qeq_bool (crval_y v) (crval_y w) && Qeq_bool (crpix_y v) (crpix_y w) && Qeq_bool (cdelt_y v) (cdelt_y w).
Definition project {A} (compat : wcs -> wcs -> bool) (interp : fmap A -> Z * Z -> wcs -> option (fmap A)) (plain : bool) (cval : A) (m : fmap A) (shape : Z * Z) (w : wcs) : option (fmap A) :=
  if wcs_eqb (fm_wcs m) w && ((fst shape =? fst shape)%Z && (snd shape =? snd shape)%Z) then Some m
  else if compat (fm_wcs m) w then extract m shape w plain None cval
  else interp m shape w.
