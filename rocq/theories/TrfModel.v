(* Models of the drivers of the spherical harmonics transforms: curvedsky.py alm2map, map2alm and their helpers, with exact
   real numbers. The wcs is the linear part of a projection; pixel to sky conversion is linear in longitude, without the
   library's reduction to one turn. The ducc library is modelled by its documentation: a transform from alm evaluates
   the field that the alm describe at given places, and an adjoint transform sums what it is given times the field of each
   coefficient at those places. One ducc call covers one group of components; A is the type of the values of these components
   in a pixel (a number for spin 0, two for the others and for derivatives). *)
From Coq Require Import Reals QArith Qreals.
From Verif Require Import Base SliceSpec SliceModel ArrModel PixModel ShtModel TrfSpec.
Open Scope R_scope.

Definition rlt (a b : R) : bool := if Rlt_dec a b then true else false.
(* utils.py:1140-1144 hasoff *)
Definition hasoff (tol v off : R) : bool := rlt (Rabs (frac_part (v - off + / 2) - / 2)) tol.
(* utils.py nint *)
Definition nint (x : R) : Z := Int_part (x + / 2).
Definition near (tol a b : R) : bool := rlt (Rabs (a - b)) tol.

(* curvedsky.py:1264, 1290 flip *)
Definition flip_y (w : wcs) : bool := rlt 0 (Q2R (cdelt_y w)).
Definition flip_x (w : wcs) : bool := rlt (Q2R (cdelt_x w)) 0.
(* curvedsky.py:1211-1212 flip_geometry; the shape stays the same *)
Definition flip_wcs (w : wcs) (ny nx : Z) (fy fx : bool) : wcs :=
  snd (slice_geometry (ny, nx) w (flip2slice fy, flip2slice fx) false).
(* wcs_world2pix(0,+-90,0)[1] *)
Definition pole_row (P : proj) (w : wcs) (sgn : R) : R :=
  (sgn * pj_pol P - Q2R (crval_y w)) / Q2R (cdelt_y w) + Q2R (crpix_y w) - 1.

(* curvedsky.py:1320-1325 get_ducc_maxlmax *)
Definition get_ducc_maxlmax (g : grid) (ny : Z) : Z :=
  match g with CC => ny - 2 | DH => (ny - 2) / 2 | F2 => (ny - 1) / 2 | _ => ny - 1 end.

Record ducc := Ducc { d_name : grid; d_nx : Z; d_ny : Z; d_yoff : Z; d_lmax : Z }.

(* curvedsky.py:1279-1318 get_ducc_geo with a shape; phi0 and pole_offs are not used by anyone *)
Definition get_ducc_geo (P : proj) (w : wcs) (ny nx : Z) (tol : R) : option ducc :=
  let w := flip_wcs w ny nx (flip_y w) (flip_x w) in
  let snx := 360 / Q2R (cdelt_x w) in
  if negb (hasoff tol snx 0) then None else
  let y1 := pole_row P w 1 in
  let y2 := pole_row P w (-1) in
  let res name o1 o2 :=
    let n := nint (y2 - y1 + 1 - o1 - o2) in
    Some (Ducc name (nint snx) n (nint (- y1 - o1)) (get_ducc_maxlmax name n)) in
  if hasoff tol y1 0 && hasoff tol y2 0 then
    if near tol y1 (-1) && near tol y2 (IZR ny) then res F2 1 1
    else if near tol y1 0 && near tol y2 (IZR ny) then res DH 1 0
    else res CC 0 0
  else if hasoff tol y1 (/ 2) && hasoff tol y2 (/ 2) then res F1 (/ 2) (/ 2)
  else if hasoff tol y1 (/ 2) && hasoff tol y2 0 then res MW (/ 2) 0
  else if hasoff tol y1 0 && hasoff tol y2 (/ 2) then res MWflip 0 (/ 2)
  else None.

Inductive case := C2d | Ccyl | Cpartial | Cgeneral.
Record minfo := Minfo { mi_case : case; mi_fy : bool; mi_fx : bool; mi_ducc : option ducc; mi_ypad : Z * Z; mi_xpad : Z * Z; mi_phi0 : R }.

(* curvedsky.py:1223-1277 analyse_geometry *)
Definition analyse_geometry (P : proj) (w : wcs) (ny nx : Z) (tol : R) : minfo :=
  if negb (upright P w) || negb (hasoff tol (360 / Rabs (Q2R (cdelt_x w))) 0) then Minfo Cgeneral false false None (0, 0)%Z (0, 0)%Z 0 else
  let fy := flip_y w in let fx := flip_x w in
  let ww := flip_wcs w ny nx fy fx in
  let phi0 := col_ra ww 0 in
  let d := get_ducc_geo P ww ny nx tol in
  let other :=
    let ypad := match d with Some d => (d_yoff d, d_ny d - d_yoff d - ny)%Z | None => (0, 0)%Z end in
    let snx := nint (360 / Q2R (cdelt_x ww)) in
    if (nx =? snx)%Z then Minfo Ccyl fy fx d ypad (0, 0)%Z phi0 else Minfo Cpartial fy fx d ypad (0, snx - nx)%Z phi0 in
  match d with
  | Some g => if (ny =? d_ny g)%Z && (nx =? d_nx g)%Z && rlt (Rabs (IZR (d_yoff g))) tol then Minfo C2d fy fx d (0, 0)%Z (0, 0)%Z phi0 else other
  | None => other
  end.

(* curvedsky.py:464-475 get_method, and the choice in 149, 285 *)
Definition get_method (m : method) (mi : minfo) : method :=
  match m with
  | Auto => match mi_case mi with Cgeneral => Mgeneral | C2d => M2d | _ => Mcyl end
  | m => m
  end.

(* the tolerance of the second look at the geometry, curvedsky.py:877, 996 *)
Definition tol0 : R := 1 / 1000000.

(* curvedsky.py:1141-1161 get_ring_info: theta, nphi, phi0 and offset of every row *)
Definition get_ring_info (P : proj) (w : wcs) (ny nx : Z) : list (R * Z * R * Z) :=
  map (fun y => (PI / 2 - row_dec P w y, nx, col_ra w 0, (y * nx)%Z)) (zrange 0 ny).

Section Ducc.
Context {A : Type}.

(* ducc synthesis_2d *)
Definition synthesis_2d (F : R -> R -> A) (g : grid) (phi0 : R) (ny nx : Z) : farr A :=
  FA ny nx (fun i j => F (grid_theta g ny i) (phi0 + 2 * PI * IZR j / IZR nx)).
(* ducc synthesis into a map of which ring r fills nphi elements from offset on; old is what was there *)
Definition synthesis (F : R -> R -> A) (rings : list (R * Z * R * Z)) (old : Z -> A) (p : Z) : A :=
  match find (fun r => let '(_, n, _, o) := r in ((o <=? p) && (p <? o + n))%Z) rings with
  | Some (t, n, ph, o) => F t (ph + 2 * PI * IZR (p - o) / IZR n)
  | None => old p
  end.
(* ducc synthesis_general *)
Definition synthesis_general (F : R -> R -> A) (loc : list (R * R)) : list A := map (fun l => F (fst l) (snd l)) loc.

(* map_full[I+(0,)] *= -1 after a transform of derivatives; nothing otherwise *)
Definition afterwards (fix_ : A -> A) (a : farr A) : farr A := FA (f_ny a) (f_nx a) (fun y x => fix_ (f_at a y x)).

(* curvedsky.py:871-897 alm2map_raw_2d *)
Definition alm2map_raw_2d (P : proj) (fix_ : A -> A) (F : R -> R -> A) (buf : fmap A) : option (fmap A) :=
  let a := fm_arr buf in
  let mi := analyse_geometry P (fm_wcs buf) (f_ny a) (f_nx a) tol0 in
  match mi_ducc mi with
  | None => None (* minfo.ducc_geo.name of None *)
  | Some d => Some (FM (afterwards fix_ (synthesis_2d F (d_name d) (mi_phi0 mi) (f_ny a) (f_nx a))) (fm_wcs buf))
  end.
(* curvedsky.py:899-929 alm2map_raw_cyl *)
Definition alm2map_raw_cyl (P : proj) (fix_ : A -> A) (F : R -> R -> A) (buf : fmap A) : fmap A :=
  let a := fm_arr buf in
  let out := synthesis F (get_ring_info P (fm_wcs buf) (f_ny a) (f_nx a)) (fun p => f_at a (p / f_nx a) (p mod f_nx a)) in
  FM (afterwards fix_ (FA (f_ny a) (f_nx a) (fun y x => out (y * f_nx a + x)%Z))) (fm_wcs buf).

(* curvedsky.py:727-745 alm2map_2d for one group of components *)
Definition alm2map_2d (P : proj) (fix_ : A -> A) (F : R -> R -> A) (zero : A) (tol : R) (m : fmap A) : option (farr A) :=
  let a := fm_arr m in
  let mi := analyse_geometry P (fm_wcs m) (f_ny a) (f_nx a) tol in
  let '(y0, y1) := mi_ypad mi in let '(x0, x1) := mi_xpad mi in
  bind (map2buffer m (mi_fy mi) (mi_fx mi) y0 x0 y1 x1 false zero) (fun buf =>
  bind (alm2map_raw_2d P fix_ F buf) (fun buf =>
  let r := fm_arr (buffer2map buf (mi_fy mi) (mi_fx mi) y0 x0 y1 x1) in
  if ((f_ny r =? f_ny a) && (f_nx r =? f_nx a))%Z then Some r else None)).
(* curvedsky.py:747-765 alm2map_cyl *)
Definition alm2map_cyl (P : proj) (fix_ : A -> A) (F : R -> R -> A) (zero : A) (tol : R) (m : fmap A) : option (farr A) :=
  let a := fm_arr m in
  let mi := analyse_geometry P (fm_wcs m) (f_ny a) (f_nx a) tol in
  let '(x0, x1) := mi_xpad mi in
  bind (map2buffer m (mi_fy mi) (mi_fx mi) 0 x0 0 x1 true zero) (fun buf =>
  let r := fm_arr (buffer2map (alm2map_raw_cyl P fix_ F buf) (mi_fy mi) (mi_fx mi) 0 x0 0 x1) in
  if ((f_ny r =? f_ny a) && (f_nx r =? f_nx a))%Z then Some r else None).

(* curvedsky.py:1339-1341: colatitude, and longitudes below 0 get a turn more *)
Definition loc_conv (p : option (R * R)) : option (R * R) :=
  match p with Some (d, r) => Some (PI / 2 - d, if Rlt_dec r 0 then r + 2 * PI else r) | None => None end.
Definition is_some {B} (p : option B) : bool := match p with Some _ => true | None => false end.
Definition somes {B} (l : list (option B)) : list B := flat_map (fun p => match p with Some p => [p] | None => [] end) l.
(* numpy's m[mask]: its pixels, m[mask] and m[mask] = vals *)
Definition all_pix (a : farr A) : list (Z * Z) := flat_map (fun y => map (fun x => (y, x)) (zrange 0 (f_nx a))) (zrange 0 (f_ny a)).
Definition mask_sel (a : farr A) (mask : list (list bool)) : list (Z * Z) :=
  filter (fun q => match zget mask (fst q) with Some row => match zget row (snd q) with Some b => b | None => false end | None => false end) (all_pix a).
Definition get_masked (a : farr A) (mask : list (list bool)) : list A := map (fun q => f_at a (fst q) (snd q)) (mask_sel a mask).
Definition set_masked (a : farr A) (mask : list (list bool)) (vals : list A) : farr A :=
  let sel := mask_sel a mask in
  FA (f_ny a) (f_nx a) (fun y x =>
    match find (fun qv => ((fst (fst qv) =? y) && (snd (fst qv) =? x))%Z) (combine sel vals) with Some (_, v) => v | None => f_at a y x end).
(* curvedsky.py:767-791 alm2map_general. flat: the map has two axes; the name mask in 778 does not exist *)
Definition alm2map_general (P : proj) (fix_ : A -> A) (F : R -> R -> A) (flat : bool) (bsize : Z) (m : fmap A) : option (farr A) :=
  let a := fm_arr m in
  match calc_locinfo (sky_pos P (fm_wcs m)) loc_conv is_some None (f_ny a) (f_nx a) bsize with
  | None => None
  | Some (loc, mask, masked) =>
      let vals := map fix_ (synthesis_general F (somes loc)) in
      if masked then if flat then None else Some (set_masked a mask vals)
      else Some (FA (f_ny a) (f_nx a) (fun y x => match zget vals (y * f_nx a + x) with Some v => v | None => f_at a y x end))
  end.

(* curvedsky.py:83-164 alm2map; the result has the wcs of m *)
Definition alm2map (P : proj) (fix_ : A -> A) (F : R -> R -> A) (zero : A) (flat : bool) (tol : R) (me : method) (m : fmap A) : option (farr A) :=
  let a := fm_arr m in
  match get_method me (analyse_geometry P (fm_wcs m) (f_ny a) (f_nx a) tol) with
  | M2d => alm2map_2d P fix_ F zero tol m
  | Mcyl => alm2map_cyl P fix_ F zero tol m
  | Mgeneral => alm2map_general P fix_ F flat 1000 m
  | _ => None
  end.

(* The adjoints. Sums over the real coordinates k of alms; B k is the field of coordinate k, dot the scalar product of values. *)
Variables (dot : A -> A -> R) (B : Z -> R -> R -> A).
Definition sum (l : list R) : R := fold_right Rplus 0 l.
(* ducc adjoint_synthesis_2d *)
Definition adjoint_synthesis_2d (g : grid) (phi0 : R) (a : farr A) (k : Z) : R :=
  sum (map (fun i => sum (map (fun j => dot (f_at a i j) (B k (grid_theta g (f_ny a) i) (phi0 + 2 * PI * IZR j / IZR (f_nx a)))) (zrange 0 (f_nx a)))) (zrange 0 (f_ny a))).
(* ducc adjoint_synthesis *)
Definition adjoint_synthesis (rings : list (R * Z * R * Z)) (v : Z -> A) (k : Z) : R :=
  sum (map (fun r => let '(t, n, ph, o) := r in sum (map (fun j => dot (v (o + j)%Z) (B k t (ph + 2 * PI * IZR j / IZR n))) (zrange 0 n))) rings).
(* ducc adjoint_synthesis_general *)
Definition adjoint_synthesis_general (loc : list (R * R)) (vals : list A) (k : Z) : R :=
  sum (map (fun vl => dot (fst vl) (B k (fst (snd vl)) (snd (snd vl)))) (combine vals loc)).

(* curvedsky.py:871-897 with adjoint. The sign of a derivative is changed in the map afterwards, which the alms do not see *)
Definition adjoint_raw_2d (P : proj) (buf : fmap A) : option (Z -> R) :=
  let a := fm_arr buf in
  let mi := analyse_geometry P (fm_wcs buf) (f_ny a) (f_nx a) tol0 in
  match mi_ducc mi with
  | None => None
  | Some d => Some (adjoint_synthesis_2d (d_name d) (mi_phi0 mi) a)
  end.
(* curvedsky.py:899-929 with adjoint *)
Definition adjoint_raw_cyl (P : proj) (buf : fmap A) : Z -> R :=
  let a := fm_arr buf in
  adjoint_synthesis (get_ring_info P (fm_wcs buf) (f_ny a) (f_nx a)) (fun p => f_at a (p / f_nx a) (p mod f_nx a)).
(* curvedsky.py:727-745, 747-765, 767-791 with adjoint *)
Definition adjoint_2d (P : proj) (zero : A) (tol : R) (m : fmap A) : option (Z -> R) :=
  let a := fm_arr m in
  let mi := analyse_geometry P (fm_wcs m) (f_ny a) (f_nx a) tol in
  let '(y0, y1) := mi_ypad mi in let '(x0, x1) := mi_xpad mi in
  bind (map2buffer m (mi_fy mi) (mi_fx mi) y0 x0 y1 x1 false zero) (adjoint_raw_2d P).
Definition adjoint_cyl (P : proj) (zero : A) (tol : R) (m : fmap A) : option (Z -> R) :=
  let a := fm_arr m in
  let mi := analyse_geometry P (fm_wcs m) (f_ny a) (f_nx a) tol in
  let '(x0, x1) := mi_xpad mi in
  bind (map2buffer m (mi_fy mi) (mi_fx mi) 0 x0 0 x1 false zero) (fun buf => Some (adjoint_raw_cyl P buf)).
Definition adjoint_general (P : proj) (flat : bool) (bsize : Z) (m : fmap A) : option (Z -> R) :=
  let a := fm_arr m in
  match calc_locinfo (sky_pos P (fm_wcs m)) loc_conv is_some None (f_ny a) (f_nx a) bsize with
  | None => None
  | Some (loc, mask, masked) =>
      if masked then if flat then None else Some (adjoint_synthesis_general (somes loc) (get_masked a mask))
      else Some (adjoint_synthesis_general (somes loc) (map (fun q => f_at a (fst q) (snd q)) (all_pix a)))
  end.
(* curvedsky.py:166-170 alm2map_adjoint *)
Definition alm2map_adjoint (P : proj) (zero : A) (flat : bool) (tol : R) (me : method) (m : fmap A) : option (Z -> R) :=
  let a := fm_arr m in
  match get_method me (analyse_geometry P (fm_wcs m) (f_ny a) (f_nx a) tol) with
  | M2d => adjoint_2d P zero tol m
  | Mcyl => adjoint_cyl P zero tol m
  | Mgeneral => adjoint_general P flat 1000 m
  | _ => None
  end.

(* ---- map2alm ---- *)
(* A one-dimensional array: its length and its elements. w[a:b], and w[::-1] *)
Definition rows : Type := Z * (Z -> R).
Definition rows_slice (w : rows) (a b : Z) : rows := (py_len (sl a b) (fst w), fun j => snd w (sl_at (sl a b) (fst w) j)).
Definition rows_rev (w : rows) : rows := (fst w, fun j => snd w (fst w - 1 - j)%Z).
Definition rows_div (w : rows) (n : Z) : rows := (fst w, fun j => snd w j / IZR n).
(* ducc get_gridweights(name, n): n weights, times the number of pixels in a ring *)
Variables (gridweights : grid -> Z -> Z -> R).
(* values times numbers *)
Variables (smul : R -> A -> A).
(* map[ny,nx]*weights[:,None]: the lengths must agree, or the weights have length 1; a longer result does not fit back *)
Definition row_factor (w : rows) (ny : Z) : option (Z -> R) :=
  if (fst w =? ny)%Z then Some (snd w) else if (fst w =? 1)%Z then Some (fun _ => snd w 0%Z) else None.

(* curvedsky.py:478-491 quad_weights; minfo.flip is a list of two, which counts as true *)
Definition quad_weights (P : proj) (w : wcs) (ny nx : Z) (tol : R) : option rows :=
  let mi := analyse_geometry P w ny nx tol in
  match mi_ducc mi with
  | None => None (* ducc_geo.name of None *)
  | Some d =>
      let '(y0, y1) := mi_ypad mi in
      let g := ((ny + (y0 + y1))%Z, gridweights (d_name d) (ny + (y0 + y1))) in
      Some (rows_div (rows_rev (rows_slice g y0 (fst g - y1))) (d_nx d))
  end.
(* curvedsky.py:822-832: the default weights of map2alm_cyl; area is map.pixsizemap(separable=True)[:,0] *)
Definition default_weights (mi : minfo) (ny : Z) (area : Z -> R) : rows :=
  match mi_ducc mi with
  | Some d =>
      let '(y0, y1) := mi_ypad mi in
      let g := ((ny + (y0 + y1))%Z, gridweights (d_name d) (ny + (y0 + y1))) in
      rows_div (rows_slice g y0 (fst g - y1)) (d_nx d)
  | None => rows_rev (ny, area)
  end.
(* curvedsky.py:814-844, 1021-1057: map2alm_cyl and map2alm_raw_cyl with niter=0 and without derivatives *)
Definition map2alm_cyl (P : proj) (zero : A) (tol : R) (area : Z -> R) (weights : option rows) (m : fmap A) : option (Z -> R) :=
  let a := fm_arr m in
  let mi := analyse_geometry P (fm_wcs m) (f_ny a) (f_nx a) tol in
  let w := match weights with Some w => w | None => default_weights mi (f_ny a) area end in
  let '(x0, x1) := mi_xpad mi in
  bind (map2buffer m (mi_fy mi) (mi_fx mi) 0 x0 0 x1 false zero) (fun buf =>
  let b := fm_arr buf in
  bind (row_factor w (f_ny b)) (fun f =>
  Some (adjoint_synthesis (get_ring_info P (fm_wcs buf) (f_ny b) (f_nx b)) (fun p => smul (f (p / f_nx b)%Z) (f_at b (p / f_nx b) (p mod f_nx b)))))).
(* curvedsky.py:846-869, 1059-1092: map2alm_general and map2alm_raw_general, niter=0, pixel areas as weights *)
Definition map2alm_general (P : proj) (flat : bool) (bsize : Z) (area : Z -> Z -> R) (m : fmap A) : option (Z -> R) :=
  let a := fm_arr m in
  match calc_locinfo (sky_pos P (fm_wcs m)) loc_conv is_some None (f_ny a) (f_nx a) bsize with
  | None => None
  | Some (loc, mask, masked) =>
      let prod := FA (f_ny a) (f_nx a) (fun y x => smul (area y x) (f_at a y x)) in
      if masked then if flat then None else Some (adjoint_synthesis_general (somes loc) (get_masked prod mask))
      else Some (adjoint_synthesis_general (somes loc) (map (fun q => f_at prod (fst q) (snd q)) (all_pix prod)))
  end.
(* ducc analysis_2d(map, geometry, phi0, lmax) *)
Variables (analysis_2d : farr A -> grid -> R -> Z -> Z -> R).
(* curvedsky.py:793-812, 989-1019: map2alm_2d and map2alm_raw_2d without derivatives *)
Definition map2alm_2d (P : proj) (zero : A) (tol : R) (lmax : Z) (m : fmap A) : option (Z -> R) :=
  let a := fm_arr m in
  let mi := analyse_geometry P (fm_wcs m) (f_ny a) (f_nx a) tol in
  let '(y0, y1) := mi_ypad mi in let '(x0, x1) := mi_xpad mi in
  bind (map2buffer m (mi_fy mi) (mi_fx mi) y0 x0 y1 x1 false zero) (fun buf =>
  let b := fm_arr buf in
  let mi := analyse_geometry P (fm_wcs buf) (f_ny b) (f_nx b) tol0 in
  match mi_ducc mi with
  | None => None
  | Some d => Some (analysis_2d b (d_name d) (mi_phi0 mi) (Z.min lmax (d_lmax d)))
  end).
(* curvedsky.py:209-301 map2alm with niter=0 *)
Definition map2alm (P : proj) (zero : A) (flat : bool) (tol : R) (lmax : Z) (area : Z -> Z -> R) (weights : option rows) (me : method) (m : fmap A) : option (Z -> R) :=
  let a := fm_arr m in
  match get_method me (analyse_geometry P (fm_wcs m) (f_ny a) (f_nx a) tol) with
  | M2d => map2alm_2d P zero tol lmax m
  | Mcyl => map2alm_cyl P zero tol (fun y => area y 0%Z) weights m
  | Mgeneral => map2alm_general P flat 1000 area m
  | _ => None
  end.
End Ducc.
