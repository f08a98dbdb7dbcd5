(* Vocabulary for C110-C112: spherical harmonics transforms of maps. *)
From Coq Require Export Reals QArith Qreals.
From Verif Require Export Base SliceSpec ArrModel ShtSpec.
Open Scope R_scope.

Definition degree : R := PI / 180.

(* A projection. pj_cyl: one of the cylindrical ones, whose rows have one declination and whose columns have one right
   ascension: pj_lat is the declination (radians) that belongs to the coordinate along the column, and pj_pol that coordinate
   (degrees) at the north pole; the south pole is at - pj_pol. Otherwise pj_pos is the position (declination and right
   ascension in radians) of every pixel that is on the sky. *)
Record proj := Proj { pj_cyl : bool; pj_lat : R -> R; pj_pol : R; pj_pos : Z -> Z -> option (R * R) }.
(* plate carree: the coordinate is the declination *)
Definition plate_carree (P : proj) : Prop := pj_cyl P = true /\ pj_pol P = 90 /\ forall d, pj_lat P d = d * degree.
(* rows and columns are parallels and meridians: cylindrical around the equator *)
Definition upright (P : proj) (w : wcs) : bool := pj_cyl P && Qeq_bool (crval_y w) 0.

(* declination of a row and right ascension of a column of such a map *)
Definition row_dec (P : proj) (w : wcs) (y : Z) : R := pj_lat P (Q2R (sky_y w (inject_Z y))).
Definition col_ra (w : wcs) (x : Z) : R := Q2R (sky_x w (inject_Z x)) * degree.
Definition sky_pos (P : proj) (w : wcs) (y x : Z) : option (R * R) :=
  if upright P w then Some (row_dec P w y, col_ra w x) else pj_pos P y x.
(* the sides of a pixel *)
Definition pix_height (w : wcs) : R := Rabs (Q2R (cdelt_y w)) * degree.
Definition pix_width (w : wcs) : R := Rabs (Q2R (cdelt_x w)) * degree.

(* The direction with colatitude t and longitude p is within dy, dx of declination and right ascension q; turns do not matter. *)
Definition close_to (t p : R) (dy dx : R) (q : R * R) : Prop :=
  Rabs (PI / 2 - t - fst q) <= dy /\ exists k : Z, Rabs (p + 2 * PI * IZR k - snd q) <= dx.

(* The grids of the ducc library, after its documentation: the colatitude of ring i of n. *)
Inductive grid := CC | F1 | F2 | DH | MW | MWflip.
Definition grid_theta (g : grid) (n i : Z) : R :=
  match g with
  | CC => PI * IZR i / IZR (n - 1)
  | F1 => PI * (IZR i + / 2) / IZR n
  | F2 => PI * IZR (i + 1) / IZR (n + 1)
  | DH => PI * IZR i / IZR n
  | MW => PI * IZR (2 * i + 1) / IZR (2 * n - 1)
  | MWflip => PI * IZR (2 * i) / IZR (2 * n - 1)
  end.

Inductive method := Auto | M2d | Mcyl | Mgeneral | Mother.

(* a map of rows between the poles and columns at most once around the sky, to half a pixel *)
Definition on_sky (P : proj) (w : wcs) (ny nx : Z) : Prop :=
  (0 < ny)%Z /\ (0 < nx)%Z /\ Q2R (cdelt_y w) <> 0 /\ Q2R (cdelt_x w) <> 0 /\
  Rabs (Q2R (cdelt_y w)) <= 180 /\
  (forall y, (0 <= y < ny)%Z -> Rabs (Q2R (sky_y w (inject_Z y))) <= pj_pol P) /\
  IZR nx * Rabs (Q2R (cdelt_x w)) < 360 + Rabs (Q2R (cdelt_x w)) / 2.

(* sums, and the scalar product of two maps over the pixels that are on the sky *)
Definition total (l : list R) : R := fold_right Rplus 0 l.
Definition map_dot {A} (dot : A -> A -> R) (P : proj) (w : wcs) (m r : farr A) : R :=
  total (map (fun q => dot (f_at m (fst q) (snd q)) (f_at r (fst q) (snd q)))
    (filter (fun q => match sky_pos P w (fst q) (snd q) with Some _ => true | None => false end) (pixels (f_ny m) (f_nx m)))).
(* F is the field that has the coefficients a (in real coordinates ks of alms): each value is the sum of a k times the field
   B k of coordinate k, seen through the scalar products with any other value *)
Definition field_of {A} (dot : A -> A -> R) (B : Z -> R -> R -> A) (ks : list Z) (a : Z -> R) (F : R -> R -> A) : Prop :=
  forall v t p, dot v (F t p) = total (map (fun k => a k * dot v (B k t p)) ks).

(* the map r has the values of the field F at its pixels, within dy and dx; pixels that are not on the sky keep their value *)
Definition evaluates {A} (P : proj) (w : wcs) (F : R -> R -> A) (dy dx : R) (old r : farr A) : Prop :=
  f_ny r = f_ny old /\ f_nx r = f_nx old /\
  forall y x, (0 <= y < f_ny old)%Z -> (0 <= x < f_nx old)%Z ->
    match sky_pos P w y x with
    | Some q => exists t p, f_at r y x = F t p /\ close_to t p dy dx q
    | None => f_at r y x = f_at old y x
    end.
(* a whole number of pixels goes around the sky *)
Definition goes_around (w : wcs) (tol : R) : Prop := exists n : Z, Rabs (360 / Rabs (Q2R (cdelt_x w)) - IZR n) < tol.

(* the coefficients c are sums over the pixels on the sky of weight times value times the field of the coefficient there *)
Definition quadrature {A} (dot : A -> A -> R) (B : Z -> R -> R -> A) (P : proj) (w : wcs) (weight : Z -> Z -> R) (dy dx : R) (m : farr A) (c : Z -> R) : Prop :=
  exists loc : Z -> Z -> R * R,
    (forall y x, (0 <= y < f_ny m)%Z -> (0 <= x < f_nx m)%Z -> match sky_pos P w y x with Some q => close_to (fst (loc y x)) (snd (loc y x)) dy dx q | None => True end) /\
    forall k, c k = total (map (fun q => weight (fst q) (snd q) * dot (f_at m (fst q) (snd q)) (B k (fst (loc (fst q) (snd q))) (snd (loc (fst q) (snd q)))))
      (filter (fun q => match sky_pos P w (fst q) (snd q) with Some _ => true | None => false end) (pixels (f_ny m) (f_nx m)))).

(* the highest degree for which the grids determine the coefficients, after the documentation of ducc's analysis_2d *)
Definition grid_lmax (g : grid) (n : Z) : Z := match g with CC => n - 2 | F1 | MW | MWflip => n - 1 | F2 => (n - 1) / 2 | DH => (n - 2) / 2 end.
(* analysis gives back the coefficients of the field F, which has none above degree L, from its values on a grid *)
Definition recovers {A} (analysis : farr A -> grid -> R -> Z -> Z -> R) (F : R -> R -> A) (coef : Z -> R) (L : Z) : Prop :=
  forall (v : farr A) g phi0 lmax,
    (forall i j, (0 <= i < f_ny v)%Z -> (0 <= j < f_nx v)%Z -> f_at v i j = F (grid_theta g (f_ny v) i) (phi0 + 2 * PI * IZR j / IZR (f_nx v))) ->
    (L <= lmax <= grid_lmax g (f_ny v))%Z -> (2 * lmax < f_nx v)%Z -> forall k, analysis v g phi0 lmax k = coef k.

(* the rank of row y of ny when the rows are counted from the north *)
Definition from_north (w : wcs) (ny y : Z) : Z := if Rlt_dec 0 (Q2R (cdelt_y w)) then ny - 1 - y else y.
(* products of a number and a value *)
Definition bilinear {A} (dot : A -> A -> R) (smul : R -> A -> A) (zero : A) : Prop :=
  (forall b, dot zero b = 0) /\ forall c v b, dot (smul c v) b = c * dot v b.
(* the weight of row y is that of ring i of n of a grid, where i is the ring that the row of the map lies on, to tol pixels;
   rings of N pixels *)
Definition ring_weight (gridweights : grid -> Z -> Z -> R) (P : proj) (w : wcs) (tol : R) (g : grid) (n N y : Z) (v : R) : Prop :=
  exists i, (0 <= i < n)%Z /\ Rabs (PI / 2 - grid_theta g n i - row_dec P w y) <= tol * pix_height w /\ v = gridweights g n i / IZR N.
