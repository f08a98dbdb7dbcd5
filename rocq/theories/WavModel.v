(* Model of multimap (a list of maps in one flat array) and of wavelets.HaarTransform, for
   two-dimensional maps with exact values. *)
From Verif Require Import Base SliceSpec SliceModel BlockModel DownModel RangeModel CatModel.

(* a multimap: the flat pixel array and the geometry (ny,nx,wcs) of each map (multimap.py:5-15) *)
Record mmap (A : Type) := MM { mm_flat : list A; mm_geos : list (Z * Z * wcs) }.
Arguments MM {A}. Arguments mm_flat {A}. Arguments mm_geos {A}.

(* map.geometry (enmap.py:99-100) *)
Definition geo_of {A} (m : ndmap A) : Z * Z * wcs := (nm_ny m, nm_nx m, nm_wcs m).
(* geo.npix *)
Definition geo_npix (g : Z * Z * wcs) : Z := fst (fst g) * snd (fst g).

(* multimap.py:68-77 multimap(maps); an empty list of maps makes the constructor fail, because
   ndmaps is given a geometry list that does not hold geometries *)
Definition multimap {A} (maps : list (ndmap A)) : option (mmap A) :=
  match maps with
  | [] => None
  | _ => Some (MM (concat (map (fun m => concat (nm_arr m)) maps)) (map geo_of maps))
  end.

(* multimap.py:44-56 _map_view.__getitem__ with one integer: offs = cumsum(npixs, endpoint=True),
   multimap[...,offs[i]:offs[i+1]].reshape(geometries[i].shape) *)
Definition mm_get {A} (mm : mmap A) (i : Z) : option (ndmap A) :=
  let offs := cumsum_end (map geo_npix (mm_geos mm)) in
  match pyget offs i, pyget offs (i + 1), pyget (mm_geos mm) i with
  | Some a, Some b, Some (ny, nx, w) =>
    let part := psl (mm_flat mm) a b in
    if zlen part =? ny * nx then Some (NdMap ny nx (chunks (Z.to_nat nx) (Z.to_nat ny) part) w) else None
  | _, _, _ => None
  end.

(* map - map and map + map for maps of the same shape; the result has the wcs of the first one
   (enmap.py:51-56). Numpy would broadcast different shapes or raise: None. *)
Definition map_op (f : Q -> Q -> Q) (a b : ndmap Q) : option (ndmap Q) :=
  if (nm_ny a =? nm_ny b) && (nm_nx a =? nm_nx b)
  then Some (NdMap (nm_ny a) (nm_nx a) (map (fun p => map (fun q => f (fst q) (snd q)) (combine (fst p) (snd p))) (combine (nm_arr a) (nm_arr b))) (nm_wcs a))
  else None.

Section Haar.
(* nint(sky2pix(shape, wcs, ref)) as (y,x), any function of the geometry; for ref=None it is 0,0 *)
Variable refpix : Z -> Z -> wcs -> Z * Z.

(* enmap.py:1981-1986 get_downgrade_offset with factor 2 *)
Definition haar_off (g : Z * Z * wcs) : Z * Z :=
  let '(ny, nx, w) := g in let '(y, x) := refpix ny nx w in (y mod 2, x mod 2).

(* wavelets.py:438-443: the maps in the order in which they are appended *)
Fixpoint haar_levels (nlevel : nat) (m : ndmap Q) : option (list (ndmap Q)) :=
  match nlevel with
  | O => Some [m]
  | S k =>
    let '(oy, ox) := haar_off (geo_of m) in
    match downgrade m 2 2 oy ox true with
    | None => None
    | Some down =>
      match upgrade_to down 2 2 oy ox true (nm_ny m) (nm_nx m) with
      | None => None
      | Some up =>
        match map_op Qminus m up, haar_levels k down with
        | Some d, Some rest => Some (d :: rest)
        | _, _ => None
        end
      end
    end
  end.

(* wavelets.py:434-444 HaarTransform.map2wave *)
Definition haar_map2wave (nlevel : nat) (m : ndmap Q) : option (mmap Q) :=
  match haar_levels nlevel m with Some omaps => multimap (rev omaps) | None => None end.

(* wavelets.py:449-450, one step of the loop *)
Definition haar_step (wave : mmap Q) (omap : option (ndmap Q)) (i : Z) : option (ndmap Q) :=
  match omap, pyget (mm_geos wave) i, mm_get wave i with
  | Some m, Some (ny, nx, w), Some d =>
    let '(oy, ox) := haar_off (ny, nx, w) in
    match upgrade_to m 2 2 oy ox true ny nx with
    | Some up => map_op Qplus d up
    | None => None
    end
  | _, _, _ => None
  end.
(* wavelets.py:445-451 HaarTransform.wave2map *)
Definition haar_wave2map (wave : mmap Q) : option (ndmap Q) :=
  fold_left (haar_step wave) (zrange 1 (zlen (mm_geos wave))) (mm_get wave 0).
End Haar.
