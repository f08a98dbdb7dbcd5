(* Model of slice handling: utils.expand_slice, enmap.slice_geometry and
   ndmap.__getitem__ for two slice objects on the wcs axes. *)
From Verif Require Import Base SliceSpec.

(* pixell/utils.py 2840: step = sel.step or 1 (None and 0 both give 1) *)
Definition es_step (s : pyslice) : Z :=
  match ps_step s with
  | None => 1
  | Some k => if k =? 0 then 1 else k
  end.

(* pixell/utils.py 2841-2843: cycle(i,n) *)
Definition es_cycle (nowrap : bool) (i n : Z) : Z :=
  if nowrap then i else if 0 <=? i then Z.min i n else n + i.

(* pixell/utils.py 2844: default(a,val) *)
Definition es_default (a : option Z) (v : Z) : Z :=
  match a with Some x => x | None => v end.

(* pixell/utils.py 2834-2847 expand_slice; the "step == 0" check at 2845 is dead code
   because of "or 1".  Result: (start, stop, step). *)
Definition expand_slice (s : pyslice) (n : Z) (nowrap : bool) : Z * Z * Z :=
  let step := es_step s in
  if 0 <? step then
    (es_cycle nowrap (es_default (ps_start s) 0) n,
     es_cycle nowrap (es_default (ps_stop s) n) n, step)
  else
    (es_cycle nowrap (es_default (ps_start s) (n - 1)) n,
     match ps_stop s with Some b => es_cycle nowrap b n | None => -1 end, step).

(* pixell/enmap.py 272-280: one iteration of the axis loop of slice_geometry.
   Returns the new length, crpix and cdelt of that axis. *)
Definition slice_axis (n : Z) (crpix cdelt : Q) (s : pyslice) (nowrap : bool) : Z * Q * Q :=
  let '(start0, stop, step) := expand_slice s n nowrap in
  let start := if 0 <? step then start0 else start0 + 1 in
  let crpix1 := (crpix - (inject_Z start + (1 # 2)))%Q in
  let crpix2 := (crpix1 / inject_Z step)%Q in
  let cdelt' := (cdelt * inject_Z step)%Q in
  let crpix3 := (crpix2 + (1 # 2))%Q in
  let on := (stop - start0 + step - Z.sgn step) / step in
  (on, crpix3, cdelt').

(* pixell/enmap.py 264-285 slice_geometry for shape=(ny,nx) and sel=(sy,sx); the leading
   ("pre") dimensions are passed through untouched and not modelled.  The wcs axes are in
   the opposite order of the shape axes (j = -1-i). *)
Definition slice_geometry (shape : Z * Z) (w : wcs) (sel : pyslice * pyslice) (nowrap : bool)
  : (Z * Z) * wcs :=
  let '(ny, nx) := shape in
  let '(sy, sx) := sel in
  let '(oy, cpy, cdy) := slice_axis ny (crpix_y w) (cdelt_y w) sy nowrap in
  let '(ox, cpx, cdx) := slice_axis nx (crpix_x w) (cdelt_x w) sx nowrap in
  ((oy, ox), Wcs (crval_x w) cpx cdx (crval_y w) cpy cdy).

(* A two-dimensional ndmap: rows of pixels and a wcs (enmap.py 44-60).  ny/nx are kept
   explicitly, as numpy does. *)
Record ndmap (A : Type) := NdMap { nm_ny : Z; nm_nx : Z; nm_arr : list (list A); nm_wcs : wcs }.
Arguments NdMap {A}. Arguments nm_ny {A}. Arguments nm_nx {A}.
Arguments nm_arr {A}. Arguments nm_wcs {A}.

(* pixell/enmap.py 125-143 ndmap.__getitem__ with exactly two slice objects (a 2d map, no
   None/int/ellipsis entries).  The data part is numpy's own slicing, the wcs part is
   slice_geometry, whose shape is thrown away. *)
Definition getitem {A} (m : ndmap A) (sel : pyslice * pyslice) : ndmap A :=
  let '(_, w) := slice_geometry (nm_ny m, nm_nx m) (nm_wcs m) sel false in
  NdMap (py_len (fst sel) (nm_ny m)) (py_len (snd sel) (nm_nx m))
        (map (fun row => py_getslice row (snd sel)) (py_getslice (nm_arr m) (fst sel))) w.

(* value of a map at pixel (y,x) *)
Definition pixel {A} (m : ndmap A) (y x : Z) : option A :=
  match zget (nm_arr m) y with Some row => zget row x | None => None end.

(* a map whose data really has the shape it claims *)
Definition nd_wf {A} (m : ndmap A) : Prop :=
  zlen (nm_arr m) = nm_ny m /\ Forall (fun r => zlen r = nm_nx m) (nm_arr m).
