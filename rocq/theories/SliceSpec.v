(* Specification vocabulary for slicing: what python's own slice selects
   (CPython's PySlice_Unpack/PySlice_AdjustIndices, i.e. slice.indices), and the
   pixel->sky relation of an affine (plain cylindrical) wcs.  Independent of pixell. *)
From Verif Require Import Base.

Record pyslice := PS { ps_start : option Z; ps_stop : option Z; ps_step : option Z }.

Definition py_step (s : pyslice) : Z :=
  match ps_step s with None => 1 | Some k => k end.

(* slice.indices(n): the adjusted (start, stop); a zero step is an error *)
Definition py_adjust (step n : Z) (i : Z) : Z :=
  if i <? 0 then
    let i := i + n in
    if i <? 0 then (if step <? 0 then -1 else 0) else i
  else if n <=? i then (if step <? 0 then n - 1 else n) else i.

Definition py_start (s : pyslice) (n : Z) : Z :=
  match ps_start s with
  | None => if py_step s <? 0 then n - 1 else 0
  | Some i => py_adjust (py_step s) n i
  end.

Definition py_stop (s : pyslice) (n : Z) : Z :=
  match ps_stop s with
  | None => if py_step s <? 0 then -1 else n
  | Some i => py_adjust (py_step s) n i
  end.

(* number of selected elements: k such that start+step*k has not passed stop *)
Definition py_len (s : pyslice) (n : Z) : Z :=
  let a := py_start s n in let b := py_stop s n in let k := py_step s in
  if k <? 0 then (if b <? a then (a - b - 1) / (- k) + 1 else 0)
  else (if a <? b then (b - a - 1) / k + 1 else 0).

(* the selected positions, in order *)
Definition py_sel (s : pyslice) (n : Z) : list Z :=
  map (fun i => py_start s n + py_step s * i) (zrange 0 (py_len s n)).

(* a[s] for a python/numpy sequence *)
Definition pick {A} (l : list A) (idx : list Z) : list A :=
  flat_map (fun k => match zget l k with Some x => [x] | None => [] end) idx.
Definition py_getslice {A} (l : list A) (s : pyslice) : list A :=
  pick l (py_sel s (zlen l)).

(* Affine wcs: index 0 is longitude/x, index 1 is latitude/y, pixels counted from 1 in crpix. *)
Record wcs := Wcs {
  crval_x : Q; crpix_x : Q; cdelt_x : Q;
  crval_y : Q; crpix_y : Q; cdelt_y : Q }.

(* sky coordinate of the (possibly fractional) 0-based pixel position p along one axis *)
Definition sky_at (crval crpix cdelt p : Q) : Q := (crval + cdelt * (p + 1 - crpix))%Q.
Definition sky_x (w : wcs) (p : Q) : Q := sky_at (crval_x w) (crpix_x w) (cdelt_x w) p.
Definition sky_y (w : wcs) (p : Q) : Q := sky_at (crval_y w) (crpix_y w) (cdelt_y w) p.

(* The slices for which a user stays inside the axis: no zero step, and explicit
   bounds that are valid positions (negative ones counted from the end). *)
Definition in_range (s : pyslice) (n : Z) : Prop :=
  py_step s <> 0 /\
  (forall i, ps_start s = Some i -> - n <= i /\ (py_step s < 0 -> i <= n - 1)) /\
  (forall i, ps_stop s = Some i -> - n <= i /\ (py_step s < 0 -> i <= n - 1)).

(* positions a, a+k, a+2k, ... strictly before b (in the direction of k) *)
Definition raw_sel (r : Z * Z * Z) : list Z :=
  let '(a, b, k) := r in
  map (fun i => a + k * i)
      (zrange 0 (if k <? 0 then (if b <? a then (a - b - 1) / (- k) + 1 else 0)
                 else (if a <? b then (b - a - 1) / k + 1 else 0))).

(* s12 selects, in one step and from n elements, exactly what s2 selects from the result of s1 *)
Definition composes (s1 s2 s12 : pyslice) (n : Z) : Prop :=
  py_step s12 = py_step s1 * py_step s2 /\
  py_sel s12 n = map (fun i => py_start s1 n + py_step s1 * i) (py_sel s2 (py_len s1 n)).

(* two wcs put every pixel position at the same place on the sky *)
Definition same_sky (w w' : wcs) : Prop :=
  forall p, (sky_x w p == sky_x w' p)%Q /\ (sky_y w p == sky_y w' p)%Q.
