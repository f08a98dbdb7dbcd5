(* Models of curvedsky.py calc_locinfo, map2buffer, buffer2map and jacobi_inverse. *)
From Verif Require Import Base SliceSpec SliceModel ArrModel PixModel RangeModel AlmModel.

(* ---- calc_locinfo ---- *)
(* python range(a, b, step) for a positive step *)
Definition py_range (a b step : Z) : list Z := map (fun i => a + step * i) (zrange 0 ((b - a + step - 1) / step)).
(* numpy l[a:b] = v for a slice inside the list: the lengths must agree *)
Definition set_slice {A} (l : list A) (a b : Z) (v : list A) : option (list A) :=
  if (0 <=? a) && (a <=? b) && (b <=? zlen l) && (zlen v =? b - a)
  then Some (firstn (Z.to_nat a) l ++ v ++ skipn (Z.to_nat b) l) else None.
(* the state of the loop: loc, mask (as a list of rows) and off *)
Definition locstate (P : Type) : Type := list P * list (list bool) * Z.
(* curvedsky.py:1336-1349, one block. pos y x is the position posmap reports for pixel (y,x) of the whole map,
   which is also what it reports for that pixel of a slice (C01); conv is the change to colatitude and
   non-negative longitude, finite is np.isfinite of both coordinates. Both branches of the if store the same rows
   in the same order when nothing is masked; they are kept apart as in the code. *)
Definition loc_block {P} (pos : Z -> Z -> P) (conv : P -> P) (finite : P -> bool) (ny nx bsize : Z) (st : locstate P) (b1 : Z) : option (locstate P) :=
  let '(loc, mask, off) := st in
  let b2 := Z.min (b1 + bsize) ny in
  let subpos := map (fun y => map (fun x => conv (pos y x)) (zrange 0 nx)) (zrange b1 b2) in
  let submask := map (map finite) subpos in
  let nok := zsum (map (fun row => zsum (map (fun b : bool => if b then 1 else 0) row)) submask) in
  let rows := if nok <? (b2 - b1) * nx then filter finite (concat subpos) else concat subpos in
  match set_slice loc off (off + nok) rows, set_slice mask b1 b2 submask with
  | Some loc, Some mask => Some (loc, mask, off + nok)
  | _, _ => None
  end.
(* curvedsky.py:1326-1353 calc_locinfo: (loc, mask, masked). zero is the value np.zeros starts with. *)
Definition calc_locinfo {P} (pos : Z -> Z -> P) (conv : P -> P) (finite : P -> bool) (zero : P) (ny nx bsize : Z) : option (list P * list (list bool) * bool) :=
  match ofold (loc_block pos conv finite ny nx bsize) (py_range 0 (ny - 1) bsize)
    (repeat zero (Z.to_nat (ny * nx)), repeat (repeat false (Z.to_nat nx)) (Z.to_nat ny), 0) with
  | Some (loc, mask, off) => Some (firstn (Z.to_nat off) loc, mask, off <? ny * nx)
  | None => None
  end.

(* ---- transform buffers ---- *)
(* curvedsky.py:1207-1210 flip2slice *)
Definition flip2slice (flip : bool) : pyslice := PS None None (Some (1 - 2 * (if flip then 1 else 0))).
(* curvedsky.py:1213 flip_array *)
Definition flip_array {A} (m : fmap A) (fy fx : bool) : fmap A := getmap m (flip2slice fy) (flip2slice fx).
(* curvedsky.py:1355-1375 map2buffer with pad=[[y0,x0],[y1,x1]], flip_geometry and pad_geometry included; the dtype
   change is left out. zero is what enmap.zeros fills with. *)
Definition map2buffer {A} (m : fmap A) (fy fx : bool) (y0 x0 y1 x1 : Z) (obuf : bool) (zero : A) : option (fmap A) :=
  let '((gy, gx), w) := slice_geometry (f_ny (fm_arr m), f_nx (fm_arr m)) (fm_wcs m) (flip2slice fy, flip2slice fx) false in
  let ny := y0 + gy + y1 in let nx := x0 + gx + x1 in
  bind (full2 ny nx zero) (fun buf =>
  bind (if obuf then Some buf else set2 buf (sl y0 (ny - y1)) (sl x0 (nx - x1)) (fm_arr (flip_array m fy fx))) (fun buf =>
  Some (FM buf (crpix_add w y0 x0)))).
(* curvedsky.py:1377-1382 buffer2map *)
Definition buffer2map {A} (buf : fmap A) (fy fx : bool) (y0 x0 y1 x1 : Z) : fmap A :=
  flip_array (getmap buf (sl y0 (f_ny (fm_arr buf) - y1)) (sl x0 (f_nx (fm_arr buf) - x1))) fy fx.

(* ---- jacobi_inverse ---- *)
(* curvedsky.py:1093-1109. The calls made are counted: (x, calls of forward, calls of approx_backward).
   alias says that approx_backward hands back the very array it was given, so that the in-place subtraction
   also changes y; otherwise it returns a new array. *)
Fixpoint jacobi_loop {X Y} (subX : X -> X -> X) (subY : Y -> Y -> Y) (forward : X -> Y) (back : Y -> X) (alias : option (X -> Y)) (n : nat) (y : Y) (x : X) (nf nb : Z) : X * Z * Z :=
  match n with
  | O => (x, nf, nb)
  | S n => let x := subX x (back (subY (forward x) y)) in
           jacobi_loop subX subY forward back alias n (match alias with Some same => same x | None => y end) x (nf + 1) (nb + 1)
  end.
Definition jacobi_inverse {X Y} (subX : X -> X -> X) (subY : Y -> Y -> Y) (forward : X -> Y) (back : Y -> X) (alias : option (X -> Y)) (y : Y) (niter : Z) : X * Z * Z :=
  jacobi_loop subX subY forward back alias (Z.to_nat niter) y (back y) 0 1.
