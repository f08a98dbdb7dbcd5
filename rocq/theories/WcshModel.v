(* Models of the reference-point and pixelization functions of wcsutils. *)
From Coq Require Import Qabs.
From Verif Require Import Base SliceSpec SplitModel.

(* wcsutils.py:174-175 is_separable; cyl: what is_cyl answers *)
Definition is_separable (cyl : bool) (w : wcs) : bool := cyl && Qeq_bool (crval_y w) 0.

(* wcsutils.py:334-343 recenter_cyl_x; None: the ValueError *)
Definition recenter_cyl_x (cyl : bool) (w : wcs) (x : Q) : option wcs :=
  if is_separable cyl w then
    Some (Wcs (crval_x w + (x - crpix_x w) * cdelt_x w) x (cdelt_x w) (crval_y w) (crpix_y w) (cdelt_y w))
  else None.

(* wcsutils.py:602-626, the values along the chosen axis: crval, crpix, cdelt *)
Definition fix_axis (n : option Q) (v p d : Q) : Q * Q :=
  let n := match n with None => Qabs (360 / d) | Some n => n end in
  let ra1 := (v - p * d)%Q in
  let ra2 := (ra1 + (n - 1) * d)%Q in
  let left := Qabs (v - ra1) in
  let right := Qabs (v - ra2) in
  if Qle_bool left 180 && Qle_bool right 180 then (v, p)
  else
    let mid := ((1 # 2) * (ra1 + ra2))%Q in
    let dra := (mid - v)%Q in
    let dpix := (dra / d)%Q in
    ((v + mid)%Q, (p + dpix)%Q).

(* wcsutils.py:602-627 fix_wcs, the definition in force (an earlier one of the same name at 348-364 is overwritten) *)
Definition fix_wcs (cyl : bool) (w : wcs) (axis : Z) (n : option Q) : option wcs :=
  if axis =? 0 then
    if negb (cyl && Qeq_bool (crval_y w) 0) then None
    else let '(v, p) := fix_axis n (crval_x w) (crpix_x w) (cdelt_x w) in
         Some (Wcs v p (cdelt_x w) (crval_y w) (crpix_y w) (cdelt_y w))
  else
    if negb (cyl && Qeq_bool (crval_x w) 0) then None
    else let '(v, p) := fix_axis n (crval_y w) (crpix_y w) (cdelt_y w) in
         Some (Wcs (crval_x w) (crpix_x w) (cdelt_x w) v p (cdelt_y w)).

(* int(x): rounds towards zero *)
Definition qtrunc (x : Q) : Z := Z.quot (Qnum x) (QDen x).

(* np.allclose(a, b) with the default tolerances *)
Definition allclose (a b : Q) : bool := Qle_bool (Qabs (a - b)) ((1 # 100000000) + (1 # 100000) * Qabs b).

(* wcsutils.py:279-318 pixelize_1d up to "Finish up": w, n, res, sign, o1, o2. None: an exception. *)
Definition resolve (w : Q) (n : option Z) (res : option Q) (o1 o2 : option Q) (adjust : bool) (sign tol eps : Q)
  : option (Q * Z * Q * Q * option Q * option Q) :=
  match res with
  | Some res =>
      let '(res, sign) := if qltb res 0 then ((- res)%Q, (- sign)%Q) else (res, sign) in
      if Qeq_bool res 0 then None
      else
      let '(o1, o2, adjust) := match o1, o2 with None, None => (Some 0%Q, Some 0%Q, true) | _, _ => (o1, o2, adjust) end in
      match o1, o2 with
      | Some a, None => Some (w, qtrunc (w / res + 1 - a + eps), res, sign, o1, o2)
      | None, Some b => Some (w, qtrunc (w / res + 1 + b + eps), res, sign, o1, o2)
      | Some a, Some b =>
          let nf := (w / res + 1 - (a - b))%Q in
          let n := qtrunc (nf + eps) in
          if adjust then Some (((inject_Z n + (a + b) - 1) * res)%Q, n, res, sign, o1, o2)
          else if qltb (Qabs (inject_Z n - nf)) tol then Some (w, n, res, sign, o1, o2)
          else None
      | None, None => None
      end
  | None =>
      match n with
      | None => None
      | Some n =>
          let a := match o1 with None => (1 # 2)%Q | Some a => a end in
          let b := match o2 with None => (- (1 # 2))%Q | Some b => b end in
          let d := (inject_Z n - 1 + a - b)%Q in
          if Qeq_bool d 0 then None else Some (w, n, (w / d)%Q, sign, Some a, Some b)
      end
  end.

(* wcsutils.py:279-332 pixelize_1d *)
Definition pixelize_1d (w : Q) (n : option Z) (res : option Q) (offs : option Q * option Q) (periodic adjust : bool) (sign tol eps : Q)
  : option (Q * Q * Z * option Q * option Q) :=
  match resolve w n res (fst offs) (snd offs) adjust sign tol eps with
  | None => None
  | Some (w, n, res, sign, o1, o2) =>
      match (match o1 with
             | Some a => let ra1 := (- w / 2 + a * res)%Q in Some (ra1, (ra1 + (inject_Z n - 1) * res)%Q)
             | None => match o2 with
                       | Some b => let ra2 := (w / 2 + b * res)%Q in Some ((ra2 - (inject_Z n - 1) * res)%Q, ra2)
                       | None => None
                       end
             end) with
      | None => None
      | Some (ra1, ra2) =>
          let '(ra2, n) := if periodic && allclose (ra2 - ra1) w then ((ra2 - res)%Q, n - 1) else (ra2, n) in
          Some ((ra1 * sign)%Q, (ra2 * sign)%Q, n, o1, o2)
      end
  end.

(* wcsutils.py:279: the default values of the last arguments *)
Definition pixelize (w : Q) (n : option Z) (res : option Q) (offs : option Q * option Q) (periodic : bool) :=
  pixelize_1d w n res offs periodic false 1 (1 # 1000000) (1 # 1000000).

(* wcsutils.py:93-101: cdelt and crpix of one axis. None: division by zero, or arithmetic with None *)
Definition axis_wcs (ra1 ra2 : Q) (n : Z) (o1 o2 : option Q) : option (Q * Q) :=
  match o1, o2 with
  | Some a, Some b => if n - 1 =? 0 then None
                      else Some (((ra2 - ra1) / (inject_Z n - 1))%Q, (1 + ((inject_Z n - 1) - b - a) / 2)%Q)
  | _, _ => None
  end.

(* wcsutils.py:69-105 pixelization of a projection with reference value (vx,vy) and the given extent, offsets and
   periodicity; shape = (ny,nx) or res = (x,y). lonpole is not modelled. Line 86-87 passes shape[-2] for both axes and
   periodic[0] for both. *)
Definition pixelization (vx vy : Q) (ex ey : Q) (offx offy : option Q * option Q) (perx pery : bool)
  (shape : option (Z * Z)) (res : option (Q * Q)) : option ((Z * Z) * wcs) :=
  match (match shape, res with
         | None, Some (rx, ry) => Some (pixelize ex None (Some rx) offx perx, pixelize ey None (Some ry) offy pery)
         | Some (ny, nx), None => Some (pixelize ex (Some ny) None offx perx, pixelize ey (Some ny) None offy perx)
         | _, _ => None
         end) with
  | Some (Some (ra1, ra2, nx, ox1, ox2), Some (dec1, dec2, ny, oy1, oy2)) =>
      match axis_wcs ra1 ra2 nx ox1 ox2, axis_wcs dec1 dec2 ny oy1 oy2 with
      | Some (dx, px), Some (dy, py) => Some ((ny, nx), Wcs vx px dx vy py dy)
      | _, _ => None
      end
  | _ => None
  end.
