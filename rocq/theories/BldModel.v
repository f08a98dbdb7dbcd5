(* Models of enmap.geometry and of the constructors of wcsutils it uses, for plain and cylindrical systems. Numbers are real.
   The zenithal systems (arc, sin, zea, air, tan) are not modelled. *)
From Coq Require Import Reals ZArith Bool.
From Verif Require Import BldSpec.
Open Scope R_scope.

Definition floorR (x : R) : Z := Int_part x.
(* np.round: to the nearest whole number, halves to the even one *)
Definition roundR (x : R) : Z :=
  let k := floorR x in
  if Rlt_dec (x - IZR k) (1/2) then k
  else if Rlt_dec (1/2) (x - IZR k) then (k + 1)%Z
  else if Z.even k then k else (k + 1)%Z.
(* x % 1 *)
Definition frac1 (x : R) : R := x - IZR (floorR x).

(* wcslib: the longitude relative to the reference point, brought into -180 .. 180 degrees *)
Definition truncR (x : R) : Z := if Rlt_dec x 0 then (- floorR (- x))%Z else floorR x.
Definition wrap180 (x : R) : R :=
  let r := x - 360 * IZR (truncR (x / 360)) in
  if Rlt_dec 180 r then r - 360 else if Rlt_dec r (-180) then r + 360 else r.
(* wcslib: world2pix of (x,y) = (longitude, latitude), counting pixels from origin *)
Definition w2p_x (w : rwcs) (origin u : R) : R :=
  let d := u - rvx w in
  (match rsys w with Plain => d | _ => wrap180 d end) / rdx w + rpx w - 1 + origin.
Definition w2p_y (w : rwcs) (origin t : R) : R :=
  (height (rsys w) (rlam w) t - rvy w) / rdy w + rpy w - 1 + origin.

(* wcsutils.py:526-552 validate, with rowmajor=True as geometry passes it: the steps along (y,x). diry, dirx is default_dirs *)
Definition expand (pos : posarg) (res : resarg) (diry dirx : R) : R * R :=
  match res with
  | Res2 ry rx => (ry, rx)
  | Res1 r => match pos with Box _ _ _ _ => (r, r) | Centre _ _ => (diry * r, dirx * r) end
  end.
Definition mid (pos : posarg) : R * R :=
  match pos with Centre y x => (y, x) | Box y0 x0 y1 x1 => ((y0 + y1) / 2, (x0 + x1) / 2) end.

Definition set_cdelt (w : rwcs) (dy dx : R) : rwcs := RWcs (rsys w) (rlam w) (rvx w) (rpx w) dx (rvy w) (rpy w) dy.
Definition set_crpix (w : rwcs) (py px : R) : rwcs := RWcs (rsys w) (rlam w) (rvx w) px (rdx w) (rvy w) py (rdy w).

(* wcsutils.py:558-566 the steps. Dividing by an empty shape, and steps of 0, which wcslib refuses, give None. *)
Definition final_cdelt (w : rwcs) (pos : posarg) (res : option (R * R)) (shape : option (Z * Z)) : option rwcs :=
  match res with
  | None =>
      match pos, shape with
      | Box y0 x0 y1 x1, Some (ny, nx) =>
          if (ny =? 0)%Z || (nx =? 0)%Z then None else
          let w := set_cdelt w 1 1 in
          Some (set_cdelt w (1 * ((w2p_y w 1 y1 - w2p_y w 1 y0) / IZR ny)) (1 * ((w2p_x w 1 x1 - w2p_x w 1 x0) / IZR nx)))
      | _, _ => None
      end
  | Some (ry, rx) =>
      match pos with
      | Centre _ _ => Some (set_cdelt w ry rx)
      | Box y0 x0 y1 x1 => Some (set_cdelt w (if Rlt_dec y1 y0 then ry * -1 else ry) (if Rlt_dec x1 x0 then rx * -1 else rx))
      end
  end.
(* wcsutils.py:567-577 the reference pixel, before it is aligned with ref *)
Definition final_crpix (w : rwcs) (pos : posarg) (shape : option (Z * Z)) : rwcs :=
  match pos with
  | Centre y x =>
      match shape with
      | None => w
      | Some (ny, nx) => set_crpix w (IZR ny / 2 + 1/2 - w2p_y w 0 y) (IZR nx / 2 + 1/2 - w2p_x w 0 x)
      end
  | Box y0 x0 _ _ => set_crpix w (rpy w - (w2p_y w 0 y0 + 1/2)) (rpx w - (w2p_x w 0 x0 + 1/2))
  end.
(* wcsutils.py:578-583 *)
Definition final_ref (w : rwcs) (ref : option (R * R)) : rwcs :=
  match ref with
  | None => w
  | Some (dec, ra) => set_crpix w (rpy w - (frac1 (w2p_y w 1 dec + 1/2) - 1/2)) (rpx w - (frac1 (w2p_x w 1 ra + 1/2) - 1/2))
  end.
(* wcsutils.py:554-583 finalize *)
Definition finalize (w : rwcs) (pos : posarg) (res : option (R * R)) (shape : option (Z * Z)) (ref : option (R * R)) : option rwcs :=
  match final_cdelt (set_crpix w 1 1) pos res shape with
  | None => None
  | Some w =>
      if Req_EM_T (rdy w) 0 then None else if Req_EM_T (rdx w) 0 then None else
      Some (final_ref (final_crpix w pos shape) ref)
  end.

(* wcsutils.py:415-451, 516-524 plain, car, cea (with lam left out), mer; build. All in degrees. *)
Definition build (s : system) (pos : posarg) (res : option resarg) (shape : option (Z * Z)) (ref : refarg) : option rwcs :=
  match res, shape with None, None => None | _, _ =>
  let '(my, mx) := mid pos in
  let res := match res with None => None | Some r => Some (expand pos r 1 (match s with Plain => 1 | _ => -1 end)) end in
  let lam := match s with Cea => Rsqr (cos (my * rdeg)) | _ => 1 end in
  let w := RWcs s lam mx 1 1 (match s with Plain => my | _ => 0 end) 1 1 in
  let ref := match ref with NoRef => None | RefAt d r => Some (d, r)
             | Standard => match s with Plain => None | _ => Some (0, 0) end end in
  finalize w pos res shape ref
  end.

Definition scale_pos (k : R) (p : posarg) : posarg :=
  match p with Centre y x => Centre (y * k) (x * k) | Box y0 x0 y1 x1 => Box (y0 * k) (x0 * k) (y1 * k) (x1 * k) end.
Definition scale_res (k : R) (r : resarg) : resarg :=
  match r with Res1 r => Res1 (r * k) | Res2 ry rx => Res2 (ry * k) (rx * k) end.
(* enmap.py:1605-1663 geometry, without pre-dimensions. None: an exception; a centre without a shape is one (pos[0:1,::-1] of a vector). *)
Definition geometry (s : system) (deg force : bool) (ref : refarg) (pos : posarg) (res : option resarg) (shape : option (Z * Z))
  : option ((Z * Z) * rwcs) :=
  let scale := if deg then 1 else 1 / rdeg in
  let pos := scale_pos scale pos in
  let res := match res with None => None | Some r => Some (scale_res scale r) end in
  let ref := match ref with RefAt d r => RefAt (d * scale) (r * scale) | NoRef => if force then NoRef else Standard | Standard => Standard end in
  match build s pos res shape ref with
  | None => None
  | Some w =>
      match shape with
      | Some sh => Some (sh, w)
      | None =>
          match pos with
          | Centre _ _ => None
          | Box y0 x0 y1 x1 =>
              Some ((roundR (Rabs (w2p_y w 0 y1 - w2p_y w 0 y0)), roundR (Rabs (w2p_x w 0 x1 - w2p_x w 0 x0))), w)
          end
      end
  end.
