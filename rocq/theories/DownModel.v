(* Model of enmap.downgrade/upgrade and the geometry versions, for two-dimensional maps. *)
From Verif Require Import Base SliceSpec SliceModel BlockModel.

(* op(array, axis=-2): op down each of the nx columns *)
Definition colop {A} (dflt : A) (op : list A -> A) (nx : Z) (rows : list (list A)) : list A :=
  map (fun x => op (map (fun r => match zget r x with Some v => v | None => dflt end) rows)) (zrange 0 nx).

Fixpoint sequence {A} (l : list (option A)) : option (list A) :=
  match l with
  | [] => Some []
  | None :: _ => None
  | Some x :: l => match sequence l with Some r => Some (x :: r) | None => None end
  end.

(* length of the rows of a 2-d array *)
Definition row_len {A} (rows : list (list A)) : Z := match rows with [] => 0 | r :: _ => zlen r end.

(* wcs.wcs.crpix += (dx,dy) *)
Definition wcs_shift (w : wcs) (dx dy : Q) : wcs :=
  Wcs (crval_x w) (crpix_x w + dx) (cdelt_x w) (crval_y w) (crpix_y w + dy) (cdelt_y w).

Definition qb (b : bool) : Q := if b then 1%Q else 0%Q.

(* pixell/enmap.py:1988-2006 downgrade with op=np.mean, on a 2-d map with exact values. factor=(fy,fx),
   off=(oy,ox); off is what the caller passes or get_downgrade_offset (1984-1986) returns. The maps are
   taken to have at least one row and column (numpy's pre.size tests look at the whole array). *)
Definition downgrade (m : ndmap Q) (fy fx oy ox : Z) (incl : bool) : option (ndmap Q) :=
  if (fy =? 1) && (fx =? 1) then Some m else
  match block_reduce (colop 0%Q qmean (nm_nx m)) (nm_arr m) fy oy incl with
  | None => None
  | Some rows =>
    match sequence (map (fun r => block_reduce qmean r fx ox incl) rows) with
    | None => None
    | Some out =>
      let w := nm_wcs (getitem m (PS (Some oy) None (Some fy), PS (Some ox) None (Some fx))) in
      Some (NdMap (zlen out) (row_len out) out (wcs_shift w (qb ((0 <? ox) && incl)) (qb ((0 <? oy) && incl))))
    end
  end.

(* pixell/enmap.py:2031-2035, one axis of the wcs update of upgrade *)
Definition up_axis (crpix cdelt : Q) (f off : Z) (incl : bool) : Q * Q :=
  (((crpix - ((1 # 2) + qb ((0 <? off) && incl))) * inject_Z f + ((1 # 2) + inject_Z off))%Q, (cdelt / inject_Z f)%Q).

(* pixell/enmap.py:2026: the default output length of an axis *)
Definition up_len (n f off : Z) (incl : bool) : Z := (n - (if (0 <? off) && incl then 1 else 0)) * f + off.

(* pixell/enmap.py:2027-2036 upgrade of a 2-d map to the output shape (ny,nx) *)
Definition upgrade_to (m : ndmap Q) (fy fx oy ox : Z) (incl : bool) (ny nx : Z) : option (ndmap Q) :=
  match block_expand (repeat 0%Q (Z.to_nat (nm_nx m))) (nm_arr m) fy ny oy incl with
  | None => None
  | Some rows =>
    match sequence (map (fun r => block_expand 0%Q r fx nx ox incl) rows) with
    | None => None
    | Some out =>
      let w := nm_wcs m in
      let '(px, dx) := up_axis (crpix_x w) (cdelt_x w) fx ox incl in
      let '(py, dy) := up_axis (crpix_y w) (cdelt_y w) fy oy incl in
      Some (NdMap (zlen out) (row_len out) out (Wcs (crval_x w) px dx (crval_y w) py dy))
    end
  end.

(* pixell/enmap.py:2019-2036 upgrade of a 2-d map without explicit oshape *)
Definition upgrade (m : ndmap Q) (fy fx oy ox : Z) (incl : bool) : option (ndmap Q) :=
  upgrade_to m fy fx oy ox incl (up_len (nm_ny m) fy oy incl) (up_len (nm_nx m) fx ox incl).

(* pixell/wcsutils.py:188-204 scale, corner=True (default) or False, factors sx, sy *)
Definition wcs_scale (w : wcs) (sx sy : Q) (corner : bool) : wcs :=
  let c := if corner then (1 # 2)%Q else 0%Q in
  Wcs (crval_x w) ((crpix_x w - c) * sx + c) (cdelt_x w / sx) (crval_y w) ((crpix_y w - c) * sy + c) (cdelt_y w / sy).

(* pixell/enmap.py:2038-2046 downgrade_geometry *)
Definition downgrade_geometry (ny nx : Z) (w : wcs) (fy fx : Z) : (Z * Z) * wcs :=
  ((ny / fy, nx / fx), wcs_scale w (1 / inject_Z fx) (1 / inject_Z fy) true).
