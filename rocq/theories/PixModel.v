(* Models of enmap.py: extract_pixbox, insert_at, extract, insert, pad, padslice, find_blank_edges, autocrop. *)
From Coq Require Import Qabs.
From Verif Require Import Base SliceSpec SliceModel SboxSpec SboxModel WindModel ArrModel.

(* utils.py:1671-1673 sbox2slice for one axis *)
Definition sbox2slice (x : sbox) : pyslice :=
  let '(a, b, s) := x in PS (Some a) (if 0 <=? b then Some b else None) (Some s).

(* enmap.py:689-694: the wrap lengths {y,x}. plain is wcsutils.is_plain(iwcs); None stands for wrap="auto" *)
Definition nphi (w : wcs) (nx : Z) : Z :=
  let n := qround (360 / Qabs (cdelt_x w)) in n * ((n + nx - 1) / n).
Definition wrap_lens (w : wcs) (nx : Z) (plain : bool) (wrap : option (Z * Z)) : Z * Z :=
  match wrap with
  | Some w => w
  | None => if plain then (0, 0) else (0, nphi w nx)
  end.

(* enmap.py:696-699: one turn of the loop over the pieces; state: (map, omap) *)
Definition ep_step {A} (op : A -> A -> A) (reverse : bool) (st : option (farr A * farr A)) (piece : list sbox * list sbox)
  : option (farr A * farr A) :=
  match st, piece with
  | Some (im, om), ([iy; ix], [oy; ox]) =>
      let iy := sbox2slice iy in let ix := sbox2slice ix in let oy := sbox2slice oy in let ox := sbox2slice ox in
      if reverse then
        match zip2 op (get2 im iy ix) (get2 om oy ox) with
        | None => None
        | Some v => match set2 im iy ix v with None => None | Some im => Some (im, om) end
        end
      else
        match zip2 op (get2 om oy ox) (get2 im iy ix) with
        | None => None
        | Some v => match set2 om oy ox v with None => None | Some om => Some (im, om) end
        end
  | _, _ => None
  end.

(* enmap.py:677-703 extract_pixbox with iwcs=None, recenter=False; the box is given as one sbox per axis.
   Returns the map and omap as they are afterwards. *)
Definition extract_pixbox {A} (m : fmap A) (box : sbox * sbox) (omap : option (fmap A)) (plain : bool) (wrap : option (Z * Z))
    (op : A -> A -> A) (cval : A) (reverse : bool) : option (fmap A * fmap A) :=
  let '(by_, bx) := box in
  let ny := f_ny (fm_arr m) in let nx := f_nx (fm_arr m) in
  let omap :=
    match omap with
    | Some o => Some o
    | None =>
        let sel (b : sbox) := let '(x, y, s) := b in PS (Some x) (Some y) (Some s) in
        let '((oy, ox), w) := slice_geometry (ny, nx) (fm_wcs m) (sel by_, sel bx) true in
        match full2 oy ox cval with None => None | Some a => Some (FM a w) end
    end in
  match omap with
  | None => None
  | Some o =>
      let '(wy, wx) := wrap_lens (fm_wcs m) nx plain wrap in
      match sbox_wrap [(by_, wy, ny); (bx, wx, nx)] with
      | None => None
      | Some pieces =>
          match fold_left (ep_step op reverse) pieces (Some (fm_arr m, fm_arr o)) with
          | None => None
          | Some (im, om) => Some (FM im (fm_wcs m), FM om (fm_wcs o))
          end
      end
  end.

(* enmap.py:711-718 insert_at with pix=[y,x] *)
Definition insert_at {A} (m : fmap A) (y x : Z) (im : fmap A) (plain : bool) (wrap : option (Z * Z)) (op : A -> A -> A) : option (fmap A) :=
  match extract_pixbox m ((y, y + f_ny (fm_arr im), 1), (x, x + f_nx (fm_arr im), 1)) (Some im) plain wrap op (f_at (fm_arr im) 0 0) true with
  | None => None
  | Some (m, _) => Some m
  end.

(* enmap.py:639-651 pixbox_of, the compatibility check aside *)
Definition pixbox_of (iw : wcs) (oshape : Z * Z) (ow : wcs) : sbox * sbox :=
  let ox := qround ((crpix_x iw - crpix_x ow) - (crval_x iw - crval_x ow) / cdelt_x iw)%Q in
  let oy := qround ((crpix_y iw - crpix_y ow) - (crval_y iw - crval_y ow) / cdelt_y iw)%Q in
  ((oy, oy + fst oshape, 1), (ox, ox + snd oshape, 1)).

(* enmap.py:653-675 extract, omap=None, reverse=False *)
Definition extract {A} (m : fmap A) (shape : Z * Z) (w : wcs) (plain : bool) (wrap : option (Z * Z)) (cval : A) : option (fmap A) :=
  match extract_pixbox m (pixbox_of (fm_wcs m) shape w) None plain wrap (fun _ b => b) cval false with
  | None => None
  | Some (_, o) => Some (FM (fm_arr o) w)
  end.

(* enmap.py:705-709 insert *)
Definition insert {A} (m im : fmap A) (plain : bool) (op : A -> A -> A) : option (fmap A) :=
  match extract_pixbox m (pixbox_of (fm_wcs m) (f_ny (fm_arr im), f_nx (fm_arr im)) (fm_wcs im)) (Some im) plain None op (f_at (fm_arr im) 0 0) true with
  | None => None
  | Some (m, _) => Some m
  end.

Definition crpix_add (w : wcs) (dy dx : Z) : wcs :=
  Wcs (crval_x w) (crpix_x w + inject_Z dx)%Q (cdelt_x w) (crval_y w) (crpix_y w + inject_Z dy)%Q (cdelt_y w).

(* slices of the form -a: and -a:-b, where -0 is 0 *)
Definition sl_from (a : Z) : pyslice := PS (Some a) None None.
Definition sl_to (b : Z) : pyslice := PS None (Some b) None.
Definition sl_all : pyslice := PS None None None.

Definition bind {A B} (x : option A) (f : A -> option B) : option B := match x with Some x => f x | None => None end.

(* enmap.py:2242-2265 pad with pix=[[y0,x0],[y1,x1]]; returns the padded map and the slice of the original in it *)
Definition pad {A} (m : fmap A) (y0 x0 y1 x1 : Z) (wrap : bool) (value : A) : option (fmap A * (pyslice * pyslice)) :=
  let w := crpix_add (fm_wcs m) y0 x0 in
  let ny := f_ny (fm_arr m) + (y0 + y1) in let nx := f_nx (fm_arr m) + (x0 + x1) in
  let sy := sl y0 (ny - y1) in let sx := sl x0 (nx - x1) in
  bind (full2 ny nx value) (fun r =>
  bind (set2 r sy sx (fm_arr m)) (fun r =>
  if wrap then
    bind (set2 r (sl_to y0) sl_all (get2 r (sl (- y0 - y1) (- y1)) sl_all)) (fun r =>
    bind (set2 r (sl_from (- y1)) sl_all (get2 r (sl y0 (y0 + y1)) sl_all)) (fun r =>
    bind (set2 r sl_all (sl_to x0) (get2 r sl_all (sl (- x0 - x1) (- x1)))) (fun r =>
    bind (set2 r sl_all (sl_from (- x1)) (get2 r sl_all (sl x0 (x0 + x1)))) (fun r =>
    Some (FM r w, (sy, sx))))))
  else Some (FM r w, (sy, sx)))).

(* enmap.py:125-143 m[sy,sx] for two slices *)
Definition getmap {A} (m : fmap A) (sy sx : pyslice) : fmap A :=
  FM (get2 (fm_arr m) sy sx) (snd (slice_geometry (f_ny (fm_arr m), f_nx (fm_arr m)) (fm_wcs m) (sy, sx) false)).

(* enmap.py:2514-2529 padslice with an integer box [[y0,x0],[y1,x1]] *)
Definition padslice {A} (m : fmap A) (y0 x0 y1 x1 : Z) (default : A) : option (fmap A) :=
  let ny := f_ny (fm_arr m) in let nx := f_nx (fm_arr m) in
  let w := crpix_add (fm_wcs m) (- y0) (- x0) in
  let cl n v := Z.max 0 (Z.min n v) in
  let oy := cl ny y0 - y0 in let ox := cl nx x0 - x0 in
  let wy := cl ny y1 - cl ny y0 in let wx := cl nx x1 - cl nx x0 in
  bind (full2 (y1 - y0) (x1 - x0) default) (fun r =>
  bind (set2 r (sl oy (oy + wy)) (sl ox (ox + wx)) (get2 (fm_arr m) (sl (cl ny y0) (cl ny y1)) (sl (cl nx x0) (cl nx x1)))) (fun r =>
  Some (FM r w))).

(* enmap.py:2286-2296: np.where(~hit)[0][[0,-1]] for the rows or columns, then [1] = n-last-1 *)
Definition blank_ends (hit : list bool) : option (Z * Z) :=
  let n := zlen hit in
  match filter (fun k => match zget hit k with Some b => negb b | None => false end) (zrange 0 n) with
  | [] => None
  | f :: r => Some (f, n - last (f :: r) 0 - 1)
  end.
(* enmap.py:2280-2296 find_blank_edges for a given value; blank tells if a pixel is close to it *)
Definition find_blank_edges {A} (m : farr A) (blank : A -> bool) : option ((Z * Z) * (Z * Z)) :=
  let hitrows := map (fun y => forallb (fun x => blank (f_at m y x)) (zrange 0 (f_nx m))) (zrange 0 (f_ny m)) in
  let hitcols := map (fun x => forallb (fun y => blank (f_at m y x)) (zrange 0 (f_ny m))) (zrange 0 (f_nx m)) in
  match blank_ends hitrows, blank_ends hitcols with
  | Some (y0, y1), Some (x0, x1) => Some ((y0, y1), (x0, x1))
  | _, _ => None
  end.
(* which pixels count as blank: those close to a value, "none", or "auto" with the four edge medians *)
Inductive blank_mode (A : Type) := BValue (b : A -> bool) | BNone | BAuto (bs : list (A -> bool)).
Arguments BValue {A}. Arguments BNone {A}. Arguments BAuto {A}.
(* the values the caller allows to count as blank *)
Definition blank_choice {A} (v : blank_mode A) : list (A -> bool) := match v with BValue b => [b] | BNone => [] | BAuto bs => bs end.
Fixpoint all_blank {A} (m : farr A) (bs : list (A -> bool)) : option (list ((Z * Z) * (Z * Z))) :=
  match bs with
  | [] => Some []
  | b :: bs => bind (find_blank_edges m b) (fun r => bind (all_blank m bs) (fun rs => Some (r :: rs)))
  end.
Definition blank_score (b : (Z * Z) * (Z * Z)) : Z := let '((y0, y1), (x0, x1)) := b in (y0 + y1) * (x0 + x1).
(* bs[np.argmax(nb)]: the first with the largest score *)
Fixpoint best_blank (b : (Z * Z) * (Z * Z)) (l : list ((Z * Z) * (Z * Z))) : (Z * Z) * (Z * Z) :=
  match l with [] => b | c :: l => best_blank (if blank_score b <? blank_score c then c else b) l end.
(* enmap.py:2267-2296 *)
Definition blanks_of {A} (m : farr A) (v : blank_mode A) : option ((Z * Z) * (Z * Z)) :=
  match v with
  | BValue b => find_blank_edges m b
  | BNone => Some ((0, 0), (0, 0))
  | BAuto bs => bind (all_blank m bs) (fun l => match l with [] => None | b :: l => Some (best_blank b l) end)
  end.

(* enmap.py:2297-2336 autocrop. good is the identity for method="plain" and fft_len(.,"above") for "fft".
   zero is what pad fills with. *)
Definition autocrop {A} (m : fmap A) (good : Z -> Z) (v : blank_mode A) (margin : Z) (zero : A) : option (fmap A) :=
  bind (blanks_of (fm_arr m) v) (fun b =>
  let '((by0, by1), (bx0, bx1)) := b in
  let ny := f_ny (fm_arr m) in let nx := f_nx (fm_arr m) in
  let gy := good (ny - (by0 + by1) + margin) in let gx := good (nx - (bx0 + bx1) + margin) in
  let ay := Z.max 0 (gy - ny) in let ax := Z.max 0 (gx - nx) in
  bind (if (0 <? ay) || (0 <? ax) then option_map fst (pad m ay ax 0 0 false zero) else Some m) (fun m =>
  let by0 := by0 + ay in let bx0 := bx0 + ax in
  let ny := f_ny (fm_arr m) in let nx := f_nx (fm_arr m) in
  let cy := ny - gy in let cx := nx - gx in
  let ly := Z.min cy by0 in let lx := Z.min cx bx0 in
  Some (getmap m (sl ly (ny - (cy - ly))) (sl lx (nx - (cx - lx)))))).
