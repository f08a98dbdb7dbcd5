(* Model of enmap.py padtiles / Padtiler for a pair (imap read-iterated, omap write-iterated). *)
From Verif Require Import Base SliceSpec SliceModel SboxSpec SboxModel ArrModel PixModel.

(* enmap.py:3329-3330: self.wy[k] with overlap ol = 2*pad *)
Definition ramp (ol k : Z) : Q := (inject_Z (k + 1) / inject_Z (ol + 1))%Q.

(* numpy: tile[s,:] *= w[:,None] and tile[:,s] *= w[None,:] *)
Definition scale_rows (t : farr Q) (s : pyslice) (w : Z -> Q) : farr Q :=
  FA (f_ny t) (f_nx t) (fun y x => match sl_find s (f_ny t) y with Some i => (f_at t y x * w i)%Q | None => f_at t y x end).
Definition scale_cols (t : farr Q) (s : pyslice) (w : Z -> Q) : farr Q :=
  FA (f_ny t) (f_nx t) (fun y x => match sl_find s (f_nx t) x with Some j => (f_at t y x * w j)%Q | None => f_at t y x end).

(* enmap.py:3361-3364 the crossfade weights *)
Definition crossfade (t : farr Q) (oly olx ty tx nty ntx : Z) : farr Q :=
  let t := if 0 <? ty then scale_rows t (sl_to oly) (ramp oly) else t in
  let t := if 0 <? tx then scale_cols t (sl_to olx) (ramp olx) else t in
  let t := if ty <? nty - 1 then scale_rows t (sl_from (f_ny t - oly)) (fun i => ramp oly (oly - 1 - i)) else t in
  if tx <? ntx - 1 then scale_cols t (sl_from (f_nx t - olx)) (fun j => ramp olx (olx - 1 - j)) else t.

(* enmap.py:3341 number of tiles along an axis *)
Definition ntile (n t : Z) : Z := (n + t - 1) / t.

(* enmap.py:3344-3366 one turn of both iterators. user gives the values the caller writes to otile from itile. The
   next read happens before this turn's write (zip2 advances the read iterator first), which makes no difference for
   two different maps. tshape, pad, margin are (y,x) pairs. *)
Definition pad_turn (tsh pd mg : Z * Z) (user : Z -> farr Q -> farr Q) (imap : fmap Q) (iplain oplain : bool) (omap : fmap Q) (ti : Z) : option (fmap Q) :=
  let nty := ntile (f_ny (fm_arr omap)) (fst tsh) in let ntx := ntile (f_nx (fm_arr omap)) (snd tsh) in
  let ty := ti / ntx in let tx := ti mod ntx in
  let gy := fst pd + fst mg in let gx := snd pd + snd mg in
  let box := ((ty * fst tsh - gy, (ty + 1) * fst tsh + gy, 1), (tx * snd tsh - gx, (tx + 1) * snd tsh + gx, 1)) in
  bind (extract_pixbox imap box None iplain None (fun _ b => b) 0%Q false) (fun r =>
  let itile := snd r in
  bind (extract_pixbox omap box None oplain None (fun _ b => b) 0%Q false) (fun r =>
  let otile := snd r in
  (* the user's otile[:] = ... *)
  let otile := FM (FA (f_ny (fm_arr otile)) (f_nx (fm_arr otile)) (f_at (user ti (fm_arr itile)))) (fm_wcs otile) in
  let tile := getmap otile (sl (fst mg) (f_ny (fm_arr otile) - fst mg)) (sl (snd mg) (f_nx (fm_arr otile) - snd mg)) in
  insert omap (FM (crossfade (fm_arr tile) (2 * fst pd) (2 * snd pd) ty tx nty ntx) (fm_wcs tile)) oplain Qplus)).

(* python: range(start, stop, step) for step > 0 *)
Definition pyrange (start stop step : Z) : list Z := map (fun k => start + step * k) (zrange 0 ((stop - start + step - 1) / step)).

(* enmap.py:3249-3366 padtiles(imap, omap, tshape, pad, margin, mode="rw", start, step), run to its end *)
Definition padtiles (tsh pd mg : Z * Z) (start step : Z) (user : Z -> farr Q -> farr Q) (imap : fmap Q) (iplain oplain : bool) (omap : fmap Q) : option (fmap Q) :=
  fold_left (fun st ti => bind st (fun om => pad_turn tsh pd mg user imap iplain oplain om ti))
    (pyrange start (ntile (f_ny (fm_arr omap)) (fst tsh) * ntile (f_nx (fm_arr omap)) (snd tsh)) step) (Some omap).

(* the docstring's "for itile, otile in padtiles(imap, imap)": every turn reads the map being written; a single tile,
   so that the order of reads and writes does not matter *)
Definition padtiles_same1 (tsh pd mg : Z * Z) (user : Z -> farr Q -> farr Q) (m : fmap Q) (plain : bool) : option (fmap Q) :=
  pad_turn tsh pd mg user m plain plain m 0.
