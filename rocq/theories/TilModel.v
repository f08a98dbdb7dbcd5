(* Models of tilemap.py. Pixels have type A, which stands for all the pre-dimensions of a pixel;
   broadcasting between different pre-dimensions is not modelled. *)
From Verif Require Import Base TilSpec SliceSpec ArrModel BlockModel RangeModel WindModel CatModel BinSpec.
From Verif Require FindModel.

(* tilemap.py:340-352: the attributes of a TileGeometry; wcs is not needed here *)
Record tgeo := TG { tg_ny : Z; tg_nx : Z; tg_th : Z; tg_tw : Z; tg_active : list Z; tg_lookup : list Z }.
(* tilemap.py:323-324 *)
Definition tg_gy (g : tgeo) : Z := (tg_ny g + tg_th g - 1) / tg_th g.
Definition tg_gx (g : tgeo) : Z := (tg_nx g + tg_tw g - 1) / tg_tw g.
Definition ntile (g : tgeo) : Z := tg_gy g * tg_gx g.
(* tilemap.py:326-330, one entry of tile_shapes *)
Definition tile_h (g : tgeo) (ty : Z) : Z := if ty =? tg_gy g - 1 then Z.min (tg_th g) ((tg_ny g - 1) mod tg_th g + 1) else tg_th g.
Definition tile_w (g : tgeo) (tx : Z) : Z := if tx =? tg_gx g - 1 then Z.min (tg_tw g) ((tg_nx g - 1) mod tg_tw g + 1) else tg_tw g.
Definition tile_shapes (g : tgeo) : list (Z * Z) :=
  flat_map (fun ty => map (fun tx => (tile_h g ty, tile_w g tx)) (zrange 0 (tg_gx g))) (zrange 0 (tg_gy g)).
(* tilemap.py:332 *)
Definition npixs (g : tgeo) : list Z := map (fun s => fst s * snd s) (tile_shapes g).

(* lookup[active] = np.arange(len(active)); None: IndexError. Later entries overwrite earlier ones *)
Fixpoint set_lookup (lookup : list Z) (k : Z) (active : list Z) : option (list Z) :=
  match active with
  | [] => Some lookup
  | a :: rest =>
    let i := if a <? 0 then a + zlen lookup else a in
    if (0 <=? i) && (i <? zlen lookup) then set_lookup (upd lookup (Z.to_nat i) k) (k + 1) rest else None
  end.
(* tilemap.py:314-339 geometry; None: an exception (no tiles, or an active tile out of bounds) *)
Definition geometry (ny nx th tw : Z) (active : list Z) : option tgeo :=
  if (th =? 0) || (tw =? 0) then None else
  let g := TG ny nx th tw active [] in
  if (tg_gy g <=? 0) || (tg_gx g <=? 0) then None else
  match set_lookup (repeat (-1) (Z.to_nat (ntile g))) 0 active with
  | Some l => Some (TG ny nx th tw active l)
  | None => None
  end.
(* tilemap.py:353-360 *)
Definition grid2ind (g : tgeo) (ty tx : Z) : Z := ty * tg_gx g + tx.
Definition ind2grid (g : tgeo) (i : Z) : Z * Z := (i / tg_gx g, i mod tg_gx g).
(* tilemap.py:399-410 geo.tiles[i]: the corner and shape of tile i *)
Definition geo_tile (g : tgeo) (i : Z) : Z * Z * Z * Z :=
  let '(ty, tx) := ind2grid g i in
  let y1 := ty * tg_th g in let x1 := tx * tg_tw g in
  let y2 := Z.min (y1 + tg_th g) (tg_ny g) in let x2 := Z.min (x1 + tg_tw g) (tg_nx g) in
  (y1, x1, py_len (sl y1 y2) (tg_ny g), py_len (sl x1 x2) (tg_nx g)).

(* tilemap.py:361-376 copy *)
Definition copy_active (g : tgeo) (active : list Z) : option tgeo :=
  match set_lookup (repeat (-1) (Z.to_nat (ntile g))) 0 active with
  | Some l => Some (TG (tg_ny g) (tg_nx g) (tg_th g) (tg_tw g) active l)
  | None => None
  end.
Definition copy_add (g : tgeo) (add : list Z) : option tgeo :=
  match FindModel.pygather (tg_lookup g) add with
  | None => None
  | Some found =>
    let active := tg_active g ++ map fst (filter (fun p => snd p <? 0) (combine add found)) in
    match set_lookup (tg_lookup g) 0 active with
    | Some l => Some (TG (tg_ny g) (tg_nx g) (tg_th g) (tg_tw g) active l)
    | None => None
    end
  end.

(* tilemap.py:44-70: a TileMap, the pixels of the active tiles one after the other *)
Record tmap (A : Type) := TM { tm_geo : tgeo; tm_data : list A }.
Arguments TM {A}. Arguments tm_geo {A}. Arguments tm_data {A}.
(* npixs[active] *)
Definition act_npix (g : tgeo) : option (list Z) := FindModel.pygather (npixs g) (tg_active g).
(* tilemap.py:4-7 zeros *)
Definition tm_zeros {A} (zero : A) (g : tgeo) : option (tmap A) :=
  match act_npix g with Some n => Some (TM g (repeat zero (Z.to_nat (zsum n)))) | None => None end.
(* tilemap.py:150-154 and 183-184: the pixels of active tile ai, shaped like tile gi. None: the reshape fails *)
Definition tile_at {A} (tm : tmap A) (ai gi : Z) : option (tile A) :=
  match act_npix (tm_geo tm) with
  | None => None
  | Some n =>
    match zget (cumsum_end n) ai, zget (cumsum_end n) (ai + 1), geo_tile (tm_geo tm) gi with
    | Some a, Some b, (y, x, h, w) =>
      let px := psl (tm_data tm) a b in if zlen px =? h * w then Some (Tile y x h w px) else None
    | _, _, _ => None
    end
  end.
(* tilemap.py:159-187 TileView.__getitem__ with an integer: active_tiles[i] and tiles[i]. Outer None: an exception;
   tiles[i] returns Some None, python's None, for an inactive tile *)
Definition get_active {A} (tm : tmap A) (i : Z) : option (tile A) :=
  match pyget (tg_active (tm_geo tm)) i with
  | None => None
  | Some gi => if (i <? 0) || (zlen (tg_active (tm_geo tm)) <=? i) then None else tile_at tm i gi
  end.
Definition get_tile {A} (tm : tmap A) (i : Z) : option (option (tile A)) :=
  match pyget (tg_lookup (tm_geo tm)) i with
  | None => None
  | Some ai => if ai <? 0 then Some None
               else if zlen (tg_active (tm_geo tm)) <=? ai then None else option_map Some (tile_at tm ai i)
  end.
(* tilemap.py:188-209 TileView.__setitem__ for tiles[i] = val, with val of the shape of the tile; the write goes through the view *)
Definition set_tile {A} (tm : tmap A) (i : Z) (val : list A) : option (tmap A) :=
  match pyget (tg_lookup (tm_geo tm)) i, act_npix (tm_geo tm) with
  | Some ai, Some n =>
    if ai <? 0 then None else
    match zget (cumsum_end n) ai, zget (cumsum_end n) (ai + 1), geo_tile (tm_geo tm) i with
    | Some a, Some b, (_, _, h, w) =>
      if (zlen (psl (tm_data tm) a b) =? h * w) && (zlen val =? h * w) then Some (TM (tm_geo tm) (write_at (tm_data tm) a val)) else None
    | _, _, _ => None
    end
  | _, _ => None
  end.
(* tilemap.py:33-42 from_active_tiles; the shapes of the tiles are not compared with the geometry *)
Definition from_active_tiles {A} (zero : A) (tiles : list (list A)) (g : tgeo) : option (tmap A) :=
  if negb (zlen tiles =? zlen (tg_active g)) then None
  else if zlen tiles =? 0 then tm_zeros zero g else Some (TM g (concat tiles)).
(* tilemap.py:19-31 from_tiles *)
Fixpoint split_tiles {A} (gi : Z) (tiles : list (option (list A))) : list Z * list (list A) :=
  match tiles with
  | [] => ([], [])
  | t :: rest => let '(act, ts) := split_tiles (gi + 1) rest in match t with None => (act, ts) | Some px => (gi :: act, px :: ts) end
  end.
Definition from_tiles {A} (zero : A) (tiles : list (option (list A))) (g : tgeo) : option (tmap A) :=
  let '(active, ts) := split_tiles 0 tiles in
  match copy_active g active with Some g' => from_active_tiles zero ts g' | None => None end.

(* np.all(a == b) for integer arrays. Equal lengths compare elementwise; a length-1 array is broadcast; for other
   lengths numpy before 1.25 says False and later versions raise (newnp) *)
Definition np_all_eq (newnp : bool) (a b : list Z) : option bool :=
  if zlen a =? zlen b then Some (forallb (fun p => fst p =? snd p) (combine a b))
  else match a, b with
       | [x], _ => Some (forallb (fun y => x =? y) b)
       | _, [y] => Some (forallb (fun x => x =? y) a)
       | _, _ => if newnp then None else Some false
       end.
(* tilemap.py:111-133 with_tiles *)
Definition with_tiles {A} (zero : A) (newnp : bool) (tm : tmap A) (active : list Z) (strict : bool) : option (tmap A) :=
  match np_all_eq newnp active (tg_active (tm_geo tm)) with
  | None => None
  | Some true => Some tm
  | Some false =>
    match (if strict then copy_active (tm_geo tm) active else copy_add (tm_geo tm) active) with
    | None => None
    | Some g =>
      match tm_zeros zero g with
      | None => None
      | Some res0 =>
        fold_left (fun res gi =>
          match res, pyget (tg_lookup (tm_geo tm)) gi with
          | Some res, Some ai => if 0 <=? ai then match get_active tm ai with Some t => set_tile res gi (t_px t) | None => None end else Some res
          | _, _ => None
          end) (tg_active g) (Some res0)
      end
    end
  end.

(* tilemap.py:382-394 compatible *)
Definition compatible (g h : tgeo) : Z :=
  if negb ((tg_ny g =? tg_ny h) && (tg_nx g =? tg_nx h)) then 0
  else if negb ((tg_th g =? tg_th h) && (tg_tw g =? tg_tw h)) then 0
  else if (zlen (tg_active g) =? zlen (tg_active h)) && forallb (fun p => fst p =? snd p) (combine (tg_active g) (tg_active h)) then 2
  else 1.
(* out.tiles[gi] = op(out.tiles[gi], other.tiles[gi]); op on None raises *)
Definition tile_op {A} (op : A -> A -> A) (other : tmap A) (out : option (tmap A)) (gi : Z) : option (tmap A) :=
  match out with
  | None => None
  | Some out =>
    match get_tile out gi, get_tile other gi with
    | Some (Some a), Some (Some b) => set_tile out gi (map2 op (t_px a) (t_px b))
    | _, _ => None
    end
  end.
(* tilemap.py:231-278 make_binop; both maps have the same pre-dimensions *)
Definition binop {A} (zero : A) (op : A -> A -> A) (self other : tmap A) : option (tmap A) :=
  let c := compatible (tm_geo self) (tm_geo other) in
  if c =? 0 then None
  else if c =? 1 then
    let oact := FindModel.np_unique (tg_active (tm_geo self) ++ tg_active (tm_geo other)) in
    match geometry (tg_ny (tm_geo self)) (tg_nx (tm_geo self)) (tg_th (tm_geo self)) (tg_tw (tm_geo self)) oact with
    | None => None
    | Some ogeo =>
      let out := fold_left (fun out gi =>
        match out, get_tile self gi with Some out, Some (Some t) => set_tile out gi (t_px t) | _, _ => None end)
        (tg_active (tm_geo self)) (tm_zeros zero ogeo) in
      fold_left (tile_op op other) (tg_active (tm_geo other)) out
    end
  else Some (TM (tm_geo self) (map2 op (tm_data self) (tm_data other))).
Definition ibinop {A} (op : A -> A -> A) (self other : tmap A) : option (tmap A) :=
  let c := compatible (tm_geo self) (tm_geo other) in
  if c =? 0 then None
  else if c =? 1 then
    match FindModel.pygather (tg_lookup (tm_geo self)) (tg_active (tm_geo other)) with
    | None => None
    | Some found => if existsb (fun a => a <? 0) found then None else fold_left (tile_op op other) (tg_active (tm_geo other)) (Some self)
    end
  else Some (TM (tm_geo self) (map2 op (tm_data self) (tm_data other))).

(* a tile as a 2d array *)
Definition tile_arr {A} (zero : A) (t : tile A) : farr A := FA (t_h t) (t_w t) (fun y x => nth (Z.to_nat (y * t_w t + x)) (t_px t) zero).
(* tilemap.py:416-427 to_enmap *)
Definition to_enmap {A} (zero : A) (tm : tmap A) : option (farr A) :=
  let g := tm_geo tm in
  fold_left (fun om ai =>
    match om, get_active tm ai, zget (tg_active g) ai with
    | Some om, Some t, Some gi =>
      let '(gy, gx) := ind2grid g gi in
      let y1 := gy * tg_th g in let y2 := Z.min ((gy + 1) * tg_th g) (f_ny om) in
      let x1 := gx * tg_tw g in let x2 := Z.min ((gx + 1) * tg_tw g) (f_nx om) in
      set2 om (sl y1 y2) (sl x1 x2) (tile_arr zero t)
    | _, _, _ => None
    end) (zrange 0 (zlen (tg_active g))) (full2 (tg_ny g) (tg_nx g) zero).

(* -- mpi: what all ranks do together. A list has one entry per rank -- *)
(* tilemap.py:441-442: the mask of the active tiles *)
Definition act_mask (g : tgeo) : option (list bool) :=
  match FindModel.pygather (repeat tt (Z.to_nat (ntile g))) (tg_active g) with
  | Some _ => Some (map (fun gi => existsb (fun a => (if a <? 0 then a + ntile g else a) =? gi) (tg_active g)) (zrange 0 (ntile g)))
  | None => None
  end.
Definition all_some {A} (l : list (option A)) : option (list A) := fold_right (fun o r => match o, r with Some x, Some r => Some (x :: r) | _, _ => None end) (Some []) l.
(* np.array_split(l, n)[k]: the first len mod n pieces are one longer *)
Definition array_split {A} (l : list A) (n k : Z) : list A :=
  let q := zlen l / n in let r := zlen l mod n in
  psl l (k * q + Z.min k r) ((k + 1) * q + Z.min (k + 1) r).
(* tilemap.py:446-449: the tiles given to each rank if none are asked for *)
Definition auto_active (nt : Z) (masks : list (list bool)) (rank : Z) : list Z :=
  array_split (filter (fun gi => existsb (fun m => nth (Z.to_nat gi) m false) masks) (zrange 0 nt)) (zlen masks) rank.
(* oflat[off:off+n] += data *)
Definition add_at {A} (add : A -> A -> A) (buf : list A) (off : Z) (data : list A) : list A :=
  write_at buf off (map2 add (psl buf off (off + zlen data)) data).
(* mask[rank][active[k]] *)
Definition owned (mask : list bool) (gi : Z) : bool := nth (Z.to_nat gi) mask false.
(* tilemap.py:456-466: the segment of the send buffer of im that goes to the rank with mask omask, and its size *)
Definition send_seg {A} (im : tmap A) (omask : list bool) : option (list A) :=
  match act_npix (tm_geo im) with
  | None => None
  | Some isizes =>
    Some (concat (map (fun p : Z * Z => let '(k, gi) := p in
            if owned omask gi then psl (tm_data im) (znth (cumsum_end isizes) k) (znth (cumsum_end isizes) k + znth isizes k) else [])
          (combine (zrange 0 (zlen isizes)) (tg_active (tm_geo im)))))
  end.
(* tilemap.py:467-473: mpi's Alltoallv delivers to one rank, in rank order, the segments the ranks have for it;
   a segment of another size than expected is an error *)
Definition recv_buf {A} (imaps : list (tmap A)) (imasks : list (list bool)) (og : tgeo) (omask : list bool) : option (list A) :=
  match act_npix og, all_some (map (fun im => send_seg im omask) imaps) with
  | Some osizes, Some segs =>
    let sizes := map (fun m => zsum (map2 (fun gi n => if owned m gi then n else 0) (tg_active og) osizes)) imasks in
    if forallb (fun p : Z * list A => fst p =? zlen (snd p)) (combine sizes segs) then Some (concat segs) else None
  | _, _ => None
  end.
(* tilemap.py:474-481: add what was received into the output tiles *)
Definition unpack {A} (zero : A) (add : A -> A -> A) (imasks : list (list bool)) (og : tgeo) (osizes : list Z) (rbuf : list A) : list A :=
  fst (fold_left (fun (st : list A * Z) (p : list bool * Z) =>
    let '(m, k) := p in let '(oflat, off) := st in
    if owned m (znth (tg_active og) k) then
      (add_at add oflat (znth (cumsum_end osizes) k) (psl rbuf off (off + znth osizes k)), off + znth osizes k)
    else st) (list_prod imasks (zrange 0 (zlen osizes))) (repeat zero (Z.to_nat (zsum osizes)), 0)).
(* tilemap.py:433-484 redistribute, for all ranks: imaps their input maps, ogeos the geometries of their output maps;
   what the output maps contained is overwritten *)
Definition redist {A} (zero : A) (add : A -> A -> A) (imaps : list (tmap A)) (ogeos : list tgeo) : option (list (tmap A)) :=
  match all_some (map (fun im => act_mask (tm_geo im)) imaps), all_some (map act_mask ogeos) with
  | Some imasks, Some omasks =>
    all_some (map (fun p : tgeo * list bool => let '(og, omask) := p in
      match act_npix og, recv_buf imaps imasks og omask with
      | Some osizes, Some rbuf => Some (TM og (unpack zero add imasks og osizes rbuf))
      | _, _ => None
      end) (combine ogeos omasks))
  | _, _ => None
  end.
(* tilemap.py:445-451: without omap; actives is what each rank passes, if anything *)
Definition redistribute {A} (zero : A) (add : A -> A -> A) (imaps : list (tmap A)) (actives : option (list (list Z))) : option (list (tmap A)) :=
  match all_some (map (fun im => act_mask (tm_geo im)) imaps) with
  | None => None
  | Some imasks =>
    let acts := match actives with
                | Some l => l
                | None => map (fun p : Z * tmap A => auto_active (ntile (tm_geo (snd p))) imasks (fst p)) (combine (zrange 0 (zlen imaps)) imaps)
                end in
    match all_some (map (fun p : tmap A * list Z => copy_active (tm_geo (fst p)) (snd p)) (combine imaps acts)) with
    | None => None
    | Some ogeos => redist zero add imaps ogeos
    end
  end.
(* tilemap.py:510-514 get_active_distributed: the same for all ranks *)
Definition active_distributed (nt : Z) (masks : list (list bool)) : list Z := filter (fun gi => existsb (fun m => owned m gi) masks) (zrange 0 nt).
(* tilemap.py:516-524 reduce *)
Definition reduce {A} (zero : A) (add : A -> A -> A) (imaps : list (tmap A)) (root : Z) : option (list (tmap A)) :=
  match all_some (map (fun im => act_mask (tm_geo im)) imaps) with
  | None => None
  | Some masks =>
    redistribute zero add imaps (Some (map (fun p : Z * tmap A =>
      if fst p =? root then active_distributed (ntile (tm_geo (snd p))) masks else []) (combine (zrange 0 (zlen imaps)) imaps)))
  end.
