(* Model of cython/srcsim_core.c. Positions, distances, bounding box estimates and profile interpolation enter as
   parameters; sums are exact. Reading or writing outside an array gives None. *)
From Coq Require Import QArith.
From Verif Require Import Base RangeModel AlmModel HpModel.
Local Open Scope Z_scope.

(* ---- srcsim_core.c:429-430 mod and floor_div ---- *)
Definition cmod (a b : Z) : Z := let c := Z.rem a b in if c <? 0 then c + b else c.
Definition floor_div (a b : Z) : Z := let c := Z.quot a b in if a <? c * b then c - 1 else c.
(* srcsim_core.c:434-442 pixbox2cellbox, one axis *)
Definition pixbox2cellbox (lo hi csize : Z) : Z * Z := (floor_div lo csize, floor_div (hi - 1) csize + 1).
(* srcsim_core.c:445-453 wrap_box, one axis *)
Definition wrap_box (lo hi n : Z) : Z * Z := let h := hi - lo in let h := if n <? h then n else h in let lo := cmod lo n in (lo, lo + h).

(* ---- srcsim_core.c:337-427 assign_cells. boxes: what estimate_bounding_box gave for each object. The
   result lists the active cells as (box, objects) ---- *)
Definition box4 : Type := Z * Z * Z * Z.
Definition cell_box (csize ncy ncx : Z) (b : box4) : box4 := let '(y1, y2, x1, x2) := b in
  let '(cy1, cy2) := pixbox2cellbox y1 y2 csize in let '(cx1, cx2) := pixbox2cellbox x1 x2 csize in
  let '(cy1, cy2) := wrap_box cy1 cy2 ncy in let '(cx1, cx2) := wrap_box cx1 cx2 ncx in (cy1, cy2, cx1, cx2).
Definition register (ncy ncx : Z) (cells : list (list Z)) (ob : Z * box4) : option (list (list Z)) :=
  let '(oi, (cy1, cy2, cx1, cx2)) := ob in
  ofold (fun cells '(cy, cx) =>
    let cyw := if ncy <=? cy then cy - ncy else cy in
    let cxw := if ncx <=? cx then cx - ncx else cx in
    let ci := cyw * ncx + cxw in
    bind (zget cells ci) (fun l => set_at cells ci (l ++ [oi])))
    (list_prod (zrange cy1 cy2) (zrange cx1 cx2)) cells.
Definition cell_lists (ny nx csize : Z) (boxes : list box4) : option (list (list Z)) :=
  let ncy := Z.quot (ny + csize - 1) csize in let ncx := Z.quot (nx + csize - 1) csize in
  ofold (register ncy ncx) (combine (zrange 0 (zlen boxes)) (map (cell_box csize ncy ncx) boxes)) (repeat [] (Z.to_nat (ncy * ncx))).
Definition cell_pixbox (ny nx csize ncx ci : Z) : box4 :=
  let cy := Z.quot ci ncx in let cx := Z.rem ci ncx in
  (cy * csize, (if ny <? (cy + 1) * csize then ny else (cy + 1) * csize), cx * csize, (if nx <? (cx + 1) * csize then nx else (cx + 1) * csize)).
Definition assign_cells (ny nx csize : Z) (boxes : list box4) : option (list (box4 * list Z)) :=
  let ncx := Z.quot (nx + csize - 1) csize in
  bind (cell_lists ny nx csize boxes) (fun cells =>
  Some (flat_map (fun '(ci, l) => match l with [] => [] | _ => [(cell_pixbox ny nx csize ncx ci, l)] end) (combine (zrange 0 (zlen cells)) cells))).

(* ---- srcsim_core.c:455-521 process_cell without transpose, 590-605 merge_cell, with the map updated in place
   (srcsim.pyx:85 passes the map twice). One component. The cell is copied out, each object is merged into it pixel by pixel, and it is
   copied back, so a pixel sees only its own value: here pixel by pixel. paint o y x is amplitude times profile ---- *)
Definition box_pixels (b : box4) : list (Z * Z) := let '(y1, y2, x1, x2) := b in list_prod (zrange y1 y2) (zrange x1 x2).
Definition process_cell {A} (op : A -> A -> A) (paint : Z -> Z -> Z -> A) (nx : Z) (m : list A) (cell : box4 * list Z) : option (list A) :=
  ofold (fun m '(y, x) => bind (zget m (y * nx + x)) (fun v => set_at m (y * nx + x) (fold_left (fun v o => op v (paint o y x)) (snd cell) v)))
        (box_pixels (fst cell)) m.
(* srcsim_core.c:206-209: the cells are handed out in some order *)
Definition sim_objects {A} (op : A -> A -> A) (paint : Z -> Z -> Z -> A) (nx : Z) (order : list (box4 * list Z)) (m : list A) : option (list A) :=
  ofold (process_cell op paint nx) order m.
(* srcsim_core.c:590-605 *)
Definition merge_add (t s : Z) : Z := t + s.
Definition merge_max (t s : Z) : Z := if t <? s then s else t.
Definition merge_min (t s : Z) : Z := if s <? t then s else t.

(* ---- srcsim_core.c:491-501, 561-587 with transpose: one cell adds to the amplitudes of its objects ---- *)
Definition transpose_cell (prof : Z -> Z -> Z -> Z) (nx : Z) (m : list Z) (amps : list Z) (cell : box4 * list Z) : option (list Z) :=
  ofold (fun amps obj =>
    bind (ofold (fun a '(y, x) => bind (zget m (y * nx + x)) (fun v => Some (a + v * prof obj y x))) (box_pixels (fst cell)) 0) (fun amp =>
    bind (zget amps obj) (fun a0 => set_at amps obj (a0 + amp)))) (snd cell) amps.
(* srcsim_core.c:190-204, 773-782: every thread has its own zeroed amplitudes, which are added up at the end. The cells
   each thread gets are given by threads *)
Definition sim_transpose (prof : Z -> Z -> Z -> Z) (nx nobj : Z) (threads : list (list (box4 * list Z))) (m amps : list Z) : option (list Z) :=
  ofold (fun amps cells =>
    bind (ofold (transpose_cell prof nx m) cells (repeat 0 (Z.to_nat nobj))) (fun work =>
    Some (map (fun '(a, w) => a + w) (combine amps work)))) threads amps.

(* ---- profiles: srcsim_core.c:247-312, one profile. vs holds absolute values. vlim li stands for vmax*powf(10,-li), level vrel for
   ceil(-log10 vrel) ---- *)
Definition qlt (a b : Q) : bool := negb (Qle_bool b a).
Fixpoint scan (fuel : nat) (vs : list Q) (lim : Q) (stop i : Z) : Z :=
  match fuel with
  | O => i
  | S fuel => if (stop <? i) && match zget vs i with Some v => qlt v lim | None => false end then scan fuel vs lim stop (i - 1) else i
  end.
Definition prof_peak (vs : list Q) : Z * Q :=
  fold_left (fun '(imax, vmax) ri => match zget vs ri with Some v => if qlt vmax v then (ri, v) else (imax, vmax) | None => (imax, vmax) end)
    (zrange 1 (zlen vs)) (0, match zget vs 0 with Some v => v | None => 0%Q end).
Definition prof_levels : Z := 11.
Definition build_prof_info (vs : list Q) (tenth : Z -> Q) : list Z :=
  let '(imax, vmax) := prof_peak vs in
  let '(_, inner) := fold_left (fun '(ri, acc) li => let ri := scan (length vs) vs (vmax * tenth li)%Q imax ri in (ri, ri :: acc))
    (map (fun k => prof_levels - 2 - k) (zrange 0 (prof_levels - 2))) (zlen vs - 1, []) in
  1 :: inner ++ [zlen vs].
Definition prof_info_lookup (info : list Z) (level : Q -> Z) (vrel : Q) : option Z :=
  let ind := level vrel in
  zget info (if ind <? 0 then 0 else if prof_levels <=? ind then prof_levels - 1 else ind).
(* srcsim_core.c:305-309 measure_rmax, the index whose radius is returned; a negative index reads before the array *)
Definition rmax_index (vs : list Q) (vrel : Q) (info : option (list Z)) (level : Q -> Z) : option Z :=
  bind (match info with Some info => bind (prof_info_lookup info level vrel) (fun k => Some (k - 1)) | None => Some (zlen vs - 1) end) (fun i =>
  let i := scan (length vs) vs vrel 0 i in
  if (0 <=? i) && (i <? zlen vs) then Some i else None).

(* ---- searching: srcsim_core.c:618-638 ---- *)
Fixpoint bs_loop (fuel : nat) (rs : list Z) (r a b : Z) : option Z :=
  if a + 1 <? b then
    match fuel with
    | O => None
    | S fuel => let c := (a + b) / 2 in bind (zget rs c) (fun v => if r <? v then bs_loop fuel rs r a c else bs_loop fuel rs r c b)
    end
  else Some a.
Definition binary_search (n : Z) (rs : list Z) (r : Z) : option Z :=
  bind (zget rs 0) (fun r0 => if r <? r0 then Some (-1) else
  bind (zget rs (n - 1)) (fun rn => if rn <=? r then Some n else bs_loop (Z.to_nat n) rs r 0 (n - 1))).
(* (int) of a non-negative quotient rounds down; rs[1] > 0 and r >= 0 *)
Definition equi_search (n : Z) (rs1 r : Q) : Z :=
  let i := Qround.Qfloor (r / rs1) in
  if i <? 0 then -1 else if Qle_bool (inject_Z n) r then n else i.

(* ---- srcsim_core.c:792-850 radial_sum, one object and one component. find y x is the search result for the pixel's
   distance, box the object's pixel box ---- *)
Definition radial_sum (ny nx nbin : Z) (find : Z -> Z -> option Z) (box : box4) (m bins : list Z) : option (list Z) :=
  let '(y1, y2, x1, x2) := box in
  let '(y1, y2) := wrap_box y1 y2 ny in let '(x1, x2) := wrap_box x1 x2 nx in
  ofold (fun bins '(y_, x_) =>
    let y := if ny <=? y_ then y_ - ny else y_ in
    let x := if nx <=? x_ then x_ - nx else x_ in
    bind (find y x) (fun i =>
    if (i <? 0) || (nbin <=? i) then Some bins else
    bind (zget bins i) (fun b => bind (zget m (y * nx + x)) (fun v => set_at bins i (b + v)))))
    (list_prod (zrange y1 y2) (zrange x1 x2)) bins.
