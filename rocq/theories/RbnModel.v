(* Models of enmap.py rbin, lbin and _bin_helper for a map with one component, with exact real numbers. The map of
   distances (modrmap, enmap.py:1218-1228) or wavenumbers (modlmap, 1206-1212) is a parameter. *)
From Coq Require Import Reals.
From Verif Require Import Base ArrModel RdsModel.
Open Scope R_scope.

(* python int(x): towards zero; enmap.py:2491. np.floor: utils.py:2660-2662 *)
Definition pyint (x : R) : Z := if Rle_dec 0 x then Int_part x else (- Int_part (- x))%Z.
Definition npfloor (x : R) : Z := Int_part x.

(* np.max; of nothing it raises *)
Definition rmax (l : list R) : option R := match l with [] => None | x :: l => Some (fold_left Rmax l x) end.
(* np.bincount with and without weights, at index b *)
Definition bincount_at (inds : list Z) (b : Z) : Z := zlen (filter (fun i => (i =? b)%Z) inds).
Definition bincount_w (inds : list Z) (ws : list R) (b : Z) : R :=
  fold_right (fun iw acc => if (fst iw =? b)%Z then snd iw + acc else acc) 0 (combine inds ws).
(* numpy: x/n where n may be 0; x is 0 then *)
Definition per_hit (x : R) (n : Z) : option R := if (n =? 0)%Z then None else Some (x / IZR n).

Record binned := BND { bn_vals : list (option R); bn_rads : list (option R); bn_nhit : list Z; bn_edges : list R }.

(* enmap.py:2485-2508 _bin_helper. bn_edges is the list edges of 2505, of which orads gets the two halves with return_bins *)
Definition bin_helper (m r : farr R) (bsize : R) : option binned :=
  match rmax (map (fun x => x / bsize) (ravel r)) with
  | None => None
  | Some top =>
      let n := pyint top in
      let rinds := map (fun x => npfloor (x / bsize)) (ravel r) in
      if forallb (fun i => (0 <=? i)%Z) rinds then (* np.bincount raises for negative indices *)
        let nhit := map (bincount_at rinds) (zrange 0 n) in
        let avg w := map (fun b => per_hit (bincount_w rinds w b) (bincount_at rinds b)) (zrange 0 n) in
        Some (BND (avg (ravel m)) (avg (ravel r)) nhit (map (fun k => IZR k * bsize) (zrange 0 (n + 1))))
      else None
  end.

(* enmap.py:2463-2476 rbin. ext is map.extent() *)
Definition rbin (m r : farr R) (ext : R * R) (bsize : option R) (brel : R) (rop : option (farr R -> farr R)) : option binned :=
  let r := match rop with Some f => f r | None => r end in
  let bsize := match bsize with Some b => b | None => Rmin (fst ext / IZR (f_ny m)) (snd ext / IZR (f_nx m)) end in
  bin_helper m r (bsize * brel).

(* enmap.py:2478-2483 lbin *)
Definition lbin (m l : farr R) (bsize : option R) (brel : R) (lop : option (farr R -> farr R)) : option binned :=
  let l := match lop with Some f => f l | None => l end in
  match bsize with
  | Some b => bin_helper m l (b * brel)
  | None => if ((f_ny l <=? 1) || (f_nx l <=? 1))%Z then None
            else bin_helper m l (Rmin (Rabs (f_at l 0 1)) (Rabs (f_at l 1 0)) * brel)
  end.
