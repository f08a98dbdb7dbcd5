(* Model of the HEALPix bookkeeping: cython/distances_core.c 785-831, 954-995, 1321-1365 and
   curvedsky.py get_ring_info_healpix. Angles are not modelled, only the integer tables.
   C ints are 32 bit and inum is 64 bit; an int expression that overflows is undefined
   behaviour and gives None here. *)
From Coq Require Import ZArith List Lia.
From Verif Require Import Base RangeModel.
Import ListNotations.
Local Open Scope Z_scope.

Record hpinfo := HP { hp_nside : Z; hp_npix : Z; hp_ncap : Z; hp_ny : Z; hp_nx : list Z; hp_off : list Z; hp_shift : list Z }.

(* a C int expression *)
Definition cint (v : Z) : option Z := if (- 2 ^ 31 <=? v) && (v <? 2 ^ 31) then Some v else None.
Definition bind {A B} (o : option A) (f : A -> option B) : option B := match o with Some a => f a | None => None end.
Definition all_some {A} : list (option A) -> option (list A) :=
  fold_right (fun o acc => match o, acc with Some a, Some l => Some (a :: l) | _, _ => None end) (Some []).

(* distances_core.c:785-831 build_healpix_info: three loops that each append rings in order. The
   last one reads back entries written by the first two. ra0, dec, cos_dec, sin_dec are left out. *)
Definition build_healpix_info (nside : Z) : option hpinfo :=
  bind (cint (2 * nside)) (fun t => bind (cint (t * (nside + 1))) (fun ncap =>
  bind (cint (4 * nside - 1)) (fun ny =>
  let npix := 12 * nside * nside in
  let nx1 := map (fun y => 4 * (y + 1)) (zrange 0 nside) in
  let off1 := map (fun y => 2 * y * (y + 1)) (zrange 0 nside) in
  let sh1 := map (fun _ => 1) (zrange 0 nside) in
  let nx2 := map (fun _ => 4 * nside) (zrange nside (3 * nside - 1)) in
  let off2 := map (fun y => ncap + 4 * nside * (y - nside)) (zrange nside (3 * nside - 1)) in
  let sh2 := map (fun y => Z.land (y - nside) 1) (zrange nside (3 * nside - 1)) in
  let south := zrange (3 * nside - 1) (4 * nside - 1) in
  bind (all_some (map (fun y => zget (nx1 ++ nx2) (4 * nside - 2 - y)) south)) (fun nx3 =>
  bind (all_some (map (fun y => bind (zget (off1 ++ off2) (4 * nside - 2 - y)) (fun o =>
                                bind (zget (nx1 ++ nx2) (4 * nside - 2 - y)) (fun w => Some (npix - o - w)))) south)) (fun off3 =>
  bind (all_some (map (fun y => zget (sh1 ++ sh2) (4 * nside - 2 - y)) south)) (fun sh3 =>
  Some (HP nside npix ncap ny (nx1 ++ nx2 ++ nx3) (off1 ++ off2 ++ off3) (sh1 ++ sh2 ++ sh3)))))))).

(* distances_core.c:990-994 the final loop of get_healpix_neighs *)
Definition hp_wrap (geo : hpinfo) (q : Z * Z) : option (Z * Z) :=
  bind (zget (hp_nx geo) (fst q)) (fun w =>
  Some (fst q, if snd q <? 0 then snd q + w else if w <=? snd q then snd q - w else snd q)).

(* distances_core.c:954-995 get_healpix_neighs, as (y,x) pairs in the order NW NE SW SE *)
Definition get_healpix_neighs (geo : hpinfo) (y x : Z) : option (list (Z * Z)) :=
  let n := hp_nside geo in
  bind
    (if (n <=? y) && (y <? 3 * n - 1) then
       bind (zget (hp_shift geo) y) (fun sh =>
       if sh =? 0 then Some [(y-1, x-1); (y-1, x); (y+1, x-1); (y+1, x)]
       else Some [(y-1, x); (y-1, x+1); (y+1, x); (y+1, x+1)])
     else
       bind (zget (hp_nx geo) y) (fun w =>
       let sw := Z.quot w 4 in
       let left := Z.rem x sw =? 0 in
       let right := Z.rem (x + 1) sw =? 0 in
       let s := Z.quot x sw in
       if y <? n then Some
         [ (if left then (y, x-1) else (y-1, x-1-s));
           (if right then (y, x+1) else (y-1, x+0-s));
           (y+1, if y =? n-1 then x else x+s);
           (y+1, if y =? n-1 then x+1 else x+1+s) ]
       else Some
         [ (y-1, if y =? 3*n-1 then x else x+s);
           (y-1, if y =? 3*n-1 then x+1 else x+1+s);
           (if left then (y, x-1) else (y+1, x-1-s));
           (if right then (y, x+1) else (y+1, x+0-s)) ]))
    (fun qs => all_some (map (hp_wrap geo) qs)).

(* distances_core.c:1321-1329 isqrt. fsqrt x stands for (inum)sqrt(x+0.5) in floating point. *)
Definition isqrt (fsqrt : Z -> Z) (x : Z) : Z :=
  let res := fsqrt x in
  if 2 ^ 50 <? x then (if x <? res * res then res - 1 else if (res + 1) * (res + 1) <=? x then res + 1 else res) else res.
(* distances_core.c:1331-1344 pix2y_healpix *)
Definition pix2y_healpix (fsqrt : Z -> Z) (geo : hpinfo) (pix : Z) : Z :=
  let pix2 := hp_npix geo - 1 - pix in
  if pix <? hp_ncap geo then Z.quot (-1 + isqrt fsqrt (1 + 2 * pix)) 2
  else if pix2 <? hp_ncap geo then 4 * hp_nside geo - 2 - Z.quot (-1 + isqrt fsqrt (1 + 2 * pix2)) 2
  else hp_nside geo + Z.quot (pix - hp_ncap geo) (4 * hp_nside geo).
(* distances_core.c:1346-1353 ravel_healpix; iterations write disjoint elements *)
Definition ravel_healpix (geo : hpinfo) (pix2d : list (Z * Z)) : option (list Z) :=
  all_some (map (fun q => bind (zget (hp_off geo) (fst q)) (fun o => Some (o + snd q))) pix2d).
(* distances_core.c:1355-1364 unravel_healpix *)
Definition unravel_healpix (fsqrt : Z -> Z) (geo : hpinfo) (pix1d : list Z) : option (list (Z * Z)) :=
  all_some (map (fun p => let y := pix2y_healpix fsqrt geo p in
                          bind (zget (hp_off geo) y) (fun o => Some (y, p - o))) pix1d).

(* utils.py:736 cumsum without endpoint *)
Fixpoint excl_sum (a : Z) (l : list Z) : list Z := match l with [] => [] | x :: l => a :: excl_sum (a + x) l end.
(* curvedsky.py:1163-1196 get_ring_info_healpix: nphi, offsets and whether phi0 is non-zero. rings=None is
   the list of all rings. The masked assignments through np.where are written per ring. *)
Definition get_ring_info_healpix (nside : Z) (rings : option (list Z)) : list Z * list Z * list Z :=
  let rings := match rings with None => zrange 0 (4 * nside - 1) | Some r => r end in
  let rings := map (fun r => r + 1) rings in
  let northrings := map (fun r => if 2 * nside <? r then 4 * nside - r else r) rings in
  let nphi := map (fun r => if r <? nside then 4 * r else 4 * nside) northrings in
  let half := map (fun r => if r <? nside then 1 else if Z.land (r - nside) 1 =? 0 then 1 else 0) northrings in
  (nphi, excl_sum 0 nphi, half).
