(* Model of cython/distances_core.c: the bubble and heap distance transforms, the brute force one, the heap and
   the edge finders. Distances are integers: the finite doubles are ordered like a set of integers, and the
   algorithms only compare distances. D j p is the distance of point j from pixel p as the code
   computes it (dist_vincenty_helper). Reading or writing outside an array gives None.
   Pixel numbers computed in 32-bit arithmetic (y*nx+x) are taken not to overflow. *)
From Verif Require Import Base RangeModel AlmModel HpModel.
From Verif Require DistSpec.

(* ---- distances_core.c:48-85 distance_from_points_simple, one pixel; areas holds the index. The loop leaves the
   output untouched when there are no points. ---- *)
Definition simple_pixel (D : Z -> Z) (npoint : Z) (out : Z * Z) : Z * Z :=
  fold_left (fun '(d, a) j => if (j =? 0) || (D j <? d) then (D j, j) else (d, a)) (zrange 0 npoint) out.
Definition distance_from_points_simple (D : Z -> Z -> Z) (npix npoint : Z) (out : list (Z * Z)) : list (Z * Z) :=
  map (fun '(p, o) => simple_pixel (fun j => D j p) npoint o) (combine (zrange 0 npix) out).

(* ---- the growing transforms. A pixel is visited as (y,x); pix gives its number ---- *)
Definition node : Type := Z * Z.
Section Grow.
Context (D : Z -> Z -> Z) (npoint rmax : Z) (pix : node -> option Z) (nbs : node -> option (list node)).
Context {W : Type} (push : W -> Z -> node -> W).
Definition gstate : Type := list Z * list Z * W.

(* distances_core.c:213-226 (flat), 1047-1060 and 1183-1197 (healpix): one neighbour of a pixel with domain ipoint *)
Definition relax (ipoint : Z) (st : gstate) (q : node) : option gstate :=
  let '(dists, domains, w) := st in
  bind (pix q) (fun p2 =>
  bind (zget domains p2) (fun dm =>
  if dm =? ipoint then Some st else
  if (0 <=? ipoint) && (ipoint <? npoint) then
    let cand := D ipoint p2 in
    bind (zget dists p2) (fun d =>
    if (cand <? d) && (cand <? rmax) then
      bind (set_at dists p2 cand) (fun dists => bind (set_at domains p2 ipoint) (fun domains => Some (dists, domains, push w cand q)))
    else Some st)
  else None)).
(* distances_core.c:209-227, 1041-1061, 1177-1198: all neighbours of one pixel *)
Definition visit (st : gstate) (q : node) : option gstate :=
  bind (pix q) (fun p => bind (zget (snd (fst st)) p) (fun ipoint => bind (nbs q) (fun l => ofold (relax ipoint) l st))).
(* distances_core.c:195-203, 1025-1035, 1163-1173: start from the given pixels *)
Definition start_point (st : gstate) (iq : Z * node) : option gstate :=
  let '(dists, domains, w) := st in let '(i, q) := iq in
  bind (pix q) (fun p =>
  let dist := D i p in
  bind (set_at dists p dist) (fun dists => bind (set_at domains p i) (fun domains => Some (dists, domains, push w dist q)))).
Definition start (npix : Z) (w : W) (points : list node) : option gstate :=
  ofold start_point (combine (zrange 0 npoint) points) (repeat rmax (Z.to_nat npix), repeat (-1) (Z.to_nat npix), w).
End Grow.

(* rmax <= 0 means no limit, which is 1e300 in the code and big here *)
Definition rmax_or (big rmax : Z) : Z := if rmax <=? 0 then big else rmax.

(* distances_core.c:168-247 and 997-1071: passes over the most recently changed pixels. None for the fuel
   running out as well as for a fault. *)
Definition vec_push (w : list node) (v : Z) (q : node) : list node := w ++ [q].
Fixpoint bubble_loop (D : Z -> Z -> Z) (npoint rmax : Z) pix nbs (fuel : nat) (st : list Z * list Z * list node) : option (list Z * list Z) :=
  let '(dists, domains, curr) := st in
  match curr with
  | [] => Some (dists, domains)
  | _ => match fuel with
         | O => None
         | S fuel => bind (ofold (visit D npoint rmax pix nbs vec_push) curr (dists, domains, [])) (bubble_loop D npoint rmax pix nbs fuel)
         end
  end.
Definition distance_bubble (D : Z -> Z -> Z) (npix npoint rmax : Z) pix nbs (points : list node) (fuel : nat) : option (list Z * list Z) :=
  bind (start D npoint rmax pix vec_push npix [] points) (bubble_loop D npoint rmax pix nbs fuel).

(* ---- the heap: distances_core.c:1086-1130 ---- *)
Definition hentry : Type := Z * node.
Definition swap_at {A} (l : list A) (i j : Z) : list A :=
  match zget l i, zget l j with Some a, Some b => upd (upd l (Z.to_nat i) b) (Z.to_nat j) a | _, _ => l end.
Definition hval (l : list hentry) (i : Z) : Z := match zget l i with Some e => fst e | None => 0 end.
(* distances_core.c:1109-1114 the while loop of push; i halves in every round *)
Fixpoint sift_up (fuel : nat) (l : list hentry) (i : Z) : list hentry :=
  match fuel with
  | O => l
  | S fuel => if i =? 0 then l else
      let p := i / 2 in
      if hval l p <=? hval l i then l else sift_up fuel (swap_at l i p) p
  end.
(* distances_core.c:1101-1116 pointheap_push *)
Definition pointheap_push (l : list hentry) (e : hentry) : list hentry := sift_up (S (length l)) (l ++ [e]) (zlen l).
(* distances_core.c:1124-1137 the while loop of pop; p grows, except that at the root the first child is the root itself *)
Fixpoint sift_down (fuel : nat) (l : list hentry) (p : Z) : list hentry :=
  match fuel with
  | O => l
  | S fuel => if p <? zlen l / 2 then
      let c1 := 2 * p in let c2 := c1 + 1 in
      if hval l c1 <? hval l p then
        if (zlen l <=? c2) || (hval l c1 <? hval l c2) then sift_down fuel (swap_at l p c1) c1
        else sift_down fuel (swap_at l p c2) c2
      else if (c2 <? zlen l) && (hval l c2 <? hval l p) then sift_down fuel (swap_at l p c2) c2
      else l
    else l
  end.
(* distances_core.c:1117-1139 pointheap_pop; popping from an empty heap is outside the contract *)
Definition pointheap_pop (l : list hentry) : option (hentry * list hentry) :=
  match l with
  | [] => None
  | e :: _ => let last := nth (length l - 1) l e in
      let rest := firstn (length l - 1) (upd l 0 last) in
      Some (e, sift_down (length l) rest 0)
  end.
Definition heap_push (w : list hentry) (v : Z) (q : node) : list hentry := pointheap_push w (v, q).

(* distances_core.c:1133-1207 distance_from_points_heap_healpix *)
Fixpoint heap_loop (D : Z -> Z -> Z) (npoint rmax : Z) pix nbs (fuel : nat) (st : list Z * list Z * list hentry) : option (list Z * list Z) :=
  let '(dists, domains, heap) := st in
  match heap with
  | [] => Some (dists, domains)
  | _ => match fuel with
         | O => None
         | S fuel => bind (pointheap_pop heap) (fun '(e, heap) =>
             bind (visit D npoint rmax pix nbs heap_push (dists, domains, heap) (snd e)) (heap_loop D npoint rmax pix nbs fuel))
         end
  end.
Definition distance_heap (D : Z -> Z -> Z) (npix npoint rmax : Z) pix nbs (points : list node) (fuel : nat) : option (list Z * list Z) :=
  bind (start D npoint rmax pix heap_push npix [] points) (heap_loop D npoint rmax pix nbs fuel).

(* ---- the two pixelizations ---- *)
(* distances_core.c:10-13, 214-217: offsets and wrapping on a ny x nx map; the first four offsets are used *)
Definition flat_pix (ny nx : Z) (q : node) : option Z := Some (fst q * nx + snd q).
Definition flat_nbs (ny nx : Z) (q : node) : option (list node) :=
  Some (map (fun '(dy, dx) =>
    let y2 := fst q + dy in let x2 := snd q + dx in
    (if y2 <? 0 then y2 + ny else if ny <=? y2 then y2 - ny else y2,
     if x2 <? 0 then x2 + nx else if nx <=? x2 then x2 - nx else x2)) [(0, -1); (0, 1); (-1, 0); (1, 0)]).
(* distances_core.c:1028, 1043-1048 *)
Definition hp_pix (geo : hpinfo) (q : node) : option Z := bind (zget (hp_off geo) (fst q)) (fun o => Some (o + snd q)).
Definition hp_nbs (geo : hpinfo) (q : node) : option (list node) := get_healpix_neighs geo (fst q) (snd q).

(* distances_core.c:168 distance_from_points_bubble and 249 ..._separable *)
Definition distance_from_points_bubble (D : Z -> Z -> Z) (big ny nx npoint rmax : Z) (points : list node) (fuel : nat) :=
  distance_bubble D (ny * nx) npoint (rmax_or big rmax) (flat_pix ny nx) (flat_nbs ny nx) points fuel.
(* distances_core.c:997 *)
Definition distance_from_points_bubble_healpix (D : Z -> Z -> Z) (big : Z) (geo : hpinfo) (npoint rmax : Z) (points : list node) (fuel : nat) :=
  distance_bubble D (hp_npix geo) npoint (rmax_or big rmax) (hp_pix geo) (hp_nbs geo) points fuel.
(* distances_core.c:1133 *)
Definition distance_from_points_heap_healpix (D : Z -> Z -> Z) (big : Z) (geo : hpinfo) (npoint rmax : Z) (points : list node) (fuel : nat) :=
  distance_heap D (hp_npix geo) npoint (rmax_or big rmax) (hp_pix geo) (hp_nbs geo) points fuel.

(* ---- edges ---- *)
(* for(i = a; i < b; i += s), for s > 0 *)
Definition c_range (a b s : Z) : list Z := map (fun k => a + s * k) (zrange 0 ((b - a + s - 1) / s)).
(* distances_core.c:1209-1231 find_edges; zero i: mask[i] == 0, differ i k: mask[k] != 0 *)
Definition edges_of (own : Z -> bool) (differ : Z -> Z -> bool) (ny nx : Z) : list Z :=
  filter own (zrange 0 nx) ++ filter own (zrange ((ny - 1) * nx) (ny * nx)) ++
  filter own (c_range nx (ny * nx) nx) ++ filter own (c_range (nx - 1) (ny * nx) nx) ++
  flat_map (fun y => filter (fun i => own i && (differ i (i - 1) || differ i (i + 1) || differ i (i - nx) || differ i (i + nx)))
                            (map (fun x => y * nx + x) (zrange 1 (nx - 1)))) (zrange 1 (ny - 1)).
Definition mget (mask : list Z) (i : Z) : Z := match zget mask i with Some v => v | None => 0 end.
Definition find_edges (ny nx : Z) (mask : list Z) : list Z :=
  edges_of (fun i => mget mask i =? 0) (fun _ k => negb (mget mask k =? 0)) ny nx.
(* distances_core.c:1233-1256 find_edges_labeled *)
Definition find_edges_labeled (ny nx : Z) (labels : list Z) : list Z :=
  edges_of (fun i => negb (mget labels i =? 0)) (fun i k => negb (mget labels k =? mget labels i)) ny nx.
(* distances_core.c:1258-1288 find_edges_healpix, 1290-1319 find_edges_labeled_healpix: the (y,x) of each edge pixel. None: a fault *)
Definition hp_edges (geo : hpinfo) (own : Z -> bool) (differ : Z -> Z -> bool) : option (list node) :=
  ofold (fun out q =>
    bind (get_healpix_neighs geo (fst q) (snd q)) (fun nb =>
    bind (hp_pix geo q) (fun i =>
    if own i then
      bind (all_some (map (hp_pix geo) nb)) (fun ks => Some (if existsb (differ i) ks then out ++ [q] else out))
    else Some out)))
    (flat_map (fun y => match zget (hp_nx geo) y with Some w => map (fun x => (y, x)) (zrange 0 w) | None => [] end) (zrange 0 (hp_ny geo))) [].
Definition find_edges_healpix (geo : hpinfo) (mask : list Z) : option (list node) :=
  hp_edges geo (fun i => mget mask i =? 0) (fun _ k => negb (mget mask k =? 0)).
Definition find_edges_labeled_healpix (geo : hpinfo) (labels : list Z) : option (list node) :=
  hp_edges geo (fun i => negb (mget labels i =? 0)) (fun i k => negb (mget labels k =? mget labels i)).

(* a history of pushes and pops on a heap: the final heap and the popped entries in order. None: popped when empty *)
Fixpoint heap_run (ops : list (DistSpec.qop hentry)) (l : list hentry) : option (list hentry * list hentry) :=
  match ops with
  | [] => Some (l, [])
  | DistSpec.QPush e :: ops => heap_run ops (pointheap_push l e)
  | DistSpec.QPop :: ops => bind (pointheap_pop l) (fun '(e, l) => bind (heap_run ops l) (fun '(l, out) => Some (l, e :: out)))
  end.
