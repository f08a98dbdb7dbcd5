(* Model of enmap.py: distance_transform, labeled_distance_transform, distance_from, grow_mask, shrink_mask, apod_mask.
   A mask or map of labels is the list of its ny*nx values in row-major order, 0 for False. Leading dimensions are
   processed one map at a time by the code and left out. A point is the number of its pixel: pix2sky is exact.
   df, d: the distance search of the distances extension and the distance of pixel centres; df is given the points, the
   limit if there is one, and a pixel, and returns the distance and the point found or the limit and -1. *)
From Verif Require Import Base DistModel.
From Coq Require Import Reals.
Open Scope Z_scope.

(* distances_core.c:48-85 distance_from_points_simple, for real distances, with the limit as distances_core.c applies it in the
   other methods (initial distance rmax, domain -1, replaced by a point that is closer) *)
Definition simple_from (d : Z -> Z -> R) (pts : list Z) (lim : option R) (p : Z) : R * Z :=
  let '(_, best) := fold_left (fun '(k, best) q =>
      (k + 1, match best with
              | None => match lim with
                        | Some r => if Rlt_dec (d p q) r then Some (d p q, k) else None
                        | None => Some (d p q, k)
                        end
              | Some (v, _) => if Rlt_dec (d p q) v then Some (d p q, k) else best
              end)) pts (0, None) in
  match best with Some b => b | None => match lim with Some r => (r, -1) | None => (0%R, -1) end end.

Section Masks.
Variables (ny nx : Z) (df : list Z -> option R -> Z -> R * Z).

(* enmap.py:2114-2163 distance_from, at pixel p. The C code takes rmax <= 0 as no limit (distances_core.c:183,261,642;
   distances.pyx:173,213,263 pass 0 for rmax=None). None: infinite *)
Definition distance_from (pts : list Z) (rmax : option R) (p : Z) : option R * Z :=
  match pts with
  | nil => (rmax, -1)
  | _ => let lim := match rmax with Some r => if Rle_dec r 0 then None else Some r | None => None end in
         let '(v, k) := df pts lim p in (Some v, k)
  end.

(* enmap.py:2081-2092 distance_transform at pixel p. An infinite distance is multiplied by True only *)
Definition distance_transform (mask : list Z) (rmax : option R) (p : Z) : option R :=
  let o := fst (distance_from (find_edges ny nx mask) rmax p) in
  if mget mask p =? 0 then Some 0%R else o.

(* enmap.py:2094-2112 labeled_distance_transform at pixel p: distance and label *)
Definition labeled_distance_transform (labels : list Z) (rmax : option R) (p : Z) : option R * Z :=
  let edges := find_edges_labeled ny nx labels in
  let '(v, k) := distance_from edges rmax p in
  let label := if 0 <=? k then mget labels (mget edges k) else 0 in
  (if mget labels p =? 0 then v else Some 0%R, label).

(* the comparisons of a possibly infinite distance with r *)
Definition lt_r (v : option R) (r : R) : bool := match v with Some v => if Rlt_dec v r then true else false | None => false end.
Definition b2z (b : bool) : Z := if b then 1 else 0.
Definition mnot (mask : list Z) : list Z := map (fun v => b2z (v =? 0)) mask.
(* enmap.py:2234-2236 grow_mask *)
Definition grow_mask (mask : list Z) (r : R) : list Z :=
  map (fun p => b2z (lt_r (distance_transform (mnot mask) (Some r) p) r)) (zrange 0 (ny * nx)).
(* enmap.py:2238-2240 shrink_mask *)
Definition shrink_mask (mask : list Z) (r : R) : list Z :=
  map (fun p => b2z (negb (lt_r (distance_transform mask (Some r) p) r))) (zrange 0 (ny * nx)).

(* enmap.py:2436-2440: the border of the map made False *)
Definition drop_edge (mask : list Z) : list Z :=
  map (fun p => if (p / nx =? 0) || (p / nx =? ny - 1) || (p mod nx =? 0) || (p mod nx =? nx - 1) then 0 else mget mask p)
      (zrange 0 (ny * nx)).
(* enmap.py:2428-2429 apod_profile_lin, apod_profile_cos *)
Definition apod_profile_lin (x : R) : R := x.
Definition apod_profile_cos (x : R) : R := (0.5 * (1 - cos (PI * x)))%R.
(* enmap.py:2431-2442 apod_mask at pixel p. None: not a number *)
Definition apod_mask (mask : list Z) (width : R) (edge : bool) (profile : R -> R) (p : Z) : option R :=
  let m := if edge then drop_edge mask else mask in
  match distance_transform m (Some width) p with
  | Some r => if Req_EM_T width 0 then None else Some (profile (r / width)%R)
  | None => None
  end.
End Masks.
