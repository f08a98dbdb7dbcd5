(* Specification vocabulary for source painting and radial binning. *)
From Coq Require Import QArith Sorting.Sorted.
From Verif Require Import Base.
Local Open Scope Z_scope.

(* pixel (y,x) of a ny x nx map that wraps in both directions lies in the box [y1,y2) x [x1,x2) *)
Definition in_box (ny nx : Z) (b : Z * Z * Z * Z) (y x : Z) : Prop := let '(y1, y2, x1, x2) := b in
  exists Y X, y1 <= Y < y2 /\ x1 <= X < x2 /\ Y mod ny = y /\ X mod nx = x.
(* an axis of n pixels in cells of c, and a range of it: inside the map, or the map is a whole number of
   cells, or the range is longer than the map *)
Definition fits (n c lo hi : Z) : Prop := 0 <= lo /\ hi <= n \/ n mod c = 0 \/ n + c <= hi - lo.
(* m' is m with the objects listed by objs painted in turn on each pixel. Every object is painted at most once,
   and at least once if must o y x *)
Definition painted {A} (ny nx : Z) (op : A -> A -> A) (paint : Z -> Z -> Z -> A) (must : Z -> Z -> Z -> Prop) (m m' : list A) : Prop :=
  zlen m' = zlen m /\ forall y x v, 0 <= y < ny -> 0 <= x < nx -> zget m (y * nx + x) = Some v ->
  exists objs, StronglySorted Z.lt objs /\ (forall o, must o y x -> In o objs) /\
    zget m' (y * nx + x) = Some (fold_left (fun v o => op v (paint o y x)) objs v).

(* last index whose value reaches the limit, or 0 *)
Definition last_reaching (vs : list Q) (vrel : Q) (i : Z) : Prop :=
  0 <= i < zlen vs /\ (i = 0 \/ exists v, zget vs i = Some v /\ (vrel <= v)%Q) /\ forall k v, i < k -> zget vs k = Some v -> (v < vrel)%Q.
