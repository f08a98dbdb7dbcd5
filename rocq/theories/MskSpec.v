(* Specification for distances to masked pixels, growing and shrinking masks, and mask apodization. *)
From Coq Require Import ZArith Reals List Lia Lra.
Open Scope Z_scope.

(* Pixel (y,x) of a map with nx columns is numbered y*nx+x. v is the distance from pixel p to the closest of the
   pixels q < n with property B *)
Definition closest (d : Z -> Z -> R) (n : Z) (B : Z -> Prop) (p : Z) (v : R) : Prop :=
  (exists q, 0 <= q < n /\ B q /\ d p q = v) /\ (forall q, 0 <= q < n -> B q -> (v <= d p q)%R).

(* what a map of distances with an optional upper limit holds at p; None stands for an infinite distance *)
Inductive limited (d : Z -> Z -> R) (n : Z) (B : Z -> Prop) (p : Z) : option R -> option R -> Prop :=
| lim_none v : closest d n B p v -> limited d n B p None (Some v)
| lim_near v r : closest d n B p v -> (v <= r)%R -> limited d n B p (Some r) (Some v)
| lim_far v r : closest d n B p v -> (r <= v)%R -> limited d n B p (Some r) (Some r)
| lim_empty rmax : (forall q, 0 <= q < n -> ~ B q) -> limited d n B p rmax rmax.

(* a distance between the pixels of an ny x nx map, such that from any pixel away from the border of the map one can
   step to one of the four neighbours and come closer to a given other pixel *)
Record grid_distance (ny nx : Z) (d : Z -> Z -> R) : Prop := {
  gd_self : forall p, 0 <= p < ny * nx -> d p p = 0%R;
  gd_pos : forall p q, 0 <= p < ny * nx -> 0 <= q < ny * nx -> p <> q -> (0 < d p q)%R;
  gd_sym : forall p q, d p q = d q p;
  gd_step : forall p y x, 0 <= p < ny * nx -> 0 < y < ny - 1 -> 0 < x < nx - 1 -> p <> y * nx + x ->
    exists dy dx, Z.abs dy + Z.abs dx = 1 /\ Rlt (d p ((y + dy) * nx + (x + dx))) (d p (y * nx + x)) }.

(* flat maps: pixels of height hy and width hx *)
Definition flat_distance (hy hx : R) (nx p q : Z) : R :=
  sqrt ((hy * IZR (p / nx - q / nx)) ^ 2 + (hx * IZR (p mod nx - q mod nx)) ^ 2).
(* maps of the sphere whose rows have constant declination and whose columns have constant right ascension:
   the pixel (y,x) is at dec = dec0 + y*ddec, ra = ra0 + x*dra. The cosine of the angle between two pixels is *)
Definition sphere_cos (dec0 ddec dra : R) (nx p q : Z) : R :=
  (sin (dec0 + IZR (p / nx) * ddec) * sin (dec0 + IZR (q / nx) * ddec)
   + cos (dec0 + IZR (p / nx) * ddec) * cos (dec0 + IZR (q / nx) * ddec) * cos (IZR (p mod nx - q mod nx) * dra))%R.
(* and the map covers no more than the sphere, without reaching a pole *)
Definition sphere_map (dec0 ddec dra : R) (ny nx : Z) : Prop := (ddec <> 0 /\ dra <> 0 /\ IZR nx * Rabs dra <= 2 * PI /\
  forall y, (0 <= y < ny)%Z -> - (PI / 2) < dec0 + IZR y * ddec < PI / 2)%R.
Definition sphere_distance (dec0 ddec dra : R) (nx p q : Z) : R := acos (sphere_cos dec0 ddec dra nx p q).

(* on the border of the map *)
Definition on_border (ny nx p : Z) : Prop := p / nx = 0 \/ p / nx = ny - 1 \/ p mod nx = 0 \/ p mod nx = nx - 1.

(* a function that finds, for every pixel, the closest of a list of pixels, within the optional limit: the distance and
   the place in the list, or the limit and -1 *)
Definition finds_closest (n : Z) (d : Z -> Z -> R) (df : list Z -> option R -> Z -> R * Z) : Prop := forall pts lim p,
  pts <> nil -> Forall (fun q => 0 <= q < n) pts -> 0 <= p < n -> (forall r, lim = Some r -> (0 < r)%R) ->
  (exists k q, nth_error pts k = Some q /\ df pts lim p = (d p q, Z.of_nat k) /\ Forall (fun q' => (d p q <= d p q')%R) pts /\
     (forall r, lim = Some r -> (d p q <= r)%R)) \/
  (exists r, lim = Some r /\ df pts lim p = (r, -1) /\ Forall (fun q => (r <= d p q)%R) pts).

(* from every pixel but p itself a neighbour inside the map is closer to p *)
Definition inner_step (ny nx : Z) (d : Z -> Z -> R) : Prop := forall p y x, 0 <= p < ny * nx -> 0 <= y < ny -> 0 <= x < nx -> p <> y * nx + x ->
  exists dy dx, Z.abs dy + Z.abs dx = 1 /\ 0 <= y + dy < ny /\ 0 <= x + dx < nx /\ Rlt (d p ((y + dy) * nx + (x + dx))) (d p (y * nx + x)).
