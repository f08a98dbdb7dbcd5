(* Specification vocabulary for distance transforms and edge finding. *)
From Verif Require Import Base.

(* a distance transform of n pixels: dist gives distances, dom names points (-1: none). Whatever names
   a point holds the distance to that point, whatever names none holds the cut-off *)
Definition honest (D : Z -> Z -> Z) (npoint npix rmax : Z) (dist dom : list Z) : Prop :=
  zlen dist = npix /\ zlen dom = npix /\
  forall p, 0 <= p < npix -> exists d j, zget dist p = Some d /\ zget dom p = Some j /\
    (j = -1 /\ d = rmax \/ 0 <= j < npoint /\ d = D j p).
(* no pixel could get closer to a point by taking over the point of a neighbour *)
Definition locally_closest (D : Z -> Z -> Z) (rmax : Z) (nbr : Z -> Z -> Prop) (dist dom : list Z) : Prop :=
  forall p q j d, nbr p q -> zget dom p = Some j -> 0 <= j -> zget dist q = Some d -> rmax <= D j q \/ d <= D j q.
(* point j is strictly nearer to pixel p than any other point *)
Definition nearest (D : Z -> Z -> Z) (npoint j p : Z) : Prop := 0 <= j < npoint /\ forall k, 0 <= k < npoint -> k <> j -> D j p < D k p.
(* a walk between pixels along neighbours that all satisfy P *)
Inductive walk (nbr : Z -> Z -> Prop) (P : Z -> Prop) : Z -> Z -> Prop :=
| walk_here p : P p -> walk nbr P p p
| walk_on p q r : walk nbr P p q -> nbr q r -> P r -> walk nbr P p r.

(* four-connected neighbours on a map that wraps in both directions *)
Definition grid_nbr (ny nx p q : Z) : Prop := exists y x dy dx, 0 <= y < ny /\ 0 <= x < nx /\ Z.abs dy + Z.abs dx = 1 /\
  p = y * nx + x /\ q = ((y + dy) mod ny) * nx + (x + dx) mod nx.

(* pixel i of a map of zeros and non-zeros lies at the edge of a zero region *)
Definition edge_pixel (zero differ : Z -> bool) (ny nx i : Z) : Prop := exists y x, 0 <= y < ny /\ 0 <= x < nx /\ i = y * nx + x /\ zero i = true /\
  (y = 0 \/ y = ny - 1 \/ x = 0 \/ x = nx - 1 \/
   exists dy dx, Z.abs dy + Z.abs dx = 1 /\ differ ((y + dy) * nx + (x + dx)) = true).

(* what a distance transform from points at the given pixels delivers *)
Record transform (D : Z -> Z -> Z) (npoint npix rmax : Z) (nbr : Z -> Z -> Prop) (starts dist dom : list Z) : Prop := {
  t_honest : honest D npoint npix rmax dist dom;
  t_closest : locally_closest D rmax nbr dist dom;
  (* within reach of a starting pixel every pixel gets a point, if nothing is beyond the cut-off *)
  t_reached : forall i p0 p, zget starts i = Some p0 -> walk nbr (fun _ => True) p0 p ->
    (forall j q, 0 <= j < npoint -> 0 <= q < npix -> D j q < rmax) -> exists j, zget dom p = Some j /\ 0 <= j < npoint;
  (* and the result is exact where the nearest point's region is connected to a starting pixel of its own *)
  t_exact : forall i p0 p, zget starts i = Some p0 -> (forall k, zget starts k = Some p0 -> k = i) ->
    walk nbr (fun q => nearest D npoint i q /\ D i q < rmax) p0 p -> zget dist p = Some (D i p) /\ zget dom p = Some i }.

(* the entries pushed and popped in a history of a priority queue *)
Inductive qop (A : Type) : Type := QPush (a : A) | QPop.
Arguments QPush {A} a. Arguments QPop {A}.
Fixpoint pushed {A} (ops : list (qop A)) : list A := match ops with [] => [] | QPush a :: ops => a :: pushed ops | QPop :: ops => pushed ops end.
(* no pop leaves an odd number of entries above one; n entries at the start *)
Fixpoint even_pops {A} (n : Z) (ops : list (qop A)) : Prop :=
  match ops with [] => True | QPush _ :: ops => even_pops (n + 1) ops | QPop :: ops => (n - 1 <= 1 \/ (n - 1) mod 2 = 0) /\ even_pops (n - 1) ops end.
