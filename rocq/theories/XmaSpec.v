(* Distances between catalogue positions, and what a nearest neighbour tree and a sorting routine promise. *)
From Coq Require Import Reals List Permutation Sorted.
From Verif Require Import RotSpec.
Import ListNotations.
Open Scope R_scope.

(* how positions are to be read: longitude and latitude, longitude and angle from the pole, or coordinates in space *)
Inductive reading := Lonlat | Lonpol | Space.
Fixpoint sumsq (p q : list R) : R := match p, q with a :: p', b :: q' => (a - b) ^ 2 + sumsq p' q' | _, _ => 0 end.
Definition eucl (p q : list R) : R := sqrt (sumsq p q).
(* the angle between two directions *)
Definition angle (zenith : bool) (p q : list R) : R :=
  match p, q with [a; b], [c; d] => acos (dot (dir zenith (a, b)) (dir zenith (c, d))) | _, _ => 0 end.
Definition distance (r : reading) (p q : list R) : R :=
  match r with Lonlat => angle false p q | Lonpol => angle true p q | Space => eucl p q end.

(* the arguments of a crossmatch: how to read coordinates, which matches to give, and arrays [npoint, ndim] *)
Inductive coords := Auto | Radec | Phitheta | Cartesian.
Inductive xmode := All | Closest | First.
Record positions := { ndim : nat; rows : list (list R) }.
(* auto is longitude and latitude for two coordinates *)
Definition reading_of (c : coords) (n : nat) : reading :=
  match c, n with Radec, _ => Lonlat | Phitheta, _ => Lonpol | Cartesian, _ => Space | Auto, 2%nat => Lonlat | Auto, _ => Space end.
(* arrays of the same number of coordinates, two of them if they are angles, and a radius, of at most half a turn if it is an angle *)
Definition proper (c : coords) (pos1 pos2 : positions) (rmax : R) : Prop :=
  ndim pos1 = ndim pos2 /\ Forall (fun p => length p = ndim pos1) (rows pos1) /\ Forall (fun p => length p = ndim pos2) (rows pos2) /\
  (reading_of c (ndim pos1) <> Space -> ndim pos1 = 2%nat) /\ 0 <= rmax /\ (reading_of c (ndim pos1) <> Space -> rmax <= PI).

(* positions i and j of two catalogues are at most rmax apart *)
Definition close (r : reading) (l1 l2 : list (list R)) (rmax : R) (i j : nat) : Prop :=
  exists p q, nth_error l1 i = Some p /\ nth_error l2 j = Some q /\ distance r p q <= rmax.
(* the distance of positions i and j *)
Definition apart (r : reading) (l1 l2 : list (list R)) (ij : nat * nat) : R := distance r (nth (fst ij) l1 []) (nth (snd ij) l2 []).

(* what scipy's trees promise: for every position of the first catalogue the indices of those of the second within radius, each once, in any order *)
Definition query_spec (ball : list (list R) -> list (list R) -> R -> list (list nat)) : Prop :=
  forall l1 l2 radius, 0 <= radius -> length (ball l1 l2 radius) = length l1 /\
    forall i p group, nth_error l1 i = Some p -> nth_error (ball l1 l2 radius) i = Some group ->
      NoDup group /\ forall j, In j group <-> exists q, nth_error l2 j = Some q /\ eucl p q <= radius.
(* and whether they do so in increasing order *)
Definition query_sorted (ball : list (list R) -> list (list R) -> R -> list (list nat)) : Prop :=
  forall l1 l2 radius group, In group (ball l1 l2 radius) -> StronglySorted lt group.
(* what numpy.argsort promises: indices in order of increasing values, equal values in any order *)
Definition argsort_spec (argsort : list R -> list nat) : Prop :=
  forall l, Permutation (argsort l) (seq 0 (length l)) /\ StronglySorted Rle (map (fun i => nth i l 0) (argsort l)).
