(* Distances from the edges of a polygon on the sphere *)
From Coq Require Import Reals List Arith.
From Verif Require Import RotSpec.
Open Scope R_scope.

(* d is the angle between the directions a and b *)
Definition angle (d : R) (a b : vec) : Prop := 0 <= d <= PI /\ cos d = dot a b.
Definition addv (a b : vec) : vec := ((fst (fst a) + fst (fst b), snd (fst a) + snd (fst b)), snd a + snd b).
(* q is on the shorter arc of the great circle through a and b, which needs a and b not to be opposite *)
Definition on_arc (a b q : vec) : Prop := dot q q = 1 /\ exists s t, 0 <= s /\ 0 <= t /\ q = addv (scale s a) (scale t b).
Definition vertex (poly : list (R * R)) (i : nat) : vec := dir false (nth i poly (0, 0)).
Definition on_edges (poly : list (R * R)) (q : vec) : Prop :=
  exists i, (i < length poly)%nat /\ on_arc (vertex poly i) (vertex poly ((i + 1) mod length poly)) q.
(* d is the distance from p to the nearest point of the set *)
Definition distance_to (p : vec) (points : vec -> Prop) (d : R) : Prop :=
  (exists q, points q /\ angle d p q) /\ forall q e, points q -> angle e p q -> d <= e.
Definition no_opposites (poly : list (R * R)) : Prop :=
  forall i, (i < length poly)%nat -> dot (vertex poly i) (vertex poly ((i + 1) mod length poly)) <> -1.
