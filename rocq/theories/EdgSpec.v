From Coq Require Import Reals List.
Import ListNotations.
Open Scope R_scope.

(* One edge more than centers; every center is in the middle between its edges, and bins ref and ref+1 are equally wide *)
Definition edges_of (centers : list R) (ref : nat) (edges : list R) : Prop :=
  length edges = S (length centers) /\
  (forall k, (k < length centers)%nat -> nth k centers 0 = (nth k edges 0 + nth (S k) edges 0) / 2) /\
  nth (S ref) edges 0 - nth ref edges 0 = nth (S (S ref)) edges 0 - nth (S ref) edges 0.

