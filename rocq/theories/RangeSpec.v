(* Vocabulary for C18/C19: sets of integers given by lists of half-open ranges. *)
From Verif Require Export Base.
From Coq Require Export Sorting.Sorted.

Notation rng := (Z * Z)%type.                       (* {from,to}: from <= k < to *)
Definition inside (r : rng) (k : Z) : Prop := fst r <= k < snd r.
Definition covers (l : list rng) (k : Z) : Prop := exists r, In r l /\ inside r k.
Definition nonempty (r : rng) : Prop := fst r < snd r.

(* one after the other, touching allowed / not allowed *)
Definition in_order (l : list rng) : Prop := StronglySorted (fun r s => snd r <= fst s) l.
Definition separated (l : list rng) : Prop := StronglySorted (fun r s => snd r < fst s) l.

(* no two ranges at different positions of the list have a point in common *)
Definition disjoint_ranges (l : list rng) : Prop := forall i j r s, (i <> j)%nat ->
  nth_error l i = Some r -> nth_error l j = Some s -> snd r <= fst s \/ snd s <= fst r.

(* what np.argsort(keys) promises: a permutation of the positions that sorts the keys; the order
   of equal keys is left open, because the default algorithm is not stable *)
Definition is_argsort (inds : list nat) (keys : list Z) : Prop :=
  Permutation inds (seq 0 (length keys)) /\
  StronglySorted Z.le (map (fun i => nth i keys 0) inds).
