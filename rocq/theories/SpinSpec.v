(* Grouping of components by spin. *)
From Verif Require Import Base.

(* how many components a spin takes: one for spin 0, a pair otherwise *)
Definition ncomp (s : Z) : Z := if s =? 0 then 1 else 2.
(* the k-th group is for the k-th spin, going round and round the spin list, and has the right size *)
Definition well_grouped (spin : list Z) (gs : list (Z * Z * Z)) : Prop :=
  forall k s a b, nth_error gs k = Some (s, a, b) -> nth_error spin (k mod length spin) = Some s /\ b - a = ncomp s.
(* the groups, one after the other, are the components 0 .. n-1 *)
Definition covered (gs : list (Z * Z * Z)) : list Z := flat_map (fun g => let '(_, a, b) := g in zrange a b) gs.
