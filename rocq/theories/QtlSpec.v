(* Vocabulary for C109: weighted quantiles of a list of values. *)
From Coq Require Export Reals Permutation Sorted.
From Verif Require Export Base.
Open Scope R_scope.

(* a value and its weight *)
Notation wval := (R * R)%type.
Fixpoint rsum (l : list R) : R := match l with [] => 0 | x :: l => x + rsum l end.
Definition total (l : list wval) : R := rsum (map snd l).

(* s is the list l, sorted by value; values that are equal are in any order *)
Definition sorted_by_value (l s : list wval) : Prop := Permutation l s /\ StronglySorted (fun a b => fst a <= fst b) s.
(* the share of the total weight that lies to the left of the middle of the i'th value *)
Definition share (s : list wval) (i : nat) : R := (rsum (map snd (firstn i s)) + snd (nth i s (0, 0)) / 2) / total s.
Definition value (s : list wval) (i : nat) : R := fst (nth i s (0, 0)).
(* x is this far between a and b *)
Definition between (x a b : R) : R := (x - a) / (b - a).
