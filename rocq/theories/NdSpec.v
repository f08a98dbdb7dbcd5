(* n-dimensional arrays: a shape and a value at every index. Small and independent of the code. *)
From Verif Require Import Base.
Record nd (A : Type) := ND { nd_shape : list Z; nd_at : list Z -> A }.
Arguments ND {A}. Arguments nd_shape {A}. Arguments nd_at {A}.
(* idx is an index of an array of this shape *)
Definition valid_idx (shape idx : list Z) : Prop := Forall2 (fun s i => 0 <= i < s) shape idx.
(* same shape, same values *)
Definition nd_eq {A} (a b : nd A) : Prop := nd_shape a = nd_shape b /\ forall idx, valid_idx (nd_shape a) idx -> nd_at a idx = nd_at b idx.
Definition zprod (l : list Z) : Z := fold_right Z.mul 1 l.
(* the rank of an index in C order: the last index moves fastest *)
Fixpoint rank (shape idx : list Z) : Z :=
  match shape, idx with _ :: shape, i :: idx => i * zprod shape + rank shape idx | _, _ => 0 end.
(* entries of l at the given positions *)
Definition pick (l : list Z) (pos : list Z) : list Z := map (fun p => match zget l p with Some x => x | None => 0 end) pos.
(* the positions 0..n-1 that are not in l *)
Definition others (n : Z) (l : list Z) : list Z := filter (fun p => negb (existsb (Z.eqb p) l)) (zrange 0 n).
(* l with x put in before position p *)
Definition put (p x : Z) (l : list Z) : list Z := firstn (Z.to_nat p) l ++ x :: skipn (Z.to_nat p) l.
