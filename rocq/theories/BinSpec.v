(* Specification vocabulary for C24. *)
From Verif Require Import Base.

(* bins is a sequence of ranges [a,b) that follow each other without gap or overlap from lo to hi *)
Fixpoint tiles_range (lo hi : Z) (bins : list (Z * Z)) : Prop :=
  match bins with
  | [] => lo = hi
  | (a, b) :: r => a = lo /\ a <= b /\ tiles_range b hi r
  end.

(* k is a member of bin number i *)
Definition in_bin (bins : list (Z * Z)) (i k : Z) : Prop :=
  exists a b, zget bins i = Some (a, b) /\ a <= k < b.

Definition bin_size (b : Z * Z) : Z := snd b - fst b.

(* list element, for positions inside the list *)
Definition znth (l : list Z) (k : Z) : Z := match zget l k with Some v => v | None => 0 end.

(* the raw bin edges of expbin: nbin+1 non-decreasing integers from 0 to n *)
Definition exp_ok (tmp : list Z) (n nbin : Z) : Prop :=
  zlen tmp = nbin + 1 /\ znth tmp 0 = 0 /\ znth tmp nbin = n /\ forall i j, 0 <= i <= j -> j <= nbin -> znth tmp i <= znth tmp j.
