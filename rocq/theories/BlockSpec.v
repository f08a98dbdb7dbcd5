(* Specification vocabulary for C25. *)
From Verif Require Import Base.

(* l[a:b] for 0 <= a <= b <= len l *)
Definition sub {A} (l : list A) (a b : Z) : list A := firstn (Z.to_nat (b - a)) (skipn (Z.to_nat a) l).

(* Blocks of an array of n samples. With an offset, the samples before it form block number 0; then
   follow blocks of bsize samples; the last one may be shorter. *)
Definition block_lo (bsize off b : Z) : Z :=
  if 0 <? off then (if b =? 0 then 0 else off + (b - 1) * bsize) else b * bsize.
Definition block_hi (n bsize off b : Z) : Z := Z.min n (block_lo bsize off (b + 1)).
(* number of blocks: the samples before off, and ceil((n-off)/bsize) blocks after *)
Definition nblock (n bsize off : Z) : Z := (if 0 <? off then 1 else 0) + (n - off + bsize - 1) / bsize.
