(* Model of reproject.distribute and reproject.restrict_nside *)
From Coq Require Import List Arith ZArith Reals.
From Verif Require Import BldModel RnsSpec.
Import ListNotations.
Open Scope nat_scope.

(* python's round of n/d: halves to even *)
Definition rdiv (n d : nat) : nat :=
  let q := n / d in let r := n mod d in
  if 2 * r <? d then q else if d <? 2 * r then q + 1 else if Nat.even q then q else q + 1.
(* reproject.py:825-836 for whole N and nmax; None: an exception *)
Definition distribute (N nmax : nat) : option (list nat) :=
  let actual_max := 2 * (nmax + 1) / 3 in
  if actual_max =? 0 then None else
  let numcells := rdiv N actual_max in
  let each_cell := repeat actual_max (numcells - 1) in
  let cells := if N <=? fold_right plus 0 each_cell then each_cell else each_cell ++ [N - fold_right plus 0 each_cell] in
  if fold_right plus 0 cells =? N then Some cells else None.

Open Scope R_scope.
Inductive nmode := Any | Mul32 | Pow2.
Definition ceilR (x : R) : Z := (- floorR (- x))%Z.
(* np.floor, np.round, np.ceil *)
Definition rfun (m : rounding) (x : R) : Z := match m with Floor => floorR x | Round => roundR x | Ceil => ceilR x end.
Definition log2 (x : R) : R := ln x / ln 2.
(* reproject.py:388-417 *)
Definition restrict_nside (nside : R) (mode : nmode) (m : rounding) : Z :=
  let n := match mode with
           | Any => IZR (rfun m nside)
           | Mul32 => if Rlt_dec 1024 (12 * nside ^ 2) then IZR (rfun m (nside / 32)) * 32 else nside
           | Pow2 => powerRZ 2 (rfun m (log2 nside))
           end in
  Z.max 1 (truncR n).
