(* Model of the two drivers of colorize.colorize in scalar mode, for one value and one channel. A value that is not a number is None.
   The code that picks out the channels and reshapes arrays is not modelled. *)
From Coq Require Import List Arith ZArith Reals.
From Verif Require Import BldModel ClzSpec.
Import ListNotations.
Open Scope R_scope.

(* np.searchsorted, side left *)
Fixpoint searchsorted (vals : list R) (a : R) : nat := match vals with [] => 0%nat | v :: vals' => if Rlt_dec v a then S (searchsorted vals' a) else 0%nat end.
(* colorize.py:121-139 *)
Definition colorize_python (vals : list R) (cols : list Z) (a : option R) : Z :=
  match a with
  | None => 0%Z
  | Some a =>
      let i := Nat.min (Nat.max (searchsorted vals a) 1) (length vals - 1) in
      let x := (a - vnth vals (i - 1)) / (vnth vals i - vnth vals (i - 1)) in
      let x := Rmin (Rmax x 0) 1 in
      let col := roundR (cnth cols (i - 1) * (1 - x) + cnth cols i * x) in
      Z.min (Z.max col 0) 255
  end.
(* Fortran's nint: halves away from 0 *)
Definition nint (x : R) : Z := if Rlt_dec x 0 then (- floorR (- x + 1 / 2))%Z else floorR (x + 1 / 2).
Fixpoint first_greater (vals : list R) (v : R) : nat := match vals with [] => 0%nat | w :: vals' => if Rlt_dec v w then 0%nat else S (first_greater vals' v) end.
(* fortran/colorize.f90:1-32 remap, indices counted from 0 *)
Definition colorize_fortran (vals : list R) (cols : list Z) (a : option R) : Z :=
  match a with
  | None => 0%Z
  | Some v =>
      let j := first_greater vals v in
      if (j <=? 0)%nat then nth j cols 0%Z
      else if (length vals <=? j)%nat then nth (length vals - 1) cols 0%Z
      else Z.min (Z.max 0 (nint (cnth cols (j - 1) + (v - vnth vals (j - 1)) * (cnth cols j - cnth cols (j - 1)) / (vnth vals j - vnth vals (j - 1))))) 255
  end.
