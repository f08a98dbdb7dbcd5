(* Model of utils.triangle_wave and utils.disk_overlap on exact numbers *)
From Coq Require Import Reals ZArith.
From Verif Require Import BldModel.
Open Scope R_scope.

(* python's % on exact numbers *)
Definition rmod (x p : R) : R := x - p * IZR (floorR (x / p)).
(* utils.py:2292-2303, for one element of the array *)
Definition triangle_wave (x period : R) : R :=
  let x := rmod x period / period * 4 in
  if Rlt_dec x 1 then x else if Rlt_dec x 3 then 2 - x else x - 4.
(* np.clip *)
Definition rclip (x lo hi : R) : R := Rmin (Rmax x lo) hi.
(* utils.py:3656-3660 *)
Definition disk_overlap (d r : R) : R :=
  let x := rclip (d / (2 * r)) 0 1 in
  (acos x - x * sqrt (1 - x ^ 2)) * (2 * r ^ 2).
