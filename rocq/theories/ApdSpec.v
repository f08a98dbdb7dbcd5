(* Specification for the apodization of maps. *)
From Coq Require Import ZArith Reals List.
Open Scope Z_scope.

(* number of pixels between pixel j of n and the closer end of the axis *)
Definition from_end (n j : Z) : Z := Z.min j (n - 1 - j).
(* the taper of an axis of n pixels: the profile of (pixels from the end, counting from 1)/(w+1) near the ends, 1 elsewhere *)
Definition taper (profile : R -> R) (w n j : Z) : R :=
  if from_end n j <? w then profile (IZR (from_end n j + 1) / IZR (w + 1))%R else 1%R.

(* what one expects of a taper *)
Record good_taper (t : Z -> R) (w n : Z) : Prop := {
  gt_range : forall j, 0 <= j < n -> (0 < t j <= 1)%R;
  gt_mirror : forall j, 0 <= j < n -> t (n - 1 - j) = t j;
  gt_rise : forall i j, 0 <= i < n -> 0 <= j < n -> from_end n i <= from_end n j -> (t i <= t j)%R;
  gt_flat : forall j, 0 <= j < n -> w <= from_end n j -> t j = 1%R;
  gt_edge : forall j, 0 <= j < n -> from_end n j < w -> (t j < 1)%R }.

(* fading into each other: the pixel that pixel j is mixed with, and its share *)
Definition partner (w n j : Z) : Z := if j <? w then j + (n - w) else if n - w <=? j then j - (n - w) else j.
Definition share (profile : R -> R) (w n j : Z) : R :=
  if from_end n j <? w then profile (IZR (w - from_end n j) / IZR (2 * w + 1))%R else 0%R.
