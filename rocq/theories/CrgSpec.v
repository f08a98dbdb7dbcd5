(* Cutting a part out of a pixelisation, and memory addresses of elements *)
From Coq Require Import List ZArith QArith.
Import ListNotations.

(* one axis of a pixelisation of n pixels *)
Record axis := { npix : Z; crpix : Q; crval : Q; cdelt : Q }.
(* coordinate of pixel i, counted from 0 *)
Definition coord (a : axis) (i : Z) : Q := (crval a + cdelt a * (inject_Z i + 1 - crpix a))%Q.
(* out has just the pixels from lo up to but not including hi of a, in the same order *)
Definition part_of (a : axis) (lo hi : Z) (out : axis) : Prop :=
  npix out = (hi - lo)%Z /\ forall i, (0 <= i < npix out)%Z -> (coord out i == coord a (lo + i))%Q.

(* distance in memory of an element from the first *)
Fixpoint address (strides idx : list Z) : Z := match strides, idx with s :: l, i :: idx => (i * s + address l idx)%Z | _, _ => 0%Z end.
Definition inside (shape idx : list Z) : Prop := Forall2 (fun n i => (0 <= i < n)%Z) shape idx.
