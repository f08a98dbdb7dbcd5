(* Model of enmap.crop_geometry (given a pixel box or a central pixel) and of utils.fix_zero_strides *)
From Coq Require Import List ZArith QArith Bool.
From Verif Require Import CrgSpec.
Import ListNotations.

(* enmap.py:2078-2081 along one axis: np.abs of the difference, and crpix moved by the start of the box *)
Definition crop_box (a : axis) (p0 p1 : Z) : axis := {| npix := Z.abs (p1 - p0); crpix := (crpix a - inject_Z p0)%Q; crval := crval a; cdelt := cdelt a |}.
(* enmap.py:2072-2076: a single central pixel and a wanted number of pixels *)
Definition crop_point (a : axis) (p shp : Z) : axis := let lo := (p - shp / 2)%Z in crop_box a lo (lo + shp).

Open Scope Z_scope.
(* utils.py:1150-1169. The axes are walked from the last to the first: rest holds what lies behind, its strides done, and last is the stride before *)
Fixpoint walk (axes : list (Z * Z)) (last : Z) : Z * list Z :=
  match axes with
  | [] => (last, [])
  | (n, s) :: rest =>
      let '(last, out) := walk rest last in
      let s' := if (s =? 0) && (n =? 1) then match rest with [] => last | (n1, _) :: _ => last * n1 end else s in
      (s', s' :: out)
  end.
Definition last_good (strides : list Z) (itemsize : Z) : Z := match filter (fun s => negb (s =? 0)) (rev strides) with [] => itemsize | s :: _ => s end.
Definition fix_zero_strides (shape strides : list Z) (itemsize : Z) : list Z := snd (walk (combine shape strides) (last_good strides itemsize)).
