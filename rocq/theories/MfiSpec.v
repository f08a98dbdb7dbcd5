(* Beams, point sources and the two classical meanings of "the best flux estimate": least squares and least variance.
   Maps and harmonic profiles are functions of two whole numbers, used on 0 <= y < ny, 0 <= x < nx. *)
From Coq Require Import Reals.
From Verif Require Import Base DctSpec.
Open Scope R_scope.

Definition image := Z -> Z -> R.
Definition rsum2 (ny nx : Z) (f : image) : R := rsum ny (fun y => rsum nx (f y)).
Definition in_map (ny nx y x : Z) : Prop := (0 <= y < ny)%Z /\ (0 <= x < nx)%Z.
(* two images agree on the map *)
Definition same (ny nx : Z) (f g : image) : Prop := forall y x, in_map ny nx y x -> f y x = g y x.

(* a harmonic profile that takes the same value at a frequency and at its opposite *)
Definition even_profile (ny nx : Z) (B : image) : Prop := forall k l, in_map ny nx k l -> B ((- k) mod ny)%Z ((- l) mod nx)%Z = B k l.
Definition angle (ny nx k l y x : Z) : R := 2 * PI * (IZR k * IZR y / IZR ny + IZR l * IZR x / IZR nx).
(* the beam with the harmonic transform B, dy and dx pixels away from its centre, per unit of solid angle *)
Definition profile (ny nx : Z) (area : R) (B : image) (dy dx : Z) : R := / area * rsum2 ny nx (fun k l => B k l * cos (angle ny nx k l dy dx)).
(* the map of a point source of flux F at pixel (y0, x0) seen through the beam *)
Definition source (ny nx : Z) (area : R) (B : image) (F : R) (y0 x0 : Z) : image := fun y x => F * profile ny nx area B (y - y0) (x - x0).

(* the squared size of the Fourier coefficients of a map *)
Definition power (ny nx : Z) (m : image) (k l : Z) : R :=
  (rsum2 ny nx (fun y x => m y x * cos (angle ny nx k l y x)))^2 + (rsum2 ny nx (fun y x => m y x * sin (angle ny nx k l y x)))^2.

(* F is the flux of least misfit *)
Definition best (misfit : R -> R) (F : R) : Prop := forall G, misfit F <= misfit G.
(* m minus a source *)
Definition residual (m s : image) (F : R) : image := fun y x => m y x - F * s y x.
(* the misfit weighted by the inverse noise power, whose harmonic coefficients are normalised to physical units *)
Definition misfit_power (ny nx : Z) (area : R) (iN : image) (r : image) : R :=
  area / (IZR ny * IZR nx)^2 * rsum2 ny nx (fun k l => iN k l * power ny nx r k l).
(* the misfit weighted by the inverse variance of the pixels *)
Definition misfit_white (ny nx : Z) (ivar : image) (r : image) : R := rsum2 ny nx (fun y x => ivar y x * (r y x)^2).

(* the estimator that adds up the map with the weights a, its response to a map, and its variance for the two kinds of noise *)
Definition weighted (ny nx : Z) (a m : image) : R := rsum2 ny nx (fun y x => a y x * m y x).
Definition variance_power (ny nx : Z) (area : R) (iN : image) (a : image) : R := / area * rsum2 ny nx (fun k l => power ny nx a k l / iN k l).
Definition variance_white (ny nx : Z) (ivar : image) (a : image) : R := rsum2 ny nx (fun y x => (a y x)^2 / ivar y x).
(* among the estimators that give 1 for the map s, a has the least variance *)
Definition least_variance (ny nx : Z) (var : image -> R) (s a : image) : Prop :=
  weighted ny nx a s = 1 /\ forall c, weighted ny nx c s = 1 -> var a <= var c.
(* a map of positive area all of whose pixels have the same size *)
Definition equal_pixels (ny nx : Z) (area : R) (pixarea : image) : Prop :=
  (0 < ny)%Z /\ (0 < nx)%Z /\ 0 < area /\ forall y x, in_map ny nx y x -> pixarea y x = area / (IZR ny * IZR nx).
(* a map convolved with a beam *)
Definition smoothed (ny nx : Z) (area : R) (B m : image) : image := fun y x =>
  area / (IZR ny * IZR nx) * rsum2 ny nx (fun j i => m j i * profile ny nx area B (y - j) (x - i)).
