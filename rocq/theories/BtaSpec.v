(* Angles in a range, numbers with a given fraction and pixelisations that match *)
From Coq Require Import ZArith QArith Qabs.
Open Scope Q_scope.

(* some angle equivalent to a is in the range *)
Definition angle_in (p lo hi a : Q) : Prop := exists k : Z, lo <= a + inject_Z k * p /\ a + inject_Z k * p < hi.
(* x is within tol of a whole number *)
Definition near_whole (le : Q -> Q -> Prop) (tol x : Q) : Prop := exists k : Z, le (Qabs (x - inject_Z k)) tol.

(* a pixelisation of two axes: the linear part of a wcs. pc is the matrix pc11, pc12, pc21, pc22 *)
Record wcs := { kind : nat; crval : Q * Q; crpix : Q * Q; cdelt : Q * Q; pc : (Q * Q) * (Q * Q) }.
Definition identity : (Q * Q) * (Q * Q) := ((1, 0), (0, 1)).
(* coordinates (before any projection) of a pixel *)
Definition world (w : wcs) (i j : Q) : Q * Q :=
  let a := i - fst (crpix w) in let b := j - snd (crpix w) in let m := pc w in
  (fst (crval w) + fst (cdelt w) * (fst (fst m) * a + snd (fst m) * b), snd (crval w) + snd (cdelt w) * (fst (snd m) * a + snd (snd m) * b)).
(* every pixel centre of w is within tol pixels (along each axis) of a pixel centre of v *)
Definition centres_match (tol : Q) (w v : wcs) : Prop := forall i j : Z, exists (i' j' : Z) (x y : Q), Qabs (x - inject_Z i') <= tol /\ Qabs (y - inject_Z j') <= tol /\
  fst (world v x y) == fst (world w (inject_Z i) (inject_Z j)) /\ snd (world v x y) == snd (world w (inject_Z i) (inject_Z j)).
