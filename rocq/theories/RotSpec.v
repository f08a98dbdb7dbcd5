(* Directions on the sphere as unit vectors. *)
From Coq Require Import Reals.
From Verif Require Import Base.
Open Scope R_scope.

Definition vec : Type := (R * R) * R.
Definition dot (a b : vec) : R := fst (fst a) * fst (fst b) + snd (fst a) * snd (fst b) + snd a * snd b.
Definition norm (a : vec) : R := sqrt (dot a a).
Definition scale (k : R) (a : vec) : vec := ((k * fst (fst a), k * snd (fst a)), k * snd a).
(* the direction of (longitude, latitude); with zenith, of (longitude, angle from the pole) *)
Definition dir (zenith : bool) (a : R * R) : vec :=
  if zenith then ((sin (snd a) * cos (fst a), sin (snd a) * sin (fst a)), cos (snd a)) else ((cos (snd a) * cos (fst a), cos (snd a) * sin (fst a)), sin (snd a)).
Definition north : vec := ((0, 0), 1).
(* 3x3 matrices by rows *)
Definition mat : Type := (vec * vec) * vec.
Definition mulv (m : mat) (v : vec) : vec := ((dot (fst (fst m)) v, dot (snd (fst m)) v), dot (snd m) v).
(* the turn by ang around one of the axes: the axis stays, and the next axis turns towards the one after it *)
Inductive axis3 := Xax | Yax | Zax.
Definition turned (r : axis3) (ang : R) (v : vec) : vec :=
  let '((x, y), z) := v in
  match r with
  | Xax => ((x, cos ang * y - sin ang * z), sin ang * y + cos ang * z)
  | Yax => ((cos ang * x + sin ang * z, y), cos ang * z - sin ang * x)
  | Zax => ((cos ang * x - sin ang * y, sin ang * x + cos ang * y), z)
  end.

(* A chain of conversions between systems: every step starts where the one before ended. *)
Fixpoint chain {S} (a : S) (l : list (S * S)) (b : S) : Prop := match l with [] => a = b | (x, y) :: r => x = a /\ chain y r b end.
