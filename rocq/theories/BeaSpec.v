(* Elliptical Gaussian beams: exp(-1/2 q(x,y)) *)
From Coq Require Import Reals.
Open Scope R_scope.

(* q given by inverse square radii: along x, along y and mixed *)
Definition form (q : R * R * R) (x y : R) : R := let '(a, b, c) := q in a * x ^ 2 + b * y ^ 2 + 2 * c * x * y.
(* q given by the width s1 in the direction phi and the width s2 across it *)
Definition ellipse (s1 s2 phi x y : R) : R := ((x * cos phi + y * sin phi) / s1) ^ 2 + ((y * cos phi - x * sin phi) / s2) ^ 2.
(* q has a beam: it is positive away from the centre *)
Definition positive (q : R * R * R) : Prop := forall x y, (x <> 0 \/ y <> 0) -> 0 < form q x y.
(* what np.linalg.eigh promises for the matrix ((a,c),(c,b)): eigenvalues in ascending order, and orthonormal vectors (v00,v10), (v01,v11) *)
Definition eigh2_ok (eigh : R -> R -> R -> (R * R) * ((R * R) * (R * R))) : Prop :=
  forall a b c, let '((e0, e1), ((v00, v01), (v10, v11))) := eigh a c b in
    e0 <= e1 /\ v00 * v00 + v10 * v10 = 1 /\ v01 * v01 + v11 * v11 = 1 /\ v00 * v01 + v10 * v11 = 0 /\
    a = e0 * (v00 * v00) + e1 * (v01 * v01) /\ b = e0 * (v10 * v10) + e1 * (v11 * v11) /\ c = e0 * (v00 * v10) + e1 * (v01 * v11).
