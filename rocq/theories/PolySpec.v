(* What it means for a point to be inside a polygon. *)
From Coq Require Import QArith.
From Verif Require Import Base.
Open Scope Q_scope.

Definition pt : Type := Q * Q.
(* twice the signed area of the triangle p a b: which side of the line a-b the point is on *)
Definition side (p a b : pt) : Q := (fst a - fst p) * (snd b - snd p) - (fst b - fst p) * (snd a - snd p).
(* strictly inside a triangle: on the same side of its three edges *)
Definition in_triangle (p a b c : pt) : bool :=
  let s1 := side p a b in let s2 := side p b c in let s3 := side p c a in
  (negb (Qle_bool s1 0) && negb (Qle_bool s2 0) && negb (Qle_bool s3 0)) ||
  (negb (Qle_bool 0 s1) && negb (Qle_bool 0 s2) && negb (Qle_bool 0 s3)).
(* the triangles a fan from the first corner cuts a polygon into *)
Fixpoint fan (a : pt) (rest : list pt) : list (pt * pt * pt) :=
  match rest with b :: ((c :: _) as t) => (a, b, c) :: fan a t | _ => [] end.
(* even-odd rule: inside an odd number of the triangles of the fan. (Overlapping parts of the
   triangles of a non-convex polygon cancel.) *)
Definition inside (p : pt) (poly : list pt) : bool :=
  match poly with [] => false | a :: rest => fold_right xorb false (map (fun t => let '(a, b, c) := t in in_triangle p a b c) (fan a rest)) end.
(* no corner is level with the point, and the point is on no line between two corners *)
Definition generic (p : pt) (poly : list pt) : Prop :=
  Forall (fun v => ~ snd v == snd p) poly /\ forall a b, In a poly -> In b poly -> side p a b == 0 -> fst a == fst b /\ snd a == snd b.
