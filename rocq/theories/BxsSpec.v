(* Boxes as sets of points. A box is given by its two ends along each axis. *)
From Coq Require Import List Reals.
Import ListNotations.
Local Open Scope R_scope.

Notation box := (list (R * R)).
(* a point of the box: every coordinate is between the two ends, in whichever order these come *)
Definition between (e : R * R) (x : R) : Prop := fst e <= x <= snd e \/ snd e <= x <= fst e.
Definition in_box (b : box) (p : list R) : Prop := Forall2 between b p.
(* the first end is the lower one on every axis *)
Definition ascending (b : box) : Prop := Forall (fun e => fst e <= snd e) b.
Definition first_corner (b : box) : list R := map fst b.
(* positions relative to a corner *)
Fixpoint minus (p q : list R) : list R :=
  match p, q with x :: p', y :: q' => (x - y) :: minus p' q' | _, _ => [] end.
(* the product of the lengths of the sides *)
Fixpoint volume (b : box) : R := match b with [] => 1 | e :: b' => Rabs (snd e - fst e) * volume b' end.
(* a corner: every coordinate is one of the two ends *)
Definition is_corner (b : box) (p : list R) : Prop := Forall2 (fun e x => x = fst e \/ x = snd e) b p.
(* x and y differ by a whole number of periods *)
Definition same_phase (n x y : R) : Prop := exists k : Z, y = x + IZR k * n.
