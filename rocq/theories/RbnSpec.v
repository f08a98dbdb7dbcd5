(* Vocabulary for C108: averages over rings. *)
From Coq Require Export Reals.
From Verif Require Export Base.
From Verif Require Import ArrModel.
Open Scope R_scope.

(* the pixels of a map, row by row *)
Definition pixels {A} (a : farr A) : list (Z * Z) := list_prod (zrange 0 (f_ny a)) (zrange 0 (f_nx a)).
(* ring number b of width w *)
Definition in_ring (w : R) (b : Z) (r : R) : Prop := IZR b * w <= r < IZR (b + 1) * w.
Definition in_ring_dec (w : R) (b : Z) (r : R) : {in_ring w b r} + {~ in_ring w b r}.
Proof. unfold in_ring. destruct (Rle_dec (IZR b * w) r), (Rlt_dec r (IZR (b + 1) * w)); [left; tauto|right; tauto|right; tauto|right; tauto]. Defined.
Definition ring (r : farr R) (w : R) (b : Z) : list (Z * Z) :=
  filter (fun p => if in_ring_dec w b (f_at r (fst p) (snd p)) then true else false) (pixels r).

Fixpoint rsum (l : list R) : R := match l with [] => 0 | x :: l => x + rsum l end.
(* the mean of an array over a list of pixels; not a number if there are none *)
Definition mean (a : farr R) (l : list (Z * Z)) : option R :=
  match l with [] => None | _ => Some (rsum (map (fun p => f_at a (fst p) (snd p)) l) / IZR (zlen l)) end.

(* n is the number of rings that fit completely: no pixel lies beyond ring n, and some pixel lies in ring n *)
Definition full_rings (r : farr R) (w : R) (n : Z) : Prop :=
  (exists p, In p (pixels r) /\ in_ring w n (f_at r (fst p) (snd p))) /\
  (forall p, In p (pixels r) -> f_at r (fst p) (snd p) < IZR (n + 1) * w).
