(* Specification vocabulary for C58, C59 and C68. *)
From Verif Require Import Base SliceSpec SliceModel.
From Coq Require Import Reals.
Local Open Scope Z_scope.

(* two maps with the same shape, the same wcs and equal pixel values *)
Definition identical_map (a b : ndmap Q) : Prop :=
  nm_ny a = nm_ny b /\ nm_nx a = nm_nx b /\ nm_wcs a = nm_wcs b /\
  forall y x, match pixel a y x, pixel b y x with
              | Some u, Some v => (u == v)%Q
              | None, None => True
              | _, _ => False
              end.

(* every pixel of m is zero *)
Definition zero_map (m : ndmap Q) : Prop := forall y x v, pixel m y x = Some v -> (v == 0)%Q.

(* sum of the squares of f 0 l, ..., f (n-1) l *)
Fixpoint sum_squares (f : nat -> R -> R) (n : nat) (l : R) : R :=
  match n with O => 0%R | S k => (sum_squares f k l + f k l * f k l)%R end.
