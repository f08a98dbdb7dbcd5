(* Specification vocabulary for the preparation of spherical harmonics transforms. *)
From Verif Require Import Base.

(* the pixels of a map in the order numpy flattens it *)
Definition pixels (ny nx : Z) : list (Z * Z) := flat_map (fun y => map (fun x => (y, x)) (zrange 0 nx)) (zrange 0 ny).

(* where pixel k of an axis of n pixels ends up when the axis is reversed or not *)
Definition flipped (flip : bool) (n k : Z) : Z := if flip then n - 1 - k else k.

(* vectors one can add and subtract, and maps that respect that *)
Record vectors (V : Type) (zero : V) (add sub : V -> V -> V) : Prop := {
  v_comm : forall a b, add a b = add b a;
  v_assoc : forall a b c, add a (add b c) = add (add a b) c;
  v_zero : forall a, add a zero = a;
  v_sub : forall a b, add (sub a b) b = a;
  v_sub' : forall a b, sub (add a b) b = a }.
Definition additive {V W : Type} (subV : V -> V -> V) (subW : W -> W -> W) (F : V -> W) : Prop := forall a b, F (subV a b) = subW (F a) (F b).
Fixpoint power {V : Type} (f : V -> V) (n : nat) (v : V) : V := match n with O => v | S n => f (power f n v) end.
