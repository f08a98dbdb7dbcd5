(* Specification vocabulary for spherical harmonic coefficient arrays. *)
From Coq Require Import ZArith List Lia Reals.
From Verif Require Import Base.
Import ListNotations.
Local Open Scope Z_scope.

(* the coefficients that exist for a given lmax and mmax *)
Definition valid (lmax mmax l m : Z) : Prop := 0 <= m <= mmax /\ m <= l <= lmax.

(* an assignment of array positions to coefficients is a layout of an array of n elements when
   every coefficient has a position inside the array and no two share one *)
Definition layout_ok (lmax mmax n : Z) (at_ : Z -> Z -> Z) : Prop :=
  (forall l m, valid lmax mmax l m -> 0 <= at_ l m < n) /\
  (forall l m l' m', valid lmax mmax l m -> valid lmax mmax l' m' -> at_ l m = at_ l' m' -> l = l' /\ m = m').

(* all coefficients, listed with l varying fastest and with m varying fastest *)
Definition l_fast (lmax mmax : Z) : list (Z * Z) :=
  flat_map (fun m => map (fun l => (l, m)) (zrange m (lmax + 1))) (zrange 0 (mmax + 1)).
Definition m_fast (lmax mmax : Z) : list (Z * Z) :=
  flat_map (fun l => map (fun m => (l, m)) (zrange 0 (Z.min l mmax + 1))) (zrange 0 (lmax + 1)).

(* C_l = (Re a_l0 Re b_l0 + 2 sum_{m=1}^{min(l,mmax)} Re(a_lm conj(b_lm))) / (2l+1) *)
Local Open Scope R_scope.
Definition rsum (l : list R) : R := fold_right Rplus 0 l.
Definition re_prod (x y : R * R) : R := fst x * fst y + snd x * snd y.
Definition cl_formula (a b : Z -> Z -> R * R) (mmax l : Z) : R :=
  (fst (a l 0%Z) * fst (b l 0%Z) + 2 * rsum (map (fun m => re_prod (a l m) (b l m)) (zrange 1 (Z.min l mmax + 1)))) / (2 * IZR l + 1).
