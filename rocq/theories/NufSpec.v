(* Values at arbitrary positions, and least-squares fits to them. *)
From Coq Require Import Reals.
From Coquelicot Require Import Complex.
From Verif Require Import Base ArrModel FftSpec.
Open Scope R_scope. Open Scope C_scope.

(* a position (y, x), in pixels *)
Definition point := (R * R)%type.
Fixpoint lsumc (l : list C) : C := match l with [] => 0 | z :: t => z + lsumc t end.
(* the inner product of two lists of values *)
Definition linner (a b : list C) : C := lsumc (map (fun p => Cconj (fst p) * snd p) (combine a b)).
(* how far apart two lists of values are: the sum of the squared distances *)
Definition distance2 (a b : list C) : R := fold_right Rplus 0%R (map (fun p : C * C => (Cmod (fst p - snd p)%C ^ 2)%R) (combine a b)).
(* the sum of the squares of an array *)
Definition energy (a : farr C) : R := Re (inner a a).
(* fa is the array of coefficients of the modes ms: those of frequency k along an axis of n are at index k mod n *)
Definition coefficients (ms : list (C * Z * Z)) (fa : farr C) : Prop :=
  forall i j, (0 <= i < f_ny fa)%Z -> (0 <= j < f_nx fa)%Z ->
  f_at fa i j = lsumc (map (fun m : C * Z * Z => let '(c, ky, kx) := m in if (i =? ky mod f_ny fa)%Z && (j =? kx mod f_nx fa)%Z then c else 0) ms).
(* the positions of some pixels, and the values an array has there *)
Definition centres (l : list (Z * Z)) : list point := map (fun p => (IZR (fst p), IZR (snd p))) l.
Definition values (a : farr C) (l : list (Z * Z)) : list C := map (fun p => f_at a (fst p) (snd p)) l.
Definition pixels (ny nx : Z) : list (Z * Z) := list_prod (zrange 0 ny) (zrange 0 nx).
Definition all_zero (a : farr C) : Prop := forall i j, (0 <= i < f_ny a)%Z -> (0 <= j < f_nx a)%Z -> f_at a i j = 0.
