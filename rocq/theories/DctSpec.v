(* Real sums and Chebyshev polynomials. *)
From Coq Require Import Reals.
From Verif Require Import Base ArrModel.
Open Scope R_scope.

(* f 0 + f 1 + ... + f (n-1) *)
Fixpoint rsumn (n : nat) (f : Z -> R) : R := match n with O => 0 | S m => rsumn m f + f (Z.of_nat m) end.
Definition rsum (n : Z) (f : Z -> R) : R := rsumn (Z.to_nat n) f.
(* the Chebyshev polynomial of degree k at x *)
Fixpoint cheb2 (k : nat) (x : R) : R * R := match k with O => (1, x) | S m => let '(a, b) := cheb2 m x in (b, 2 * x * b - a) end.
Definition cheb (k : nat) (x : R) : R := fst (cheb2 k x).
(* the points at which n samples are taken: cos(pi j/(n-1)), from 1 to -1 *)
Definition node (n j : Z) : R := cos (PI * IZR j / IZR (n - 1)).
(* the polynomial with coefficients c 0 .. c (n-1) *)
Definition cheb_eval (n : Z) (c : Z -> R) (x : R) : R := rsum n (fun k => c k * cheb (Z.to_nat k) x).
(* the real inner product of two maps of the same shape *)
Definition rinner (a b : farr R) : R := rsum (f_ny a) (fun y => rsum (f_nx a) (fun x => f_at a y x * f_at b y x)).
