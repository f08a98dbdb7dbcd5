(* Complex numbers, sums over index ranges and sampled trigonometric polynomials. *)
From Coq Require Import Reals.
From Coquelicot Require Import Complex.
From Verif Require Import Base ArrModel.
Open Scope R_scope. Open Scope C_scope.

(* the unit complex number at angle t *)
Definition cis (t : R) : C := (cos t, sin t).
(* f 0 + f 1 + ... + f (n-1) *)
Fixpoint csumn (n : nat) (f : Z -> C) : C := match n with O => 0 | S m => csumn m f + f (Z.of_nat m) end.
Definition csum (n : Z) (f : Z -> C) : C := csumn (Z.to_nat n) f.
Definition csum2 (ny nx : Z) (f : Z -> Z -> C) : C := csum ny (fun y => csum nx (f y)).

(* arrays with the same shape and the same elements *)
Definition aeq {A} (a b : farr A) : Prop :=
  f_ny a = f_ny b /\ f_nx a = f_nx b /\ forall y x, (0 <= y < f_ny a)%Z -> (0 <= x < f_nx a)%Z -> f_at a y x = f_at b y x.
Definition oaeq {A} (o : option (farr A)) (b : farr A) : Prop := match o with Some a => aeq a b | None => False end.
Definition asize {A} (a : farr A) : Z := (f_ny a * f_nx a)%Z.
Definition nonempty {A} (a : farr A) : Prop := (0 < f_ny a)%Z /\ (0 < f_nx a)%Z.
Definition amap {A B} (g : A -> B) (a : farr A) : farr B := FA (f_ny a) (f_nx a) (fun y x => g (f_at a y x)).
(* arrays of real numbers *)
Definition is_real (a : farr C) : Prop := forall y x, (0 <= y < f_ny a)%Z -> (0 <= x < f_nx a)%Z -> Im (f_at a y x) = 0%R.
(* the inner product of two arrays of the same shape *)
Definition inner (a b : farr C) : C := csum2 (f_ny a) (f_nx a) (fun y x => Cconj (f_at a y x) * f_at b y x).
(* every element moved sy down and sx right, those that leave come back on the other side *)
Definition rolled {A} (sy sx : Z) (a : farr A) : farr A :=
  FA (f_ny a) (f_nx a) (fun y x => f_at a ((y - sy) mod f_ny a)%Z ((x - sx) mod f_nx a)%Z).

(* a trigonometric polynomial on the unit square: a finite sum of c * exp(2 pi i (ky u + kx v)) *)
Definition trig (ms : list (C * Z * Z)) (u v : R) : C :=
  fold_right (fun m s => let '(c, ky, kx) := m in c * cis (2 * PI * (IZR ky * u + IZR kx * v)) + s) 0 ms.
(* frequency k is below the highest one an axis of n samples can hold *)
Definition inside (n k : Z) : Prop := (2 * Z.abs k + 1 < n)%Z.
Definition band (ny nx : Z) (ms : list (C * Z * Z)) : Prop := List.Forall (fun m => let '(_, ky, kx) := m in inside ny ky /\ inside nx kx) ms.
(* f sampled at n points per axis, at the fractions (i + o) / n of the axis *)
Definition sampled (ny nx : Z) (oy ox : R) (f : R -> R -> C) : farr C :=
  FA ny nx (fun y x => f ((IZR y + oy) / IZR ny)%R ((IZR x + ox) / IZR nx)%R).

(* the derivative of a complex function of one real variable *)
Definition has_derivative (f : R -> C) (s : R) (l : C) : Prop := derivable_pt_lim (fun t => Re (f t)) s (Re l) /\ derivable_pt_lim (fun t => Im (f t)) s (Im l).
