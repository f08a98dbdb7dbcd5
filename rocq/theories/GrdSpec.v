(* Patterns on a flat sky and their derivatives, without reference to the code. *)
From Coq Require Import Reals.
From Coquelicot Require Import Complex.
From Verif Require Import Base ArrModel FftSpec.
Open Scope R_scope.

(* frequency k is below the Nyquist frequency of n samples *)
Definition below (n k : Z) : Prop := (2 * Z.abs k < n)%Z.
Definition below_all (ny nx : Z) (ms : list (C * Z * Z)) : Prop :=
  List.Forall (fun m => let '(_, ky, kx) := m in below ny ky /\ below nx kx) ms.

(* a real pattern: the real part of a finite sum of waves that repeat after ny pixels of size sy in one direction
   and nx pixels of size sx in the other, as a function of the position (p, q) *)
Definition field (ny nx : Z) (sy sx : R) (ms : list (C * Z * Z)) (p q : R) : R :=
  Re (trig ms (p / (IZR ny * sy)) (q / (IZR nx * sx))).
(* the position of row y, when row 0 is at oy pixels *)
Definition place (s o : R) (y : Z) : R := s * (IZR y + o).
(* a pattern seen by a map *)
Definition seen (ny nx : Z) (sy sx oy ox : R) (f : R -> R -> R) : farr C :=
  FA ny nx (fun y x => RtoC (f (place sy oy y) (place sx ox x))).
(* l is the second derivative of f at t *)
Definition second_derivative (f : R -> R) (t l : R) : Prop :=
  exists f', (forall u, derivable_pt_lim f u (f' u)) /\ derivable_pt_lim f' t l.
