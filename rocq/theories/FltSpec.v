(* Waves, integrals and stacks of maps, without reference to the code. *)
From Coq Require Import Reals.
From Coquelicot Require Import Coquelicot.
From Verif Require Import Base SpinSpec ArrModel FftSpec.
Open Scope R_scope. Open Scope C_scope.

(* the sum of all elements, and of their squares *)
Definition total (a : farr C) : C := csum2 (f_ny a) (f_nx a) (f_at a).
Definition power (a : farr C) : R := Re (inner a a).
(* a pattern with every wave (ky, kx) in it multiplied by g ky kx *)
Definition gained (g : Z -> Z -> R) (ms : list (C * Z * Z)) : list (C * Z * Z) := map (fun m => let '(c, ky, kx) := m in (c * RtoC (g ky kx), ky, kx)) ms.

(* integrals of complex functions of one and two real variables *)
Definition cint (f : R -> C) (a b : R) (v : C) : Prop := is_RInt (fun t => Re (f t)) a b (Re v) /\ is_RInt (fun t => Im (f t)) a b (Im v).
Definition cint2 (f : R -> R -> C) (a b c d : R) (v : C) : Prop := exists g, (forall u, cint (f u) c d (g u)) /\ cint g a b v.

(* linear interpolation: how much a sample counts at distance t *)
Definition hat (t : R) : R := 1 - Rabs t.

(* stacks of maps: same number of maps, each the same *)
Definition saeq (a b : list (farr C)) : Prop := Forall2 aeq a b.
Definition osaeq (o : option (list (farr C))) (b : list (farr C)) : Prop := match o with Some a => saeq a b | None => False end.
Definition shaped (ny nx : Z) (l : list (farr C)) : Prop := Forall (fun a => f_ny a = ny /\ f_nx a = nx) l.
Definition sinner (a b : list (farr C)) : C := fold_right (fun p s => inner (fst p) (snd p) + s) 0 (combine a b).
(* what a Gaussian of standard deviation sigma does to the wave with ky and kx periods across a map of ny x nx pixels of size sy x sx *)
Definition gauss_gain (ny nx : Z) (sy sx sigma : R) (ky kx : Z) : R :=
  exp (- (sigma ^ 2 / 2) * ((2 * PI * IZR ky / (IZR ny * sy)) ^ 2 + (2 * PI * IZR kx / (IZR nx * sx)) ^ 2)).
Definition aplus (a b : farr C) : farr C := FA (f_ny a) (f_nx a) (fun y x => f_at a y x + f_at b y x).
(* the overlap of the hats of two samples i-1 pixels apart, and of all hats in a map with the one at (y, x) *)
Definition overlap (i : Z) : R := if (i =? 1)%Z then 4 / 6 else 1 / 6.
Definition overlaps (r : farr C) (y x : Z) : C :=
  csum2 3 3 (fun i j => RtoC (overlap i * overlap j) * f_at r ((y + (i - 1)) mod f_ny r)%Z ((x + (j - 1)) mod f_nx r)%Z).
(* the components 0 .. n-1 can be taken one (spin 0) or two (other spins) at a time, going round the list of spins *)
Definition fits (spin : list Z) (n : Z) : Prop := exists gs, gs <> [] /\ well_grouped spin gs /\ covered gs = zrange 0 n.
(* the direction, from the first axis towards the second, of the wave with ky and kx periods across a map of ny x nx pixels of size sy x sx *)
Definition direction (ny nx : Z) (sy sx : R) (ky kx : Z) (phi : R) : Prop :=
  exists r, (0 < r)%R /\ (IZR ky / (IZR ny * sy) = r * cos phi)%R /\ (IZR kx / (IZR nx * sx) = r * sin phi)%R.
(* patterns of waves with an E amplitude, a B amplitude and a direction: the E pattern, the B pattern, and the spin-s pair (Q, U)
   that has them, where e is 1 or, in the IAU convention, -1 *)
Definition e_pattern (ws : list (C * C * Z * Z * R)) : list (C * Z * Z) := map (fun w => let '(cE, cB, ky, kx, phi) := w in (cE, ky, kx)) ws.
Definition b_pattern (ws : list (C * C * Z * Z * R)) : list (C * Z * Z) := map (fun w => let '(cE, cB, ky, kx, phi) := w in (cB, ky, kx)) ws.
Definition q_pattern (e : R) (s : Z) (ws : list (C * C * Z * Z * R)) : list (C * Z * Z) :=
  map (fun w => let '(cE, cB, ky, kx, phi) := w in (cE * RtoC (cos (IZR s * phi)) + cB * RtoC (e * sin (IZR s * phi)), ky, kx)) ws.
Definition u_pattern (e : R) (s : Z) (ws : list (C * C * Z * Z * R)) : list (C * Z * Z) :=
  map (fun w => let '(cE, cB, ky, kx, phi) := w in (cB * RtoC (cos (IZR s * phi)) - cE * RtoC (e * sin (IZR s * phi)), ky, kx)) ws.
