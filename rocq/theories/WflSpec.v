(* Filters on Fourier grids of different sizes, and when a set of them keeps everything. *)
From Coq Require Import Reals.
From Coquelicot Require Import Complex.
From Verif Require Import Base ArrModel FresSpec FftSpec.
Open Scope R_scope.

(* the value a filter gives the signed frequency (ky, kx): zero when its grid has no such frequency *)
Definition freq_at (n k : Z) : bool := ((- n <=? 2 * k) && (2 * k <? n))%Z.
Definition freq_value (F : farr R) (ky kx : Z) : R :=
  if freq_at (f_ny F) ky && freq_at (f_nx F) kx then f_at F (fidx (f_ny F) ky) (fidx (f_nx F) kx) else 0.
(* the filter lives on a grid that is not larger than the map *)
Definition fits (ny nx : Z) (F : farr R) : Prop := (0 < f_ny F <= ny)%Z /\ (0 < f_nx F <= nx)%Z.
(* along an axis with fewer samples than the map, the filter keeps only frequencies the smaller axis holds *)
Definition holds_freq (n m i : Z) : Prop := n = m \/ inside m (sfreq m i).
Definition supported (ny nx : Z) (F : farr R) : Prop :=
  forall y x, (0 <= y < f_ny F)%Z -> (0 <= x < f_nx F)%Z -> f_at F y x <> 0 -> holds_freq ny (f_ny F) y /\ holds_freq nx (f_nx F) x.
(* the same value at opposite frequencies *)
Definition even_filter (F : farr R) : Prop :=
  forall y x, (0 <= y < f_ny F)%Z -> (0 <= x < f_nx F)%Z -> f_at F ((- y) mod f_ny F) ((- x) mod f_nx F) = f_at F y x.
Definition good_filter (ny nx : Z) (F : farr R) : Prop := fits ny nx F /\ supported ny nx F /\ even_filter F.
Fixpoint rsum (l : list R) : R := match l with [] => 0 | a :: t => a + rsum t end.
(* the squares of the filters add up to one at every frequency of the map *)
Definition complete (ny nx : Z) (Fs : list (farr R)) : Prop :=
  forall y x, (0 <= y < ny)%Z -> (0 <= x < nx)%Z -> rsum (map (fun F => freq_value F (sfreq ny y) (sfreq nx x) ^ 2) Fs) = 1.
(* a pattern with every frequency multiplied by what the filter gives it *)
Definition filtered (F : farr R) (ms : list (C * Z * Z)) : list (C * Z * Z) :=
  map (fun t => let '(c, ky, kx) := t in (Cmult c (RtoC (freq_value F ky kx)), ky, kx)) ms.
