(* Model of pixell/aberration.py: the boost of one direction, the unit conversions of the modulation and the
   Planck functions of utils.py, with exact real arithmetic; and the map doubling of interpol_map. *)
From Coq Require Import Reals Lra ZArith List.
Local Open Scope R_scope.

(* aberration.py:197-207 calc_boost_1d on one value; np.clip(z_obs,-1,1) *)
Definition clip1 (x : R) : R := Rmin (Rmax x (-1)) 1.
Definition gamma (beta : R) : R := / sqrt (1 - beta * beta).
Definition boost_z (z beta : R) : R := clip1 ((z + beta) / (1 + z * beta)).
Definition boost_A (z beta : R) : R := 1 / (gamma beta * (1 - boost_z z beta * beta)).
Definition calc_boost_1d (z beta : R) : R * R := (boost_z z beta, boost_A z beta).

(* utils.py:2312-2336; h, c and k are the physical constants, jy the factor 1e26 *)
Section Planck.
Variables h c k jy : R.
Definition planck (f T : R) : R := 2 * h * f * f * f / (c * c) / (exp (h * f / (k * T)) - 1) * jy.
Definition iplanck_T (f I : R) : R := h * f / k / ln (1 + 1 / (I / jy * (c * c) / (2 * h * f ^ 3))).
Definition dplanck (f T : R) : R :=
  let x := h * f / (k * T) in 2 * x ^ 4 * k ^ 3 * T ^ 2 / (h ^ 2 * (c * c)) / (4 * sinh (x / 2) ^ 2) * jy.

(* aberration.py:317-331 _modulate_T2lin on one pixel; mono is "spin == 0 and dipole" *)
Definition modulate_T2lin (T0 f u : R) (mono : bool) (a ival : R) : R :=
  let scale := dplanck f T0 in
  let oval := planck f (a * (ival * u + T0)) / scale in
  (if mono then oval - planck f T0 / scale else oval - planck f (a * T0) / scale) / u.
(* aberration.py:334-354 _modulate_lin2T on one pixel; Tcmb is utils.T_cmb *)
Definition modulate_lin2T (Tcmb T0 f u : R) (mono : bool) (a ival : R) : R :=
  let scale := dplanck f T0 in
  let oval := ival * u * scale in
  let oval := if mono then oval + planck f T0 else oval + planck f (1 / a * T0) in
  (iplanck_T f oval * a - Tcmb) / u.
End Planck.

(* aberration.py:288-291 the "plain" (T2T) modulation of one pixel *)
Definition modulate_plain (T0 u : R) (mono : bool) (a ival : R) : R :=
  let v := ival * a in if mono then v + (a - 1) * (T0 / u) else v.

(* aberration.py:357-364 fast_rewind on one value, ref=None *)
Definition fast_rewind (period a : R) : R :=
  let off := a - period / 2 in
  let a1 := a - (if Rle_dec period off then period else 0) in
  a1 + (if Rlt_dec off 0 then period else 0).

(* aberration.py:273-283 rotate_pol on one pixel *)
Definition rotate_pol (spin g : R) (qu : R * R) : R * R :=
  let '(q, u) := qu in
  if Req_EM_T spin 0 then qu else (q * cos (spin * g) + u * sin (spin * g), - q * sin (spin * g) + u * cos (spin * g)).

(* np.roll(l, s) of a row *)
Definition np_roll {A} (l : list A) (s : Z) : list A :=
  let k := Z.to_nat ((- s) mod Z.of_nat (length l)) in skipn k l ++ firstn k l.
(* aberration.py:247-253: the y-doubled map of interpol_map as rows: dmap[:ny] = imap and
   dmap[ny:] = np.roll(imap[...,::-1], nx//2, -1) *)
Definition ydouble {A} (nx : Z) (imap : list (list A)) : list (list A) :=
  imap ++ map (fun row => np_roll (rev row) (nx / 2)) imap.
