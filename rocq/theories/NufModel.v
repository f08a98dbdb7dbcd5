(* Models of the nonuniform Fourier functions of fft.py. Numbers are exact; one field with two transformed axes (y, x), given by the
   axes argument; leading axes would be looped over. A position list is iflat, the positions flattened to a list. *)
From Coq Require Import Reals.
From Coquelicot Require Import Complex.
From Verif Require Import Base ArrModel PixModel CgSpec CgModel FftSpec FftModel NufSpec.
Open Scope R_scope. Open Scope C_scope.

(* fft.py:481-483, 500-502: what ducc0.nufft.u2nu and nu2u compute with fft_order=True, without the error that epsilon allows: the
   frequency of index k of n, the sign of the exponent and the sums. This is the documented behaviour of that library, not its code. *)
Definition sfreq (n k : Z) : Z := if (k <? (n - 1) / 2 + 1)%Z then k else (k - n)%Z.
Definition sg (forward : bool) : R := if forward then -1 else 1.
Definition kern (forward : bool) (py px ny nx : Z) (q : point) (i j : Z) : C :=
  cis (sg forward * (2 * PI * (IZR (sfreq ny i) * fst q / IZR py + IZR (sfreq nx j) * snd q / IZR px))).
Definition ducc_u2nu (forward : bool) (py px : Z) (g : farr C) (pos : list point) : list C :=
  map (fun q => csum2 (f_ny g) (f_nx g) (fun i j => f_at g i j * kern forward py px (f_ny g) (f_nx g) q i j)) pos.
Definition ducc_nu2u (forward : bool) (py px ny nx : Z) (pos : list point) (pts : list C) : farr C :=
  FA ny nx (fun i j => lsumc (map (fun p => snd p * kern forward py px ny nx (fst p) i j) (combine pos pts))).

(* fft.py:745-746 (_nufft_helper) and 614-615 (u2nu_plan): periodicity, by default the shape of the transformed axes *)
Definition periods (per : option (Z * Z)) (ny nx : Z) : Z * Z := match per with None => (ny, nx) | Some p => p end.
(* fft.py:484-485, 503-504: the imaginary parts are dropped if the output array is real *)
Definition re_if (cplx : bool) (z : C) : C := if cplx then z else RtoC (Re z).

(* fft.py:449-490 u2nu; cplx: the type of the output array; op: the operation on each field before the transform, None if it fails *)
Definition u2nu (normalize forward cplx : bool) (per : option (Z * Z)) (op : farr C -> option (farr C)) (fa : farr C) (pos : list point) : option (list C) :=
  bind (op fa) (fun grid =>
  let '(py, px) := periods per (f_ny fa) (f_nx fa) in
  let res := ducc_u2nu forward py px grid pos in
  let nu := map (re_if cplx) res in
  Some (if normalize then map (fun z => z / RtoC (IZR (f_ny fa * f_nx fa))) nu else nu)).
Definition no_op (fa : farr C) : option (farr C) := Some fa.
(* fft.py:428-447 interpol_nufft *)
Definition interpol_nufft (nofft normalize cplx : bool) (per : option (Z * Z)) (a : farr C) (pos : list point) : option (list C) :=
  u2nu normalize false cplx per (if nofft then no_op else fft AXY) a pos.

(* fft.py:492-508 nu2u; cplx: the type of the output array, which is complex if it is not given (the name complex in line 496 is
   Python's type, which counts as true). The values must be complex numbers in a list. *)
Definition nu2u (normalize forward cplx : bool) (per : option (Z * Z)) (ny nx : Z) (a : list C) (pos : list point) : farr C :=
  let '(py, px) := periods per ny nx in
  let res := amap (re_if cplx) (ducc_nu2u forward py px ny nx pos a) in
  if normalize then amap (fun z => z / RtoC (IZR (ny * nx))) res else res.

(* fft.py:544-546, 571-573: while solver.err > h.epsilon: solver.step(). The error starts out infinite. Steps are numpy operations: a
   division by zero makes the solution, and the error, nan, which ends the loop. Running: the steps allowed here did not suffice. *)
Inductive outcome (V : Type) := Running | Nan | Done (v : V).
Arguments Running {V}. Arguments Nan {V}. Arguments Done {V}.
Definition omap {V W} (f : V -> W) (o : outcome V) : outcome W := match o with Running => Running | Nan => Nan | Done v => Done (f v) end.
Definition above (err : option R) (eps : R) : bool := match err with None => true | Some e => if Rlt_dec eps e then true else false end.
Fixpoint cg_while (U : vspace) (A : vec U -> vec U) (dot : vec U -> vec U -> R) (eps : R) (fuel : nat) (s : cg (vec U)) : outcome (vec U) :=
  if above (cg_err s) eps then
    match fuel with
    | O => Running
    | S f => match cg_step U A (fun z => z) dot s with None => Nan | Some s => cg_while U A dot eps f s end
    end
  else Done (cg_x s).
Definition solve (U : vspace) (A : vec U -> vec U) (dot : vec U -> vec U -> R) (b : vec U) (eps : R) (fuel : nat) : outcome (vec U) :=
  cg_while U A dot eps fuel (cg_init U A (fun z => z) dot b None).

(* fft.py:530-531, 562-563 wzip and wunzip, utils.py:3298-3299: complex vectors with elements numbered by idx, seen as real ones with
   twice as many elements. Only those elements of the functions count. *)
Definition fspace (I : Type) : vspace := VS (I -> C) (fun _ => 0) (fun u v i => u i + v i) (fun u v i => u i - v i) (fun a u i => RtoC a * u i).
Definition fdot {I : Type} (idx : list I) (u v : I -> C) : R := fold_right Rplus 0%R (map (fun i => (Re (u i) * Re (v i) + Im (u i) * Im (v i))%R) idx).
(* fft.py:510-553 iu2nu *)
Definition iu2nu (eps : R) (fuel : nat) (normalize forward cplx : bool) (per : option (Z * Z)) (ny nx : Z) (a : list C) (pos : list point) : outcome (farr C) :=
  let '(py, px) := periods per ny nx in
  let unzip (u : Z * Z -> C) := FA ny nx (fun i j => u (i, j)) in
  let P (u : Z * Z -> C) := ducc_u2nu forward py px (unzip u) pos in
  let PT (nu : list C) (p : Z * Z) := f_at (ducc_nu2u (negb forward) py px ny nx pos nu) (fst p) (snd p) in
  let b := PT a in
  let A u := PT (P u) in
  omap (fun x => let res := amap (re_if cplx) (unzip x) in
                 if normalize then amap (fun z => z * RtoC (IZR (ny * nx))) res else res)
       (solve (fspace (Z * Z)) A (fdot (pixels ny nx)) b eps fuel).

Definition to_list (n : Z) (u : Z -> C) : list C := map u (zrange 0 n).
Definition of_list (l : list C) (i : Z) : C := match zget l i with Some z => z | None => 0 end.
(* fft.py:555-580 inu2u; cplx: the type of the output array *)
Definition inu2u (eps : R) (fuel : nat) (normalize forward cplx : bool) (per : option (Z * Z)) (fa : farr C) (pos : list point) : outcome (list C) :=
  let '(py, px) := periods per (f_ny fa) (f_nx fa) in
  let P (u : Z -> C) := ducc_nu2u forward py px (f_ny fa) (f_nx fa) pos (to_list (zlen pos) u) in
  let PT (g : farr C) := of_list (ducc_u2nu (negb forward) py px g pos) in
  let b := PT fa in
  let A u := PT (P u) in
  omap (fun x => let nu := map (re_if cplx) (to_list (zlen pos) x) in
                 if normalize then map (fun z => z * RtoC (IZR (f_ny fa * f_nx fa))) nu else nu)
       (solve (fspace Z) A (fdot (zrange 0 (zlen pos))) b eps fuel).

(* fft.py:585-599 the aliases. The last does not pass its argument complex on, and gets inu2u's default. *)
Definition nufft (eps : R) (fuel : nat) (normalize flip cplx : bool) (per : option (Z * Z)) (ny nx : Z) (a : list C) (pos : list point) : outcome (farr C) :=
  iu2nu eps fuel normalize flip cplx per ny nx a pos.
Definition inufft (normalize flip cplx : bool) (per : option (Z * Z)) (op : farr C -> option (farr C)) (fa : farr C) (pos : list point) : option (list C) :=
  u2nu normalize flip cplx per op fa pos.
Definition nufft_adjoint (normalize flip cplx : bool) (per : option (Z * Z)) (ny nx : Z) (a : list C) (pos : list point) : farr C :=
  nu2u normalize (negb flip) cplx per ny nx a pos.
Definition inufft_adjoint (eps : R) (fuel : nat) (normalize flip cplx : bool) (per : option (Z * Z)) (fa : farr C) (pos : list point) : outcome (list C) :=
  inu2u eps fuel normalize (negb flip) true per fa pos.

(* fft.py:608-640 u2nu_plan: what is set up, and 641-655 eval *)
Record plan := Plan { pl_grid : farr C; pl_per : Z * Z; pl_forward : bool; pl_complex : bool; pl_norm : Z; pl_normalize : bool }.
Definition u2nu_plan (normalize forward cplx : bool) (per : option (Z * Z)) (op : farr C -> option (farr C)) (fa : farr C) : option plan :=
  bind (op fa) (fun grid => Some (Plan grid (periods per (f_ny fa) (f_nx fa)) forward cplx (f_ny fa * f_nx fa) normalize)).
Definition plan_eval (p : plan) (pos : list point) : list C :=
  let out := map (re_if (pl_complex p)) (ducc_u2nu (pl_forward p) (fst (pl_per p)) (snd (pl_per p)) (pl_grid p) pos) in
  if pl_normalize p then map (fun z => z / RtoC (IZR (pl_norm p))) out else out.

(* utils.py:623-660 FourierInterpolator: what is made when it is created, and what calling it gives; npre = 0 *)
Inductive precompute := ByPlan | ByFft | ByNone.
Inductive interpolator := IPlan (p : plan) | IFft (farr : farr C) | INone (arr : farr C).
Definition fourier_interpolator (pc : precompute) (cplx : bool) (arr : farr C) : option interpolator :=
  match pc with
  | ByPlan => bind (u2nu_plan true false cplx None (fft AXY) arr) (fun p => Some (IPlan p))
  | ByFft => bind (fft AXY arr) (fun f => Some (IFft f))
  | ByNone => Some (INone arr)
  end.
Definition interpolator_call (cplx : bool) (ip : interpolator) (pos : list point) : option (list C) :=
  match ip with
  | IPlan p => Some (plan_eval p pos)
  | IFft f => interpol_nufft true true cplx None f pos
  | INone a => interpol_nufft false true cplx None a pos
  end.
