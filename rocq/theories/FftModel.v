(* Models of the Fourier functions of fft.py and enmap.py. Numbers are exact complex numbers. Real arrays are arrays whose imaginary
   parts are zero. An array has two axes (y, x); further leading axes would be transformed independently of each other. *)
From Coq Require Import Reals Qreals.
From Coquelicot Require Import Complex.
From Verif Require Import Base SliceSpec ArrModel PixModel BlockModel DownModel FresModel FftSpec.
Open Scope R_scope. Open Scope C_scope.

(* the axes argument: [-1], [-2] or [-2,-1] *)
Inductive axes := AX | AY | AXY.
Definition has_y (ax : axes) : bool := match ax with AX => false | _ => true end.
Definition has_x (ax : axes) : bool := match ax with AY => false | _ => true end.

(* exp(2 pi i m/n) *)
Definition w (n m : Z) : C := cis (2 * PI * IZR m / IZR n).
(* fft.py:15-31, 51-60: what the engines (numpy, ducc, fftw) compute along one axis, unnormalised: sgn -1 forward, +1 backward.
   This is the documented behaviour of those libraries, not their code. *)
Definition dft (sgn : Z) (n : Z) (a : Z -> C) (k : Z) : C := csum n (fun j => a j * w n (sgn * (j * k))).
Definition dft_x (sgn : Z) (a : farr C) : farr C := FA (f_ny a) (f_nx a) (fun y k => dft sgn (f_nx a) (f_at a y) k).
Definition dft_y (sgn : Z) (a : farr C) : farr C := FA (f_ny a) (f_nx a) (fun k x => dft sgn (f_ny a) (fun j => f_at a j x) k).
Definition dft_ax (sgn : Z) (ax : axes) (a : farr C) : farr C :=
  match ax with AX => dft_x sgn a | AY => dft_y sgn a | AXY => dft_y sgn (dft_x sgn a) end.

(* np.prod([tod.shape[i] for i in axes]) *)
Definition nprod {A} (ax : axes) (a : farr A) : Z := match ax with AX => f_nx a | AY => f_ny a | AXY => f_ny a * f_nx a end.
Definition scale (c : C) (a : farr C) : farr C := amap (fun z => z * c) a.

(* fft.py:124-149 fft with ft=None. An empty array gives None (tod.size == 0: return). *)
Definition fft (ax : axes) (a : farr C) : option (farr C) := if (asize a =? 0)%Z then None else Some (dft_ax (-1) ax a).
(* fft.py:151-177 ifft with tod=None *)
Definition ifft (normalize : bool) (ax : axes) (a : farr C) : option (farr C) :=
  if (asize a =? 0)%Z then None else
  let tod := dft_ax 1 ax a in
  Some (if normalize then scale (/ RtoC (IZR (nprod ax tod))) tod else tod).

(* fft.py:179-189 rfft along the last axis: the first n//2+1 coefficients *)
Definition rfft (a : farr C) : option (farr C) :=
  if (asize a =? 0)%Z then None else Some (FA (f_ny a) (f_nx a / 2 + 1)%Z (f_at (dft_x (-1) a))).
(* fft.py:29,60: what the engines do going from half a spectrum to n real samples: the other half is the conjugate, imaginary parts of
   the result are dropped *)
Definition herm (n : Z) (h : Z -> C) (k : Z) : C := if (2 * k <=? n)%Z then h k else Cconj (h (n - k)%Z).
Definition c2r (n : Z) (h : Z -> C) (j : Z) : C := RtoC (Re (dft 1 n (herm n h) j)).
(* fft.py:191-206 irfft along the last axis; n = 0 is Python's None (n or ...) *)
Definition irfft (n : Z) (normalize : bool) (ft : farr C) : option (farr C) :=
  let m := if (n =? 0)%Z then ((f_nx ft - 1) * 2)%Z else n in
  if (asize ft =? 0)%Z then None else
  let tod := FA (f_ny ft) m (fun y => c2r m (f_at ft y)) in
  Some (if normalize then scale (/ RtoC (IZR m)) tod else tod).

(* fft.py:330 fftfreq (np.fft.fftfreq with d=1) at index k *)
Definition fftfreq (n k : Z) : R := (IZR (if (k <? (n - 1) / 2 + 1)%Z then k else k - n) / IZR n)%R.
(* fft.py:356-359 the factor of one axis; d: deriv is this axis *)
Definition phase (n : Z) (s : R) (d : bool) (k : Z) : C :=
  let f := fftfreq n k in
  let p := cis (- 2 * PI * f * s) in
  if d then p * (- (2) * Ci * RtoC PI * RtoC f) else p.
Definition drop_im (cplx : bool) (a : farr C) : farr C := if cplx then a else amap (fun z => RtoC (Re z)) a.
(* fft.py:342-363 shift. shift = [sx], [sy] or [sy,sx] according to the axes; dy/dx: the axis deriv picks; cplx = np.iscomplexobj(a) *)
Definition shift (cplx : bool) (ax : axes) (sy sx : R) (dy dx : bool) (nofft : bool) (a : farr C) : option (farr C) :=
  bind (if nofft then Some a else fft ax a) (fun fa =>
  let fa := if has_y ax then FA (f_ny fa) (f_nx fa) (fun y x => f_at fa y x * phase (f_ny fa) sy dy y) else fa in
  let fa := if has_x ax then FA (f_ny fa) (f_nx fa) (fun y x => f_at fa y x * phase (f_nx fa) sx dx x) else fa in
  bind (if nofft then Some fa else ifft true ax fa) (fun ca => Some (drop_im cplx ca))).

(* fft.py:365-379 resample of both axes; resample_fft is fft.py:381-427 *)
Definition resample (cplx : bool) (ny nx : Z) (a : farr C) : option (farr C) :=
  bind (fft AXY a) (fun fa =>
  let norm := / RtoC (IZR (nprod AXY a)) in
  bind (FresModel.resample_fft (RtoC 0) (fun z => z * norm) (fun _ b => b) fa ny nx) (fun fo =>
  bind (ifft false AXY fo) (fun out => Some (drop_im cplx out)))).

(* enmap.py:1262-1296 fft and ifft of a map without dct. nrm is normalize: False, True or "phys"; pixsize is emap.pixsize() *)
Inductive norm := NoNorm | Pix | Phys.
Definition enorm (nrm : norm) (n : Z) (f : R) : R :=
  match nrm with NoNorm => 1 | Pix => / sqrt (IZR n) | Phys => / sqrt (IZR n) * f end.
Definition emap_fft (nrm : norm) (adjoint_ifft : bool) (pixsize : R) (a : farr C) : option (farr C) :=
  bind (fft AXY a) (fun r => Some (scale (RtoC (enorm nrm (nprod AXY a) (if adjoint_ifft then / sqrt pixsize else sqrt pixsize))) r)).
Definition emap_ifft (nrm : norm) (adjoint_fft : bool) (pixsize : R) (a : farr C) : option (farr C) :=
  bind (ifft false AXY a) (fun r => Some (scale (RtoC (enorm nrm (nprod AXY a) (if adjoint_fft then sqrt pixsize else / sqrt pixsize))) r)).

(* enmap.py:3128-3175 resample_fft with a new output and the factor nrm. The shift is skipped by the code when off is zero, when it
   multiplies by 1. *)
Definition emap_resample_fft (corner : bool) (offy offx : R) (nrm : C) (oy ox : Z) (fi : farr C) : option (farr C) :=
  let offy := (if corner then offy - (1 / 2 - 1 / 2 * IZR oy / IZR (f_ny fi)) else offy)%R in
  let offx := (if corner then offx - (1 / 2 - 1 / 2 * IZR ox / IZR (f_nx fi)) else offx)%R in
  bind (FresModel.resample_fft (RtoC 0) (fun z => z * nrm) (fun _ b => b) fi oy ox) (fun fo =>
  shift true AXY offy offx false false true fo).
(* enmap.py:3148-3156 the factor for norm = "plain", "pix" and "phys"; mo and ni are the numbers of output and input pixels *)
Definition unit_norm (u : norm) (mo ni : Z) : R :=
  match u with NoNorm => IZR mo / IZR ni | Pix => sqrt (IZR mo / IZR ni) | Phys => 1 end.
(* enmap.py:3109-3115 resample with method="fft": corner and off as given, norm=1/map.npix *)
Definition emap_resample (corner : bool) (offy offx : R) (oy ox : Z) (a : farr C) : option (farr C) :=
  bind (emap_fft NoNorm false 1 a) (fun fi =>
  bind (emap_resample_fft corner offy offx (/ RtoC (IZR (nprod AXY a))) oy ox fi) (fun fo =>
  bind (emap_ifft NoNorm false 1 fo) (fun o => Some (drop_im false o)))).
(* the same with the wcs: enmap.py:3144 *)
Definition map_resample (corner : bool) (offy offx : R) (oy ox : Z) (m : fmap C) : option (fmap C) :=
  bind (emap_resample corner offy offx oy ox (fm_arr m)) (fun o =>
  Some (FM o (wcs_scale (fm_wcs m) (inject_Z ox / inject_Z (f_nx (fm_arr m))) (inject_Z oy / inject_Z (f_ny (fm_arr m))) corner))).

(* enmap.py:3077-3087 shift. off has one entry (last axis) or two; np.roll moves elements cyclically. crpix += off[::-1] adds one entry
   to both numbers of crpix. *)
Definition roll_y {A} (o : Z) (a : farr A) : farr A := FA (f_ny a) (f_nx a) (fun y x => f_at a ((y - o) mod f_ny a)%Z x).
Definition roll_x {A} (o : Z) (a : farr A) : farr A := FA (f_ny a) (f_nx a) (fun y x => f_at a y ((x - o) mod f_nx a)%Z).
Definition add_crpix (dx dy : Q) (v : wcs) : wcs := Wcs (crval_x v) (crpix_x v + dx)%Q (cdelt_x v) (crval_y v) (crpix_y v + dy)%Q (cdelt_y v).
Definition map_shift {A} (keepwcs : bool) (off : list Z) (m : fmap A) : option (fmap A) :=
  let rx o (a : farr A) := if (o =? 0)%Z then a else roll_x o a in
  let ry o (a : farr A) := if (o =? 0)%Z then a else roll_y o a in
  match off with
  | [o] => Some (FM (rx o (fm_arr m)) (if keepwcs then fm_wcs m else add_crpix (inject_Z o) (inject_Z o) (fm_wcs m)))
  | [oy; ox] => Some (FM (rx ox (ry oy (fm_arr m))) (if keepwcs then fm_wcs m else add_crpix (inject_Z ox) (inject_Z oy) (fm_wcs m)))
  | _ => None
  end.
(* enmap.py:3089-3094 fractional_shift with off = (oy, ox) *)
Definition map_fshift (cplx keepwcs : bool) (oy ox : Q) (m : fmap C) : option (fmap C) :=
  bind (shift cplx AXY (Q2R oy) (Q2R ox) false false false (fm_arr m)) (fun a =>
  Some (FM a (if keepwcs then fm_wcs m else add_crpix ox oy (fm_wcs m)))).
