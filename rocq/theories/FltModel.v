(* Models of the filters of enmap.py that work in Fourier space, and of the transforms between maps and flat-sky harmonics. *)
From Coq Require Import Reals.
From Coquelicot Require Import Complex.
From Verif Require Import Base SliceSpec SliceModel RangeModel ArrModel PixModel SpinModel SkyrModel FftSpec FftModel.
Open Scope R_scope. Open Scope C_scope.

(* enmap.py:1230-1235 one axis of laxes with oversample=1: np.fft.fftfreq(n, step)*2*pi; step is the signed pixel size
   extent/shape along the axis, a number other than 0 *)
Definition laxis (n : Z) (step : R) (k : Z) : R := (fftfreq n k / step * 2 * PI)%R.

(* enmap.py:1384-1394 smooth_gauss; (sy, sx) is the pixel size. fft and ifft are used with normalize=True. *)
Definition smooth_gauss (sy sx sigma : R) (a : farr C) : option (farr C) :=
  if Req_EM_T sigma 0 then Some a else
  bind (emap_fft Pix false 1 a) (fun f =>
  let x2 y x := (laxis (f_ny a) sy y ^ 2 * sigma ^ 2 + laxis (f_nx a) sx x ^ 2 * sigma ^ 2)%R in
  let g y x := (if Rle_dec 0 sigma then exp (- 0.5 * x2 y x) else 1 - exp (- 0.5 * x2 y x))%R in
  bind (emap_ifft Pix false 1 (FA (f_ny f) (f_nx f) (fun y x => f_at f y x * RtoC (g y x)))) (fun r => Some (drop_im false r))).

(* np.sinc *)
Definition sinc (x : R) : R := if Req_EM_T x 0 then 1 else sin (PI * x) / (PI * x).
(* utils.py:755-769 pixwin_1d; an order None is Python's None *)
Definition pixwin_1d (order : option Z) (f : R) : option R :=
  match order with
  | None => Some (f * 0 + 1)%R
  | Some 0%Z => Some (sinc f)
  | Some 1%Z => Some (sinc f ^ 2 / (1 / 3 * (2 + cos (2 * PI * f))))%R
  | _ => None
  end.
(* wy**pow. None: a base that is not positive; the code then gives nan, inf or an integer power. *)
Definition rpow (x p : R) : option R := if Rlt_dec 0 x then Some (Rpower x p) else None.
(* enmap.py:1427-1438 calc_window and the power, one axis: all values or none *)
Definition window (n : Z) (order : option Z) (scale pow : R) : option (Z -> R) :=
  if forallb (fun k => match bind (pixwin_1d order (fftfreq n k / scale)) (fun v => rpow v pow) with Some _ => true | None => false end) (zrange 0 n)
  then Some (fun k => match bind (pixwin_1d order (fftfreq n k / scale)) (fun v => rpow v pow) with Some v => v | None => 0 end)
  else None.
(* enmap.py:1440-1451 apply_window; cplx: the result is complex (nofft) *)
Definition apply_window (pow : R) (order : option Z) (scale : R) (nofft : bool) (a : farr C) : option (farr C) :=
  bind (window (f_ny a) order scale pow) (fun wy =>
  bind (window (f_nx a) order scale pow) (fun wx =>
  bind (if nofft then Some a else emap_fft Pix false 1 a) (fun f =>
  let f := FA (f_ny f) (f_nx f) (fun y x => f_at f y x * RtoC (wy y)) in
  let f := FA (f_ny f) (f_nx f) (fun y x => f_at f y x * RtoC (wx x)) in
  if nofft then Some f else bind (emap_ifft Pix false 1 f) (fun r => Some (drop_im false r))))).
(* enmap.py:1453-1455 unapply_window *)
Definition unapply_window (pow : R) (order : option Z) (scale : R) (nofft : bool) (a : farr C) : option (farr C) := apply_window (- pow) order scale nofft a.

(* a function that may fail, on every component *)
Fixpoint each {A B} (f : A -> option B) (l : list A) : option (list B) :=
  match l with [] => Some [] | a :: l => bind (f a) (fun b => bind (each f l) (fun r => Some (b :: r))) end.
(* enmap.py:1373-1382 map_mul with the matrix of queb_rotmat (SkyrModel) on two components p, q *)
Definition rot_first (sy sx : R) (inverse iau : bool) (s : Z) (p q : farr C) : farr C :=
  FA (f_ny p) (f_nx p) (fun y x => let m := queb_rotmat (laxis (f_ny p) sy y) (laxis (f_nx p) sx x) inverse iau s in
    RtoC (fst (fst m)) * f_at p y x + RtoC (snd (fst m)) * f_at q y x).
Definition rot_second (sy sx : R) (inverse iau : bool) (s : Z) (p q : farr C) : farr C :=
  FA (f_ny p) (f_nx p) (fun y x => let m := queb_rotmat (laxis (f_ny p) sy y) (laxis (f_nx p) sx x) inverse iau s in
    RtoC (fst (snd m)) * f_at p y x + RtoC (snd (snd m)) * f_at q y x).
Definition nomap : farr C := FA 0 0 (fun _ _ => RtoC 0).
(* enmap.py:1323-1326, 1332-1335: one turn of the loop over the groups, emap[...,i1:i2,:,:] = map_mul(rot, emap[...,i1:i2,:,:]) *)
Definition rot_group (sy sx : R) (inverse iau : bool) (g : Z * Z * Z) (l : list (farr C)) : list (farr C) :=
  let '(s, i1, i2) := g in
  if (s =? 0)%Z then l else
  let i := Z.to_nat i1 in let p := nth i l nomap in let q := nth (S i) l nomap in
  upd (upd l i (rot_first sy sx inverse iau s p q)) (S i) (rot_second sy sx inverse iau s p q).
(* the loop; None: spin_helper raises *)
Definition rot_all (sy sx : R) (inverse iau : bool) (spin : list Z) (l : list (farr C)) : option (list (farr C)) :=
  match spin_helper (length l + 2) spin (Z.of_nat (length l)) with
  | (gs, Done) => Some (fold_left (fun l g => rot_group sy sx inverse iau g l) gs l)
  | _ => None
  end.
(* enmap.py:1313-1327 map2harm of a map with the components l; flat: emap.ndim == 2, one component. pixsize is emap.pixsize() *)
Definition map2harm (flat : bool) (sy sx : R) (nrm : norm) (iau : bool) (spin : list Z) (adjoint_harm2map : bool) (pixsize : R) (l : list (farr C)) : option (list (farr C)) :=
  bind (each (emap_fft nrm adjoint_harm2map pixsize) l) (fun l => if flat then Some l else rot_all sy sx false iau spin l).
(* enmap.py:1328-1338 harm2map *)
Definition harm2map (flat : bool) (sy sx : R) (nrm : norm) (iau : bool) (spin : list Z) (keep_imag adjoint_map2harm : bool) (pixsize : R) (l : list (farr C)) : option (list (farr C)) :=
  bind (if flat then Some l else rot_all sy sx true iau spin l) (fun l =>
  bind (each (emap_ifft nrm adjoint_map2harm pixsize) l) (fun r => Some (map (drop_im keep_imag) r))).
(* enmap.py:1340-1341 map2harm_adjoint *)
Definition map2harm_adjoint (flat : bool) (sy sx : R) (nrm : norm) (iau : bool) (spin : list Z) (keep_imag : bool) (pixsize : R) (l : list (farr C)) : option (list (farr C)) :=
  harm2map flat sy sx nrm iau spin keep_imag true pixsize l.
(* enmap.py:1343-1344 harm2map_adjoint *)
Definition harm2map_adjoint (flat : bool) (sy sx : R) (nrm : norm) (iau : bool) (spin : list Z) (pixsize : R) (l : list (farr C)) : option (list (farr C)) :=
  map2harm flat sy sx nrm iau spin true pixsize l.
