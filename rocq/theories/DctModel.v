(* Models of the cosine, sine and Chebyshev transforms of fft.py and enmap.py, over exact real numbers. *)
From Coq Require Import Reals.
From Coquelicot Require Import Complex.
From Verif Require Import Base ArrModel PixModel FftSpec FftModel DctSpec.
Open Scope R_scope.

Inductive kind := REDFT00 | REDFT10 | REDFT01 | REDFT11 | RODFT00 | RODFT10 | RODFT01 | RODFT11.
Inductive name := DCT_I | DCT_II | DCT_III | DCT_IV | DST_I | DST_II | DST_III | DST_IV.
(* fft.py:266-275 _dct_names *)
Definition dct_names (t : name) : kind :=
  match t with DCT_I => REDFT00 | DCT_II => REDFT10 | DCT_III => REDFT01 | DCT_IV => REDFT11
             | DST_I => RODFT00 | DST_II => RODFT10 | DST_III => RODFT01 | DST_IV => RODFT11 end.
(* fft.py:276-281 _dct_inverses *)
Definition dct_inverses (k : kind) : kind :=
  match k with REDFT00 => REDFT00 | REDFT10 => REDFT01 | REDFT01 => REDFT10 | REDFT11 => REDFT11
             | RODFT00 => RODFT00 | RODFT10 => RODFT01 | RODFT01 => RODFT10 | RODFT11 => RODFT11 end.
(* fft.py:282-285 _dct_sizes *)
Definition dct_sizes (k : kind) : Z := match k with REDFT00 => -1 | RODFT00 => 1 | _ => 0 end.

(* fft.py:40-46, 61-64: what the engines compute along one axis: the definitions in the FFTW manual (and of ducc's dct/dst of types
   1 to 4). Not their code. *)
Definition h2 (k : Z) : R := IZR k + 1 / 2.
Definition parity (k : Z) : R := if Z.even k then 1 else -1.
Definition r2r (t : kind) (n : Z) (a : Z -> R) (k : Z) : R :=
  match t with
  | REDFT00 => a 0%Z + parity k * a (n - 1)%Z + 2 * rsum (n - 2) (fun j => a (j + 1)%Z * cos (PI * IZR (j + 1) * IZR k / IZR (n - 1)))
  | REDFT10 => 2 * rsum n (fun j => a j * cos (PI * h2 j * IZR k / IZR n))
  | REDFT01 => a 0%Z + 2 * rsum (n - 1) (fun j => a (j + 1)%Z * cos (PI * IZR (j + 1) * h2 k / IZR n))
  | REDFT11 => 2 * rsum n (fun j => a j * cos (PI * h2 j * h2 k / IZR n))
  | RODFT00 => 2 * rsum n (fun j => a j * sin (PI * IZR (j + 1) * IZR (k + 1) / IZR (n + 1)))
  | RODFT10 => 2 * rsum n (fun j => a j * sin (PI * h2 j * IZR (k + 1) / IZR n))
  | RODFT01 => parity k * a (n - 1)%Z + 2 * rsum (n - 1) (fun j => a j * sin (PI * IZR (j + 1) * h2 k / IZR n))
  | RODFT11 => 2 * rsum n (fun j => a j * sin (PI * h2 j * h2 k / IZR n))
  end.
Definition r2r_x t (a : farr R) : farr R := FA (f_ny a) (f_nx a) (fun y k => r2r t (f_nx a) (f_at a y) k).
Definition r2r_y t (a : farr R) : farr R := FA (f_ny a) (f_nx a) (fun k x => r2r t (f_ny a) (fun j => f_at a j x) k).
Definition r2r_ax t (ax : axes) (a : farr R) : farr R := match ax with AX => r2r_x t a | AY => r2r_y t a | AXY => r2r_y t (r2r_x t a) end.
(* a transform of type I needs two samples per axis: FFTW and ducc refuse one *)
Definition dct_ok t (ax : axes) (a : farr R) : bool :=
  match t with REDFT00 => (negb (has_y ax) || (1 <? f_ny a)%Z) && (negb (has_x ax) || (1 <? f_nx a)%Z) | _ => true end.
Definition rscale (c : R) (a : farr R) : farr R := amap (fun z => z * c) a.

(* fft.py:208-230 dct (fft.py:135: an empty array gives None) *)
Definition dct (t : name) (ax : axes) (a : farr R) : option (farr R) :=
  let k := dct_names t in
  if (asize a =? 0)%Z then None else if dct_ok k ax a then Some (r2r_ax k ax a) else None.
(* fft.py:262: np.prod([2*(tod.shape[i]+off) for i in axes]) *)
Definition idct_norm (off : Z) (ax : axes) (a : farr R) : Z :=
  match ax with AX => 2 * (f_nx a + off) | AY => 2 * (f_ny a + off) | AXY => 2 * (f_ny a + off) * (2 * (f_nx a + off)) end.
(* fft.py:232-263 idct *)
Definition idct (normalize : bool) (t : name) (ax : axes) (a : farr R) : option (farr R) :=
  let k := dct_inverses (dct_names t) in
  let off := dct_sizes k in
  if (asize a =? 0)%Z then None else if dct_ok k ax a then
    let tod := r2r_ax k ax a in Some (if normalize then rscale (/ IZR (idct_norm off ax tod)) tod else tod)
  else None.

(* enmap.py:1262-1302 dct and idct of a map: fft and ifft with dct=True; 2*shape-1 is 1271 and 1285 *)
Definition dnorm (nrm : norm) (a : farr R) (f : R) : R :=
  match nrm with NoNorm => 1 | Pix => / sqrt (IZR ((2 * f_ny a - 1) * (2 * f_nx a - 1))) | Phys => / sqrt (IZR ((2 * f_ny a - 1) * (2 * f_nx a - 1))) * f end.
Definition emap_dct (nrm : norm) (adjoint_ifft : bool) (pixsize : R) (a : farr R) : option (farr R) :=
  bind (dct DCT_I AXY a) (fun r => Some (rscale (dnorm nrm a (if adjoint_ifft then / sqrt pixsize else sqrt pixsize)) r)).
Definition emap_idct (nrm : norm) (adjoint_fft : bool) (pixsize : R) (a : farr R) : option (farr R) :=
  bind (idct false DCT_I AXY a) (fun r => Some (rscale (dnorm nrm a (if adjoint_fft then sqrt pixsize else / sqrt pixsize)) r)).

(* fft.py:287-305 redft00 of one row of n samples. With n = 1 the mirrored array is empty, rfft gives None and indexing it fails. *)
Definition mirror (n : Z) (a : Z -> R) (j : Z) : R := if (j <? n)%Z then a j else a (n - 2 - (j - n))%Z.
Definition redft00 (normalize : bool) (n : Z) (a : Z -> R) : option (Z -> R) :=
  if (n <? 2)%Z then None else
  Some (fun k => let b := Re (dft (-1) (2 * (n - 1)) (fun j => RtoC (mirror n a j)) k) in if normalize then b / IZR (2 * (n - 1)) else b).
(* b[1:-1] *= c on n entries *)
Definition inner_mul (n : Z) (c : R) (k : Z) : R := if ((1 <=? k) && (k <? n - 1))%Z then c else 1.
(* fft.py:307-311 chebt, 313-317 ichebt of an array with one axis *)
Definition chebt (n : Z) (a : Z -> R) : option (Z -> R) := bind (redft00 true n a) (fun b => Some (fun k => b k * inner_mul n 2 k)).
Definition ichebt (n : Z) (a : Z -> R) : option (Z -> R) := redft00 false n (fun k => a k * inner_mul n 0.5 k).
(* the same for an array with two axes: the transform is along the last one, but [1:-1] selects along the first *)
Definition redft00_2 (normalize : bool) (a : farr R) : option (farr R) :=
  if (f_nx a <? 2)%Z then None else Some (FA (f_ny a) (f_nx a) (fun y => match redft00 normalize (f_nx a) (f_at a y) with Some b => b | None => fun _ => 0 end)).
Definition chebt2 (a : farr R) : option (farr R) :=
  bind (redft00_2 true a) (fun b => Some (FA (f_ny b) (f_nx b) (fun y x => f_at b y x * inner_mul (f_ny b) 2 y))).
Definition ichebt2 (a : farr R) : option (farr R) :=
  redft00_2 false (FA (f_ny a) (f_nx a) (fun y x => f_at a y x * inner_mul (f_ny a) 0.5 y)).
