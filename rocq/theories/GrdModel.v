(* Models of the derivatives of maps in enmap.py. *)
From Coq Require Import Reals.
From Coquelicot Require Import Complex.
From Verif Require Import Base ArrModel PixModel FftSpec FftModel FltModel.
Open Scope R_scope. Open Scope C_scope.

(* enmap.py:2337-2339 grad, the two maps of the result; (sy, sx) is the signed pixel size of laxes (lmap and laxes, enmap.py:1197-1204, 1230-1253).
   fft and ifft are used with normalize=True. *)
Definition grad (sy sx : R) (a : farr C) : option (farr C * farr C) :=
  bind (emap_fft Pix false 1 a) (fun f =>
  bind (emap_ifft Pix false 1 (FA (f_ny f) (f_nx f) (fun y x => f_at f y x * RtoC (laxis (f_ny a) sy y) * Ci))) (fun gy =>
  bind (emap_ifft Pix false 1 (FA (f_ny f) (f_nx f) (fun y x => f_at f y x * RtoC (laxis (f_nx a) sx x) * Ci))) (fun gx =>
  Some (drop_im false gy, drop_im false gx)))).

(* enmap.py:2341-2347 grad_pix; extent(signed=True) is the shape times the signed pixel size *)
Definition grad_pix (sy sx : R) (a : farr C) : option (farr C * farr C) :=
  bind (grad sy sx a) (fun g =>
  Some (amap (fun z => z * RtoC (IZR (f_ny a) / (IZR (f_ny a) * sy))) (fst g),
        amap (fun z => z * RtoC (IZR (f_nx a) / (IZR (f_nx a) * sx))) (snd g))).

(* enmap.py:2349-2351 div of the two maps vy, vx *)
Definition div (sy sx : R) (vy vx : farr C) : option (farr C) :=
  bind (emap_fft Pix false 1 vy) (fun fy =>
  bind (emap_fft Pix false 1 vx) (fun fx =>
  bind (emap_ifft Pix false 1 (FA (f_ny fy) (f_nx fy) (fun y x =>
     f_at fy y x * RtoC (laxis (f_ny vy) sy y) * Ci + f_at fx y x * RtoC (laxis (f_nx vy) sx x) * Ci))) (fun r =>
  Some (drop_im false r)))).

(* enmap.py:2358-2359 laplace *)
Definition laplace (sy sx : R) (a : farr C) : option (farr C) :=
  bind (emap_fft Pix false 1 a) (fun f =>
  bind (emap_ifft Pix false 1 (FA (f_ny f) (f_nx f) (fun y x =>
     f_at f y x * RtoC (laxis (f_ny a) sy y ^ 2 + laxis (f_nx a) sx x ^ 2)))) (fun r =>
  Some (amap (fun z => - z) (drop_im false r)))).
