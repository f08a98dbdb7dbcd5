(* resample.py: changing the number of samples along axes, by Fourier transforms and by binning. Arrays have 2 dimensions. *)
From Coq Require Import Reals Qround.
From Coquelicot Require Import Complex.
From Verif Require Import Base SliceSpec ArrModel PixModel BlockModel DownModel DctSpec FftSpec FftModel.
Open Scope Z_scope.

(* python: l[i] with a possibly negative i, of a list of 2 *)
Definition pick2 {A} (y x : A) (i : Z) : option A :=
  if (i =? 0) || (i =? -2) then Some y else if (i =? 1) || (i =? -1) then Some x else None.
(* int(x): towards zero; round(x): to the nearest, halves to even *)
Definition pyint (q : Q) : Z := if Qle_bool 0 q then Qfloor q else Qceiling q.
Definition pyround (q : Q) : Z :=
  let f := Qfloor q in let r := (q - inject_Z f)%Q in
  if negb (Qle_bool (1 # 2) r) then f else if Qeq_bool r (1 # 2) then if Z.even f then f else f + 1 else f + 1.
(* np.allclose(factors, 1) *)
Definition Qabs' (q : Q) : Q := if Qle_bool 0 q then q else (- q)%Q.
Definition allclose1 (fs : list Q) : bool := forallb (fun f => Qle_bool (Qabs' (f - 1)) ((1 # 100000000) + (1 # 100000))) fs.
(* the axes argument of fft.fft for a list of distinct axes *)
Definition to_ax (axs : list Z) : option axes :=
  match map (fun a => a mod 2) axs with
  | [a] => Some (if a =? 0 then AY else AX)
  | [a; b] => if a =? b then None else Some AXY
  | _ => None
  end.

(* resample.py:78-93 and 107-113: one axis of the spectrum, with zeros put in or values left out in the middle *)
Definition splice (nold nnew : Z) (fd : Z -> C) (k : Z) : C :=
  let dn := nnew - nold in
  if 0 <? dn then
    if k <? nold / 2 then fd k else if k <? nold / 2 + dn then RtoC 0 else fd (k - dn)
  else if dn <? 0 then
    if k <? nnew / 2 then fd k else fd (k - dn)
  else fd k.
Definition splice_x (nold nnew : Z) (fd : farr C) : farr C := FA (f_ny fd) nnew (fun y => splice nold nnew (f_at fd y)).
Definition splice_y (nold nnew : Z) (fd : farr C) : farr C := FA nnew (f_nx fd) (fun y x => splice nold nnew (fun i => f_at fd i x) y).

(* resample.py:101-118 resample_fft_simple. The rows are transformed in groups of 100; every row is transformed by itself, so the groups
   make no difference. .real is taken whatever the type of d. *)
Definition resample_fft_simple (n : Z) (d : farr C) : option (farr C) :=
  let nold := f_nx d in
  if n =? nold then Some d else
  bind (fft AX d) (fun fd =>
  bind (ifft true AX (splice_x nold n fd)) (fun r =>
  Some (scale (RtoC (IZR n / IZR nold)) (drop_im false r)))).

(* resample.py:54-99 resample_fft; cplx: d has a complex type. Axes listed twice give None. *)
Definition resample_fft (cplx : bool) (axes : option (list Z)) (n : list Z) (d : farr C) : option (farr C) :=
  let axs := match axes with None => zrange (- zlen n) 0 | Some l => l end in
  let n := match n with [m] => repeat m (length axs) | _ => n end in
  if negb (zlen n =? zlen axs) || (2 <? zlen n) || negb (forallb (fun a => (-2 <=? a) && (a <? 2)) axs) then None else
  match n, axs with
  | [m], [a] =>
      if f_nx d =? m then Some d else
      if (a =? 1) || (a =? -1) then resample_fft_simple m d else
      bind (fft AY d) (fun fd =>
      let fd := splice_y (f_ny d) m fd in
      let norm := (1 * (IZR m / IZR (f_ny d)))%R in
      bind (ifft true AY fd) (fun r => Some (drop_im cplx (scale (RtoC norm) r))))
  | [u; v], [a; b] =>
      if (f_ny d =? u) && (f_nx d =? v) then Some d else
      bind (to_ax axs) (fun ax =>
      bind (fft ax d) (fun fd =>
      let step (st : farr C * R) (an : Z * Z) :=
        let '(fd, norm) := st in let '(a, nnew) := an in
        if a mod 2 =? 0 then (splice_y (f_ny d) nnew fd, (norm * (IZR nnew / IZR (f_ny d)))%R)
        else (splice_x (f_nx d) nnew fd, (norm * (IZR nnew / IZR (f_nx d)))%R) in
      let '(fd, norm) := fold_left step [(a, u); (b, v)] (fd, 1%R) in
      bind (ifft true ax fd) (fun r => Some (drop_im cplx (scale (RtoC norm) r)))))
  | _, _ => None
  end.

(* resample.py:5-16 resample, method="fft" *)
Definition resample (cplx : bool) (factors : list Q) (axes : option (list Z)) (d : farr C) : option (farr C) :=
  if allclose1 factors then Some d else
  let axs := match axes with None => zrange (- zlen factors) 0 | Some l => l end in
  bind (fold_right (fun (af : Z * Q) l => bind l (fun l => bind (pick2 (f_ny d) (f_nx d) (fst af)) (fun s => Some (pyint (inject_Z s * snd af + (1 # 2)) :: l)))) (Some []) (combine axs factors)) (fun lens =>
  resample_fft cplx (Some axs) lens d).

(* fullsteps of downsample_bin and upsample_bin *)
Definition fullsteps (axs steps : list Z) : option (Z * Z) :=
  if (2 <? zlen steps) || negb (zlen axs =? zlen steps) then None else
  fold_left (fun fs (st : Z * Z) => bind fs (fun fs => let '(y, x) := fs in let '(a, s) := st in pick2 (s, x) (y, s) a)) (combine axs steps) (Some (1, 1)).
(* resample.py:25-39 downsample_bin: whole blocks only, and the mean of each. Steps below 1 give None. *)
Definition downsample_bin (axes : option (list Z)) (steps : list Z) (d : farr R) : option (farr R) :=
  let axs := match axes with None => zrange (- zlen steps) 0 | Some l => l end in
  bind (fullsteps axs steps) (fun fs => let '(sy, sx) := fs in
  if (sy <? 1) || (sx <? 1) then None else
  let c := FA (f_ny d / sy * sy) (f_nx d / sx * sx) (f_at d) in
  Some (FA (f_ny c / sy) (f_nx c / sx) (fun y x => (rsum sy (fun i => rsum sx (fun j => f_at c (y * sy + i)%Z (x * sx + j)%Z)) / IZR (sy * sx))%R))).
(* resample.py:41-52 upsample_bin: every element repeated. The axes left out are -1, -2, ... *)
Definition upsample_bin {A} (axes : option (list Z)) (steps : list Z) (d : farr A) : option (farr A) :=
  let axs := match axes with None => map Z.opp (zrange 1 (zlen steps + 1)) | Some l => l end in
  bind (fullsteps axs steps) (fun fs => let '(sy, sx) := fs in
  if (sy <? 1) || (sx <? 1) then None else
  Some (FA (f_ny d * sy) (f_nx d * sx) (fun y x => f_at d (y / sy)%Z (x / sx)%Z))).
(* resample.py:18-23 resample_bin *)
Definition resample_bin (axes : option (list Z)) (factors : list Q) (d : farr R) : option (farr R) :=
  if allclose1 factors then Some d else
  if existsb (fun f => Qeq_bool f 0) factors then None else
  let down := map (fun f => Z.max 1 (pyround (/ f))) factors in
  let up := map (fun f => Z.max 1 (pyround f)) factors in
  bind (downsample_bin axes down d) (fun d => upsample_bin axes up d).
