(* Models of wavelets.WaveletTransform for a flat-sky harmonic transform (uht.mode == "flat"), of one component. *)
From Coq Require Import Reals.
From Coquelicot Require Import Complex.
From Verif Require Import Base SliceSpec ArrModel PixModel BlockModel FresSpec FresModel FftSpec FftModel WflSpec.
Open Scope R_scope. Open Scope C_scope.

(* wavelets.py:276-277 one wavelet scale: self.filters[i] and self.norms[i]. The shape of self.geometries[i] is that of the filter. *)
Record level := Level { lv_filt : farr R; lv_norm : R }.

(* enmap.py:3128-3176 resample_fft(fimap, oshape, fomap=out, norm=None, corner=True, op=np.add): add the frequencies the two grids
   share to what is in out, then move all of out to the pixel centres *)
Definition resample_add (fi out : farr C) : option (farr C) :=
  let oy := f_ny out in let ox := f_nx out in
  let offy := (0 - (1 / 2 - 1 / 2 * IZR oy / IZR (f_ny fi)))%R in
  let offx := (0 - (1 / 2 - 1 / 2 * IZR ox / IZR (f_nx fi)))%R in
  let cny := Z.min (f_ny fi) oy in let cnx := Z.min (f_nx fi) ox in
  let hny := (cny / 2)%Z in let hnx := (cnx / 2)%Z in
  let y1 := sl_to hny in let y2 := sl_from (- (cny - hny)) in
  let x1 := sl_to hnx in let x2 := sl_from (- (cnx - hnx)) in
  bind (transfer (fun z => z) Cplus fi y1 x1 out) (fun o =>
  bind (transfer (fun z => z) Cplus fi y1 x2 o) (fun o =>
  bind (transfer (fun z => z) Cplus fi y2 x1 o) (fun o =>
  bind (transfer (fun z => z) Cplus fi y2 x2 o) (fun o =>
  shift true AXY offy offx false false true o)))).

(* fsmall *= filter * factor *)
Definition times (a : farr C) (F : farr R) (c : R) : option (farr C) :=
  if ((f_ny a =? f_ny F) && (f_nx a =? f_nx F))%Z%bool then Some (FA (f_ny a) (f_nx a) (fun y x => f_at a y x * RtoC (f_at F y x * c))) else None.

(* wavelets.py:331-338: one wavelet map *)
Definition wave_of (fmap : farr C) (lv : level) : option (farr C) :=
  bind (emap_resample_fft true 0 0 1 (f_ny (lv_filt lv)) (f_nx (lv_filt lv)) fmap) (fun fs =>
  bind (times fs (lv_filt lv) (/ (lv_norm lv * IZR (asize fmap)))) (fun fs =>
  bind (emap_ifft NoNorm false 1 fs) (fun o => Some (drop_im false o)))).
Fixpoint waves_of (fmap : farr C) (lvs : list level) : option (list (farr C)) :=
  match lvs with [] => Some [] | lv :: t => bind (wave_of fmap lv) (fun w => bind (waves_of fmap t) (fun r => Some (w :: r))) end.
(* wavelets.py:304-357 map2wave with owave=None, fl=None, scales=None *)
Definition map2wave (lvs : list level) (m : farr C) : option (list (farr C)) :=
  bind (emap_fft NoNorm false 1 m) (fun fmap => waves_of fmap lvs).

(* wavelets.py:365-368: the loop of wave2map *)
Definition add_wave (lv : level) (wave fomap : farr C) : option (farr C) :=
  bind (emap_fft NoNorm false 1 wave) (fun fs =>
  bind (times fs (lv_filt lv) (lv_norm lv / IZR (asize fs))) (fun fs => resample_add fs fomap)).
Fixpoint add_waves (lvs : list level) (waves : list (farr C)) (fomap : farr C) : option (farr C) :=
  match lvs, waves with
  | [], _ => Some fomap
  | lv :: t, w :: ws => bind (add_wave lv w fomap) (fun o => add_waves t ws o)
  | _ :: _, [] => None
  end.
(* wavelets.py:358-372 wave2map with omap=None for a map of ny by nx pixels *)
Definition wave2map (ny nx : Z) (lvs : list level) (waves : list (farr C)) : option (farr C) :=
  bind (full2 ny nx (RtoC 0)) (fun z =>
  bind (add_waves lvs waves z) (fun fo =>
  bind (emap_ifft NoNorm false 1 fo) (fun o => Some (drop_im false o)))).

(* enmap.py:1206-1212, 1230-1250 modlmap of a map whose pixels measure dy by dx (step in laxes): 2 pi / step times the frequency *)
Definition modlmap (ny nx : Z) (dy dx : R) : farr R :=
  FA ny nx (fun y x => sqrt ((2 * PI * fftfreq ny y / dy) ^ 2 + (2 * PI * fftfreq nx x / dx) ^ 2)%R).
(* wavelets.py:386-392 get_ls: resample_fft of the real array uht.l with norm=None, corner=True. fft.shift returns the real part for a
   real argument. *)
Definition get_ls (l : farr R) (oy ox : Z) : option (farr R) :=
  let offy := (0 - (1 / 2 - 1 / 2 * IZR oy / IZR (f_ny l)))%R in
  let offx := (0 - (1 / 2 - 1 / 2 * IZR ox / IZR (f_nx l)))%R in
  bind (FresModel.resample_fft 0%R (fun z => z) (fun _ b => b) l oy ox) (fun o =>
  bind (shift false AXY offy offx false false true (amap RtoC o)) (fun o => Some (amap Re o))).
(* wavelets.py:405-421 _prepare_filter without lmid; basis is lambda l: self.basis(i, l), area is enmap.area of the scale's geometry *)
Definition asum (a : farr R) : R := Re (csum2 (f_ny a) (f_nx a) (fun y x => RtoC (f_at a y x))).
Definition prepare_filter (l : farr R) (g : (R -> R) * (Z * Z) * R) : option level :=
  let '(basis, (oy, ox), area) := g in
  bind (get_ls l oy ox) (fun ls =>
  let F := amap basis ls in
  Some (Level F (sqrt (asum (amap (fun v => (v ^ 2 / area)%R) F))))).
Fixpoint prepare_filters (l : farr R) (gs : list ((R -> R) * (Z * Z) * R)) : option (list level) :=
  match gs with [] => Some [] | g :: t => bind (prepare_filter l g) (fun v => bind (prepare_filters l t) (fun r => Some (v :: r))) end.
