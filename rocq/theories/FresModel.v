(* Models of the Fourier resampling functions. A is the type of a Fourier coefficient. *)
From Verif Require Import Base SliceSpec ArrModel PixModel BlockModel.

(* enmap.py:3163-3166 / fft.py:409-411 transfer(dest, source, norm, op) on dest = out[sy,sx], source = fi[sy,sx] *)
Definition transfer {A} (nrm : A -> A) (op : A -> A -> A) (fi : farr A) (sy sx : pyslice) (out : farr A) : option (farr A) :=
  let src := get2 fi sy sx in
  bind (zip2 op (get2 out sy sx) (FA (f_ny src) (f_nx src) (fun y x => nrm (f_at src y x)))) (fun v => set2 out sy sx v).

(* enmap.py:3128-3172 resample_fft with a new output array and no phase shift (corner=False, off=0); fft.py:381-427
   resample_fft with two axes does the same transfers in the same order. nrm multiplies by norm. *)
Definition resample_fft {A} (zero : A) (nrm : A -> A) (op : A -> A -> A) (fi : farr A) (oy ox : Z) : option (farr A) :=
  let cny := Z.min (f_ny fi) oy in let cnx := Z.min (f_nx fi) ox in
  let hny := cny / 2 in let hnx := cnx / 2 in
  let y1 := sl_to hny in let y2 := sl_from (- (cny - hny)) in
  let x1 := sl_to hnx in let x2 := sl_from (- (cnx - hnx)) in
  bind (full2 oy ox zero) (fun o =>
  bind (transfer nrm op fi y1 x1 o) (fun o =>
  bind (transfer nrm op fi y1 x2 o) (fun o =>
  bind (transfer nrm op fi y2 x1 o) (fun o =>
  transfer nrm op fi y2 x2 o)))).

(* resample.py:85-97: the spectrum along one axis, before the transform back *)
Definition resample_axis {A} (zero : A) (fd : list A) (nnew : Z) : list A :=
  let nold := zlen fd in let dn := nnew - nold in
  if 0 <? dn then psl fd 0 (nold / 2) ++ repeat zero (Z.to_nat dn) ++ psl fd (nold / 2) nold
  else if dn <? 0 then psl fd 0 (nnew / 2) ++ psl fd (nnew / 2 - dn) nold
  else fd.
