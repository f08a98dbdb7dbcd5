From Verif Require Import Base SliceSpec SliceModel SliceLemmas ArrModel PixSpec PixModel PixLemmas RangeModel AlmModel ShtSpec ShtModel ShtLemmas.
Ltac Zify.zify_post_hook ::= idtac.

(* C48: block by block evaluation lists the position of every pixel with a valid position, once, in the order of
   the map, and the mask marks exactly those pixels. Guard: the last block is not lost, see C48_last_row_refuted. *)
Theorem C48_every_row_partial : forall {P} (pos : Z -> Z -> P) conv finite zero ny nx bsize, 1 <= ny -> 0 <= nx -> 1 <= bsize -> (ny - 1) mod bsize <> 0 ->
  calc_locinfo pos conv finite zero ny nx bsize =
    Some (map (fun q => conv (pos (fst q) (snd q))) (filter (fun q => finite (conv (pos (fst q) (snd q)))) (pixels ny nx)),
          map (fun y => map (fun x => finite (conv (pos y x))) (zrange 0 nx)) (zrange 0 ny),
          existsb (fun q => negb (finite (conv (pos (fst q) (snd q))))) (pixels ny nx)).
Proof.
  intros P pos conv finite zero ny nx bsize Hy Hx Hs HB. rewrite calc_locinfo_visits by assumption. unfold visited.
  destruct (Z.eqb_spec ((ny - 1) mod bsize) 0); [contradiction|]. replace (ny - ny) with 0 by lia. cbn [Z.to_nat repeat]. rewrite app_nil_r.
  assert (EL : zlen (pixels ny nx) = ny * nx).
  { unfold pixels. rewrite flat_concat. replace ny with (zlen (zrange 0 ny)) at 2 by (rewrite zrange_zlen; lia). generalize (zrange 0 ny). intros l.
    induction l as [|y l IH]; [reflexivity|]. cbn [map concat]. rewrite zlen_app_, IH. unfold zlen. rewrite map_length. fold (zlen (zrange 0 nx)). rewrite zrange_zlen. cbn [length]. lia. }
  unfold good. rewrite pixels_rows, filter_map_swap. f_equal. f_equal; [f_equal|].
  - unfold maskrows, row. apply map_ext. intros y. rewrite map_map. reflexivity.
  - rewrite <- EL. unfold zlen at 1. rewrite map_length. apply zlen_filter_lt.
Qed.
Print Assumptions C48_every_row_partial.
(* otherwise the last row is never visited: its pixels are reported as having no valid position, and all
   other rows are right. The block size used by pixell is 1000, so this hits maps of 1, 1001, 2001, ... rows. *)
Theorem C48_last_row_refuted : forall {P} (pos : Z -> Z -> P) conv finite zero ny nx bsize, 1 <= ny -> 0 <= nx -> 1 <= bsize -> (ny - 1) mod bsize = 0 ->
  calc_locinfo pos conv finite zero ny nx bsize =
    Some (map (fun q => conv (pos (fst q) (snd q))) (filter (fun q => finite (conv (pos (fst q) (snd q)))) (pixels (ny - 1) nx)),
          map (fun y => map (fun x => finite (conv (pos y x))) (zrange 0 nx)) (zrange 0 (ny - 1)) ++ [repeat false (Z.to_nat nx)],
          zlen (filter (fun q => finite (conv (pos (fst q) (snd q)))) (pixels (ny - 1) nx)) <? ny * nx).
Proof.
  intros P pos conv finite zero ny nx bsize Hy Hx Hs HB. rewrite calc_locinfo_visits by assumption. unfold visited.
  destruct (Z.eqb_spec ((ny - 1) mod bsize) 0); [|contradiction]. replace (ny - (ny - 1)) with 1 by lia. change (Z.to_nat 1) with 1%nat. cbn [repeat].
  unfold good. rewrite pixels_rows, filter_map_swap. f_equal. f_equal; [f_equal|].
  - unfold maskrows, row. f_equal. apply map_ext. intros y. rewrite map_map. reflexivity.
  - unfold zlen at 1. rewrite map_length. reflexivity.
Qed.
Print Assumptions C48_last_row_refuted.
Example C48_ex : calc_locinfo (fun y x => (y, x)) (fun q => q) (fun q => negb (snd q =? 1)) (0, 0) 4 2 2 =
  Some ([(0, 0); (1, 0); (2, 0); (3, 0)], [[true; false]; [true; false]; [true; false]; [true; false]], true) /\
  calc_locinfo (fun y x => (y, x)) (fun q => q) (fun q => true) (0, 0) 3 1 2 = Some ([(0, 0); (1, 0)], [[true]; [true]; [false]], true).
Proof. vm_compute. auto. Qed.

(* C49: the buffer holds every pixel of the map at its flipped and padded place, has zeros elsewhere, gives every pixel
   its place on the sky, and copying it back returns the map with its geometry *)
Theorem C49_buffer : forall {A} (m : fmap A) fy fx y0 x0 y1 x1 zero, let ny := f_ny (fm_arr m) in let nx := f_nx (fm_arr m) in
  0 <= ny -> 0 <= nx -> 0 <= y0 -> 0 <= x0 -> 0 <= y1 -> 0 <= x1 ->
  exists buf, map2buffer m fy fx y0 x0 y1 x1 false zero = Some buf /\
    f_ny (fm_arr buf) = y0 + ny + y1 /\ f_nx (fm_arr buf) = x0 + nx + x1 /\
    (forall y x, 0 <= y < ny -> 0 <= x < nx -> f_at (fm_arr buf) (y0 + flipped fy ny y) (x0 + flipped fx nx x) = f_at (fm_arr m) y x) /\
    (forall y x, ~ (y0 <= y < y0 + ny /\ x0 <= x < x0 + nx) -> f_at (fm_arr buf) y x = zero) /\
    (forall y x, same_sky_at (fm_wcs buf) (fm_wcs m) (y0 + flipped fy ny y) (x0 + flipped fx nx x) y x) /\
    arr_eq (fm_arr (buffer2map buf fy fx y0 x0 y1 x1)) (fm_arr m) /\
    (forall y x, same_sky_at (fm_wcs (buffer2map buf fy fx y0 x0 y1 x1)) (fm_wcs m) y x y x).
Proof.
  intros A m fy fx y0 x0 y1 x1 zero ny nx Hny Hnx Hy0 Hx0 Hy1 Hx1.
  pose proof (flip_axis_len ny (crpix_y (fm_wcs m)) (cdelt_y (fm_wcs m)) fy Hny) as LY. pose proof (flip_axis_len nx (crpix_x (fm_wcs m)) (cdelt_x (fm_wcs m)) fx Hnx) as LX.
  pose proof (fun k => flip_axis_sky ny (crval_y (fm_wcs m)) (crpix_y (fm_wcs m)) (cdelt_y (fm_wcs m)) fy k Hny) as SY. pose proof (fun k => flip_axis_sky nx (crval_x (fm_wcs m)) (crpix_x (fm_wcs m)) (cdelt_x (fm_wcs m)) fx k Hnx) as SX.
  unfold map2buffer, slice_geometry. fold ny nx.
  destruct (slice_axis ny _ _ _ _) as [[oy cpy] cdy]. destruct (slice_axis nx _ _ _ _) as [[ox cpx] cdx]. cbn [fst snd axis_len axis_crpix axis_cdelt] in LY, LX, SY, SX. subst oy ox.
  assert (SKY : forall y x, same_sky_at (crpix_add (Wcs (crval_x (fm_wcs m)) cpx cdx (crval_y (fm_wcs m)) cpy cdy) y0 x0) (fm_wcs m) (y0 + flipped fy ny y) (x0 + flipped fx nx x) y x).
  { intros y x. split; [rewrite <- (SY y)|rewrite <- (SX x)]; unfold sky_y, sky_x, sky_at, crpix_add; cbn [crval_x crval_y crpix_x crpix_y cdelt_x cdelt_y]; rewrite inject_Z_plus; ring. }
  set (w := crpix_add _ _ _) in *. clearbody w. cbn zeta.
  unfold full2. destruct (Z.leb_spec 0 (y0 + ny + y1)); [|lia]. destruct (Z.leb_spec 0 (x0 + nx + x1)); [|lia]. cbn [andb bind].
  destruct (sl_facts y0 ny y1) as [SSY SLY]; try assumption. destruct (sl_facts x0 nx x1) as [SSX SLX]; try assumption.
  unfold set2. cbn [f_ny f_nx]. unfold flip_array, getmap, get2. cbn [fm_arr f_ny f_nx]. fold ny nx. rewrite !flip_len by assumption. rewrite SLY, SLX, !Z.eqb_refl. cbn [andb bind].
  eexists. split; [reflexivity|]. cbn [fm_arr f_ny f_nx fm_wcs f_at]. split; [reflexivity|]. split; [reflexivity|].
  assert (VAL : forall y x, 0 <= y < ny -> 0 <= x < nx ->
    match sl_find (sl y0 (y0 + ny + y1 - y1)) (y0 + ny + y1) (y0 + flipped fy ny y) with
    | Some i => match sl_find (sl x0 (x0 + nx + x1 - x1)) (x0 + nx + x1) (x0 + flipped fx nx x) with
        | Some j => f_at (fm_arr m) (sl_at (flip2slice fy) ny i) (sl_at (flip2slice fx) nx j) | None => zero end
    | None => zero end = f_at (fm_arr m) y x).
  { intros y x Hy Hx. rewrite !sl_find_facts by assumption. pose proof (flip_range fy ny y Hy). pose proof (flip_range fx nx x Hx).
    replace ((y0 <=? y0 + flipped fy ny y) && (y0 + flipped fy ny y <? y0 + ny)) with true by lia.
    replace ((x0 <=? x0 + flipped fx nx x) && (x0 + flipped fx nx x <? x0 + nx)) with true by lia.
    rewrite !flip_at. replace (y0 + flipped fy ny y - y0) with (flipped fy ny y) by lia. replace (x0 + flipped fx nx x - x0) with (flipped fx nx x) by lia. rewrite !flip_inv. reflexivity. }
  split; [exact VAL|]. split.
  { intros y x N. rewrite !sl_find_facts by assumption. destruct ((y0 <=? y) && (y <? y0 + ny)) eqn:E1; [|reflexivity]. destruct ((x0 <=? x) && (x <? x0 + nx)) eqn:E2; [|reflexivity]. exfalso. apply N. lia. }
  split; [exact SKY|]. split.
  - unfold buffer2map, flip_array, getmap, get2, arr_eq. cbn [fm_arr f_ny f_nx f_at]. rewrite SLY, SLX, !flip_len by assumption. fold ny nx.
    split; [reflexivity|]. split; [reflexivity|]. intros y x Hy Hx. rewrite !sl_at_facts, !(flip_at fy), !(flip_at fx) by assumption. apply VAL; assumption.
  - intros y x. unfold buffer2map, flip_array, getmap, same_sky_at. cbn [fm_arr fm_wcs f_ny f_nx].
    destruct (SKY y x) as [S1 S2]. rewrite <- S1, <- S2. unfold get2. cbn [f_ny f_nx fm_arr]. rewrite SLY, SLX.
    unfold sky_y, sky_x. unfold slice_geometry.
    pose proof (slice_axis_sky (y0 + ny + y1) (crval_y w) (crpix_y w) (cdelt_y w) (sl y0 (y0 + ny + y1 - y1)) (inject_Z (flipped fy ny y)) ltac:(lia) (sl_in_range y0 ny y1 Hy0 Hny Hy1)) as TY.
    pose proof (slice_axis_sky (x0 + nx + x1) (crval_x w) (crpix_x w) (cdelt_x w) (sl x0 (x0 + nx + x1 - x1)) (inject_Z (flipped fx nx x)) ltac:(lia) (sl_in_range x0 nx x1 Hx0 Hnx Hx1)) as TX.
    destruct (slice_axis (y0 + ny + y1) _ _ _ _) as [[oy cy] dy]. destruct (slice_axis (x0 + nx + x1) _ _ _ _) as [[ox cx] dx].
    cbn [snd crval_y crval_x crpix_x crpix_y cdelt_x cdelt_y].
    pose proof (flip_axis_sky ny (crval_y w) cy dy fy (flipped fy ny y) Hny) as UY. pose proof (flip_axis_sky nx (crval_x w) cx dx fx (flipped fx nx x) Hnx) as UX.
    rewrite flip_inv in UY, UX.
    destruct (slice_axis ny _ _ _ _) as [[oy' cy'] dy']. destruct (slice_axis nx _ _ _ _) as [[ox' cx'] dx'].
    cbn [snd fst crval_y crval_x crpix_x crpix_y cdelt_x cdelt_y axis_crpix axis_cdelt] in *.
    rewrite UY, UX, TY, TX, SSY, SSX. change (py_step (sl y0 (y0 + ny + y1 - y1))) with 1. change (py_step (sl x0 (x0 + nx + x1 - x1))) with 1.
    rewrite !inject_Z_plus. change (Z.sgn 1) with 1. unfold sky_at. change (inject_Z 1) with 1%Q. split; field.
Qed.
Print Assumptions C49_buffer.
(* a pure output buffer has the same shape and geometry and is zero *)
Theorem C49_output_buffer : forall {A} (m : fmap A) fy fx y0 x0 y1 x1 zero, 0 <= f_ny (fm_arr m) -> 0 <= f_nx (fm_arr m) -> 0 <= y0 -> 0 <= x0 -> 0 <= y1 -> 0 <= x1 ->
  exists buf obuf, map2buffer m fy fx y0 x0 y1 x1 false zero = Some buf /\ map2buffer m fy fx y0 x0 y1 x1 true zero = Some obuf /\
    f_ny (fm_arr obuf) = f_ny (fm_arr buf) /\ f_nx (fm_arr obuf) = f_nx (fm_arr buf) /\ fm_wcs obuf = fm_wcs buf /\ forall y x, f_at (fm_arr obuf) y x = zero.
Proof.
  intros A m fy fx y0 x0 y1 x1 zero Hny Hnx Hy0 Hx0 Hy1 Hx1. destruct (C49_buffer m fy fx y0 x0 y1 x1 zero) as (buf & E & _); try assumption.
  exists buf. rewrite E. unfold map2buffer in *. destruct (slice_geometry _ _ _ _) as [[gy gx] w]. destruct (full2 _ _ _) as [b|] eqn:EF; [|discriminate E]. cbn [bind] in *.
  eexists. split; [reflexivity|]. split; [reflexivity|]. unfold set2 in E. destruct (_ && _); [|discriminate E]. cbn [bind] in E. apply Some_inj in E. subst buf. cbn.
  unfold full2 in EF. destruct (_ && _); [|discriminate EF]. apply Some_inj in EF. subst b. auto.
Qed.
Print Assumptions C49_output_buffer.
Example C49_ex : option_map (fun b => (f_ny (fm_arr b), f_nx (fm_arr b), map (fun y => map (f_at (fm_arr b) y) (zrange 0 4)) (zrange 0 3)))
  (map2buffer (FM (FA 2 3 (fun y x => 10 * (y + 1) + x)) (Wcs 0 0 1 0 0 1)) true false 1 0 0 1 false 0) = Some (3, 4, [[0; 0; 0; 0]; [20; 21; 22; 0]; [10; 11; 12; 0]]).
Proof. vm_compute. reflexivity. Qed.

(* C50: after niter steps the error is (1 - approx_backward forward)^(niter+1) applied to the answer; forward was
   called niter times and approx_backward niter+1 times. Hypothesis: approx_backward returns a new array. *)
Theorem C50_error : forall {X Y} (zX : X) addX subX (zY : Y) addY subY forward back x0 niter,
  vectors X zX addX subX -> vectors Y zY addY subY -> additive subX subY forward -> additive subY subX back -> 0 <= niter ->
  exists x, jacobi_inverse subX subY forward back None (forward x0) niter = (x, niter, niter + 1) /\
    subX x0 x = power (fun e => subX e (back (forward e))) (Z.to_nat (niter + 1)) x0.
Proof.
  intros X Y zX addX subX zY addY subY F B x0 niter DX DY HF HB Hn. unfold jacobi_inverse.
  pose proof (jac_loop zX addX subX zY addY subY F B DX DY HF HB (Z.to_nat niter) x0 (B (F x0)) 0 1) as H.
  destruct (jacobi_loop _ _ _ _ _ _ _ _ _ _) as [[r nf] nb]. destruct H as (E & -> & ->). exists r. split; [replace (0 + Z.of_nat (Z.to_nat niter)) with niter by lia; replace (1 + Z.of_nat (Z.to_nat niter)) with (niter + 1) by lia; reflexivity|].
  rewrite E. replace (Z.to_nat (niter + 1)) with (S (Z.to_nat niter)) by lia. change (power (resid subX F B) (Z.to_nat niter) (resid subX F B x0) = power (resid subX F B) (S (Z.to_nat niter)) x0). apply power_shift.
Qed.
Print Assumptions C50_error.
(* C50: with an exact inverse the answer is exact whatever the number of steps *)
Theorem C50_exact_inverse : forall {X Y} (zX : X) addX subX (zY : Y) addY subY forward back x0 niter,
  vectors X zX addX subX -> vectors Y zY addY subY -> additive subX subY forward -> additive subY subX back -> (forall x, back (forward x) = x) ->
  fst (fst (jacobi_inverse subX subY forward back None (forward x0) niter)) = x0.
Proof.
  intros X Y zX addX subX zY addY subY F B x0 niter DX DY HF HB HI. unfold jacobi_inverse. rewrite HI.
  pose proof (jac_loop zX addX subX zY addY subY F B DX DY HF HB (Z.to_nat niter) x0 x0 0 1) as H.
  destruct (jacobi_loop _ _ _ _ _ _ _ _ _ _) as [[r nf] nb]. destruct H as (E & _). cbn [fst].
  assert (G : forall n, power (resid subX F B) n (subX x0 x0) = zX).
  { induction n as [|n IH]; [apply (vec_self _ _ _ DX)|]. cbn [power]. rewrite IH. unfold resid. rewrite HI. apply (vec_self _ _ _ DX). }
  rewrite G in E. symmetry. apply (vec_eq zX addX subX DX _ _ zX).
  rewrite <- (v_sub _ _ _ _ DX x0 r), E. rewrite (v_comm _ _ _ _ DX zX r), (v_zero _ _ _ _ DX). reflexivity.
Qed.
Print Assumptions C50_exact_inverse.
(* if approx_backward returns the array it was given, the in-place update overwrites the data and the recurrence is lost:
   with forward = doubling and approx_backward = identity on integers, one would expect -1, 2, ... *)
Theorem C50_alias_counterexample : exists forward back x0 niter, additive Z.sub Z.sub forward /\ additive Z.sub Z.sub back /\ (forall v, back v = v) /\
  let x := fst (fst (jacobi_inverse Z.sub Z.sub forward back (Some (fun v => v)) (forward x0) niter)) in
  x0 - x <> power (fun e => e - back (forward e)) (Z.to_nat (niter + 1)) x0.
Proof.
  exists (fun v => 2 * v), (fun v => v), 1, 2. split; [intros a b; lia|]. split; [intros a b; reflexivity|]. split; [reflexivity|]. vm_compute. discriminate.
Qed.
Print Assumptions C50_alias_counterexample.
Example C50_ex : vectors Z 0 Z.add Z.sub /\ jacobi_inverse Z.sub Z.sub (fun v => 3 * v) (fun v => v) None 15 2 = (5 * 9, 2, 3).
Proof. split; [constructor; intros; lia|]. vm_compute. reflexivity. Qed.
