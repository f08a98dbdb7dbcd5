From Coq Require Import Reals QArith Qreals Lra.
From Verif Require Import Base SliceSpec SliceModel ArrModel PixModel RangeLemmas ShtSpec ShtModel ShtLemmas ShtProps TilLemmas TrfSpec TrfModel TrfLemmas TrfLemmas2 TrfLemmas3 TrfLemmas4 TrfLemmas5.
Ltac Zify.zify_post_hook ::= idtac.
Open Scope R_scope.

Section M2A.
Context {A : Type}.
Variables (dot : A -> A -> R) (B : Z -> R -> R -> A) (smul : R -> A -> A) (zero : A).
Hypothesis dot_zero : forall b, dot zero b = 0.
Hypothesis dot_smul : forall c v b, dot (smul c v) b = c * dot v b.

(* from the places of a transform and the scaled map *)
Lemma to_quadrature P w ny nx dy dx loc (m : farr A) wt c : f_ny m = ny -> f_nx m = nx -> located P w ny nx dy dx loc ->
  (forall k, c k = total (map (fun q => match loc (fst q) (snd q) with Some (t, p) => dot (smul (wt (fst q) (snd q)) (f_at m (fst q) (snd q))) (B k t p) | None => 0 end) (pixels ny nx))) ->
  quadrature dot B P w wt dy dx m c.
Proof.
  intros E1 E2 L HC. exists (fun y x => match loc y x with Some q => q | None => (0, 0) end). rewrite E1, E2. split.
  - intros y x Hy Hx. specialize (L y x Hy Hx). destruct (sky_pos P w y x) as [q|]; [|trivial]. destruct L as (t & p & -> & C). exact C.
  - intros k. rewrite HC. assert (IN : forall q, In q (pixels ny nx) -> (0 <= fst q < ny)%Z /\ (0 <= snd q < nx)%Z) by (intros q; apply in_pixels).
    revert IN. generalize (pixels ny nx) as l. induction l as [|q l IH]; intros IN; [reflexivity|]. destruct (IN q (or_introl eq_refl)) as [I1 I2]. specialize (L _ _ I1 I2).
    cbn [map filter]. change (total (?x :: ?l)) with (x + total l). rewrite IH by (intros z Hz; apply IN; now right).
    destruct (sky_pos P w (fst q) (snd q)) as [q'|].
    + destruct L as (t & p & EL & _). cbn [map]. change (total (?x :: ?l)) with (x + total l). rewrite !EL, dot_smul. reflexivity.
    + rewrite L. ring.
Qed.

Lemma cyl_weights gw P w ny nx tol area W (m : fmap A) : tol <= / 8 -> on_sky P w ny nx -> mi_case (analyse_geometry P w ny nx tol) <> Cgeneral -> geo m w ny nx ->
  let W' := match W with Some W => W | None => default_weights gw (analyse_geometry P w ny nx tol) ny area end in
  forall f, row_factor W' ny = Some f ->
  exists c, map2alm_cyl dot B gw smul P zero tol area W m = Some c /\ quadrature dot B P w (fun y _ => f (flipped (flip_y w) ny y)) 0 (tol * pix_width w) (fm_arr m) c.
Proof.
  intros T8 HS HC (G1 & G2 & G3) W' f HW. destruct (@works_cyl A P w ny nx tol zero T8 HS HC) as (loc & L & _ & J).
  assert (HU : upright P w = true). { unfold analyse_geometry in HC. destruct (upright P w); [reflexivity|now cbn in HC]. }
  assert (HD : hasoff tol (360 / Rabs (Q2R (cdelt_x w))) 0 = true). { unfold analyse_geometry in HC. rewrite HU in HC. destruct (hasoff _ _ 0); [reflexivity|now cbn in HC]. }
  destruct (analyse_any P w ny nx tol HS HU HD) as (EFY & EFX & EXP & _). pose proof (g_nx_le P w ny nx tol T8 HS HD) as Hn. set (snx := nint (360 / Rabs (Q2R (cdelt_x w)))) in *.
  pose proof (g_ny P w ny nx tol HS) as Hy. pose proof (g_nx P w ny nx tol HS) as Hx.
  set (m' := FM (FA ny nx (fun y x => smul (f (flipped (flip_y w) ny y)) (f_at (fm_arr m) y x))) w).
  destruct (J dot B m') as (c & EC & HCk); [now repeat split|exact dot_zero|].
  unfold map2alm_cyl. rewrite G1, G2, G3. fold W'. rewrite EXP, EFY, EFX. unfold adjoint_cyl in EC. change (fm_wcs m') with w in EC. change (f_ny (fm_arr m')) with ny in EC. change (f_nx (fm_arr m')) with nx in EC. rewrite EXP, EFY, EFX in EC.
  destruct (C49_buffer m (flip_y w) (flip_x w) 0 0 0 (snx - nx) zero) as (buf & EB & BY & BX & BV & BO & _); try lia.
  destruct (C49_buffer m' (flip_y w) (flip_x w) 0 0 0 (snx - nx) zero) as (buf' & EB' & BY' & BX' & BV' & BO' & _); try (cbn; lia).
  pose proof (map2buffer_wcs _ _ _ _ _ _ _ _ _ _ EB) as BW. rewrite G1, G2, G3 in BW. pose proof (map2buffer_wcs _ _ _ _ _ _ _ _ _ _ EB') as BW'. cbn [m' fm_wcs fm_arr f_ny f_nx] in BW'.
  rewrite G2 in BY, BV, BO. rewrite G3 in BX, BV, BO. cbn [m' fm_arr f_ny f_nx] in BY', BX', BV', BO'.
  rewrite EB. cbn [bind]. rewrite EB' in EC. cbn [bind] in EC. apply Some_inj in EC. replace (f_ny (fm_arr buf)) with ny by lia. rewrite HW. cbn [bind].
  eexists. split; [reflexivity|]. apply (to_quadrature P w ny nx _ _ loc _ _ _ G2 G3 L). intros k. transitivity (c k); [|exact (HCk k)]. rewrite <- EC. unfold adjoint_raw_cyl.
  rewrite BW, BW'. replace (f_ny (fm_arr buf')) with ny by lia. replace (f_nx (fm_arr buf')) with snx by lia. replace (f_nx (fm_arr buf)) with snx by lia.
  unfold adjoint_synthesis, get_ring_info. rewrite !map_map. change sum with total. apply total_ext. intros i Hi. rewrite zrange_In in Hi. apply total_ext. intros j Hj. rewrite zrange_In in Hj.
  rewrite Z.div_add_l by lia. rewrite (Z.div_small j snx) by lia. replace ((i * snx + j) mod snx)%Z with j by (rewrite Z.add_comm, Z.mod_add by lia; rewrite Z.mod_small; lia). rewrite Z.add_0_r.
  destruct (Z.ltb_spec j nx) as [Hjn|Hjn].
  - set (y := flipped (flip_y w) ny i). set (x := flipped (flip_x w) nx j). assert (FY := flip_range (flip_y w) ny i Hi). assert (FX := flip_range (flip_x w) nx j ltac:(lia)). fold y in FY. fold x in FX.
    assert (EI : flipped (flip_y w) ny y = i) by (unfold y, flipped; destruct (flip_y w); lia). assert (EJ : flipped (flip_x w) nx x = j) by (unfold x, flipped; destruct (flip_x w); lia).
    specialize (BV y x FY FX). specialize (BV' y x FY FX). rewrite EI, EJ, !Z.add_0_l in BV, BV'. rewrite BV, BV'. unfold m'. cbn [fm_arr f_at]. rewrite EI. reflexivity.
  - rewrite BO, BO' by lia. rewrite dot_smul, !dot_zero. ring.
Qed.

Lemma general_weights P w ny nx flat bsize area (m : fmap A) : (1 <= ny)%Z -> (1 <= nx)%Z -> (1 <= bsize)%Z -> ((ny - 1) mod bsize <> 0)%Z ->
  (flat = false \/ forall y x, (0 <= y < ny)%Z -> (0 <= x < nx)%Z -> sky_pos P w y x <> None) -> geo m w ny nx ->
  exists c, map2alm_general dot B smul P flat bsize area m = Some c /\ quadrature dot B P w area 0 0 (fm_arr m) c.
Proof.
  intros H1 H2 H3 H4 H5 (G1 & G2 & G3). destruct (@works_general A P w ny nx flat bsize zero H1 H2 H3 H4 H5) as (loc & L & _ & J).
  set (m' := FM (FA (f_ny (fm_arr m)) (f_nx (fm_arr m)) (fun y x => smul (area y x) (f_at (fm_arr m) y x))) (fm_wcs m)).
  destruct (J dot B m') as (c & EC & HCk); [now repeat split|exact dot_zero|]. exists c. split; [exact EC|]. exact (to_quadrature P w ny nx _ _ loc _ _ _ G2 G3 L HCk).
Qed.
End M2A.

(* the grid's weights *)
Lemma grid_rows gw P w ny nx tol d area : tol <= / 8 -> on_sky P w ny nx -> mi_ducc (analyse_geometry P w ny nx tol) = Some d -> d_name d <> DH ->
  exists f, row_factor (default_weights gw (analyse_geometry P w ny nx tol) ny area) ny = Some f /\
    (forall Y, (0 <= Y < ny)%Z -> f Y = gw (d_name d) (d_ny d) (d_yoff d + Y)%Z / IZR (d_nx d)) /\
    (exists W, quad_weights gw P w ny nx tol = Some W /\ fst W = ny /\ forall Y, (0 <= Y < ny)%Z -> snd W Y = gw (d_name d) (d_ny d) (d_yoff d + (ny - 1 - Y))%Z / IZR (d_nx d)) /\
    fits P (flip_wcs w ny nx (flip_y w) (flip_x w)) ny tol d.
Proof.
  intros T8 HS ED ND. set (mi := analyse_geometry P w ny nx tol) in *.
  assert (HU : upright P w = true). { unfold mi, analyse_geometry in ED. destruct (upright P w); [reflexivity|discriminate ED]. }
  assert (HD : hasoff tol (360 / Rabs (Q2R (cdelt_x w))) 0 = true). { unfold mi, analyse_geometry in ED. rewrite HU in ED. destruct (hasoff _ _ 0); [reflexivity|discriminate ED]. }
  set (ww := flip_wcs w ny nx (flip_y w) (flip_x w)).
  destruct (g_ord P w ny nx tol HS) as (O1 & O2 & O3). fold ww in O1, O2, O3.
  pose proof (g_ny P w ny nx tol HS) as Hy. pose proof (g_nx P w ny nx tol HS) as Hx.
  assert (EG : get_ducc_geo P ww ny nx tol = Some d).
  { unfold mi, analyse_geometry in ED. rewrite HU, HD in ED. cbn [negb orb] in ED. fold ww in ED. destruct (get_ducc_geo P ww ny nx tol); [|destruct (_ =? _)%Z; discriminate ED]. destruct (_ && _ && _); [exact ED|destruct (_ =? _)%Z; exact ED]. }
  assert (FT : fits P ww ny tol d) by (apply (ducc_fits P ww ny nx); assumption).
  destruct (fit_pads P w ny nx tol T8 HS d FT ND) as [Q1 Q2].
  destruct (analyse_found P w ny nx tol T8 HS HU HD d EG ND) as (_ & _ & _ & EYP & _). fold mi in EYP.
  unfold default_weights, quad_weights. fold mi. rewrite ED, EYP. set (y0 := d_yoff d) in *. set (y1 := (d_ny d - y0 - ny)%Z) in *.
  unfold rows_div, rows_rev, rows_slice. cbn [fst snd]. replace (ny + (y0 + y1))%Z with (y0 + ny + y1)%Z by lia. destruct (sl_facts y0 ny y1) as [_ SL]; try lia. rewrite SL. unfold row_factor. cbn [fst snd]. rewrite Z.eqb_refl.
  eexists. split; [reflexivity|]. split; [|split; [|exact FT]].
  - intros Y HY. cbn beta. rewrite sl_at_facts by lia. replace (y0 + ny + y1)%Z with (d_ny d) by lia. reflexivity.
  - eexists. split; [reflexivity|]. cbn [fst snd]. split; [reflexivity|]. intros Y HY. rewrite sl_at_facts by lia. replace (y0 + ny + y1)%Z with (d_ny d) by lia. reflexivity.
Qed.

(* ---- there and back ---- *)
Lemma max_grid g n : get_ducc_maxlmax g n = grid_lmax g n. Proof. now destruct g. Qed.
Lemma round_trip_2d {A} (an : farr A -> grid -> R -> Z -> Z -> R) F coef L P w ny nx tol zero lmax (m0 : fmap A) : tol <= tol0 -> on_sky P w ny nx ->
  mi_case (analyse_geometry P w ny nx tol) = C2d -> geo m0 w ny nx -> recovers an F coef L ->
  forall d, mi_ducc (analyse_geometry P w ny nx tol) = Some d -> (L <= lmax)%Z -> (L <= grid_lmax (d_name d) ny)%Z -> (2 * Z.min lmax (grid_lmax (d_name d) ny) < nx)%Z ->
  exists r c, alm2map_2d P (fun v => v) F zero tol m0 = Some r /\ map2alm_2d an P zero tol lmax (FM r w) = Some c /\ forall k, c k = coef k.
Proof.
  intros Ht HS HC (G1 & G2 & G3) HR d ED L1 L2 L3. assert (T8 : tol <= / 8) by (unfold tol0 in Ht; lra). pose proof (not_dh P w ny nx tol d T8 HC ED) as ND.
  assert (HU : upright P w = true). { unfold analyse_geometry in ED. destruct (upright P w); [reflexivity|discriminate ED]. }
  assert (HD : hasoff tol (360 / Rabs (Q2R (cdelt_x w))) 0 = true). { unfold analyse_geometry in ED. rewrite HU in ED. destruct (hasoff _ _ 0); [reflexivity|discriminate ED]. }
  set (ww := flip_wcs w ny nx (flip_y w) (flip_x w)).
  destruct (g_ord P w ny nx tol HS) as (O1 & O2 & O3). fold ww in O1, O2, O3.
  pose proof (g_ny P w ny nx tol HS) as Hy. pose proof (g_nx P w ny nx tol HS) as Hx.
  assert (EG : get_ducc_geo P ww ny nx tol = Some d /\ mi_ypad (analyse_geometry P w ny nx tol) = (0, 0)%Z /\ mi_xpad (analyse_geometry P w ny nx tol) = (0, 0)%Z /\ ny = d_ny d /\ nx = d_nx d /\ Rabs (IZR (d_yoff d)) < tol).
  { unfold analyse_geometry in *. rewrite HU, HD in *. cbn [negb orb] in *. fold ww in ED, HC. fold ww. destruct (get_ducc_geo P ww ny nx tol) as [g|]; [|destruct (_ =? _)%Z; discriminate HC].
    destruct ((ny =? d_ny g)%Z && (nx =? d_nx g)%Z && rlt (Rabs (IZR (d_yoff g))) tol) eqn:EB; [|destruct (nx =? nint _)%Z; discriminate HC]. cbn [mi_ducc] in ED. apply Some_inj in ED. subst g.
    apply andb_prop in EB as [EB E3]. apply andb_prop in EB as [E1 E2]. apply Z.eqb_eq in E1, E2. apply rlt_true in E3. now repeat split. }
  destruct EG as (EG & EYP & EXP & EY & EX & E0).
  assert (Y0 : d_yoff d = 0%Z). { apply Rabs_lt_both in E0. assert (-1 < d_yoff d < 1)%Z; [|lia]. split; apply lt_IZR; lra. }
  assert (FT : fits P ww ny tol d) by (apply (ducc_fits P ww ny nx); assumption).
  destruct (analyse_any P w ny nx tol HS HU HD) as (EFY & EFX & _).
  destruct (second_look_all P w ny nx tol d Ht HS HU HD FT ND) as (d' & S1 & S2 & S3 & S4 & S5). fold ww in S1, S3.
  rewrite Y0, <- EY, <- EX in *. set (v := crpix_add ww 0 0) in *.
  unfold alm2map_2d. rewrite G1, G2, G3, EYP, EXP, EFY, EFX.
  destruct (C49_buffer m0 (flip_y w) (flip_x w) 0 0 0 0 zero) as (buf & EB & BY & BX & _); try lia.
  pose proof (map2buffer_wcs _ _ _ _ _ _ _ _ _ _ EB) as BW. rewrite G1, G2, G3 in BW. rewrite G2 in BY. rewrite G3 in BX. fold ww in BW.
  rewrite EB. cbn [bind]. unfold alm2map_raw_2d. rewrite BW. change (crpix_add ww 0 0) with v. replace (f_ny (fm_arr buf)) with ny by lia. replace (f_nx (fm_arr buf)) with nx by lia. rewrite S1, S2, S3. cbn [bind].
  set (out := FM _ _).
  destruct (buffer2map_at out (flip_y w) (flip_x w) 0 0 0 0 ny nx) as (R1 & R2 & R3); try lia; [cbn; lia|cbn; lia|].
  rewrite R1, R2, !Z.eqb_refl. cbn [andb]. set (r := fm_arr (buffer2map out (flip_y w) (flip_x w) 0 0 0 0)) in *. exists r.
  unfold map2alm_2d. cbn [fm_wcs fm_arr]. rewrite R1, R2, EYP, EXP, EFY, EFX.
  destruct (C49_buffer (FM r w) (flip_y w) (flip_x w) 0 0 0 0 zero) as (buf2 & EB2 & BY2 & BX2 & BV2 & _); try lia; try (cbn [fm_arr]; lia).
  pose proof (map2buffer_wcs _ _ _ _ _ _ _ _ _ _ EB2) as BW2. cbn [fm_wcs fm_arr] in BW2, BY2, BX2, BV2. rewrite R1, R2 in BW2. rewrite R1 in BY2, BV2. rewrite R2 in BX2, BV2. fold ww in BW2.
  rewrite EB2. cbn [bind]. rewrite BW2. change (crpix_add ww 0 0) with v. assert (N1 : f_ny (fm_arr buf2) = ny) by lia. assert (N2 : f_nx (fm_arr buf2) = nx) by lia. rewrite N1, N2, S1, S2, S3, S5, max_grid.
  eexists. split; [reflexivity|]. split; [reflexivity|]. apply HR; rewrite ?N1, ?N2; [|lia|lia].
  intros i j Hi Hj. set (y := flipped (flip_y w) ny i). set (x := flipped (flip_x w) nx j). assert (FY := flip_range (flip_y w) ny i Hi). assert (FX := flip_range (flip_x w) nx j Hj). fold y in FY. fold x in FX.
  assert (EI : flipped (flip_y w) ny y = i) by (unfold y, flipped; destruct (flip_y w); lia). assert (EJ : flipped (flip_x w) nx x = j) by (unfold x, flipped; destruct (flip_x w); lia).
  specialize (BV2 y x FY FX). rewrite EI, EJ, !Z.add_0_l in BV2. rewrite BV2, R3, EI, EJ, !Z.add_0_l. reflexivity.
Qed.
