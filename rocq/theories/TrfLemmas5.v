From Coq Require Import Reals QArith Qreals Lra.
From Verif Require Import Base SliceSpec SliceModel ArrModel PixModel RangeLemmas ShtSpec ShtModel ShtLemmas ShtProps TilLemmas TrfSpec TrfModel TrfLemmas TrfLemmas2 TrfLemmas3 TrfLemmas4.
Ltac Zify.zify_post_hook ::= idtac.
Open Scope R_scope.

Definition geo {A} (m : fmap A) (w : wcs) (ny nx : Z) : Prop := fm_wcs m = w /\ f_ny (fm_arr m) = ny /\ f_nx (fm_arr m) = nx.
Definition located (P : proj) (w : wcs) (ny nx : Z) (dy dx : R) (loc : Z -> Z -> option (R * R)) : Prop :=
  forall y x, (0 <= y < ny)%Z -> (0 <= x < nx)%Z -> match sky_pos P w y x with Some q => exists t p, loc y x = Some (t, p) /\ close_to t p dy dx q | None => loc y x = None end.
Definition synth {A} (w : wcs) (ny nx : Z) (loc : Z -> Z -> option (R * R)) (go : (A -> A) -> (R -> R -> A) -> fmap A -> option (farr A)) : Prop :=
  forall fx_ F m, geo m w ny nx -> exists r, go fx_ F m = Some r /\ f_ny r = ny /\ f_nx r = nx /\
    forall y x, (0 <= y < ny)%Z -> (0 <= x < nx)%Z -> f_at r y x = match loc y x with Some (t, p) => fx_ (F t p) | None => f_at (fm_arr m) y x end.
Definition adjoints {A} (w : wcs) (ny nx : Z) (zero : A) (loc : Z -> Z -> option (R * R)) (adj : (A -> A -> R) -> (Z -> R -> R -> A) -> fmap A -> option (Z -> R)) : Prop :=
  forall dot B m, geo m w ny nx -> (forall b, dot zero b = 0) -> exists c, adj dot B m = Some c /\
    forall k, c k = total (map (fun q => match loc (fst q) (snd q) with Some (t, p) => dot (f_at (fm_arr m) (fst q) (snd q)) (B k t p) | None => 0 end) (pixels ny nx)).
Definition works {A} (P : proj) (w : wcs) (ny nx : Z) (zero : A) (dy dx : R) go adj : Prop :=
  exists loc, located P w ny nx dy dx loc /\ @synth A w ny nx loc go /\ adjoints w ny nx zero loc adj.

(* a buffer's adjoint sum is the map's *)
Lemma buffer_sum {A C} (dot : A -> C -> R) (zero : A) (m buf : farr A) fy fx y0 x0 y1 x1 (G : Z -> Z -> C) ny nx :
  (0 <= ny)%Z -> (0 <= nx)%Z -> (0 <= y0)%Z -> (0 <= x0)%Z -> (0 <= y1)%Z -> (0 <= x1)%Z -> (forall b, dot zero b = 0) ->
  (forall y x, (0 <= y < ny)%Z -> (0 <= x < nx)%Z -> f_at buf (y0 + flipped fy ny y) (x0 + flipped fx nx x) = f_at m y x) ->
  (forall y x, ~ (y0 <= y < y0 + ny /\ x0 <= x < x0 + nx)%Z -> f_at buf y x = zero) ->
  total (map (fun i => total (map (fun j => dot (f_at buf i j) (G i j)) (zrange 0 (x0 + nx + x1)))) (zrange 0 (y0 + ny + y1))) =
  total (map (fun q => dot (f_at m (fst q) (snd q)) (G (y0 + flipped fy ny (fst q)) (x0 + flipped fx nx (snd q)))%Z) (pixels ny nx)).
Proof.
  intros Hny Hnx H1 H2 H3 H4 HZ HV HO. rewrite total_pixels. cbn [fst snd].
  rewrite (total_window fy) by (try assumption; intros i Hi; apply total_zero; intros j _; rewrite HO by lia; apply HZ).
  apply total_ext. intros y Hy. rewrite zrange_In in Hy. rewrite (total_window fx) by (try assumption; intros i Hi; rewrite HO by lia; apply HZ).
  apply total_ext. intros x Hx. rewrite zrange_In in Hx. now rewrite HV.
Qed.

Lemma works_2d {A} P w ny nx tol (zero : A) : tol <= tol0 -> plate_carree P -> on_sky P w ny nx ->
  (exists d, mi_ducc (analyse_geometry P w ny nx tol) = Some d /\ d_name d <> DH) ->
  works P w ny nx zero (tol * pix_height w) (tol * pix_width w) (fun fx_ F m => alm2map_2d P fx_ F zero tol m) (fun dot B m => adjoint_2d dot B P zero tol m).
Proof.
  intros Ht PC HS (d & ED & ND). set (mi := analyse_geometry P w ny nx tol) in *. assert (T8 : tol <= / 8) by (unfold tol0 in Ht; lra).
  assert (HU : upright P w = true). { unfold mi, analyse_geometry in ED. destruct (upright P w); [reflexivity|discriminate ED]. }
  assert (HD : hasoff tol (360 / Rabs (Q2R (cdelt_x w))) 0 = true). { unfold mi, analyse_geometry in ED. rewrite HU in ED. destruct (hasoff _ _ 0); [reflexivity|discriminate ED]. }
  set (ww := flip_wcs w ny nx (flip_y w) (flip_x w)).
  destruct (g_ord P w ny nx tol HS) as (O1 & O2 & O3). fold ww in O1, O2, O3.
  pose proof (g_ny P w ny nx tol HS) as Hy. pose proof (g_nx P w ny nx tol HS) as Hx.
  assert (EG : get_ducc_geo P ww ny nx tol = Some d).
  { unfold mi, analyse_geometry in ED. rewrite HU, HD in ED. cbn [negb orb] in ED. fold ww in ED. destruct (get_ducc_geo P ww ny nx tol); [|destruct (_ =? _)%Z; discriminate ED]. destruct (_ && _ && _); [exact ED|destruct (_ =? _)%Z; exact ED]. }
  assert (FT : fits P ww ny tol d) by (apply (ducc_fits P ww ny nx); assumption).
  destruct (fit_pads P w ny nx tol T8 HS d FT ND) as [Q1 Q2].
  destruct (analyse_found P w ny nx tol T8 HS HU HD d EG ND) as (EFY & EFX & _ & EYP & EXP & _ & EN). fold mi in EFY, EFX, EYP, EXP.
  pose proof (g_nx_le P w ny nx tol T8 HS HD) as Hn. rewrite <- EN in Hn.
  destruct (second_look P w ny nx tol d Ht HS HU HD FT ND) as (d' & S1 & S2 & S3). fold ww in S1, S3.
  set (th := fun i => grid_theta (d_name d) (d_ny d) i). set (ph := fun j => nat_x ww 0 * degree + 2 * PI * IZR j / IZR (d_nx d)).
  exists (fun y x => Some (th (d_yoff d + flipped (flip_y w) ny y)%Z, ph (0 + flipped (flip_x w) nx x)%Z)). repeat split.
  - intros y x Hyy Hxx. unfold sky_pos. rewrite HU. eexists _, _. split; [reflexivity|]. split; cbn [fst snd].
    + apply (grid_close P w ny nx tol); assumption.
    + exists 0%Z. rewrite Rmult_0_r, Rplus_0_r. replace (0 + flipped (flip_x w) nx x)%Z with (flipped (flip_x w) nx x) by lia. pose proof (flip_range (flip_x w) nx x Hxx) as FR. unfold ph. rewrite EN.
      replace (col_ra w x) with (nat_x ww (IZR (flipped (flip_x w) nx x)) * degree); [apply (col_close P w ny nx tol); auto; lia|].
      unfold col_ra. rewrite sky_x_R. unfold ww. rewrite flip_nat_x by assumption. rewrite flipped_R. do 2 f_equal. destruct (flip_x w); ring.
  - intros fx_ F m (G1 & G2 & G3). unfold alm2map_2d. rewrite G1, G2, G3. fold mi. rewrite EYP, EXP, EFY, EFX.
    destruct (C49_buffer m (flip_y w) (flip_x w) (d_yoff d) 0 (d_ny d - d_yoff d - ny) (d_nx d - nx) zero) as (buf & EB & BY & BX & _); try lia.
    pose proof (map2buffer_wcs _ _ _ _ _ _ _ _ _ _ EB) as BW. rewrite G1, G2, G3 in BW. rewrite G2 in BY. rewrite G3 in BX. fold ww in BW.
    rewrite EB. cbn [bind]. unfold alm2map_raw_2d. rewrite BW.
    replace (f_ny (fm_arr buf)) with (d_ny d) by lia. replace (f_nx (fm_arr buf)) with (d_nx d) by lia. rewrite S1, S2, S3. cbn [bind].
    set (out := FM _ _).
    destruct (buffer2map_at out (flip_y w) (flip_x w) (d_yoff d) 0 (d_ny d - d_yoff d - ny) (d_nx d - nx) ny nx) as (R1 & R2 & R3); try lia; [cbn; lia|cbn; lia|].
    rewrite R1, R2, !Z.eqb_refl. cbn [andb]. eexists. split; [reflexivity|]. split; [exact R1|]. split; [exact R2|]. intros y x Hyy Hxx. rewrite R3. reflexivity.
  - intros dot B m (G1 & G2 & G3) HZ. unfold adjoint_2d. rewrite G1, G2, G3. fold mi. rewrite EYP, EXP, EFY, EFX.
    destruct (C49_buffer m (flip_y w) (flip_x w) (d_yoff d) 0 (d_ny d - d_yoff d - ny) (d_nx d - nx) zero) as (buf & EB & BY & BX & BV & BO & _); try lia.
    pose proof (map2buffer_wcs _ _ _ _ _ _ _ _ _ _ EB) as BW. rewrite G1, G2, G3 in BW. rewrite G2 in BY, BV, BO. rewrite G3 in BX, BV, BO. fold ww in BW.
    rewrite EB. cbn [bind]. unfold adjoint_raw_2d. rewrite BW. assert (E1 : f_ny (fm_arr buf) = d_ny d) by lia. assert (E2 : f_nx (fm_arr buf) = d_nx d) by lia. rewrite E1, E2, S1, S2, S3.
    eexists. split; [reflexivity|]. intros k. unfold adjoint_synthesis_2d. rewrite E1, E2.
    pose proof (buffer_sum dot zero (fm_arr m) (fm_arr buf) (flip_y w) (flip_x w) (d_yoff d) 0 (d_ny d - d_yoff d - ny) (d_nx d - nx) (fun i j => B k (th i) (ph j)) ny nx) as BS.
    replace (d_yoff d + ny + (d_ny d - d_yoff d - ny))%Z with (d_ny d) in BS by lia. replace (0 + nx + (d_nx d - nx))%Z with (d_nx d) in BS by lia. apply BS; (assumption || lia).
Qed.

Lemma works_cyl {A} P w ny nx tol (zero : A) : tol <= / 8 -> on_sky P w ny nx -> mi_case (analyse_geometry P w ny nx tol) <> Cgeneral ->
  works P w ny nx zero 0 (tol * pix_width w) (fun fx_ F m => alm2map_cyl P fx_ F zero tol m) (fun dot B m => adjoint_cyl dot B P zero tol m).
Proof.
  intros T8 HS HC.
  assert (HU : upright P w = true). { unfold analyse_geometry in HC. destruct (upright P w); [reflexivity|now cbn in HC]. }
  assert (HD : hasoff tol (360 / Rabs (Q2R (cdelt_x w))) 0 = true). { unfold analyse_geometry in HC. rewrite HU in HC. destruct (hasoff _ _ 0); [reflexivity|now cbn in HC]. }
  set (ww := flip_wcs w ny nx (flip_y w) (flip_x w)).
  destruct (g_ord P w ny nx tol HS) as (O1 & O2 & O3). fold ww in O1, O2, O3.
  pose proof (g_ny P w ny nx tol HS) as Hy. pose proof (g_nx P w ny nx tol HS) as Hx.
  destruct (analyse_any P w ny nx tol HS HU HD) as (EFY & EFX & EXP & _).
  pose proof (g_nx_le P w ny nx tol T8 HS HD) as Hn. set (snx := nint (360 / Rabs (Q2R (cdelt_x w)))) in *.
  set (v := crpix_add ww 0 0). set (th := fun i => PI / 2 - row_dec P v i). set (ph := fun j => col_ra v 0 + 2 * PI * IZR j / IZR snx).
  exists (fun y x => Some (th (0 + flipped (flip_y w) ny y)%Z, ph (0 + flipped (flip_x w) nx x)%Z)). repeat split.
  - intros y x Hyy Hxx. unfold sky_pos. rewrite HU. eexists _, _. split; [reflexivity|]. rewrite !Z.add_0_l. pose proof (flip_range (flip_x w) nx x Hxx) as FX. set (X := flipped (flip_x w) nx x) in *. split; cbn [fst snd].
    + unfold th. replace (_ - _) with 0; [rewrite Rabs_R0; lra|]. unfold row_dec. rewrite !sky_y_R. unfold v. rewrite add_nat_y, Rminus_0_r. unfold ww. rewrite flip_nat_y by assumption. rewrite flipped_R.
      replace (if flip_y w then IZR ny - 1 - (if flip_y w then IZR ny - 1 - IZR y else IZR y) else if flip_y w then IZR ny - 1 - IZR y else IZR y) with (IZR y) by (destruct (flip_y w); ring). ring.
    + exists 0%Z. rewrite Rmult_0_r, Rplus_0_r. unfold ph.
      replace (col_ra w x) with (nat_x ww (IZR X) * degree).
      * unfold col_ra at 1. rewrite sky_x_R. unfold v. rewrite add_nat_x. apply (col_close P w ny nx tol); auto; [now rewrite Rminus_0_r|lia].
      * unfold col_ra. rewrite sky_x_R. unfold ww. rewrite flip_nat_x by assumption. unfold X. rewrite flipped_R. do 2 f_equal. destruct (flip_x w); ring.
  - intros fx_ F m (G1 & G2 & G3). unfold alm2map_cyl. rewrite G1, G2, G3, EXP, EFY, EFX.
    destruct (C49_output_buffer m (flip_y w) (flip_x w) 0 0 0 (snx - nx) zero) as (buf & ob & EB0 & EB & BY & BX & BW & BZ); try lia.
    destruct (C49_buffer m (flip_y w) (flip_x w) 0 0 0 (snx - nx) zero) as (buf' & EB' & BY' & BX' & _); try lia.
    rewrite EB0 in EB'. apply Some_inj in EB'. subst buf'. rewrite G2 in BY'. rewrite G3 in BX'. rewrite BY' in BY. rewrite BX' in BX.
    pose proof (map2buffer_wcs _ _ _ _ _ _ _ _ _ _ EB) as BW'. rewrite G1, G2, G3 in BW'. fold ww in BW'. fold v in BW'.
    rewrite EB. cbn [bind].
    set (out := alm2map_raw_cyl P fx_ F ob). assert (OY : f_ny (fm_arr out) = ny) by (cbn; lia). assert (OX : f_nx (fm_arr out) = snx) by (cbn; lia).
    destruct (buffer2map_at out (flip_y w) (flip_x w) 0 0 0 (snx - nx) ny nx) as (R1 & R2 & R3); try lia.
    rewrite R1, R2, !Z.eqb_refl. cbn [andb]. eexists. split; [reflexivity|]. split; [exact R1|]. split; [exact R2|]. intros y x Hyy Hxx. rewrite R3. rewrite !Z.add_0_l.
    pose proof (flip_range (flip_x w) nx x Hxx) as FX. pose proof (flip_range (flip_y w) ny y Hyy) as FY. set (Y := flipped (flip_y w) ny y) in *. set (X := flipped (flip_x w) nx x) in *.
    unfold out, alm2map_raw_cyl, afterwards. cbn [fm_arr f_at f_ny f_nx]. rewrite BW', BY, BX. replace (0 + nx + (snx - nx))%Z with snx by lia. replace (0 + ny + 0)%Z with ny by lia.
    unfold synthesis. rewrite ring_find by nia.
    assert (E1 : ((Y * snx + X) / snx = Y)%Z) by (rewrite Z.div_add_l by lia; rewrite Z.div_small by lia; lia). rewrite E1. replace (Y * snx + X - Y * snx)%Z with X by lia. reflexivity.
  - intros dot B m (G1 & G2 & G3) HZ. unfold adjoint_cyl. rewrite G1, G2, G3, EXP, EFY, EFX.
    destruct (C49_buffer m (flip_y w) (flip_x w) 0 0 0 (snx - nx) zero) as (buf & EB & BY & BX & BV & BO & _); try lia.
    pose proof (map2buffer_wcs _ _ _ _ _ _ _ _ _ _ EB) as BW. rewrite G1, G2, G3 in BW. rewrite G2 in BY, BV, BO. rewrite G3 in BX, BV, BO. fold ww in BW. fold v in BW.
    rewrite EB. cbn [bind]. eexists. split; [reflexivity|]. intros k. unfold adjoint_raw_cyl, adjoint_synthesis, get_ring_info. rewrite BW, BY, BX, map_map.
    pose proof (buffer_sum dot zero (fm_arr m) (fm_arr buf) (flip_y w) (flip_x w) 0 0 0 (snx - nx) (fun i j => B k (th i) (ph j)) ny nx) as BS.
    rewrite <- BS by (assumption || lia). replace (0 + nx + (snx - nx))%Z with snx by lia. replace (0 + ny + 0)%Z with ny by lia.
    change sum with total. apply total_ext. intros i Hi. rewrite zrange_In in Hi. apply total_ext. intros j Hj. rewrite zrange_In in Hj.
    rewrite Z.div_add_l by lia. rewrite (Z.div_small j snx) by lia. replace ((i * snx + j) mod snx)%Z with j by (rewrite Z.add_comm, Z.mod_add by lia; rewrite Z.mod_small; lia). rewrite Z.add_0_r. reflexivity.
Qed.

Lemma combine_sum {A} (dot : A -> A -> R) (G : R -> R -> A) (c : Z * Z -> option (R * R)) (f : Z * Z -> A) l :
  total (map (fun vl => dot (fst vl) (G (fst (snd vl)) (snd (snd vl)))) (combine (map f (filter (fun q => is_some (c q)) l)) (somes (map c (filter (fun q => is_some (c q)) l))))) =
  total (map (fun q => match c q with Some (t, p) => dot (f q) (G t p) | None => 0 end) l).
Proof.
  induction l as [|q l IH]; [reflexivity|]. cbn [filter]. destruct (c q) as [[t p]|] eqn:E; cbn [is_some].
  - cbn [map]. rewrite E. unfold somes. cbn [flat_map app combine map fst snd total fold_right]. f_equal. exact IH.
  - cbn [map]. rewrite E. cbn [total fold_right]. rewrite Rplus_0_l. exact IH.
Qed.

Lemma works_general {A} P w ny nx flat bsize (zero : A) : (1 <= ny)%Z -> (1 <= nx)%Z -> (1 <= bsize)%Z -> ((ny - 1) mod bsize <> 0)%Z ->
  (flat = false \/ forall y x, (0 <= y < ny)%Z -> (0 <= x < nx)%Z -> sky_pos P w y x <> None) ->
  works P w ny nx zero 0 0 (fun fx_ F m => alm2map_general P fx_ F flat bsize m) (fun dot B m => adjoint_general dot B P flat bsize m).
Proof.
  intros Hy Hx Hb HB HF. set (c := fun q : Z * Z => loc_conv (sky_pos P w (fst q) (snd q))).
  assert (IN : forall y x, (0 <= y < ny)%Z -> (0 <= x < nx)%Z -> existsb (fun q => (fst q =? y) && (snd q =? x))%Z (pixels ny nx) = true).
  { intros y x H1 H2. apply existsb_exists. exists (y, x). split; [apply in_pixels; auto|]. cbn. now rewrite !Z.eqb_refl. }
  assert (NE : flat = true -> existsb (fun q => negb (is_some (c q))) (pixels ny nx) = true -> False).
  { intros Ef EX. destruct HF as [HF|HF]; [congruence|]. apply existsb_exists in EX as (q & Hq & Hn). apply in_pixels in Hq as [H1 H2]. unfold c in Hn. specialize (HF _ _ H1 H2). destruct (sky_pos P w (fst q) (snd q)) as [[d r]|]; [discriminate|congruence]. }
  exists (fun y x => c (y, x)). repeat split.
  - intros y x Hyy Hxx. unfold c. cbn [fst snd]. destruct (sky_pos P w y x) as [q|]; [|reflexivity]. destruct (loc_conv (Some q)) as [[t p]|] eqn:E; [|destruct q; discriminate E]. exists t, p. split; [reflexivity|]. now apply loc_conv_close.
  - intros fx_ F m (G1 & G2 & G3). unfold alm2map_general. rewrite G1, G2, G3. rewrite C48_every_row_partial by (assumption || lia).
    change (fun q : Z * Z => is_some (loc_conv (sky_pos P w (fst q) (snd q)))) with (fun q => is_some (c q)).
    change (fun q : Z * Z => negb (is_some (loc_conv (sky_pos P w (fst q) (snd q))))) with (fun q => negb (is_some (c q))).
    destruct (existsb (fun q => negb (is_some (c q))) _) eqn:EX.
    + destruct flat; [exfalso; now apply NE|].
      eexists. split; [reflexivity|]. split; [exact G2|]. split; [exact G3|]. intros y x H1 H2. unfold set_masked. cbn [f_at].
      rewrite <- G2, <- G3, mask_sel_eq.
      change (fun q : Z * Z => is_some (loc_conv (sky_pos P w (fst q) (snd q)))) with (fun q => is_some (c q)).
      change (fun q : Z * Z => loc_conv (sky_pos P w (fst q) (snd q))) with (fun q => c q).
      change (map (fun q => c q)) with (map c). rewrite (gen_find fx_ F c). rewrite G2, G3, IN by assumption. now destruct (c (y, x)) as [[t p]|].
    + eexists. split; [reflexivity|]. split; [reflexivity|]. split; [reflexivity|]. intros y x H1 H2. cbn [f_at].
      change (fun q : Z * Z => loc_conv (sky_pos P w (fst q) (snd q))) with (fun q => c q). change (map (fun q => c q)) with (map c).
      rewrite (gen_all fx_ F c) by (now rewrite forallb_existsb, EX). rewrite zget_pixels by assumption. now destruct (c (y, x)) as [[t p]|].
  - intros dot B m (G1 & G2 & G3) HZ. unfold adjoint_general. rewrite G1, G2, G3. rewrite C48_every_row_partial by (assumption || lia).
    change (fun q : Z * Z => is_some (loc_conv (sky_pos P w (fst q) (snd q)))) with (fun q => is_some (c q)).
    change (fun q : Z * Z => negb (is_some (loc_conv (sky_pos P w (fst q) (snd q))))) with (fun q => negb (is_some (c q))).
    change (fun q : Z * Z => loc_conv (sky_pos P w (fst q) (snd q))) with (fun q => c q).
    destruct (existsb (fun q => negb (is_some (c q))) _) eqn:EX.
    + destruct flat; [exfalso; now apply NE|]. eexists. split; [reflexivity|]. intros k. unfold adjoint_synthesis_general, get_masked.
      rewrite <- G2, <- G3, mask_sel_eq.
      change (fun q : Z * Z => is_some (loc_conv (sky_pos P w (fst q) (snd q)))) with (fun q => is_some (c q)). change (map (fun q => c q)) with (map c). change sum with total.
      rewrite (combine_sum dot (B k) c). apply total_ext. intros [y x] _. reflexivity.
    + eexists. split; [reflexivity|]. intros k. unfold adjoint_synthesis_general, all_pix. rewrite G2, G3. fold (pixels ny nx). change (map (fun q => c q)) with (map c). change sum with total.
      assert (FA_ : filter (fun q => is_some (c q)) (pixels ny nx) = pixels ny nx) by (apply filter_all; now rewrite forallb_existsb, EX).
      rewrite <- FA_ at 1. rewrite (combine_sum dot (B k) c). apply total_ext. intros [y x] _. reflexivity.
Qed.

(* the choice of the method *)
Lemma not_dh P w ny nx tol d : tol <= / 8 -> mi_case (analyse_geometry P w ny nx tol) = C2d -> mi_ducc (analyse_geometry P w ny nx tol) = Some d -> d_name d <> DH.
Proof.
  intros T8 HC HD EN. unfold analyse_geometry in *. destruct (_ || _); [discriminate|]. set (ww := flip_wcs w ny nx (flip_y w) (flip_x w)) in *.
  destruct (get_ducc_geo P ww ny nx tol) as [g|] eqn:E; [|destruct (_ =? _)%Z; discriminate HC].
  destruct (_ && _ && rlt (Rabs (IZR (d_yoff g))) tol) eqn:EB; [|destruct (nx =? nint _)%Z; discriminate HC]. cbn [mi_ducc] in HD. apply Some_inj in HD. subst g.
  apply andb_prop in EB as [_ EB]. apply rlt_true in EB. unfold get_ducc_geo in E. set (wv := flip_wcs ww ny nx (flip_y ww) (flip_x ww)) in *. destruct (negb _); [discriminate|].
  repeat match type of E with (if ?b then _ else _) = _ => destruct b eqn:?B end; try discriminate; apply Some_inj in E; subst d; try discriminate EN.
  cbn [d_yoff] in EB. apply andb_prop in B1 as [B1 _]. unfold near in B1. apply rlt_true in B1. rewrite Rminus_0_r in B1. apply Rabs_def2 in B1.
  rewrite (nint_near _ (-1)) in EB; [rewrite Rabs_left in EB; lra|]. apply Rabs_def1; lra.
Qed.
Lemma mi_2d_ducc P w ny nx tol : mi_case (analyse_geometry P w ny nx tol) = C2d -> exists d, mi_ducc (analyse_geometry P w ny nx tol) = Some d.
Proof.
  intros HC. unfold analyse_geometry in *. destruct (_ || _); [discriminate|]. destruct (get_ducc_geo _ _ _ _ _) as [g|]; [|destruct (_ =? _)%Z; discriminate HC].
  destruct (_ && _ && _); cbn [mi_ducc]; eauto. destruct (_ =? _)%Z; cbn; eauto.
Qed.
Lemma case_divides P w ny nx tol : upright P w = true -> hasoff tol (360 / Rabs (Q2R (cdelt_x w))) 0 = true -> mi_case (analyse_geometry P w ny nx tol) <> Cgeneral.
Proof. intros HU HD. unfold analyse_geometry. rewrite HU, HD. cbn [negb orb]. destruct (get_ducc_geo _ _ _ _ _); [destruct (_ && _ && _); [discriminate|]|]; destruct (_ =? _)%Z; discriminate. Qed.
Lemma case_not P w ny nx tol : upright P w = false \/ hasoff tol (360 / Rabs (Q2R (cdelt_x w))) 0 = false -> mi_case (analyse_geometry P w ny nx tol) = Cgeneral.
Proof. intros H. unfold analyse_geometry. destruct H as [-> | ->]; [reflexivity|]. rewrite orb_true_r. reflexivity. Qed.
Lemma works_weaken {A} P w ny nx (zero : A) dy dx dy' dx' go adj : dy <= dy' -> dx <= dx' -> works P w ny nx zero dy dx go adj -> works P w ny nx zero dy' dx' go adj.
Proof.
  intros H1 H2 (loc & L & S). exists loc. split; [|exact S]. intros y x Hy Hx. specialize (L y x Hy Hx). destruct (sky_pos P w y x) as [q|]; [|exact L]. destruct L as (t & p & E & C1 & k & C2). exists t, p. split; [exact E|]. split; [lra|]. exists k. lra.
Qed.
