From Coq Require Import Qabs Qround Lqa.
From Verif Require Import Base RangeLemmas SliceSpec SliceModel SliceLemmas SboxSpec SboxModel WindModel WindLemmas ArrModel ArrLemmas PixSpec PixModel PixLemmas2 PixLemmas3 PixProps GeoSpec GeoModel GeoLemmas.
Ltac Zify.zify_post_hook ::= idtac.

Lemma inj_nz n : n <> 0 -> ~ (inject_Z n == 0)%Q.
Proof. intros H E. apply H. unfold Qeq in E. cbn in E. lia. Qed.
Lemma inj_pos n : 0 < n -> (0 < inject_Z n)%Q.
Proof. intros H. change 0%Q with (inject_Z 0). rewrite <- Zlt_Qlt. exact H. Qed.

(** fullsky_geometry *)
Lemma fullsky_sky v ny nx rx : yoff v < ny -> 0 < nx -> (rx == 360 / inject_Z nx)%Q -> let w := fullsky_wcs v ny nx rx in
  let h := match v with CC => 0%Q | Fejer1 => 1 # 2 end in
  (sky_y w (- h) == -90 /\ sky_y w (inject_Z (ny - 1) + h) == 90 /\
   (forall p, sky_y w (p + 1) - sky_y w p == 180 / inject_Z (ny - yoff v)) /\
   sky_x w 0 == inject_Z (nx / 2) * (360 / inject_Z nx) /\
   (forall p, sky_x w p - sky_x w (p + 1) == 360 / inject_Z nx) /\
   (forall p, sky_x w p - sky_x w (p + inject_Z nx) == 360))%Q.
Proof.
  intros Hy Hx Er w h. assert (Nx : ~ (inject_Z nx == 0)%Q) by (apply inj_nz; lia).
  assert (Ny : ~ (inject_Z (ny - yoff v) == 0)%Q) by (apply inj_nz; lia).
  unfold w, fullsky_wcs, sky_y, sky_x, sky_at. cbn [crval_x crpix_x cdelt_x crval_y crpix_y cdelt_y]. rewrite Er.
  unfold h. destruct v; cbn [yoff] in *; unfold Z.sub in *; rewrite ?inject_Z_plus, ?inject_Z_opp in *; change (inject_Z 1) with 1%Q in *; change (inject_Z 0) with 0%Q in *.
  - split; [field; exact Ny|]. split; [field; exact Ny|]. split; [intros p; field; exact Ny|]. split; [field; exact Nx|]. split; intros p; field; exact Nx.
  - assert (N0 : ~ (inject_Z ny == 0)%Q) by (apply inj_nz; lia). split; [field; exact N0|]. split; [field; exact N0|]. split; [intros p; field; exact N0|]. split; [field; exact Nx|]. split; intros p; field; exact Nx.
Qed.

Lemma qle_false a b : (b < a)%Q -> Qle_bool a b = false.
Proof. intros H. destruct (Qle_bool a b) eqn:E; [|reflexivity]. apply Qle_bool_iff in E. lra. Qed.
Lemma abs_zero a : (a == 0)%Q -> (Qabs a == 0)%Q.
Proof. intros E. rewrite E. reflexivity. Qed.

Lemma fullsky_check_ok v ny nx ry rx tol : (0 < tol)%Q -> (ry * inject_Z (ny - yoff v) == 180)%Q -> (rx * inject_Z nx == 360)%Q ->
  fullsky_check v ny nx ry rx tol = Some ((ny, nx), fullsky_wcs v ny nx rx).
Proof.
  intros Ht Ey Ex. unfold fullsky_check.
  rewrite qle_false by (rewrite (abs_zero (ry * inject_Z (ny - yoff v) - 180)) by lra; exact Ht).
  rewrite qle_false by (rewrite (abs_zero (rx * inject_Z nx - 360)) by lra; exact Ht). reflexivity.
Qed.

Lemma fullsky_shape_ok v ny nx tol : (0 < tol)%Q -> yoff v < ny -> 0 < nx ->
  fullsky_shape v ny nx tol = Some ((ny, nx), fullsky_wcs v ny nx (360 / inject_Z nx)).
Proof.
  intros Ht Hy Hx. unfold fullsky_shape. replace ((ny - yoff v =? 0) || (nx =? 0)) with false by lia.
  apply fullsky_check_ok; [exact Ht| |]; field; apply inj_nz; lia.
Qed.

Lemma fullsky_res_ok v ny nx ry rx tol : (0 < tol)%Q -> yoff v < ny -> 0 < nx -> (ry * inject_Z (ny - yoff v) == 180)%Q -> (rx * inject_Z nx == 360)%Q ->
  fullsky_res v ry rx tol = Some ((ny, nx), fullsky_wcs v ny nx rx).
Proof.
  intros Ht Hy Hx Ey Ex. unfold fullsky_res.
  assert (N1 : ~ (ry == 0)%Q) by (intros E; rewrite E, Qmult_0_l in Ey; discriminate Ey).
  assert (N2 : ~ (rx == 0)%Q) by (intros E; rewrite E, Qmult_0_l in Ex; discriminate Ex).
  assert (E1 : qround (180 / ry + inject_Z (yoff v)) = ny).
  { apply qround_int. rewrite <- Ey. unfold Z.sub. rewrite inject_Z_plus, inject_Z_opp. field. exact N1. }
  assert (E2 : qround (360 / rx + 0) = nx).
  { apply qround_int. rewrite <- Ex. field. exact N2. }
  rewrite E1, E2. apply fullsky_check_ok; assumption.
Qed.

Lemma fullsky_res_reject v ry rx tol : (forall k, (tol <= Qabs (ry * inject_Z k - 180))%Q) \/ (forall k, (tol <= Qabs (rx * inject_Z k - 360))%Q) ->
  fullsky_res v ry rx tol = None.
Proof.
  intros H. unfold fullsky_res, fullsky_check. destruct H as [H|H].
  - rewrite (proj2 (Qle_bool_iff _ _) (H _)). reflexivity.
  - destruct (Qle_bool tol _); [reflexivity|]. rewrite (proj2 (Qle_bool_iff _ _) (H _)). reflexivity.
Qed.

(** band_geometry *)
Lemma s2p_sky cv cp cd s : ~ (cd == 0)%Q -> (sky_at cv cp cd (s2p cv cp cd s) == s)%Q.
Proof. intros H. unfold sky_at, s2p. field. exact H. Qed.

Lemma band_spec ny nx w dmin dmax g' : 0 <= nx -> (0 < cdelt_y w)%Q -> band_geometry ((ny, nx), w) dmin dmax = Some g' ->
  let p s := s2p (crval_y w) (crpix_y w) (cdelt_y w) s in
  exists start, 0 <= start /\ start + fst (fst g') <= ny /\ snd (fst g') = nx /\ 0 <= fst (fst g') /\
   (forall i j, same_place g' ((ny, nx), w) i j (start + i) j) /\
   (forall y, start <= y < start + fst (fst g') -> (p dmin - (1 # 2) <= inject_Z y <= p dmax - (1 # 2))%Q) /\
   (forall y, 0 <= y < ny -> (p dmin + (1 # 2) <= inject_Z y)%Q -> (inject_Z y < p dmax - (1 # 2))%Q -> start <= y < start + fst (fst g')).
Proof.
  intros Hnx Hc. unfold band_geometry. destruct (Qle_bool dmax dmin) eqn:Ed; [discriminate|].
  assert (Hd : (dmin < dmax)%Q) by (destruct (Qlt_le_dec dmin dmax) as [L|L]; [exact L|apply Qle_bool_iff in L; congruence]).
  set (p := fun s => s2p (crval_y w) (crpix_y w) (cdelt_y w) s) in *. cbv beta zeta.
  assert (Hp : (p dmin < p dmax)%Q).
  { unfold p, s2p. assert (Hi : (0 < / cdelt_y w)%Q) by (apply Qinv_lt_0_compat; exact Hc). unfold Qdiv.
    assert (G : ((dmin - crval_y w) * / cdelt_y w < (dmax - crval_y w) * / cdelt_y w)%Q) by (apply Qmult_lt_compat_r; lra). lra. }
  change (s2p (crval_y w) (crpix_y w) (cdelt_y w) dmin) with (p dmin). change (s2p (crval_y w) (crpix_y w) (cdelt_y w) dmax) with (p dmax).
  pose proof (qround_mono (p dmin) (p dmax) (Qlt_le_weak _ _ Hp)) as Hm.
  pose proof (qround_bounds (p dmin)) as [B1 B2]. pose proof (qround_bounds (p dmax)) as [B3 B4].
  set (r0 := qround (p dmin)) in *. set (r1 := qround (p dmax)) in *.
  set (start := Z.max r0 0). set (stop := Z.min r1 ny).
  destruct (_ || _) eqn:Ec; [discriminate|]. intros E. apply Some_inj in E. subst g'.
  assert (Hs : 0 <= start < ny /\ 0 <= stop < ny /\ start <= stop) by lia.
  unfold slice_geometry, slice_axis, expand_slice, es_step. cbn [ps_start ps_stop ps_step Z.eqb Z.ltb Z.compare es_cycle es_default Z.sgn].
  replace (0 <=? start) with true by lia. replace (0 <=? stop) with true by lia. rewrite !(Z.min_l _ ny) by lia.
  replace (0 <=? 0) with true by lia. replace (0 <=? nx) with true by lia. rewrite Z.min_id. rewrite (Z.min_l 0) by lia. rewrite !Z.div_1_r. cbn [fst snd].
  exists start. replace (stop - start + 1 - 1) with (stop - start) by lia. split; [lia|]. split; [lia|]. split; [lia|]. split; [lia|]. split; [|split].
  - intros i j. unfold same_place, sky_y, sky_x, sky_at. cbn [fst snd crval_x crpix_x cdelt_x crval_y crpix_y cdelt_y].
    rewrite inject_Z_plus. change (inject_Z 0) with 0%Q. change (inject_Z 1) with 1%Q. split; field.
  - intros y Hy. assert (Hy' : r0 <= y /\ y + 1 <= r1) by lia. destruct Hy' as [H1 H2]. rewrite Zle_Qle in H1, H2. rewrite inject_Z_plus in H2. change (inject_Z 1) with 1%Q in H2. lra.
  - intros y Hy H1 H2. assert (Hy' : (inject_Z r0 <= inject_Z y)%Q /\ (inject_Z y < inject_Z r1)%Q) by lra. rewrite <- Zle_Qle, <- Zlt_Qlt in Hy'. lia.
Qed.

(** union *)
Lemma zmin_l_spec l : forall x, zmin_l x l <= x /\ (forall y, In y l -> zmin_l x l <= y) /\ (zmin_l x l = x \/ In (zmin_l x l) l).
Proof.
  induction l as [|z l IH]; intros x; cbn [zmin_l]; [split; [lia|]; split; [intros y []|left; reflexivity]|].
  destruct (IH (Z.min x z)) as (A & B & C). split; [lia|]. split.
  - intros y [E|E]; [subst; lia|apply B, E].
  - destruct C as [C|C]; [|right; right; exact C]. rewrite C. destruct (Z.min_spec x z) as [[_ E]|[_ E]]; rewrite E; [left; reflexivity|right; left; reflexivity].
Qed.
Lemma zmax_l_spec l : forall x, x <= zmax_l x l /\ (forall y, In y l -> y <= zmax_l x l) /\ (zmax_l x l = x \/ In (zmax_l x l) l).
Proof.
  induction l as [|z l IH]; intros x; cbn [zmax_l]; [split; [lia|]; split; [intros y []|left; reflexivity]|].
  destruct (IH (Z.max x z)) as (A & B & C). split; [lia|]. split.
  - intros y [E|E]; [subst; lia|apply B, E].
  - destruct C as [C|C]; [|right; right; exact C]. rewrite C. destruct (Z.max_spec x z) as [[_ E]|[_ E]]; rewrite E; [right; left; reflexivity|left; reflexivity].
Qed.

Lemma pixbox_grid r g dy dx : ~ (cdelt_x (snd r) == 0)%Q -> ~ (cdelt_y (snd r) == 0)%Q -> on_grid r g dy dx ->
  pixbox_of (snd r) (fst g) (snd g) = ((dy, dy + fst (fst g), 1), (dx, dx + snd (fst g), 1)).
Proof.
  intros Nx Ny (Cx & Cy & Sy & Sx). unfold pixbox_of.
  assert (Ex : qround (crpix_x (snd r) - crpix_x (snd g) - (crval_x (snd r) - crval_x (snd g)) / cdelt_x (snd r)) = dx).
  { apply qround_int. unfold sky_x, sky_at in Sx. apply (Qmult_inj_l _ _ (cdelt_x (snd r))); [exact Nx|].
    assert (E : (cdelt_x (snd r) * (crpix_x (snd r) - crpix_x (snd g) - (crval_x (snd r) - crval_x (snd g)) / cdelt_x (snd r)) == cdelt_x (snd r) * (crpix_x (snd r) - crpix_x (snd g)) - (crval_x (snd r) - crval_x (snd g)))%Q) by (field; exact Nx).
    rewrite E. rewrite Cx in Sx. lra. }
  assert (Ey : qround (crpix_y (snd r) - crpix_y (snd g) - (crval_y (snd r) - crval_y (snd g)) / cdelt_y (snd r)) = dy).
  { apply qround_int. unfold sky_y, sky_at in Sy. apply (Qmult_inj_l _ _ (cdelt_y (snd r))); [exact Ny|].
    assert (E : (cdelt_y (snd r) * (crpix_y (snd r) - crpix_y (snd g) - (crval_y (snd r) - crval_y (snd g)) / cdelt_y (snd r)) == cdelt_y (snd r) * (crpix_y (snd r) - crpix_y (snd g)) - (crval_y (snd r) - crval_y (snd g)))%Q) by (field; exact Ny).
    rewrite E. rewrite Cy in Sy. lra. }
  rewrite Ex, Ey. reflexivity.
Qed.

Lemma on_grid_refl r : on_grid r r 0 0.
Proof. unfold on_grid. repeat split; reflexivity. Qed.

Lemma grid_place r g dy dx u oy ox y x : on_grid r g dy dx -> on_grid r u oy ox -> same_place g u y x (y + dy - oy) (x + dx - ox).
Proof.
  intros (Cx & Cy & Sy & Sx) (Ux & Uy & Ty & Tx). unfold same_place, sky_y, sky_x, sky_at in *. unfold Z.sub. rewrite !inject_Z_plus, !inject_Z_opp.
  rewrite Cx, Cy, Ux, Uy in *. split; lra.
Qed.

Lemma sub_crpix_grid r s dy dx : on_grid r (s, sub_crpix (snd r) dy dx) dy dx.
Proof. unfold on_grid, sub_crpix, sky_y, sky_x, sky_at. cbn [fst snd crval_x crpix_x cdelt_x crval_y crpix_y cdelt_y]. split; [reflexivity|]. split; [reflexivity|]. split; ring. Qed.

Lemma union_spec ref rest (off : geometry -> Z * Z) : ~ (cdelt_x (snd ref) == 0)%Q -> ~ (cdelt_y (snd ref) == 0)%Q ->
  (forall g, In g (ref :: rest) -> on_grid ref g (fst (off g)) (snd (off g))) ->
  exists u oy ox, union_geometry (ref :: rest) = Some u /\ on_grid ref u oy ox /\
    (forall g, In g (ref :: rest) -> oy <= fst (off g) /\ fst (off g) + fst (fst g) <= oy + fst (fst u) /\
                                     ox <= snd (off g) /\ snd (off g) + snd (fst g) <= ox + snd (fst u)) /\
    (exists g, In g (ref :: rest) /\ fst (off g) = oy) /\ (exists g, In g (ref :: rest) /\ fst (off g) + fst (fst g) = oy + fst (fst u)) /\
    (exists g, In g (ref :: rest) /\ snd (off g) = ox) /\ (exists g, In g (ref :: rest) /\ snd (off g) + snd (fst g) = ox + snd (fst u)).
Proof.
  intros Nx Ny Hg. unfold union_geometry. cbv zeta.
  assert (Hb : forall g, In g (ref :: rest) -> pixbox_of (snd ref) (fst g) (snd g) = ((fst (off g), fst (off g) + fst (fst g), 1), (snd (off g), snd (off g) + snd (fst g), 1))).
  { intros g Hi. apply pixbox_grid; auto. }
  assert (M : forall (f h : geometry -> Z), (forall g, In g (ref :: rest) -> f g = h g) -> map f rest = map h rest).
  { intros f h He. apply map_ext_in. intros g Hi. apply He. right. exact Hi. }
  unfold geometry in *.
  rewrite (M (fun g => fst (fst (fst (pixbox_of (snd ref) (fst g) (snd g))))) (fun g => fst (off g))) by (intros g Hi; rewrite Hb by exact Hi; reflexivity).
  rewrite (M (fun g => snd (fst (fst (pixbox_of (snd ref) (fst g) (snd g))))) (fun g => fst (off g) + fst (fst g))) by (intros g Hi; rewrite Hb by exact Hi; reflexivity).
  rewrite (M (fun g => fst (fst (snd (pixbox_of (snd ref) (fst g) (snd g))))) (fun g => snd (off g))) by (intros g Hi; rewrite Hb by exact Hi; reflexivity).
  rewrite (M (fun g => snd (fst (snd (pixbox_of (snd ref) (fst g) (snd g))))) (fun g => snd (off g) + snd (fst g))) by (intros g Hi; rewrite Hb by exact Hi; reflexivity).
  rewrite (Hb ref) by (left; reflexivity). cbn [fst snd].
  set (ly := zmin_l (fst (off ref)) (map (fun g => fst (off g)) rest)).
  set (hy := zmax_l (fst (off ref) + fst (fst ref)) (map (fun g => fst (off g) + fst (fst g)) rest)).
  set (lx := zmin_l (snd (off ref)) (map (fun g => snd (off g)) rest)).
  set (hx := zmax_l (snd (off ref) + snd (fst ref)) (map (fun g => snd (off g) + snd (fst g)) rest)).
  eexists _, ly, lx. split; [reflexivity|]. split; [apply sub_crpix_grid|]. cbn [fst snd].
  destruct (zmin_l_spec (map (fun g => fst (off g)) rest) (fst (off ref))) as (A1 & B1 & C1).
  destruct (zmax_l_spec (map (fun g => fst (off g) + fst (fst g)) rest) (fst (off ref) + fst (fst ref))) as (A2 & B2 & C2).
  destruct (zmin_l_spec (map (fun g => snd (off g)) rest) (snd (off ref))) as (A3 & B3 & C3).
  destruct (zmax_l_spec (map (fun g => snd (off g) + snd (fst g)) rest) (snd (off ref) + snd (fst ref))) as (A4 & B4 & C4).
  fold ly in A1, B1, C1. fold hy in A2, B2, C2. fold lx in A3, B3, C3. fold hx in A4, B4, C4.
  assert (T : forall (f : geometry -> Z) v, (v = f ref \/ In v (map f rest)) -> exists g, In g (ref :: rest) /\ f g = v).
  { intros f v [E|E]; [exists ref; split; [left; reflexivity|congruence]|]. apply in_map_iff in E as (g & E1 & E2). exists g. split; [right; exact E2|exact E1]. }
  split.
  - intros g [E|E].
    + subst g. lia.
    + specialize (B1 _ (in_map (fun g => fst (off g)) _ _ E)). specialize (B2 _ (in_map (fun g => fst (off g) + fst (fst g)) _ _ E)).
      specialize (B3 _ (in_map (fun g => snd (off g)) _ _ E)). specialize (B4 _ (in_map (fun g => snd (off g) + snd (fst g)) _ _ E)). cbn beta in *. lia.
  - replace (ly + (hy - ly)) with hy by lia. replace (lx + (hx - lx)) with hx by lia.
    split; [apply (T (fun g => fst (off g))); exact C1|]. split; [apply (T (fun g => fst (off g) + fst (fst g))); exact C2|]. split; [apply (T (fun g => snd (off g))); exact C3|apply (T (fun g => snd (off g) + snd (fst g))); exact C4].
Qed.

(** map_union *)
Definition safe_wrap (w : wcs) (plain : bool) : Prop := plain = true \/ 0 < qround (360 / Qabs (cdelt_x w)).

Lemma wrap_self w nx plain : 0 < nx -> safe_wrap w plain -> exists wx, wrap_lens w nx plain None = (0, wx) /\ wrap_ok wx nx /\ (wx = 0 \/ nx <= wx).
Proof.
  intros Hn H. unfold wrap_lens. destruct plain; [exists 0; split; [reflexivity|split; [left; reflexivity|left; reflexivity]]|].
  destruct H as [H|H]; [discriminate|]. exists (nphi w nx). split; [reflexivity|]. destruct (nphi_spec w nx H Hn) as (_ & B & _). split; [right|right]; lia.
Qed.
Lemma source_in wx n k : (wx = 0 \/ n <= wx) -> 0 <= k < n -> source wx n k = Some k.
Proof.
  intros H Hk. unfold source. destruct (Z.eqb_spec wx 0) as [E|E].
  - replace ((0 <=? k) && (k <? n)) with true by lia. reflexivity.
  - rewrite Z.mod_small by lia. replace ((0 <=? k) && (k <? n)) with true by lia. reflexivity.
Qed.

(* inserting a map that lies inside *)
Lemma insert_inside {A} (m im : fmap A) plain op dy dx : let ny := f_ny (fm_arr m) in let nx := f_nx (fm_arr m) in
  ~ (cdelt_x (fm_wcs m) == 0)%Q -> ~ (cdelt_y (fm_wcs m) == 0)%Q -> safe_wrap (fm_wcs m) plain ->
  0 < ny -> 0 < nx -> 0 <= f_ny (fm_arr im) -> 0 <= f_nx (fm_arr im) ->
  on_grid (geo_of m) (geo_of im) dy dx -> 0 <= dy -> dy + f_ny (fm_arr im) <= ny -> 0 <= dx -> dx + f_nx (fm_arr im) <= nx ->
  exists r, insert m im plain op = Some r /\ fm_wcs r = fm_wcs m /\ f_ny (fm_arr r) = ny /\ f_nx (fm_arr r) = nx /\
    forall y x, 0 <= y < ny -> 0 <= x < nx ->
      f_at (fm_arr r) y x = if (0 <=? y - dy) && (y - dy <? f_ny (fm_arr im)) && (0 <=? x - dx) && (x - dx <? f_nx (fm_arr im))
                            then op (f_at (fm_arr m) y x) (f_at (fm_arr im) (y - dy) (x - dx)) else f_at (fm_arr m) y x.
Proof.
  intros ny nx Cx Cy Hs Hny Hnx H1 H2 Hg Y1 Y2 X1 X2. unfold insert.
  pose proof (pixbox_grid (geo_of m) (geo_of im) dy dx Cx Cy Hg) as E. unfold geo_of in E. cbn [fst snd] in E. rewrite E.
  destruct (wrap_self (fm_wcs m) nx plain Hnx Hs) as (wx & Ew & Wx & Wx').
  destruct (C05_insert_at_partial m im dy dx plain None op 0 wx) as (r & Er & R1 & R2 & R3 & R4 & R5); auto; try lia; [left; reflexivity|].
  unfold insert_at in Er. rewrite Er. exists r. split; [reflexivity|]. split; [exact R1|]. split; [exact R2|]. split; [exact R3|].
  intros y x Hy Hx. destruct (_ && _) eqn:Eb.
  - rewrite (R4 (y - dy) (x - dx) y x); [reflexivity|lia|lia| |].
    + replace (dy + (y - dy)) with y by lia. apply source_in; [left; reflexivity|exact Hy].
    + replace (dx + (x - dx)) with x by lia. apply source_in; assumption.
  - apply R5. intros i j Hi Hj Sy Sx. rewrite source_in in Sy by (first [left; reflexivity|lia]). rewrite source_in in Sx by (first [exact Wx'|lia]).
    apply Some_inj in Sy. apply Some_inj in Sx. lia.
Qed.

Lemma map_union_spec {A} (m1 m2 : fmap A) plain zero add dy dx :
  ~ (cdelt_x (fm_wcs m1) == 0)%Q -> ~ (cdelt_y (fm_wcs m1) == 0)%Q -> safe_wrap (fm_wcs m1) plain ->
  0 < f_ny (fm_arr m1) -> 0 < f_nx (fm_arr m1) -> 0 <= f_ny (fm_arr m2) -> 0 <= f_nx (fm_arr m2) ->
  on_grid (geo_of m1) (geo_of m2) dy dx ->
  exists o oy ox, map_union m1 m2 plain zero add = Some o /\ on_grid (geo_of m1) (geo_of o) oy ox /\
    oy = Z.min 0 dy /\ ox = Z.min 0 dx /\
    f_ny (fm_arr o) = Z.max (f_ny (fm_arr m1)) (dy + f_ny (fm_arr m2)) - oy /\
    f_nx (fm_arr o) = Z.max (f_nx (fm_arr m1)) (dx + f_nx (fm_arr m2)) - ox /\
    forall y x, oy <= y < oy + f_ny (fm_arr o) -> ox <= x < ox + f_nx (fm_arr o) ->
      let in1 := (0 <=? y) && (y <? f_ny (fm_arr m1)) && (0 <=? x) && (x <? f_nx (fm_arr m1)) in
      let in2 := (dy <=? y) && (y <? dy + f_ny (fm_arr m2)) && (dx <=? x) && (x <? dx + f_nx (fm_arr m2)) in
      let v1 := if in1 then f_at (fm_arr m1) y x else zero in
      f_at (fm_arr o) (y - oy) (x - ox) = if in2 then add v1 (f_at (fm_arr m2) (y - dy) (x - dx)) else v1.
Proof.
  intros Cx Cy Hs A1 A2 B1 B2 Hg. unfold map_union, union_geometry. cbv zeta.
  pose proof (pixbox_grid (geo_of m1) (geo_of m1) 0 0 Cx Cy (on_grid_refl _)) as E1.
  pose proof (pixbox_grid (geo_of m1) (geo_of m2) dy dx Cx Cy Hg) as E2.
  cbn [map]. rewrite E1, E2. change (snd (geo_of m1)) with (fm_wcs m1). cbn [fst snd zmin_l zmax_l]. change (fst (fst (geo_of m1))) with (f_ny (fm_arr m1)). change (snd (fst (geo_of m1))) with (f_nx (fm_arr m1)). change (fst (fst (geo_of m2))) with (f_ny (fm_arr m2)). change (snd (fst (geo_of m2))) with (f_nx (fm_arr m2)). cbn [Z.add].
  set (oy := Z.min 0 dy). set (ox := Z.min 0 dx).
  set (hy := Z.max (f_ny (fm_arr m1)) (dy + f_ny (fm_arr m2))). set (hx := Z.max (f_nx (fm_arr m1)) (dx + f_nx (fm_arr m2))).
  unfold full2. replace ((0 <=? hy - oy) && (0 <=? hx - ox)) with true by lia.
  set (u := FM (FA (hy - oy) (hx - ox) (fun _ _ => zero)) (sub_crpix (fm_wcs m1) oy ox)).
  assert (Gu : on_grid (geo_of m1) (geo_of u) oy ox) by apply sub_crpix_grid.
  assert (Gt : forall im a b, on_grid (geo_of m1) (geo_of im) a b -> forall r, fm_wcs r = fm_wcs u -> on_grid (geo_of (A := A) r) (geo_of (A := A) im) (a - oy) (b - ox)).
  { intros im a b (P1 & P2 & P3 & P4) r Er. destruct Gu as (Q1 & Q2 & Q3 & Q4). unfold on_grid in *. unfold geo_of in *. cbn [snd] in *. rewrite Er.
    split; [rewrite P1, Q1; reflexivity|]. split; [rewrite P2, Q2; reflexivity|].
    unfold sky_y, sky_x, sky_at in *. unfold Z.sub. rewrite !inject_Z_plus, !inject_Z_opp. rewrite P1, P2, Q1, Q2 in *. split; lra. }
  destruct (insert_inside u m1 plain (fun _ b => b) (0 - oy) (0 - ox)) as (r1 & -> & W1 & D1 & D1' & V1); auto; try (cbn [u fm_arr f_ny f_nx]; lia).
  { apply Gt; [apply on_grid_refl|reflexivity]. }
  assert (D : f_ny (fm_arr r1) = hy - oy /\ f_nx (fm_arr r1) = hx - ox) by (split; [exact D1|exact D1']). destruct D as [Da Db].
  destruct (insert_inside r1 m2 plain add (dy - oy) (dx - ox)) as (r2 & -> & W2 & D2 & D2' & V2); auto; try (rewrite ?W1; assumption); try (rewrite ?Da, ?Db; lia).
  exists r2, oy, ox. split; [reflexivity|]. split.
  { destruct Gu as (Q1 & Q2 & Q3 & Q4). unfold on_grid, geo_of in *. cbn [snd] in *. rewrite W2, W1. split; [exact Q1|]. split; [exact Q2|]. split; assumption. }
  split; [reflexivity|]. split; [reflexivity|]. split; [congruence|]. split; [congruence|].
  intros y x Hy Hx. rewrite V2 by (rewrite ?Da, ?Db; lia).
  assert (Hv : f_at (fm_arr r1) (y - oy) (x - ox) = if (0 <=? y) && (y <? f_ny (fm_arr m1)) && (0 <=? x) && (x <? f_nx (fm_arr m1)) then f_at (fm_arr m1) y x else zero).
  { rewrite V1 by (cbn [u fm_arr f_ny f_nx]; lia). replace (y - oy - (0 - oy)) with y by lia. replace (x - ox - (0 - ox)) with x by lia.
    destruct (_ && _); reflexivity. }
  rewrite Hv. replace (y - oy - (dy - oy)) with (y - dy) by lia. replace (x - ox - (dx - ox)) with (x - dx) by lia.
  replace ((0 <=? y - dy) && (y - dy <? f_ny (fm_arr m2)) && (0 <=? x - dx) && (x - dx <? f_nx (fm_arr m2))) with ((dy <=? y) && (y <? dy + f_ny (fm_arr m2)) && (dx <=? x) && (x <? dx + f_nx (fm_arr m2))) by lia.
  reflexivity.
Qed.

(** overlap *)
Lemma overlap_axis_nowrap b0 b1 n : b0 <= b1 -> let '(c0, c1) := overlap_axis b0 b1 n 0 in
  c0 <= c1 /\ forall k, (0 <= k < n /\ b0 <= k < b1) <-> c0 <= k < c1.
Proof.
  intros H. unfold overlap_axis. cbn [Z.eqb orb]. rewrite !andb_true_r. destruct (Z.ltb_spec b0 0); destruct (Z.ltb_spec n b1); split; try lia; intros k; lia.
Qed.
Lemma overlap_spec g g2 plain dy dx : ~ (cdelt_x (snd g) == 0)%Q -> ~ (cdelt_y (snd g) == 0)%Q ->
  0 <= fst (fst g2) -> 0 <= snd (fst g2) -> on_grid g g2 dy dx ->
  let o := overlap g g2 plain (Some (0, 0)) in exists oy ox, on_grid g o oy ox /\ 0 <= fst (fst o) /\ 0 <= snd (fst o) /\
    forall y x, (has_pixel g y x /\ has_pixel g2 (y - dy) (x - dx)) <-> has_pixel o (y - oy) (x - ox).
Proof.
  intros Cx Cy H1 H2 Hg. cbv zeta. unfold overlap. rewrite (pixbox_grid g g2 dy dx Cx Cy Hg). cbn [wrap_lens].
  pose proof (overlap_axis_nowrap dy (dy + fst (fst g2)) (fst (fst g)) ltac:(lia)) as Hy.
  pose proof (overlap_axis_nowrap dx (dx + snd (fst g2)) (snd (fst g)) ltac:(lia)) as Hx.
  destruct (overlap_axis dy _ _ _) as [y0 y1]. destruct (overlap_axis dx _ _ _) as [x0 x1]. destruct Hy as [Ly Hy]. destruct Hx as [Lx Hx].
  exists y0, x0. split; [apply sub_crpix_grid|]. cbn [fst snd]. split; [lia|]. split; [lia|].
  intros y x. unfold has_pixel. cbn [fst snd]. specialize (Hy y). specialize (Hx x). lia.
Qed.
