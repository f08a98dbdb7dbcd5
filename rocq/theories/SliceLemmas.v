From Verif Require Import Base SliceSpec SliceModel.

Lemma expand_slice_in_range s n : 0 <= n -> in_range s n ->
  expand_slice s n false = (py_start s n, py_stop s n, py_step s).
Proof.
  intros Hn (Hstep & Hstart & Hstop).
  unfold expand_slice, py_start, py_stop, py_adjust, es_step, es_cycle, es_default in *.
  destruct s as [a b k]; cbn [ps_start ps_stop ps_step] in *.
  assert (Hk : (match k with None => 1 | Some k0 => if k0 =? 0 then 1 else k0 end) = py_step (PS a b k)).
  { unfold py_step in *; cbn [ps_step] in *. destruct k as [k|]; [|reflexivity].
    destruct (k =? 0) eqn:E; [lia|reflexivity]. }
  rewrite Hk. set (step := py_step (PS a b k)) in *. clearbody step.
  destruct (0 <? step) eqn:Es; destruct (step <? 0) eqn:Es2; try lia.
  - f_equal. f_equal.
    + destruct a as [a|].
      * specialize (Hstart a eq_refl). destruct (0 <=? a) eqn:?, (a <? 0) eqn:?, (n <=? a) eqn:?, (a + n <? 0) eqn:?; lia.
      * destruct (0 <=? 0) eqn:?; lia.
    + destruct b as [b|].
      * specialize (Hstop b eq_refl). destruct (0 <=? b) eqn:?, (b <? 0) eqn:?, (n <=? b) eqn:?, (b + n <? 0) eqn:?; lia.
      * destruct (0 <=? n) eqn:?; lia.
  - f_equal. f_equal.
    + destruct a as [a|].
      * specialize (Hstart a eq_refl). destruct (0 <=? a) eqn:?, (a <? 0) eqn:?, (n <=? a) eqn:?, (a + n <? 0) eqn:?; lia.
      * destruct (0 <=? n - 1) eqn:?; lia.
    + destruct b as [b|]; [|reflexivity].
      specialize (Hstop b eq_refl). destruct (0 <=? b) eqn:?, (b <? 0) eqn:?, (n <=? b) eqn:?, (b + n <? 0) eqn:?; lia.
Qed.

Definition axis_len (r : Z * Q * Q) := fst (fst r).
Definition axis_crpix (r : Z * Q * Q) := snd (fst r).
Definition axis_cdelt (r : Z * Q * Q) := snd r.

Lemma div_sub_mul a b k : k <> 0 -> (a + b * k) / k = a / k + b.
Proof. intros; apply Z.div_add; lia. Qed.

Lemma oshape_formula a b k : k <> 0 ->
  Z.max 0 ((b - a + k - Z.sgn k) / k) =
  if k <? 0 then (if b <? a then (a - b - 1) / (- k) + 1 else 0)
  else (if a <? b then (b - a - 1) / k + 1 else 0).
Proof.
  intros Hk. destruct (k <? 0) eqn:Ek.
  - replace (Z.sgn k) with (-1) by lia.
    replace (b - a + k - -1) with ((b - a + 1) + 1 * k) by lia. rewrite div_sub_mul by lia.
    replace ((b - a + 1) / k) with ((a - b - 1) / (- k)).
    2:{ rewrite <- (Z.opp_involutive k) at 2. rewrite <- (Z.opp_involutive (b - a + 1)).
        rewrite Z.div_opp_opp by lia. f_equal. lia. }
    destruct (b <? a) eqn:Eb.
    + pose proof (Z.div_pos (a - b - 1) (- k) ltac:(lia) ltac:(lia)). lia.
    + pose proof (Z.div_lt_upper_bound (a - b - 1) (- k) 0 ltac:(lia) ltac:(lia)). lia.
  - replace (Z.sgn k) with 1 by lia.
    replace (b - a + k - 1) with ((b - a - 1) + 1 * k) by lia. rewrite div_sub_mul by lia.
    destruct (a <? b) eqn:Eb.
    + pose proof (Z.div_pos (b - a - 1) k ltac:(lia) ltac:(lia)). lia.
    + pose proof (Z.div_lt_upper_bound (b - a - 1) k 0 ltac:(lia) ltac:(lia)). lia.
Qed.

Lemma slice_axis_len n cp cd s : 0 <= n -> in_range s n ->
  Z.max 0 (axis_len (slice_axis n cp cd s false)) = py_len s n.
Proof.
  intros Hn H. unfold slice_axis. rewrite expand_slice_in_range by assumption.
  cbn [axis_len fst snd]. destruct H as (Hs & _). unfold py_len.
  rewrite oshape_formula by assumption. reflexivity.
Qed.

Lemma slice_axis_sky n crval cp cd s p : 0 <= n -> in_range s n ->
  (sky_at crval (axis_crpix (slice_axis n cp cd s false)) (axis_cdelt (slice_axis n cp cd s false)) p
   == sky_at crval cp cd (inject_Z (py_start s n) + inject_Z (py_step s) * p
        + (inject_Z (py_step s) - inject_Z (Z.sgn (py_step s))) / 2))%Q.
Proof.
  intros Hn H. unfold slice_axis. rewrite expand_slice_in_range by assumption.
  cbn [axis_crpix axis_cdelt fst snd]. destruct H as (Hs & _).
  set (a := py_start s n). set (k := py_step s) in *.
  assert (Hkq : ~ (inject_Z k == 0)%Q).
  { intros E. apply Hs. unfold Qeq in E. cbn in E. lia. }
  unfold sky_at.
  destruct (0 <? k) eqn:Ek.
  - replace (Z.sgn k) with 1 by lia. change (inject_Z 1) with 1%Q. field. exact Hkq.
  - replace (Z.sgn k) with (-1) by lia. change (inject_Z (-1)) with (-(1))%Q.
    rewrite inject_Z_plus. change (inject_Z 1) with 1%Q. field. exact Hkq.
Qed.

Lemma py_len_nonneg s n : py_step s <> 0 -> 0 <= py_len s n.
Proof.
  intros H. unfold py_len. rewrite <- oshape_formula by assumption. lia.
Qed.

Lemma py_start_range s n : 0 <= n ->
  (0 < py_step s -> 0 <= py_start s n <= n) /\ (py_step s < 0 -> -1 <= py_start s n <= n - 1).
Proof.
  intros Hn. unfold py_start, py_adjust.
  destruct (ps_start s) as [a|]; destruct (py_step s <? 0) eqn:E;
  try (destruct (a <? 0) eqn:?, (n <=? a) eqn:?, (a + n <? 0) eqn:?); lia.
Qed.

Lemma py_stop_range s n : 0 <= n ->
  (0 < py_step s -> 0 <= py_stop s n <= n) /\ (py_step s < 0 -> -1 <= py_stop s n <= n - 1).
Proof.
  intros Hn. unfold py_stop, py_adjust.
  destruct (ps_stop s) as [a|]; destruct (py_step s <? 0) eqn:E;
  try (destruct (a <? 0) eqn:?, (n <=? a) eqn:?, (a + n <? 0) eqn:?); lia.
Qed.

Lemma py_sel_in_range s n i : 0 <= n -> py_step s <> 0 -> 0 <= i < py_len s n ->
  0 <= py_start s n + py_step s * i < n.
Proof.
  intros Hn Hs Hi. pose proof (py_start_range s n Hn) as [Ha1 Ha2].
  pose proof (py_stop_range s n Hn) as [Hb1 Hb2].
  unfold py_len in Hi. set (a := py_start s n) in *. set (b := py_stop s n) in *.
  set (k := py_step s) in *. clearbody a b k.
  destruct (k <? 0) eqn:Ek.
  - destruct (b <? a) eqn:Eb; [|lia].
    assert (i <= (a - b - 1) / (- k)) by lia.
    assert (- k * i <= a - b - 1).
    { etransitivity; [apply Z.mul_le_mono_nonneg_l; [lia|eassumption]|].
      apply Z.mul_div_le; lia. }
    nia.
  - destruct (a <? b) eqn:Eb; [|lia].
    assert (i <= (b - a - 1) / k) by lia.
    assert (k * i <= b - a - 1).
    { etransitivity; [apply Z.mul_le_mono_nonneg_l; [lia|eassumption]|].
      apply Z.mul_div_le; lia. }
    nia.
Qed.

Lemma pick_spec {A} (l : list A) idx :
  Forall (fun k => 0 <= k < zlen l) idx ->
  zlen (pick l idx) = zlen idx /\
  forall i, zget (pick l idx) i = match zget idx i with Some k => zget l k | None => None end.
Proof.
  induction idx as [|k idx IH]; intros H.
  - split; [reflexivity|]. intros i. cbn [pick flat_map]. rewrite (zget_out (@nil A)) by (unfold zlen; cbn; lia). rewrite (zget_out (@nil Z)) by (unfold zlen; cbn; lia). reflexivity.
  - inversion H as [|? ? Hk Hidx]; subst. specialize (IH Hidx) as [IH1 IH2].
    destruct (zget_in_range l k Hk) as [x Hx].
    assert (E : pick l (k :: idx) = x :: pick l idx).
    { unfold pick; cbn [flat_map]. rewrite Hx. reflexivity. }
    rewrite E. split; [rewrite !zlen_cons; lia|].
    intros i. change (x :: pick l idx) with ([x] ++ pick l idx). change (k :: idx) with ([k] ++ idx).
    assert (L1 : zlen [x] = 1) by reflexivity. assert (L2 : zlen [k] = 1) by reflexivity.
    destruct (Z_lt_ge_dec i 1) as [Hi|Hi].
    + rewrite !zget_app1 by lia. destruct (Z.eq_dec i 0) as [->|Hi0].
      * cbn. exact (eq_sym Hx).
      * rewrite (zget_out [x]) by lia. rewrite (zget_out [k]) by lia. reflexivity.
    + rewrite !zget_app2 by lia. rewrite L1, L2. apply IH2.
Qed.

Lemma py_sel_forall s n : 0 <= n -> py_step s <> 0 -> Forall (fun k => 0 <= k < n) (py_sel s n).
Proof.
  intros Hn Hs. unfold py_sel. apply Forall_forall. intros k Hk.
  apply in_map_iff in Hk as (i & <- & Hi). apply zrange_In in Hi.
  apply py_sel_in_range; assumption.
Qed.

Lemma py_sel_zlen s n : py_step s <> 0 -> zlen (py_sel s n) = py_len s n.
Proof.
  intros Hs. unfold py_sel. rewrite zlen_map, zrange_zlen.
  pose proof (py_len_nonneg s n Hs). lia.
Qed.

Lemma py_sel_zget s n i : 0 <= i < py_len s n ->
  zget (py_sel s n) i = Some (py_start s n + py_step s * i).
Proof.
  intros Hi. unfold py_sel. rewrite zget_map, zget_zrange by lia. cbn. do 2 f_equal; lia.
Qed.

Lemma py_getslice_zlen {A} (l : list A) s : py_step s <> 0 ->
  zlen (py_getslice l s) = py_len s (zlen l).
Proof.
  intros Hs. unfold py_getslice.
  destruct (pick_spec l (py_sel s (zlen l))) as [H _].
  - apply py_sel_forall; [apply zlen_nonneg|assumption].
  - rewrite H. apply py_sel_zlen; assumption.
Qed.

Lemma py_getslice_zget {A} (l : list A) s i : py_step s <> 0 -> 0 <= i < py_len s (zlen l) ->
  zget (py_getslice l s) i = zget l (py_start s (zlen l) + py_step s * i).
Proof.
  intros Hs Hi. unfold py_getslice.
  destruct (pick_spec l (py_sel s (zlen l))) as [_ H].
  - apply py_sel_forall; [apply zlen_nonneg|assumption].
  - rewrite H. rewrite py_sel_zget by assumption. reflexivity.
Qed.

Lemma Forall_zget {A} (P : A -> Prop) l k x : Forall P l -> zget l k = Some x -> P x.
Proof.
  intros HF. unfold zget. destruct (k <? 0); [discriminate|]. intros H.
  rewrite Forall_forall in HF. apply HF. eapply nth_error_In; eassumption.
Qed.

Lemma getitem_pixel {A} (m : ndmap A) sy sx i j :
  nd_wf m -> py_step sy <> 0 -> py_step sx <> 0 ->
  0 <= i < py_len sy (nm_ny m) -> 0 <= j < py_len sx (nm_nx m) ->
  pixel (getitem m (sy, sx)) i j =
  pixel m (py_start sy (nm_ny m) + py_step sy * i) (py_start sx (nm_nx m) + py_step sx * j).
Proof.
  intros [Hny Hnx] Hsy Hsx Hi Hj. unfold getitem.
  destruct (slice_geometry (nm_ny m, nm_nx m) (nm_wcs m) (sy, sx) false) as [sh w].
  unfold pixel. cbn [nm_arr fst snd]. rewrite zget_map.
  rewrite <- Hny in Hi |- *. rewrite py_getslice_zget by assumption.
  destruct (zget (nm_arr m) (py_start sy (zlen (nm_arr m)) + py_step sy * i)) as [row|] eqn:E; [|reflexivity].
  cbn [option_map]. pose proof (Forall_zget _ _ _ _ Hnx E) as Hrow. cbn in Hrow.
  rewrite <- Hrow in Hj |- *. rewrite py_getslice_zget by assumption. reflexivity.
Qed.

Lemma getitem_wf {A} (m : ndmap A) sy sx :
  nd_wf m -> py_step sy <> 0 -> py_step sx <> 0 -> nd_wf (getitem m (sy, sx)).
Proof.
  intros [Hny Hnx] Hsy Hsx. unfold getitem.
  destruct (slice_geometry (nm_ny m, nm_nx m) (nm_wcs m) (sy, sx) false) as [sh w].
  split; cbn [nm_arr nm_ny nm_nx fst snd].
  - rewrite zlen_map, py_getslice_zlen by assumption. now rewrite Hny.
  - apply Forall_forall. intros r Hr. apply in_map_iff in Hr as (row & <- & Hrow).
    rewrite py_getslice_zlen by assumption. f_equal.
    unfold py_getslice, pick in Hrow. apply in_flat_map in Hrow as (k & _ & Hk).
    destruct (zget (nm_arr m) k) as [row'|] eqn:E; [|contradiction].
    destruct Hk as [<-|[]]. apply (Forall_zget _ _ _ _ Hnx E).
Qed.

Lemma pixel_defined {A} (m : ndmap A) y x : nd_wf m -> 0 <= y < nm_ny m -> 0 <= x < nm_nx m ->
  exists v, pixel m y x = Some v.
Proof.
  intros [Hny Hnx] Hy Hx. unfold pixel. rewrite <- Hny in Hy.
  destruct (zget_in_range _ _ Hy) as [row E]. rewrite E.
  apply zget_in_range. rewrite (Forall_zget _ _ _ _ Hnx E). exact Hx.
Qed.

Lemma getitem_sky_y {A} (m : ndmap A) sy sx p : 0 <= nm_ny m -> in_range sy (nm_ny m) ->
  (sky_y (nm_wcs (getitem m (sy, sx))) p ==
   sky_y (nm_wcs m) (inject_Z (py_start sy (nm_ny m)) + inject_Z (py_step sy) * p
      + (inject_Z (py_step sy) - inject_Z (Z.sgn (py_step sy))) / 2))%Q.
Proof.
  intros Hn H. unfold getitem, slice_geometry.
  pose proof (slice_axis_sky (nm_ny m) (crval_y (nm_wcs m)) (crpix_y (nm_wcs m)) (cdelt_y (nm_wcs m)) sy p Hn H) as E.
  destruct (slice_axis (nm_ny m) (crpix_y (nm_wcs m)) (cdelt_y (nm_wcs m)) sy false) as [[oy cpy] cdy].
  destruct (slice_axis (nm_nx m) (crpix_x (nm_wcs m)) (cdelt_x (nm_wcs m)) sx false) as [[ox cpx] cdx].
  exact E.
Qed.

Lemma getitem_sky_x {A} (m : ndmap A) sy sx p : 0 <= nm_nx m -> in_range sx (nm_nx m) ->
  (sky_x (nm_wcs (getitem m (sy, sx))) p ==
   sky_x (nm_wcs m) (inject_Z (py_start sx (nm_nx m)) + inject_Z (py_step sx) * p
      + (inject_Z (py_step sx) - inject_Z (Z.sgn (py_step sx))) / 2))%Q.
Proof.
  intros Hn H. unfold getitem, slice_geometry.
  pose proof (slice_axis_sky (nm_nx m) (crval_x (nm_wcs m)) (crpix_x (nm_wcs m)) (cdelt_x (nm_wcs m)) sx p Hn H) as E.
  destruct (slice_axis (nm_ny m) (crpix_y (nm_wcs m)) (cdelt_y (nm_wcs m)) sy false) as [[oy cpy] cdy].
  destruct (slice_axis (nm_nx m) (crpix_x (nm_wcs m)) (cdelt_x (nm_wcs m)) sx false) as [[ox cpx] cdx].
  exact E.
Qed.

Lemma axis_len_nonempty n cp cd s : 0 <= n -> in_range s n -> 0 < py_len s n ->
  axis_len (slice_axis n cp cd s false) = py_len s n.
Proof. intros Hn H Hl. pose proof (slice_axis_len n cp cd s Hn H). lia. Qed.

Lemma composes_start s1 s2 s12 n : composes s1 s2 s12 n -> py_step s12 <> 0 -> 0 < py_len s12 n ->
  py_len s2 (py_len s1 n) = py_len s12 n /\
  py_start s12 n = py_start s1 n + py_step s1 * py_start s2 (py_len s1 n).
Proof.
  intros [Hk E] Hne Hpos.
  assert (Hk2 : py_step s2 <> 0) by nia.
  pose proof (f_equal zlen E) as EL. rewrite zlen_map, !py_sel_zlen in EL by assumption.
  split; [lia|].
  pose proof (f_equal (fun l => zget l 0) E) as E0. cbn beta in E0.
  rewrite zget_map, !py_sel_zget in E0 by lia. cbn [option_map] in E0.
  injection E0 as E0. lia.
Qed.

Lemma slice_axis_compose n crval cp cd s1 s2 s12 : 0 <= n ->
  in_range s1 n -> in_range s2 (py_len s1 n) -> in_range s12 n ->
  composes s1 s2 s12 n -> 0 < py_len s12 n ->
  (0 < py_step s2 \/ Z.abs (py_step s1) = 1) ->
  let r1 := slice_axis n cp cd s1 false in
  let r2 := slice_axis (axis_len r1) (axis_crpix r1) (axis_cdelt r1) s2 false in
  let r := slice_axis n cp cd s12 false in
  axis_len r2 = axis_len r /\
  forall p, (sky_at crval (axis_crpix r2) (axis_cdelt r2) p == sky_at crval (axis_crpix r) (axis_cdelt r) p)%Q.
Proof.
  intros Hn H1 H2 H12 Hc Hpos Hg r1 r2 r.
  assert (Hk12 : py_step s12 <> 0) by apply H12.
  assert (Hk1 : py_step s1 <> 0) by apply H1.
  assert (Hk2 : py_step s2 <> 0) by apply H2.
  pose proof (composes_start _ _ _ _ Hc Hk12 Hpos) as [HL HS].
  assert (Hl1 : 0 < py_len s1 n).
  { pose proof (py_len_nonneg s1 n Hk1). destruct (Z.eq_dec (py_len s1 n) 0) as [E|]; [|lia].
    rewrite E in HL. pose proof (py_start_range s2 0 ltac:(lia)) as [A1 A2].
    pose proof (py_sel_in_range s2 0 0 ltac:(lia) Hk2 ltac:(lia)). lia. }
  assert (El1 : axis_len r1 = py_len s1 n) by (apply axis_len_nonempty; assumption).
  split.
  - subst r2 r. rewrite El1. rewrite !axis_len_nonempty by (try assumption; lia). lia.
  - intros p. subst r2 r. rewrite El1.
    rewrite slice_axis_sky by (try assumption; lia).
    subst r1. rewrite !slice_axis_sky by (try assumption; lia).
    destruct Hc as [Hk _]. rewrite HS, Hk.
    set (a1 := py_start s1 n). set (a2 := py_start s2 (py_len s1 n)).
    set (k1 := py_step s1) in *. set (k2 := py_step s2) in *. clearbody a1 a2 k1 k2.
    rewrite inject_Z_plus, !inject_Z_mult.
    assert (Hs : (k1 * (k2 - Z.sgn k2) + (k1 - Z.sgn k1) = k1 * k2 - Z.sgn (k1 * k2))%Z).
    { destruct Hg as [Hg|Hg].
      - replace (Z.sgn k2) with 1 by lia. rewrite Z.sgn_mul. replace (Z.sgn k2) with 1 by lia. lia.
      - assert (Hk1' : k1 = 1 \/ k1 = -1) by lia. rewrite Z.sgn_mul. destruct Hk1' as [-> | ->]; cbn [Z.sgn]; lia. }
    assert (HsQ : (inject_Z k1 * (inject_Z k2 - inject_Z (Z.sgn k2)) + (inject_Z k1 - inject_Z (Z.sgn k1))
                   == inject_Z k1 * inject_Z k2 - inject_Z (Z.sgn (k1 * k2)))%Q).
    { unfold Qminus. rewrite <- !inject_Z_opp, <- !inject_Z_mult, <- !inject_Z_plus, <- !inject_Z_mult, <- !inject_Z_plus.
      rewrite inject_Z_injective. lia. }
    unfold sky_at.
    transitivity (crval + cd * (inject_Z a1 + inject_Z k1 * inject_Z a2 + inject_Z k1 * inject_Z k2 * p
       + (inject_Z k1 * (inject_Z k2 - inject_Z (Z.sgn k2)) + (inject_Z k1 - inject_Z (Z.sgn k1))) / 2 + 1 - cp))%Q.
    + field.
    + rewrite HsQ. field.
Qed.

Lemma slice_geometry_compose ny nx w s1 t1 s2 t2 s12 t12 : 0 <= ny -> 0 <= nx ->
  in_range s1 ny -> in_range t1 nx ->
  in_range s2 (py_len s1 ny) -> in_range t2 (py_len t1 nx) ->
  in_range s12 ny -> in_range t12 nx ->
  composes s1 s2 s12 ny -> composes t1 t2 t12 nx ->
  0 < py_len s12 ny -> 0 < py_len t12 nx ->
  (0 < py_step s2 \/ Z.abs (py_step s1) = 1) -> (0 < py_step t2 \/ Z.abs (py_step t1) = 1) ->
  let g1 := slice_geometry (ny, nx) w (s1, t1) false in
  let g2 := slice_geometry (fst g1) (snd g1) (s2, t2) false in
  let g := slice_geometry (ny, nx) w (s12, t12) false in
  fst g2 = fst g /\ same_sky (snd g2) (snd g).
Proof.
  intros Hny Hnx A1 B1 A2 B2 A12 B12 CA CB PA PB GA GB g1 g2 g.
  pose proof (slice_axis_compose ny (crval_y w) (crpix_y w) (cdelt_y w) s1 s2 s12 Hny A1 A2 A12 CA PA GA) as [LY SY].
  pose proof (slice_axis_compose nx (crval_x w) (crpix_x w) (cdelt_x w) t1 t2 t12 Hnx B1 B2 B12 CB PB GB) as [LX SX].
  subst g2 g g1. unfold slice_geometry.
  destruct (slice_axis ny (crpix_y w) (cdelt_y w) s1 false) as [[oy cpy] cdy].
  destruct (slice_axis nx (crpix_x w) (cdelt_x w) t1 false) as [[ox cpx] cdx].
  destruct (slice_axis ny (crpix_y w) (cdelt_y w) s12 false) as [[oy' cpy'] cdy'].
  destruct (slice_axis nx (crpix_x w) (cdelt_x w) t12 false) as [[ox' cpx'] cdx'].
  cbn [fst snd crpix_y crpix_x cdelt_y cdelt_x axis_len axis_crpix axis_cdelt] in *.
  destruct (slice_axis oy cpy cdy s2 false) as [[oy2 cpy2] cdy2].
  destruct (slice_axis ox cpx cdx t2 false) as [[ox2 cpx2] cdx2].
  cbn [fst snd axis_len axis_crpix axis_cdelt] in *.
  split; [congruence|]. intros p. split; [apply SX|apply SY].
Qed.

Lemma slice_pixels {A} (m : ndmap A) sy sx i j : nd_wf m ->
  in_range sy (nm_ny m) -> in_range sx (nm_nx m) ->
  0 <= i < py_len sy (nm_ny m) -> 0 <= j < py_len sx (nm_nx m) ->
  let o := getitem m (sy, sx) in
  let y := py_start sy (nm_ny m) + py_step sy * i in
  let x := py_start sx (nm_nx m) + py_step sx * j in
  0 <= y < nm_ny m /\ 0 <= x < nm_nx m /\
  nd_wf o /\ nm_ny o = py_len sy (nm_ny m) /\ nm_nx o = py_len sx (nm_nx m) /\
  pixel o i j = pixel m y x /\ pixel o i j <> None /\
  (sky_y (nm_wcs o) (inject_Z i) == sky_y (nm_wcs m) (inject_Z y + (inject_Z (py_step sy) - inject_Z (Z.sgn (py_step sy))) / 2))%Q /\
  (sky_x (nm_wcs o) (inject_Z j) == sky_x (nm_wcs m) (inject_Z x + (inject_Z (py_step sx) - inject_Z (Z.sgn (py_step sx))) / 2))%Q.
Proof.
  intros Hwf Hy Hx Hi Hj o y x.
  assert (Hsy : py_step sy <> 0) by apply Hy. assert (Hsx : py_step sx <> 0) by apply Hx.
  assert (Hny : 0 <= nm_ny m) by (destruct Hwf as [<- _]; apply zlen_nonneg).
  assert (Hyr : 0 <= y < nm_ny m) by (apply py_sel_in_range; assumption).
  assert (Hnx : 0 <= nm_nx m).
  { destruct Hwf as [E F]. rewrite <- E in Hyr. destruct (zget_in_range _ _ Hyr) as [r Hr].
    rewrite <- (Forall_zget _ _ _ _ F Hr). apply zlen_nonneg. }
  assert (Hxr : 0 <= x < nm_nx m) by (apply py_sel_in_range; assumption).
  assert (Ho : nd_wf o) by (apply getitem_wf; assumption).
  split; [exact Hyr|]. split; [exact Hxr|]. split; [exact Ho|].
  assert (E1 : nm_ny o = py_len sy (nm_ny m)).
  { subst o. unfold getitem. destruct (slice_geometry _ _ _ _). reflexivity. }
  assert (E2 : nm_nx o = py_len sx (nm_nx m)).
  { subst o. unfold getitem. destruct (slice_geometry _ _ _ _). reflexivity. }
  split; [exact E1|]. split; [exact E2|].
  split; [apply getitem_pixel; assumption|].
  split.
  { destruct (pixel_defined o i j Ho) as [v Hv]; [lia|lia|]. congruence. }
  split.
  - subst o. rewrite getitem_sky_y by assumption. subst y. rewrite inject_Z_plus, inject_Z_mult.
    unfold sky_y, sky_at. field.
  - subst o. rewrite getitem_sky_x by assumption. subst x. rewrite inject_Z_plus, inject_Z_mult.
    unfold sky_x, sky_at. field.
Qed.

Lemma slice_unit_pixels {A} (m : ndmap A) sy sx i j : nd_wf m ->
  in_range sy (nm_ny m) -> in_range sx (nm_nx m) ->
  Z.abs (py_step sy) = 1 -> Z.abs (py_step sx) = 1 ->
  0 <= i < py_len sy (nm_ny m) -> 0 <= j < py_len sx (nm_nx m) ->
  let o := getitem m (sy, sx) in
  let y := py_start sy (nm_ny m) + py_step sy * i in
  let x := py_start sx (nm_nx m) + py_step sx * j in
  pixel o i j = pixel m y x /\
  (sky_y (nm_wcs o) (inject_Z i) == sky_y (nm_wcs m) (inject_Z y))%Q /\
  (sky_x (nm_wcs o) (inject_Z j) == sky_x (nm_wcs m) (inject_Z x))%Q.
Proof.
  intros Hwf Hy Hx Ay Ax Hi Hj o y x.
  pose proof (slice_pixels m sy sx i j Hwf Hy Hx Hi Hj) as (_ & _ & _ & _ & _ & Hp & _ & Sy & Sx).
  fold o in Sy, Sx, Hp. fold x in Sx, Hp. fold y in Sy, Hp.
  assert (Hz : forall k, Z.abs k = 1 -> ((inject_Z k - inject_Z (Z.sgn k)) / 2 == 0)%Q).
  { intros k Hk. assert (k = 1 \/ k = -1) as [-> | ->] by lia; reflexivity. }
  split; [exact Hp|]. split.
  - rewrite Sy. unfold sky_y, sky_at. rewrite (Hz _ Ay). ring.
  - rewrite Sx. unfold sky_x, sky_at. rewrite (Hz _ Ax). ring.
Qed.

Lemma expand_slice_sel s n : 0 <= n -> in_range s n ->
  raw_sel (expand_slice s n false) = py_sel s n.
Proof. intros Hn H. rewrite expand_slice_in_range by assumption. reflexivity. Qed.

Lemma slice_shape ny nx w sy sx : 0 <= ny -> 0 <= nx -> in_range sy ny -> in_range sx nx ->
  let sh := fst (slice_geometry (ny, nx) w (sy, sx) false) in
  Z.max 0 (fst sh) = py_len sy ny /\ Z.max 0 (snd sh) = py_len sx nx.
Proof.
  intros Hny Hnx Hy Hx. unfold slice_geometry.
  pose proof (slice_axis_len ny (crpix_y w) (cdelt_y w) sy Hny Hy) as E1.
  pose proof (slice_axis_len nx (crpix_x w) (cdelt_x w) sx Hnx Hx) as E2.
  destruct (slice_axis ny (crpix_y w) (cdelt_y w) sy false) as [[oy cpy] cdy].
  destruct (slice_axis nx (crpix_x w) (cdelt_x w) sx false) as [[ox cpx] cdx].
  cbn in *. split; assumption.
Qed.

(* decides in_range for literal slices *)
Ltac in_range_tac :=
  unfold in_range, py_step; cbn [ps_step ps_start ps_stop];
  split; [lia | split; intros ?i ?HH; first [discriminate HH | injection HH as <-; lia]].
