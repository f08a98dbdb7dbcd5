(* C71 subinds/submap, C72 fullsky_geometry/band_geometry, C73 thumbnail_geometry, C74 union and overlap. *)
From Coq Require Import Qabs Qround Lqa.
From Verif Require Import Base RangeLemmas SliceSpec SliceModel SboxSpec SboxModel WindModel WindLemmas ArrModel PixSpec PixModel PixLemmas2 GeoSpec GeoModel GeoLemmas GeoLemmas2.
Ltac Zify.zify_post_hook ::= idtac.

(** C71 *)

(* Boxes that touch give pixel ranges that touch: for any chain of points running one way, the pixels of the boxes
   between consecutive points, one after the other, are the pixels of the box from the first to the last point. *)
Theorem C71_touch n crval crpix cdelt m cap eps e x y l :
  ~ (cdelt == 0)%Q -> e = 1 \/ e = -1 -> m <> MInclusive -> m <> MExclusive -> runs e (x :: y :: l) ->
  concat (map (fun p => raw_sel (subinds n crval crpix cdelt (fst p) (snd p) m cap false eps)) (pairs (x :: y :: l))) =
  raw_sel (subinds n crval crpix cdelt x (last (y :: l) x) m cap false eps).
Proof. intros Hc He M1 M2 H. apply (touch_list n crval crpix cdelt m cap eps e l Hc He M1 M2 x y H). Qed.
Print Assumptions C71_touch.

(* With noflip the ranges always run upwards, and touch as well. *)
Theorem C71_touch_noflip n crval crpix cdelt m cap eps e x y z :
  ~ (cdelt == 0)%Q -> e = 1 \/ e = -1 -> m <> MInclusive -> m <> MExclusive -> runs e [x; y; z] ->
  let sel a b := raw_sel (subinds n crval crpix cdelt a b m cap true eps) in
  sel x z = if Qle_bool 0 (inject_Z e * cdelt) then sel x y ++ sel y z else sel y z ++ sel x y.
Proof.
  cbv zeta. intros Hc He M1 M2 (H1 & H2 & _).
  assert (H3 : (0 < inject_Z e * (z - x))%Q) by lra.
  pose proof (okdir_iff _ _ _ _ Hc He H1) as D1. pose proof (okdir_iff _ _ _ _ Hc He H2) as D2. pose proof (okdir_iff _ _ _ _ Hc He H3) as D3.
  assert (S : Qle_bool 0 (inject_Z e * cdelt) = negb (e * qsgn cdelt <? 0)).
  { destruct (Qlt_le_dec 0 cdelt) as [P|P].
    - rewrite (qsgn_pos _ P). destruct He as [E|E]; subst e; cbn [Z.mul Z.ltb Z.compare negb].
      + apply Qle_bool_iff. change (inject_Z 1) with 1%Q. lra.
      + apply qle_false. change (inject_Z (-1)) with (-1)%Q. lra.
    - assert (P' : (cdelt < 0)%Q) by (apply Qle_lteq in P as [P|P]; [exact P|contradiction]).
      rewrite (qsgn_neg _ P'). destruct He as [E|E]; subst e; cbn [Z.mul Z.ltb Z.compare negb].
      + apply qle_false. change (inject_Z 1) with 1%Q. lra.
      + apply Qle_bool_iff. change (inject_Z (-1)) with (-1)%Q. lra. }
  rewrite S. rewrite !(subinds_noflip n crval crpix cdelt _ _ m cap eps _ Hc D1), !(subinds_noflip n crval crpix cdelt _ _ m cap eps _ Hc D2), !(subinds_noflip n crval crpix cdelt _ _ m cap eps _ Hc D3).
  rewrite !round_lohi by assumption.
  pose proof (rl_dir m _ crval crpix cdelt eps _ _ Hc D1) as R1. pose proof (rl_dir m _ crval crpix cdelt eps _ _ Hc D2) as R2.
  destruct D1 as [[E|E] _]; rewrite E in *; cbn [Z.ltb Z.compare negb]; symmetry; apply raw_join; auto; lia.
Qed.
Print Assumptions C71_touch_noflip.

(* cap=True keeps exactly the selected pixels that are in the map. *)
Theorem C71_cap n crval crpix cdelt from to m eps : ~ (cdelt == 0)%Q -> ~ (from == to)%Q ->
  raw_sel (subinds n crval crpix cdelt from to m true false eps) =
  filter (fun k => (0 <=? k) && (k <? n)) (raw_sel (subinds n crval crpix cdelt from to m false false eps)).
Proof.
  intros Hc Hn. destruct (Qlt_le_dec from to) as [L|L].
  - apply (subinds_cap n crval crpix cdelt from to m eps 1 Hc); [left; reflexivity|]. change (inject_Z 1) with 1%Q. lra.
  - apply (subinds_cap n crval crpix cdelt from to m eps (-1) Hc); [right; reflexivity|]. change (inject_Z (-1)) with (-1)%Q.
    apply Qle_lteq in L as [L|L]; [lra|]. exfalso. apply Hn. symmetry. exact L.
Qed.
Print Assumptions C71_cap.

Lemma round_inds n crval crpix cdelt from to eps d : ~ (cdelt == 0)%Q -> okdir d cdelt from to ->
  subinds n crval crpix cdelt from to MRound false false eps = (qround (s2p crval crpix cdelt from + eps), qround (s2p crval crpix cdelt to + eps), d) /\
  0 <= d * (qround (s2p crval crpix cdelt to + eps) - qround (s2p crval crpix cdelt from + eps)).
Proof.
  assert (RL : forall x, round_lo MRound x = qround x) by reflexivity. assert (RH : forall x, round_hi MRound x = qround x) by reflexivity.
  intros Hc D. split.
  - rewrite (subinds_dir n crval crpix cdelt from to MRound false eps d Hc D). unfold capped, round_lo, round_hi. reflexivity.
  - rewrite <- !RL. apply (rl_dir MRound d crval crpix cdelt eps from to Hc D).
Qed.

(* The ends of the selection are within a pixel of the ends of the box (pixel k covers k-1/2 to k+1/2). *)
Theorem C71_corners n crval crpix cdelt from to eps a b d : ~ (cdelt == 0)%Q -> ~ (from == to)%Q ->
  subinds n crval crpix cdelt from to MRound false false eps = (a, b, d) ->
  let p0 := s2p crval crpix cdelt from in let p1 := s2p crval crpix cdelt to in
  (sky_at crval crpix cdelt p0 == from)%Q /\ (sky_at crval crpix cdelt p1 == to)%Q /\
  (p0 + eps - 1 <= inject_Z a - (1 # 2) <= p0 + eps)%Q /\ (p1 + eps - 1 <= inject_Z b - (1 # 2) <= p1 + eps)%Q /\
  (d = 1 \/ d = -1) /\ 0 <= d * (b - a).
Proof.
  intros Hc Hn E. cbv zeta.
  assert (exists e, (e = 1 \/ e = -1) /\ (0 < inject_Z e * (to - from))%Q) as (e & He & H).
  { destruct (Qlt_le_dec from to) as [L|L]; [exists 1; split; [auto|change (inject_Z 1) with 1%Q; lra]|exists (-1); split; [auto|change (inject_Z (-1)) with (-1)%Q]].
    apply Qle_lteq in L as [L|L]; [lra|]. exfalso. apply Hn. symmetry. exact L. }
  pose proof (okdir_iff _ _ _ _ Hc He H) as D. destruct (round_inds n crval crpix cdelt from to eps _ Hc D) as [E' R].
  rewrite E in E'. apply pair_equal_spec in E' as [E' E3]. apply pair_equal_spec in E' as [E1 E2]. rewrite <- E3 in R, D. rewrite <- E1, <- E2 in R.
  pose proof (qround_bounds (s2p crval crpix cdelt from + eps)) as B1. pose proof (qround_bounds (s2p crval crpix cdelt to + eps)) as B2. rewrite <- E1 in B1. rewrite <- E2 in B2.
  split; [apply s2p_sky, Hc|]. split; [apply s2p_sky, Hc|]. clear - B1 B2 R D. destruct D as [D _].
  generalize dependent (s2p crval crpix cdelt from). generalize dependent (s2p crval crpix cdelt to). intros p1 B2 p0 B1.
  split; [lra|]. split; [lra|]. split; [exact D|exact R].
Qed.
Print Assumptions C71_corners.

(* A box along pixel edges, in the direction of increasing pixel index: exactly the pixels inside. *)
Theorem C71_edges_partial n crval crpix cdelt i1 i2 from to cap : ~ (cdelt == 0)%Q -> 0 <= i1 <= i2 -> i2 < n ->
  (from == sky_at crval crpix cdelt (inject_Z i1 - (1 # 2)))%Q -> (to == sky_at crval crpix cdelt (inject_Z i2 + (1 # 2)))%Q ->
  raw_sel (subinds n crval crpix cdelt from to MRound cap false eps0) = zrange i1 (i2 + 1).
Proof.
  intros Hc [Hi0 Hi] Hi2 Ef Et.
  assert (Pf : (s2p crval crpix cdelt from == inject_Z i1 - (1 # 2))%Q) by (unfold s2p, sky_at in *; rewrite Ef; field; exact Hc).
  assert (Pt : (s2p crval crpix cdelt to == inject_Z i2 + (1 # 2))%Q) by (unfold s2p, sky_at in *; rewrite Et; field; exact Hc).
  assert (D : okdir 1 cdelt from to).
  { split; [left; reflexivity|]. assert (E : ((to - from) / cdelt == s2p crval crpix cdelt to - s2p crval crpix cdelt from)%Q) by (unfold s2p; field; exact Hc).
    rewrite E, Pf, Pt. change (inject_Z 1) with 1%Q. rewrite Zle_Qle in Hi. lra. }
  rewrite (subinds_dir _ _ _ _ _ _ _ _ _ _ Hc D). cbn [round_lo round_hi].
  assert (R : forall z x, (inject_Z z - (1 # 2) < x)%Q -> (x < inject_Z z + (1 # 2))%Q -> qround x = z).
  { intros z x H1 H2. pose proof (qround_bounds x) as [B1 B2].
    assert (A1 : (inject_Z (qround x) < inject_Z (z + 1))%Q) by (rewrite inject_Z_plus; change (inject_Z 1) with 1%Q; lra).
    assert (A2 : (inject_Z z < inject_Z (qround x + 1))%Q) by (rewrite inject_Z_plus; change (inject_Z 1) with 1%Q; lra).
    rewrite <- Zlt_Qlt in A1, A2. lia. }
  rewrite (R i1), (R (i2 + 1)); rewrite ?inject_Z_plus; change (inject_Z 1) with 1%Q; try (rewrite ?Pf, ?Pt; unfold eps0; lra).
  unfold capped. destruct cap; cbn [Z.ltb Z.compare]; rewrite raw_up; [f_equal; lia|reflexivity].
Qed.
Print Assumptions C71_edges_partial.

(* ... and in the other direction the selection is off by one: on an axis with pixel k at coordinate k, the box from
   4.5 down to 1.5 is that of pixels 4,3,2, but 5,4,3 come out. The same box read upwards gives 2,3,4. *)
Theorem C71_edges_refuted : raw_sel (subinds 10 0 1 1 (9 # 2) (3 # 2) MRound true false eps0) = [5; 4; 3] /\
  raw_sel (subinds 10 0 1 1 (3 # 2) (9 # 2) MRound true false eps0) = [2; 3; 4] /\
  raw_sel (subinds 10 0 1 1 (9 # 2) (3 # 2) MRound true true eps0) = [2; 3; 4].
Proof. vm_compute. repeat split; reflexivity. Qed.
Print Assumptions C71_edges_refuted.

(* inclusive and exclusive, for boxes that run in the direction of increasing pixel index *)
Theorem C71_inclusive_partial n crval crpix cdelt from to eps : (0 < (to - from) / cdelt)%Q -> ~ (cdelt == 0)%Q ->
  let p0 := (s2p crval crpix cdelt from + eps)%Q in let p1 := (s2p crval crpix cdelt to + eps)%Q in
  (exists a b, subinds n crval crpix cdelt from to MInclusive false false eps = (a, b, 1) /\
     (p0 - 1 < inject_Z a <= p0)%Q /\ (p1 <= inject_Z b < p1 + 1)%Q) /\
  (exists a b, subinds n crval crpix cdelt from to MExclusive false false eps = (a, b, 1) /\
     (p0 <= inject_Z a < p0 + 1)%Q /\ (p1 - 1 < inject_Z b <= p1)%Q).
Proof.
  intros H Hc. cbv zeta.
  assert (D : okdir 1 cdelt from to) by (split; [left; reflexivity|change (inject_Z 1) with 1%Q; lra]).
  assert (F : forall x, (x - 1 < inject_Z (Qfloor x) <= x)%Q).
  { intros x. pose proof (Qfloor_le x). pose proof (Qlt_floor x) as L. rewrite inject_Z_plus in L. change (inject_Z 1) with 1%Q in L. lra. }
  assert (C : forall x, (x <= inject_Z (Qceiling x) < x + 1)%Q).
  { intros x. pose proof (Qle_ceiling x). pose proof (Qceiling_lt x) as L. unfold Z.sub in L. rewrite inject_Z_plus, inject_Z_opp in L. change (inject_Z 1) with 1%Q in L. lra. }
  split; eexists _, _; rewrite (subinds_dir _ _ _ _ _ _ _ _ _ _ Hc D); cbn [capped round_lo round_hi]; (split; [reflexivity|]); split; auto.
Qed.
Print Assumptions C71_inclusive_partial.

(* For a box that runs the other way "inclusive" leaves out the pixels at its ends: from 4.4 to 1.6 gives 4,3 - although
   the box reaches into pixel 2. And "exclusive" fails on a box within a pixel: the shape would be negative. *)
Theorem C71_inclusive_refuted : raw_sel (subinds 10 0 1 1 (22 # 5) (8 # 5) MInclusive false false eps0) = [4; 3].
Proof. vm_compute. reflexivity. Qed.
Print Assumptions C71_inclusive_refuted.

Definition ex_m : fmap Z := FM (FA 6 8 (fun y x => 10 * y + x)) (Wcs 0 1 1 0 1 1).
Theorem C71_exclusive_refuted : submap ex_m ((6 # 5, 0%Q), (9 # 5, 4%Q)) MExclusive true None 0 = None.
Proof. vm_compute. reflexivity. Qed.
Print Assumptions C71_exclusive_refuted.

(* submap: pixel (i,j) of the result is the pixel of the map's grid that subinds lists at (i,j), with its sky position and
   its value - the fill value where the map (repeated around the sky) has no such pixel. *)
Theorem C71_submap {A} (m : fmap A) fy fx ty tx mode plain wrap cval wy wx :
  let box := ((fy, fx), (ty, tx)) in
  0 < f_ny (fm_arr m) -> 0 < f_nx (fm_arr m) -> ~ (cdelt_x (fm_wcs m) == 0)%Q -> ~ (cdelt_y (fm_wcs m) == 0)%Q ->
  wrap_lens (fm_wcs m) (f_nx (fm_arr m)) plain wrap = (wy, wx) -> wrap_ok wy (f_ny (fm_arr m)) -> wrap_ok wx (f_nx (fm_arr m)) ->
  mode <> MInclusive -> mode <> MExclusive -> ~ (fy == ty)%Q -> ~ (fx == tx)%Q ->
  let '(by_, bx) := subinds2 (f_ny (fm_arr m), f_nx (fm_arr m)) (fm_wcs m) box mode false false in
  let ys := raw_sel by_ in let xs := raw_sel bx in
  exists o, submap m box mode plain wrap cval = Some o /\
    f_ny (fm_arr o) = zlen ys /\ f_nx (fm_arr o) = zlen xs /\
    forall i j ky kx, zget ys i = Some ky -> zget xs j = Some kx ->
      same_sky_at (fm_wcs o) (fm_wcs m) i j ky kx /\
      f_at (fm_arr o) i j = match source wy (f_ny (fm_arr m)) ky, source wx (f_nx (fm_arr m)) kx with
                            | Some y, Some x => f_at (fm_arr m) y x | _, _ => cval end.
Proof.
  cbv zeta. intros Hny Hnx Cx Cy Ew Wy Wx M1 M2 Ny Nx.
  assert (Dir : forall n cv cp cd f t, ~ (cd == 0)%Q -> ~ (f == t)%Q -> exists a b d, subinds n cv cp cd f t mode false false eps0 = (a, b, d) /\ (d = 1 \/ d = -1) /\ 0 <= d * (b - a)).
  { intros n cv cp cd f t Hc Hn.
    assert (exists e, (e = 1 \/ e = -1) /\ (0 < inject_Z e * (t - f))%Q) as (e & He & H).
    { destruct (Qlt_le_dec f t) as [L|L]; [exists 1; split; [auto|change (inject_Z 1) with 1%Q; lra]|exists (-1); split; [auto|change (inject_Z (-1)) with (-1)%Q]].
      apply Qle_lteq in L as [L|L]; [lra|]. exfalso. apply Hn. symmetry. exact L. }
    pose proof (okdir_iff _ _ _ _ Hc He H) as D. rewrite (subinds_dir _ _ _ _ _ _ _ _ _ _ Hc D). eexists _, _, _. split; [reflexivity|]. split; [apply D|].
    rewrite round_lohi by assumption. apply rl_dir; assumption. }
  destruct (Dir (f_ny (fm_arr m)) (crval_y (fm_wcs m)) (crpix_y (fm_wcs m)) (cdelt_y (fm_wcs m)) fy ty Cy Ny) as (ay & by_ & dy & Ey & Dy & Ly).
  destruct (Dir (f_nx (fm_arr m)) (crval_x (fm_wcs m)) (crpix_x (fm_wcs m)) (cdelt_x (fm_wcs m)) fx tx Cx Nx) as (ax & bx & dx & Ex & Dx & Lx).
  assert (Eb : subinds2 (f_ny (fm_arr m), f_nx (fm_arr m)) (fm_wcs m) ((fy, fx), (ty, tx)) mode false false = ((ay, by_, dy), (ax, bx, dx))).
  { unfold subinds2. cbn [fst snd]. rewrite Ey, Ex. reflexivity. }
  rewrite Eb. destruct (submap_spec m ((fy, fx), (ty, tx)) mode plain wrap cval wy wx ay by_ dy ax bx dx) as (o & Eo & O1 & O2 & Ho); auto.
  exists o. split; [exact Eo|]. rewrite !raw_zlen by assumption. split; [lia|]. split; [lia|].
  intros i j ky kx Hi Hj. pose proof (zget_Some_range _ _ _ Hi) as Ri. pose proof (zget_Some_range _ _ _ Hj) as Rj. rewrite raw_zlen in Ri, Rj by assumption.
  rewrite raw_zget in Hi, Hj by (assumption || lia). apply Some_inj in Hi. apply Some_inj in Hj. subst ky kx. apply Ho; lia.
Qed.
Print Assumptions C71_submap.

Example C71_ex : runs 1 [0; 3 # 2; 4; 11 # 2]%Q /\ runs (-1) [4; 3; 1 # 2]%Q /\
  raw_sel (subinds 6 0 1 1 0 (11 # 2) MRound true false eps0) = [0; 1; 2; 3; 4; 5] /\
  option_map (fun o => map (fun y => map (f_at (fm_arr o) y) [0; 1; 2]) [0; 1]) (submap ex_m ((1, 6), (3, 3))%Q MRound true None 0) = Some [[16; 15; 14]; [26; 25; 24]].
Proof. split; [cbn; unfold Qlt; cbn; lia|]. split; [cbn; unfold Qlt; cbn; lia|]. split; vm_compute; reflexivity. Qed.

(** C72 *)

(* The rows of a full-sky geometry go from pole to pole: with their centres for "cc", with the outer edges of the outermost
   rows for "fejer1"; the columns are evenly spaced, go once around the sky, and start at 180 degrees for even nx. *)
Theorem C72_fullsky v ny nx tol : (0 < tol)%Q -> yoff v < ny -> 0 < nx -> exists w, fullsky_shape v ny nx tol = Some ((ny, nx), w) /\
  let h := match v with CC => 0%Q | Fejer1 => 1 # 2 end in
  (sky_y w (- h) == -90 /\ sky_y w (inject_Z (ny - 1) + h) == 90 /\
   (forall p, sky_y w (p + 1) - sky_y w p == 180 / inject_Z (ny - yoff v)) /\
   sky_x w 0 == inject_Z (nx / 2) * (360 / inject_Z nx) /\
   (forall p, sky_x w p - sky_x w (p + 1) == 360 / inject_Z nx) /\
   (forall p, sky_x w p - sky_x w (p + inject_Z nx) == 360))%Q.
Proof.
  intros Ht Hy Hx. eexists. split; [apply fullsky_shape_ok; assumption|]. apply fullsky_sky; try assumption. reflexivity.
Qed.
Print Assumptions C72_fullsky.

(* Giving the resolution that fits a shape is the same as giving the shape; a resolution no number of pixels fits is refused. *)
Theorem C72_res v ny nx ry rx tol : (0 < tol)%Q -> yoff v < ny -> 0 < nx ->
  (ry * inject_Z (ny - yoff v) == 180)%Q -> (rx * inject_Z nx == 360)%Q -> exists w w',
  fullsky_res v ry rx tol = Some ((ny, nx), w) /\ fullsky_shape v ny nx tol = Some ((ny, nx), w') /\ same_sky w w'.
Proof.
  intros Ht Hy Hx Ey Ex. eexists _, _. split; [apply fullsky_res_ok; eassumption|]. split; [apply fullsky_shape_ok; assumption|].
  assert (Er : (rx == 360 / inject_Z nx)%Q) by (rewrite <- Ex; field; apply inj_nz; lia).
  intros p. unfold sky_x, sky_y, sky_at, fullsky_wcs. cbn [crval_x crpix_x cdelt_x crval_y crpix_y cdelt_y]. rewrite Er. split; reflexivity.
Qed.
Print Assumptions C72_res.

Theorem C72_res_refused v ry rx tol : (forall k, (tol <= Qabs (ry * inject_Z k - 180))%Q) \/ (forall k, (tol <= Qabs (rx * inject_Z k - 360))%Q) ->
  fullsky_res v ry rx tol = None.
Proof. apply fullsky_res_reject. Qed.
Print Assumptions C72_res_refused.

(* band_geometry: the result is a range of consecutive rows of the full sky, all columns, at the same sky positions. A row is
   kept if its centre is at least half a pixel inside the cut at the bottom and more than half a pixel inside at the top, and
   only if it is at most half a pixel outside at the bottom and at least half a pixel inside at the top. *)
Theorem C72_band_partial ny nx w dmin dmax g' : 0 <= nx -> (0 < cdelt_y w)%Q -> band_geometry ((ny, nx), w) dmin dmax = Some g' ->
  let h := (cdelt_y w / 2)%Q in let dec y := sky_y w (inject_Z y) in
  exists start, 0 <= start /\ start + fst (fst g') <= ny /\ snd (fst g') = nx /\
   (forall i j, same_place g' ((ny, nx), w) i j (start + i) j) /\
   (forall y, start <= y < start + fst (fst g') -> (dmin - h <= dec y <= dmax - h)%Q) /\
   (forall y, 0 <= y < ny -> (dmin + h <= dec y)%Q -> (dec y < dmax - h)%Q -> start <= y < start + fst (fst g')).
Proof.
  intros Hnx Hc E. destruct (band_spec ny nx w dmin dmax g' Hnx Hc E) as (s & H1 & H2 & H3 & H4 & H5 & H6 & H7). cbv zeta.
  exists s. split; [exact H1|]. split; [exact H2|]. split; [exact H3|]. split; [exact H5|].
  assert (P : forall d, (d == sky_y w (s2p (crval_y w) (crpix_y w) (cdelt_y w) d))%Q) by (intros d; unfold sky_y; rewrite s2p_sky; [reflexivity|lra]).
  assert (M : forall a b, (a <= b)%Q -> (sky_y w a <= sky_y w b)%Q).
  { intros a b L. unfold sky_y, sky_at. assert (G : ((a + 1 - crpix_y w) * cdelt_y w <= (b + 1 - crpix_y w) * cdelt_y w)%Q) by (apply Qmult_le_compat_r; lra). lra. }
  assert (S : forall a, (sky_y w (a - (1 # 2)) == sky_y w a - cdelt_y w / 2 /\ sky_y w (a + (1 # 2)) == sky_y w a + cdelt_y w / 2)%Q) by (intros a; unfold sky_y, sky_at; split; field).
  split.
  - intros y Hy. destruct (H6 y Hy) as [A B]. apply M in A. apply M in B. rewrite (proj1 (S _)) in A. rewrite (proj1 (S _)) in B. rewrite <- P in A. rewrite <- P in B. split; assumption.
  - intros y Hy A B. apply H7; [exact Hy| |].
    + destruct (Qlt_le_dec (inject_Z y) (s2p (crval_y w) (crpix_y w) (cdelt_y w) dmin + (1 # 2))) as [L|L]; [exfalso|exact L].
      assert (G : ((inject_Z y + 1 - crpix_y w) * cdelt_y w < (s2p (crval_y w) (crpix_y w) (cdelt_y w) dmin + (1 # 2) + 1 - crpix_y w) * cdelt_y w)%Q) by (apply Qmult_lt_compat_r; lra).
      pose proof (proj2 (S (s2p (crval_y w) (crpix_y w) (cdelt_y w) dmin))) as S2. rewrite <- P in S2. unfold sky_y, sky_at in *. lra.
    + destruct (Qlt_le_dec (inject_Z y) (s2p (crval_y w) (crpix_y w) (cdelt_y w) dmax - (1 # 2))) as [L|L]; [exact L|exfalso].
      apply M in L. rewrite (proj1 (S _)), <- P in L. lra.
Qed.
Print Assumptions C72_band_partial.

Definition sky181 : geometry := ((181, 360), fullsky_wcs CC 181 360 (360 / 360)).
Definition sky180 : geometry := ((180, 360), fullsky_wcs Fejer1 180 360 (360 / 360)).
(* A symmetric cut gives rows that are not symmetric: with rows at whole degrees and the cut at 10 degrees, the rows go from
   -10 to 9, although the row at 10 is as much inside the cut as the row at -10. *)
Theorem C72_band_refuted : exists g, fullsky_shape CC 181 360 (1 # 1000000) = Some sky181 /\ band_geometry sky181 (-10) 10 = Some g /\ fst (fst g) = 20 /\
  (sky_y (snd g) 0 == -10)%Q /\ (sky_y (snd g) 19 == 9)%Q.
Proof. eexists. split; [vm_compute; reflexivity|]. split; [vm_compute; reflexivity|]. split; [reflexivity|]. split; vm_compute; reflexivity. Qed.
Print Assumptions C72_band_refuted.
(* And the whole sky can not be asked for: an assertion fails for "fejer1", the row at the north pole is lost for "cc". *)
Theorem C72_band_all_refuted : fullsky_shape Fejer1 180 360 (1 # 1000000) = Some sky180 /\ band_geometry sky180 (-90) 90 = None /\
  exists g, band_geometry sky181 (-90) 90 = Some g /\ fst (fst g) = 180.
Proof. split; [vm_compute; reflexivity|]. split; [vm_compute; reflexivity|]. eexists. split; [vm_compute; reflexivity|]. reflexivity. Qed.
Print Assumptions C72_band_all_refuted.

Example C72_ex : exists g, band_geometry sky180 (-30) 20 = Some g /\ fst g = (50, 360) /\ (sky_y (snd g) 0 == -59 # 2)%Q /\ (sky_y (snd g) 49 == 39 # 2)%Q /\
  (forall k, (1 # 100 <= Qabs (7 * inject_Z k - 180))%Q).
Proof.
  eexists. split; [vm_compute; reflexivity|]. split; [reflexivity|]. split; [vm_compute; reflexivity|]. split; [vm_compute; reflexivity|].
  intros k. assert (H : (1 <= Z.abs (7 * k - 180))) by lia. rewrite Zle_Qle in H. apply Qle_trans with 1%Q; [discriminate|].
  assert (E : (7 * inject_Z k - 180 == inject_Z (7 * k - 180))%Q) by (unfold Z.sub; rewrite inject_Z_plus, inject_Z_mult; reflexivity).
  rewrite E. exact H.
Qed.

(** C73 *)

(* All three ways to ask for a thumbnail give an odd number of pixels with coordinate 0 exactly at the middle one. *)
Definition centred (t : Z * (Q * Q * Q)) : Prop :=
  let '(n, (cv, cp, cd)) := t in n mod 2 = 1 /\ (sky_at cv cp cd (inject_Z (n / 2)) == 0)%Q.

Lemma thumb_centred n cd : n mod 2 = 1 -> centred (thumb n cd).
Proof.
  intros H. unfold centred, thumb. split; [exact H|]. unfold sky_at. rewrite inject_Z_plus. change (inject_Z 1) with 1%Q. ring.
Qed.
Lemma odd_mod n : (n / 2 * 2 + 1) mod 2 = 1.
Proof. rewrite Z.add_comm, Z.mod_add by lia. reflexivity. Qed.

Theorem C73_centre res shape pr dir : centred (thumb_res_shape res shape) /\ centred (thumb_r_res pr res) /\ centred (thumb_r_shape pr dir shape).
Proof.
  split; [apply thumb_centred, odd_mod|]. split; [|apply thumb_centred, odd_mod].
  apply thumb_centred. rewrite Z.add_comm, (Z.mul_comm 2), Z.mod_add by lia. reflexivity.
Qed.
Print Assumptions C73_centre.

(* The shape asked for is enlarged by at most one pixel, and the resolution is the one asked for. *)
Theorem C73_shape res shape : let '(n, (cv, cp, cd)) := thumb_res_shape res shape in shape <= n <= shape + 1 /\ cd = res.
Proof. cbv [thumb_res_shape thumb]. split; [|reflexivity]. pose proof (Z.div_mod shape 2 ltac:(lia)). pose proof (Z.mod_pos_bound shape 2 ltac:(lia)). lia. Qed.
Print Assumptions C73_shape.

(* Radius and resolution: the outermost pixel centres are within half a pixel of the radius, on both sides. *)
Theorem C73_radius pr res : ~ (res == 0)%Q -> let '(n, (cv, cp, cd)) := thumb_r_res pr res in 0 < n /\ cd = res /\
  (Qabs (Qabs (sky_at cv cp cd (inject_Z (n - 1))) - Qabs pr) <= Qabs res / 2)%Q /\
  (sky_at cv cp cd 0 == - sky_at cv cp cd (inject_Z (n - 1)))%Q.
Proof.
  intros Hr. cbv [thumb_r_res thumb]. set (k := qround (Qabs (pr / res))).
  assert (Hk : 0 <= k).
  { unfold k. rewrite <- (qround_int 0 0) by reflexivity. apply qround_mono. apply Qabs_nonneg. }
  split; [lia|]. split; [reflexivity|].
  assert (En : (2 * k + 1) / 2 = k) by (symmetry; apply (Z.div_unique _ _ k 1); lia). rewrite En. replace (2 * k + 1 - 1) with (2 * k) by lia.
  assert (E1 : (sky_at 0 (inject_Z (k + 1)) res (inject_Z (2 * k)) == res * inject_Z k)%Q) by (unfold sky_at; rewrite inject_Z_plus, inject_Z_mult; change (inject_Z 1) with 1%Q; change (inject_Z 2) with 2%Q; ring).
  assert (E2 : (sky_at 0 (inject_Z (k + 1)) res 0 == - (res * inject_Z k))%Q) by (unfold sky_at; rewrite inject_Z_plus; change (inject_Z 1) with 1%Q; ring).
  rewrite E1, E2. split; [|reflexivity].
  assert (Hk' : (0 <= inject_Z k)%Q) by (change 0%Q with (inject_Z 0); rewrite <- Zle_Qle; exact Hk).
  rewrite Qabs_Qmult, (Qabs_pos (inject_Z k)) by exact Hk'.
  assert (Er : (Qabs pr == Qabs res * Qabs (pr / res))%Q) by (rewrite <- Qabs_Qmult; apply Qabs_wd; field; exact Hr).
  rewrite Er. pose proof (qround_bounds (Qabs (pr / res))) as [B1 B2]. fold k in B1, B2. pose proof (Qabs_nonneg res) as Pr.
  set (a := Qabs res) in *. set (b := Qabs (pr / res)) in *.
  apply Qabs_Qle_condition.
  assert (G1 : ((b - inject_Z k) * a <= (1 # 2) * a)%Q) by (apply Qmult_le_compat_r; lra).
  assert (G2 : ((inject_Z k - b) * a <= (1 # 2) * a)%Q) by (apply Qmult_le_compat_r; lra).
  assert (G3 : (a / 2 == (1 # 2) * a)%Q) by field. rewrite G3. split; lra.
Qed.
Print Assumptions C73_radius.

(* Radius and shape: the outermost pixel centres are exactly at the radius, in the direction asked for. *)
Theorem C73_fit pr dir shape : ~ (pr == 0)%Q -> dir = 1 \/ dir = -1 -> 2 <= shape -> let '(n, (cv, cp, cd)) := thumb_r_shape pr dir shape in
  shape <= n <= shape + 1 /\ (sky_at cv cp cd (inject_Z (n - 1)) == inject_Z dir * Qabs pr)%Q.
Proof.
  intros Hp Hd Hs. cbv [thumb_r_shape thumb]. pose proof (Z.div_mod shape 2 ltac:(lia)) as E. pose proof (Z.mod_pos_bound shape 2 ltac:(lia)) as B.
  set (q := shape / 2) in *. split; [lia|]. replace (q * 2 + 1 - 1) with (q * 2) by lia.
  assert (Eq : (q * 2 + 1) / 2 = q) by (symmetry; apply (Z.div_unique _ _ q 1); lia). rewrite Eq.
  assert (Nq : ~ (inject_Z q == 0)%Q) by (apply inj_nz; lia).
  assert (Np : ~ (Qabs pr == 0)%Q).
  { intros E0. apply Hp. destruct (Qlt_le_dec pr 0) as [L|L]; [rewrite (Qabs_neg pr) in E0 by lra; lra|rewrite (Qabs_pos pr) in E0 by exact L; exact E0]. }
  unfold sky_at. rewrite !inject_Z_plus, !inject_Z_mult. change (inject_Z 1) with 1%Q. change (inject_Z 2) with 2%Q. set (a := Qabs pr) in *.
  destruct Hd as [E0|E0]; subst dir; [change (inject_Z 1) with 1%Q|change (inject_Z (-1)) with (-1)%Q]; field; repeat split; assumption || (intros F; discriminate F) || idtac; auto.
Qed.
Print Assumptions C73_fit.

(* a shape of one pixel leaves no room for a radius: the resolution is a division by zero *)
Theorem C73_single_refuted : fst (thumb_r_shape 1 1 1) = 1 /\ (inject_Z (fst (thumb_r_shape 1 1 1) - 1) / (2 * Qabs 1) == 0)%Q.
Proof. split; [reflexivity|vm_compute; reflexivity]. Qed.
Print Assumptions C73_single_refuted.

Example C73_ex : thumb_r_res 5 (-2) = (5, (0%Q, 3%Q, (-2)%Q)) /\ fst (thumb_r_shape 3 (-1) 6) = 7 /\ ~ (5 == 0)%Q.
Proof. split; [vm_compute; reflexivity|]. split; [reflexivity|]. intros E. discriminate E. Qed.

(** C74 *)

(* The union of geometries on one pixel grid has every pixel of every one of them, and each of its four sides is a side of one
   of them. off tells where each one lies on the grid of the first. *)
Theorem C74_union ref rest (off : geometry -> Z * Z) : ~ (cdelt_x (snd ref) == 0)%Q -> ~ (cdelt_y (snd ref) == 0)%Q ->
  (forall g, In g (ref :: rest) -> on_grid ref g (fst (off g)) (snd (off g))) ->
  exists u oy ox, union_geometry (ref :: rest) = Some u /\ on_grid ref u oy ox /\
    (forall g y x, In g (ref :: rest) -> has_pixel g y x -> exists y' x', has_pixel u y' x' /\ same_place g u y x y' x') /\
    (exists g, In g (ref :: rest) /\ fst (off g) = oy) /\ (exists g, In g (ref :: rest) /\ fst (off g) + fst (fst g) = oy + fst (fst u)) /\
    (exists g, In g (ref :: rest) /\ snd (off g) = ox) /\ (exists g, In g (ref :: rest) /\ snd (off g) + snd (fst g) = ox + snd (fst u)).
Proof.
  intros Nx Ny Hg. destruct (union_spec ref rest off Nx Ny Hg) as (u & oy & ox & E & G & C & R). exists u, oy, ox. split; [exact E|]. split; [exact G|]. split; [|exact R].
  intros g y x Hi [Hy Hx]. exists (y + fst (off g) - oy), (x + snd (off g) - ox). destruct (C g Hi) as (C1 & C2 & C3 & C4). split.
  - unfold has_pixel. lia.
  - apply (grid_place ref); auto.
Qed.
Print Assumptions C74_union.

(* map_union: every pixel of either map appears once; the values are those of the one map that has the pixel, the sum where
   both have it, zero where neither has. (y,x) counts pixels on the grid of the first map. *)
Theorem C74_map_union {A} (m1 m2 : fmap A) plain zero add dy dx :
  ~ (cdelt_x (fm_wcs m1) == 0)%Q -> ~ (cdelt_y (fm_wcs m1) == 0)%Q -> (plain = true \/ 0 < qround (360 / Qabs (cdelt_x (fm_wcs m1)))) ->
  0 < f_ny (fm_arr m1) -> 0 < f_nx (fm_arr m1) -> 0 <= f_ny (fm_arr m2) -> 0 <= f_nx (fm_arr m2) ->
  on_grid (geo_of m1) (geo_of m2) dy dx -> (forall a, add zero a = a) ->
  exists o oy ox, map_union m1 m2 plain zero add = Some o /\ on_grid (geo_of m1) (geo_of o) oy ox /\
    (forall y x, has_pixel (geo_of m1) y x -> has_pixel (geo_of o) (y - oy) (x - ox)) /\
    (forall y x, has_pixel (geo_of m2) (y - dy) (x - dx) -> has_pixel (geo_of o) (y - oy) (x - ox)) /\
    forall y x, has_pixel (geo_of o) (y - oy) (x - ox) ->
      let v1 := f_at (fm_arr m1) y x in let v2 := f_at (fm_arr m2) (y - dy) (x - dx) in let v := f_at (fm_arr o) (y - oy) (x - ox) in
      let in1 := has_pixel (geo_of m1) y x in let in2 := has_pixel (geo_of m2) (y - dy) (x - dx) in
      (in1 -> in2 -> v = add v1 v2) /\ (in1 -> ~ in2 -> v = v1) /\ (~ in1 -> in2 -> v = v2) /\ (~ in1 -> ~ in2 -> v = zero).
Proof.
  intros Cx Cy Hs A1 A2 B1 B2 Hg Hz. destruct (map_union_spec m1 m2 plain zero add dy dx Cx Cy Hs A1 A2 B1 B2 Hg) as (o & oy & ox & E & G & Oy & Ox & Ny & Nx & V).
  exists o, oy, ox. split; [exact E|]. split; [exact G|]. unfold has_pixel, geo_of. cbn [fst snd]. split; [lia|]. split; [lia|].
  intros y x Hp. specialize (V y x ltac:(lia) ltac:(lia)). cbv zeta in V |- *. rewrite V. clear V.
  destruct ((0 <=? y) && (y <? f_ny (fm_arr m1)) && (0 <=? x) && (x <? f_nx (fm_arr m1))) eqn:E1;
  destruct ((dy <=? y) && (y <? dy + f_ny (fm_arr m2)) && (dx <=? x) && (x <? dx + f_nx (fm_arr m2))) eqn:E2; rewrite ?Hz;
  (split; [|split; [|split]]); intros; first [reflexivity|exfalso; lia].
Qed.
Print Assumptions C74_map_union.

(* overlap without wrapping: exactly the pixels both have. *)
Theorem C74_overlap_partial g g2 plain dy dx : ~ (cdelt_x (snd g) == 0)%Q -> ~ (cdelt_y (snd g) == 0)%Q ->
  0 <= fst (fst g2) -> 0 <= snd (fst g2) -> on_grid g g2 dy dx ->
  let o := overlap g g2 plain (Some (0, 0)) in exists oy ox, on_grid g o oy ox /\ 0 <= fst (fst o) /\ 0 <= snd (fst o) /\
    forall y x, (has_pixel g y x /\ has_pixel g2 (y - dy) (x - dx)) <-> has_pixel o (y - oy) (x - ox).
Proof. apply overlap_spec. Qed.
Print Assumptions C74_overlap_partial.

(* With wrapping (a sky of 20 pixels, a map of 10 of them, another one 24 pixels wide that starts 12 pixels to the left) the
   overlap comes out 22 pixels wide: 10 of them are in the gap, where the map has nothing. *)
Definition ov_g : geometry := ((1, 10), Wcs 0 1 18 0 1 1).
Definition ov_h : geometry := ((1, 24), Wcs 0 13 18 0 1 1).
Theorem C74_overlap_refuted : on_grid ov_g ov_h 0 (-12) /\ fst (overlap ov_g ov_h false None) = (1, 22) /\ wrap_lens (snd ov_g) 10 false None = (0, 20) /\
  zlen (filter (fun x => match source 20 10 x with Some _ => true | None => false end) (zrange (-12) 10)) = 12.
Proof. split; [unfold on_grid; repeat split; vm_compute; reflexivity|]. split; [vm_compute; reflexivity|]. split; vm_compute; reflexivity. Qed.
Print Assumptions C74_overlap_refuted.

Definition un_a : fmap Z := FM (FA 2 2 (fun y x => 10 * y + x + 1)) (Wcs 0 1 1 0 1 1).
Definition un_b : fmap Z := FM (FA 1 2 (fun y x => 100)) (Wcs 0 0 1 0 1 1).
Example C74_ex : on_grid (geo_of un_a) (geo_of un_b) 0 1 /\ union_geometry [geo_of un_a; geo_of un_b] <> None /\
  option_map (fun o => map (fun y => map (f_at (fm_arr o) y) [0; 1; 2]) [0; 1]) (map_union un_a un_b true 0 Z.add) = Some [[1; 102; 100]; [11; 12; 0]].
Proof. split; [unfold on_grid; repeat split; vm_compute; reflexivity|]. split; [discriminate|vm_compute; reflexivity]. Qed.
