From Coq Require Import Reals QArith Qreals Lra.
From Verif Require Import Base SliceSpec SliceModel ArrModel PixModel RangeLemmas ShtSpec ShtModel ShtLemmas ShtProps TrfSpec TrfModel TrfLemmas.
Ltac Zify.zify_post_hook ::= idtac.
Open Scope R_scope.

(* ---- buffers ---- *)
Lemma buffer2map_at {A} (buf : fmap A) fy fx y0 x0 y1 x1 ny nx : (0 <= ny)%Z -> (0 <= nx)%Z -> (0 <= y0)%Z -> (0 <= x0)%Z -> (0 <= y1)%Z -> (0 <= x1)%Z ->
  f_ny (fm_arr buf) = (y0 + ny + y1)%Z -> f_nx (fm_arr buf) = (x0 + nx + x1)%Z ->
  let r := fm_arr (buffer2map buf fy fx y0 x0 y1 x1) in
  f_ny r = ny /\ f_nx r = nx /\ forall y x, f_at r y x = f_at (fm_arr buf) (y0 + flipped fy ny y)%Z (x0 + flipped fx nx x)%Z.
Proof.
  intros Hny Hnx Hy0 Hx0 Hy1 Hx1 Ey Ex r. destruct (sl_facts y0 ny y1) as [SSY SLY]; try assumption. destruct (sl_facts x0 nx x1) as [SSX SLX]; try assumption.
  unfold r, buffer2map, flip_array, getmap, get2. cbn [fm_arr f_ny f_nx f_at]. rewrite Ey, Ex, SLY, SLX, !flip_len by assumption.
  split; [reflexivity|]. split; [reflexivity|]. intros y x. rewrite !sl_at_facts, !flip_at by assumption. reflexivity.
Qed.
Lemma map2buffer_wcs {A} (m : fmap A) fy fx y0 x0 y1 x1 o zero buf : map2buffer m fy fx y0 x0 y1 x1 o zero = Some buf ->
  fm_wcs buf = crpix_add (flip_wcs (fm_wcs m) (f_ny (fm_arr m)) (f_nx (fm_arr m)) fy fx) y0 x0.
Proof.
  unfold map2buffer, flip_wcs. destruct (slice_geometry _ _ _ _) as [[gy gx] v]. cbv zeta. cbn [snd]. intros H.
  destruct (full2 _ _ _) as [b|]; [|discriminate]. cbn [bind] in H. destruct o; cbn [bind] in H; [apply Some_inj in H; now subst|]. destruct (set2 _ _ _ _) as [b'|]; [|discriminate]. cbn [bind] in H. apply Some_inj in H. now subst.
Qed.

Lemma add_y P v dy dx s : Q2R (cdelt_y v) <> 0 -> pole_row P (crpix_add v dy dx) s = pole_row P v s + IZR dy.
Proof. intros H. unfold pole_row, crpix_add. cbn [crval_y cdelt_y crpix_y]. rewrite Q2R_plus, Q2R_Z. ring. Qed.
Lemma add_nat_y v dy dx p : nat_y (crpix_add v dy dx) p = nat_y v (p - IZR dy).
Proof. unfold nat_y, crpix_add. cbn [crval_y cdelt_y crpix_y]. rewrite Q2R_plus, Q2R_Z. ring. Qed.
Lemma add_nat_x v dy dx p : nat_x (crpix_add v dy dx) p = nat_x v (p - IZR dx).
Proof. unfold nat_x, crpix_add. cbn [crval_x cdelt_x crpix_x]. rewrite Q2R_plus, Q2R_Z. ring. Qed.
Lemma same_nat_x v w p : same_wcs v w -> nat_x v p = nat_x w p.
Proof. intros (E1 & E2 & E3 & E4 & E5 & E6). unfold nat_x. now rewrite E2, E4, E6. Qed.
Lemma same_fits P v w ny tol g : same_wcs v w -> fits P w ny tol g -> fits P v ny tol g.
Proof. intros S [A1 A2 A3 A4]. split; try assumption; rewrite ?(same_pole P v w _ S); try assumption. destruct S as (_ & _ & _ & -> & _). exact A3. Qed.
Lemma flipped_R f n k : IZR (flipped f n k) = if f then IZR n - 1 - IZR k else IZR k.
Proof. unfold flipped. destruct f; [rewrite !minus_IZR; reflexivity|reflexivity]. Qed.

Lemma Rabs_le_both a b : Rabs a <= b -> - b <= a <= b.
Proof. unfold Rabs. destruct (Rcase_abs a); lra. Qed.
Section Geo.
Variables (P : proj) (w : wcs) (ny nx : Z) (tol : R).
Hypothesis Htol : tol <= / 8.
Hypothesis Hsky : on_sky P w ny nx.
Hypothesis Hup : upright P w = true.
Hypothesis Hdiv : hasoff tol (360 / Rabs (Q2R (cdelt_x w))) 0 = true.
Let fy := flip_y w.
Let fx := flip_x w.
Let ww := flip_wcs w ny nx fy fx.
Let snx := nint (360 / Rabs (Q2R (cdelt_x w))).
Let mi := analyse_geometry P w ny nx tol.

Lemma g_ny : (1 <= ny)%Z. Proof. destruct Hsky as (H1 & H2 & _). lia. Qed.
Lemma g_nx : (1 <= nx)%Z. Proof. destruct Hsky as (H1 & H2 & _). lia. Qed.
Lemma g_ord : ordered ww /\ Q2R (cdelt_y ww) = - Rabs (Q2R (cdelt_y w)) /\ Q2R (cdelt_x ww) = Rabs (Q2R (cdelt_x w)).
Proof. destruct Hsky as (_ & _ & H3 & H4 & _). apply flip_ordered; [apply g_ny|apply g_nx|assumption|assumption]. Qed.
Lemma g_height : 0 < Rabs (Q2R (cdelt_y w)). Proof. destruct Hsky as (_ & _ & H3 & _). now apply Rabs_pos_lt. Qed.
Lemma g_width : 0 < Rabs (Q2R (cdelt_x w)). Proof. destruct Hsky as (_ & _ & _ & H3 & _). now apply Rabs_pos_lt. Qed.
Lemma g_snx : Rabs (360 / Rabs (Q2R (cdelt_x w)) - IZR snx) < tol.
Proof. apply hasoff_true in Hdiv as (n & H & E). rewrite Rminus_0_r in *. unfold snx. now rewrite <- E. Qed.
Lemma g_nx_le : (nx <= snx)%Z.
Proof.
  destruct Hsky as (_ & _ & _ & _ & _ & _ & H). pose proof g_width as Hw. pose proof g_snx as Hs. apply Rabs_def2 in Hs. set (c := Rabs (Q2R (cdelt_x w))) in *.
  assert (E : 360 = 360 / c * c) by (field; lra). set (q := 360 / c) in *. assert (IZR nx < q + / 2) by nra. assert (A : IZR nx < IZR snx + 1) by lra. rewrite <- plus_IZR in A. apply lt_IZR in A. lia.
Qed.
Lemma g_poles : pole_row P ww 1 <= 0 /\ IZR ny - 1 <= pole_row P ww (-1).
Proof.
  pose proof g_ny as Hy. pose proof g_nx as Hx. destruct Hsky as (_ & _ & _ & _ & _ & H & _). destruct g_ord as ((O1 & _) & _).
  assert (R0 : forall k, (0 <= k < ny)%Z -> Rabs (nat_y ww (IZR k)) <= pj_pol P).
  { intros k Hk. unfold ww. rewrite flip_nat_y by assumption. rewrite <- flipped_R, <- sky_y_R. apply H. now apply flip_range. }
  pose proof (R0 0%Z ltac:(lia)) as A. pose proof (R0 (ny - 1)%Z ltac:(lia)) as B. apply Rabs_le_both in A, B.
  rewrite (nat_pole P ww 1) in A by lra. rewrite (nat_pole P ww (-1)) in B by lra. rewrite minus_IZR in B. set (c := Q2R (cdelt_y ww)) in *. split; nra.
Qed.

Lemma analyse_found d : get_ducc_geo P ww ny nx tol = Some d -> d_name d <> DH ->
  mi_fy mi = fy /\ mi_fx mi = fx /\ mi_ducc mi = Some d /\ mi_ypad mi = (d_yoff d, d_ny d - d_yoff d - ny)%Z /\ mi_xpad mi = (0, d_nx d - nx)%Z /\ mi_case mi <> Cgeneral /\ d_nx d = snx.
Proof.
  intros E ND. destruct g_ord as (O1 & O2 & O3). destruct (ducc_fits P ww ny nx tol d Htol O1 g_ny g_nx E ND) as [_ _ FX _]. rewrite O3 in FX.
  assert (EN : snx = d_nx d) by (apply nint_near; lra).
  unfold mi, analyse_geometry. rewrite Hup, Hdiv. cbn [negb orb]. fold fy fx ww. rewrite E, O3. fold snx. rewrite EN.
  destruct ((ny =? d_ny d)%Z && (nx =? d_nx d)%Z && rlt (Rabs (IZR (d_yoff d))) tol) eqn:B.
  - apply andb_prop in B as [B B3]. apply andb_prop in B as [B1 B2]. apply Z.eqb_eq in B1, B2. apply rlt_true in B3. apply Rabs_def2 in B3.
    assert (Z0 : d_yoff d = 0%Z). { assert (A1 : IZR (d_yoff d) < 1) by lra. assert (A2 : -1 < IZR (d_yoff d)) by lra. apply lt_IZR in A1, A2. lia. }
    cbn. rewrite Z0. repeat split; try discriminate; f_equal; lia.
  - destruct (Z.eqb_spec nx (d_nx d)); cbn; repeat split; try discriminate; f_equal; lia.
Qed.
Lemma analyse_any : mi_fy mi = fy /\ mi_fx mi = fx /\ mi_xpad mi = (0, snx - nx)%Z /\ mi_case mi <> Cgeneral.
Proof.
  destruct g_ord as (O1 & O2 & O3). unfold mi, analyse_geometry. rewrite Hup, Hdiv. cbn [negb orb]. fold fy fx ww. rewrite O3. fold snx.
  destruct (get_ducc_geo P ww ny nx tol) as [d|] eqn:E.
  - assert (EN : d_nx d = snx).
    { rewrite get_ducc_unfold in E by (try exact O1; try apply g_ny; apply g_nx). cbv zeta in E. rewrite O3 in E. fold snx in E. destruct (negb _); [discriminate|].
      repeat match type of E with (if ?b then _ else _) = _ => destruct b end; try discriminate; apply Some_inj in E; subst d; reflexivity. }
    destruct ((ny =? d_ny d)%Z && (nx =? d_nx d)%Z && _) eqn:B.
    + apply andb_prop in B as [B B3]. apply andb_prop in B as [B1 B2]. apply Z.eqb_eq in B1, B2. cbn. repeat split; try discriminate. f_equal. lia.
    + destruct (Z.eqb_spec nx snx); cbn; repeat split; try discriminate; f_equal; lia.
  - destruct (Z.eqb_spec nx snx); cbn; repeat split; try discriminate; f_equal; lia.
Qed.

Lemma fit_pads d : fits P ww ny tol d -> d_name d <> DH -> (0 <= d_yoff d)%Z /\ (0 <= d_ny d - d_yoff d - ny)%Z.
Proof.
  intros [A1 A2 _ A4] ND. destruct g_poles as [P1 P2]. apply Rabs_def2 in A1, A2. destruct (d_name d) eqn:EN; try congruence.
  3: { destruct (A4 eq_refl). lia. }
  all: cbn [o1 o2] in *; assert (B1 : -1 < IZR (d_yoff d)) by lra; assert (B2 : -1 < IZR (d_ny d) - IZR (d_yoff d) - IZR ny) by lra; rewrite <- !minus_IZR in B2; apply lt_IZR in B1, B2; lia.
Qed.

(* the places of the grid are those of the pixels *)
Lemma grid_close d y : plate_carree P -> fits P ww ny tol d -> d_name d <> DH -> (0 <= y < ny)%Z ->
  Rabs (PI / 2 - grid_theta (d_name d) (d_ny d) (d_yoff d + flipped fy ny y) - row_dec P w y) <= tol * pix_height w.
Proof.
  intros (_ & PC2 & PC3) FT ND Hy. destruct (fit_pads d FT ND) as [Q1 Q2]. destruct FT as [A1 A2 _ _]. destruct g_ord as (O1 & O2 & O3). pose proof g_height as Hc.
  destruct Hsky as (_ & _ & _ & _ & H180 & _).
  pose proof (poles_apart P ww) as PA. rewrite O2, PC2 in PA. specialize (PA ltac:(lra)).
  unfold row_dec. rewrite PC3, sky_y_R.
  assert (EY : nat_y w (IZR y) = nat_y ww (IZR (flipped fy ny y))).
  { unfold ww. rewrite flip_nat_y by (apply g_ny || apply g_nx). rewrite flipped_R. unfold fy. destruct (flip_y w); f_equal; ring. }
  rewrite EY, (nat_pole P ww 1), O2, PC2 by lra.
  set (c := Rabs (Q2R (cdelt_y w))) in *. set (Y := flipped fy ny y) in *. assert (HY : (0 <= Y < ny)%Z) by (apply flip_range; exact Hy).
  set (p1 := pole_row P ww 1) in *. set (p2 := pole_row P ww (-1)) in *. apply Rabs_def2 in A1, A2.
  assert (Hd : p2 - p1 = 180 / c) by (rewrite PA; field; lra).
  assert (H1c : 1 <= 180 / c) by (apply (Rmult_le_reg_r c); [lra|]; unfold Rdiv; rewrite Rmult_assoc, Rinv_l by lra; lra).
  set (L := IZR (d_ny d) - 1 + o1 (d_name d) + o2 (d_name d)).
  assert (HL : / 2 < L) by (unfold L; lra).
  rewrite theta_offs by (try exact ND; fold L; lra). fold L. rewrite plus_IZR.
  set (a := IZR (d_yoff d) + o1 (d_name d)) in *. set (e1 := p1 + a). set (e2 := p2 + a - L).
  assert (E1 : - tol < e1 < tol) by (unfold e1, a; lra). assert (E2 : - tol < e2 < tol) by (unfold e2, a, L; lra).
  assert (T : 0 <= IZR Y + a <= L).
  { assert (o1 (d_name d) >= 0 /\ o2 (d_name d) >= 0) by (destruct (d_name d); cbn; lra). assert (B1 : 0 <= IZR Y) by (apply (IZR_le 0); lia). assert (B2 : 0 <= IZR (d_yoff d)) by (apply (IZR_le 0); lia).
    assert (B3 : IZR Y <= IZR (d_ny d) - IZR (d_yoff d) - 1) by (rewrite <- !minus_IZR; apply IZR_le; lia). unfold a, L. lra. }
  set (t := (IZR Y + a) / L). assert (Et : IZR Y + a = t * L) by (unfold t; field; lra). assert (Ht : 0 <= t <= 1) by (split; nra).
  replace (PI * (IZR (d_yoff d) + IZR Y + o1 (d_name d)) / L) with (PI * t) by (unfold t, a; field; lra).
  assert (E180 : 180 = c * (L + e2 - e1)). { replace (L + e2 - e1) with (p2 - p1) by (unfold e1, e2; ring). rewrite Hd. field. lra. }
  replace (PI / 2 - PI * t - (1 * 90 + - c * (IZR Y - p1)) * degree) with (- degree * c * (e1 * (1 - t) + e2 * t)).
  - pose proof PI_RGT_0 as Hpi. assert (Hdg : 0 < degree) by (unfold degree; lra). unfold pix_height. fold c.
    rewrite Rabs_mult. replace (Rabs (- degree * c)) with (c * degree) by (rewrite Rabs_mult, Rabs_Ropp, (Rabs_right degree), (Rabs_right c) by lra; ring).
    assert (Rabs (e1 * (1 - t) + e2 * t) <= tol) by (apply Rabs_le; split; nra). rewrite (Rmult_comm tol). apply Rmult_le_compat_l; [nra|assumption].
  - replace (IZR Y - p1) with (t * L - e1) by (unfold e1; lra).
    replace (PI / 2 - PI * t) with (degree * (90 - t * 180)) by (unfold degree; field). replace (90 - t * 180) with (90 - t * (c * (L + e2 - e1))) by (rewrite <- E180; ring). ring.
Qed.

(* columns *)
Lemma col_close j p0 : p0 = nat_x ww 0 -> (0 <= j < snx)%Z -> Rabs (p0 * degree + 2 * PI * IZR j / IZR snx - nat_x ww (IZR j) * degree) <= tol * pix_width w.
Proof.
  intros -> Hj. pose proof g_snx as H. pose proof g_width as Hc. destruct g_ord as (_ & _ & O3). unfold nat_x. rewrite O3. unfold pix_width. set (c := Rabs (Q2R (cdelt_x w))) in *.
  assert (HN : 0 < IZR snx) by (apply (IZR_lt 0); lia). set (N := IZR snx) in *. assert (HJ : 0 <= IZR j) by (apply (IZR_le 0); lia). assert (HJ2 : IZR j <= N) by (apply IZR_le; lia). set (J := IZR j) in *.
  pose proof PI_RGT_0 as Hpi. assert (Hdg : 0 < degree) by (unfold degree; lra).
  replace (_ - _) with (degree * c * (J / N) * (360 / c - N)).
  - rewrite Rabs_mult. rewrite Rabs_right.
    + assert (Hq : 0 <= J / N <= 1). { split; [apply Rmult_le_pos; [lra|left; now apply Rinv_0_lt_compat]|apply (Rmult_le_reg_r N); [lra|unfold Rdiv; rewrite Rmult_assoc, Rinv_l by lra; lra]]. }
      set (q := J / N) in *. set (r := Rabs (360 / c - N)) in *. assert (0 <= r) by (unfold r; apply Rabs_pos). assert (q * r <= tol) by nra. assert (0 < degree * c) by nra. nra.
    + apply Rle_ge. apply Rmult_le_pos; [nra|]. apply Rmult_le_pos; [lra|left; now apply Rinv_0_lt_compat].
  - unfold degree. field. lra.
Qed.
End Geo.
