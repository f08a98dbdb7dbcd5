(* C11: moving the reference point. C13: pixelization of an interval. *)
From Coq Require Import Qabs Qround Lqa.
From Verif Require Import Base SliceSpec SplitModel WcshSpec WcshModel WcshLemmas.

(* recenter_cyl_x leaves every pixel where it is, and puts the reference pixel where asked. *)
Theorem C11_recenter_cyl_x : forall w x, (crval_y w == 0)%Q ->
  exists w', recenter_cyl_x true w x = Some w' /\ same_sky w w' /\ crpix_x w' = x /\ cdelt_x w' = cdelt_x w.
Proof.
  intros w x H. unfold recenter_cyl_x, is_separable. replace (Qeq_bool (crval_y w) 0) with true by (symmetry; apply Qeq_bool_iff; exact H). cbn [andb].
  eexists. split; [reflexivity|]. split; [|auto]. intros p. split; unfold sky_x, sky_y, sky_at; cbn; [ring|reflexivity].
Qed.
Print Assumptions C11_recenter_cyl_x.
Theorem C11_recenter_refuses : forall cyl w x, recenter_cyl_x cyl w x = None <-> cyl = false \/ ~ (crval_y w == 0)%Q.
Proof.
  intros cyl w x. unfold recenter_cyl_x, is_separable. destruct cyl; cbn [andb].
  - destruct (Qeq_bool (crval_y w) 0) eqn:E; split; intros H; try discriminate; try reflexivity.
    + apply Qeq_bool_eq in E. destruct H as [H|H]; [discriminate|contradiction].
    + right. apply qeqb_false. exact E.
  - tauto.
Qed.
Print Assumptions C11_recenter_refuses.

(* fix_wcs along RA (axis 0), when the reference RA is a whole number of turns (such as 0). Missing: other reference RAs,
   for which the claim fails, see below. *)
Theorem C11_fix_wcs_partial : forall w n, (crval_y w == 0)%Q -> ~ (cdelt_x w == 0)%Q -> same_lon (crval_x w) 0 ->
  exists w', fix_wcs true w 0 n = Some w' /\ same_sky_mod w w'.
Proof.
  intros w n Hy Hd [k Hk]. unfold fix_wcs. cbn [Z.eqb]. replace (Qeq_bool (crval_y w) 0) with true by (symmetry; apply Qeq_bool_iff; exact Hy). cbn [andb negb].
  pose proof (fun q => fix_axis_sky n (crval_x w) (crpix_x w) (cdelt_x w) q Hd) as F. destruct (fix_axis _ _ _ _) as [v p]. cbn [fst snd] in F.
  eexists. split; [reflexivity|]. intros q. split; [|reflexivity]. unfold sky_x. cbn. destruct (F q) as [E|E].
  - exists 0%Z. rewrite E. change (inject_Z 0) with 0%Q. ring.
  - exists k. rewrite E. lra.
Qed.
Print Assumptions C11_fix_wcs_partial.

(* In general the pixels either stay put or all move by the reference RA. *)
Theorem C11_fix_wcs_moves_partial : forall w n, (crval_y w == 0)%Q -> ~ (cdelt_x w == 0)%Q ->
  exists w', fix_wcs true w 0 n = Some w' /\ exists off, (off = 0 \/ off = crval_x w)%Q /\
  forall p, (sky_x w' p == sky_x w p + off)%Q /\ (sky_y w' p == sky_y w p)%Q.
Proof.
  intros w n Hy Hd. unfold fix_wcs. cbn [Z.eqb]. replace (Qeq_bool (crval_y w) 0) with true by (symmetry; apply Qeq_bool_iff; exact Hy). cbn [andb negb].
  unfold fix_axis. destruct (_ && _).
  - eexists. split; [reflexivity|]. exists 0%Q. split; [auto|]. intros p. split; unfold sky_x, sky_y, sky_at; cbn; ring.
  - eexists. split; [reflexivity|]. exists (crval_x w). split; [auto|]. intros p. split; unfold sky_x, sky_y, sky_at; cbn; [field; exact Hd|ring].
Qed.
Print Assumptions C11_fix_wcs_moves_partial.

(* Which of the two: it is left alone exactly when both ends of the n pixels, or of a full turn of them, are within 180 degrees
   of the reference point, and otherwise the reference pixel becomes (n-1)/2, the middle when pixels are counted from 0.
   (crpix counts from 1, so that the middle would be (n+1)/2.) *)
Definition fix_count (n : option Q) (d : Q) : Q := match n with None => Qabs (360 / d) | Some n => n end.
Theorem C11_fix_wcs_middle : forall w n w', ~ (cdelt_x w == 0)%Q -> fix_wcs true w 0 n = Some w' ->
  let N := fix_count n (cdelt_x w) in let near := (Qabs (crpix_x w * cdelt_x w) <= 180 /\ Qabs ((crpix_x w - (N - 1)) * cdelt_x w) <= 180)%Q in
  (near -> w' = w) /\ (~ near -> crpix_x w' == (N - 1) / 2)%Q.
Proof.
  intros [vx px dx vy py dy] n w' Hd. cbn [cdelt_x crpix_x] in *. unfold fix_wcs. cbn [Z.eqb crval_x crpix_x cdelt_x crval_y crpix_y cdelt_y].
  destruct (negb _); [discriminate|]. unfold fix_axis. fold (fix_count n dx). cbv zeta.
  assert (L : Qle_bool (Qabs (vx - (vx - px * dx))) 180 = true <-> (Qabs (px * dx) <= 180)%Q).
  { rewrite Qle_bool_iff. rewrite (Qabs_wd (vx - (vx - px * dx)) (px * dx)) by ring. reflexivity. }
  assert (R : Qle_bool (Qabs (vx - (vx - px * dx + (fix_count n dx - 1) * dx))) 180 = true <-> (Qabs ((px - (fix_count n dx - 1)) * dx) <= 180)%Q).
  { rewrite Qle_bool_iff. rewrite (Qabs_wd (vx - (vx - px * dx + (fix_count n dx - 1) * dx)) ((px - (fix_count n dx - 1)) * dx)) by ring. reflexivity. }
  destruct (Qle_bool (Qabs (vx - (vx - px * dx))) 180) eqn:EL; [destruct (Qle_bool (Qabs (vx - (vx - px * dx + (fix_count n dx - 1) * dx))) 180) eqn:ER|]; cbn [andb]; intros E; apply Some_inj in E; subst w'; cbn [crpix_x]; split; intros H; try reflexivity.
  - exfalso. apply H. split; [apply L|apply R]; reflexivity.
  - destruct H as [_ H]. apply R in H. discriminate.
  - field. exact Hd.
  - destruct H as [H _]. apply L in H. discriminate.
  - field. exact Hd.
Qed.
Print Assumptions C11_fix_wcs_middle.

Theorem C11_fix_wcs_refuted : exists w w', fix_wcs true w 0 None = Some w' /\ ~ same_lon (sky_x w' 0) (sky_x w 0).
Proof.
  exists (Wcs 10 300 1 0 1 1). eexists. split; [reflexivity|]. intros [k H].
  assert (D : (10 == 360 * inject_Z k)%Q); [|change (inject_Z 10 == inject_Z 360 * inject_Z k)%Q in D; rewrite <- inject_Z_mult in D; apply (proj1 (inject_Z_injective _ _)) in D; lia]. match type of H with (?a == ?b + _)%Q => assert (E : (a == b + 10)%Q) by (vm_compute; reflexivity) end. lra.
Qed.
Print Assumptions C11_fix_wcs_refuted.

Example C11_ex : recenter_cyl_x true (Wcs 10 300 1 0 1 1) 5 = Some (Wcs (-285) 5 1 0 1 1) /\
  option_map (fun w => Qred (sky_x w 7)) (fix_wcs true (Wcs 0 300 1 0 1 1) 0 None) = Some (Qred (sky_x (Wcs 0 300 1 0 1 1) 7)) /\
  option_map (fun w => Qred (crpix_x w)) (fix_wcs true (Wcs 0 300 1 0 1 1) 0 None) = Some (359 # 2)%Q.
Proof. vm_compute. auto. Qed.

(* ---- C13 ---- *)

(* A number of pixels is given: that many pixels, the first at offset o1 pixels from the start -w/2, the last at offset
   o2 pixels from the end w/2, equally spaced. *)
Theorem C13_count : forall w n o1 o2, (0 < w)%Q -> (0 < inject_Z n - 1 + o1 - o2)%Q ->
  exists r ra1 ra2, pixelize w (Some n) None (Some o1, Some o2) false = Some (ra1, ra2, n, Some o1, Some o2) /\
  (0 < r)%Q /\ (ra2 - ra1 == (inject_Z n - 1) * r)%Q /\ (ra1 == - (w / 2) + o1 * r)%Q /\ (ra2 == w / 2 + o2 * r)%Q.
Proof.
  intros w n o1 o2 Hw Hd. unfold pixelize, pixelize_1d, resolve. cbn [fst snd]. rewrite (proj2 (qeqb_false _ _)) by lra. cbn [andb].
  exists (w / (inject_Z n - 1 + o1 - o2))%Q. eexists _, _. split; [reflexivity|]. split; [apply Qlt_shift_div_l; lra|]. repeat split; field; lra.
Qed.
Print Assumptions C13_count.

(* A resolution and both offsets are given: if the pixels fit the interval exactly, that is the result; a negative
   resolution mirrors it. *)
Theorem C13_res : forall w m r s o1 o2, (0 < r)%Q -> 0 <= m -> (s = 1 \/ s = - 1)%Q -> (w == (inject_Z m - 1 + o1 - o2) * r)%Q ->
  exists ra1 ra2, pixelize w None (Some (s * r)%Q) (Some o1, Some o2) false = Some (ra1, ra2, m, Some o1, Some o2) /\
  (ra2 - ra1 == s * (inject_Z m - 1) * r)%Q /\ (ra1 == s * (- (w / 2) + o1 * r))%Q /\ (ra2 == s * (w / 2 + o2 * r))%Q.
Proof.
  intros w m r s o1 o2 Hr Hm Hs Hw. unfold pixelize, pixelize_1d, resolve.
  assert (E : exists r' s', (if qltb (s * r) 0 then ((- (s * r))%Q, (- (1))%Q) else ((s * r)%Q, 1%Q)) = (r', s') /\ (r' == r)%Q /\ (s' == s)%Q).
  { destruct Hs as [-> | ->].
    - rewrite (proj2 (qltb_false _ _)) by lra. eexists _, _. split; [reflexivity|]. split; lra.
    - rewrite (proj2 (qltb_true _ _)) by lra. eexists _, _. split; [reflexivity|]. split; lra. }
  destruct E as (r' & s' & -> & Er & Es). rewrite (proj2 (qeqb_false _ _)) by lra. cbn [fst snd].
  assert (Nf : (w / r' + 1 - (o1 - o2) == inject_Z m)%Q) by (rewrite Hw, Er; field; lra).
  rewrite (qtrunc_int _ m) by (try exact Nf; try lra; exact Hm).
  rewrite (proj2 (qltb_true _ _)) by (rewrite Nf; rewrite (Qabs_wd _ 0) by ring; reflexivity). cbn [andb].
  eexists _, _. split; [reflexivity|]. rewrite Er, Es. split; [ring|]. split; [field|]. setoid_replace (w / 2)%Q with (w - w / 2)%Q by field. rewrite Hw at 2. field.
Qed.
Print Assumptions C13_res.

(* Whenever it succeeds, the last centre is within a millionth of a pixel of the requested place. *)
Theorem C13_res_close : forall w r o1 o2 ra1 ra2 n a b, (0 < r)%Q ->
  pixelize w None (Some r) (Some o1, Some o2) false = Some (ra1, ra2, n, a, b) ->
  (ra1 == - (w / 2) + o1 * r)%Q /\ (ra2 - ra1 == (inject_Z n - 1) * r)%Q /\ (Qabs (ra2 - (w / 2 + o2 * r)) <= (1 # 1000000) * r)%Q.
Proof.
  intros w r o1 o2 ra1 ra2 n a b Hr H. unfold pixelize, pixelize_1d, resolve in H. rewrite (proj2 (qltb_false _ _)) in H by lra. rewrite (proj2 (qeqb_false _ _)) in H by lra. cbn [fst snd andb] in H.
  destruct (qltb _ _) eqn:T in H; [|discriminate]. apply qltb_true in T. set (k := qtrunc _) in *.
  apply Some_inj in H. injection H as E1 E2 E3 _ _. subst ra1 ra2 n. split; [field|]. split; [ring|].
  apply Qabs_case; intros _; apply Qabs_Qlt_condition in T; destruct T as [T1 T2].
  - assert (X : ((- w / 2 + o1 * r + (inject_Z k - 1) * r) * 1 - (w / 2 + o2 * r) == (inject_Z k - (w / r + 1 - (o1 - o2))) * r)%Q) by (field; lra). rewrite X. apply Qmult_le_compat_r; lra.
  - assert (X : (- ((- w / 2 + o1 * r + (inject_Z k - 1) * r) * 1 - (w / 2 + o2 * r)) == (- (inject_Z k - (w / r + 1 - (o1 - o2)))) * r)%Q) by (field; lra). rewrite X. apply Qmult_le_compat_r; lra.
Qed.
Print Assumptions C13_res_close.

(* Only the first offset is given: the first centre is there, and as many pixels as fit (to a millionth of a pixel). *)
Theorem C13_res_first : forall w r o1, (0 < r)%Q -> (0 <= w / r + 1 - o1)%Q ->
  exists ra1 ra2 n, pixelize w None (Some r) (Some o1, None) false = Some (ra1, ra2, n, Some o1, None) /\
  (ra1 == - (w / 2) + o1 * r)%Q /\ (ra2 - ra1 == (inject_Z n - 1) * r)%Q /\
  (ra2 <= w / 2 + (1 # 1000000) * r)%Q /\ (w / 2 + (1 # 1000000) * r < ra2 + r)%Q.
Proof.
  intros w r o1 Hr H. unfold pixelize, pixelize_1d, resolve. rewrite (proj2 (qltb_false _ _)) by lra. rewrite (proj2 (qeqb_false _ _)) by lra. cbn [fst snd andb].
  eexists _, _, _. split; [reflexivity|]. destruct (qtrunc_spec (w / r + 1 - o1 + (1 # 1000000)) ltac:(lra)) as ((A & B) & _). set (k := qtrunc _) in *.
  split; [field|]. split; [ring|].
  assert (X : (w == (w / r) * r)%Q) by (field; lra). set (u := (w / r)%Q) in *. clearbody u k.
  split.
  - assert (Y : ((inject_Z k) * r <= (u + 1 - o1 + (1 # 1000000)) * r)%Q) by (apply Qmult_le_compat_r; lra). assert (Z1 : (- w / 2 == - (w * (1#2)))%Q) by field. assert (Z2 : (w / 2 == w * (1#2))%Q) by field. rewrite ?Z1, ?Z2. nra.
  - assert (Y : ((u + 1 - o1 + (1 # 1000000)) * r < (inject_Z k + 1) * r)%Q) by (apply Qmult_lt_compat_r; lra). assert (Z1 : (- w / 2 == - (w * (1#2)))%Q) by field. assert (Z2 : (w / 2 == w * (1#2))%Q) by field. rewrite ?Z1, ?Z2. nra.
Qed.
Print Assumptions C13_res_first.

(* No offset is given: the pixels are centred on the interval, as many as fit. *)
Theorem C13_res_free : forall w r, (0 < r)%Q -> (0 <= w)%Q ->
  exists ra1 ra2 n, pixelize w None (Some r) (None, None) false = Some (ra1, ra2, n, Some 0%Q, Some 0%Q) /\
  (ra1 == - ra2)%Q /\ (ra2 - ra1 == (inject_Z n - 1) * r)%Q /\ (ra2 - ra1 <= w + (1 # 1000000) * r)%Q /\ (w + (1 # 1000000) * r < ra2 - ra1 + r)%Q.
Proof.
  intros w r Hr Hw. unfold pixelize, pixelize_1d, resolve. rewrite (proj2 (qltb_false _ _)) by lra. rewrite (proj2 (qeqb_false _ _)) by lra. cbn [fst snd andb].
  eexists _, _, _. split; [reflexivity|].
  assert (P : (0 <= w / r)%Q) by (apply Qle_shift_div_l; lra).
  destruct (qtrunc_spec (w / r + 1 - (0 - 0) + (1 # 1000000)) ltac:(lra)) as ((A & B) & _). set (k := qtrunc _) in *.
  split; [field|]. split; [ring|]. assert (X : (w == (w / r) * r)%Q) by (field; lra). set (u := (w / r)%Q) in *. clearbody u k. split.
  - assert (Y : ((inject_Z k) * r <= (u + 1 - (0 - 0) + (1 # 1000000)) * r)%Q) by (apply Qmult_le_compat_r; lra). assert (Z1 : (- w / 2 == - (w * (1#2)))%Q) by field. assert (Z2 : (w / 2 == w * (1#2))%Q) by field. rewrite ?Z1, ?Z2. nra.
  - assert (Y : ((u + 1 - (0 - 0) + (1 # 1000000)) * r < (inject_Z k + 1) * r)%Q) by (apply Qmult_lt_compat_r; lra). assert (Z1 : (- w / 2 == - (w * (1#2)))%Q) by field. assert (Z2 : (w / 2 == w * (1#2))%Q) by field. rewrite ?Z1, ?Z2. nra.
Qed.
Print Assumptions C13_res_free.

(* A periodic interval: the pixels go exactly once around. Guard: in the second case the pixel size is above the
   closeness tolerance, see C13_fine_refuted. *)
Theorem C13_periodic_partial : forall w n o1 o2, (0 < w)%Q -> 1 < n ->
  (o1 == o2)%Q \/ ((o1 - o2 == 1)%Q /\ ((1 # 100000000) + (1 # 100000) * w < w / inject_Z n)%Q) ->
  exists r ra1 ra2 m, pixelize w (Some n) None (Some o1, Some o2) true = Some (ra1, ra2, m, Some o1, Some o2) /\
  (inject_Z m * r == w)%Q /\ (ra1 == - (w / 2) + o1 * r)%Q /\ (ra2 - ra1 == (inject_Z m - 1) * r)%Q.
Proof.
  intros w n o1 o2 Hw Hn C. assert (Hq : (1 < inject_Z n)%Q) by (change 1%Q with (inject_Z 1); rewrite <- Zlt_Qlt; lia).
  unfold pixelize, pixelize_1d, resolve. cbn [fst snd andb]. destruct C as [C|[C G]].
  - rewrite (proj2 (qeqb_false _ _)) by lra. cbn [andb]. set (r := (w / (inject_Z n - 1 + o1 - o2))%Q).
    assert (W : ((inject_Z n - 1) * r == w)%Q) by (unfold r; setoid_replace (inject_Z n - 1 + o1 - o2)%Q with (inject_Z n - 1)%Q by lra; field; lra).
    rewrite allclose_eq by (rewrite <- W at 3; ring).
    exists r. eexists _, _, _. split; [reflexivity|]. replace (n - 1) with (n + (-1)) by lia. rewrite inject_Z_plus. change (inject_Z (-1)) with (- (1))%Q. split; [rewrite <- W; ring|]. split; [field|ring].
  - rewrite (proj2 (qeqb_false _ _)) by lra. set (r := (w / (inject_Z n - 1 + o1 - o2))%Q).
    assert (R : (r == w / inject_Z n)%Q) by (unfold r; setoid_replace (inject_Z n - 1 + o1 - o2)%Q with (inject_Z n) by lra; reflexivity).
    assert (W : (w == inject_Z n * r)%Q) by (rewrite R; field; lra). assert (R0 : (0 < r)%Q) by (rewrite R; apply Qlt_shift_div_l; lra).
    assert (X : (- w / 2 + o1 * r + (inject_Z n - 1) * r - (- w / 2 + o1 * r) == w - r)%Q) by (rewrite W; field).
    assert (N : (r <= w)%Q) by (rewrite W; rewrite <- (Qmult_1_l r) at 1; apply Qmult_le_compat_r; lra).
    rewrite allclose_far by (rewrite ?X; lra).
    exists r. eexists _, _, _. split; [reflexivity|]. split; [symmetry; exact W|]. split; [field|ring].
Qed.
Print Assumptions C13_periodic_partial.

(* 360 degrees in 100000 pixels with edges at the ends: one pixel is lost. *)
Theorem C13_fine_refuted : exists ra1 ra2 m, pixelize 360 (Some 100000) None (Some (1#2), Some (-1#2)) true = Some (ra1, ra2, m, Some (1#2), Some (-1#2))%Q /\ m = 99999.
Proof. eexists _, _, _. split; vm_compute; reflexivity. Qed.
Print Assumptions C13_fine_refuted.

(* With adjust=True and offsets (1/2,-1/2), the first and last centre are not mirror images, so not at the offsets. *)
Theorem C13_adjust_refuted : exists ra1 ra2, pixelize_1d 10 None (Some 1%Q) (Some (1#2), Some (-1#2))%Q false true 1 (1 # 1000000) (1 # 1000000) = Some (ra1, ra2, 10%Z, Some (1#2), Some (-1#2))%Q /\
  ~ (ra1 == - ra2)%Q.
Proof. eexists _, _. split; [vm_compute; reflexivity|]. vm_compute. discriminate. Qed.
Print Assumptions C13_adjust_refuted.

(* The wcs puts the first and last pixel at the requested places. Guards: at least two pixels, which fit the extent exactly,
   and no point dropped on a periodic axis. *)
Definition fits_axis (w r : Q) (m : Z) (o1 o2 : Q) : Prop := 2 <= m /\ (0 < r)%Q /\ (w == (inject_Z m - 1 + o1 - o2) * r)%Q.
Theorem C13_pixelization_partial : forall vx vy ex ey rx ry nx ny a b c d, fits_axis ex rx nx a b -> fits_axis ey ry ny c d ->
  exists w, pixelization vx vy ex ey (Some a, Some b) (Some c, Some d) false false None (Some (- (1) * rx, 1 * ry)%Q) = Some ((ny, nx), w) /\
  (sky_x w 0 == vx + (ex / 2 - a * rx))%Q /\ (sky_x w (inject_Z nx - 1) == vx + (- (ex / 2) - b * rx))%Q /\
  (sky_y w 0 == vy + (- (ey / 2) + c * ry))%Q /\ (sky_y w (inject_Z ny - 1) == vy + (ey / 2 + d * ry))%Q.
Proof.
  intros vx vy ex ey rx ry nx ny a b c d (Nx & Rx & Wx) (Ny & Ry & Wy). unfold pixelization.
  destruct (C13_res ex nx rx (- (1))%Q a b Rx ltac:(lia) ltac:(right; reflexivity) Wx) as (x1 & x2 & -> & X1 & X2 & X3).
  destruct (C13_res ey ny ry 1%Q c d Ry ltac:(lia) ltac:(left; reflexivity) Wy) as (y1 & y2 & -> & Y1 & Y2 & Y3).
  unfold axis_wcs. replace (nx - 1 =? 0) with false by lia. replace (ny - 1 =? 0) with false by lia. eexists. split; [reflexivity|].
  assert (Qx : (1 < inject_Z nx)%Q) by (change 1%Q with (inject_Z 1); rewrite <- Zlt_Qlt; lia).
  assert (Qy : (1 < inject_Z ny)%Q) by (change 1%Q with (inject_Z 1); rewrite <- Zlt_Qlt; lia).
  unfold sky_x, sky_y, sky_at; cbn. rewrite X1, Y1. rewrite Wx, Wy. repeat split; field; lra.
Qed.
Print Assumptions C13_pixelization_partial.

(* The full sky at 90 degrees with pixel centres on the edges: pixel 0 should be at RA 180 (and is so reported by
   pixelize_1d), but the wcs has it half a pixel away. *)
Theorem C13_periodic_crpix_refuted : exists ra1 ra2 a b w,
  pixelize 360 None (Some (-90)%Q) (Some 0, Some 0)%Q true = Some (ra1, ra2, 4, a, b) /\ (ra1 == 180)%Q /\
  pixelization 0 0 360 180 (Some 0, Some 0)%Q (Some (1#2), Some (-1#2))%Q true false None (Some (-90, 90)%Q) = Some ((2, 4), w) /\ (sky_x w 0 == 135)%Q.
Proof. eexists _, _, _, _, _. split; [vm_compute; reflexivity|]. split; [vm_compute; reflexivity|]. split; vm_compute; reflexivity. Qed.
Print Assumptions C13_periodic_crpix_refuted.

(* Asked for a shape of 3 rows and 5 columns, the result has 3 rows and 3 columns. *)
Theorem C13_shape_refuted : exists w, pixelization 0 0 360 180 (Some (1#2), Some (-1#2))%Q (Some (1#2), Some (-1#2))%Q true false (Some (3, 5)) None = Some ((3, 3), w).
Proof. eexists. vm_compute. reflexivity. Qed.
Print Assumptions C13_shape_refuted.

Example C13_ex : fits_axis 360 60 6 (1#2) (-1#2) /\ fits_axis 180 60 3 (1#2) (-1#2).
Proof. split; (split; [lia|split; [lra|vm_compute; reflexivity]]). Qed.
Example C13_ex2 : option_map (fun r => let '(a, b, n, _, _) := r in (Qred a, Qred b, n)) (pixelize 10 None (Some 3%Q) (Some 0%Q, None) false) = Some ((-5)%Q, 4%Q, 4).
Proof. vm_compute. reflexivity. Qed.
