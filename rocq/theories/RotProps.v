(* C95-C98: directions, distances, rotations and chains of coordinate systems. *)
From Coq Require Import Reals Lra.
From Verif Require Import Base SkyrModel RotSpec RotModel RotLemmas.
Ltac Zify.zify_post_hook ::= idtac.
Open Scope R_scope.

(* ang2rect gives the direction of the angles, a unit vector; rect2ang gives the angles of the direction of any vector but zero, also at the poles, in the usual ranges; *)
Theorem C95_rect (zenith : bool) (a : R * R) : ang2rect zenith a = dir zenith a /\ norm (ang2rect zenith a) = 1.
Proof. rewrite ang2rect_dir. split; [reflexivity|]. unfold norm. rewrite dir_unit. apply sqrt_1. Qed.
Theorem C95_rect_ang_rect (zenith : bool) (v : vec) : 0 < norm v -> let a := fst (rect2ang zenith v) in
  scale (norm v) (ang2rect zenith a) = v /\ - PI < fst a <= PI /\ (if zenith then 0 <= snd a <= PI else - (PI / 2) <= snd a <= PI / 2).
Proof.
  intros N a. rewrite ang2rect_dir. split; [apply rect2ang_dir, N|]. destruct v as [[x y] z]. unfold a, rect2ang. cbn [fst snd]. split; [apply atan2_range|].
  destruct zenith; [split; [apply atan2_upper, sqrt_pos|apply atan2_range]|apply atan2_right, sqrt_pos].
Qed.
(* so going to a vector and back gives the same angles, away from the poles. *)
Theorem C95_ang_rect_ang (zenith : bool) (phi theta : R) : - PI < phi <= PI -> (if zenith then 0 < theta < PI else - (PI / 2) < theta < PI / 2) ->
  fst (rect2ang zenith (ang2rect zenith (phi, theta))) = (phi, theta).
Proof.
  intros HP HT. pose proof (dir_unit zenith (phi, theta)) as U. rewrite ang2rect_dir. pose proof (rect2ang_unit zenith (dir zenith (phi, theta)) U) as E.
  pose proof (C95_rect_ang_rect zenith (dir zenith (phi, theta)) ltac:(unfold norm; rewrite U, sqrt_1; lra)) as (_ & R1 & R2). destruct (fst (rect2ang zenith (dir zenith (phi, theta)))) as [p t]. cbn [fst snd] in *. unfold dir in E. pose proof PI_RGT_0 as PP. pose proof (sc t) as ST. pose proof (sc theta) as STH. destruct zenith; cbn [fst snd] in E.
  - injection E as E1 E2 E3. assert (TE : t = theta) by (apply cos_inj; [lra|lra|exact E3]). subst t. assert (S : 0 < sin theta) by (apply sin_gt_0; lra). f_equal. apply ang_unique; [apply (Rmult_eq_reg_l (sin theta)); lra|apply (Rmult_eq_reg_l (sin theta)); lra|exact R1|exact HP].
  - injection E as E1 E2 E3. assert (TE : t = theta).
    { assert (A : PI / 2 - t = PI / 2 - theta); [|lra]. apply cos_inj; [lra|lra|]. rewrite !cos_shift. exact E3. }
    subst t. assert (S : 0 < cos theta) by (apply cos_gt_0; lra). f_equal. apply ang_unique; [apply (Rmult_eq_reg_l (cos theta)); lra|apply (Rmult_eq_reg_l (cos theta)); lra|exact R1|exact HP].
Qed.
(* angdist is the angle between the directions, from 0 to pi, *)
Theorem C95_angdist (zenith : bool) (a b : R * R) : 0 <= angdist zenith a b <= PI /\ cos (angdist zenith a b) = dot (dir zenith a) (dir zenith b).
Proof. apply dist_dot. Qed.
(* and a distance: symmetric, zero between equal directions only, and with the triangle inequality. *)
Theorem C95_metric (zenith : bool) (a b c : R * R) : angdist zenith a b = angdist zenith b a /\ (angdist zenith a b = 0 <-> dir zenith a = dir zenith b) /\ angdist zenith a c <= angdist zenith a b + angdist zenith b c.
Proof.
  destruct (dist_dot zenith a b) as [R1 C1]. destruct (dist_dot zenith b a) as [R2 C2]. destruct (dist_dot zenith b c) as [R3 C3]. destruct (dist_dot zenith a c) as [R4 C4]. split; [|split].
  - apply cos_inj; auto. rewrite C1, C2. apply dot_comm.
  - split; intros H.
    + rewrite H, cos_0 in C1. apply dot_one; [apply dir_unit|apply dir_unit|]. symmetry. exact C1.
    + apply cos_inj; [exact R1|pose proof PI_RGT_0; lra|]. rewrite C1, cos_0, H. apply dir_unit.
  - apply (triangle (dir zenith a) (dir zenith b) (dir zenith c)); auto using dir_unit.
Qed.
(* vec_angdist is the angle between two vectors, which need not have length one; so for directions it is angdist. *)
Theorem C95_vec (v1 v2 : vec) : 0 < norm v1 -> 0 < norm v2 -> 0 <= vec_angdist v1 v2 <= PI /\ norm v1 * norm v2 * cos (vec_angdist v1 v2) = dot v1 v2.
Proof. apply vec_dist. Qed.
Theorem C95_vec_ang (zenith : bool) (a b : R * R) (k l : R) : 0 < k -> 0 < l -> vec_angdist (scale k (ang2rect zenith a)) (scale l (ang2rect zenith b)) = angdist zenith a b.
Proof.
  intros K L. rewrite !ang2rect_dir. assert (N : forall k a, 0 < k -> norm (scale k (dir zenith a)) = k).
  { intros k' a' K'. unfold norm. replace (dot (scale k' (dir zenith a')) (scale k' (dir zenith a'))) with (k' * k' * dot (dir zenith a') (dir zenith a')) by (unfold dot, scale; cbn [fst snd]; ring). rewrite dir_unit, Rmult_1_r. apply sqrt_square. lra. }
  destruct (vec_dist (scale k (dir zenith a)) (scale l (dir zenith b))) as [R1 E1]; [rewrite N by exact K; exact K|rewrite N by exact L; exact L|]. destruct (dist_dot zenith a b) as [R2 E2]. apply cos_inj; auto. rewrite E2. rewrite !N in E1 by assumption. apply (Rmult_eq_reg_l (k * l)); [|nra]. rewrite E1. unfold dot, scale. cbn [fst snd]. ring.
Qed.
(* The length that return_r adds is that of the projection on the xy plane. *)
Theorem C95_return_r_refuted : exists v, 0 < norm v /\ snd (rect2ang false v) <> norm v.
Proof.
  exists ((0, 0), 1). unfold norm, rect2ang, dot. cbn [fst snd]. replace (0 * 0 + 0 * 0 + 1 * 1) with 1 by ring. replace (0 ^ 2 + 0 ^ 2) with 0 by ring. rewrite sqrt_1, sqrt_0. split; lra.
Qed.
Example C95_ex : 0 < norm ((3, 4), 12) /\ snd (rect2ang false ((3, 4), 12)) = 5 /\ dir false (0, PI / 2) = dir false (1, PI / 2).
Proof.
  split; [apply sqrt_lt_R0; unfold dot; cbn [fst snd]; lra|]. split; [cbn [rect2ang snd]; replace (3 ^ 2 + 4 ^ 2) with (5 * 5) by ring; apply sqrt_square; lra|].
  unfold dir. cbn [fst snd]. rewrite cos_PI2. rewrite !Rmult_0_l. reflexivity.
Qed.

(* rotmatrix turns vectors around the axis; euler_rot is the three turns one after another, the last angle first, of the direction. *)
Theorem C96_rotmatrix (ang : R) (ax : axis3) (v : vec) : mulv (rotmatrix ang ax) v = turned ax ang v.
Proof. apply rot_turned. Qed.
Theorem C96_euler (alpha beta gamma : R) (k0 k1 k2 : axis3) (co : R * R) :
  dir false (euler_rot ((alpha, beta), gamma) ((k0, k1), k2) co) = turned k0 alpha (turned k1 beta (turned k2 gamma (dir false co))).
Proof. apply rot_dir. Qed.
(* It keeps distances, *)
Theorem C96_distance (e : (R * R) * R) (kind : (axis3 * axis3) * axis3) (a b : R * R) : angdist false (euler_rot e kind a) (euler_rot e kind b) = angdist false a b.
Proof.
  destruct (dist_dot false (euler_rot e kind a) (euler_rot e kind b)) as [R1 C1]. destruct (dist_dot false a b) as [R2 C2]. apply cos_inj; auto. rewrite C1, C2, !rot_dir, !turned_dot. reflexivity.
Qed.
(* and the opposite angles in the opposite order undo it. *)
Theorem C96_inverse (alpha beta gamma : R) (k0 k1 k2 : axis3) (co : R * R) :
  dir false (euler_rot ((- gamma, - beta), - alpha) ((k2, k1), k0) (euler_rot ((alpha, beta), gamma) ((k0, k1), k2) co)) = dir false co.
Proof. rewrite !rot_dir. cbn [fst snd]. rewrite !turned_inv by ring. reflexivity. Qed.
(* tele2hor and hor2tele undo each other. *)
Theorem C96_site (az tilt : R) (co : R * R) : dir false (hor2tele az tilt (tele2hor az tilt co)) = dir false co /\ dir false (tele2hor az tilt (hor2tele az tilt co)) = dir false co.
Proof. unfold hor2tele, tele2hor. rewrite !rot_dir. cbn [fst snd zyz]. split; rewrite (turned_inv Zax az), (turned_inv Yax), (turned_inv Zax (- az)) by ring; reflexivity. Qed.
Example C96_ex : turned Zax (PI / 2) (dir false (0, 0)) = dir false (PI / 2, 0).
Proof. unfold turned, dir. cbn [fst snd]. rewrite cos_0, sin_0, cos_PI2, sin_PI2. repeat apply (f_equal2 pair); ring. Qed.

(* recenter moves the centre to the north pole, or to the place asked for (with restore, that far from the centre's own longitude), keeps distances, *)
Theorem C97_center (ra0 dec0 ra1 dec1 : R) (restore : bool) :
  dir false (recenter (Two ra0 dec0) restore (ra0, dec0)) = north /\
  dir false (recenter (Four ra0 dec0 ra1 dec1) restore (ra0, dec0)) = dir false ((if restore then ra1 + ra0 else ra1), dec1).
Proof.
  assert (G : forall ra dec, dir false (euler_rot ((ra, dec0 - dec), - ra0) zyz (ra0, dec0)) = dir false (ra, dec)).
  { intros ra dec. rewrite rot_dir. cbn [fst snd zyz]. unfold turned, dir. cbn [fst snd]. rewrite cos_neg, sin_neg. pose proof (sc ra0) as S. pose proof (sc dec0) as D.
    replace (cos ra0 * (cos dec0 * cos ra0) - - sin ra0 * (cos dec0 * sin ra0)) with (cos dec0) by (replace (cos ra0 * (cos dec0 * cos ra0) - - sin ra0 * (cos dec0 * sin ra0)) with (cos dec0 * (sin ra0 * sin ra0 + cos ra0 * cos ra0)) by ring; rewrite S; ring).
    replace (- sin ra0 * (cos dec0 * cos ra0) + cos ra0 * (cos dec0 * sin ra0)) with 0 by ring.
    assert (E : cos (dec0 - dec) * cos dec0 + sin (dec0 - dec) * sin dec0 = cos dec) by (replace (cos dec) with (cos (dec0 - (dec0 - dec))) by (f_equal; ring); rewrite (cos_minus dec0 (dec0 - dec)); ring).
    assert (F : cos (dec0 - dec) * sin dec0 - sin (dec0 - dec) * cos dec0 = sin dec) by (replace (sin dec) with (sin (dec0 - (dec0 - dec))) by (f_equal; ring); rewrite (sin_minus dec0 (dec0 - dec)); ring).
    rewrite E, F. repeat apply (f_equal2 pair); ring. }
  unfold recenter. cbn [center4]. rewrite !G. split; [|reflexivity]. unfold dir, north. cbn [fst snd]. rewrite cos_PI2, sin_PI2. repeat apply (f_equal2 pair); ring.
Qed.
Theorem C97_distance (ctr : center) (restore : bool) (a b : R * R) : angdist false (recenter ctr restore a) (recenter ctr restore b) = angdist false a b /\ angdist false (decenter ctr restore a) (decenter ctr restore b) = angdist false a b.
Proof. unfold recenter, decenter. destruct (center4 ctr) as [[[ra0 dec0] ra1] dec1]. split; [exact (C96_distance _ _ a b)|exact (C96_distance _ _ a b)]. Qed.
(* and decenter with the same centre undoes it, and the other way around; so do tele2bore and bore2tele. Missing from the full claim: centres of four arrays with restore, see C97_restore_refuted. *)
Theorem C97_inverse_partial (ctr : center) (restore : bool) (a : R * R) : dir false (decenter ctr restore (recenter ctr restore a)) = dir false a /\ dir false (recenter ctr restore (decenter ctr restore a)) = dir false a.
Proof.
  unfold recenter, decenter. destruct (center4 ctr) as [[[ra0 dec0] ra1] dec1]. cbv zeta. rewrite !rot_dir. cbn [fst snd zyz]. split.
  - rewrite (turned_inv Zax (if restore then ra1 + ra0 else ra1)), (turned_inv Yax (dec0 - dec1)), (turned_inv Zax (- ra0)) by ring. reflexivity.
  - rewrite (turned_inv Zax ra0), (turned_inv Yax (dec1 - dec0)), (turned_inv Zax (- (if restore then ra1 + ra0 else ra1))) by ring. reflexivity.
Qed.
Theorem C97_bore (co bore : R * R) : dir false (bore2tele (tele2bore co bore) bore) = dir false co /\ dir false (tele2bore bore bore) = north.
Proof. destruct bore as [ra0 dec0]. split; [exact (proj1 (C97_inverse_partial (Two ra0 dec0) false co))|exact (proj1 (C97_center ra0 dec0 0 0 false))]. Qed.
(* With a centre of four arrays and restore=True, recenter changes the caller's centre, so decenter with it does not undo it; *)
Theorem C97_restore_refuted : exists ctr a, dir false (decenter (center_after true ctr true) true (recenter ctr true a)) <> dir false a.
Proof.
  exists (Four (PI / 2) 0 0 0), (0, 0). unfold center_after. cbn [andb]. unfold recenter, decenter. cbn [center4]. cbv zeta. rewrite !rot_dir. cbn [fst snd zyz]. rewrite !Rminus_0_r, !turned_0, !turned_plus.
  match goal with |- turned Zax ?t _ <> _ => replace t with (- (PI / 2)) by field end. unfold turned, dir. cbn [fst snd]. rewrite cos_neg, sin_neg, cos_0, sin_0, cos_PI2, sin_PI2. intros E. injection E as E1 E2. lra.
Qed.
(* a centre of numbers, or of two arrays, or without restore, is left alone. *)
Theorem C97_center_kept (arrays : bool) (ctr : center) (restore : bool) : arrays = false \/ restore = false \/ (exists ra0 dec0, ctr = Two ra0 dec0) -> center_after arrays ctr restore = ctr.
Proof. intros H. destruct ctr; [reflexivity|]. unfold center_after. destruct H as [->|[->|(x & y & H)]]; [rewrite andb_false_r; reflexivity|reflexivity|discriminate H]. Qed.
Example C97_ex : dir false (recenter (Two 1 (1 / 2)) false (1, 1 / 2)) = north.
Proof. exact (proj1 (C97_center 1 (1 / 2) 0 0 false)). Qed.

Local Ltac rt := repeat progress (cbn; unfold next_sys; cbn [sys_eqb nohor]; rewrite ?Nat.eqb_refl).
(* The loop of transform_raw ends within four conversions, which lead from the first system to the second, none leading to where it started; *)
Theorem C98_route (from to : sys) : exists l, route 4 from to = Some l /\ chain from l to /\ Forall (fun s : sys * sys => fst s <> snd s) l.
Proof.
  destruct from as [| | | |i], to as [| | | |j]; try (eexists; split; [cbn; unfold next_sys; cbn [sys_eqb nohor]; rewrite ?Nat.eqb_refl; reflexivity|]; cbn; split; [tauto|repeat (apply Forall_cons; [cbn; discriminate|]); apply Forall_nil]).
  destruct (Nat.eqb i j) eqn:E.
  - apply Nat.eqb_eq in E. subst j. exists []. rt. split; [reflexivity|]. split; [reflexivity|apply Forall_nil].
  - exists [(Other i, Other j)]. rt. rewrite E. rt. split; [reflexivity|]. split; [tauto|]. apply Forall_cons; [|apply Forall_nil]. cbn. intros K. injection K as ->. rewrite Nat.eqb_refl in E. discriminate E.
Qed.
(* the way back is the same way backwards, *)
Theorem C98_back (from to : sys) (l : list (sys * sys)) : route 4 from to = Some l -> route 4 to from = Some (rev (map (fun s : sys * sys => (snd s, fst s)) l)).
Proof.
  intros H. destruct from as [| | | |i], to as [| | | |j]; try (cbn in H; unfold next_sys in H; cbn [sys_eqb nohor] in H; rewrite ?Nat.eqb_refl in H; injection H as <-; cbn; unfold next_sys; cbn [sys_eqb nohor]; rewrite ?Nat.eqb_refl; reflexivity).
  cbn in H. unfold next_sys in H. cbn [sys_eqb nohor] in H. destruct (Nat.eqb i j) eqn:E.
  - apply Nat.eqb_eq in E. subst j. injection H as <-. rt. reflexivity.
  - cbn in H. unfold next_sys in H. cbn [sys_eqb nohor] in H. rewrite ?Nat.eqb_refl in H. cbn in H. injection H as <-. rt. rewrite Nat.eqb_sym, E. rt. reflexivity.
Qed.
(* so transforming there and back gives the same direction, from and to any systems, recentred or not, if each conversion is undone by its opposite and conversions take equal directions to equal directions. *)
Theorem C98_round_trip (conv : sys -> sys -> R * R -> R * R) (from to : sys * option (center * bool)) (co : R * R) :
  (forall a b c, dir false (conv b a (conv a b c)) = dir false c) -> (forall a b c c', dir false c = dir false c' -> dir false (conv a b c) = dir false (conv a b c')) ->
  exists there back, transform_raw conv from to co = Some there /\ transform_raw conv to from there = Some back /\ dir false back = dir false co.
Proof.
  intros INV RESP. destruct from as [f rf], to as [t rt]. destruct (C98_route f t) as (l & E & _). pose proof (C98_back f t l E) as E'. unfold transform_raw. cbn [fst snd]. rewrite E, E'. do 2 eexists. split; [reflexivity|]. split; [reflexivity|].
  assert (RR : forall r c c', dir false c = dir false c' -> dir false (apply_ref recenter r c) = dir false (apply_ref recenter r c')).
  { intros [[ctr re]|] c c' H; cbn [apply_ref]; [|exact H]. unfold recenter. destruct (center4 ctr) as [[[ra0 dec0] ra1] dec1]. rewrite !rot_dir, H. reflexivity. }
  assert (DR : forall r c, dir false (apply_ref decenter r (apply_ref recenter r c)) = dir false c) by (intros [[ctr re]|] c; cbn [apply_ref]; [exact (proj1 (C97_inverse_partial ctr re c))|reflexivity]).
  assert (RD : forall r c, dir false (apply_ref recenter r (apply_ref decenter r c)) = dir false c) by (intros [[ctr re]|] c; cbn [apply_ref]; [exact (proj2 (C97_inverse_partial ctr re c))|reflexivity]).
  set (go := fun c (s : sys * sys) => conv (fst s) (snd s) c).
  assert (FR : forall l c c', dir false c = dir false c' -> dir false (fold_left go l c) = dir false (fold_left go l c')) by (induction l0 as [|s l0 IH]; intros c c' H; [exact H|]; cbn [fold_left]; apply IH, RESP, H).
  assert (FB : forall l c, dir false (fold_left go (rev (map (fun s : sys * sys => (snd s, fst s)) l)) (fold_left go l c)) = dir false c).
  { induction l0 as [|s l0 IH]; intros c; [reflexivity|]. cbn [map rev fold_left]. rewrite fold_left_app. cbn [fold_left]. unfold go at 1. cbn [fst snd]. rewrite <- (INV (fst s) (snd s) c). apply RESP, IH. }
  rewrite (RR rf _ (apply_ref decenter rf co)); [apply RD|]. rewrite <- (FB l (apply_ref decenter rf co)). apply FR, DR.
Qed.
Example C98_ex : route 4 Bore (Other 2) = Some [(Bore, Tele); (Tele, Altaz); (Altaz, Icrs); (Icrs, Other 2)] /\ route 4 (Other 2) Altaz = Some [(Other 2, Icrs); (Icrs, Altaz)].
Proof. split; reflexivity. Qed.
Print Assumptions C95_rect.
Print Assumptions C95_rect_ang_rect.
Print Assumptions C95_ang_rect_ang.
Print Assumptions C95_angdist.
Print Assumptions C95_metric.
Print Assumptions C95_vec.
Print Assumptions C95_vec_ang.
Print Assumptions C95_return_r_refuted.
Print Assumptions C96_rotmatrix.
Print Assumptions C96_euler.
Print Assumptions C96_distance.
Print Assumptions C96_inverse.
Print Assumptions C96_site.
Print Assumptions C97_center.
Print Assumptions C97_distance.
Print Assumptions C97_inverse_partial.
Print Assumptions C97_bore.
Print Assumptions C97_restore_refuted.
Print Assumptions C97_center_kept.
Print Assumptions C98_route.
Print Assumptions C98_back.
Print Assumptions C98_round_trip.
