(* C116: displacements on the sphere. *)
From Coq Require Import Reals Lra Lia.
From Verif Require Import Base RangeLemmas PixModel SkyrModel RotSpec RotModel RotLemmas RotProps LenSpec LenModel LenLemmas LenLemmas2.
Ltac Zify.zify_post_hook ::= idtac.
Open Scope R_scope.

Lemma zget_zmap {A B} (f : A -> B) l k x : zget l k = Some x -> zget (map f l) k = Some (f x).
Proof. unfold zget. destruct (k <? 0)%Z; [discriminate|]. intros H. rewrite nth_error_map, H. reflexivity. Qed.
Lemma obg_at step l rows3 pol k p g : (0 < step)%nat -> zget l k = Some (p, g) ->
  zget (offset_by_grad step l rows3 pol) k = Some (geodesic_one (ncomp3 pol rows3) p g).
Proof. intros S0 H. unfold offset_by_grad. rewrite chunks_map by (exact S0 || lia). rewrite (zget_zmap _ _ _ _ H). reflexivity. Qed.

(* There is one result for every sample; the rotation is there if asked for, or if the positions have one and nothing is said. *)
Theorem C116_rows : forall step l rows3 pol, (0 < step)%nat ->
  length (offset_by_grad step l rows3 pol) = length l /\
  forall k p g, zget l k = Some (p, g) -> exists o, zget (offset_by_grad step l rows3 pol) k = Some o /\ (o_rot o <> None <-> pol = Some true \/ (pol = None /\ rows3 = true)).
Proof.
  intros step l rows3 pol S0. split; [unfold offset_by_grad; rewrite chunks_map, map_length by (exact S0 || lia); reflexivity|].
  intros k p g H. exists (geodesic_one (ncomp3 pol rows3) p g). split; [apply obg_at; assumption|].
  unfold geodesic_one, offset_by_grad_helper. destruct (if Req_EM_T _ 0 then _ else _) as [g0 g1]. cbv zeta.
  destruct (ncomp3 pol rows3) eqn:E; cbn [negb o_rot].
  - split; [intros _|discriminate]. destruct pol as [[]|]; cbn in E; try discriminate; auto.
  - split; [contradiction|]. intros [->|[-> ->]]; discriminate E.
Qed.

(* Positions move along the great circle that starts in the direction of the gradient by its length, as long as the new position is not a pole and no
   more than a quarter turn of longitude away. *)
Theorem C116_position_partial : forall step l rows3 pol k dec ra rot a b, (0 < step)%nat -> zget l k = Some (IP dec ra rot, (a, b)) -> a <> 0 \/ b <> 0 ->
  ahead ra (moved dec ra a b) -> snd (moved dec ra a b) ^ 2 <> 1 ->
  exists o ra', zget (offset_by_grad step l rows3 pol) k = Some o /\ o_ra o = Some ra' /\
    point (o_dec o) ra' = moved dec ra a b /\ - (PI / 2) <= o_dec o <= PI / 2.
Proof.
  intros step l rows3 pol k dec ra rot a b S0 L NZ A N1. rewrite (snd_moved dec ra a b) in N1. pose proof (r_nz dec a b NZ N1) as R0.
  unfold ahead in A. rewrite (ahead_eq dec ra a b) in A.
  destruct (geo_pos dec ra a b NZ (ncomp3 pol rows3) rot R0) as [E1 E2]. do 2 eexists. split; [apply obg_at; eassumption|]. split; [exact E2|]. rewrite E1.
  split; [apply turn_point; assumption|apply turn_range].
Qed.
Lemma near_ok dec ra a b : a <> 0 \/ b <> 0 -> sqrt (a ^ 2 + b ^ 2) < PI / 2 - Rabs dec -> ahead ra (moved dec ra a b) /\ snd (moved dec ra a b) ^ 2 <> 1.
Proof.
  intros NZ H. destruct (norm_split a b NZ) as [DP HN]. pose proof (sc1 dec) as HS. pose proof (sc1 (sqrt (a ^ 2 + b ^ 2))) as HD.
  pose proof (gxyz _ _ _ _ _ _ HS HN HD) as G. pose proof (ahead_eq dec ra a b) as AE. rewrite (snd_moved dec ra a b). unfold ahead. rewrite AE. clear AE.
  set (d := sqrt (a ^ 2 + b ^ 2)) in *. set (n := a / d) in *. set (e := b / d) in *.
  assert (X : 0 < gx (sin dec) (cos dec) n (sin d) (cos d)).
  { unfold gx. assert (C : 0 < cos (Rabs dec + d)) by (pose proof (Rabs_pos dec); apply cos_gt_0; lra). rewrite cos_plus in C.
    assert (SD : 0 < sin d) by (pose proof (Rabs_pos dec); pose proof PI_RGT_0; apply sin_gt_0; lra).
    assert (NB : -1 <= n <= 1) by (split; nra).
    assert (CA : cos (Rabs dec) = cos dec) by (unfold Rabs; destruct (Rcase_abs dec); [apply cos_neg|reflexivity]). rewrite CA in C.
    assert (SA : sin (Rabs dec) = Rabs (sin dec)).
    { pose proof (Rabs_pos dec). unfold Rabs at 1. destruct (Rcase_abs dec) as [D|D]; unfold Rabs in H; destruct (Rcase_abs dec); try lra.
      - rewrite sin_neg. rewrite Rabs_left; [reflexivity|]. apply Ropp_lt_cancel. rewrite Ropp_0, <- sin_neg. apply sin_gt_0; lra.
      - rewrite Rabs_right; [reflexivity|]. apply Rle_ge, sin_ge_0; lra. }
    rewrite SA in C. assert (Q : sin dec * sin d * n <= Rabs (sin dec) * sin d).
    { rewrite (Rmult_comm (sin dec)), Rmult_assoc, (Rmult_comm (Rabs (sin dec))). apply Rmult_le_compat_l; [lra|].
      apply Rle_trans with (1 := Rle_abs _). rewrite Rabs_mult. pose proof (Rabs_pos (sin dec)). assert (Rabs n <= 1) by (apply Rabs_le; lra). nra. }
    lra. }
  split; [lra|]. nra.
Qed.
(* In particular, moves shorter than the distance to the closer pole. *)
Theorem C116_position : forall step l rows3 pol k dec ra rot a b, (0 < step)%nat -> zget l k = Some (IP dec ra rot, (a, b)) -> a <> 0 \/ b <> 0 ->
  sqrt (a ^ 2 + b ^ 2) < PI / 2 - Rabs dec ->
  exists o ra', zget (offset_by_grad step l rows3 pol) k = Some o /\ o_ra o = Some ra' /\
    point (o_dec o) ra' = moved dec ra a b /\ - (PI / 2) <= o_dec o <= PI / 2 /\
    angdist false (ra, dec) (ra', o_dec o) = sqrt (a ^ 2 + b ^ 2).
Proof.
  intros step l rows3 pol k dec ra rot a b S0 L NZ H. destruct (near_ok dec ra a b NZ H) as [A B].
  destruct (C116_position_partial step l rows3 pol k dec ra rot a b S0 L NZ A B) as (o & ra' & E1 & E2 & E3 & E4). exists o, ra'. repeat split; try assumption; try apply E4.
  destruct (C95_angdist false (ra, dec) (ra', o_dec o)) as [R E]. apply cos_inj; [exact R|pose proof (sqrt_pos (a ^ 2 + b ^ 2)); pose proof (Rabs_pos dec); pose proof PI_RGT_0; lra|].
  rewrite E. change (dot (point dec ra) (point (o_dec o) ra') = cos (sqrt (a ^ 2 + b ^ 2))). rewrite E3.
  unfold moved, heading, point, dir, north_at, east_at, add3, scale, dot. cbn [fst snd].
  set (d := sqrt (a ^ 2 + b ^ 2)).
  transitivity (cos d * (cos dec ^ 2 * (sin ra ^ 2 + cos ra ^ 2) + sin dec ^ 2) + sin d * (a / d) * (sin dec * cos dec) * (1 - (sin ra ^ 2 + cos ra ^ 2))); [ring|].
  rewrite sc1. transitivity (cos d * (sin dec ^ 2 + cos dec ^ 2)); [ring|]. rewrite sc1. ring.
Qed.
(* A gradient that is zero moves the position by a distance of 1.5e-20. *)
Theorem C116_zero : forall step l rows3 pol k dec ra rot, (0 < step)%nat -> zget l k = Some (IP dec ra rot, (0, 0)) -> / 10 ^ 20 < (PI / 2 - Rabs dec) / 2 ->
  exists o ra', zget (offset_by_grad step l rows3 pol) k = Some o /\ o_ra o = Some ra' /\ angdist false (ra, dec) (ra', o_dec o) = sqrt 2 / 10 ^ 20.
Proof.
  intros step l rows3 pol k dec ra rot S0 L H. set (t := / 10 ^ 20) in *. assert (T : 0 < t) by (unfold t; apply Rinv_0_lt_compat, pow_lt; lra).
  assert (NZ : - t <> 0 \/ t <> 0) by (right; lra).
  assert (ST : sqrt ((- t) ^ 2 + t ^ 2) = sqrt 2 * t) by (replace ((- t) ^ 2 + t ^ 2) with (2 * t ^ 2) by ring; rewrite sqrt_mult, sqrt_pow2 by (lra || apply pow2_ge_0); reflexivity).
  assert (S2 : sqrt 2 < 2) by (rewrite <- (sqrt_pow2 2) at 2 by lra; apply sqrt_lt_1; lra).
  destruct (C116_position 1 [(IP dec ra rot, (- t, t))] rows3 pol 0 dec ra rot (- t) t ltac:(lia) eq_refl NZ) as (o & ra' & E1 & E2 & _ & _ & E5); [rewrite ST; nra|].
  rewrite (obg_at 1 [(IP dec ra rot, (- t, t))] rows3 pol 0 (IP dec ra rot) (- t, t) ltac:(lia) eq_refl) in E1. injection E1 as <-. rewrite ST in E5.
  assert (G : geodesic_one (ncomp3 pol rows3) (IP dec ra rot) (- t, t) = geodesic_one (ncomp3 pol rows3) (IP dec ra rot) (0, 0)).
  { unfold geodesic_one, offset_by_grad_helper. cbn [fst snd]. destruct (Req_EM_T (- - t) 0); [lra|]. destruct (Req_EM_T (- 0) 0) as [_|]; [|lra]. destruct (Req_EM_T 0 0) as [_|]; [|lra].
    fold t. replace (- - t) with t by ring. reflexivity. }
  rewrite G in E2, E5. do 2 eexists. split; [apply obg_at; eassumption|]. split; [exact E2|]. rewrite E5. reflexivity.
Qed.
(* Going over a pole does not work: twice the distance to the pole straight north gets one back to where one was. *)
Theorem C116_pole_refuted : forall step l rows3 pol k dec ra rot, (0 < step)%nat -> 0 < dec < PI / 2 -> zget l k = Some (IP dec ra rot, (PI - 2 * dec, 0)) ->
  exists o, zget (offset_by_grad step l rows3 pol) k = Some o /\ o_ra o = Some ra /\ o_dec o = dec /\ point dec ra <> moved dec ra (PI - 2 * dec) 0.
Proof.
  intros step l rows3 pol k dec ra rot S0 D L. assert (NZ : PI - 2 * dec <> 0 \/ 0 <> 0) by (left; lra). set (a := PI - 2 * dec) in *.
  assert (DA : sqrt (a ^ 2 + 0 ^ 2) = a) by (replace (a ^ 2 + 0 ^ 2) with (a ^ 2) by ring; apply sqrt_pow2; unfold a; lra).
  assert (C0 : 0 < cos dec) by (apply cos_gt_0; lra).
  assert (ZE : gz (sin dec) (cos dec) (a / a) (sin a) (cos a) = sin dec).
  { unfold gz. replace (a / a) with 1 by (field; lra). rewrite Rmult_1_r. replace (cos a * sin dec + sin a * cos dec) with (sin (dec + a)) by (rewrite sin_plus; ring).
    replace (dec + a) with (PI - dec) by (unfold a; ring). apply sin_PI_x. }
  assert (RE : gr (sin dec) (cos dec) (a / sqrt (a ^ 2 + 0 ^ 2)) (sin (sqrt (a ^ 2 + 0 ^ 2))) (cos (sqrt (a ^ 2 + 0 ^ 2))) = cos dec).
  { rewrite DA. unfold gr. rewrite ZE. replace (1 - sin dec ^ 2) with (cos dec ^ 2) by (pose proof (sc1 dec); lra). apply sqrt_pow2. lra. }
  destruct (geo_pos dec ra a 0 NZ (ncomp3 pol rows3) rot) as [E1 E2]; [rewrite RE; lra|].
  exists (geodesic_one (ncomp3 pol rows3) (IP dec ra rot) (a, 0)). split; [apply obg_at; assumption|]. rewrite E1, E2. repeat split.
  - unfold turn_ra. f_equal. unfold gy. replace (0 / sqrt (a ^ 2 + 0 ^ 2) * sin (sqrt (a ^ 2 + 0 ^ 2))) with 0 by (rewrite DA; field; lra).
    unfold Rdiv. rewrite Rmult_0_l, asin_0. ring.
  - unfold turn_dec. rewrite DA, ZE. rewrite <- cos_shift, acos_cos by lra. ring.
  - intros E. assert (EA : dot (point dec ra) ((cos ra, sin ra), 0) = dot (moved dec ra a 0) ((cos ra, sin ra), 0)) by (rewrite E; reflexivity).
    rewrite ahead_eq, DA in EA by assumption. unfold dot, point, dir, gx in EA. cbn [fst snd] in EA. replace (a / a) with 1 in EA by (field; lra).
    assert (EL : cos dec * cos ra * cos ra + cos dec * sin ra * sin ra + sin dec * 0 = cos dec) by (transitivity (cos dec * (sin ra ^ 2 + cos ra ^ 2)); [ring|rewrite sc1; ring]).
    rewrite EL in EA. rewrite Rmult_1_r, <- cos_plus in EA. replace (dec + a) with (PI - dec) in EA by (unfold a; ring). rewrite (cos_minus PI dec), cos_PI, sin_PI in EA. lra.
Qed.

(* Light polarized along the path stays polarized along the path if Q and U are rotated by the third row (not twice it). *)
Theorem C116_polarization_partial : forall step l rows3 k dec ra a b, (0 < step)%nat -> zget l k = Some (IP dec ra None, (a, b)) -> a <> 0 \/ b <> 0 ->
  ahead ra (moved dec ra a b) -> snd (moved dec ra a b) ^ 2 <> 1 ->
  exists o ra', zget (offset_by_grad step l rows3 (Some true)) k = Some o /\ o_ra o = Some ra' /\
    (dot (arriving dec ra a b) (north_at (o_dec o) ra') <> 0 -> exists t, o_rot o = Some (Some t) /\
       let here := along (a / sqrt (a ^ 2 + b ^ 2)) (b / sqrt (a ^ 2 + b ^ 2)) in
       let there := along (dot (arriving dec ra a b) (north_at (o_dec o) ra')) (dot (arriving dec ra a b) (east_at ra')) in
       rotate_pol 1 t there = here /\ lensed_pol t there = rotate_pol 1 t here).
Proof.
  intros step l rows3 k dec ra a b S0 L NZ A N1. rewrite (snd_moved dec ra a b) in N1. pose proof (r_nz dec a b NZ N1) as R0.
  unfold ahead in A. rewrite (ahead_eq dec ra a b) in A.
  destruct (geo_pos dec ra a b NZ true None R0) as [E1 E2]. exists (geodesic_one true (IP dec ra None) (a, b)). eexists. split; [apply obg_at; assumption|]. split; [exact E2|]. rewrite E1. intros N0.
  destruct (geo_rot dec ra a b NZ None R0 A N0) as (t & E3 & CT & ST). exists t. split; [exact E3|]. pose proof (arr_unit dec ra a b NZ R0 A) as U.
  cbv zeta in CT, ST |- *. set (n' := dot _ (north_at _ _)) in *. set (e' := dot _ (east_at _)) in *. set (n := a / _) in *. set (e := b / _) in *.
  destruct (rot_alg n e n' e' U) as [EN EE]. set (c := n * n' + e * e') in *. set (s := e * n' - n * e') in *.
  assert (R1 : rotate_pol 1 t (along n' e') = along n e).
  { unfold rotate_pol. destruct (Req_EM_T 1 0); [lra|]. rewrite Rmult_1_l, CT, ST. unfold along. cbn [fst snd]. rewrite EN, EE. f_equal; ring. }
  split; [exact R1|]. rewrite <- R1. unfold lensed_pol, rotate_pol. destruct (Req_EM_T 1 0); [lra|]. destruct (Req_EM_T 2 0); [lra|]. cbn [fst snd]. rewrite Rmult_1_l.
  replace (2 * t) with (t + t) by ring. rewrite cos_plus, sin_plus. f_equal; ring.
Qed.
(* A rotation that the position already has is added to. *)
Theorem C116_rotation_adds : forall step l l' rows3 k dec ra g r0, (0 < step)%nat -> zget l k = Some (IP dec ra None, g) -> zget l' k = Some (IP dec ra (Some r0), g) ->
  exists o o', zget (offset_by_grad step l rows3 (Some true)) k = Some o /\ zget (offset_by_grad step l' rows3 (Some true)) k = Some o' /\
    o_dec o' = o_dec o /\ o_ra o' = o_ra o /\ forall t, o_rot o = Some (Some t) -> o_rot o' = Some (Some (t + r0)).
Proof.
  intros step l l' rows3 k dec ra g r0 S0 H H'. do 2 eexists. split; [apply obg_at; eassumption|]. split; [apply obg_at; eassumption|].
  unfold geodesic_one. cbn [i_dec i_ra i_rot]. destruct (offset_by_grad_helper _ _ _) as [p [[[c s]|]|]]; cbn; repeat split; intros t T; try discriminate T. injection T as <-. reflexivity.
Qed.
(* lens_map_curved rotates by twice the angle it should: a path east from 45 degrees north. *)
Theorem C116_polarization_refuted : exists dec ra a b o ra' t, (a <> 0 \/ b <> 0) /\ ahead ra (moved dec ra a b) /\ snd (moved dec ra a b) ^ 2 <> 1 /\
  offset_by_grad 1 [(IP dec ra None, (a, b))] false (Some true) = [o] /\ o_ra o = Some ra' /\ o_rot o = Some (Some t) /\ point (o_dec o) ra' = moved dec ra a b /\
  lensed_pol t (along (dot (arriving dec ra a b) (north_at (o_dec o) ra')) (dot (arriving dec ra a b) (east_at ra'))) <>
    along (a / sqrt (a ^ 2 + b ^ 2)) (b / sqrt (a ^ 2 + b ^ 2)).
Proof.
  pose proof PI_RGT_0 as PP. assert (NZ : 0 <> 0 \/ PI / 2 <> 0) by (right; lra). assert (D : sqrt (0 ^ 2 + (PI / 2) ^ 2) = PI / 2) by (replace (0 ^ 2 + (PI / 2) ^ 2) with ((PI / 2) ^ 2) by ring; apply sqrt_pow2; lra).
  assert (SQ : 0 < / sqrt 2) by (apply Rinv_0_lt_compat, sqrt_lt_R0; lra).
  assert (X : gx (sin (PI / 4)) (cos (PI / 4)) (0 / (PI / 2)) (sin (PI / 2)) (cos (PI / 2)) = 0) by (unfold gx; rewrite cos_PI2; unfold Rdiv; ring).
  assert (Z : gz (sin (PI / 4)) (cos (PI / 4)) (0 / (PI / 2)) (sin (PI / 2)) (cos (PI / 2)) = 0) by (unfold gz; rewrite cos_PI2; unfold Rdiv; ring).
  assert (A : ahead 0 (moved (PI / 4) 0 0 (PI / 2))) by (unfold ahead; rewrite ahead_eq, D, X by exact NZ; lra).
  assert (N1 : snd (moved (PI / 4) 0 0 (PI / 2)) ^ 2 <> 1) by (rewrite (snd_moved (PI / 4) 0 0 (PI / 2)), D, Z; lra).
  destruct (C116_position_partial 1 [(IP (PI / 4) 0 None, (0, PI / 2))] false (Some true) 0 (PI / 4) 0 None 0 (PI / 2) ltac:(lia) eq_refl NZ A N1) as (o & ra' & E1 & E2 & E3 & E4).
  destruct (C116_polarization_partial 1 [(IP (PI / 4) 0 None, (0, PI / 2))] false 0 (PI / 4) 0 0 (PI / 2) ltac:(lia) eq_refl NZ A N1) as (o' & ra'' & E1' & E2' & E5).
  assert (OO : o' = o) by congruence. subst o'. assert (RR : ra'' = ra') by congruence. subst ra''.
  assert (OE : o = geodesic_one true (IP (PI / 4) 0 None) (0, PI / 2)).
  { pose proof (obg_at 1 [(IP (PI / 4) 0 None, (0, PI / 2))] false (Some true) 0 (IP (PI / 4) 0 None) (0, PI / 2) ltac:(lia) eq_refl) as Q. rewrite Q in E1. injection E1 as <-. reflexivity. }
  assert (R0 : gr (sin (PI / 4)) (cos (PI / 4)) (0 / sqrt (0 ^ 2 + (PI / 2) ^ 2)) (sin (sqrt (0 ^ 2 + (PI / 2) ^ 2))) (cos (sqrt (0 ^ 2 + (PI / 2) ^ 2))) = 1).
  { rewrite D. unfold gr. rewrite Z. replace (1 - 0 ^ 2) with 1 by ring. apply sqrt_1. }
  destruct (geo_pos (PI / 4) 0 0 (PI / 2) NZ true None ltac:(rewrite R0; lra)) as [F1 F2]. rewrite <- OE in F1, F2.
  assert (RA : ra' = turn_ra (PI / 4) 0 0 (PI / 2)) by congruence.
  destruct (arr_comps (PI / 4) 0 0 (PI / 2) NZ ltac:(rewrite R0; lra) ltac:(rewrite D, X; lra)) as [P Q]. rewrite <- F1, <- RA in P. rewrite <- RA in Q. rewrite R0, D in P, Q.
  set (n' := dot (arriving _ _ _ _) (north_at _ _)) in *. set (e' := dot (arriving _ _ _ _) (east_at _)) in *.
  rewrite cos_PI2, sin_PI2, sin_PI4, !Rmult_1_l in P. rewrite cos_PI4, Rmult_1_l in Q.
  assert (N0 : n' <> 0) by (unfold Rdiv in P; lra).
  destruct (E5 N0) as (t & E6 & E7 & E8).
  exists (PI / 4), 0, 0, (PI / 2), o, ra', t. split; [exact NZ|]. split; [exact A|]. split; [exact N1|]. split; [|split; [exact E2|split; [exact E6|split; [exact E3|]]]].
  - unfold offset_by_grad. cbn [length chunks firstn skipn map app]. rewrite OE. reflexivity.
  - fold n' e'. rewrite E8. intros H.
    destruct (geo_rot (PI / 4) 0 0 (PI / 2) NZ None ltac:(rewrite R0; lra) ltac:(rewrite D, X; lra)) as (t' & E9 & CT & ST); [rewrite <- F1, <- RA; exact N0|].
    rewrite <- OE, E6 in E9. injection E9 as <-. rewrite <- F1, <- RA in CT. fold n' e' in CT. rewrite D in H, CT.
    replace (0 / (PI / 2)) with 0 in H, CT by (field; lra). replace (PI / 2 / (PI / 2)) with 1 in H, CT by (field; lra).
    assert (CZ : cos t = 0). { rewrite CT. replace n' with (- (1 / sqrt 2)) by lra. rewrite Q. assert (S2 : 0 < sqrt 2) by (apply sqrt_lt_R0; lra). field. lra. }
    unfold rotate_pol, along in H. destruct (Req_EM_T 1 0); [lra|]. cbn [fst snd] in H. rewrite Rmult_1_l, CZ in H. injection H as H1 H2. lra.
Qed.

(* Bringing positions that are past a pole back gives the same points. *)
Theorem C116_pole_wrap : forall dec ra, let w := pole_wrap (dec, ra) in
  point (fst w) (snd w) = point dec ra /\ (- (3 * PI / 2) <= dec <= 5 * PI / 2 -> - (PI / 2) <= fst w <= PI / 2) /\ (- (PI / 2) <= dec <= PI / 2 -> w = (dec, ra)).
Proof.
  intros dec ra. pose proof PI_RGT_0 as PP. unfold pole_wrap. cbn [fst snd].
  assert (F : forall x y, point (PI - x) (y + PI) = point x y).
  { intros x y. unfold point, dir. cbn [fst snd]. rewrite (neg_cos y), (neg_sin y), sin_PI_x. assert (E : cos (PI - x) = - cos x) by (rewrite cos_minus, cos_PI, sin_PI; ring). rewrite E. apply vec_eq; ring. }
  assert (G : forall x y, point (- PI - x) (y + PI) = point x y).
  { intros x y. rewrite <- (F x y). unfold point, dir. cbn [fst snd]. replace (- PI - x) with (PI - x - 2 * PI) by ring. rewrite (cos_minus (PI - x)), (sin_minus (PI - x)), cos_2PI, sin_2PI. apply vec_eq; ring. }
  destruct (Rlt_dec (PI / 2) dec) as [H|H]; cbn [fst snd].
  - destruct (Rlt_dec (PI - dec) (- PI / 2)) as [K|K]; cbn [fst snd].
    + rewrite G, F. split; [reflexivity|]. split; [lra|lra].
    + rewrite F. split; [reflexivity|]. split; lra.
  - destruct (Rlt_dec dec (- PI / 2)) as [K|K]; cbn [fst snd].
    + rewrite G. split; [reflexivity|]. split; lra.
    + split; [reflexivity|]. split; [lra|]. intros _. reflexivity.
Qed.
Theorem C116_utils_pole_wrap : forall dec ra, let w := utils_pole_wrap (dec, ra) in
  point (fst w) (snd w) = point dec ra /\ - (PI / 2) <= fst w <= PI / 2 /\ (- (PI / 2) <= dec < PI / 2 -> w = (dec, ra)).
Proof.
  intros dec ra. pose proof PI_RGT_0 as PP. unfold utils_pole_wrap. cbn [fst snd]. set (h := Int_part ((dec + PI / 2) / PI)).
  pose proof (base_Int_part ((dec + PI / 2) / PI)) as [B1 B2]. fold h in B1, B2.
  assert (L : - (PI / 2) <= dec - PI * IZR h < PI / 2).
  { assert (E : (dec + PI / 2) / PI * PI = dec + PI / 2) by (field; lra). split; [apply (Rmult_le_compat_r PI) in B1; lra|].
    assert (B3 : (dec + PI / 2) / PI < IZR h + 1) by lra. apply (Rmult_lt_compat_r PI) in B3; [|lra]. rewrite E in B3. lra. }
  assert (EV : h = (2 * (h / 2) + h mod 2)%Z) by (apply Z.div_mod; lia).
  assert (H01 : (h mod 2 = 0 \/ h mod 2 = 1)%Z) by (pose proof (Z.mod_pos_bound h 2); lia).
  assert (PER : forall z x, cos (x + 2 * IZR z * PI) = cos x /\ sin (x + 2 * IZR z * PI) = sin x).
  { intros z x. destruct (Z_le_gt_dec 0 z).
    - rewrite <- (Z2Nat.id z) by lia. rewrite <- INR_IZR_INZ. split; [apply cos_period|apply sin_period].
    - pose proof (cos_period (x + 2 * IZR z * PI) (Z.to_nat (- z))) as C. pose proof (sin_period (x + 2 * IZR z * PI) (Z.to_nat (- z))) as Sn. rewrite INR_IZR_INZ, Z2Nat.id, opp_IZR in C, Sn by lia.
      replace (x + 2 * IZR z * PI + 2 * - IZR z * PI) with x in C, Sn by ring. split; symmetry; assumption. }
  destruct H01 as [H0|H1].
  - rewrite H0. cbn [Z.eqb fst snd]. split; [|split; [lra|]].
    + unfold point, dir. cbn [fst snd]. destruct (PER (h / 2)%Z (dec - PI * IZR h)) as [C S]. rewrite <- C, <- S.
      replace (dec - PI * IZR h + 2 * IZR (h / 2) * PI) with dec; [reflexivity|]. rewrite EV at 1. rewrite H0, Z.add_0_r, mult_IZR. ring.
    + intros D. assert (h = 0)%Z.
      { assert (IZR h < 1 /\ -1 < IZR h) as [U V] by (split; nra). apply lt_IZR in U. apply lt_IZR in V. lia. }
      rewrite H. f_equal. ring.
  - rewrite H1. cbn [Z.eqb fst snd]. split; [|split; [lra|]].
    + unfold point, dir. cbn [fst snd]. destruct (PER (h / 2)%Z (dec - PI * IZR h + PI)) as [C S].
      replace (dec - PI * IZR h + PI + 2 * IZR (h / 2) * PI) with dec in C, S by (rewrite EV at 1; rewrite H1, plus_IZR, mult_IZR; ring).
      rewrite C, S, !neg_cos, !neg_sin, cos_neg, sin_neg. apply vec_eq; ring.
    + intros D. exfalso. assert (IZR h < 1 /\ -1 < IZR h) as [U V] by (split; nra). apply lt_IZR in U. apply lt_IZR in V. assert (h = 0)%Z by lia. subst h. rewrite H in H1. discriminate H1.
Qed.
(* Without geodesics the coordinates are added, and brought back if past a pole. *)
Theorem C116_flat : forall three dec ra rot a b, - (PI / 2) < dec < PI / 2 -> - PI <= a <= PI ->
  exists o ra', flat_one three (IP dec ra rot) (a, b) = Some o /\ o_ra o = Some ra' /\ point (o_dec o) ra' = point (dec + a) (ra + b / cos dec) /\ - (PI / 2) <= o_dec o <= PI / 2 /\
    o_rot o = if three then Some (Some 0) else None.
Proof.
  intros three dec ra rot a b D A. assert (C0 : 0 < cos dec) by (apply cos_gt_0; lra). pose proof PI_RGT_0.
  unfold flat_one. cbn [i_dec i_ra fst snd]. rewrite dv_some by lra. cbn [bind].
  destruct (C116_pole_wrap (dec + a) (ra + b / cos dec)) as (E & R & _). do 2 eexists. split; [reflexivity|]. cbn [o_ra o_dec]. split; [reflexivity|]. split; [exact E|]. split; [apply R; lra|reflexivity].
Qed.
Example C116_ex : sqrt ((3 / 100) ^ 2 + (4 / 100) ^ 2) < PI / 2 - Rabs 1 /\ snd (moved 1 2 (3 / 100) (4 / 100)) ^ 2 <> 1.
Proof.
  assert (H : sqrt ((3 / 100) ^ 2 + (4 / 100) ^ 2) < PI / 2 - Rabs 1).
  { replace ((3 / 100) ^ 2 + (4 / 100) ^ 2) with ((5 / 100) ^ 2) by lra. rewrite sqrt_pow2 by lra. rewrite Rabs_R1. pose proof PI2_3_2. lra. }
  split; [exact H|]. apply near_ok; [left; lra|exact H].
Qed.
Print Assumptions C116_position.
Print Assumptions C116_polarization_refuted.
Print Assumptions C116_utils_pole_wrap.
