(* C89: pixel coordinates and positions on the sky determine each other. *)
From Coq Require Import Qabs Qround.
From Coq Require Import Lqa.
From Verif Require Import Base SliceSpec SliceModel WindSpec WindModel WindLemmas ArrModel PixModel GeoModel PosSpec PosModel PosLemmas.
Ltac Zify.zify_post_hook ::= idtac.
Open Scope Q_scope.

(* The pixel coordinates of the position of a point are the point's, whatever whole turns the coordinate library adds on the way there and
   back, for points less than half a turn from the middle of the map. With a plain wcs, for all points. *)
Theorem C89_pix_sky_pix (plain safe corner : bool) (turn turn' : Q -> Q -> Z) (shape : Z * Z) (w : wcs) (pix : list (Q * Q)) :
  ~ cdelt_x w == 0 -> ~ cdelt_y w == 0 ->
  (plain = false -> Forall (fun p : Q * Q => near_ref (cdelt_y w) (ref_pix (fst shape) corner) (fst p) /\ near_ref (cdelt_x w) (ref_pix (snd shape) corner) (snd p)) pix) ->
  Forall2 same_pair (sky2pix plain 1 corner turn' shape w (pix2sky plain safe corner turn w pix)) pix.
Proof.
  intros Hx Hy H. apply Forall2_nth; [rewrite s2p_len, p2s_len by assumption; reflexivity|]. intros i q [y x] Eq Ep.
  destruct (p2s_nth plain safe corner turn w pix i y x Ep) as (d & r & E & Ed & Er).
  destruct (s2p_at plain corner turn' shape w _ i (d, r) y x Hx Hy E) as (q' & E' & S).
  - cbn [fst snd]. destruct plain; [split; [rewrite Ed; reflexivity|exact Er]|]. split; [split; cbn [fst snd]; [rewrite Ed; reflexivity|apply same_angle_sym, Er]|]. specialize (H eq_refl). rewrite Forall_forall in H. apply (H (y, x)). apply (nth_error_In _ _ Ep).
  - rewrite E' in Eq. injection Eq as <-. exact S.
Qed.

(* every pixel of the map, and every point between the centre of the first and half a pixel beyond the centre of the last, is such a point if the map is at most a turn across *)
Theorem C89_map_near (n : Z) (cdelt p : Q) (corner : bool) : ~ cdelt == 0 -> inject_Z n * Qabs cdelt <= 360 ->
  0 <= p -> p < inject_Z n -> near_ref cdelt (ref_pix n corner) (p + corner_off corner).
Proof.
  intros H L P1 P2. assert (T : inject_Z n <= turn_len cdelt).
  { unfold turn_len. assert (A : 0 < Qabs cdelt) by (apply Qabs_case; intros K; apply Qle_lteq in K; destruct K as [K|K]; try lra; exfalso; apply H; rewrite K; reflexivity).
    apply (Qmult_le_r _ _ _ A). rewrite <- Qabs_Qmult. setoid_replace (360 / cdelt * cdelt) with 360 by (field; exact H). exact L. }
  unfold near_ref, ref_pix, within. assert (E : inject_Z n / 2 == inject_Z n * (1 # 2)) by reflexivity. assert (E' : turn_len cdelt / 2 == turn_len cdelt * (1 # 2)) by reflexivity. rewrite E, E'. split; lra.
Qed.

(* The position of the pixel coordinates of a position is that position up to whole turns, in all three modes; exactly the same with a plain wcs. *)
Theorem C89_sky_pix_sky (plain safe corner : bool) (mode : Z) (turn turn' : Q -> Q -> Z) (shape : Z * Z) (w : wcs) (pos : list (Q * Q)) :
  ~ cdelt_x w == 0 -> ~ cdelt_y w == 0 ->
  Forall2 (if plain then same_pair else same_pos) (pix2sky plain safe corner turn w (sky2pix plain mode corner turn' shape w pos)) pos.
Proof.
  intros Hx Hy. apply Forall2_nth; [rewrite p2s_len, s2p_len by assumption; reflexivity|]. intros i q [d r] Eq Ep.
  destruct (nth_some (sky2pix plain mode corner turn' shape w pos) i) as [[y x] E]; [rewrite s2p_len by assumption; apply (nth_len _ _ _ Ep)|].
  destruct (p2s_nth plain safe corner turn w _ i y x E) as (d' & r' & E' & Ed & Er). rewrite E' in Eq. injection Eq as <-.
  pose proof (s2p_any plain mode corner turn' shape w pos i d r y x Hx Hy Ep E) as [A B]. destruct plain.
  - split; cbn [fst snd].
    + rewrite Ed. unfold sky_y, sky_at. rewrite A. unfold s2p. field. exact Hy.
    + rewrite Er. unfold sky_x, sky_at. rewrite B. unfold s2p. field. exact Hx.
  - split; cbn [fst snd].
    + rewrite Ed. apply (same_angle_trans 360 _ (sky_y w (s2p (crval_y w) (crpix_y w) (cdelt_y w) d + half corner - half corner))).
      * apply sky_angle; [exact Hy|]. unfold Qminus. apply same_angle_plus, same_angle_sym, A.
      * apply same_angle_eq. unfold sky_y, sky_at, s2p. field. exact Hy.
    + apply (same_angle_trans 360 _ (sky_x w (x - half corner))); [apply same_angle_sym, Er|]. apply (same_angle_trans 360 _ (sky_x w (s2p (crval_x w) (crpix_x w) (cdelt_x w) r + half corner - half corner))).
      * apply sky_angle; [exact Hx|]. unfold Qminus. apply same_angle_plus, same_angle_sym, B.
      * apply same_angle_eq. unfold sky_x, sky_at, s2p. field. exact Hx.
Qed.

(* and in the default mode the pixel coordinates are always less than half a turn from the middle of the map, *)
Theorem C89_window (corner : bool) (turn' : Q -> Q -> Z) (shape : Z * Z) (w : wcs) (pos : list (Q * Q)) : ~ cdelt_x w == 0 -> ~ cdelt_y w == 0 ->
  Forall (fun p : Q * Q => near_ref (cdelt_y w) (ref_pix (fst shape) corner) (fst p) /\ near_ref (cdelt_x w) (ref_pix (snd shape) corner) (snd p)) (sky2pix false 1 corner turn' shape w pos).
Proof.
  intros Hx Hy. apply Forall_forall. intros [y x] I. unfold sky2pix in I. cbv zeta in I. rewrite !axis_safe in I. cbn [fst snd]. split.
  - apply in_combine_l in I. apply in_map_iff in I. destruct I as (v & <- & _). apply (rewind_spec _ _ _ (tl_pos _ Hy)).
  - apply in_combine_r in I. apply in_map_iff in I. destruct I as (v & <- & _). apply (rewind_spec _ _ _ (tl_pos _ Hx)).
Qed.

(* so they depend on the direction only: not on the number of turns in the right ascension or those the library adds. *)
Theorem C89_direction (corner : bool) (turn1 turn2 : Q -> Q -> Z) (shape : Z * Z) (w : wcs) (pos1 pos2 : list (Q * Q)) : ~ cdelt_x w == 0 -> ~ cdelt_y w == 0 ->
  Forall2 same_pos pos1 pos2 -> Forall2 same_pair (sky2pix false 1 corner turn1 shape w pos1) (sky2pix false 1 corner turn2 shape w pos2).
Proof.
  intros Hx Hy H. assert (L : length pos1 = length pos2) by (clear - H; induction H; cbn; congruence). apply Forall2_nth; [rewrite !s2p_len by assumption; exact L|].
  intros i [y1 x1] [y2 x2] E1 E2. pose proof (nth_len _ _ _ E1) as L1. rewrite s2p_len in L1 by assumption. destruct (nth_some pos1 i L1) as [[d1 r1] P1]. rewrite L in L1. destruct (nth_some pos2 i L1) as [[d2 r2] P2].
  assert (SP : same_pos (d1, r1) (d2, r2)). { clear - H P1 P2. revert i P1 P2. induction H as [|a b l m R H IH]; intros [|i] P1 P2; try discriminate. - injection P1 as ->. injection P2 as ->. exact R. - exact (IH i P1 P2). }
  destruct SP as [SD SR]. cbn [fst snd] in SD, SR.
  pose proof (s2p_any false 1 corner turn1 shape w pos1 i d1 r1 y1 x1 Hx Hy P1 E1) as [A1 B1]. pose proof (s2p_any false 1 corner turn2 shape w pos2 i d2 r2 y2 x2 Hx Hy P2 E2) as [A2 B2]. cbn iota in *.
  pose proof (C89_window corner turn1 shape w pos1 Hx Hy) as W1. pose proof (C89_window corner turn2 shape w pos2 Hx Hy) as W2. rewrite Forall_forall in W1, W2.
  specialize (W1 _ (nth_error_In _ _ E1)). specialize (W2 _ (nth_error_In _ _ E2)). cbn [fst snd] in W1, W2. destruct W1 as [WY1 WX1], W2 as [WY2 WX2]. split; cbn [fst snd].
  - apply (near_unique (cdelt_y w) (ref_pix (fst shape) corner)); auto. apply (same_angle_trans _ _ (s2p (crval_y w) (crpix_y w) (cdelt_y w) d1 + half corner)); [apply same_angle_sym, A1|]. apply (same_angle_trans _ _ (s2p (crval_y w) (crpix_y w) (cdelt_y w) d2 + half corner)); [|exact A2]. apply same_angle_plus, s2p_angle; assumption.
  - apply (near_unique (cdelt_x w) (ref_pix (snd shape) corner)); auto. apply (same_angle_trans _ _ (s2p (crval_x w) (crpix_x w) (cdelt_x w) r1 + half corner)); [apply same_angle_sym, B1|]. apply (same_angle_trans _ _ (s2p (crval_x w) (crpix_x w) (cdelt_x w) r2 + half corner)); [|exact B2]. apply same_angle_plus, s2p_angle; assumption.
Qed.

(* posmap, with or without the shortcut for separable geometries and for every block size: the position of every pixel, its right ascension
   continuous across the map, between -180 and 180 in the middle column. k is the number of turns that takes it there. *)
Theorem C89_posmap (separable plain corner : bool) (bsize : Z) (turn : Q -> Q -> Z) (ny nx k : Z) (w : wcs) : (0 < ny)%Z -> (0 < nx)%Z -> (0 < bsize)%Z ->
  plain = true /\ k = 0%Z \/ plain = false /\ Qabs (cdelt_x w) < 180 /\ within (-180) 180 (sky_x w (inject_Z (nx / 2) - corner_off corner) + 360 * inject_Z k) ->
  exists rows, posmap separable plain true corner bsize turn (ny, nx) w = Some rows /\ length rows = Z.to_nat ny /\
  Forall (fun row : list (Q * Q) => length row = Z.to_nat nx) rows /\
  forall y x, (0 <= y < ny)%Z -> (0 <= x < nx)%Z -> exists row d r, nth_error rows (Z.to_nat y) = Some row /\ nth_error row (Z.to_nat x) = Some (d, r) /\
    d == sky_y w (inject_Z y - corner_off corner) /\ r == sky_x w (inject_Z x - corner_off corner) + 360 * inject_Z k.
Proof.
  intros Hy Hx Hb H. unfold posmap. cbn [fst snd]. destruct separable.
  - unfold posaxes. cbn [fst snd]. set (dec := map fst _). set (ra := map snd _). eexists. split; [reflexivity|].
    destruct (row_sky plain corner turn w 0 nx k H) as [LR R]. cbv zeta in LR, R.
    assert (Ld : length dec = Z.to_nat ny) by (unfold dec; rewrite map_length, p2s_len, map_length, len_zrange; f_equal; lia).
    assert (Lr : length ra = Z.to_nat nx) by (unfold ra; rewrite map_length; exact LR).
    split; [rewrite map_length; exact Ld|]. split; [apply Forall_forall; intros row I; apply in_map_iff in I; destruct I as (d & <- & _); rewrite map_length; exact Lr|].
    intros y x Y X. destruct (R x X) as (d0 & r & E & _ & Er).
    assert (P : nth_error (map (fun y => (inject_Z y, 0)) (zrange 0 ny)) (Z.to_nat y) = Some (inject_Z y, 0)) by (rewrite nth_map, nth_zrange by lia; cbn [option_map]; do 3 f_equal; lia).
    destruct (p2s_nth plain true corner turn w _ _ _ _ P) as (d & r' & E' & Ed & _).
    exists (map (fun r => (d, r)) ra), d, r. split; [rewrite nth_map; unfold dec; rewrite nth_map, E'; reflexivity|]. split; [rewrite nth_map; unfold ra; rewrite nth_map, E; reflexivity|]. split; [rewrite Ed; reflexivity|exact Er].
  - assert (Rs : (0 < (bsize + nx - 1) / nx)%Z) by (apply Z.div_str_pos; lia). destruct (Z.leb_spec ((bsize + nx - 1) / nx) 0); [lia|]. eexists. split; [reflexivity|]. cbv zeta. rewrite blocks_zrange by lia.
    split; [rewrite map_length, len_zrange; f_equal; lia|]. split; [apply Forall_forall; intros row I; apply in_map_iff in I; destruct I as (y & <- & _); apply (row_sky plain corner turn w (inject_Z y) nx k H)|].
    intros y x Y X. destruct (row_sky plain corner turn w (inject_Z y) nx k H) as [_ R]. destruct (R x X) as (d & r & E & Ed & Er). eexists. exists d, r. split; [rewrite nth_map, nth_zrange by lia; cbn [option_map]; rewrite Z.add_0_l, Z2Nat.id by lia; reflexivity|]. split; [exact E|]. split; [rewrite Ed; reflexivity|exact Er].
Qed.

(* There is always exactly one such k. *)
Theorem C89_turns (s : Q) : exists k, within (-180) 180 (s + 360 * inject_Z k) /\ forall k', within (-180) 180 (s + 360 * inject_Z k') -> k' = k.
Proof.
  destruct (rewind_spec 0 360 s ltac:(reflexivity)) as [[k E] [W1 W2]]. exists k. assert (T : 360 / 2 == 180) by reflexivity. rewrite T, E in W1. rewrite T, E in W2. split; [split; generalize dependent (inject_Z k); intros; lra|].
  intros k' [V1 V2]. assert (k' - k = 0)%Z; [|lia]. apply (turns_lt 360); [reflexivity|]. unfold Z.sub. rewrite inject_Z_plus, inject_Z_opp. clear E. generalize dependent (inject_Z k'). generalize dependent (inject_Z k). intros. apply Qabs_Qlt_condition. split; lra.
Qed.

(* A full-sky map of one-degree pixels: 360 columns, right ascension falling from 180; and a map across the date line. *)
Definition ex_w : wcs := Wcs 0 180 (-1) 0 91 1.
Example C89_ex : near_ref (cdelt_y ex_w) (ref_pix 181 false) 17 /\ near_ref (cdelt_x ex_w) (ref_pix 360 false) 359 /\
  map (fun p : Q * Q => (Qred (fst p), Qred (snd p))) (sky2pix false 1 false (fun _ _ => -2)%Z (181, 360)%Z ex_w (pix2sky false true false (fun _ _ => 5)%Z ex_w [(17, 359); (3, 0)])) = [(17, 359); (3, 0)].
Proof. split; [|split; [|vm_compute; reflexivity]]; split; vm_compute; congruence. Qed.
Example C89_ex_pos : exists k, Qabs (cdelt_x ex_w) < 180 /\ within (-180) 180 (sky_x ex_w (inject_Z (360 / 2) - corner_off true) + 360 * inject_Z k) /\
  option_map (map (map (fun p : Q * Q => (Qred (fst p), Qred (snd p))))) (posmap false false true false 4 (fun y x => Qfloor x)%Z (2, 3)%Z ex_w) = Some [[(-90, 179); (-90, 178); (-90, 177)]; [(-89, 179); (-89, 178); (-89, 177)]].
Proof. exists 0%Z. split; [reflexivity|]. split; [split; vm_compute; congruence|vm_compute; reflexivity]. Qed.

Print Assumptions C89_pix_sky_pix.
Print Assumptions C89_map_near.
Print Assumptions C89_sky_pix_sky.
Print Assumptions C89_window.
Print Assumptions C89_direction.
Print Assumptions C89_posmap.
Print Assumptions C89_turns.
