(* C91-C94: boxes, Fourier pixels, and the shortcuts of project. *)
From Coq Require Import Qabs Qround.
From Coq Require Import Lqa.
From Verif Require Import Base SliceSpec SliceModel WindSpec WindModel WindLemmas ArrModel PixSpec PixModel GeoModel PosSpec PosModel PosLemmas PixProps PosProps.
Ltac Zify.zify_post_hook ::= idtac.
Open Scope Q_scope.

(* skybox2pixbox: for boxes up to four and a half turns across, the two corners of the pixel box are as far apart as those of the sky box,
   with the same sign, and the first corner is the one less than half a turn from the middle of the map. *)
Theorem C91_skybox (corner : bool) (turn' : Q -> Q -> Z) (shape : Z * Z) (w : wcs) (y0 x0 y1 x1 : Q) : ~ cdelt_x w == 0 -> ~ cdelt_y w == 0 ->
  Qabs (y1 - y0) < 1620 -> Qabs (x1 - x0) < 1620 ->
  exists py0 px0 py1 px1, skybox2pixbox false corner turn' shape w ((y0, x0), (y1, x1)) = Some ((py0, px0), (py1, px1)) /\
  near_ref (cdelt_y w) (ref_pix (fst shape) corner) py0 /\ near_ref (cdelt_x w) (ref_pix (snd shape) corner) px0 /\
  same_pos (y0, x0) (sky_y w (py0 - corner_off corner), sky_x w (px0 - corner_off corner)) /\
  (py1 - py0) * cdelt_y w == y1 - y0 /\ (px1 - px0) * cdelt_x w == x1 - x0.
Proof.
  intros Hx Hy Ly Lx. unfold skybox2pixbox, sky2pix. cbv zeta. set (cs := map _ (seq 0 10)). rewrite !nth_combine.
  assert (NC : forall i c, nth_error cs i = Some c -> c = (linspace y0 y1 i, linspace x0 x1 i)).
  { intros i c E. pose proof (nth_len _ _ _ E) as L. unfold cs in L. rewrite map_length, seq_length in L. unfold cs in E. rewrite nth_map in E. rewrite nth_error_nth' with (d := O) in E by (rewrite seq_length; exact L). rewrite seq_nth in E by exact L. cbn [option_map Nat.add] in E. injection E as <-. reflexivity. }
  destruct (axis_box corner (fst shape) (crval_y w) (crpix_y w) (cdelt_y w) y0 y1 (map (fun c : Q * Q => s2p (crval_y w) (crpix_y w) (cdelt_y w) (fst c)) cs) Hy Ly) as (py0 & py1 & EY0 & EY1 & NY & SY & DY); [reflexivity| |].
  { intros i v E. rewrite nth_map in E. destruct (nth_error cs i) as [c|] eqn:Ec; [|discriminate E]. injection E as <-. rewrite (NC i c Ec). apply same_angle_eq. reflexivity. }
  destruct (axis_box corner (snd shape) (crval_x w) (crpix_x w) (cdelt_x w) x0 x1 (map (fun c : Q * Q => s2p (crval_x w) (crpix_x w) (cdelt_x w) (snd c) + 360 / cdelt_x w * inject_Z (turn' (fst c) (snd c))) cs) Hx Lx) as (px0 & px1 & EX0 & EX1 & NX & SX & DX); [reflexivity| |].
  { intros i v E. rewrite nth_map in E. destruct (nth_error cs i) as [c|] eqn:Ec; [|discriminate E]. injection E as <-. rewrite (NC i c Ec). cbn [fst snd]. destruct (tl_turn (cdelt_x w) (turn' (linspace y0 y1 i) (linspace x0 x1 i))) as [k Ek]. exists k. rewrite <- Ek. reflexivity. }
  rewrite EY0, EY1, EX0, EX1. exists py0, px0, py1, px1. split; [reflexivity|]. split; [exact NY|]. split; [exact NX|]. split.
  - split; cbn [fst snd].
    + apply (same_angle_trans 360 _ (sky_y w (s2p (crval_y w) (crpix_y w) (cdelt_y w) y0 + half corner - half corner))); [apply same_angle_eq; unfold sky_y, sky_at, s2p; field; exact Hy|]. apply sky_angle; [exact Hy|]. unfold Qminus. apply same_angle_plus. exact SY.
    + apply (same_angle_trans 360 _ (sky_x w (s2p (crval_x w) (crpix_x w) (cdelt_x w) x0 + half corner - half corner))); [apply same_angle_eq; unfold sky_x, sky_at, s2p; field; exact Hx|]. apply sky_angle; [exact Hx|]. unfold Qminus. apply same_angle_plus. exact SX.
  - rewrite DY, DX. split; field; assumption.
Qed.
Theorem C91_skybox_plain (corner : bool) (turn' : Q -> Q -> Z) (shape : Z * Z) (w : wcs) (y0 x0 y1 x1 : Q) : ~ cdelt_x w == 0 -> ~ cdelt_y w == 0 ->
  exists py0 px0 py1 px1, skybox2pixbox true corner turn' shape w ((y0, x0), (y1, x1)) = Some ((py0, px0), (py1, px1)) /\
  same_pair (y0, x0) (sky_y w (py0 - corner_off corner), sky_x w (px0 - corner_off corner)) /\ same_pair (y1, x1) (sky_y w (py1 - corner_off corner), sky_x w (px1 - corner_off corner)).
Proof.
  intros Hx Hy. unfold skybox2pixbox, sky2pix. cbv zeta. rewrite !axis_plain. cbn [seq map combine nth_error fst snd]. do 4 eexists. split; [reflexivity|]. change (corner_off corner) with (half corner).
  split; split; cbn [fst snd]; unfold sky_y, sky_x, sky_at, s2p, linspace; change (inject_Z (Z.of_nat 0)) with 0; change (inject_Z (Z.of_nat 9)) with 9; field; assumption.
Qed.
Example C91_ex : Qabs (-170 - 170) < 1620 /\
  option_map (fun b : (Q * Q) * (Q * Q) => ((Qred (fst (fst b)), Qred (snd (fst b))), (Qred (fst (snd b)), Qred (snd (snd b))))) (skybox2pixbox false false (fun y x => Qfloor x) (181, 360)%Z ex_w ((-10, 170), (10, -170))) = Some ((80, 9), (100, 349)).
Proof. split; vm_compute; reflexivity. Qed.

(* pixbox2skybox: the corners of the sky box are as far apart as those of the pixel box, the second between -180 and 180, for boxes less
   than half a turn across. Missing from the full claim: wider boxes, see C92_wide_refuted. *)
Theorem C92_pixbox_partial (turn : Q -> Q -> Z) (w : wcs) (y0 x0 y1 x1 : Q) : Qabs ((x1 - x0) * cdelt_x w) < 180 ->
  exists d0 r0 d1 r1, pixbox2skybox false turn w ((y0, x0), (y1, x1)) = Some ((d0, r0), (d1, r1)) /\ d0 == sky_y w y0 /\ d1 == sky_y w y1 /\
  same_angle 360 (sky_x w x0) r0 /\ same_angle 360 (sky_x w x1) r1 /\ r1 - r0 == (x1 - x0) * cdelt_x w /\ within (-180) 180 r1.
Proof.
  intros L. unfold pixbox2skybox. cbn [fst snd].
  destruct (p2s_nth false true false turn w [(y0, x0); (y1, x1)] 0 y0 x0 eq_refl) as (d0 & r0 & E0 & D0 & S0). destruct (p2s_nth false true false turn w [(y0, x0); (y1, x1)] 1 y1 x1 eq_refl) as (d1 & r1 & E1 & D1 & S1).
  pose proof (p2s_len false true false turn w [(y0, x0); (y1, x1)]) as LEN. change (half false) with 0 in *.
  assert (U : exists ra0, length ra0 = 2%nat /\ map snd (pix2sky false true false turn w [(y0, x0); (y1, x1)]) = unwind RMiddle 0 360 ra0).
  { unfold pix2sky. cbv zeta. cbn [andb negb]. eexists. split; [|apply map_snd_combine]. 2:{
      match goal with |- _ = length (unwind _ _ _ ?l) => destruct (unwind_spec RMiddle 0 360 l ltac:(reflexivity)) as (L' & _); cbv zeta in L'; rewrite L' end. rewrite !map_length. reflexivity. }
    rewrite !map_length. reflexivity. }
  destruct U as (ra0 & LR & U). destruct (pix2sky false true false turn w [(y0, x0); (y1, x1)]) as [|a [|b [|]]]; try discriminate LEN. cbn in E0, E1. injection E0 as ->. injection E1 as ->.
  destruct (unwind_spec RMiddle 0 360 ra0 ltac:(reflexivity)) as (_ & _ & NJ & MID). cbv zeta in *. rewrite <- U in NJ, MID. cbn [map snd] in NJ, MID.
  exists d0, r0, d1, r1. split; [reflexivity|].
  assert (Z0 : forall v, sky_x w (v - 0) == sky_x w v) by (intros v; unfold sky_x, sky_at; ring).
  split; [rewrite D0; unfold sky_y, sky_at; ring|]. split; [rewrite D1; unfold sky_y, sky_at; ring|].
  assert (S0' : same_angle 360 (sky_x w x0) r0) by (apply (same_angle_trans 360 _ (sky_x w (x0 - 0))); [apply same_angle_eq; symmetry; apply Z0|exact S0]).
  assert (S1' : same_angle 360 (sky_x w x1) r1) by (apply (same_angle_trans 360 _ (sky_x w (x1 - 0))); [apply same_angle_eq; symmetry; apply Z0|exact S1]).
  split; [exact S0'|]. split; [exact S1'|]. split.
  - destruct (no_jump_const 360 [r0; r1] (fun i => sky_x w (match i with O => x0 | _ => x1 end)) ltac:(reflexivity) NJ) as [k K].
    + intros [|[|[|i]]] y E; try discriminate E; injection E as <-; assumption.
    + intros [|i] Hi; [|cbn in Hi; lia]. unfold sky_x, sky_at. setoid_replace (360 / 2) with 180 by reflexivity. setoid_replace (crval_x w + cdelt_x w * (x1 + 1 - crpix_x w) - (crval_x w + cdelt_x w * (x0 + 1 - crpix_x w))) with ((x1 - x0) * cdelt_x w) by ring. exact L.
    + rewrite (K 0%nat r0 eq_refl), (K 1%nat r1 eq_refl). unfold sky_x, sky_at. ring.
  - destruct (MID 1%nat r1) as [M1 M2]; [rewrite LR; reflexivity|reflexivity|]. split; [setoid_replace (-180) with (0 - 360 / 2) by reflexivity; exact M1|setoid_replace 180 with (0 + 360 / 2) by reflexivity; exact M2].
Qed.
Theorem C92_plain (turn : Q -> Q -> Z) (w : wcs) (y0 x0 y1 x1 : Q) :
  exists d0 r0 d1 r1, pixbox2skybox true turn w ((y0, x0), (y1, x1)) = Some ((d0, r0), (d1, r1)) /\ d0 == sky_y w y0 /\ d1 == sky_y w y1 /\ r0 == sky_x w x0 /\ r1 == sky_x w x1.
Proof. do 4 eexists. split; [reflexivity|]. cbn [fst snd]. change (half false) with 0. repeat split; unfold sky_y, sky_x, sky_at; ring. Qed.
(* a box wider than half a turn comes out the other way around: from 10 degrees to -150 for one of 200 degrees *)
Theorem C92_wide_refuted : exists w y0 x0 y1 x1, (x1 - x0) * cdelt_x w == 200 /\ forall turn d0 r0 d1 r1, pixbox2skybox false turn w ((y0, x0), (y1, x1)) = Some ((d0, r0), (d1, r1)) -> r1 - r0 == -160.
Proof.
  exists (Wcs 0 1 1 0 1 1), 0, 10, 1, 210. split; [reflexivity|]. intros turn d0 r0 d1 r1 H. unfold pixbox2skybox in H. cbn [fst snd] in H.
  destruct (p2s_nth false true false turn (Wcs 0 1 1 0 1 1) [(0, 10); (1, 210)] 0 0 10 eq_refl) as (d0' & r0' & E0 & _ & S0). destruct (p2s_nth false true false turn (Wcs 0 1 1 0 1 1) [(0, 10); (1, 210)] 1 1 210 eq_refl) as (d1' & r1' & E1 & _ & S1).
  assert (NJ : no_jump (360 / 2) (map snd (pix2sky false true false turn (Wcs 0 1 1 0 1 1) [(0, 10); (1, 210)]))).
  { unfold pix2sky. cbv zeta. cbn [andb negb]. rewrite map_snd_combine.
    - match goal with |- no_jump _ (unwind _ _ _ ?l) => apply (unwind_spec RMiddle 0 360 l ltac:(reflexivity)) end.
    - match goal with |- _ = length (unwind _ _ _ ?l) => destruct (unwind_spec RMiddle 0 360 l ltac:(reflexivity)) as (L' & _); cbv zeta in L'; rewrite L' end. reflexivity. }
  destruct (pix2sky false true false turn (Wcs 0 1 1 0 1 1) [(0, 10); (1, 210)]) as [|a [|b [|]]]; try discriminate H. cbn in E0, E1. injection E0 as ->. injection E1 as ->. injection H as -> -> -> ->. cbn [map snd] in NJ.
  pose proof (NJ 0%nat r0 r1 eq_refl eq_refl) as J. destruct S0 as [k0 K0], S1 as [k1 K1].
  assert (V0 : sky_x (Wcs 0 1 1 0 1 1) (10 - half false) == 10) by reflexivity. assert (V1 : sky_x (Wcs 0 1 1 0 1 1) (210 - half false) == 210) by reflexivity. rewrite V0 in K0. rewrite V1 in K1.
  assert (M : (k1 - k0 + 1)%Z = 0%Z). { apply (turns_small 360 (-160)); [reflexivity|reflexivity|]. rewrite inject_Z_plus. unfold Z.sub. rewrite inject_Z_plus, inject_Z_opp. change (inject_Z 1) with 1. rewrite K0, K1 in J. setoid_replace (-160 + (inject_Z k1 + - inject_Z k0 + 1) * 360) with (210 + inject_Z k1 * 360 - (10 + inject_Z k0 * 360)) by ring. exact J. }
  rewrite K0, K1. replace k1 with (k0 + -1)%Z by lia. rewrite inject_Z_plus. change (inject_Z (-1)) with (-1). ring.
Qed.
Example C92_ex : Qabs ((20 - -30) * cdelt_x ex_w) < 180. Proof. reflexivity. Qed.

(* pix2l and l2pix along an axis of n pixels of signed size 2 pi d are inverse to each other for indices from 0 to n and frequencies up to the Nyquist frequency, *)
Theorem C93_pix_l_pix (n : Z) (i d : Q) : (0 < n)%Z -> ~ d == 0 -> 0 <= i -> i < inject_Z n -> freq2ind n (ind2freq n i d) d == i.
Proof.
  intros Hn Hd I0 I1. assert (N : 0 < inject_Z n) by (change 0 with (inject_Z 0); rewrite <- Zlt_Qlt; exact Hn). assert (N0 : ~ inject_Z n == 0) by (intros E; rewrite E in N; discriminate N).
  unfold freq2ind, ind2freq. cbv zeta. assert (H2 : inject_Z n / 2 == inject_Z n * (1 # 2)) by reflexivity. destruct (Qle_bool (inject_Z n / 2) i) eqn:E; cbn [negb].
  - apply Qle_bool_iff in E. rewrite H2 in E. set (j := (- inject_Z n + i) / (d * inject_Z n) * (d * inject_Z n)). assert (J : j == i - inject_Z n) by (unfold j; field; auto).
    destruct (Qle_bool 0 j) eqn:F; [apply Qle_bool_iff in F; rewrite J in F; exfalso; lra|]. rewrite J. ring.
  - apply Qleb_lt in E. rewrite H2 in E. set (j := i / (d * inject_Z n) * (d * inject_Z n)). assert (J : j == i) by (unfold j; field; auto).
    destruct (Qle_bool 0 j) eqn:F; [exact J|]. apply Qleb_lt in F. rewrite J in F. exfalso. lra.
Qed.
Theorem C93_l_pix_l (n : Z) (f d : Q) : (0 < n)%Z -> ~ d == 0 -> - inject_Z n / 2 <= f * (d * inject_Z n) -> f * (d * inject_Z n) < inject_Z n / 2 ->
  (0 <= freq2ind n f d /\ freq2ind n f d < inject_Z n) /\ ind2freq n (freq2ind n f d) d == f.
Proof.
  intros Hn Hd I0 I1. assert (N : 0 < inject_Z n) by (change 0 with (inject_Z 0); rewrite <- Zlt_Qlt; exact Hn). assert (N0 : ~ inject_Z n == 0) by (intros E; rewrite E in N; discriminate N).
  assert (H2 : inject_Z n / 2 == inject_Z n * (1 # 2)) by reflexivity. assert (H3 : - inject_Z n / 2 == - inject_Z n * (1 # 2)) by reflexivity. rewrite H3 in I0. rewrite H2 in I1.
  unfold freq2ind, ind2freq. cbv zeta. set (j := f * (d * inject_Z n)) in *. destruct (Qle_bool 0 j) eqn:F.
  - apply Qle_bool_iff in F. split; [split; [exact F|lra]|]. destruct (Qle_bool (inject_Z n / 2) j) eqn:E; cbn [negb].
    + apply Qle_bool_iff in E. rewrite H2 in E. exfalso. lra.
    + unfold j. field. auto.
  - apply Qleb_lt in F. split; [split; lra|]. destruct (Qle_bool (inject_Z n / 2) (inject_Z n + j)) eqn:E; cbn [negb].
    + unfold j. field. auto.
    + apply Qleb_lt in E. rewrite H2 in E. exfalso. lra.
Qed.
(* and at whole indices they are the frequencies of the discrete Fourier transform. *)
Theorem C93_modes (n i : Z) (d : Q) : (0 < n)%Z -> (0 <= i < n)%Z -> ind2freq n (inject_Z i) d == freq_of n d i.
Proof.
  intros Hn Hi. unfold ind2freq, freq_of. assert (E : Qle_bool (inject_Z n / 2) (inject_Z i) = negb (2 * i <? n)%Z).
  { destruct (Z.ltb_spec (2 * i) n); cbn [negb].
    - apply Qleb_lt. apply (Qmult_lt_r _ _ 2); [reflexivity|]. setoid_replace (inject_Z n / 2 * 2) with (inject_Z n) by field. change 2 with (inject_Z 2). rewrite <- inject_Z_mult, <- Zlt_Qlt. lia.
    - apply Qle_bool_iff. apply (Qmult_le_r _ _ 2); [reflexivity|]. setoid_replace (inject_Z n / 2 * 2) with (inject_Z n) by field. change 2 with (inject_Z 2). rewrite <- inject_Z_mult, <- Zle_Qle. lia. }
  rewrite E, negb_involutive. destruct (2 * i <? n)%Z; [reflexivity|]. unfold Z.sub. rewrite inject_Z_plus, inject_Z_opp. unfold Qdiv. ring.
Qed.
Example C93_ex : Qred (freq2ind 5 (ind2freq 5 (7 # 2) (-1 # 3)) (-1 # 3)) = (7 # 2) /\ map (fun i => Qred (ind2freq 5 (inject_Z i) (1 # 5))) [0; 1; 2; 3; 4]%Z = [0; 1; 2; -2; -1].
Proof. split; vm_compute; reflexivity. Qed.

(* project without force: onto the map's own geometry, a copy; *)
Theorem C94_same {A} (compat : wcs -> wcs -> bool) (interp : fmap A -> Z * Z -> wcs -> option (fmap A)) (plain : bool) (cval : A) (m : fmap A) :
  project compat interp plain cval m (f_ny (fm_arr m), f_nx (fm_arr m)) (fm_wcs m) = Some m.
Proof. unfold project, wcs_eqb. rewrite !Qeq_bool_refl, !Z.eqb_refl. reflexivity. Qed.
Lemma wcs_neq v w : ~ same_wcs v w -> wcs_eqb v w = false.
Proof.
  intros H. destruct (wcs_eqb v w) eqn:E; [|reflexivity]. exfalso. apply H. unfold wcs_eqb in E. repeat (apply andb_prop in E as [E ?]).
  repeat match goal with K : Qeq_bool _ _ = true |- _ => apply Qeq_bool_iff in K end. unfold same_wcs. tauto.
Qed.
(* onto another geometry with the same pixels, the map's value at the same position in every pixel, and cval outside the map. Missing from
   the full claim: a geometry with the map's wcs but another shape, see C94_shape_refuted. *)
Theorem C94_compatible_partial {A} (compat : wcs -> wcs -> bool) (interp : fmap A -> Z * Z -> wcs -> option (fmap A)) (plain : bool) (cval : A) (m : fmap A) shape ow wy wx dy dx :
  (0 <= fst shape)%Z -> (0 <= snd shape)%Z -> (0 < f_ny (fm_arr m))%Z -> (0 < f_nx (fm_arr m))%Z -> compat (fm_wcs m) ow = true -> ~ same_wcs (fm_wcs m) ow ->
  wrap_lens (fm_wcs m) (f_nx (fm_arr m)) plain None = (wy, wx) -> wrap_ok wy (f_ny (fm_arr m)) -> wrap_ok wx (f_nx (fm_arr m)) ->
  cdelt_x ow == cdelt_x (fm_wcs m) -> cdelt_y ow == cdelt_y (fm_wcs m) -> ~ cdelt_x ow == 0 -> ~ cdelt_y ow == 0 -> same_sky_at ow (fm_wcs m) 0 0 dy dx ->
  exists o, project compat interp plain cval m shape ow = Some o /\ fm_wcs o = ow /\ f_ny (fm_arr o) = fst shape /\ f_nx (fm_arr o) = snd shape /\
    forall i j, (0 <= i < fst shape)%Z -> (0 <= j < snd shape)%Z ->
      same_sky_at (fm_wcs o) (fm_wcs m) i j (dy + i) (dx + j) /\
      f_at (fm_arr o) i j = match source wy (f_ny (fm_arr m)) (dy + i), source wx (f_nx (fm_arr m)) (dx + j) with Some y, Some x => f_at (fm_arr m) y x | _, _ => cval end.
Proof.
  intros H1 H2 H3 H4 Hc He Hw W1 W2 Cx Cy Nx Ny S. unfold project. rewrite (wcs_neq _ _ He), Hc. cbn [andb]. apply (C05_extract_partial m shape ow plain None cval wy wx dy dx); assumption.
Qed.
(* With the map's own wcs the new shape is ignored: the result has the shape of the map. *)
Theorem C94_shape_refuted : exists (m : fmap Z) shape, forall compat interp plain cval, exists o, project compat interp plain cval m shape (fm_wcs m) = Some o /\ f_ny (fm_arr o) <> fst shape /\ f_nx (fm_arr o) <> snd shape.
Proof.
  exists (FM (FA 4 5 (fun i j => (10 * i + j)%Z)) ex_w), (2, 3)%Z. intros. eexists. split; [reflexivity|]. split; discriminate.
Qed.
Example C94_ex : ~ same_wcs ex_w (Wcs 0 179 (-1) 0 89 1) /\ same_sky_at (Wcs 0 179 (-1) 0 89 1) ex_w 0 0 2 1 /\
  option_map (fun o : fmap Z => (f_at (fm_arr o) 0 0, f_at (fm_arr o) 0 4)) (project (fun _ _ => true) (fun _ _ _ => None) true 7%Z (FM (FA 4 5 (fun i j => (10 * i + j)%Z)) ex_w) (2, 9)%Z (Wcs 0 179 (-1) 0 89 1)) = Some (21, 7)%Z.
Proof. split; [intros (_ & H & _); discriminate|]. split; [split; reflexivity|]. vm_compute. reflexivity. Qed.
Print Assumptions C91_skybox.
Print Assumptions C91_skybox_plain.
Print Assumptions C92_pixbox_partial.
Print Assumptions C92_plain.
Print Assumptions C92_wide_refuted.
Print Assumptions C93_pix_l_pix.
Print Assumptions C93_l_pix_l.
Print Assumptions C93_modes.
Print Assumptions C94_same.
Print Assumptions C94_compatible_partial.
Print Assumptions C94_shape_refuted.
