(* C90-C94: the pixel a position is in, boxes, Fourier pixels, and the shortcuts of project. *)
From Coq Require Import Qabs Qround.
From Coq Require Import Lqa.
From Verif Require Import Base SliceSpec SliceModel WindSpec WindModel WindLemmas ArrModel PixSpec PixModel GeoModel PosSpec PosModel PosLemmas PixProps PosProps.
Ltac Zify.zify_post_hook ::= idtac.
Open Scope Q_scope.

(* contains says whether the position is that of a coordinate pair from 0 to the shape. Missing from the full claim, that it tells whether the position is in one of the pixels of the map: the bounds are half a pixel off, see C90_contains_refuted. *)
Theorem C90_contains_partial (turn' : Q -> Q -> Z) (ny nx : Z) (w : wcs) (pos : list (Q * Q)) : ~ cdelt_x w == 0 -> ~ cdelt_y w == 0 ->
  inject_Z ny * Qabs (cdelt_y w) <= 360 -> inject_Z nx * Qabs (cdelt_x w) <= 360 ->
  Forall2 (fun p (b : bool) => b = true <-> exists y x, (0 <= y /\ y < inject_Z ny) /\ (0 <= x /\ x < inject_Z nx) /\ same_pos p (sky_y w y, sky_x w x)) pos (contains false turn' (ny, nx) w pos).
Proof.
  intros Hx Hy Ly Lx. unfold contains. apply Forall2_nth; [rewrite map_length, s2p_len by assumption; reflexivity|]. intros i [d r] b Ep Eb. rewrite nth_map in Eb.
  destruct (nth_error (sky2pix false 1 false turn' (ny, nx) w pos) i) as [[y x]|] eqn:E; [|discriminate Eb]. cbn [option_map fst snd] in Eb. injection Eb as <-.
  pose proof (s2p_any false 1 false turn' _ w pos i d r y x Hx Hy Ep E) as [A B]. cbn iota in A, B. change (half false) with 0 in A, B.
  pose proof (C89_window false turn' (ny, nx) w pos Hx Hy) as W. rewrite Forall_forall in W. specialize (W _ (nth_error_In _ _ E)). cbn [fst snd] in W. destruct W as [WY WX].
  rewrite !andb_true_iff, !negb_true_iff, !Qle_bool_iff, !Qleb_lt.
  assert (SP : same_pos (d, r) (sky_y w y, sky_x w x)).
  { split; cbn [fst snd].
    - apply (same_angle_trans 360 _ (sky_y w (s2p (crval_y w) (crpix_y w) (cdelt_y w) d + 0))); [apply same_angle_eq; unfold sky_y, sky_at, s2p; field; exact Hy|apply sky_angle; assumption].
    - apply (same_angle_trans 360 _ (sky_x w (s2p (crval_x w) (crpix_x w) (cdelt_x w) r + 0))); [apply same_angle_eq; unfold sky_x, sky_at, s2p; field; exact Hx|apply sky_angle; assumption]. }
  split.
  - intros (((H1 & H2) & H3) & H4). exists y, x. auto.
  - intros (y' & x' & [Y1 Y2] & [X1 X2] & [SD SR]). cbn [fst snd] in SD, SR.
    assert (EY : y == y'). { apply (near_unique (cdelt_y w) (ref_pix ny false)); auto.
      - apply (same_angle_trans _ _ (s2p (crval_y w) (crpix_y w) (cdelt_y w) d + 0)); [apply same_angle_sym, A|]. apply (same_angle_trans _ _ (s2p (crval_y w) (crpix_y w) (cdelt_y w) (sky_y w y') + 0)); [apply same_angle_plus, s2p_angle; assumption|]. apply same_angle_eq. unfold sky_y. rewrite s2p_sky by exact Hy. ring.
      - pose proof (C89_map_near ny (cdelt_y w) y' false Hy Ly Y1 Y2) as [N1 N2]. cbn [corner_off] in N1, N2. split; lra. }
    assert (EX : x == x'). { apply (near_unique (cdelt_x w) (ref_pix nx false)); auto.
      - apply (same_angle_trans _ _ (s2p (crval_x w) (crpix_x w) (cdelt_x w) r + 0)); [apply same_angle_sym, B|]. apply (same_angle_trans _ _ (s2p (crval_x w) (crpix_x w) (cdelt_x w) (sky_x w x') + 0)); [apply same_angle_plus, s2p_angle; assumption|]. apply same_angle_eq. unfold sky_x. rewrite s2p_sky by exact Hx. ring.
      - pose proof (C89_map_near nx (cdelt_x w) x' false Hx Lx X1 X2) as [N1 N2]. cbn [corner_off] in N1, N2. split; lra. }
    rewrite EY, EX. repeat split; assumption.
Qed.

(* For positions in the part of the map that contains accepts, the pixel coordinates round to the pixel the position is in. *)
Theorem C90_round_partial (turn' : Q -> Q -> Z) (ny nx i j : Z) (w : wcs) (pos : Q * Q) (y x : Q) : ~ cdelt_x w == 0 -> ~ cdelt_y w == 0 ->
  inject_Z ny * Qabs (cdelt_y w) <= 360 -> inject_Z nx * Qabs (cdelt_x w) <= 360 ->
  0 <= y -> y < inject_Z ny -> 0 <= x -> x < inject_Z nx -> covers y i -> covers x j -> same_dir pos (sky_y w y, sky_x w x) ->
  exists y' x', sky2pix false 1 false turn' (ny, nx) w [pos] = [(y', x')] /\ covers y' i /\ covers x' j.
Proof.
  intros Hx Hy Ly Lx Y1 Y2 X1 X2 [CY1 CY2] [CX1 CX2] S.
  destruct (s2p_at false false turn' (ny, nx) w [pos] 0 pos y x Hx Hy eq_refl) as (q & E & SQ).
  - cbn [fst snd]. change (half false) with 0. split; [|split].
    + destruct S as [S1 S2]. cbn [fst snd] in S1, S2. split; cbn [fst snd].
      * rewrite S1. unfold sky_y, sky_at. ring.
      * apply (same_angle_trans 360 _ (sky_x w x)); [exact S2|]. apply same_angle_eq. unfold sky_x, sky_at. ring.
    + pose proof (C89_map_near ny (cdelt_y w) y false Hy Ly Y1 Y2) as [N1 N2]. cbn [corner_off] in N1, N2. split; lra.
    + pose proof (C89_map_near nx (cdelt_x w) x false Hx Lx X1 X2) as [N1 N2]. cbn [corner_off] in N1, N2. split; lra.
  - pose proof (s2p_len false 1 false turn' (ny, nx) w [pos] Hx Hy) as L. destruct (sky2pix false 1 false turn' (ny, nx) w [pos]) as [|[y' x'] [|]]; try discriminate L. cbn in E. injection E as <-. destruct SQ as [Q1 Q2]. cbn [fst snd] in Q1, Q2.
    exists y', x'. split; [reflexivity|]. unfold covers. rewrite Q1, Q2. auto.
Qed.

(* With corner=True the floor of the coordinates is that pixel. *)
Theorem C90_floor_partial (turn' : Q -> Q -> Z) (ny nx i j : Z) (w : wcs) (pos : Q * Q) (y x : Q) : ~ cdelt_x w == 0 -> ~ cdelt_y w == 0 ->
  inject_Z ny * Qabs (cdelt_y w) <= 360 -> inject_Z nx * Qabs (cdelt_x w) <= 360 ->
  0 <= y -> y < inject_Z ny -> 0 <= x -> x < inject_Z nx -> covers y i -> covers x j -> same_dir pos (sky_y w y, sky_x w x) ->
  exists y' x', sky2pix false 1 true turn' (ny, nx) w [pos] = [(y', x')] /\ Qfloor y' = i /\ Qfloor x' = j.
Proof.
  intros Hx Hy Ly Lx Y1 Y2 X1 X2 [CY1 CY2] [CX1 CX2] S.
  destruct (s2p_at false true turn' (ny, nx) w [pos] 0 pos (y + (1 # 2)) (x + (1 # 2)) Hx Hy eq_refl) as (q & E & SQ).
  - cbn [fst snd]. change (half true) with (1 # 2). split; [|split].
    + destruct S as [S1 S2]. cbn [fst snd] in S1, S2. split; cbn [fst snd].
      * rewrite S1. unfold sky_y, sky_at. ring.
      * apply (same_angle_trans 360 _ (sky_x w x)); [exact S2|]. apply same_angle_eq. unfold sky_x, sky_at. ring.
    + exact (C89_map_near ny (cdelt_y w) y true Hy Ly Y1 Y2).
    + exact (C89_map_near nx (cdelt_x w) x true Hx Lx X1 X2).
  - pose proof (s2p_len false 1 true turn' (ny, nx) w [pos] Hx Hy) as L. destruct (sky2pix false 1 true turn' (ny, nx) w [pos]) as [|[y' x'] [|]]; try discriminate L. cbn in E. injection E as <-. destruct SQ as [Q1 Q2]. cbn [fst snd] in Q1, Q2.
    exists y', x'. split; [reflexivity|]. rewrite (Qfloor_comp _ _ Q1), (Qfloor_comp _ _ Q2). split; apply floor_at; lra.
Qed.
(* the centre of every pixel is such a position, *)
Theorem C90_centre (turn' : Q -> Q -> Z) (ny nx i j : Z) (w : wcs) : ~ cdelt_x w == 0 -> ~ cdelt_y w == 0 ->
  inject_Z ny * Qabs (cdelt_y w) <= 360 -> inject_Z nx * Qabs (cdelt_x w) <= 360 -> (0 <= i < ny)%Z -> (0 <= j < nx)%Z ->
  contains false turn' (ny, nx) w [(sky_y w (inject_Z i), sky_x w (inject_Z j))] = [true] /\
  exists y' x', sky2pix false 1 false turn' (ny, nx) w [(sky_y w (inject_Z i), sky_x w (inject_Z j))] = [(y', x')] /\ y' == inject_Z i /\ x' == inject_Z j.
Proof.
  intros Hx Hy Ly Lx I J. assert (I0 : 0 <= inject_Z i) by (change 0 with (inject_Z 0); rewrite <- Zle_Qle; lia). assert (I1 : inject_Z i < inject_Z ny) by (rewrite <- Zlt_Qlt; lia).
  assert (J0 : 0 <= inject_Z j) by (change 0 with (inject_Z 0); rewrite <- Zle_Qle; lia). assert (J1 : inject_Z j < inject_Z nx) by (rewrite <- Zlt_Qlt; lia). split.
  - pose proof (C90_contains_partial turn' ny nx w [(sky_y w (inject_Z i), sky_x w (inject_Z j))] Hx Hy Ly Lx) as F. destruct (Forall2_one _ _ _ F) as (b & -> & R). f_equal. apply R. exists (inject_Z i), (inject_Z j). split; [auto|]. split; [auto|]. split; apply same_angle_eq; reflexivity.
  - 
    destruct (s2p_at false false turn' (ny, nx) w [(sky_y w (inject_Z i), sky_x w (inject_Z j))] 0 _ (inject_Z i) (inject_Z j) Hx Hy eq_refl) as (q & E & SQ).
    + cbn [fst snd]. change (half false) with 0. split; [split; cbn [fst snd]; [unfold sky_y, sky_at; ring|apply same_angle_eq; unfold sky_x, sky_at; ring]|]. split.
      * pose proof (C89_map_near ny (cdelt_y w) _ false Hy Ly I0 I1) as [N1 N2]. cbn [corner_off] in N1, N2. split; lra.
      * pose proof (C89_map_near nx (cdelt_x w) _ false Hx Lx J0 J1) as [N1 N2]. cbn [corner_off] in N1, N2. split; lra.
    + pose proof (s2p_len false 1 false turn' (ny, nx) w [(sky_y w (inject_Z i), sky_x w (inject_Z j))] Hx Hy) as L. destruct (sky2pix false 1 false turn' (ny, nx) w _) as [|[y' x'] [|]]; try discriminate L. cbn in E. injection E as <-. destruct SQ as [Q1 Q2]. exists y', x'. auto.
Qed.

(* but contains rejects positions in the first half of the first pixels and accepts positions outside all pixels, *)
Theorem C90_contains_refuted : exists w, ~ cdelt_x w == 0 /\ ~ cdelt_y w == 0 /\
  (exists pos, in_pixel w pos 0 0 /\ forall turn', contains false turn' (4, 4)%Z w [pos] = [false]) /\
  exists pos, (forall turn', contains false turn' (4, 4)%Z w [pos] = [true]) /\ forall i j, (0 <= i < 4)%Z -> (0 <= j < 4)%Z -> ~ in_pixel w pos i j.
Proof.
  exists (Wcs 0 1 1 0 1 1). split; [discriminate|]. split; [discriminate|].
  assert (NX : ~ cdelt_x (Wcs 0 1 1 0 1 1) == 0) by discriminate. assert (NY : ~ cdelt_y (Wcs 0 1 1 0 1 1) == 0) by discriminate.
  pose proof (fun t => C90_contains_partial t 4 4 (Wcs 0 1 1 0 1 1)) as G. split.
  - exists (- (1 # 4), - (1 # 4)). split; [exists (- (1 # 4)), (- (1 # 4)); split; [split; vm_compute; congruence|]; split; [split; vm_compute; congruence|]; split; [reflexivity|apply same_angle_eq; reflexivity]|].
    intros turn'. specialize (G turn' [(- (1 # 4), - (1 # 4))] NX NY ltac:(vm_compute; congruence) ltac:(vm_compute; congruence)). destruct (Forall2_one _ _ _ G) as (b & -> & R). f_equal. destruct b; [|reflexivity]. exfalso.
    destruct R as [R _]. destruct (R eq_refl) as (y & x & [Y1 Y2] & _ & [[k SD] _]). cbn [fst snd] in SD. unfold sky_y, sky_at in SD. cbn in SD. change (inject_Z 4) with 4 in Y2.
    assert (M : (0 < k)%Z \/ (k <= 0)%Z) by lia. destruct M as [M|M].
    + assert (1 <= inject_Z k) by (change 1 with (inject_Z 1); rewrite <- Zle_Qle; lia). lra.
    + assert (inject_Z k <= 0) by (change 0 with (inject_Z 0); rewrite <- Zle_Qle; lia). lra.
  - exists (15 # 4, 15 # 4). split.
    + intros turn'. specialize (G turn' [(15 # 4, 15 # 4)] NX NY ltac:(vm_compute; congruence) ltac:(vm_compute; congruence)). destruct (Forall2_one _ _ _ G) as (b & -> & R). f_equal. apply R. exists (15 # 4), (15 # 4). split; [split; vm_compute; congruence|]. split; [split; vm_compute; congruence|]. split; apply same_angle_eq; reflexivity.
    + intros i j I J (y & x & [C1 C2] & _ & [S _]). cbn [fst snd] in S. unfold sky_y, sky_at in S. cbn in S. assert (inject_Z i <= 3) by (change 3 with (inject_Z 3); rewrite <- Zle_Qle; lia). lra.
Qed.

(* and on a map all the way around the sky, positions in the first half of the first column get a column beyond the last, with and without corner. *)
Theorem C90_round_refuted : exists w pos, inject_Z 360 * Qabs (cdelt_x w) == 360 /\ in_pixel w pos 0 0 /\ forall turn',
  (exists p, sky2pix false 1 false turn' (4, 360)%Z w [pos] = [p] /\ covers (fst p) 0 /\ covers (snd p) 360) /\
  (exists p, sky2pix false 1 true turn' (4, 360)%Z w [pos] = [p] /\ Qfloor (fst p) = 0%Z /\ Qfloor (snd p) = 360%Z).
Proof.
  exists (Wcs 0 1 1 0 1 1), (- (1 # 4), - (1 # 4)). split; [reflexivity|]. split; [exists (- (1 # 4)), (- (1 # 4)); split; [split; vm_compute; congruence|]; split; [split; vm_compute; congruence|]; split; [reflexivity|apply same_angle_eq; reflexivity]|].
  intros turn'. assert (NX : ~ cdelt_x (Wcs 0 1 1 0 1 1) == 0) by discriminate. assert (NY : ~ cdelt_y (Wcs 0 1 1 0 1 1) == 0) by discriminate. split.
  - destruct (s2p_at false false turn' (4, 360)%Z (Wcs 0 1 1 0 1 1) [(- (1 # 4), - (1 # 4))] 0 _ (- (1 # 4)) (1439 # 4) NX NY eq_refl) as (q & E & Q1 & Q2).
    + cbn [fst snd]. split; [split; [reflexivity|exists 1%Z; reflexivity]|]. split; split; vm_compute; congruence.
    + pose proof (s2p_len false 1 false turn' (4, 360)%Z (Wcs 0 1 1 0 1 1) [(- (1 # 4), - (1 # 4))] NX NY) as L. destruct (sky2pix false 1 false turn' (4, 360)%Z _ _) as [|p [|]]; try discriminate L. cbn in E. injection E as <-. exists p. split; [reflexivity|]. cbn [fst snd] in Q1, Q2. unfold covers. rewrite Q1, Q2. repeat split; vm_compute; congruence.
  - destruct (s2p_at false true turn' (4, 360)%Z (Wcs 0 1 1 0 1 1) [(- (1 # 4), - (1 # 4))] 0 _ (1 # 4) (1441 # 4) NX NY eq_refl) as (q & E & Q1 & Q2).
    + cbn [fst snd]. split; [split; [reflexivity|exists 1%Z; reflexivity]|]. split; split; vm_compute; congruence.
    + pose proof (s2p_len false 1 true turn' (4, 360)%Z (Wcs 0 1 1 0 1 1) [(- (1 # 4), - (1 # 4))] NX NY) as L. destruct (sky2pix false 1 true turn' (4, 360)%Z _ _) as [|p [|]]; try discriminate L. cbn in E. injection E as <-. exists p. split; [reflexivity|]. cbn [fst snd] in Q1, Q2. rewrite (Qfloor_comp _ _ Q1), (Qfloor_comp _ _ Q2). split; reflexivity.
Qed.
Example C90_ex : inject_Z 181 * Qabs (cdelt_y ex_w) <= 360 /\ inject_Z 360 * Qabs (cdelt_x ex_w) <= 360 /\ covers (7 # 3) 2 /\
  contains false (fun _ _ => 3)%Z (181, 360)%Z ex_w [(12, -170); (95, 0); (12, 190)] = [true; false; true].
Proof. split; [vm_compute; congruence|]. split; [vm_compute; congruence|]. split; [split; vm_compute; congruence|]. vm_compute. reflexivity. Qed.
Print Assumptions C90_contains_partial.
Print Assumptions C90_round_partial.
Print Assumptions C90_centre.
Print Assumptions C90_contains_refuted.
Print Assumptions C90_round_refuted.
Print Assumptions C90_floor_partial.
