From Coq Require Import Lqa Qabs.
From Verif Require Import Base SliceSpec SliceModel SboxSpec SboxModel SboxLemmas WindModel WindLemmas ArrModel ArrLemmas PixSpec PixModel PixLemmas.

(** geometry of the extracted box *)
Lemma slice_axis_unit n crval crpix cdelt a b s : unit_box (a, b, s) ->
  exists cp cd, slice_axis n crpix cdelt (PS (Some a) (Some b) (Some s)) true = (zlen (indices (a, b, s)), cp, cd) /\
  forall j k, zget (indices (a, b, s)) j = Some k -> (sky_at crval cp cd (inject_Z j) == sky_at crval crpix cdelt (inject_Z k))%Q.
Proof.
  intros Hu. assert (Hs : s = 1 \/ s = -1) by (destruct Hu as [_ H]; cbn in H; lia).
  unfold slice_axis, expand_slice, es_step. cbn [ps_start ps_stop ps_step es_default es_cycle].
  rewrite <- (sbox_size_spec (a, b, s)) by apply Hu.
  destruct Hs as [-> | ->].
  - cbn [Z.eqb Z.ltb Z.compare]. do 2 eexists. split.
    + rewrite size1. cbn [Z.sgn]. rewrite Z.div_1_r. apply f_equal2; [|reflexivity]. apply f_equal2; [lia|reflexivity].
    + intros j k Hj. apply indices_unit in Hj as [-> _]; [|exact Hu]. cbn [fst snd]. unfold sky_at. rewrite inject_Z_plus, inject_Z_mult. change (inject_Z 1) with 1%Q. field.
  - cbn [Z.eqb Z.ltb Z.compare]. do 2 eexists. split.
    + assert (E : sbox_size (a, b, -1) = a - b). { unfold sbox_size. cbn [Z.sgn]. change (-1 * -1) with 1. rewrite Z.div_1_r. lia. }
      rewrite E. cbn [Z.sgn]. replace (b - a + -1 - -1) with (b - a) by lia. assert (E2 : (b - a) / -1 = a - b) by (replace (b - a) with ((a - b) * -1) by lia; rewrite Z.div_mul by lia; reflexivity). rewrite E2. reflexivity.
    + intros j k Hj. apply indices_unit in Hj as [-> _]; [|exact Hu]. cbn [fst snd]. unfold sky_at. rewrite !inject_Z_plus, inject_Z_mult. change (inject_Z (-1)) with (-1)%Q. change (inject_Z 1) with 1%Q. field.
Qed.

Lemma extract_pixbox_spec {A} (m : fmap A) by_ bx plain wrap cval wy wx : unit_box by_ -> unit_box bx -> 0 < f_ny (fm_arr m) -> 0 < f_nx (fm_arr m) ->
  wrap_lens (fm_wcs m) (f_nx (fm_arr m)) plain wrap = (wy, wx) -> wrap_ok wy (f_ny (fm_arr m)) -> wrap_ok wx (f_nx (fm_arr m)) ->
  exists o, extract_pixbox m (by_, bx) None plain wrap (fun _ b => b) cval false = Some (m, o) /\
    f_ny (fm_arr o) = zlen (indices by_) /\ f_nx (fm_arr o) = zlen (indices bx) /\
    forall i j ky kx, zget (indices by_) i = Some ky -> zget (indices bx) j = Some kx ->
      f_at (fm_arr o) i j = match source wy (f_ny (fm_arr m)) ky, source wx (f_nx (fm_arr m)) kx with Some y, Some x => f_at (fm_arr m) y x | _, _ => cval end /\
      same_sky_at (fm_wcs o) (fm_wcs m) i j ky kx.
Proof.
  intros Uy Ux Hny Hnx Ew Wy Wx. unfold extract_pixbox. destruct by_ as [[ay by_] sy]. destruct bx as [[ax bx] sx]. unfold slice_geometry.
  destruct (slice_axis_unit (f_ny (fm_arr m)) (crval_y (fm_wcs m)) (crpix_y (fm_wcs m)) (cdelt_y (fm_wcs m)) ay by_ sy Uy) as (cpy & cdy & -> & Gy).
  destruct (slice_axis_unit (f_nx (fm_arr m)) (crval_x (fm_wcs m)) (crpix_x (fm_wcs m)) (cdelt_x (fm_wcs m)) ax bx sx Ux) as (cpx & cdx & -> & Gx).
  unfold full2. pose proof (zlen_nonneg (indices (ay, by_, sy))). pose proof (zlen_nonneg (indices (ax, bx, sx))).
  replace ((0 <=? zlen (indices (ay, by_, sy))) && (0 <=? zlen (indices (ax, bx, sx)))) with true by lia. rewrite Ew.
  set (om := FA (zlen (indices (ay, by_, sy))) (zlen (indices (ax, bx, sx))) (fun _ _ : Z => cval)). cbn [fm_arr fm_wcs].
  destruct (loop_fwd_spec (ay, by_, sy) (ax, bx, sx) wy wx (f_ny (fm_arr m)) (f_nx (fm_arr m)) (conj Uy (conj Wy Hny)) (conj Ux (conj Wx Hnx)) (fun _ b : A => b) (fm_arr m) om eq_refl eq_refl eq_refl eq_refl)
    as (pieces & om' & -> & -> & H1 & H2 & H3).
  eexists. split; [destruct m; reflexivity|]. cbn [fm_arr fm_wcs]. split; [exact H1|]. split; [exact H2|]. intros i j ky kx Hi Hj. split; [apply (H3 i j ky kx Hi Hj)|].
  split; [apply (Gy i ky Hi)|apply (Gx j kx Hj)].
Qed.

Lemma extract_onto_spec {A} (m o : fmap A) by_ bx plain wrap op cval wy wx : unit_box by_ -> unit_box bx -> 0 < f_ny (fm_arr m) -> 0 < f_nx (fm_arr m) ->
  f_ny (fm_arr o) = zlen (indices by_) -> f_nx (fm_arr o) = zlen (indices bx) ->
  wrap_lens (fm_wcs m) (f_nx (fm_arr m)) plain wrap = (wy, wx) -> wrap_ok wy (f_ny (fm_arr m)) -> wrap_ok wx (f_nx (fm_arr m)) ->
  exists o', extract_pixbox m (by_, bx) (Some o) plain wrap op cval false = Some (m, o') /\
    f_ny (fm_arr o') = f_ny (fm_arr o) /\ f_nx (fm_arr o') = f_nx (fm_arr o) /\ fm_wcs o' = fm_wcs o /\
    forall i j ky kx, zget (indices by_) i = Some ky -> zget (indices bx) j = Some kx ->
      f_at (fm_arr o') i j = match source wy (f_ny (fm_arr m)) ky, source wx (f_nx (fm_arr m)) kx with Some y, Some x => op (f_at (fm_arr o) i j) (f_at (fm_arr m) y x) | _, _ => f_at (fm_arr o) i j end.
Proof.
  intros Uy Ux Hny Hnx EY EX Ew Wy Wx. unfold extract_pixbox. rewrite Ew.
  destruct (loop_fwd_spec by_ bx wy wx (f_ny (fm_arr m)) (f_nx (fm_arr m)) (conj Uy (conj Wy Hny)) (conj Ux (conj Wx Hnx)) op (fm_arr m) (fm_arr o) eq_refl eq_refl EY EX)
    as (pieces & om' & -> & -> & H1 & H2 & H3).
  eexists. split; [destruct m; reflexivity|]. cbn [fm_arr fm_wcs]. auto.
Qed.

Lemma extract_reverse_spec {A} (m o : fmap A) by_ bx plain wrap op cval wy wx : unit_box by_ -> unit_box bx -> 0 < f_ny (fm_arr m) -> 0 < f_nx (fm_arr m) ->
  f_ny (fm_arr o) = zlen (indices by_) -> f_nx (fm_arr o) = zlen (indices bx) ->
  wrap_lens (fm_wcs m) (f_nx (fm_arr m)) plain wrap = (wy, wx) -> wrap_ok wy (f_ny (fm_arr m)) -> wrap_ok wx (f_nx (fm_arr m)) ->
  exists m', extract_pixbox m (by_, bx) (Some o) plain wrap op cval true = Some (m', o) /\ fm_wcs m' = fm_wcs m /\
    f_ny (fm_arr m') = f_ny (fm_arr m) /\ f_nx (fm_arr m') = f_nx (fm_arr m) /\
    (fits wy by_ -> fits wx bx ->
     (forall i j ky kx y x, zget (indices by_) i = Some ky -> zget (indices bx) j = Some kx -> source wy (f_ny (fm_arr m)) ky = Some y -> source wx (f_nx (fm_arr m)) kx = Some x -> f_at (fm_arr m') y x = op (f_at (fm_arr m) y x) (f_at (fm_arr o) i j)) /\
     (forall y x, (forall i j ky kx, zget (indices by_) i = Some ky -> zget (indices bx) j = Some kx -> source wy (f_ny (fm_arr m)) ky = Some y -> source wx (f_nx (fm_arr m)) kx = Some x -> False) -> f_at (fm_arr m') y x = f_at (fm_arr m) y x)) /\
    ((forall i j ky kx y x, zget (indices by_) i = Some ky -> zget (indices bx) j = Some kx -> source wy (f_ny (fm_arr m)) ky = Some y -> source wx (f_nx (fm_arr m)) kx = Some x -> op (f_at (fm_arr m) y x) (f_at (fm_arr o) i j) = f_at (fm_arr m) y x) ->
     forall y x, f_at (fm_arr m') y x = f_at (fm_arr m) y x).
Proof.
  intros Uy Ux Hny Hnx EY EX Ew Wy Wx. unfold extract_pixbox. rewrite Ew.
  destruct (loop_rev_spec by_ bx wy wx (f_ny (fm_arr m)) (f_nx (fm_arr m)) (conj Uy (conj Wy Hny)) (conj Ux (conj Wx Hnx)) op (fm_arr m) (fm_arr o) eq_refl eq_refl EY EX)
    as (pieces & im' & -> & -> & H1 & H2 & H3 & H4).
  eexists. split; [destruct o; reflexivity|]. cbn [fm_arr fm_wcs]. auto.
Qed.

Lemma nphi_spec w nx : let n := qround (360 / Qabs (cdelt_x w)) in 0 < n -> 0 < nx ->
  (n | nphi w nx) /\ nx <= nphi w nx < nx + n.
Proof.
  cbv zeta. intros Hn Hx. unfold nphi. set (n := qround (360 / Qabs (cdelt_x w))) in *. split; [exists ((n + nx - 1) / n); ring|].
  pose proof (Z.div_mod (n + nx - 1) n ltac:(lia)). pose proof (Z.mod_pos_bound (n + nx - 1) n Hn). nia.
Qed.

Lemma qround_int x z : (x == inject_Z z)%Q -> qround x = z.
Proof.
  intros E. pose proof (qround_close x) as H. apply Qabs_Qle_condition in H as [H1 H2].
  assert (H3 : (inject_Z z < inject_Z (qround x + 1))%Q) by (rewrite inject_Z_plus; change (inject_Z 1) with 1%Q; lra).
  assert (H4 : (inject_Z (qround x) < inject_Z (z + 1))%Q) by (rewrite inject_Z_plus; change (inject_Z 1) with 1%Q; lra).
  rewrite <- Zlt_Qlt in H3, H4. lia.
Qed.

(** pad *)
Lemma sl_all_facts n : 0 <= n -> py_start sl_all n = 0 /\ py_step sl_all = 1 /\ py_len sl_all n = n.
Proof.
  intros H. unfold py_start, sl_all, py_step. cbn. repeat split. unfold py_len, py_start, py_stop, py_step. cbn. destruct (0 <? n) eqn:E; [rewrite Z.div_1_r; lia|lia].
Qed.
Lemma find_all n k : 0 <= n -> sl_find sl_all n k = if (0 <=? k) && (k <? n) then Some k else None.
Proof. intros H. destruct (sl_all_facts n H) as (E1 & E2 & E3). rewrite sl_find_step1 by exact E2. rewrite E1, E3, Z.sub_0_r. reflexivity. Qed.
Lemma at_all n j : 0 <= n -> sl_at sl_all n j = j.
Proof. intros H. destruct (sl_all_facts n H) as (E1 & E2 & E3). unfold sl_at. rewrite E1, E2. lia. Qed.
Lemma sl_to_facts b n : 0 <= b <= n -> py_start (sl_to b) n = 0 /\ py_step (sl_to b) = 1 /\ py_len (sl_to b) n = b.
Proof.
  intros H. unfold py_start, sl_to, py_step. cbn [ps_start ps_step ps_stop]. repeat split. rewrite len1 by reflexivity. unfold py_start, py_stop, py_step, py_adjust. cbn [ps_start ps_step ps_stop].
  destruct (b <? 0) eqn:E; [lia|]. change (1 <? 0) with false. cbv iota. destruct (n <=? b) eqn:E2; lia.
Qed.
(* -a: with 0 < a <= n *)
Lemma sl_from_facts a n : 0 < a <= n -> py_start (sl_from (- a)) n = n - a /\ py_step (sl_from (- a)) = 1 /\ py_len (sl_from (- a)) n = a.
Proof.
  intros H. assert (E : py_start (sl_from (- a)) n = n - a).
  { unfold py_start, sl_from, py_adjust, py_step. cbn [ps_start ps_step]. destruct (- a <? 0) eqn:E; [|lia]. destruct (- a + n <? 0) eqn:E2; [lia|]. lia. }
  split; [exact E|]. split; [reflexivity|]. rewrite len1 by reflexivity. rewrite E. unfold py_stop, sl_from, py_step. cbn. lia.
Qed.
(* -a-b:-b with 0 < b, 0 <= a, a+b <= n *)
Lemma sl_neg_facts a b n : 0 <= a -> 0 < b -> a + b <= n ->
  py_start (sl (- a - b) (- b)) n = n - a - b /\ py_step (sl (- a - b) (- b)) = 1 /\ py_len (sl (- a - b) (- b)) n = a.
Proof.
  intros Ha Hb Hn. assert (E : py_start (sl (- a - b) (- b)) n = n - a - b).
  { unfold py_start, sl, py_adjust, py_step. cbn [ps_start ps_step]. destruct (- a - b <? 0) eqn:E; [|lia]. destruct (- a - b + n <? 0) eqn:E2; [lia|]. lia. }
  assert (E2 : py_stop (sl (- a - b) (- b)) n = n - b).
  { unfold py_stop, sl, py_adjust, py_step. cbn [ps_stop ps_step]. destruct (- b <? 0) eqn:E3; [|lia]. destruct (- b + n <? 0) eqn:E4; [lia|]. lia. }
  split; [exact E|]. split; [reflexivity|]. rewrite len1 by reflexivity. rewrite E, E2. lia.
Qed.
