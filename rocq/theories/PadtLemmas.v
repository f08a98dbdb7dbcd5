From Coq Require Import Lqa Qabs Permutation.
From Verif Require Import Base SliceSpec SliceModel SboxSpec SboxModel SboxLemmas WindModel DownSpec DownModel DownLemmas ArrModel ArrLemmas PixSpec PixModel PixLemmas PixLemmas2 PixLemmas3 PadtModel IterModel IterLemmas.

Definition axw (T p nt t y : Z) : Q :=
  if (t * T - p <=? y) && (y <? (t + 1) * T + p) then
    ((if (0 <? t)%Z && (y <? t * T + p)%Z then ramp (2 * p) (y - (t * T - p)) else 1) *
     (if (t <? nt - 1)%Z && ((t + 1) * T - p <=? y)%Z then ramp (2 * p) (2 * p - 1 - (y - ((t + 1) * T - p))) else 1))%Q
  else 0%Q.

(* the height of the ramp between tiles t-1 and t *)
Definition rise (T p nt t y : Z) : Q :=
  if t <=? 0 then 1%Q else if nt <=? t then 0%Q else
  if y <? t * T - p then 0%Q else if t * T + p <=? y then 1%Q else ramp (2 * p) (y - (t * T - p)).

Lemma axw_rise T p nt t y : 0 < T -> 0 <= p -> 2 * p <= T -> 0 <= t < nt -> 0 <= y < nt * T ->
  (axw T p nt t y == rise T p nt t y - rise T p nt (t + 1) y)%Q.
Proof.
  intros HT Hp H2 Ht Hy. unfold axw, rise, ramp.
  assert (E1 : ~ (inject_Z (2 * p + 1) == 0)%Q) by (apply inject_pos; lia).
  assert (Er : forall k, 0 <= k < 2 * p -> (inject_Z (2 * p - 1 - k + 1) / inject_Z (2 * p + 1) == 1 - inject_Z (k + 1) / inject_Z (2 * p + 1))%Q).
  { intros k Hk. replace (2 * p - 1 - k + 1) with (2 * p + 1 + - (k + 1)) by lia. rewrite inject_Z_plus, inject_Z_opp. field. exact E1. }
  replace (t + 1 <=? 0) with false by lia. replace (nt <=? t) with false by lia.
  assert (t = 0 \/ 0 < t) as [->|Ht0] by lia.
  - cbn [Z.leb Z.compare Z.ltb andb]. replace ((0 * T - p <=? y)) with true by lia. cbn [andb].
    destruct (nt <=? 0 + 1) eqn:En.
    + assert (nt = 1) as -> by lia. replace (y <? (0 + 1) * T + p) with true by lia. replace (0 <? 1 - 1) with false by lia. cbn [andb]. ring.
    + replace (0 <? nt - 1) with true by lia. cbn [andb]. destruct (y <? (0 + 1) * T + p) eqn:E3.
      * replace ((0 + 1) * T + p <=? y) with false by lia. destruct ((0 + 1) * T - p <=? y) eqn:E4.
        -- replace (y <? (0 + 1) * T - p) with false by lia. rewrite Er by lia. ring.
        -- replace (y <? (0 + 1) * T - p) with true by lia. ring.
      * replace (y <? (0 + 1) * T - p) with false by lia. replace ((0 + 1) * T + p <=? y) with true by lia. ring.
  - replace (t <=? 0) with false by lia. replace (0 <? t) with true by lia. cbn [andb].
    assert (EqT : (t + 1) * T = t * T + T) by lia. rewrite !EqT.
    destruct (t * T - p <=? y) eqn:E3.
    + replace (y <? t * T - p) with false by lia. cbn [andb]. destruct (nt <=? t + 1) eqn:En.
      * assert (nt = t + 1) by lia. subst nt. replace (y <? t * T + T + p) with true by lia. replace (t <? t + 1 - 1) with false by lia. cbn [andb].
        destruct (y <? t * T + p) eqn:E4; [replace (t * T + p <=? y) with false by lia|replace (t * T + p <=? y) with true by lia]; ring.
      * replace (t <? nt - 1) with true by lia. cbn [andb]. destruct (y <? t * T + T + p) eqn:E5.
        -- replace (t * T + T + p <=? y) with false by lia. destruct (t * T + T - p <=? y) eqn:E6.
           ++ replace (y <? t * T + T - p) with false by lia. replace (y <? t * T + p) with false by lia. replace (t * T + p <=? y) with true by lia. rewrite Er by lia. ring.
           ++ replace (y <? t * T + T - p) with true by lia. destruct (y <? t * T + p) eqn:E4; [replace (t * T + p <=? y) with false by lia|replace (t * T + p <=? y) with true by lia]; ring.
        -- replace (t * T + p <=? y) with true by lia. replace (y <? t * T + T - p) with false by lia. replace (t * T + T + p <=? y) with true by lia. ring.
    + replace (y <? t * T - p) with true by lia. cbn [andb]. replace (y <? t * T + T - p) with true by lia. destruct (nt <=? t + 1); ring.
Qed.

Lemma telescope f n : 0 <= n -> (qsum_on (fun t => f t - f (t + 1)%Z) 0 n == f 0%Z - f n)%Q.
Proof.
  intros H. pattern n. apply natlike_ind; [| |exact H].
  - rewrite qsum_on_empty by lia. ring.
  - intros k Hk IH. unfold Z.succ. rewrite (qsum_on_app _ 0 k) by lia. rewrite IH. unfold qsum_on. rewrite (zrange_cons k), zrange_empty by lia. cbn [map qsum]. ring.
Qed.

Lemma axw_sum T p nt y : 0 < T -> 0 <= p -> 2 * p <= T -> 0 < nt -> 0 <= y < nt * T -> (qsum_on (fun t => axw T p nt t y) 0 nt == 1)%Q.
Proof.
  intros HT Hp H2 Hnt Hy. rewrite (qsum_on_ext _ (fun t => rise T p nt t y - rise T p nt (t + 1) y)%Q) by (intros t Ht; apply axw_rise; auto).
  rewrite (telescope (fun t => rise T p nt t y)) by lia. unfold rise. replace (0 <=? 0) with true by lia. replace (nt <=? 0) with false by lia. replace (nt <=? nt) with true by lia. ring.
Qed.

(* sum over all tiles of a product of axis weights *)
Lemma grid_sum f g ny nx : 0 <= ny -> 0 < nx -> (qsum_on (fun ti => f (ti / nx)%Z * g (ti mod nx)%Z) 0 (ny * nx) == qsum_on f 0 ny * qsum_on g 0 nx)%Q.
Proof.
  intros Hy Hx. pose proof (qsum_on_blocks (fun ti => f (ti / nx)%Z * g (ti mod nx)%Z)%Q 0 nx ny ltac:(lia) Hy) as E. cbn in E. rewrite <- E. clear E.
  rewrite (qsum_on_ext _ (fun i => qsum_on g 0 nx * f i)%Q).
  - rewrite qsum_on_scale. ring.
  - intros i Hi. transitivity (qsum_on (fun x => f i * g x)%Q 0 nx); [|rewrite qsum_on_scale; ring].
    unfold qsum_on. replace (zrange (i * nx) ((i + 1) * nx)) with (map (fun x => i * nx + x) (zrange 0 nx)).
    + rewrite map_map. apply (qsum_on_ext (fun x => f ((i * nx + x) / nx)%Z * g ((i * nx + x) mod nx)%Z)%Q). intros x Hx'.
      replace ((i * nx + x) / nx) with i by (apply Z.div_unique_pos with x; lia). replace ((i * nx + x) mod nx) with x by (apply Z.mod_unique_pos with i; lia). reflexivity.
    + apply zget_ext. intros k. rewrite zget_map. destruct (Z_lt_ge_dec k 0); [rewrite !zget_out by (left; lia); reflexivity|].
      destruct (Z_lt_ge_dec k nx).
      * rewrite !zget_zrange by lia. cbn; try reflexivity; f_equal; lia.
      * rewrite !zget_out by (right; rewrite zrange_zlen; lia). reflexivity.
Qed.

(* the box of a tile, located from the wcs the slicing gives it *)
Lemma tile_box w ny nx ay by_ ax bx my mx h v : 0 <= my -> 0 <= mx -> 2 * my <= by_ - ay -> 2 * mx <= bx - ax ->
  pixbox_of w (h, v)
    (snd (slice_geometry (by_ - ay, bx - ax) (snd (slice_geometry (ny, nx) w (PS (Some ay) (Some by_) (Some 1), PS (Some ax) (Some bx) (Some 1)) true))
       (sl my (by_ - ay - my), sl mx (bx - ax - mx)) false)) = ((ay + my, ay + my + h, 1), (ax + mx, ax + mx + v, 1)).
Proof.
  intros H1 H2 H3 H4. unfold pixbox_of, slice_geometry, slice_axis, expand_slice, sl, es_step. cbn [ps_start ps_stop ps_step es_default Z.ltb Z.compare es_cycle Z.eqb fst snd].
  replace (0 <=? my) with true by lia. replace (0 <=? mx) with true by lia. cbn [crval_x crpix_x cdelt_x crval_y crpix_y cdelt_y].
  rewrite !Z.min_l by lia.
  match goal with |- ((qround ?a, _, _), (qround ?b, _, _)) = _ => assert (Ea : qround a = ay + my); [|assert (Eb : qround b = ax + mx); [|rewrite Ea, Eb; reflexivity]] end.
  - apply qround_int. rewrite inject_Z_plus. change (inject_Z 1) with 1%Q. unfold Qdiv. replace (/ 1)%Q with 1%Q by reflexivity. ring.
  - apply qround_int. rewrite inject_Z_plus. change (inject_Z 1) with 1%Q. unfold Qdiv. replace (/ 1)%Q with 1%Q by reflexivity. ring.
Qed.

Lemma extract_wcs {A} (m r o : fmap A) ay by_ ax bx plain wrap op cval rev : extract_pixbox m ((ay, by_, 1), (ax, bx, 1)) None plain wrap op cval rev = Some (r, o) ->
  fm_wcs o = snd (slice_geometry (f_ny (fm_arr m), f_nx (fm_arr m)) (fm_wcs m) (PS (Some ay) (Some by_) (Some 1), PS (Some ax) (Some bx) (Some 1)) true).
Proof.
  unfold extract_pixbox. destruct (slice_geometry _ _ _ _) as [[oy ox] w] eqn:E. cbn [snd]. destruct (full2 oy ox cval) as [a|]; [|discriminate].
  destruct (wrap_lens _ _ _ _) as [wy wx]. destruct (sbox_wrap _) as [pieces|]; [|discriminate]. destruct (fold_left _ _ _) as [[im om]|]; [|discriminate].
  intros H. apply Some_inj in H. apply (f_equal snd) in H. cbn [snd] in H. subst o. reflexivity.
Qed.

Lemma sl_to_find b n k : 0 <= b <= n -> 0 <= k -> sl_find (sl_to b) n k = if k <? b then Some k else None.
Proof.
  intros H Hk. destruct (sl_to_facts b n H) as (E1 & E2 & E3). rewrite sl_find_step1 by exact E2. rewrite E1, E3, Z.sub_0_r. replace (0 <=? k) with true by lia. reflexivity.
Qed.
Lemma sl_frompos_find a n k : 0 <= a <= n -> k < n -> sl_find (sl_from a) n k = if a <=? k then Some (k - a) else None.
Proof.
  intros H Hk. rewrite sl_find_step1 by reflexivity. assert (E : py_start (sl_from a) n = a).
  { unfold py_start, sl_from, py_adjust, py_step. cbn [ps_start ps_step]. destruct (a <? 0) eqn:E; [lia|]. destruct (n <=? a) eqn:E2; [change (1 <? 0) with false; cbv iota; lia|reflexivity]. }
  rewrite len1 by reflexivity. rewrite E. unfold py_stop, sl_from, py_step. cbn [ps_stop ps_step Z.ltb Z.compare].
  destruct (a <=? k) eqn:E3; destruct (_ && _) eqn:E4; try reflexivity; lia.
Qed.

(* the weight a tile of h x v pixels gets at its pixel (y,x) *)
Lemma crossfade_at t py px ty tx nty ntx y x : 0 <= py -> 0 <= px -> 2 * py <= f_ny t -> 2 * px <= f_nx t -> 0 <= y < f_ny t -> 0 <= x < f_nx t ->
  (f_at (crossfade t (2 * py) (2 * px) ty tx nty ntx) y x ==
   ((if (0 <? ty)%Z && (y <? 2 * py)%Z then ramp (2 * py) y else 1) * (if (ty <? nty - 1)%Z && (f_ny t - 2 * py <=? y)%Z then ramp (2 * py) (2 * py - 1 - (y - (f_ny t - 2 * py))) else 1)) *
   ((if (0 <? tx)%Z && (x <? 2 * px)%Z then ramp (2 * px) x else 1) * (if (tx <? ntx - 1)%Z && (f_nx t - 2 * px <=? x)%Z then ramp (2 * px) (2 * px - 1 - (x - (f_nx t - 2 * px))) else 1)) * f_at t y x)%Q.
Proof.
  intros Hpy Hpx H1 H2 Hy Hx. unfold crossfade.
  set (t1 := if 0 <? ty then scale_rows t (sl_to (2 * py)) (ramp (2 * py)) else t).
  set (t2 := if 0 <? tx then scale_cols t1 (sl_to (2 * px)) (ramp (2 * px)) else t1).
  set (t3 := if ty <? nty - 1 then scale_rows t2 (sl_from (f_ny t2 - 2 * py)) (fun i => ramp (2 * py) (2 * py - 1 - i)) else t2).
  assert (N1 : f_ny t1 = f_ny t /\ f_nx t1 = f_nx t) by (unfold t1; destruct (0 <? ty); split; reflexivity). destruct N1 as [N1y N1x].
  assert (N2 : f_ny t2 = f_ny t /\ f_nx t2 = f_nx t) by (unfold t2; destruct (0 <? tx); cbn [f_ny f_nx scale_cols]; auto). destruct N2 as [N2y N2x].
  assert (N3 : f_ny t3 = f_ny t /\ f_nx t3 = f_nx t) by (unfold t3; destruct (ty <? nty - 1); cbn [f_ny f_nx scale_rows]; auto). destruct N3 as [N3y N3x].
  assert (V1 : (f_at t1 y x == (if (0 <? ty)%Z && (y <? 2 * py)%Z then ramp (2 * py) y else 1) * f_at t y x)%Q).
  { unfold t1. destruct (0 <? ty); cbn [andb scale_rows f_at]; [|ring]. rewrite sl_to_find by lia. destruct (y <? 2 * py); ring. }
  assert (V2 : (f_at t2 y x == (if (0 <? tx)%Z && (x <? 2 * px)%Z then ramp (2 * px) x else 1) * f_at t1 y x)%Q).
  { unfold t2. destruct (0 <? tx); cbn [andb scale_cols f_at]; [|ring]. rewrite N1x, sl_to_find by lia. destruct (x <? 2 * px); ring. }
  assert (V3 : (f_at t3 y x == (if (ty <? nty - 1)%Z && (f_ny t - 2 * py <=? y)%Z then ramp (2 * py) (2 * py - 1 - (y - (f_ny t - 2 * py))) else 1) * f_at t2 y x)%Q).
  { unfold t3. destruct (ty <? nty - 1); cbn [andb scale_rows f_at]; [|ring]. rewrite N2y, sl_frompos_find by lia. destruct (f_ny t - 2 * py <=? y); ring. }
  assert (V4 : (f_at (if tx <? ntx - 1 then scale_cols t3 (sl_from (f_nx t3 - 2 * px)) (fun j => ramp (2 * px) (2 * px - 1 - j)) else t3) y x ==
    (if (tx <? ntx - 1)%Z && (f_nx t - 2 * px <=? x)%Z then ramp (2 * px) (2 * px - 1 - (x - (f_nx t - 2 * px))) else 1) * f_at t3 y x)%Q).
  { destruct (tx <? ntx - 1); cbn [andb scale_cols f_at]; [|ring]. rewrite N3x, sl_frompos_find by lia. destruct (f_nx t - 2 * px <=? x); ring. }
  rewrite V4, V3, V2, V1. ring.
Qed.

Lemma crossfade_shape t a b c d e f : f_ny (crossfade t a b c d e f) = f_ny t /\ f_nx (crossfade t a b c d e f) = f_nx t.
Proof. unfold crossfade. destruct (0 <? c), (0 <? d), (c <? e - 1), (d <? f - 1); split; reflexivity. Qed.

Lemma zget_box a b i k : a <= b -> zget (indices (a, b, 1)) i = Some k <-> 0 <= i < b - a /\ k = a + i.
Proof.
  intros H. replace (a, b, 1) with (a, a + (b - a) * 1, 1) by (f_equal; f_equal; lia). rewrite zget_indices_unit by (try reflexivity; lia). split; intros [G ->]; split; lia.
Qed.
Lemma len_box a b : a <= b -> zlen (indices (a, b, 1)) = b - a.
Proof. intros H. rewrite <- sbox_size_spec by (split; [lia|cbn [Z.sgn]; lia]). apply size1. Qed.
Lemma unit1 a b : a <= b -> unit_box (a, b, 1).
Proof. intros H. split; [split; [lia|cbn [Z.sgn]; lia]|reflexivity]. Qed.

Lemma source_in w n k : w = 0 \/ n <= w -> 0 <= k < n -> source w n k = Some k.
Proof.
  intros Hw Hk. unfold source. destruct (w =? 0) eqn:E.
  - replace ((0 <=? k) && (k <? n)) with true by lia. reflexivity.
  - rewrite Z.mod_small by lia. replace ((0 <=? k) && (k <? n)) with true by lia. reflexivity.
Qed.
Lemma source_only w n k y lo hi : w = 0 \/ n - lo <= w /\ hi <= w /\ n <= w -> lo <= 0 -> lo <= k < hi -> source w n k = Some y -> y = k /\ 0 <= k < n.
Proof.
  intros Hw Hlo Hk. unfold source. destruct (w =? 0) eqn:E.
  - destruct ((0 <=? k) && (k <? n)) eqn:E2; [|discriminate]. intros G. apply Some_inj in G. lia.
  - destruct ((0 <=? k mod w) && (k mod w <? n)) eqn:E2; [|discriminate]. intros G. apply Some_inj in G. subst y.
    destruct Hw as [Hw|(W1 & W2 & W3)]; [lia|]. destruct (Z_le_gt_dec 0 k).
    + rewrite Z.mod_small in * by lia. lia.
    + assert (k mod w = k + w) by (symmetry; apply Z.mod_unique_pos with (-1); lia). lia.
Qed.

Section Turn.
Variables (tsh pd mg : Z * Z) (user : Z -> farr Q -> farr Q) (imap : fmap Q) (iplain oplain : bool) (h : Q -> Q) (w wi ny nx : Z).
Hypothesis HTy : 0 < fst tsh. Hypothesis HTx : 0 < snd tsh.
Hypothesis Hpy : 0 <= fst pd. Hypothesis Hpx : 0 <= snd pd. Hypothesis H2py : 2 * fst pd <= fst tsh. Hypothesis H2px : 2 * snd pd <= snd tsh.
Hypothesis Hmy : 0 <= fst mg. Hypothesis Hmx : 0 <= snd mg.
Hypothesis Hny : 0 < ny. Hypothesis Hnx : 0 < nx.
Hypothesis HI : f_ny (fm_arr imap) = ny /\ f_nx (fm_arr imap) = nx.
Hypothesis Hwi : wrap_lens (fm_wcs imap) nx iplain None = (0, wi). Hypothesis Hwi2 : wrap_ok wi nx.
Let nty := ntile ny (fst tsh). Let ntx := ntile nx (snd tsh).
Hypothesis Hw : w = 0 \/ ntx * snd tsh + 2 * snd pd <= w.
Hypothesis Huser : forall ti t y x, fst mg <= y < f_ny t - fst mg -> snd mg <= x < f_nx t - snd mg -> (f_at (user ti t) y x == h (f_at t y x))%Q.

Lemma ntile_facts n T : 0 < T -> 0 < n -> 0 < ntile n T /\ n <= ntile n T * T.
Proof. intros HT Hn. unfold ntile. pose proof (Z.div_mod (n + T - 1) T ltac:(lia)). pose proof (Z.mod_pos_bound (n + T - 1) T HT). split; [|lia]. apply Z.div_str_pos. lia. Qed.

Definition wt (ti y x : Z) : Q := (axw (fst tsh) (fst pd) nty (ti / ntx) y * axw (snd tsh) (snd pd) ntx (ti mod ntx) x)%Q.

Lemma turn om ti : f_ny (fm_arr om) = ny -> f_nx (fm_arr om) = nx -> wrap_lens (fm_wcs om) nx oplain None = (0, w) -> 0 <= ti < nty * ntx ->
  exists om', pad_turn tsh pd mg user imap iplain oplain om ti = Some om' /\ fm_wcs om' = fm_wcs om /\ f_ny (fm_arr om') = ny /\ f_nx (fm_arr om') = nx /\
    forall y x, 0 <= y < ny -> 0 <= x < nx -> (f_at (fm_arr om') y x == f_at (fm_arr om) y x + wt ti y x * h (f_at (fm_arr imap) y x))%Q.
Proof.
  intros Oy Ox Ow Hti. unfold pad_turn. rewrite Oy, Ox. fold nty ntx.
  destruct (ntile_facts ny (fst tsh) HTy Hny) as [Py Qy]. destruct (ntile_facts nx (snd tsh) HTx Hnx) as [Px Qx]. fold nty in Py, Qy. fold ntx in Px, Qx.
  set (ty := ti / ntx). set (tx := ti mod ntx).
  assert (Hty : 0 <= ty < nty) by (unfold ty; split; [apply Z.div_pos; lia|apply Z.div_lt_upper_bound; lia]).
  assert (Htx : 0 <= tx < ntx) by (unfold tx; apply Z.mod_pos_bound; lia).
  set (ay := ty * (fst tsh) - ((fst pd) + (fst mg))). set (by_ := (ty + 1) * (fst tsh) + ((fst pd) + (fst mg))). set (ax := tx * (snd tsh) - ((snd pd) + (snd mg))). set (bx := (tx + 1) * (snd tsh) + ((snd pd) + (snd mg))).
  assert (Hby : by_ - ay = (fst tsh) + 2 * (fst pd) + 2 * (fst mg)) by (unfold by_, ay; lia). assert (Hbx : bx - ax = (snd tsh) + 2 * (snd pd) + 2 * (snd mg)) by (unfold bx, ax; lia).
  assert (Htx2 : (tx + 1) * (snd tsh) <= ntx * (snd tsh)) by nia. assert (Htx3 : 0 <= tx * (snd tsh)) by nia. assert (Hty3 : 0 <= ty * (fst tsh)) by nia.
  assert (Hwo : wrap_ok w nx). { destruct Hw as [->|Hw']; [left; reflexivity|right; lia]. }
  destruct (extract_pixbox_spec imap (ay, by_, 1) (ax, bx, 1) iplain None 0%Q 0 wi (unit1 ay by_ ltac:(lia)) (unit1 ax bx ltac:(lia))) as (it & E1 & I1 & I2 & I3).
  1,2: destruct HI; lia. 1: { destruct HI as [_ ->]. exact Hwi. } 1: left; reflexivity. 1: { destruct HI as [_ ->]. exact Hwi2. }
  rewrite E1. cbn [bind snd].
  destruct (extract_pixbox_spec om (ay, by_, 1) (ax, bx, 1) oplain None 0%Q 0 w (unit1 ay by_ ltac:(lia)) (unit1 ax bx ltac:(lia))) as (ot & E2 & O1 & O2 & _).
  1,2: lia. 1: { rewrite Ox. exact Ow. } 1: left; reflexivity. 1: { rewrite Ox. exact Hwo. }
  rewrite E2. cbn [bind snd]. pose proof (extract_wcs _ _ _ _ _ _ _ _ _ _ _ _ E2) as EW.
  rewrite len_box in I1, I2, O1, O2 by lia. rewrite !O1, !O2.
  set (ut := FA (by_ - ay) (bx - ax) (f_at (user ti (fm_arr it)))). cbn [fm_arr f_ny f_nx fm_wcs].
  destruct (getmap_spec (FM ut (fm_wcs ot)) (fst mg) (by_ - ay - (fst mg)) (snd mg) (bx - ax - (snd mg))) as (G1 & G2 & G3 & _); cbn [fm_arr fm_wcs f_ny f_nx ut] in *; try lia.
  set (tile := getmap (FM ut (fm_wcs ot)) (sl (fst mg) (by_ - ay - (fst mg))) (sl (snd mg) (bx - ax - (snd mg)))) in *.
  unfold PixModel.insert. set (cf := crossfade (fm_arr tile) (2 * (fst pd)) (2 * (snd pd)) ty tx nty ntx). cbn [fm_arr fm_wcs].
  assert (C1 : f_ny cf = (fst tsh) + 2 * (fst pd)) by (unfold cf; rewrite (proj1 (crossfade_shape _ _ _ _ _ _ _)); lia).
  assert (C2 : f_nx cf = (snd tsh) + 2 * (snd pd)) by (unfold cf; rewrite (proj2 (crossfade_shape _ _ _ _ _ _ _)); lia).
  assert (EB : pixbox_of (fm_wcs om) (f_ny cf, f_nx cf) (fm_wcs tile) = ((ty * (fst tsh) - (fst pd), (ty + 1) * (fst tsh) + (fst pd), 1), (tx * (snd tsh) - (snd pd), (tx + 1) * (snd tsh) + (snd pd), 1))).
  { unfold tile, getmap. cbn [fm_wcs fm_arr f_ny f_nx ut]. rewrite EW. rewrite tile_box by lia. rewrite C1, C2. unfold ay, ax.
    replace (ty * (fst tsh) - ((fst pd) + (fst mg)) + (fst mg)) with (ty * (fst tsh) - (fst pd)) by lia. replace (tx * (snd tsh) - ((snd pd) + (snd mg)) + (snd mg)) with (tx * (snd tsh) - (snd pd)) by lia.
    replace (ty * (fst tsh) - (fst pd) + ((fst tsh) + 2 * (fst pd))) with ((ty + 1) * (fst tsh) + (fst pd)) by lia. replace (tx * (snd tsh) - (snd pd) + ((snd tsh) + 2 * (snd pd))) with ((tx + 1) * (snd tsh) + (snd pd)) by lia. reflexivity. }
  rewrite EB.
  destruct (extract_reverse_spec om (FM cf (fm_wcs tile)) (ty * (fst tsh) - (fst pd), (ty + 1) * (fst tsh) + (fst pd), 1) (tx * (snd tsh) - (snd pd), (tx + 1) * (snd tsh) + (snd pd), 1) oplain None Qplus (f_at cf 0 0) 0 w (unit1 (ty * (fst tsh) - (fst pd)) ((ty + 1) * (fst tsh) + (fst pd)) ltac:(lia)) (unit1 (tx * (snd tsh) - (snd pd)) ((tx + 1) * (snd tsh) + (snd pd)) ltac:(lia)))
    as (om' & E3 & R1 & R2 & R3 & R4 & _); cbn [fm_arr]; try lia.
  1,2: rewrite len_box; lia. 1: { rewrite Ox. exact Ow. } 1: left; reflexivity. 1: { rewrite Ox. exact Hwo. }
  rewrite E3. exists om'. split; [reflexivity|]. split; [exact R1|]. split; [lia|]. split; [lia|].
  intros y x Hy Hx. rewrite Oy, Ox in R4. destruct R4 as [R4 R5].
  { left; reflexivity. } { destruct Hw as [->|Hw']; [left; reflexivity|right; rewrite len_box by lia; nia]. }
  assert (SX : forall kx x', tx * (snd tsh) - (snd pd) <= kx < (tx + 1) * (snd tsh) + (snd pd) -> source w nx kx = Some x' -> x' = kx /\ 0 <= kx < nx).
  { intros kx x' Hk. apply source_only with (lo := - (snd pd)) (hi := ntx * (snd tsh) + (snd pd)); try lia. }
  unfold wt, axw. fold ty tx. destruct ((ty * (fst tsh) - (fst pd) <=? y) && (y <? (ty + 1) * (fst tsh) + (fst pd))) eqn:Ey.
  - destruct ((tx * (snd tsh) - (snd pd) <=? x) && (x <? (tx + 1) * (snd tsh) + (snd pd))) eqn:Ex.
    + rewrite (R4 (y - (ty * (fst tsh) - (fst pd))) (x - (tx * (snd tsh) - (snd pd))) y x y x).
      2,3: apply zget_box; lia. 2,3: apply source_in; lia.
      apply Qplus_comp; [reflexivity|]. cbn [fm_arr]. unfold cf. rewrite crossfade_at by lia. rewrite G1, G2, G3.
      unfold ut. cbn [f_at]. rewrite Huser by lia.
      assert (Z1 : zget (indices (ay, by_, 1)) (fst mg + (y - (ty * fst tsh - fst pd))) = Some y) by (apply zget_box; unfold ay, by_ in *; lia).
      assert (Z2 : zget (indices (ax, bx, 1)) (snd mg + (x - (tx * snd tsh - snd pd))) = Some x) by (apply zget_box; unfold ax, bx in *; lia).
      rewrite (proj1 (I3 _ _ _ _ Z1 Z2)).
      destruct HI as [-> ->]. rewrite !source_in by (auto; destruct Hwi2; lia).
      replace (y - (ty * (fst tsh) - (fst pd)) <? 2 * (fst pd)) with (y <? ty * (fst tsh) + (fst pd)) by lia. replace (x - (tx * (snd tsh) - (snd pd)) <? 2 * (snd pd)) with (x <? tx * (snd tsh) + (snd pd)) by lia.
      replace (by_ - ay - (fst mg) - (fst mg) - 2 * (fst pd) <=? y - (ty * (fst tsh) - (fst pd))) with ((ty + 1) * (fst tsh) - (fst pd) <=? y) by lia.
      replace (bx - ax - (snd mg) - (snd mg) - 2 * (snd pd) <=? x - (tx * (snd tsh) - (snd pd))) with ((tx + 1) * (snd tsh) - (snd pd) <=? x) by lia.
      replace (y - (ty * (fst tsh) - (fst pd)) - (by_ - ay - (fst mg) - (fst mg) - 2 * (fst pd))) with (y - ((ty + 1) * (fst tsh) - (fst pd))) by lia.
      replace (x - (tx * (snd tsh) - (snd pd)) - (bx - ax - (snd mg) - (snd mg) - 2 * (snd pd))) with (x - ((tx + 1) * (snd tsh) - (snd pd))) by lia. reflexivity.
    + rewrite R5; [ring|]. intros i j ky kx G4 G5 G6 G7. apply zget_box in G5; [|lia]. apply SX in G7; lia.
  - rewrite R5; [ring|]. intros i j ky kx G4 G5 G6 G7. apply zget_box in G4; [|lia]. apply source_only with (lo := Z.min 0 ky) (hi := ky + 1) in G6; lia.
Qed.

Lemma turns tis om : f_ny (fm_arr om) = ny -> f_nx (fm_arr om) = nx -> wrap_lens (fm_wcs om) nx oplain None = (0, w) -> (forall ti, In ti tis -> 0 <= ti < nty * ntx) ->
  exists om', fold_left (fun st ti => bind st (fun om => pad_turn tsh pd mg user imap iplain oplain om ti)) tis (Some om) = Some om' /\ fm_wcs om' = fm_wcs om /\ f_ny (fm_arr om') = ny /\ f_nx (fm_arr om') = nx /\
    forall y x, 0 <= y < ny -> 0 <= x < nx -> (f_at (fm_arr om') y x == f_at (fm_arr om) y x + qsum (map (fun ti => wt ti y x) tis) * h (f_at (fm_arr imap) y x))%Q.
Proof.
  revert om. induction tis as [|ti tis IH]; intros om Oy Ox Ow Hin; cbn [fold_left map qsum].
  - exists om. repeat split; auto. intros. ring.
  - cbn [bind]. destruct (turn om ti Oy Ox Ow (Hin _ (or_introl eq_refl))) as (om1 & -> & W1 & S1 & S2 & V1).
    destruct (IH om1 S1 S2) as (om2 & -> & W2 & S3 & S4 & V2); [rewrite W1; exact Ow|intros; apply Hin; right; assumption|].
    exists om2. split; [reflexivity|]. split; [congruence|]. split; [exact S3|]. split; [exact S4|]. intros y x Hy Hx. rewrite V2, V1 by assumption. ring.
Qed.

Lemma wt_total y x : 0 <= y < ny -> 0 <= x < nx -> (qsum_on (fun ti => wt ti y x) 0 (nty * ntx) == 1)%Q.
Proof.
  intros Hy Hx. destruct (ntile_facts ny (fst tsh) HTy Hny) as [Py Qy]. destruct (ntile_facts nx (snd tsh) HTx Hnx) as [Px Qx]. fold nty in Py, Qy. fold ntx in Px, Qx.
  unfold wt. rewrite (grid_sum (fun t => axw (fst tsh) (fst pd) nty t y) (fun t => axw (snd tsh) (snd pd) ntx t x)) by lia.
  rewrite !axw_sum by lia. ring.
Qed.
End Turn.

Lemma pyrange_In a b s k : 0 < s -> In k (pyrange a b s) <-> a <= k < b /\ (s | k - a).
Proof.
  intros Hs. unfold pyrange. rewrite in_map_iff. pose proof (Z.div_mod (b - a + s - 1) s ltac:(lia)). pose proof (Z.mod_pos_bound (b - a + s - 1) s Hs).
  split.
  - intros (i & <- & Hi). apply zrange_In in Hi. split; [nia|]. exists i. lia.
  - intros [H1 [i Hi]]. exists i. split; [lia|]. apply zrange_In. nia.
Qed.
Lemma pyrange_NoDup a b s : 0 < s -> NoDup (pyrange a b s).
Proof. intros Hs. apply FinFun.Injective_map_NoDup; [intros u v H; nia|apply zrange_NoDup]. Qed.

Lemma qsum_perm l l' : Permutation l l' -> (qsum l == qsum l')%Q.
Proof. induction 1; cbn [qsum]; [reflexivity|rewrite IHPermutation; reflexivity|ring|etransitivity; eauto]. Qed.
Lemma qsum_flat {A} (f : Z -> Q) (g : A -> list Z) L : (qsum (map (fun r => qsum (map f (g r))) L) == qsum (map f (flat_map g L)))%Q.
Proof. induction L as [|r L IH]; cbn [map qsum flat_map]; [reflexivity|]. rewrite map_app, qsum_app, IH. reflexivity. Qed.

Lemma ranks_perm N k : 0 < k -> Permutation (flat_map (fun r => pyrange r N k) (zrange 0 k)) (zrange 0 N).
Proof.
  intros Hk. apply NoDup_Permutation; [|apply zrange_NoDup|].
  - apply flat_map_NoDup; [apply zrange_NoDup|intros; apply pyrange_NoDup; exact Hk|].
    intros r r' i Hr Hr' H1 H2. apply zrange_In in Hr. apply zrange_In in Hr'. apply pyrange_In in H1 as [_ [u Hu]]; [|exact Hk]. apply pyrange_In in H2 as [_ [v Hv]]; [|exact Hk].
    assert (u = v) by nia. lia.
  - intros i. rewrite in_flat_map, zrange_In. split.
    + intros (r & Hr & Hi). apply zrange_In in Hr. apply pyrange_In in Hi; lia.
    + intros Hi. exists (i mod k). pose proof (Z.mod_pos_bound i k Hk). pose proof (Z.mod_le i k). split; [apply zrange_In; lia|]. apply pyrange_In; [exact Hk|]. split; [lia|].
      exists (i / k). pose proof (Z.div_mod i k). lia.
Qed.
