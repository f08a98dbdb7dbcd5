From Coq Require Import Qabs Qround Lqa.
From Verif Require Import Base RangeLemmas SliceSpec SliceModel SliceLemmas SboxSpec SboxModel WindModel WindLemmas ArrModel ArrLemmas PixSpec PixModel PixLemmas2 PixLemmas3 PixProps GeoSpec GeoModel.
Ltac Zify.zify_post_hook ::= idtac.

(** rounding *)
Lemma qround_bounds x : (inject_Z (qround x) - (1 # 2) <= x <= inject_Z (qround x) + (1 # 2))%Q.
Proof. pose proof (qround_close x) as H. apply Qabs_Qle_condition in H as [H1 H2]. split; lra. Qed.
Lemma qround_comp x y : (x == y)%Q -> qround x = qround y.
Proof.
  intros E. unfold qround. assert (Ef : Qfloor (x + (1 # 2)) = Qfloor (y + (1 # 2))) by (apply Qfloor_comp; rewrite E; reflexivity).
  rewrite Ef. replace (Qeq_bool (inject_Z (Qfloor (y + (1 # 2)))) (x + (1 # 2))) with (Qeq_bool (inject_Z (Qfloor (y + (1 # 2)))) (y + (1 # 2))); [reflexivity|].
  apply eq_iff_eq_true. rewrite !Qeq_bool_iff. rewrite E. reflexivity.
Qed.
Lemma qround_mono x y : (x <= y)%Q -> qround x <= qround y.
Proof.
  intros H. destruct (Z_le_gt_dec (qround x) (qround y)) as [L|L]; [exact L|exfalso].
  pose proof (qround_bounds x) as [A _]. pose proof (qround_bounds y) as [_ B].
  assert (C : (inject_Z (qround y) + 1 <= inject_Z (qround x))%Q) by (change 1%Q with (inject_Z 1); rewrite <- inject_Z_plus, <- Zle_Qle; lia).
  assert (E : (x == y)%Q) by lra. apply qround_comp in E. lia.
Qed.
Lemma round_lo_mono m x y : (x <= y)%Q -> round_lo m x <= round_lo m y.
Proof. intros H. destruct m; cbn [round_lo]; [apply qround_mono|apply Qfloor_resp_le|apply Qceiling_resp_le|apply Qfloor_resp_le|apply Qceiling_resp_le]; exact H. Qed.
Lemma round_lo_comp m x y : (x == y)%Q -> round_lo m x = round_lo m y.
Proof. intros H. apply Z.le_antisymm; apply round_lo_mono; lra. Qed.
Lemma round_lohi m x : m <> MInclusive -> m <> MExclusive -> round_hi m x = round_lo m x.
Proof. destruct m; congruence || reflexivity. Qed.

(** sign of a box *)
Lemma qsgn_pos x : (0 < x)%Q -> qsgn x = 1.
Proof. unfold Qlt, qsgn. cbn. intros H. apply Z.sgn_pos. lia. Qed.
Lemma qsgn_neg x : (x < 0)%Q -> qsgn x = -1.
Proof. unfold Qlt, qsgn. cbn. intros H. apply Z.sgn_neg. lia. Qed.

Definition okdir (d : Z) (cdelt from to : Q) : Prop := (d = 1 \/ d = -1) /\ (0 < inject_Z d * ((to - from) / cdelt))%Q.

Lemma okdir_s2p d crval crpix cdelt from to : ~ (cdelt == 0)%Q -> okdir d cdelt from to ->
  qsgn (s2p crval crpix cdelt (from + (to - from) / inject_Z 9) - s2p crval crpix cdelt from) = d /\
  (0 < inject_Z d * (s2p crval crpix cdelt to - s2p crval crpix cdelt from))%Q.
Proof.
  intros Hc [Hd H]. unfold s2p.
  assert (E1 : ((from + (to - from) / inject_Z 9 - crval) / cdelt + crpix - 1 - ((from - crval) / cdelt + crpix - 1) == ((to - from) / cdelt) / 9)%Q) by (change (inject_Z 9) with 9%Q; field; exact Hc).
  assert (E2 : ((to - crval) / cdelt + crpix - 1 - ((from - crval) / cdelt + crpix - 1) == (to - from) / cdelt)%Q) by (field; exact Hc).
  set (t := ((to - from) / cdelt)%Q) in *.
  assert (E3 : (t / 9 == t * (1 # 9))%Q) by field.
  split.
  - destruct Hd as [E|E]; subst d.
    + apply qsgn_pos. rewrite E1, E3. change (inject_Z 1) with 1%Q in H. lra.
    + apply qsgn_neg. rewrite E1, E3. change (inject_Z (-1)) with (-1)%Q in H. lra.
  - rewrite E2. exact H.
Qed.

(** selections with unit steps *)
Lemma raw_up a b : raw_sel (a, b, 1) = zrange a b.
Proof.
  unfold raw_sel. cbn [Z.ltb Z.compare]. rewrite Z.div_1_r.
  apply zget_ext. intros k.
  destruct (Z_lt_ge_dec k 0) as [Hk|Hk]; [rewrite !zget_out by lia; reflexivity|].
  destruct (Z.ltb_spec a b) as [L|L].
  - replace (b - a - 1 + 1) with (b - a) by lia. destruct (Z_lt_ge_dec k (b - a)).
    + rewrite PixLemmas3.zget_map_range by lia. rewrite zget_zrange by lia. f_equal. lia.
    + rewrite !zget_out; [reflexivity| |]; right; rewrite ?map_length; unfold zlen; rewrite ?map_length; fold (zlen (zrange a b)); try (rewrite zrange_zlen; lia).
      fold (zlen (zrange 0 (b - a))). rewrite zrange_zlen; lia.
  - rewrite !zrange_empty by lia. reflexivity.
Qed.

Lemma map_add_zrange a n : map (fun i => a + 1 * i) (zrange 0 n) = zrange a (a + n).
Proof.
  apply zget_ext. intros k. destruct (Z_lt_ge_dec k 0) as [Hk|Hk]; [rewrite !zget_out by lia; reflexivity|].
  destruct (Z_lt_ge_dec k n).
  - rewrite PixLemmas3.zget_map_range by lia. rewrite zget_zrange by lia. f_equal. lia.
  - rewrite !zget_out; [reflexivity| |]; right; [rewrite zrange_zlen; lia|]. unfold zlen. rewrite map_length. fold (zlen (zrange 0 n)). rewrite zrange_zlen. lia.
Qed.
Lemma raw_down a b : raw_sel (a, b, -1) = map Z.opp (zrange (- a) (- b)).
Proof.
  unfold raw_sel. cbn [Z.ltb Z.compare]. change (- -1) with 1. rewrite Z.div_1_r.
  replace (zrange (- a) (- b)) with (map (fun i => - a + 1 * i) (zrange 0 (if b <? a then a - b - 1 + 1 else 0))).
  - rewrite map_map. apply map_ext. intros i. lia.
  - rewrite map_add_zrange. destruct (Z.ltb_spec b a); [f_equal; lia|]. rewrite !zrange_empty by lia. reflexivity.
Qed.
Lemma raw_zlen a b d : d = 1 \/ d = -1 -> zlen (raw_sel (a, b, d)) = Z.max 0 (d * (b - a)).
Proof.
  intros [E|E]; subst d; [rewrite raw_up, zrange_zlen; lia|]. rewrite raw_down. unfold zlen. rewrite map_length. fold (zlen (zrange (- a) (- b))). rewrite zrange_zlen. lia.
Qed.
Lemma raw_zget a b d k : d = 1 \/ d = -1 -> 0 <= k < d * (b - a) -> zget (raw_sel (a, b, d)) k = Some (a + d * k).
Proof.
  intros [E|E] H; subst d; [rewrite raw_up, zget_zrange by lia; f_equal; lia|]. rewrite raw_down, zget_map, zget_zrange by lia. cbn [option_map]. f_equal. lia.
Qed.

Definition capped (n : Z) (cap : bool) (b : Z * Z * Z) : Z * Z * Z :=
  let '(b0, b1, d) := b in
  if cap then if 0 <? d then (Z.max b0 0, Z.min b1 n, d) else (Z.min b0 (n - 1), Z.max b1 (-1), d) else b.

Lemma subinds_dir n crval crpix cdelt from to m cap eps d : ~ (cdelt == 0)%Q -> okdir d cdelt from to ->
  subinds n crval crpix cdelt from to m cap false eps =
  capped n cap (round_lo m (s2p crval crpix cdelt from + eps), round_hi m (s2p crval crpix cdelt to + eps), d).
Proof.
  intros Hc Hd. destruct (okdir_s2p d crval crpix cdelt from to Hc Hd) as [E _]. unfold subinds, skybox2pixbox. cbn [andb]. rewrite E. reflexivity.
Qed.
Lemma subinds_noflip n crval crpix cdelt from to m cap eps d : ~ (cdelt == 0)%Q -> okdir d cdelt from to ->
  subinds n crval crpix cdelt from to m cap true eps =
  capped n cap (round_lo m (s2p crval crpix cdelt (if d <? 0 then to else from) + eps), round_hi m (s2p crval crpix cdelt (if d <? 0 then from else to) + eps), 1).
Proof.
  intros Hc Hd. destruct (okdir_s2p d crval crpix cdelt from to Hc Hd) as [E _]. unfold subinds, skybox2pixbox. cbn [andb]. rewrite E.
  destruct Hd as [[Ed|Ed] _]; subst d; reflexivity.
Qed.

(* consecutive selections make up the whole one *)
Lemma zrange_join a b c n : a <= b <= c -> zrange (Z.max a 0) (Z.min b n) ++ zrange (Z.max b 0) (Z.min c n) = zrange (Z.max a 0) (Z.min c n).
Proof.
  intros H. destruct (Z_le_gt_dec b 0).
  - rewrite (zrange_empty (Z.max a 0)) by lia. cbn [app]. f_equal; lia.
  - destruct (Z_le_gt_dec n b).
    + rewrite (zrange_empty (Z.max b 0)) by lia. rewrite app_nil_r. f_equal; lia.
    + destruct (Z_le_gt_dec (Z.max a 0) b).
      * rewrite (zrange_split (Z.max a 0) b (Z.min c n)) by lia. f_equal; f_equal; lia.
      * rewrite !(zrange_empty (Z.max a 0)) by lia. rewrite zrange_empty by lia. reflexivity.
Qed.
Lemma raw_join n cap a b c d : d = 1 \/ d = -1 -> 0 <= d * (b - a) -> 0 <= d * (c - b) ->
  raw_sel (capped n cap (a, b, d)) ++ raw_sel (capped n cap (b, c, d)) = raw_sel (capped n cap (a, c, d)).
Proof.
  intros [E|E] H1 H2; subst d; unfold capped; destruct cap; cbn [Z.ltb Z.compare]; rewrite ?raw_up, ?raw_down.
  - apply zrange_join. lia.
  - rewrite (zrange_split a b c) by lia. reflexivity.
  - rewrite <- map_app. f_equal.
    assert (H3 : forall x, - Z.min x (n - 1) = Z.max (- x - 1 + n) 0 - n + 1) by lia.
    assert (H4 : forall x, - Z.max x (-1) = Z.min (- x - 1 + n) n - n + 1) by lia.
    rewrite !H3, !H4.
    assert (Hs : forall x y, zrange (x - n + 1) (y - n + 1) = map (fun i => (1 - n) + 1 * i) (zrange x y)).
    { intros x y. destruct (Z_le_gt_dec y x); [rewrite !zrange_empty by lia; reflexivity|].
      replace (zrange x y) with (map (fun i => x + 1 * i) (zrange 0 (y - x))) by (rewrite map_add_zrange; f_equal; lia).
      rewrite map_map. replace (zrange (x - n + 1) (y - n + 1)) with (map (fun i => (x - n + 1) + 1 * i) (zrange 0 (y - x))) by (rewrite map_add_zrange; f_equal; lia).
      apply map_ext. intros i. lia. }
    rewrite !Hs, <- map_app. f_equal. apply zrange_join. lia.
  - rewrite <- map_app. f_equal. symmetry. apply zrange_split. lia.
Qed.

Lemma okdir_iff e cdelt from to : ~ (cdelt == 0)%Q -> (e = 1 \/ e = -1) -> (0 < inject_Z e * (to - from))%Q -> okdir (e * qsgn cdelt) cdelt from to.
Proof.
  intros Hc He H. destruct (Qlt_le_dec 0 cdelt) as [P|P].
  - rewrite (qsgn_pos _ P). assert (Hi : (0 < / cdelt)%Q) by (apply Qinv_lt_0_compat; exact P). split; [lia|].
    replace (e * 1) with e by lia. unfold Qdiv. rewrite Qmult_assoc. rewrite <- (Qmult_0_l (/ cdelt)). apply Qmult_lt_compat_r; assumption.
  - assert (P' : (cdelt < 0)%Q) by (apply Qle_lteq in P as [P|P]; [exact P|contradiction]).
    rewrite (qsgn_neg _ P'). assert (Hi : (0 < / - cdelt)%Q) by (apply Qinv_lt_0_compat; lra). split; [lia|].
    assert (E : (inject_Z (e * -1) * ((to - from) / cdelt) == (inject_Z e * (to - from)) * (/ - cdelt))%Q) by (rewrite inject_Z_mult; change (inject_Z (-1)) with (-1)%Q; field; exact Hc).
    rewrite E. rewrite <- (Qmult_0_l (/ - cdelt)). apply Qmult_lt_compat_r; assumption.
Qed.

Lemma rl_dir m d crval crpix cdelt eps from to : ~ (cdelt == 0)%Q -> okdir d cdelt from to ->
  0 <= d * (round_lo m (s2p crval crpix cdelt to + eps) - round_lo m (s2p crval crpix cdelt from + eps)).
Proof.
  intros Hc Hd. destruct (okdir_s2p d crval crpix cdelt from to Hc Hd) as [_ H]. destruct Hd as [[E|E] _]; subst d.
  - change (inject_Z 1) with 1%Q in H. assert (G : round_lo m (s2p crval crpix cdelt from + eps) <= round_lo m (s2p crval crpix cdelt to + eps)) by (apply round_lo_mono; lra). lia.
  - change (inject_Z (-1)) with (-1)%Q in H. assert (G : round_lo m (s2p crval crpix cdelt to + eps) <= round_lo m (s2p crval crpix cdelt from + eps)) by (apply round_lo_mono; lra). lia.
Qed.

Lemma touch2 n crval crpix cdelt m cap eps e x y z : ~ (cdelt == 0)%Q -> (e = 1 \/ e = -1) -> m <> MInclusive -> m <> MExclusive ->
  (0 < inject_Z e * (y - x))%Q -> (0 < inject_Z e * (z - y))%Q ->
  raw_sel (subinds n crval crpix cdelt x y m cap false eps) ++ raw_sel (subinds n crval crpix cdelt y z m cap false eps) =
  raw_sel (subinds n crval crpix cdelt x z m cap false eps).
Proof.
  intros Hc He M1 M2 Hxy Hyz. assert (Hxz : (0 < inject_Z e * (z - x))%Q) by lra.
  rewrite (subinds_dir n crval crpix cdelt x y m cap eps _ Hc (okdir_iff _ _ _ _ Hc He Hxy)).
  rewrite (subinds_dir n crval crpix cdelt y z m cap eps _ Hc (okdir_iff _ _ _ _ Hc He Hyz)).
  rewrite (subinds_dir n crval crpix cdelt x z m cap eps _ Hc (okdir_iff _ _ _ _ Hc He Hxz)).
  rewrite !round_lohi by assumption. apply raw_join.
  - apply (okdir_iff e cdelt x y Hc He Hxy).
  - apply rl_dir; [exact Hc|]. apply okdir_iff; assumption.
  - apply rl_dir; [exact Hc|]. apply okdir_iff; assumption.
Qed.

Lemma runs_last e l : forall x y d, runs e (x :: y :: l) -> (0 < inject_Z e * (last (y :: l) d - x))%Q.
Proof.
  induction l as [|z l IH]; intros x y d H.
  - cbn [last]. apply H.
  - destruct H as [H1 H2]. specialize (IH y z d H2). change (last (y :: z :: l) d) with (last (z :: l) d). lra.
Qed.

Lemma touch_list n crval crpix cdelt m cap eps e l : ~ (cdelt == 0)%Q -> (e = 1 \/ e = -1) -> m <> MInclusive -> m <> MExclusive ->
  forall x y, runs e (x :: y :: l) ->
  concat (map (fun p => raw_sel (subinds n crval crpix cdelt (fst p) (snd p) m cap false eps)) (pairs (x :: y :: l))) =
  raw_sel (subinds n crval crpix cdelt x (last (y :: l) x) m cap false eps).
Proof.
  intros Hc He M1 M2. induction l as [|z l IH]; intros x y H.
  - cbn. apply app_nil_r.
  - change (pairs (x :: y :: z :: l)) with ((x, y) :: pairs (y :: z :: l)). cbn [map concat fst snd]. destruct H as [H1 H2]. rewrite IH by exact H2.
    assert (Hl : last (z :: l) y = last (y :: z :: l) x) by (clear; revert z; induction l as [|w l IH]; intros z; [reflexivity|]; change (last (z :: w :: l) y) with (last (w :: l) y); rewrite IH; reflexivity).
    rewrite Hl. apply (touch2 n crval crpix cdelt m cap eps e); auto. apply (runs_last e (l) y z x H2).
Qed.

(** capping *)
Lemma filter_zrange a b n : filter (fun k => (0 <=? k) && (k <? n)) (zrange a b) = zrange (Z.max a 0) (Z.min b n).
Proof.
  unfold zrange at 1. remember (Z.to_nat (b - a)) as t eqn:Et. revert a Et. induction t as [|t IH]; intros a Et.
  - cbn. rewrite zrange_empty by lia. reflexivity.
  - cbn [zseq filter]. rewrite IH by lia. destruct (Z.leb_spec 0 a) as [L|L].
    + destruct (Z.ltb_spec a n) as [L2|L2]; cbn [andb].
      * rewrite (zrange_cons (Z.max a 0)) by lia. f_equal; [lia|f_equal; lia].
      * rewrite !zrange_empty by lia. reflexivity.
    + cbn [andb]. f_equal; lia.
Qed.
Lemma filter_map_opp (f : Z -> bool) l : filter f (map Z.opp l) = map Z.opp (filter (fun k => f (- k)) l).
Proof. induction l as [|x l IH]; cbn; [reflexivity|]. destruct (f (- x)); cbn; rewrite IH; reflexivity. Qed.
Lemma filter_shift (f : Z -> bool) s a b : filter f (zrange a b) = map (fun k => k - s) (filter (fun k => f (k - s)) (zrange (a + s) (b + s))).
Proof.
  unfold zrange. replace (b + s - (a + s)) with (b - a) by lia. generalize (Z.to_nat (b - a)) as t. intros t. revert a. induction t as [|t IH]; intros a; cbn [zseq filter map]; [reflexivity|].
  replace (a + s - s) with a by lia. replace (a + s + 1) with (a + 1 + s) by lia. destruct (f a); cbn [map]; rewrite IH; [f_equal; lia|reflexivity].
Qed.
Lemma zrange_shift s a b : zrange a b = map (fun k => k - s) (zrange (a + s) (b + s)).
Proof. pose proof (filter_shift (fun _ => true) s a b) as H. assert (F : forall l : list Z, filter (fun _ => true) l = l) by (induction l; cbn; congruence). rewrite !F in H. exact H. Qed.
Lemma capped_filter n a b d : d = 1 \/ d = -1 -> raw_sel (capped n true (a, b, d)) = filter (fun k => (0 <=? k) && (k <? n)) (raw_sel (a, b, d)).
Proof.
  intros [E|E]; subst d; unfold capped; cbn [Z.ltb Z.compare]; rewrite ?raw_up, ?raw_down.
  - symmetry. apply filter_zrange.
  - rewrite filter_map_opp. f_equal. rewrite (filter_shift _ (n - 1) (- a)).
    assert (Ef : filter (fun k => (0 <=? - (k - (n - 1))) && (- (k - (n - 1)) <? n)) (zrange (- a + (n - 1)) (- b + (n - 1))) = filter (fun k => (0 <=? k) && (k <? n)) (zrange (- a + (n - 1)) (- b + (n - 1)))).
    { apply filter_ext. intros k. lia. }
    rewrite Ef, filter_zrange. rewrite (zrange_shift (n - 1)). f_equal. f_equal; lia.
Qed.

Lemma subinds_cap n crval crpix cdelt from to m eps e : ~ (cdelt == 0)%Q -> (e = 1 \/ e = -1) -> (0 < inject_Z e * (to - from))%Q ->
  raw_sel (subinds n crval crpix cdelt from to m true false eps) =
  filter (fun k => (0 <=? k) && (k <? n)) (raw_sel (subinds n crval crpix cdelt from to m false false eps)).
Proof.
  intros Hc He H. pose proof (okdir_iff _ _ _ _ Hc He H) as Hd.
  rewrite !(subinds_dir n crval crpix cdelt from to m _ eps _ Hc Hd). apply capped_filter. apply Hd.
Qed.

(** submap *)
Lemma slice_axis_up n cp cd a b : slice_axis n cp cd (slice_of (a, b, 1)) true =
  (b - a, ((cp - (inject_Z a + (1 # 2))) / 1 + (1 # 2))%Q, (cd * 1)%Q).
Proof. unfold slice_axis, slice_of, expand_slice, es_step. cbn [ps_start ps_stop ps_step Z.eqb Z.ltb Z.compare es_cycle es_default Z.sgn]. rewrite Z.div_1_r. f_equal. f_equal. lia. Qed.

Lemma rev_len n : 0 <= n -> py_len rev_sl n = n.
Proof. intros H. unfold py_len, py_start, py_stop, rev_sl, py_step. cbn [ps_start ps_stop ps_step Z.ltb Z.compare Z.opp]. rewrite Z.div_1_r. destruct (Z.ltb_spec (-1) (n - 1)); lia. Qed.
Lemma all_len n : 0 <= n -> py_len sl_all n = n.
Proof. intros H. unfold py_len, py_start, py_stop, sl_all, py_step. cbn [ps_start ps_stop ps_step Z.ltb Z.compare]. rewrite Z.div_1_r. destruct (Z.ltb_spec 0 n); lia. Qed.
Lemma rev_at n j : sl_at rev_sl n j = n - 1 - j.
Proof. unfold sl_at, py_start, rev_sl, py_step. cbn [ps_start ps_step Z.ltb Z.compare]. lia. Qed.
Lemma all_at n j : sl_at sl_all n j = j.
Proof. unfold sl_at, py_start, sl_all, py_step. cbn [ps_start ps_step Z.ltb Z.compare]. lia. Qed.
Lemma rev_axis n cp cd cv j : 0 <= n -> let '(_, cp', cd') := slice_axis n cp cd rev_sl false in
  (sky_at cv cp' cd' (inject_Z j) == sky_at cv cp cd (inject_Z (n - 1 - j)))%Q.
Proof.
  intros Hn. unfold slice_axis, expand_slice, rev_sl, es_step. cbn [ps_start ps_stop ps_step Z.eqb Z.ltb Z.compare es_cycle es_default].
  replace (if 0 <=? n - 1 then Z.min (n - 1) n else n + (n - 1)) with (n - 1) by (destruct (Z.leb_spec 0 (n - 1)); lia).
  unfold sky_at. replace (n - 1 + 1) with n by lia. unfold Z.sub. rewrite !inject_Z_plus, !inject_Z_opp. change (inject_Z (-1)) with (-1)%Q. change (inject_Z 1) with 1%Q. field.
Qed.
Lemma all_axis n cp cd cv j : 0 <= n -> let '(_, cp', cd') := slice_axis n cp cd sl_all false in
  (sky_at cv cp' cd' (inject_Z j) == sky_at cv cp cd (inject_Z j))%Q.
Proof.
  intros Hn. unfold slice_axis, expand_slice, sl_all, es_step. cbn [ps_start ps_stop ps_step Z.eqb Z.ltb Z.compare es_cycle es_default Z.leb].
  replace (Z.min 0 n) with 0 by lia. unfold sky_at. change (inject_Z 0) with 0%Q. change (inject_Z 1) with 1%Q. field.
Qed.

Lemma flip_y {A} (o : fmap A) : 0 <= f_ny (fm_arr o) -> 0 <= f_nx (fm_arr o) -> let r := getmap o rev_sl sl_all in
  f_ny (fm_arr r) = f_ny (fm_arr o) /\ f_nx (fm_arr r) = f_nx (fm_arr o) /\
  forall i j, f_at (fm_arr r) i j = f_at (fm_arr o) (f_ny (fm_arr o) - 1 - i) j /\ same_sky_at (fm_wcs r) (fm_wcs o) i j (f_ny (fm_arr o) - 1 - i) j.
Proof.
  intros H1 H2 r. unfold r, getmap, get2. cbn [fm_arr fm_wcs f_ny f_nx f_at]. rewrite rev_len, all_len by assumption. split; [reflexivity|]. split; [reflexivity|].
  intros i j. rewrite rev_at, all_at. split; [reflexivity|]. unfold slice_geometry, same_sky_at, sky_y, sky_x.
  pose proof (rev_axis (f_ny (fm_arr o)) (crpix_y (fm_wcs o)) (cdelt_y (fm_wcs o)) (crval_y (fm_wcs o)) i H1) as Ry.
  pose proof (all_axis (f_nx (fm_arr o)) (crpix_x (fm_wcs o)) (cdelt_x (fm_wcs o)) (crval_x (fm_wcs o)) j H2) as Rx.
  destruct (slice_axis (f_ny (fm_arr o)) _ _ _ _) as [[? ?] ?]. destruct (slice_axis (f_nx (fm_arr o)) _ _ _ _) as [[? ?] ?].
  cbn [snd crval_x crpix_x cdelt_x crval_y crpix_y cdelt_y]. split; assumption.
Qed.
Lemma flip_x {A} (o : fmap A) : 0 <= f_ny (fm_arr o) -> 0 <= f_nx (fm_arr o) -> let r := getmap o sl_all rev_sl in
  f_ny (fm_arr r) = f_ny (fm_arr o) /\ f_nx (fm_arr r) = f_nx (fm_arr o) /\
  forall i j, f_at (fm_arr r) i j = f_at (fm_arr o) i (f_nx (fm_arr o) - 1 - j) /\ same_sky_at (fm_wcs r) (fm_wcs o) i j i (f_nx (fm_arr o) - 1 - j).
Proof.
  intros H1 H2 r. unfold r, getmap, get2. cbn [fm_arr fm_wcs f_ny f_nx f_at]. rewrite rev_len, all_len by assumption. split; [reflexivity|]. split; [reflexivity|].
  intros i j. rewrite rev_at, all_at. split; [reflexivity|]. unfold slice_geometry, same_sky_at, sky_y, sky_x.
  pose proof (all_axis (f_ny (fm_arr o)) (crpix_y (fm_wcs o)) (cdelt_y (fm_wcs o)) (crval_y (fm_wcs o)) i H1) as Ry.
  pose proof (rev_axis (f_nx (fm_arr o)) (crpix_x (fm_wcs o)) (cdelt_x (fm_wcs o)) (crval_x (fm_wcs o)) j H2) as Rx.
  destruct (slice_axis (f_ny (fm_arr o)) _ _ _ _) as [[? ?] ?]. destruct (slice_axis (f_nx (fm_arr o)) _ _ _ _) as [[? ?] ?].
  cbn [snd crval_x crpix_x cdelt_x crval_y crpix_y cdelt_y]. split; assumption.
Qed.

(* the unflipped box that flip_slice reads *)
Lemma flip_slice_spec b0 b1 d : d = 1 \/ d = -1 -> exists fl a c, flip_slice (b0, b1, d) = (fl, slice_of (a, c, 1)) /\ c - a = d * (b1 - b0) /\
  forall k, 0 <= k < c - a -> b0 + d * k = a + (if fl then c - a - 1 - k else k).
Proof.
  intros [E|E]; subst d; unfold flip_slice; cbn [Z.leb Z.compare Z.opp].
  - exists false, b0, b1. split; [reflexivity|]. split; [lia|]. intros k Hk. lia.
  - exists true, (b1 - -1), (b0 - -1). split; [reflexivity|]. split; [lia|]. intros k Hk. lia.
Qed.

Lemma submap_spec {A} (m : fmap A) box mode plain wrap cval wy wx by0 by1 dy bx0 bx1 dx :
  0 < f_ny (fm_arr m) -> 0 < f_nx (fm_arr m) ->
  ~ (cdelt_x (fm_wcs m) == 0)%Q -> ~ (cdelt_y (fm_wcs m) == 0)%Q ->
  wrap_lens (fm_wcs m) (f_nx (fm_arr m)) plain wrap = (wy, wx) -> wrap_ok wy (f_ny (fm_arr m)) -> wrap_ok wx (f_nx (fm_arr m)) ->
  subinds2 (f_ny (fm_arr m), f_nx (fm_arr m)) (fm_wcs m) box mode false false = ((by0, by1, dy), (bx0, bx1, dx)) ->
  dy = 1 \/ dy = -1 -> dx = 1 \/ dx = -1 -> 0 <= dy * (by1 - by0) -> 0 <= dx * (bx1 - bx0) ->
  exists o, submap m box mode plain wrap cval = Some o /\
    f_ny (fm_arr o) = dy * (by1 - by0) /\ f_nx (fm_arr o) = dx * (bx1 - bx0) /\
    forall i j, 0 <= i < dy * (by1 - by0) -> 0 <= j < dx * (bx1 - bx0) ->
      same_sky_at (fm_wcs o) (fm_wcs m) i j (by0 + dy * i) (bx0 + dx * j) /\
      f_at (fm_arr o) i j = match source wy (f_ny (fm_arr m)) (by0 + dy * i), source wx (f_nx (fm_arr m)) (bx0 + dx * j) with
                            | Some y, Some x => f_at (fm_arr m) y x | _, _ => cval end.
Proof.
  intros Hny Hnx Cx Cy Ew Wy Wx Eb Hdy Hdx Ly Lx. unfold submap. rewrite Eb.
  destruct (flip_slice_spec by0 by1 dy Hdy) as (fy & ay & cy & -> & Ny & Ky).
  destruct (flip_slice_spec bx0 bx1 dx Hdx) as (fx & ax & cx & -> & Nx & Kx).
  unfold slice_geometry. rewrite !slice_axis_up.
  match goal with |- context [extract m ?s ?w _ _ _] => destruct (C05_extract_partial m s w plain wrap cval wy wx ay ax) as (o & Eo & Wo & O1 & O2 & Ho) end;
    cbn [fst snd crval_x crpix_x cdelt_x crval_y crpix_y cdelt_y]; try assumption; try lia.
  { ring. } { ring. }
  { rewrite Qmult_1_r. exact Cx. } { rewrite Qmult_1_r. exact Cy. }
  { unfold same_sky_at, sky_y, sky_x, sky_at. cbn [crval_x crpix_x cdelt_x crval_y crpix_y cdelt_y]. change (inject_Z 0) with 0%Q. split; field. }
  rewrite Eo. cbn [fst snd] in O1, O2, Ho. eexists. split; [reflexivity|].
  assert (Fy : forall i j, 0 <= i < cy - ay -> 0 <= j < cx - ax ->
    let o1 := if fy then getmap o rev_sl sl_all else o in
    f_ny (fm_arr o1) = cy - ay /\ f_nx (fm_arr o1) = cx - ax /\
    same_sky_at (fm_wcs o1) (fm_wcs m) i j (by0 + dy * i) (ax + j) /\
    f_at (fm_arr o1) i j = match source wy (f_ny (fm_arr m)) (by0 + dy * i), source wx (f_nx (fm_arr m)) (ax + j) with Some y, Some x => f_at (fm_arr m) y x | _, _ => cval end).
  { intros i j Hi Hj. cbv zeta. rewrite Ky by exact Hi. destruct fy.
    - destruct (flip_y o) as (G1 & G2 & G3); [lia|lia|]. rewrite G1, G2. split; [exact O1|]. split; [exact O2|]. destruct (G3 i j) as [Ga [Gb Gc]]. rewrite Ga. rewrite O1 in *.
      destruct (Ho (cy - ay - 1 - i) j) as [[Sa Sb] Sc]; [lia|lia|]. split; [|exact Sc].
      split; [rewrite Gb; exact Sa|rewrite Gc; exact Sb].
    - split; [exact O1|]. split; [exact O2|]. apply Ho; assumption. }
  assert (Fd : let o1 := if fy then getmap o rev_sl sl_all else o in f_ny (fm_arr o1) = cy - ay /\ f_nx (fm_arr o1) = cx - ax).
  { cbv zeta. destruct fy; [|split; assumption]. destruct (flip_y o) as (G1 & G2 & _); [lia|lia|]. split; congruence. }
  cbv zeta in Fy, Fd. set (o1 := if fy then getmap o rev_sl sl_all else o) in *. destruct Fd as [D1 D2].
  destruct fx.
  - destruct (flip_x o1) as (G1 & G2 & G3); [lia|lia|]. rewrite G1, G2. split; [lia|]. split; [lia|].
    intros i j Hi Hj. rewrite Kx by lia. destruct (G3 i j) as [Ga [Gb Gc]]. rewrite Ga. rewrite D2 in *.
    destruct (Fy i (cx - ax - 1 - j)) as (_ & _ & [Sa Sb] & Sc); [lia|lia|]. split; [|exact Sc]. split; [rewrite Gb; exact Sa|rewrite Gc; exact Sb].
  - split; [lia|]. split; [lia|]. intros i j Hi Hj. rewrite Kx by lia. destruct (Fy i j) as (_ & _ & S & Sc); [lia|lia|]. split; assumption.
Qed.
