From Verif Require Import Base SliceSpec ArrModel ArrLemmas PixModel PixLemmas2 PixLemmas3 BlockSpec BlockModel BlockLemmas FresSpec FresModel.

(* where entry i of the output comes from *)
Definition fsrc (n o i : Z) : option Z :=
  let c := Z.min n o in let h := c / 2 in
  if (0 <=? i) && (i <? h) then Some i else if (o - (c - h) <=? i) && (i <? o) then Some (i - o + n) else None.

Lemma half c : 0 < c -> 0 <= c / 2 < c.
Proof. intros H. pose proof (Z.div_mod c 2 ltac:(lia)). pose proof (Z.mod_pos_bound c 2 ltac:(lia)). lia. Qed.

Lemma find_lo h n k : 0 <= h <= n -> sl_find (sl_to h) n k = if (0 <=? k) && (k <? h) then Some k else None.
Proof. intros H. destruct (sl_to_facts h n H) as (E1 & E2 & E3). rewrite sl_find_step1 by exact E2. rewrite E1, E3, Z.sub_0_r. reflexivity. Qed.
Lemma find_hi a n k : 0 < a <= n -> sl_find (sl_from (- a)) n k = if (n - a <=? k) && (k <? n) then Some (k - (n - a)) else None.
Proof.
  intros H. destruct (sl_from_facts a n H) as (E1 & E2 & E3). rewrite sl_find_step1 by exact E2. rewrite E1, E3.
  destruct (_ && _) eqn:F, (_ && _) eqn:G in |- *; try reflexivity; lia.
Qed.

(* a slice that keeps the first entries or the last ones *)
Definition ends (s : pyslice) (n o : Z) (f : Z -> option Z) : Prop :=
  py_len s n = py_len s o /\ (forall k, sl_find s o k = match f k with Some j => Some (j - sl_at s n 0) | None => None end) /\ (forall k, f k <> None -> sl_find s o k <> None) /\ (forall j, sl_at s n j = sl_at s n 0 + j) .

Lemma ends_lo h n o : 0 <= h <= n -> h <= o -> ends (sl_to h) n o (fun k => if (0 <=? k) && (k <? h) then Some k else None).
Proof.
  intros H H'. destruct (sl_to_facts h n ltac:(lia)) as (E1 & E2 & E3). destruct (sl_to_facts h o ltac:(lia)) as (_ & _ & F3).
  unfold ends. rewrite E3, F3. split; [reflexivity|]. unfold sl_at. rewrite E1, E2. split; [|split].
  - intros k. rewrite find_lo by lia. destruct (_ && _); [f_equal; lia|reflexivity].
  - intros k. rewrite find_lo by lia. destruct (_ && _); congruence.
  - intros j. lia.
Qed.
Lemma ends_hi a n o : 0 < a <= n -> a <= o -> ends (sl_from (- a)) n o (fun k => if (o - a <=? k) && (k <? o) then Some (k - o + n) else None).
Proof.
  intros H H'. destruct (sl_from_facts a n ltac:(lia)) as (E1 & E2 & E3). destruct (sl_from_facts a o ltac:(lia)) as (_ & _ & F3).
  unfold ends. rewrite E3, F3. split; [reflexivity|]. unfold sl_at. rewrite E1, E2. split; [|split].
  - intros k. rewrite find_hi by lia. destruct (_ && _); [f_equal; lia|reflexivity].
  - intros k. rewrite find_hi by lia. destruct (_ && _); congruence.
  - intros j. lia.
Qed.

Lemma sl_find_at s n k j : sl_find s n k = Some j -> sl_at s n j = k.
Proof. unfold sl_find, sl_at. destruct (_ && _) eqn:E; [|discriminate]. intros H. apply Some_inj in H. subst j. lia. Qed.

Lemma transfer_spec {A} nrm op (fi out : farr A) sy sx fy fx : ends sy (f_ny fi) (f_ny out) fy -> ends sx (f_nx fi) (f_nx out) fx ->
  exists o, transfer nrm op fi sy sx out = Some o /\ f_ny o = f_ny out /\ f_nx o = f_nx out /\
  forall y x, f_at o y x = match fy y, fx x with Some i, Some j => op (f_at out y x) (nrm (f_at fi i j)) | _, _ => f_at out y x end.
Proof.
  intros (Ly & Fy & _ & Ay) (Lx & Fx & _ & Ax). unfold transfer, zip2, get2. cbn [f_ny f_nx f_at]. rewrite Ly, Lx, !Z.eqb_refl. cbn [andb bind]. unfold set2. cbn [f_ny f_nx f_at]. rewrite !Z.eqb_refl. cbn [andb].
  eexists. split; [reflexivity|]. cbn [f_ny f_nx f_at]. split; [reflexivity|]. split; [reflexivity|]. intros y x.
  pose proof (sl_find_at sy (f_ny out) y) as Gy. pose proof (sl_find_at sx (f_nx out) x) as Gx. rewrite Fy in *. rewrite Fx in *. destruct (fy y) as [i|]; [|reflexivity]. destruct (fx x) as [j|]; [|reflexivity].
  rewrite (Gy _ eq_refl), (Gx _ eq_refl). rewrite (Ay (i - _)), (Ax (j - _)). f_equal. f_equal. f_equal; lia.
Qed.

Lemma resample_fft_spec {A} (zero : A) nrm op fi oy ox : 0 < f_ny fi -> 0 < f_nx fi -> 0 < oy -> 0 < ox ->
  exists o, resample_fft zero nrm op fi oy ox = Some o /\ f_ny o = oy /\ f_nx o = ox /\
  forall y x, f_at o y x = match fsrc (f_ny fi) oy y, fsrc (f_nx fi) ox x with Some i, Some j => op zero (nrm (f_at fi i j)) | _, _ => zero end.
Proof.
  intros H1 H2 H3 H4. unfold resample_fft. set (cy := Z.min (f_ny fi) oy). set (cx := Z.min (f_nx fi) ox).
  pose proof (half cy ltac:(lia)). pose proof (half cx ltac:(lia)). unfold full2. replace ((0 <=? oy) && (0 <=? ox)) with true by lia. cbn [bind].
  pose proof (ends_lo (cy / 2) (f_ny fi) oy ltac:(lia) ltac:(lia)) as Y1. pose proof (ends_hi (cy - cy / 2) (f_ny fi) oy ltac:(lia) ltac:(lia)) as Y2.
  pose proof (ends_lo (cx / 2) (f_nx fi) ox ltac:(lia) ltac:(lia)) as X1. pose proof (ends_hi (cx - cx / 2) (f_nx fi) ox ltac:(lia) ltac:(lia)) as X2.
  destruct (transfer_spec nrm op fi (FA oy ox (fun _ _ => zero)) _ _ _ _ Y1 X1) as (o1 & -> & N1 & M1 & V1). cbn [bind f_ny f_nx f_at] in *.
  rewrite <- N1 in Y1, Y2. rewrite <- M1 in X1, X2.
  destruct (transfer_spec nrm op fi o1 _ _ _ _ Y1 X2) as (o2 & -> & N2 & M2 & V2). cbn [bind]. rewrite <- N2 in Y1, Y2. rewrite <- M2 in X1, X2.
  destruct (transfer_spec nrm op fi o2 _ _ _ _ Y2 X1) as (o3 & -> & N3 & M3 & V3). cbn [bind]. rewrite <- N3 in Y1, Y2. rewrite <- M3 in X1, X2.
  destruct (transfer_spec nrm op fi o3 _ _ _ _ Y2 X2) as (o4 & -> & N4 & M4 & V4). exists o4. split; [reflexivity|]. split; [lia|]. split; [lia|].
  intros y x. rewrite V4, V3, V2, V1. rewrite N3, N2, N1, M3, M2, M1. unfold fsrc. fold cy cx.
  destruct ((0 <=? y) && (y <? cy / 2)) eqn:E1; destruct ((oy - (cy - cy / 2) <=? y) && (y <? oy)) eqn:E2; try lia;
  destruct ((0 <=? x) && (x <? cx / 2)) eqn:E3; destruct ((ox - (cx - cx / 2) <=? x) && (x <? ox)) eqn:E4; try lia; reflexivity.
Qed.

(* even common size: the frequency is kept *)
Lemma fsrc_freq n o k : 0 < n -> 0 < o -> Z.even (Z.min n o) = true -> has_freq (Z.min n o) k -> fsrc n o (fidx o k) = Some (fidx n k).
Proof.
  intros Hn Ho He Hk. apply Z.even_spec in He as [c Hc]. unfold has_freq in Hk. unfold fsrc, fidx. rewrite Hc in *. replace (2 * c / 2) with c by (rewrite Z.mul_comm, Z.div_mul; lia).
  destruct (0 <=? k) eqn:E.
  - replace ((0 <=? k) && (k <? c)) with true by lia. reflexivity.
  - replace ((0 <=? o + k) && (o + k <? c)) with false by lia. replace ((o - (2 * c - c) <=? o + k) && (o + k <? o)) with true by lia. f_equal. lia.
Qed.
Lemma fsrc_none n o i : 0 < n -> 0 < o -> Z.even (Z.min n o) = true -> 0 <= i < o -> ~ has_freq (Z.min n o) (sfreq o i) -> fsrc n o i = None.
Proof.
  intros Hn Ho He Hi Hk. apply Z.even_spec in He as [c Hc]. unfold has_freq, sfreq in Hk. unfold fsrc. rewrite Hc in *. replace (2 * c / 2) with c by (rewrite Z.mul_comm, Z.div_mul; lia).
  destruct (2 * i <? o) eqn:E; destruct (_ && _) eqn:F; try lia; destruct (_ && _) eqn:G in |- *; try lia; reflexivity.
Qed.
(* any common size: the frequencies other than the largest of an odd size *)
Lemma fsrc_freq_odd n o k : 0 < n -> 0 < o -> has_freq (Z.min n o) k -> has_freq (Z.min n o) (k + 1) \/ Z.even (Z.min n o) = true -> fsrc n o (fidx o k) = Some (fidx n k).
Proof.
  intros Hn Ho Hk [Hk'|He]; [|apply fsrc_freq; assumption]. unfold has_freq in *. unfold fsrc, fidx. set (c := Z.min n o) in *. pose proof (Z.div_mod c 2 ltac:(lia)). pose proof (Z.mod_pos_bound c 2 ltac:(lia)).
  destruct (0 <=? k) eqn:E.
  - replace ((0 <=? k) && (k <? c / 2)) with true by lia. reflexivity.
  - replace ((0 <=? o + k) && (o + k <? c / 2)) with false by lia. replace ((o - (c - c / 2) <=? o + k) && (o + k <? o)) with true by lia. f_equal. lia.
Qed.

(* up and back *)
Lemma fsrc_back n o i : 0 < n <= o -> 0 <= i < n -> exists j, fsrc o n i = Some j /\ fsrc n o j = Some i.
Proof.
  intros Hn Hi. unfold fsrc. rewrite (Z.min_r o n), (Z.min_l n o) by lia. pose proof (half n ltac:(lia)).
  destruct ((0 <=? i) && (i <? n / 2)) eqn:E.
  - exists i. rewrite E. auto.
  - replace ((n - (n - n / 2) <=? i) && (i <? n)) with true by lia. exists (i - n + o). split; [reflexivity|].
    replace ((0 <=? i - n + o) && (i - n + o <? n / 2)) with false by lia. replace ((o - (n - n / 2) <=? i - n + o) && (i - n + o <? o)) with true by lia. f_equal. lia.
Qed.

(* the list version does the same *)
Lemma psl_sub {A} (l : list A) a b : 0 <= a -> a <= b -> b <= zlen l -> psl l a b = sub l a b.
Proof. intros H1 H2 H3. unfold psl, sub. replace (a <? 0) with false by lia. replace (b <? 0) with false by lia. rewrite !Z.min_l by lia. reflexivity. Qed.

Lemma zget_sub_in {A} (l : list A) a b k : 0 <= a -> 0 <= k < b - a -> zget (sub l a b) k = zget l (a + k).
Proof. intros H K. rewrite zget_sub by lia. replace ((0 <=? k) && (k <? b - a)) with true by lia. reflexivity. Qed.

Lemma resample_axis_spec {A} (zero : A) fd n : 0 < zlen fd -> 0 < n ->
  zlen (resample_axis zero fd n) = n /\
  forall i, 0 <= i < n -> zget (resample_axis zero fd n) i = match fsrc (zlen fd) n i with Some j => zget fd j | None => Some zero end.
Proof.
  intros H1 H2. unfold resample_axis. pose proof (half (zlen fd) H1). pose proof (half n H2). destruct (0 <? n - zlen fd) eqn:E1; [|destruct (n - zlen fd <? 0) eqn:E2].
  - rewrite !psl_sub by lia. split.
    + rewrite !zlen_app, zlen_repeat, !zlen_sub by lia. lia.
    + intros i Hi. unfold fsrc. rewrite Z.min_l by lia. destruct (Z_lt_ge_dec i (zlen fd / 2)).
      * rewrite zget_app1 by (rewrite zlen_sub; lia). rewrite zget_sub_in by lia. replace ((0 <=? i) && (i <? zlen fd / 2)) with true by lia. f_equal; lia.
      * rewrite zget_app2 by (rewrite zlen_sub; lia). rewrite zlen_sub by lia. replace ((0 <=? i) && (i <? zlen fd / 2)) with false by lia.
        destruct ((n - (zlen fd - zlen fd / 2) <=? i) && (i <? n)) eqn:E.
        -- rewrite zget_app2 by (rewrite zlen_repeat; lia). rewrite zlen_repeat by lia. rewrite zget_sub_in by lia. f_equal; lia.
        -- rewrite zget_app1 by (rewrite zlen_repeat; lia). rewrite zget_repeat'. replace ((0 <=? i - (zlen fd / 2 - 0)) && (i - (zlen fd / 2 - 0) <? n - zlen fd)) with true by lia. reflexivity.
  - rewrite !psl_sub by lia. split.
    + rewrite !zlen_app, !zlen_sub by lia. lia.
    + intros i Hi. unfold fsrc. rewrite Z.min_r by lia. destruct (Z_lt_ge_dec i (n / 2)).
      * rewrite zget_app1 by (rewrite zlen_sub; lia). rewrite zget_sub_in by lia. replace ((0 <=? i) && (i <? n / 2)) with true by lia. f_equal; lia.
      * rewrite zget_app2 by (rewrite zlen_sub; lia). rewrite zlen_sub by lia. replace ((0 <=? i) && (i <? n / 2)) with false by lia.
        replace ((n - (n - n / 2) <=? i) && (i <? n)) with true by lia. rewrite zget_sub_in by lia. f_equal; lia.
  - assert (E : n = zlen fd) by lia. split; [lia|]. intros i Hi. rewrite <- E. unfold fsrc. rewrite Z.min_id.
    destruct (_ && _) eqn:F; [reflexivity|]. replace ((n - (n - n / 2) <=? i) && (i <? n)) with true by lia. f_equal; lia.
Qed.
