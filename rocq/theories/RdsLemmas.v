From Verif Require Import Base SliceSpec SboxSpec SboxModel SboxLemmas RangeLemmas ArrModel ArrLemmas PixModel PixLemmas RdsSpec RdsModel.
Ltac Zify.zify_post_hook ::= idtac.

(** the intersection along one axis *)
Definition iform (a b : sbox) (l : list sbox) : Prop :=
  (l = [] /\ forall k, ~ (In k (indices a) /\ In k (indices b))) \/
  (exists c m, 1 <= m /\ l = [(c, c + m * Z.lcm (snd a) (snd b), Z.lcm (snd a) (snd b))] /\ 0 < Z.lcm (snd a) (snd b) /\
     forall k, In k (indices (c, c + m * Z.lcm (snd a) (snd b), Z.lcm (snd a) (snd b))) <-> In k (indices a) /\ In k (indices b)).

Lemma seg_form a b r : 0 < snd a -> 0 < snd b -> In r (intersect_seg a b) ->
  exists c m, 1 <= m /\ r = (c, c + m * Z.lcm (snd a) (snd b), Z.lcm (snd a) (snd b)) /\ 0 < Z.lcm (snd a) (snd b).
Proof.
  intros Ha Hb. unfold intersect_seg.
  assert (G : forall x y, 0 < snd x -> 0 < snd y -> In r (seg_ord x y) ->
    exists c m, 1 <= m /\ r = (c, c + m * Z.lcm (snd x) (snd y), Z.lcm (snd x) (snd y)) /\ 0 < Z.lcm (snd x) (snd y)).
  { intros [[x0 x1] x2] [[y0 y1] y2]. cbn [snd]. intros Hx Hy. unfold seg_ord.
    replace (Z.abs x2) with x2 by lia. replace (Z.abs y2) with y2 by lia.
    destruct (pylcm_spec x2 y2 Hx Hy) as [E1 E2]. rewrite E1 in *. set (L := Z.lcm x2 y2) in *.
    destruct (filter _ _) as [|m t]; [intros []|]. set (q := (_ - (m + x0)) / L).
    destruct (_ <=? _) eqn:E; [intros []|]. intros [<-|[]]. exists (m + x0), (q + 1). split; [nia|]. split; [|exact E2].
    apply f_equal2; [|reflexivity]. apply f_equal2; [reflexivity|]. ring. }
  destruct (fst (fst b) <? fst (fst a)).
  - intros H. destruct (G b a Hb Ha H) as (c & m & H1 & H2 & H3). rewrite (Z.lcm_comm (snd b)) in *. eauto.
  - intros H. exact (G a b Ha Hb H).
Qed.

Lemma pos_box_step x : box_ok x -> snd (pos_box x) = Z.abs (snd x).
Proof.
  destruct x as [[a b] s]. intros [Hs _]. unfold pos_box, sbox_fix. cbn [snd]. destruct (s <? 0) eqn:E; cbn [sbox_flip snd]; lia.
Qed.
Lemma lcm_abs a b : Z.lcm (Z.abs a) (Z.abs b) = Z.lcm a b.
Proof. destruct (Z.abs_eq_or_opp a) as [->| ->], (Z.abs_eq_or_opp b) as [->| ->]; rewrite ?Z.lcm_opp_l, ?Z.lcm_opp_r; reflexivity. Qed.

Lemma inter1_form a b : box_ok a -> box_ok b -> iform a b (sbox_intersect_1d a b 0).
Proof.
  intros Ha Hb. pose proof (sbox_intersect_1d_spec a b Ha Hb) as H. cbv zeta in H. destruct H as (H1 & H2 & _).
  assert (F : forall r, In r (sbox_intersect_1d a b 0) -> exists c m, 1 <= m /\ r = (c, c + m * Z.lcm (snd a) (snd b), Z.lcm (snd a) (snd b)) /\ 0 < Z.lcm (snd a) (snd b)).
  { intros r. unfold sbox_intersect_1d. cbn [Z.eqb]. fold (pos_box a). fold (pos_box b). cbn [flat_map fst snd]. rewrite app_nil_r. intros Hr.
    destruct (pos_box_spec a Ha) as (_ & A2 & _), (pos_box_spec b Hb) as (_ & B2 & _).
    destruct (seg_form _ _ r A2 B2 Hr) as (c & m & G). rewrite !pos_box_step, lcm_abs in G by assumption. eauto. }
  destruct (sbox_intersect_1d a b 0) as [|r [|r2 l]].
  - left. split; [reflexivity|]. intros k Hk. apply H1 in Hk as (r & [] & _).
  - right. destruct (F r (or_introl eq_refl)) as (c & m & Hm & -> & HL). exists c, m. split; [exact Hm|]. split; [reflexivity|]. split; [exact HL|].
    intros k. rewrite <- H1. split; [intros Hk; eexists; split; [left; reflexivity|exact Hk]|intros (r & [<-|[]] & Hk); exact Hk].
  - cbn [length] in H2. lia.
Qed.

Lemma indices_min_eq c m c' m' L : 0 < L -> 1 <= m -> 1 <= m' ->
  (forall k, In k (indices (c, c + m * L, L)) <-> In k (indices (c', c' + m' * L, L))) -> c = c' /\ m = m'.
Proof.
  intros HL Hm Hm' H.
  assert (E1 : In c (indices (c', c' + m' * L, L))) by (apply H, In_indices_exact; [lia|lia|]; split; [nia|]; exists 0; lia).
  assert (E2 : In c' (indices (c, c + m * L, L))) by (apply H, In_indices_exact; [lia|lia|]; split; [nia|]; exists 0; lia).
  assert (E3 : In (c + (m - 1) * L) (indices (c', c' + m' * L, L))) by (apply H, In_indices_exact; [lia|lia|]; split; [nia|]; exists (m - 1); lia).
  assert (E4 : In (c' + (m' - 1) * L) (indices (c, c + m * L, L))) by (apply H, In_indices_exact; [lia|lia|]; split; [nia|]; exists (m' - 1); lia).
  apply In_indices_exact in E1, E2, E3, E4; try lia. split; [lia|]. assert (c = c') by lia. subst c'. nia.
Qed.

Lemma inter1_sym a b : box_ok a -> box_ok b -> sbox_intersect_1d a b 0 = sbox_intersect_1d b a 0.
Proof.
  intros Ha Hb. destruct (inter1_form a b Ha Hb) as [[E H]|(c & m & Hm & E & HL & H)], (inter1_form b a Hb Ha) as [[E' H']|(c' & m' & Hm' & E' & HL' & H')]; rewrite E, E'.
  - reflexivity.
  - exfalso. apply (H c'). apply and_comm, H'. apply In_indices_exact; [lia|lia|]. split; [nia|]. exists 0. lia.
  - exfalso. apply (H' c). apply and_comm, H. apply In_indices_exact; [lia|lia|]. split; [nia|]. exists 0. lia.
  - rewrite (Z.lcm_comm (snd b)) in *. destruct (indices_min_eq c m c' m' _ HL Hm Hm') as [-> ->]; [|reflexivity].
    intros k. rewrite H, H'. tauto.
Qed.

(** the slice of an array which a part of its box stands for *)
Lemma exact_slice a m s N : s <> 0 -> 1 <= m -> (forall j, 0 <= j < m -> 0 <= a + s * j < N) ->
  let d := sbox2slice (a, a + m * s, s) in py_start d N = a /\ py_len d N = m /\ py_step d = s.
Proof.
  intros Hs Hm Hj d. pose proof (Hj 0 ltac:(lia)) as H0. pose proof (Hj (m - 1) ltac:(lia)) as H1.
  assert (Hst : py_start d N = a).
  { unfold d, py_start, sbox2slice, py_adjust. cbn [ps_start]. destruct (a <? 0) eqn:E; [lia|]. destruct (N <=? a) eqn:E2; [lia|reflexivity]. }
  split; [exact Hst|]. split; [|reflexivity]. unfold py_len. rewrite Hst.
  assert (Hps : py_step d = s) by reflexivity. rewrite Hps.
  unfold py_stop. rewrite Hps. unfold d, sbox2slice. cbn [ps_stop]. unfold py_adjust.
  destruct (s <? 0) eqn:Es.
  - destruct (0 <=? a + m * s) eqn:Eb.
    + destruct (a + m * s <? 0) eqn:E1; [lia|]. destruct (N <=? a + m * s) eqn:E2; [nia|]. destruct (a + m * s <? a) eqn:E3; [|nia].
      replace (a - (a + m * s) - 1) with (m * - s - 1) by ring. enough ((m * - s - 1) / - s = m - 1) by lia.
      symmetry. apply Z.div_unique with (- s - 1); [lia|ring].
    + destruct (-1 <? a) eqn:E1; [|lia]. enough ((a - -1 - 1) / - s = m - 1) by lia.
      symmetry. apply Z.div_unique with (a + s * (m - 1)); [|ring]. left. split; [lia|]. nia.
  - destruct (0 <=? a + m * s) eqn:Eb; [|nia]. destruct (a + m * s <? 0) eqn:E1; [lia|]. destruct (N <=? a + m * s) eqn:E2.
    + destruct (a <? N) eqn:E3; [|lia]. enough ((N - a - 1) / s = m - 1) by lia.
      symmetry. apply Z.div_unique with (N - 1 - (a + s * (m - 1))); [|ring]. left. split; [lia|]. nia.
    + destruct (a <? a + m * s) eqn:E3; [|nia]. replace (a + m * s - a - 1) with (m * s - 1) by ring.
      enough ((m * s - 1) / s = m - 1) by lia. symmetry. apply Z.div_unique with (s - 1); [lia|ring].
Qed.

Lemma axis_fits b c m L : box_exact b -> 1 <= m -> 0 < L -> (snd b | L) -> (forall j, 0 <= j < m -> In (c + L * j) (indices b)) ->
  let d := sbox_div (c, c + m * L, L) b in let N := zlen (indices b) in
  sbox_size d = m /\ py_len (sbox2slice d) N = m /\ py_step (sbox2slice d) <> 0 /\
  (forall j, 0 <= j < m -> zget (indices b) (sl_at (sbox2slice d) N j) = Some (c + L * j)).
Proof.
  destruct b as [[b0 b1] q]. intros (Hq & n & Hn & ->) Hm HL [u Hu] Hin d N. cbn [snd] in Hu.
  assert (HN : N = n). { unfold N. rewrite indices_exact by lia. rewrite zlen_map, zrange_zlen. lia. }
  assert (Hi : forall j, 0 <= j < m -> exists i, 0 <= i < n /\ c + L * j = b0 + q * i).
  { intros j Hj. specialize (Hin j Hj). rewrite indices_exact in Hin by lia. apply in_map_iff in Hin as (i & Ei & Hi). apply zrange_In in Hi. exists i. split; [lia|lia]. }
  destruct (Hi 0 ltac:(lia)) as (i0 & Hi0 & Ei0).
  assert (Hu0 : u <> 0) by (intros ->; lia).
  assert (Ed : d = (i0, i0 + m * u, u)).
  { unfold d, sbox_div. rewrite !sbox_fix_exact; [|split; [exact Hq|eauto]|split; [lia|exists m; split; [lia|reflexivity]]].
    replace (L / q) with u by (rewrite Hu; symmetry; apply Z.div_mul; lia).
    replace ((c + m * L - c) / L) with m by (replace (c + m * L - c) with (m * L) by ring; symmetry; apply Z.div_mul; lia).
    replace ((c - b0) / q) with i0 by (replace (c - b0) with (i0 * q) by lia; symmetry; apply Z.div_mul; lia).
    apply f_equal2; [|reflexivity]. apply f_equal2; [reflexivity|]. ring. }
  assert (Hj : forall j, 0 <= j < m -> 0 <= i0 + u * j < n).
  { intros j Hj. destruct (Hi j Hj) as (i & H1 & H2). assert (i = i0 + u * j) by nia. lia. }
  rewrite Ed, HN. destruct (exact_slice i0 m u n Hu0 Hm Hj) as (H1 & H2 & H3).
  split; [apply sbox_size_exact; lia|]. split; [exact H2|]. split; [rewrite H3; exact Hu0|].
  intros j Hjm. unfold sl_at. rewrite H1, H3. rewrite zget_indices_exact by lia. specialize (Hj j Hjm).
  replace (_ && _) with true by (symmetry; rewrite andb_true_iff; lia). f_equal. destruct (Hi j Hjm) as (i & Hii & Hii2). nia.
Qed.

(** arrays as flat lists *)
Definition grid {A} (ny nx : Z) (f : Z -> Z -> A) : list A := flat_map (fun y => map (f y) (zrange 0 nx)) (zrange 0 ny).

Lemma grid_snoc {A} n nx (f : Z -> Z -> A) : 0 <= n -> grid (n + 1) nx f = grid n nx f ++ map (f n) (zrange 0 nx).
Proof. intros Hn. unfold grid. rewrite zrange_snoc by lia. rewrite flat_map_app. cbn [flat_map]. now rewrite app_nil_r. Qed.
Lemma grid_len {A} ny nx (f : Z -> Z -> A) : 0 <= ny -> 0 <= nx -> zlen (grid ny nx f) = ny * nx.
Proof.
  intros Hy Hx. revert ny Hy. apply natlike_ind; [reflexivity|]. intros n Hn IH. unfold Z.succ.
  rewrite grid_snoc, zlen_app, IH, zlen_map, zrange_zlen by lia. replace (Z.max 0 (nx - 0)) with nx by lia. ring.
Qed.
Lemma grid_get {A} ny nx (f : Z -> Z -> A) y x : 0 <= y < ny -> 0 <= x < nx -> zget (grid ny nx f) (y * nx + x) = Some (f y x).
Proof.
  intros Hy Hx. assert (Hny : 0 <= ny) by lia. revert ny Hny y Hy. refine (natlike_ind _ _ _).
  - intros y Hy. lia.
  - intros n Hn IH y Hy. unfold Z.succ. rewrite grid_snoc by lia.
    pose proof (grid_len n nx f Hn ltac:(lia)) as HL. destruct (Z.eq_dec y n) as [->|].
    + rewrite zget_app2 by nia. rewrite HL. replace (n * nx + x - n * nx) with x by ring. rewrite zget_map, zget_zrange by lia. reflexivity.
    + rewrite zget_app1 by nia. apply IH. lia.
Qed.
Lemma grid_ext {A} ny nx (f g : Z -> Z -> A) : (forall y x, 0 <= y < ny -> 0 <= x < nx -> f y x = g y x) -> grid ny nx f = grid ny nx g.
Proof.
  intros H. unfold grid. rewrite !flat_map_concat_map. f_equal. apply map_ext_in. intros y Hy. apply map_ext_in. intros x Hx.
  apply zrange_In in Hy, Hx. apply H; lia.
Qed.
Lemma ravel_grid {A} (a : farr A) : ravel a = grid (f_ny a) (f_nx a) (f_at a). Proof. reflexivity. Qed.

(** pairs of boxes *)
Definition ex2 (b : box2) : Prop := box_exact (fst b) /\ box_exact (snd b).
Lemma fix2_ex b : box2_ok b -> ex2 (fix2 b).
Proof. intros [H1 H2]. split; [exact (proj1 (sbox_fix_spec _ H1))|exact (proj1 (sbox_fix_spec _ H2))]. Qed.
Lemma fix2_id b : ex2 b -> fix2 b = b.
Proof. destruct b as [b c]. intros [H1 H2]. unfold fix2. cbn [fst snd] in *. now rewrite !sbox_fix_exact. Qed.
Lemma fix2_indices b : box2_ok b -> indices (fst (fix2 b)) = indices (fst b) /\ indices (snd (fix2 b)) = indices (snd b).
Proof. intros [H1 H2]. split; [exact (proj2 (sbox_fix_spec _ H1))|exact (proj2 (sbox_fix_spec _ H2))]. Qed.

(* one axis of a box c = [c0, c0+m*L, L] common to a and b *)
Definition common (a b : sbox) (c0 m L : Z) : Prop :=
  1 <= m /\ 0 < L /\ (snd a | L) /\ (snd b | L) /\ forall k, In k (indices (c0, c0 + m * L, L)) <-> In k (indices a) /\ In k (indices b).
Lemma common_sym a b c0 m L : common a b c0 m L -> common b a c0 m L.
Proof. intros (H1 & H2 & H3 & H4 & H5). repeat split; auto; intros; rewrite ?H5 in *; try (apply and_comm; now apply H5); tauto. Qed.

Lemma inter2_form a b : ex2 a -> ex2 b ->
  (inter2 a b = [] /\ ~ meets a b) \/
  exists cy my Ly cx mx Lx, inter2 a b = [((cy, cy + my * Ly, Ly), (cx, cx + mx * Lx, Lx))] /\
    common (fst a) (fst b) cy my Ly /\ common (snd a) (snd b) cx mx Lx.
Proof.
  intros Ha Hb. unfold inter2. rewrite !fix2_id by assumption. destruct Ha as [Ha1 Ha2], Hb as [Hb1 Hb2].
  destruct (inter1_form (fst a) (fst b)) as [[E H]|(c & m & Hm & E & HL & H)]; try (now apply box_exact_ok).
  - left. rewrite E. split; [reflexivity|]. intros (gy & gx & [H1 _] & [H2 _]). exact (H gy (conj H1 H2)).
  - rewrite E. destruct (inter1_form (snd a) (snd b)) as [[E' H']|(c' & m' & Hm' & E' & HL' & H')]; try (now apply box_exact_ok).
    + left. rewrite E'. split; [reflexivity|]. intros (gy & gx & [_ H1] & [_ H2]). exact (H' gx (conj H1 H2)).
    + right. rewrite E'. exists c, m, (Z.lcm (snd (fst a)) (snd (fst b))), c', m', (Z.lcm (snd (snd a)) (snd (snd b))). split; [reflexivity|].
      split; (split; [assumption|split; [assumption|split; [apply Z.divide_lcm_l|split; [apply Z.divide_lcm_r|assumption]]]]).
Qed.
Lemma inter2_sym a b : ex2 a -> ex2 b -> inter2 a b = inter2 b a.
Proof.
  intros Ha Hb. unfold inter2. rewrite !fix2_id by assumption. destruct Ha, Hb.
  rewrite (inter1_sym (fst a)), (inter1_sym (snd a)); try (now apply box_exact_ok). reflexivity.
Qed.

Section VALUES.
Context {A : Type} (zero : A) (garr : Z -> Z -> A).

(* the common elements of two boxes, in the order in which they are sent *)
Definition chunk (i o : box2) : list A :=
  flat_map (fun c => flat_map (fun y => map (garr y) (indices (snd c))) (indices (fst c))) (inter2 i o).

Lemma chunk_sym i o : ex2 i -> ex2 o -> chunk i o = chunk o i.
Proof. intros. unfold chunk. now rewrite inter2_sym. Qed.
Lemma chunk_nil i o : ex2 i -> ex2 o -> ~ meets i o -> chunk i o = [].
Proof.
  intros Hi Ho Hn. unfold chunk. destruct (inter2_form i o Hi Ho) as [[-> _]|(cy & my & Ly & cx & mx & Lx & _ & (H1 & H2 & _ & _ & H3) & (K1 & K2 & _ & _ & K3))]; [reflexivity|].
  exfalso. apply Hn. exists cy, cx.
  assert (Y : In cy (indices (cy, cy + my * Ly, Ly))) by (apply In_indices_exact; [lia|lia|]; split; [nia|]; exists 0; lia).
  assert (X : In cx (indices (cx, cx + mx * Lx, Lx))) by (apply In_indices_exact; [lia|lia|]; split; [nia|]; exists 0; lia).
  apply H3 in Y. apply K3 in X. unfold in_box. tauto.
Qed.
Lemma chunk_grid cy my Ly cx mx Lx : 1 <= my -> 0 < Ly -> 1 <= mx -> 0 < Lx ->
  flat_map (fun y => map (garr y) (indices (cx, cx + mx * Lx, Lx))) (indices (cy, cy + my * Ly, Ly)) =
  grid my mx (fun y x => garr (cy + Ly * y) (cx + Lx * x)).
Proof.
  intros. rewrite !indices_exact by lia. unfold grid. rewrite !flat_map_concat_map, map_map. f_equal. apply map_ext. intros y. now rewrite map_map.
Qed.

Definition psize (l : list box2) : Z := zsum (map size2 l).

(* part of own box b shared with a *)
Lemma shared_size a b : ex2 a -> ex2 b -> psize (safe_div (inter2 a b) b) = zlen (chunk a b).
Proof.
  intros Ha Hb. unfold chunk. destruct (inter2_form a b Ha Hb) as [[-> _]|(cy & my & Ly & cx & mx & Lx & -> & (H1 & H2 & _ & H3 & H4) & (K1 & K2 & _ & K3 & K4))]; [reflexivity|].
  cbn [safe_div map flat_map fst snd]. rewrite app_nil_r, chunk_grid, grid_len by lia. unfold psize, size2. cbn [map zsum fold_right fst snd].
  destruct Hb as [Hb1 Hb2].
  destruct (axis_fits (fst b) cy my Ly Hb1 H1 H2 H3) as (-> & _).
  { intros j Hj. apply H4. apply In_indices_exact; [lia|lia|]. split; [nia|]. exists j. lia. }
  destruct (axis_fits (snd b) cx mx Lx Hb2 K1 K2 K3) as (-> & _); [|lia].
  intros j Hj. apply K4. apply In_indices_exact; [lia|lia|]. split; [nia|]. exists j. lia.
Qed.

Lemma shared_send a b arr : ex2 a -> ex2 b -> slice_of garr b arr ->
  flat_map (fun c => ravel (get2 arr (sy c) (sx c))) (safe_div (inter2 a b) b) = chunk a b.
Proof.
  intros Ha Hb [[S1 S2] S3]. unfold chunk. destruct (inter2_form a b Ha Hb) as [[-> _]|(cy & my & Ly & cx & mx & Lx & -> & (H1 & H2 & _ & H3 & H4) & (K1 & K2 & _ & K3 & K4))].
  { cbn [safe_div flat_map]. rewrite app_nil_r, ravel_grid. unfold get2. cbn [f_ny f_nx f_at]. unfold sy, sx. cbn [fst snd].
    replace (py_len (sbox2slice (0, 0, 1)) (f_ny arr)) with 0; [reflexivity|]. symmetry. unfold py_len, py_start, py_stop. cbn.
    unfold py_adjust. cbn. destruct (f_ny arr <=? 0); rewrite Z.ltb_irrefl; reflexivity. }
  cbn [safe_div map flat_map fst snd]. rewrite !app_nil_r, chunk_grid by lia. rewrite ravel_grid. unfold get2, sy, sx. cbn [f_ny f_nx f_at fst snd]. rewrite S1, S2.
  destruct Hb as [Hb1 Hb2].
  destruct (axis_fits (fst b) cy my Ly Hb1 H1 H2 H3) as (_ & -> & _ & Y).
  { intros j Hj. apply H4. apply In_indices_exact; [lia|lia|]. split; [nia|]. exists j. lia. }
  destruct (axis_fits (snd b) cx mx Lx Hb2 K1 K2 K3) as (_ & -> & _ & X).
  { intros j Hj. apply K4. apply In_indices_exact; [lia|lia|]. split; [nia|]. exists j. lia. }
  apply grid_ext. intros y x Hy Hx. apply S3. split; [now apply Y|now apply X].
Qed.

(** copying out *)
Definition part_filled (W : Z -> Z -> Prop) (b : box2) (o : farr A) : Prop :=
  has_shape b o /\ forall y x gy gx, at_box b y x gy gx -> (W gy gx -> f_at o y x = garr gy gx) /\ (~ W gy gx -> f_at o y x = zero).

Lemma zget_indices_inj b y y' g : box_exact b -> zget (indices b) y = Some g -> zget (indices b) y' = Some g -> y = y'.
Proof.
  destruct b as [[b0 b1] q]. intros (Hq & n & Hn & ->). rewrite !zget_indices_exact by lia.
  destruct (_ && _); [|discriminate]. destruct (_ && _); [|discriminate]. intros E1 E2. apply Some_inj in E1. apply Some_inj in E2. nia.
Qed.

(* along one axis: position y of the own box is written iff its element is in the other box *)
Lemma axis_find a b c m L y g : box_exact b -> common a b c m L -> zget (indices b) y = Some g ->
  let s := sbox2slice (sbox_div (c, c + m * L, L) b) in
  (In g (indices a) -> exists j, sl_find s (zlen (indices b)) y = Some j /\ 0 <= j < m /\ g = c + L * j) /\
  (~ In g (indices a) -> sl_find s (zlen (indices b)) y = None).
Proof.
  intros Hb (H1 & H2 & _ & H3 & H4) Hg s.
  destruct (axis_fits b c m L Hb H1 H2 H3) as (_ & E2 & E3 & E4).
  { intros j Hj. apply H4. apply In_indices_exact; [lia|lia|]. split; [nia|]. exists j. lia. }
  fold s in E2, E3, E4. split.
  - intros Ha. assert (Hc : In g (indices (c, c + m * L, L))). { apply H4. split; [exact Ha|]. eapply zget_In. exact Hg. }
    apply In_indices_exact in Hc as [Hc [j Hj]]; [|lia|lia]. exists j. assert (Hjm : 0 <= j < m) by nia. split; [|split; [exact Hjm|lia]].
    apply sl_find_at; [exact E3|]. rewrite E2. split; [|exact Hjm]. apply (zget_indices_inj b _ _ g Hb Hg). rewrite E4 by exact Hjm. f_equal. lia.
  - intros Ha. destruct (sl_find s (zlen (indices b)) y) as [j|] eqn:E; [|reflexivity]. exfalso. apply Ha.
    apply sl_find_at in E as [-> Hj]; [|exact E3]. rewrite E2 in Hj. rewrite E4 in Hg by exact Hj. apply Some_inj in Hg. subst g.
    apply (H4 (c + L * j)). apply In_indices_exact; [lia|lia|]. split; [nia|]. exists j. lia.
Qed.

Lemma sl_find_empty s n y : py_len s n = 0 -> sl_find s n y = None.
Proof. intros H. unfold sl_find. rewrite H. replace (_ && _) with false; [reflexivity|]. symmetry. rewrite !andb_false_iff. destruct (0 <=? _) eqn:E; [right; lia|left; right; reflexivity]. Qed.
Lemma firstn_zlen_app {B} (l m : list B) n : n = zlen l -> firstn (Z.to_nat n) (l ++ m) = l /\ skipn (Z.to_nat n) (l ++ m) = m.
Proof.
  intros ->. unfold zlen. rewrite Nat2Z.id. split.
  - rewrite firstn_app, Nat.sub_diag, firstn_all, firstn_O. apply app_nil_r.
  - rewrite skipn_app, Nat.sub_diag, skipn_all. reflexivity.
Qed.

Lemma copy_step i o k ps buf oarrs arr W : ex2 i -> ex2 o -> zget oarrs k = Some arr -> part_filled W o arr ->
  exists arr', part_filled (fun gy gx => W gy gx \/ in_box i gy gx) o arr' /\
    copyout zero (map (fun c => (k, c)) (safe_div (inter2 i o) o) ++ ps) (chunk i o ++ buf) oarrs = copyout zero ps buf (zset oarrs k arr').
Proof.
  intros Hi Ho Hk [[S1 S2] S3]. unfold chunk.
  destruct (inter2_form i o Hi Ho) as [[E Hn]|(cy & my & Ly & cx & mx & Lx & E & Cy & Cx)]; rewrite E.
  - assert (Hl : forall n, py_len (sbox2slice (0, 0, 1)) n = 0).
    { intros n. unfold py_len, py_start, py_stop. cbn. unfold py_adjust. cbn. destruct (n <=? 0); rewrite Z.ltb_irrefl; reflexivity. }
    cbn [safe_div map app flat_map copyout]. rewrite Hk. change (size2 (0, 0, 1, (0, 0, 1))) with 0. cbn [fst snd]. change (sbox_size (0, 0, 1)) with 0.
    unfold unravel. cbn [Z.to_nat firstn skipn]. change (zlen [] =? 0 * 0) with true. cbv iota. unfold set2, sy, sx. cbn [fst snd f_ny f_nx f_at]. rewrite !Hl. change (0 =? 0) with true. cbn [andb].
    eexists. split; [|reflexivity].
    split; [split; assumption|]. intros y x gy gx Hat. cbn [f_at]. rewrite sl_find_empty by apply Hl. destruct (S3 y x gy gx Hat) as [F1 F2].
    assert (Hni : ~ in_box i gy gx).
    { intros Hin. apply Hn. exists gy, gx. split; [exact Hin|]. destruct Hat as [Q1 Q2]. split; eapply zget_In; eassumption. }
    split; [intros [HW|HW]; [exact (F1 HW)|contradiction]|intros HW; apply F2; tauto].
  - pose proof Cy as (H1 & H2 & _ & H3 & H4). pose proof Cx as (K1 & K2 & _ & K3 & K4). pose proof Ho as [Hb1 Hb2].
    destruct (axis_fits (fst o) cy my Ly Hb1 H1 H2 H3) as (Y1 & Y2 & _ & _).
    { intros j Hj. apply H4. apply In_indices_exact; [lia|lia|]. split; [nia|]. exists j. lia. }
    destruct (axis_fits (snd o) cx mx Lx Hb2 K1 K2 K3) as (X1 & X2 & _ & _).
    { intros j Hj. apply K4. apply In_indices_exact; [lia|lia|]. split; [nia|]. exists j. lia. }
    cbn [safe_div map app flat_map fst snd]. rewrite app_nil_r, chunk_grid by lia. set (G := grid my mx _).
    assert (HG : zlen G = my * mx) by (apply grid_len; lia).
    cbn [copyout]. rewrite Hk. unfold size2. cbn [fst snd]. rewrite Y1, X1.
    destruct (firstn_zlen_app G buf (my * mx) (eq_sym HG)) as [-> ->]. unfold unravel. rewrite HG, Z.eqb_refl.
    unfold set2, sy, sx. cbn [fst snd f_ny f_nx f_at]. rewrite S1, S2, Y2, X2, !Z.eqb_refl. cbn [andb].
    eexists. split; [|reflexivity]. split; [split; reflexivity|]. intros y x gy gx [Ey Ex]. cbn [f_at].
    destruct (axis_find (fst i) (fst o) cy my Ly y gy Hb1 Cy Ey) as [Fy Ny], (axis_find (snd i) (snd o) cx mx Lx x gx Hb2 Cx Ex) as [Fx Nx].
    destruct (S3 y x gy gx (conj Ey Ex)) as [F1 F2].
    destruct (in_dec Z.eq_dec gy (indices (fst i))) as [Iy|Iy].
    + destruct (Fy Iy) as (jy & -> & Ry & ->). destruct (in_dec Z.eq_dec gx (indices (snd i))) as [Ix|Ix].
      * destruct (Fx Ix) as (jx & -> & Rx & ->). unfold G. rewrite grid_get by lia. split; [reflexivity|]. intros HW. exfalso. apply HW. right. split; assumption.
      * rewrite (Nx Ix). split; [intros [HW|[_ HW]]; [auto|contradiction]|intros HW; apply F2; tauto].
    + rewrite (Ny Iy). split; [intros [HW|[HW _]]; [auto|contradiction]|intros HW; apply F2; tauto].
Qed.

(** loops *)
Definition state (W : Z -> Z -> Z -> Prop) (os : list box2) (oarrs : list (farr A)) : Prop :=
  zlen oarrs = zlen os /\ forall k o, zget os k = Some o -> exists a, zget oarrs k = Some a /\ part_filled (W k) o a.

Lemma zset_get {B} (l : list B) k x j : 0 <= k < zlen l -> zget (zset l k x) j = if j =? k then Some x else zget l j.
Proof.
  intros Hk. unfold zset. assert (Hf : zlen (firstn (Z.to_nat k) l) = k) by (unfold zlen in *; rewrite firstn_length; lia).
  destruct (j =? k) eqn:E; [|destruct (j <? k) eqn:E2].
  - rewrite zget_app2 by lia. rewrite Hf. replace (j - k) with 0 by lia. reflexivity.
  - rewrite zget_app1 by lia. rewrite <- (firstn_skipn (Z.to_nat k) l) at 2. rewrite zget_app1 by lia. reflexivity.
  - rewrite zget_app2 by lia. rewrite Hf. rewrite <- (firstn_skipn (S (Z.to_nat k)) l) at 2.
    assert (Hf2 : zlen (firstn (S (Z.to_nat k)) l) = k + 1) by (unfold zlen in *; rewrite firstn_length; lia).
    rewrite zget_app2 by lia. rewrite Hf2. change (x :: skipn (S (Z.to_nat k)) l) with ([x] ++ skipn (S (Z.to_nat k)) l).
    rewrite zget_app2 by (change (zlen [x]) with 1; lia). f_equal. change (zlen [x]) with 1. lia.
Qed.
Lemma zset_len {B} (l : list B) k x : 0 <= k < zlen l -> zlen (zset l k x) = zlen l.
Proof. intros H. unfold zset, zlen in *. rewrite app_length, firstn_length. cbn [length]. rewrite skipn_length. lia. Qed.

(* all output boxes against one input box *)
Lemma copy_outs i os0 : ex2 i -> Forall ex2 os0 -> forall os k ps buf oarrs W,
  (forall j o, zget os j = Some o -> zget os0 (k + j) = Some o) -> 0 <= k -> k + zlen os = zlen os0 -> state W os0 oarrs ->
  exists oarrs', state (fun q gy gx => W q gy gx \/ (k <= q /\ in_box i gy gx)) os0 oarrs' /\
    copyout zero (flat_map (fun kb => map (fun c => (fst kb, c)) (safe_div (inter2 i (snd kb)) (snd kb))) (enum_from k os) ++ ps)
      (flat_map (chunk i) os ++ buf) oarrs = copyout zero ps buf oarrs'.
Proof.
  intros Hi H0. induction os as [|o os IH]; intros k ps buf oarrs W Hsub Hk Hlen [HL HS].
  - exists oarrs. split; [|reflexivity]. split; [exact HL|]. intros q o Hq. destruct (HS q o Hq) as (a & Ha & [Hsh Hp]). exists a. split; [exact Ha|].
    split; [exact Hsh|]. intros y x gy gx Hat. apply zget_Some_range in Hq. rewrite zlen_nil in Hlen.
    destruct (Hp y x gy gx Hat) as [F1 F2]. split; [intros [H|[H _]]; [auto|lia]|intros H; apply F2; tauto].
  - rewrite zlen_cons in Hlen. pose proof (zlen_nonneg os).
    assert (Ho : zget os0 k = Some o). { replace k with (k + 0) by lia. apply Hsub. reflexivity. }
    destruct (HS k o Ho) as (a & Ha & Hp).
    assert (Hoe : ex2 o). { rewrite Forall_forall in H0. apply H0. eapply zget_In. exact Ho. }
    cbn [enum_from flat_map fst snd]. rewrite <- !app_assoc.
    set (ps' := _ ++ ps). set (buf' := _ ++ buf).
    destruct (copy_step i o k ps' buf' oarrs a (W k) Hi Hoe Ha Hp) as (a' & Hp' & ->).
    assert (Rk : 0 <= k < zlen oarrs) by lia.
    destruct (IH (k + 1) ps buf (zset oarrs k a') (fun q gy gx => W q gy gx \/ (q = k /\ in_box i gy gx))) as (oarrs' & [L' S'] & E').
    + intros j o' Hj. replace (k + 1 + j) with (k + (j + 1)) by lia. apply Hsub. pose proof (zget_Some_range _ _ _ Hj) as R.
      change (o :: os) with ([o] ++ os). rewrite zget_app2 by (change (zlen [o]) with 1; lia). change (zlen [o]) with 1. replace (j + 1 - 1) with j by lia. exact Hj.
    + lia.
    + lia.
    + split; [rewrite zset_len by lia; exact HL|]. intros q o' Hq. rewrite zset_get by lia. destruct (q =? k) eqn:E.
      * assert (q = k) by lia. subst q. rewrite Ho in Hq. apply Some_inj in Hq. subst o'. exists a'. split; [reflexivity|]. destruct Hp' as [P1 P2]. split; [exact P1|].
        intros y x gy gx Hat. destruct (P2 y x gy gx Hat) as [F1 F2]. split; [intros [Q|[_ Q]]; apply F1; auto|intros Q; apply F2; tauto].
      * destruct (HS q o' Hq) as (b & Hb & [P1 P2]). exists b. split; [exact Hb|]. split; [exact P1|].
        intros y x gy gx Hat. destruct (P2 y x gy gx Hat) as [F1 F2]. split; [intros [Q|[Q _]]; [auto|lia]|intros Q; apply F2; tauto].
    + exists oarrs'. split; [|exact E']. split; [exact L'|]. intros q o' Hq. destruct (S' q o' Hq) as (b & Hb & [P1 P2]). exists b. split; [exact Hb|]. split; [exact P1|].
      intros y x gy gx Hat. destruct (P2 y x gy gx Hat) as [F1 F2]. split.
      * intros [Q|[Q1 Q2]]; apply F1; [auto|]. destruct (Z.eq_dec q k); [left; right; auto|right; split; [lia|exact Q2]].
      * intros Q. apply F2. intros [[Q1|[Q1 Q2]]|[Q1 Q2]]; apply Q; [auto|right; split; [lia|exact Q2]|right; split; [lia|exact Q2]].
Qed.

Lemma copy_all os : Forall ex2 os -> forall (is : list (Z * box2)) W oarrs, Forall (fun ti => ex2 (snd ti)) is -> state W os oarrs ->
  exists oarrs', state (fun q gy gx => W q gy gx \/ exists ti, In ti is /\ in_box (snd ti) gy gx) os oarrs' /\
    copyout zero (concat (map snd (pieces is os))) (flat_map (fun ti => flat_map (chunk (snd ti)) os) is) oarrs = Some oarrs'.
Proof.
  intros Ho. induction is as [|i is IH]; intros W oarrs Hi HS.
  - exists oarrs. split; [|reflexivity]. destruct HS as [L S]. split; [exact L|]. intros q o Hq. destruct (S q o Hq) as (a & Ha & [P1 P2]). exists a. split; [exact Ha|]. split; [exact P1|].
    intros y x gy gx Hat. destruct (P2 y x gy gx Hat) as [F1 F2]. split; [intros [Q|(? & [] & _)]; auto|intros Q; apply F2; tauto].
  - inversion Hi as [|? ? Hi1 Hi2]; subst. cbn [pieces map concat flat_map]. fold (pieces is os). cbn [snd].
    destruct (copy_outs (snd i) os Hi1 Ho os 0 (concat (map snd (pieces is os))) (flat_map (fun ti => flat_map (chunk (snd ti)) os) is) oarrs W) as (o1 & S1 & E1); [intros j o Hj; exact Hj|lia|lia|exact HS|].
    unfold enum. rewrite E1. destruct (IH _ o1 Hi2 S1) as (o2 & [L2 S2] & E2). exists o2. split; [|exact E2]. split; [exact L2|].
    intros q o Hq. destruct (S2 q o Hq) as (a & Ha & [P1 P2]). exists a. split; [exact Ha|]. split; [exact P1|].
    intros y x gy gx Hat. pose proof (proj1 (zget_Some_range _ _ _ Hq)). destruct (P2 y x gy gx Hat) as [F1 F2]. split.
    + intros [Q|(t & [<-|Q1] & Q2)]; apply F1; [left; left; exact Q|left; right; auto|right; exists t; auto].
    + intros Q. apply F2. intros [[Q1|[_ Q1]]|(t & Q1 & Q2)]; apply Q; [left; exact Q1|right; exists i; split; [now left|exact Q1]|right; exists t; split; [now right|exact Q2]].
Qed.
End VALUES.

(** orders of sending and receiving *)
Lemma flat_map_split {B C} (F G : B -> list C) l : ForallOrdPairs (fun x y => F y = [] \/ G x = []) l ->
  flat_map (fun x => F x ++ G x) l = flat_map F l ++ flat_map G l.
Proof.
  induction 1 as [|x l Hx Hl IH]; [reflexivity|]. cbn [flat_map]. rewrite IH, <- !app_assoc. f_equal.
  destruct (G x) as [|g gs] eqn:E; [reflexivity|].
  assert (Hn : flat_map F l = []). { clear - Hx. induction Hx as [|y l [H|H] _ IH]; [reflexivity| |discriminate]. cbn [flat_map]. now rewrite H, IH. }
  rewrite Hn. reflexivity.
Qed.
Lemma FOP_all {B C} (R : C -> B -> B -> Prop) (l : list B) (m : list C) : (forall c, In c m -> ForallOrdPairs (R c) l) ->
  ForallOrdPairs (fun x y => forall c, In c m -> R c x y) l.
Proof.
  induction l as [|x l IH]; intros H; [constructor|]. constructor.
  - apply Forall_forall. intros y Hy c Hc. specialize (H c Hc). inversion H as [|? ? H1 H2]; subst. rewrite Forall_forall in H1. auto.
  - apply IH. intros c Hc. specialize (H c Hc). inversion H; subst. assumption.
Qed.
Lemma FOP_imp {B} (R S : B -> B -> Prop) l : (forall x y, R x y -> S x y) -> ForallOrdPairs R l -> ForallOrdPairs S l.
Proof. intros H. induction 1 as [|x l Hx _ IH]; constructor; [|exact IH]. eapply Forall_impl; [|exact Hx]. auto. Qed.
Lemma FOP_nth {B} (R : B -> B -> Prop) l : (forall a b x y, (a < b)%nat -> nth_error l a = Some x -> nth_error l b = Some y -> R x y) -> ForallOrdPairs R l.
Proof.
  induction l as [|x l IH]; intros H; constructor.
  - apply Forall_forall. intros y Hy. apply In_nth_error in Hy as (n & Hn). apply (H 0%nat (S n)); [lia|reflexivity|exact Hn].
  - apply IH. intros a b u v Hab Ha Hb. apply (H (S a) (S b)); [lia|exact Ha|exact Hb].
Qed.
Lemma flat_map_nil {B C} (l : list B) : flat_map (fun _ => @nil C) l = [].
Proof. induction l; [reflexivity|assumption]. Qed.

Lemma reorder {B C D} (f : B -> C -> list D) (os : list B) (is : list C) :
  ForallOrdPairs (fun i i' => ForallOrdPairs (fun o o' => f o' i = [] \/ f o i' = []) os) is ->
  flat_map (fun o => flat_map (f o) is) os = flat_map (fun i => flat_map (fun o => f o i) os) is.
Proof.
  induction 1 as [|i is Hi His IH]; [apply flat_map_nil|].
  cbn [flat_map]. rewrite <- IH. apply (flat_map_split (fun o => f o i) (fun o => flat_map (f o) is)).
  rewrite Forall_forall in Hi. apply FOP_all in Hi. eapply FOP_imp; [|exact Hi]. cbv beta. intros o o' H.
  destruct (f o' i) as [|d ds] eqn:E; [now left|]. right. clear - H. induction is as [|j is IH]; [reflexivity|].
  cbn [flat_map]. rewrite IH by (intros c Hc; apply H; now right). destruct (H j (or_introl eq_refl)) as [Q|Q]; [discriminate|]. now rewrite Q.
Qed.

Lemma zlen_flat_map {B C} (f : B -> list C) l : zlen (flat_map f l) = zsum (map (fun x => zlen (f x)) l).
Proof. induction l as [|x l IH]; [reflexivity|]. cbn [flat_map map]. rewrite zlen_app, IH. reflexivity. Qed.
Lemma zsum_app l m : zsum (l ++ m) = zsum l + zsum m.
Proof. induction l as [|x l IHl]; [reflexivity|]. cbn [app]. change (zsum (?a :: ?l)) with (a + zsum l). rewrite IHl. ring. Qed.
Lemma zsum_add {B} (f g : B -> Z) l : zsum (map (fun x => f x + g x) l) = zsum (map f l) + zsum (map g l).
Proof. induction l as [|x l IH]; [reflexivity|]. cbn [map zsum fold_right] in *. unfold zsum in IH. rewrite IH. ring. Qed.
Lemma zsum_swap {B C} (f : B -> C -> Z) os is : zsum (map (fun o => zsum (map (f o) is)) os) = zsum (map (fun i => zsum (map (fun o => f o i) os)) is).
Proof.
  induction is as [|i is IH].
  - cbn [map]. induction os as [|o os IHo]; [reflexivity|exact IHo].
  - cbn [map]. change (zsum (?a :: ?l)) with (a + zsum l). rewrite <- IH, <- zsum_add. reflexivity.
Qed.
Lemma same_length {B C D} (f : B -> C -> list D) os is :
  zlen (flat_map (fun o => flat_map (f o) is) os) = zlen (flat_map (fun i => flat_map (fun o => f o i) os) is).
Proof.
  rewrite !zlen_flat_map. erewrite (map_ext (fun o => zlen (flat_map (f o) is))) by (intros; apply zlen_flat_map).
  erewrite (map_ext (fun i => zlen (flat_map (fun o => f o i) os))) by (intros; apply zlen_flat_map). apply zsum_swap.
Qed.

Lemma segment {B} (Xs : list (list B)) : forall t x, nth_error Xs t = Some x ->
  firstn (Z.to_nat (zlen x)) (skipn (Z.to_nat (zsum (firstn t (map zlen Xs)))) (concat Xs)) = x.
Proof.
  induction Xs as [|y Xs IH]; intros [|t] x Hx; try discriminate; cbn [nth_error] in Hx.
  - apply Some_inj in Hx. subst y. cbn [firstn zsum fold_right Z.to_nat skipn concat]. exact (proj1 (firstn_zlen_app x (concat Xs) _ eq_refl)).
  - cbn [map firstn concat]. change (zsum (?a :: ?l)) with (a + zsum l).
    assert (H0 : 0 <= zsum (firstn t (map zlen Xs))).
    { clear. revert t. induction Xs as [|y Xs IH]; intros [|t]; cbn [map firstn]; try (cbn; lia). change (zsum (?a :: ?l)) with (a + zsum l). specialize (IH t). pose proof (zlen_nonneg y). lia. }
    pose proof (zlen_nonneg y). rewrite Z2Nat.inj_add by lia. unfold zlen at 2. rewrite Nat2Z.id.
    rewrite skipn_app, (skipn_all2 y) by lia. replace (length y + _ - length y)%nat with (Z.to_nat (zsum (firstn t (map zlen Xs)))) by lia. apply IH. exact Hx.
Qed.

Section NET.
Context {A : Type} (zero : A) (garr : Z -> Z -> A).
Notation chunk := (chunk garr).

Lemma slice_of_fix b (a : farr A) : box2_ok b -> slice_of garr b a -> slice_of garr (fix2 b) a.
Proof. intros Hb. unfold slice_of, has_shape, at_box. destruct (fix2_indices b Hb) as [-> ->]. auto. Qed.

Lemma sendbuf_app (iarrs : list (farr A)) p q bp bq : sendbuf iarrs p = Some bp -> sendbuf iarrs q = Some bq -> sendbuf iarrs (p ++ q) = Some (bp ++ bq).
Proof.
  revert bp. induction p as [|[k b] p IH]; intros bp Hp Hq; cbn [app sendbuf] in *.
  - apply Some_inj in Hp. now subst bp.
  - destruct (zget iarrs k); [|discriminate]. destruct (sendbuf iarrs p) as [r|]; [|discriminate]. apply Some_inj in Hp. subst bp.
    rewrite (IH r eq_refl Hq). now rewrite app_assoc.
Qed.
Lemma sendbuf_own (iarrs : list (farr A)) k a l : zget iarrs k = Some a ->
  sendbuf iarrs (map (fun c => (k, c)) l) = Some (flat_map (fun c => ravel (get2 a (sy c) (sx c))) l).
Proof. intros Hk. induction l as [|c l IH]; [reflexivity|]. cbn [map sendbuf flat_map]. now rewrite Hk, IH. Qed.

Lemma send_ins o : ex2 o -> forall is iarrs, Forall ex2 is -> Forall2 (slice_of garr) is iarrs -> forall pre,
  sendbuf (pre ++ iarrs) (flat_map (fun kb => map (fun c => (fst kb, c)) (safe_div (inter2 o (snd kb)) (snd kb))) (enum_from (zlen pre) is)) = Some (flat_map (chunk o) is).
Proof.
  intros Ho is iarrs Hx HF. induction HF as [|i a is iarrs Hia HF IH]; intros pre; [reflexivity|].
  inversion Hx as [|? ? Hx1 Hx2]; subst. cbn [enum_from flat_map fst snd].
  apply sendbuf_app.
  - erewrite sendbuf_own; [|rewrite zget_app2 by lia; rewrite Z.sub_diag; reflexivity]. f_equal. apply shared_send; assumption.
  - specialize (IH Hx2 (pre ++ [a])). rewrite <- app_assoc in IH. cbn [app] in IH. rewrite zlen_app in IH. exact IH.
Qed.
Lemma send_all is iarrs os : Forall ex2 is -> Forall2 (slice_of garr) is iarrs -> Forall (fun to => ex2 (snd to)) os ->
  sendbuf iarrs (concat (map snd (pieces os is))) = Some (flat_map (fun to => flat_map (chunk (snd to)) is) os).
Proof.
  intros Hi Ha. induction 1 as [|o os Ho Hos IH]; [reflexivity|]. cbn [pieces map concat flat_map snd]. apply sendbuf_app; [|exact IH].
  exact (send_ins (snd o) Ho is iarrs Hi Ha []).
Qed.

Lemma piece_size a mine : ex2 a -> Forall ex2 mine -> forall k,
  zsum (map (fun q : Z * box2 => size2 (snd q)) (flat_map (fun kb => map (fun c => (fst kb, c)) (safe_div (inter2 a (snd kb)) (snd kb))) (enum_from k mine))) = zlen (flat_map (chunk a) mine).
Proof.
  intros Ha. induction 1 as [|b mine Hb Hm IH]; intros k; [reflexivity|]. cbn [enum_from flat_map fst snd]. rewrite map_app, zlen_app, <- (IH (k + 1)), <- (shared_size garr a b Ha Hb), map_map. cbn [snd].
  rewrite zsum_app. reflexivity.
Qed.

Lemma gathered_sum (sel : task A -> list box2) (F : box2 -> Z) : forall tasks k t,
  zsum (map (fun ta : Z * box2 => if fst ta =? t then F (snd ta) else 0) (flat_map (fun ut => map (fun b => (fst ut, fix2 b)) (sel (snd ut))) (enum_from k tasks))) =
  match zget tasks (t - k) with Some tk => zsum (map (fun b => F (fix2 b)) (sel tk)) | None => 0 end.
Proof.
  induction tasks as [|tk tasks IH]; intros k t.
  - cbn [enum_from flat_map map]. rewrite zget_out; [reflexivity|]. unfold zlen. cbn [length]. lia.
  - cbn [enum_from flat_map fst snd]. rewrite map_app, zsum_app, IH, map_map. cbn [fst snd]. destruct (k =? t) eqn:E.
    + replace (t - k) with 0 by lia. rewrite (zget_out tasks) by lia. rewrite Z.add_0_r. reflexivity.
    + replace (zsum (map (fun _ => 0) (sel tk))) with 0 by (induction (sel tk); [reflexivity|assumption]).
      destruct (t - k <? 0) eqn:E2; [rewrite !zget_out by lia; reflexivity|].
      change (tk :: tasks) with ([tk] ++ tasks). rewrite (zget_app2 [tk]) by (change (zlen [tk]) with 1; lia). change (zlen [tk]) with 1. replace (t - k - 1) with (t - (k + 1)) by lia. reflexivity.
Qed.

Lemma counts_gathered (sel : task A -> list box2) tasks mine : (forall t, In t tasks -> Forall box2_ok (sel t)) -> Forall ex2 mine ->
  counts (zlen tasks) (pieces (gathered sel tasks) mine) = map (fun t => zlen (flat_map (fun b => flat_map (chunk (fix2 b)) mine) (sel t))) tasks.
Proof.
  intros Hsel Hm. apply zget_ext. intros t. unfold counts. rewrite !zget_map.
  destruct (Z_lt_dec t 0) as [Hneg|Hpos]; [rewrite !zget_out by (rewrite ?zrange_zlen; lia); reflexivity|].
  destruct (Z_le_dec (zlen tasks) t) as [Hbig|Hsm]; [rewrite !zget_out by (rewrite ?zrange_zlen; lia); reflexivity|].
  rewrite zget_zrange by lia. destruct (zget_in_range tasks t) as (tk & Etk); [lia|]. rewrite Etk. cbn [option_map]. f_equal.
  unfold pieces. rewrite map_map. cbn [fst snd]. rewrite Z.add_0_l.
  rewrite (map_ext_in _ (fun ta : Z * box2 => if fst ta =? t then zlen (flat_map (chunk (snd ta)) mine) else 0)).
  - unfold gathered, enum. rewrite (gathered_sum sel (fun b => zlen (flat_map (chunk b) mine))). rewrite Z.sub_0_r, Etk, zlen_flat_map. reflexivity.
  - intros ta Hta. destruct (fst ta =? t); [|reflexivity]. apply piece_size; [|exact Hm].
    unfold gathered in Hta. apply in_flat_map in Hta as ([u tk'] & Hu & Hb). apply in_map_iff in Hb as (b & <- & Hb). cbn [fst snd] in *. apply fix2_ex.
    assert (Hin : In tk' tasks). { clear - Hu. unfold enum in Hu. revert Hu. generalize 0 at 1. induction tasks as [|x tasks IH]; intros k []; [left; congruence|right; eapply IH; eassumption]. }
    specialize (Hsel _ Hin). rewrite Forall_forall in Hsel. auto.
Qed.

Definition sent (s t : task A) : list A := flat_map (fun o => flat_map (chunk (fix2 o)) (map fix2 (t_iboxes s))) (t_oboxes t).
Definition wanted (s t : task A) : list A := flat_map (fun i => flat_map (chunk (fix2 i)) (map fix2 (t_oboxes t))) (t_iboxes s).

Lemma flat_map_map {B C D} (f : C -> list D) (g : B -> C) l : flat_map f (map g l) = flat_map (fun x => f (g x)) l.
Proof. now rewrite !flat_map_concat_map, map_map. Qed.
Lemma flat_map_ext_in' {B C} (f g : B -> list C) l : (forall x, In x l -> f x = g x) -> flat_map f l = flat_map g l.
Proof. intros H. rewrite !flat_map_concat_map. f_equal. now apply map_ext_in. Qed.

Lemma sent_swapped s t : Forall box2_ok (t_iboxes s) -> Forall box2_ok (t_oboxes t) ->
  wanted s t = flat_map (fun i => flat_map (fun o => chunk (fix2 o) (fix2 i)) (t_oboxes t)) (t_iboxes s).
Proof.
  intros Hs Ht. rewrite Forall_forall in Hs, Ht. unfold wanted. apply flat_map_ext_in'. intros i Hi. rewrite flat_map_map.
  apply flat_map_ext_in'. intros o Ho. apply chunk_sym; apply fix2_ex; auto.
Qed.
Lemma sent_eq s t : sent s t = flat_map (fun o => flat_map (fun i => chunk (fix2 o) (fix2 i)) (t_iboxes s)) (t_oboxes t).
Proof. unfold sent. apply flat_map_ext_in'. intros o _. apply flat_map_map. Qed.
Lemma sent_len s t : Forall box2_ok (t_iboxes s) -> Forall box2_ok (t_oboxes t) -> zlen (sent s t) = zlen (wanted s t).
Proof. intros Hs Ht. rewrite (sent_swapped s t Hs Ht), sent_eq. apply same_length. Qed.
Lemma meets_fix i o : box2_ok i -> box2_ok o -> meets (fix2 i) (fix2 o) <-> meets i o.
Proof. intros Hi Ho. unfold meets, in_box. destruct (fix2_indices i Hi) as [-> ->], (fix2_indices o Ho) as [-> ->]. tauto. Qed.
Lemma sent_order s t : Forall box2_ok (t_iboxes s) -> Forall box2_ok (t_oboxes t) -> no_crossing (t_iboxes s) (t_oboxes t) -> sent s t = wanted s t.
Proof.
  intros Hs Ht Hc. rewrite (sent_swapped s t Hs Ht), sent_eq. rewrite Forall_forall in Hs, Ht.
  apply (reorder (fun o i => chunk (fix2 o) (fix2 i))).
  apply FOP_nth. intros a a' ia ia' Ha Ea Ea'. apply FOP_nth. intros b b' ob ob' Hb Eb Eb'.
  specialize (Hc a a' b b' ia ia' ob ob' Ha Hb Ea Ea' Eb Eb').
  apply nth_error_In in Ea, Ea', Eb, Eb'. apply Hs in Ea, Ea'. apply Ht in Eb, Eb'.
  destruct (chunk (fix2 ob') (fix2 ia)) as [|x l] eqn:E1; [now left|]. right.
  apply chunk_nil; try (now apply fix2_ex). intros Hm. apply Hc. split.
  - destruct (inter2_form (fix2 ia) (fix2 ob')) as [[E _]|(cy & my & Ly & cx & mx & Lx & _ & (H1 & H2 & _ & _ & H3) & (K1 & K2 & _ & _ & K3))]; try (now apply fix2_ex).
    + rewrite chunk_sym in E1 by (now apply fix2_ex). unfold RdsLemmas.chunk in E1. rewrite E in E1. discriminate.
    + apply (meets_fix ia ob' Ea Eb'). exists cy, cx.
      assert (Y : In cy (indices (cy, cy + my * Ly, Ly))) by (apply In_indices_exact; [lia|lia|]; split; [nia|]; exists 0; lia).
      assert (X : In cx (indices (cx, cx + mx * Lx, Lx))) by (apply In_indices_exact; [lia|lia|]; split; [nia|]; exists 0; lia).
      apply H3 in Y. apply K3 in X. unfold in_box. tauto.
  - destruct Hm as (gy & gx & H1 & H2). apply (meets_fix ia' ob Ea' Eb). exists gy, gx. auto.
Qed.

Lemma in_enum {B} (l : list B) : forall k u x, In (u, x) (enum_from k l) <-> zget l (u - k) = Some x.
Proof.
  induction l as [|y l IH]; intros k u x.
  - cbn [enum_from]. rewrite zget_out; [split; [intros []|discriminate]|]. unfold zlen. cbn [length]. lia.
  - cbn [enum_from In]. rewrite IH. split.
    + intros [E|E]; [injection E as <- <-; rewrite Z.sub_diag; reflexivity|]. pose proof (zget_Some_range _ _ _ E) as R.
      change (y :: l) with ([y] ++ l). rewrite zget_app2 by (change (zlen [y]) with 1; lia). change (zlen [y]) with 1. rewrite <- E. f_equal. lia.
    + intros E. pose proof (zget_Some_range _ _ _ E) as R. destruct (Z.eq_dec u k) as [->|N]; [left; rewrite Z.sub_diag in E; cbn in E; congruence|right].
      change (y :: l) with ([y] ++ l) in E. rewrite zget_app2 in E by (change (zlen [y]) with 1; lia). change (zlen [y]) with 1 in E. rewrite <- E. f_equal. lia.
Qed.
Lemma gathered_in (sel : task A -> list box2) tasks ti : In ti (gathered sel tasks) -> exists t b, In t tasks /\ In b (sel t) /\ snd ti = fix2 b.
Proof.
  unfold gathered. intros H. apply in_flat_map in H as ([u tk] & Hu & Hb). apply in_map_iff in Hb as (b & <- & Hb). cbn [fst snd] in *.
  apply in_enum in Hu. exists tk, b. split; [eapply zget_In; exact Hu|auto].
Qed.
Lemma in_gathered (sel : task A -> list box2) tasks t b : In t tasks -> In b (sel t) -> exists ti, In ti (gathered sel tasks) /\ snd ti = fix2 b.
Proof.
  intros Ht Hb. apply In_nth_error in Ht as (n & Hn). exists (Z.of_nat n, fix2 b). split; [|reflexivity].
  unfold gathered. apply in_flat_map. exists (Z.of_nat n, t). split; [apply in_enum; rewrite Z.sub_0_r, zget_nth_error; exact Hn|].
  apply in_map_iff. exists b. auto.
Qed.
Lemma gathered_flat {C} (sel : task A -> list box2) (F : box2 -> list C) tasks : flat_map (fun ti => F (snd ti)) (gathered sel tasks) = flat_map (fun t => flat_map (fun b => F (fix2 b)) (sel t)) tasks.
Proof.
  unfold gathered, enum. generalize 0. induction tasks as [|t tasks IH]; intros k; [reflexivity|]. cbn [enum_from flat_map fst snd].
  rewrite flat_map_app, IH, flat_map_map. reflexivity.
Qed.

Lemma all_some_map {B C} (f : B -> option C) (g : B -> C) l : (forall x, In x l -> f x = Some (g x)) -> all_some (map f l) = Some (map g l).
Proof. induction l as [|x l IH]; intros H; [reflexivity|]. cbn [map all_some]. rewrite (H x (or_introl eq_refl)), IH; [reflexivity|]. intros y Hy. apply H. now right. Qed.

Variable tasks : list (task A).
Hypothesis Hok : Forall (task_ok garr) tasks.

Lemma ok_in t : In t tasks -> task_ok garr t. Proof. rewrite Forall_forall in Hok. auto. Qed.

Lemma map_fix_ex l : Forall box2_ok l -> Forall ex2 (map fix2 l).
Proof. intros H. apply Forall_map. eapply Forall_impl; [|exact H]. intros b. apply fix2_ex. Qed.

Lemma outgoing_eq s : In s tasks -> outgoing tasks s = Some (concat (map (sent s) tasks), map (fun t => zlen (sent s t)) tasks).
Proof.
  intros Hs. destruct (ok_in s Hs) as (H1 & H2 & H3 & H4). unfold outgoing.
  assert (E : sendbuf (t_iarrs s) (concat (map snd (pieces (gathered t_oboxes tasks) (map fix2 (t_iboxes s))))) = Some (concat (map (sent s) tasks))).
  { rewrite send_all.
    - f_equal. rewrite (gathered_flat t_oboxes (fun b => flat_map (chunk b) (map fix2 (t_iboxes s)))). rewrite flat_map_concat_map. reflexivity.
    - apply map_fix_ex. exact H2.
    - clear - H2 H4. revert H2. induction H4 as [|b a l m Hba Hl IH]; intros H2; [apply Forall2_nil|]. inversion H2; subst. apply Forall2_cons; [apply slice_of_fix; assumption|auto].
    - apply Forall_forall. intros ti Hti. apply gathered_in in Hti as (t & b & Ht & Hb & ->). apply fix2_ex. destruct (ok_in t Ht) as (_ & _ & K & _). rewrite Forall_forall in K. auto. }
  rewrite E. destruct (t_iboxes s) as [|b0 l] eqn:Eb; [congruence|]. rewrite <- Eb in *. clear Eb. do 2 f_equal.
  apply counts_gathered; [|apply map_fix_ex; exact H2]. intros t Ht. exact (proj1 (proj2 (proj2 (ok_in t Ht)))).
Qed.

Lemma receive_eq me t : zget tasks me = Some t -> In t tasks ->
  forall l, (forall s, In s l -> In s tasks) ->
  receive (map (fun s => (concat (map (sent s) tasks), map (fun t => zlen (sent s t)) tasks)) l) me (map (fun s => zlen (wanted s t)) l) = Some (flat_map (fun s => sent s t) l).
Proof.
  intros Hme Ht. induction l as [|s l IH]; intros Hl; [reflexivity|]. cbn [map receive flat_map].
  rewrite zget_map, Hme. cbn [option_map]. rewrite IH by (intros; apply Hl; now right).
  destruct (ok_in t Ht) as (_ & _ & K & _). destruct (ok_in s (Hl s (or_introl eq_refl))) as (_ & K2 & _).
  rewrite (sent_len s t K2 K), Z.eqb_refl. do 2 f_equal. rewrite <- (sent_len s t K2 K).
  replace (map (fun t0 : task A => zlen (sent s t0)) tasks) with (map zlen (map (sent s) tasks)) by apply map_map.
  apply segment. rewrite nth_error_map. pose proof (proj1 (zget_Some_range _ _ _ Hme)). unfold zget in Hme. destruct (me <? 0) eqn:E; [lia|]. rewrite Hme. reflexivity.
Qed.

Lemma nonneg_size b : box_exact b -> 0 <= sbox_size b /\ sbox_size b = zlen (indices b).
Proof. destruct b as [[b0 b1] q]. intros (Hq & n & Hn & ->). rewrite sbox_size_exact by exact Hq. rewrite indices_exact, zlen_map, zrange_zlen by lia. lia. Qed.

Definition blank (b : box2) : farr A := FA (sbox_size (fst b)) (sbox_size (snd b)) (fun _ _ => zero).
Lemma blank_state os : Forall ex2 os -> state zero garr (fun _ _ _ => False) os (map blank os).
Proof.
  intros H. split; [apply zlen_map|]. intros k o Hk. exists (blank o). rewrite zget_map, Hk. split; [reflexivity|].
  rewrite Forall_forall in H. destruct (H o (zget_In _ _ _ Hk)) as [H1 H2]. split; [|intros; tauto].
  split; [exact (proj2 (nonneg_size _ H1))|exact (proj2 (nonneg_size _ H2))].
Qed.

Definition delivered (me : Z) (t : task A) (oarrs : list (farr A)) : Prop := Forall2 (filled zero garr tasks) (t_oboxes t) oarrs.

Lemma Forall2_zget {B C} (R : B -> C -> Prop) l m : zlen l = zlen m -> (forall k x y, zget l k = Some x -> zget m k = Some y -> R x y) -> Forall2 R l m.
Proof.
  revert m. induction l as [|x l IH]; intros [|y m] HL H; rewrite ?zlen_cons, ?zlen_nil in HL; pose proof (@zlen_nonneg) as Q.
  - constructor.
  - specialize (Q _ m). lia.
  - specialize (Q _ l). lia.
  - constructor; [apply (H 0); reflexivity|]. apply IH; [lia|]. intros k u v Hu Hv. pose proof (zget_Some_range _ _ _ Hu). apply (H (k + 1)).
    + change (x :: l) with ([x] ++ l). rewrite zget_app2 by (change (zlen [x]) with 1; lia). change (zlen [x]) with 1. now replace (k + 1 - 1) with k by lia.
    + change (y :: m) with ([y] ++ m). rewrite zget_app2 by (change (zlen [y]) with 1; lia). change (zlen [y]) with 1. now replace (k + 1 - 1) with k by lia.
Qed.

Lemma incoming_ok me t : zget tasks me = Some t -> (forall s, In s tasks -> no_crossing (t_iboxes s) (t_oboxes t)) ->
  exists oarrs, incoming zero tasks (map (fun s => (concat (map (sent s) tasks), map (fun t => zlen (sent s t)) tasks)) tasks) me t = Some oarrs /\
    Forall2 (filled zero garr tasks) (t_oboxes t) oarrs.
Proof.
  intros Hme Hc. assert (Ht : In t tasks) by (eapply zget_In; exact Hme). destruct (ok_in t Ht) as (_ & _ & Ko & _).
  pose proof (map_fix_ex _ Ko) as Kx. unfold incoming.
  rewrite (all_some_map _ blank).
  2:{ intros b Hb. rewrite Forall_forall in Kx. destruct (Kx b Hb) as [X1 X2]. unfold full2. pose proof (proj1 (nonneg_size _ X1)). pose proof (proj1 (nonneg_size _ X2)).
      replace (_ && _) with true; [reflexivity|]. symmetry. rewrite andb_true_iff. lia. }
  rewrite (counts_gathered t_iboxes tasks _ (fun s Hs => proj1 (proj2 (ok_in s Hs))) Kx).
  change (map (fun t0 : task A => zlen (flat_map (fun b : box2 => flat_map (chunk (fix2 b)) (map fix2 (t_oboxes t))) (t_iboxes t0))) tasks) with (map (fun s => zlen (wanted s t)) tasks).
  rewrite (receive_eq me t Hme Ht tasks (fun s Hs => Hs)).
  rewrite (flat_map_ext_in' _ (fun s => wanted s t)).
  2:{ intros s Hs. apply sent_order; [exact (proj1 (proj2 (ok_in s Hs)))|exact Ko|exact (Hc s Hs)]. }
  replace (flat_map (fun s => wanted s t) tasks) with (flat_map (fun ti : Z * box2 => flat_map (chunk (snd ti)) (map fix2 (t_oboxes t))) (gathered t_iboxes tasks))
    by (exact (gathered_flat t_iboxes (fun b => flat_map (chunk b) (map fix2 (t_oboxes t))) tasks)).
  destruct (copy_all zero garr (map fix2 (t_oboxes t)) Kx (gathered t_iboxes tasks) (fun _ _ _ => False) (map blank (map fix2 (t_oboxes t)))) as (oarrs & [L S] & E); [|exact (blank_state _ Kx)|].
  { apply Forall_forall. intros ti Hti. apply gathered_in in Hti as (s & b & Hs & Hb & ->). apply fix2_ex. destruct (ok_in s Hs) as (_ & K & _). rewrite Forall_forall in K. auto. }
  exists oarrs. split; [exact E|]. rewrite zlen_map in L. apply Forall2_zget; [symmetry; exact L|].
  intros k b o Hb Ho. destruct (S k (fix2 b)) as (a & Ha & [P1 P2]); [rewrite zget_map, Hb; reflexivity|]. rewrite Ho in Ha. apply Some_inj in Ha. subst a.
  assert (Hbok : box2_ok b). { rewrite Forall_forall in Ko. apply Ko. eapply zget_In. exact Hb. }
  unfold has_shape, at_box in *. destruct (fix2_indices b Hbok) as [F1 F2]. rewrite F1, F2 in *. split; [exact P1|].
  intros y x gy gx Hat. destruct (P2 y x gy gx Hat) as [Q1 Q2].
  assert (HH : held tasks gy gx <-> (False \/ exists ti, In ti (gathered t_iboxes tasks) /\ in_box (snd ti) gy gx)).
  { split.
    - intros (s & i & Hs & Hi & Hin). right. destruct (in_gathered t_iboxes tasks s i Hs Hi) as (ti & Hti & Eti). exists ti. split; [exact Hti|]. rewrite Eti.
      destruct (ok_in s Hs) as (_ & K & _). rewrite Forall_forall in K. unfold in_box in *. destruct (fix2_indices i (K i Hi)) as [-> ->]. exact Hin.
    - intros [[]|(ti & Hti & Hin)]. apply gathered_in in Hti as (s & i & Hs & Hi & Eti). rewrite Eti in Hin. exists s, i. split; [exact Hs|]. split; [exact Hi|].
      destruct (ok_in s Hs) as (_ & K & _). rewrite Forall_forall in K. unfold in_box in *. destruct (fix2_indices i (K i Hi)) as [G1 G2]. rewrite G1, G2 in Hin. exact Hin. }
  split; [intros Hh; apply Q1, HH; exact Hh|intros Hh; apply Q2; intros Q; apply Hh, HH; exact Q].
Qed.

Lemma redistribute_ok : (forall s t, In s tasks -> In t tasks -> no_crossing (t_iboxes s) (t_oboxes t)) ->
  exists res, redistribute zero tasks = Some res /\ Forall2 (fun t oarrs => Forall2 (filled zero garr tasks) (t_oboxes t) oarrs) tasks res.
Proof.
  intros Hc. unfold redistribute. rewrite (all_some_map _ (fun s => (concat (map (sent s) tasks), map (fun t => zlen (sent s t)) tasks))) by (intros s Hs; now apply outgoing_eq).
  set (outs := map _ tasks).
  assert (G : forall l k, (forall j t, zget l j = Some t -> zget tasks (k + j) = Some t) ->
    exists res, all_some (map (fun ut => incoming zero tasks outs (fst ut) (snd ut)) (enum_from k l)) = Some res /\ Forall2 (fun t oarrs => Forall2 (filled zero garr tasks) (t_oboxes t) oarrs) l res).
  { induction l as [|t l IH]; intros k Hsub; [exists []; split; [reflexivity|constructor]|].
    assert (Ek : zget tasks k = Some t) by (replace k with (k + 0) by lia; apply Hsub; reflexivity).
    destruct (incoming_ok k t Ek) as (oarrs & E1 & F1). { intros s Hs. apply Hc; [exact Hs|eapply zget_In; exact Ek]. }
    destruct (IH (k + 1)) as (res & E2 & F2).
    { intros j u Hj. pose proof (zget_Some_range _ _ _ Hj). replace (k + 1 + j) with (k + (j + 1)) by lia. apply Hsub.
      change (t :: l) with ([t] ++ l). rewrite zget_app2 by (change (zlen [t]) with 1; lia). change (zlen [t]) with 1. now replace (j + 1 - 1) with j by lia. }
    exists (oarrs :: res). split; [|constructor; assumption]. cbn [enum_from map all_some fst snd]. unfold outs in *. rewrite E1, E2. reflexivity. }
  exact (G tasks 0 (fun j t H => H)).
Qed.
End NET.
