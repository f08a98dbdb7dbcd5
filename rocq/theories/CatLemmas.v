From Verif Require Import Base CatSpec CatModel WindModel WindLemmas BlockSpec BlockModel BlockLemmas RangeModel RangeLemmas DownModel FindLemmas.

Lemma zget_cum lens i : 0 <= i <= zlen lens -> zget (cumsum_end lens) i = Some (zsum (firstn (Z.to_nat i) lens)).
Proof.
  intros H. unfold cumsum_end. destruct (Z.eq_dec i 0) as [->|N]; [reflexivity|].
  rewrite <- (Z2Nat.id i) at 1 by lia. rewrite zget_nth_error. replace (Z.to_nat i) with (S (Z.to_nat (i - 1))) at 1 by lia. cbn [nth_error].
  rewrite cumsum_nth by (unfold zlen in H; lia). do 2 f_equal. f_equal. lia.
Qed.
Lemma zlen_cum lens : zlen (cumsum_end lens) = zlen lens + 1.
Proof. unfold cumsum_end. rewrite zlen_cons. unfold zlen at 1. rewrite cumsum_length. unfold zlen. lia. Qed.
Lemma zlen_concat {A} (b : list (list A)) : zlen (concat b) = zsum (map zlen b).
Proof. induction b as [|x b IH]; [reflexivity|]. cbn. rewrite zlen_app, IH. reflexivity. Qed.
Lemma zsum_nonneg l : Forall (fun x => 0 <= x) l -> 0 <= zsum l.
Proof. induction 1; cbn; lia. Qed.
Lemma Forall_firstn {A} (P : A -> Prop) k l : Forall P l -> Forall P (firstn k l).
Proof. intros H. revert k. induction H; intros [|k]; cbn; constructor; auto. Qed.
Lemma Forall_zlen {A} (b : list (list A)) : Forall (fun x => 0 <= x) (map zlen b).
Proof. induction b; constructor; [apply zlen_nonneg|assumption]. Qed.
Lemma firstn_le_sum l k : Forall (fun x => 0 <= x) l -> zsum (firstn k l) <= zsum l.
Proof. intros H. rewrite <- (firstn_skipn k l) at 2. rewrite zsum_app. pose proof (zsum_nonneg (skipn k l)). assert (Forall (fun x => 0 <= x) (skipn k l)). { clear -H. revert k. induction H; intros [|k]; cbn; auto. } specialize (H0 H1). lia. Qed.

Lemma sub_concat {A} (b : list (list A)) : forall k x, nth_error b k = Some x ->
  sub (concat b) (zsum (firstn k (map zlen b))) (zsum (firstn (S k) (map zlen b))) = x.
Proof.
  induction b as [|y b IH]; intros k x H; [destruct k; discriminate|]. destruct k as [|k].
  - cbn in H. apply Some_inj in H. subst y. cbn. unfold sub. rewrite Z.add_0_r, Z.sub_0_r. cbn. unfold zlen. rewrite Nat2Z.id, firstn_app, firstn_all, Nat.sub_diag. cbn. apply app_nil_r.
  - cbn [nth_error] in H. specialize (IH k x H). cbn [map firstn zsum concat]. remember (zsum (firstn k (map zlen b))) as u. remember (zsum (firstn (S k) (map zlen b))) as v. cbn [map firstn zsum] in Heqv. rewrite <- IH. unfold sub.
    change (zlen y + zsum (firstn k (map zlen b))) with (zlen y + zsum (firstn k (map zlen b))).
    assert (0 <= u) by (subst u; apply zsum_nonneg, Forall_firstn, Forall_zlen).
    rewrite <- Heqv. f_equal; [lia|].
    replace (Z.to_nat (zlen y + u)) with (length y + Z.to_nat u)%nat by (unfold zlen; lia). rewrite skipn_app. rewrite skipn_all2 by lia. cbn. f_equal. lia.
Qed.

Lemma psl_concat {A} (b : list (list A)) k x : nth_error b k = Some x -> psl (concat b) (zsum (firstn k (map zlen b))) (zsum (firstn (S k) (map zlen b))) = x.
Proof.
  intros H. assert (U : forall j, 0 <= zsum (firstn j (map zlen b)) <= zlen (concat b)) by (intros j; rewrite zlen_concat; split; [apply zsum_nonneg, Forall_firstn, Forall_zlen|apply firstn_le_sum, Forall_zlen]).
  rewrite psl_sub by apply U. rewrite !Z.min_l by apply U. apply sub_concat. exact H.
Qed.

Lemma uncat_concat {A} (b : list (list A)) : uncat (concat b) (map zlen b) = b.
Proof.
  unfold uncat. apply zget_ext. intros k. rewrite zget_map, zlen_map. destruct (Z_lt_dec k 0) as [N|N]; [rewrite !zget_out by lia; reflexivity|]. destruct (Z_lt_dec k (zlen b)) as [M|M].
  - rewrite zget_zrange by lia. cbn [option_map]. rewrite Z.add_0_l. rewrite !zget_cum by (rewrite zlen_map; lia).
    destruct (zget_in_range b k) as (x & Hx); [lia|]. rewrite Hx. f_equal. replace (Z.to_nat (k + 1)) with (S (Z.to_nat k)) by lia. apply psl_concat. rewrite <- zget_nth_error, Z2Nat.id by lia. exact Hx.
  - rewrite (zget_out b) by lia. rewrite zget_out; [reflexivity|]. rewrite zrange_zlen. lia.
Qed.

(* splitting a list at given lengths *)
Lemma split_exists {A} (lens : list Z) : forall a : list A, Forall (fun x => 0 <= x) lens -> zsum lens = zlen a -> exists b, a = concat b /\ lens = map zlen b.
Proof.
  induction lens as [|x lens IH]; intros a H E.
  - exists []. cbn in *. destruct a as [|z a]; [auto|rewrite zlen_cons in E; pose proof (zlen_nonneg a); lia].
  - inversion H; subst. cbn in E. pose proof (zsum_nonneg _ H3). destruct (IH (skipn (Z.to_nat x) a)) as (b & B1 & B2); [assumption|unfold zlen in *; rewrite skipn_length; lia|].
    exists (firstn (Z.to_nat x) a :: b). cbn. rewrite <- B1, firstn_skipn. split; [reflexivity|]. rewrite <- B2. f_equal. unfold zlen in *. rewrite firstn_length. lia.
Qed.

(* ---- buffers ---- *)
Lemma write_at_len {A} (data : list A) : forall buf off, length (write_at buf off data) = length buf.
Proof. induction data as [|x d IH]; intros; cbn; [reflexivity|]. rewrite IH. apply upd_length. Qed.
Lemma zget_write_at {A} (data : list A) : forall buf off k, 0 <= off -> off + zlen data <= zlen buf -> 0 <= k -> zget (write_at buf off data) k = if (off <=? k) && (k <? off + zlen data) then zget data (k - off) else zget buf k.
Proof.
  induction data as [|x d IH]; intros buf off k H1 H2 Hk.
  - cbn [write_at]. change (zlen (@nil A)) with 0. destruct (Z.leb_spec off k), (Z.ltb_spec k (off + 0)); cbn; try reflexivity. lia.
  - cbn [write_at]. rewrite zlen_cons in H2. rewrite IH; [|lia|unfold zlen at 2; rewrite upd_length; unfold zlen in *; lia|lia]. rewrite zlen_cons.
    pose proof (zlen_nonneg d). rewrite zget_upd by (unfold zlen in *; lia). destruct (Z.leb_spec (off + 1) k), (Z.ltb_spec k (off + 1 + zlen d)), (Z.leb_spec off k), (Z.ltb_spec k (off + (1 + zlen d))); cbn; try lia; try reflexivity.
    all: rewrite ?zget_cons.
    all: repeat match goal with |- context [if ?c then _ else _] => destruct c eqn:? end; try reflexivity; try lia.
    all: try (f_equal; lia).
Qed.
Lemma write_at_app {A} (pre mid post data : list A) : length mid = length data -> write_at (pre ++ mid ++ post) (zlen pre) data = pre ++ data ++ post.
Proof.
  revert pre mid. induction data as [|x d IH]; intros pre mid H; destruct mid as [|y mid]; cbn in H; try lia; [reflexivity|]. cbn [write_at].
  assert (E : upd (pre ++ (y :: mid) ++ post) (Z.to_nat (zlen pre)) x = (pre ++ [x]) ++ mid ++ post).
  { unfold zlen. rewrite Nat2Z.id. clear. induction pre as [|z pre IH]; [reflexivity|]. cbn [app length upd] in *. now rewrite IH. }
  rewrite E. replace (zlen pre + 1) with (zlen (pre ++ [x])) by (rewrite zlen_app; reflexivity). rewrite IH by lia. rewrite <- app_assoc. reflexivity.
Qed.

Lemma mpi_spec {A} (bufs : list (list A)) : forall (pre buf : list A), zlen buf = zlen (concat bufs) ->
  mpi_allgatherv (pre ++ buf) (map (fun x => zlen pre + x) (removelast (cumsum_end (map zlen bufs)))) bufs = pre ++ concat bufs.
Proof.
  induction bufs as [|b bufs IH]; intros pre buf H.
  - destruct buf as [|z buf]; [reflexivity|]. rewrite zlen_cons in H. change (zlen (concat (@nil (list A)))) with 0 in H. pose proof (zlen_nonneg buf). lia.
  - assert (RL : removelast (cumsum_end (map zlen (b :: bufs))) = 0 :: map (fun x => zlen b + x) (removelast (cumsum_end (map zlen bufs)))).
    { unfold cumsum_end, cumsum. cbn [map]. cbn [cumsum_from]. rewrite Z.add_0_l.
      assert (CF : forall l a, cumsum_from a l = map (fun x => a + x) (cumsum_from 0 l)).
      { clear. induction l as [|x l IH]; intros a; cbn; [reflexivity|]. f_equal. rewrite (IH (a + x)), (IH x), map_map. apply map_ext. intros; lia. }
      rewrite CF. change (zlen b :: map (fun x => zlen b + x) (cumsum_from 0 (map zlen bufs))) with (zlen b :: map (fun x => zlen b + x) (cumsum_from 0 (map zlen bufs))).
      replace (zlen b :: map (fun x => zlen b + x) (cumsum_from 0 (map zlen bufs))) with (map (fun x => zlen b + x) (0 :: cumsum_from 0 (map zlen bufs))) by (cbn; rewrite Z.add_0_r; reflexivity).
      assert (RM : forall (f : Z -> Z) l, removelast (map f l) = map f (removelast l)). { clear. intros f. induction l as [|x [|y l] IH]; cbn in *; try reflexivity. now rewrite IH. }
      rewrite <- RM. reflexivity. }
    rewrite RL. cbn [map mpi_allgatherv]. rewrite Z.add_0_r. cbn [concat] in H. rewrite zlen_app in H.
    rewrite <- (firstn_skipn (length b) buf) at 1.
    assert (Lb : (length b <= length buf)%nat) by (pose proof (zlen_nonneg (concat bufs)); unfold zlen in *; lia).
    rewrite write_at_app by (rewrite firstn_length; lia). rewrite app_assoc.
    replace (map (fun x => zlen pre + x) (map (fun x => zlen b + x) (removelast (cumsum_end (map zlen bufs))))) with (map (fun x => zlen (pre ++ b) + x) (removelast (cumsum_end (map zlen bufs)))).
    2:{ rewrite map_map. apply map_ext. intros x. rewrite zlen_app. lia. }
    rewrite IH; [rewrite <- app_assoc; reflexivity|]. unfold zlen in *. rewrite skipn_length. lia.
Qed.
Lemma zprod_nonneg l : Forall (fun n => 0 <= n) l -> 0 <= zprod l.
Proof. induction 1; cbn; nia. Qed.

(* ---- multimap ---- *)
Lemma firstn_S_nth l i x : nth_error l i = Some x -> zsum (firstn (S i) l) = zsum (firstn i l) + x.
Proof. revert i. induction l as [|y l IH]; intros [|i] H; try discriminate; cbn in *; [apply Some_inj in H; lia|]. rewrite (IH i H). lia. Qed.
Section MM.
Context {A : Type}.
Variables (npre : Z) (maps : list (pmap A)).
Hypothesis Hok : Forall (pmap_ok npre) maps.
Definition row_of (p : Z) (m : pmap A) : list A := nth (Z.to_nat p) (pm_data m) [].
Definition npix_of (m : pmap A) : Z := pm_ny m * pm_nx m.

Lemma row_len p m : In m maps -> 0 <= p < npre -> zlen (row_of p m) = npix_of m.
Proof.
  intros Hm Hp. rewrite Forall_forall in Hok. destruct (Hok m Hm) as (_ & _ & H3 & H4). rewrite Forall_forall in H4. apply H4. unfold row_of. apply nth_In. unfold zlen in H3. lia.
Qed.
Lemma rows_len p : 0 <= p < npre -> map zlen (map (row_of p) maps) = map npix_of maps.
Proof. intros Hp. rewrite map_map. apply map_ext_in. intros m Hm. apply row_len; assumption. Qed.
Lemma data_rows m : In m maps -> map (fun p => row_of p m) (zrange 0 npre) = pm_data m.
Proof.
  intros Hm. rewrite Forall_forall in Hok. destruct (Hok m Hm) as (_ & _ & H3 & _). apply zget_ext. intros k. rewrite zget_map.
  destruct (Z_lt_dec k 0) as [N|N]; [rewrite !zget_out by lia; reflexivity|]. destruct (Z_lt_dec k npre) as [M|M].
  - rewrite zget_zrange by lia. cbn. unfold row_of. destruct (zget_in_range (pm_data m) k) as (x & Hx); [lia|]. rewrite Hx. f_equal. apply nth_error_nth. rewrite <- zget_nth_error, Z2Nat.id by lia. exact Hx.
  - rewrite zget_out by (rewrite zrange_zlen; lia). rewrite zget_out by lia. reflexivity.
Qed.
Definition mm_of : mmap A := MM (map (fun m => (pm_ny m, pm_nx m)) maps) (map (fun p => concat (map (row_of p) maps)) (zrange 0 npre)).
End MM.

Lemma flat_map_concat {A B} (f : A -> list B) l : flat_map f l = concat (map f l).
Proof. induction l; cbn; [reflexivity|]. now rewrite IHl. Qed.
Lemma multimap_eq {A} npre (maps : list (pmap A)) : Forall (pmap_ok npre) maps -> maps <> [] -> multimap maps = Some (mm_of npre maps).
Proof.
  intros Hok Hne. unfold multimap, mm_of. destruct maps as [|m0 rest] eqn:E; [congruence|].
  assert (H0 : forall m, In m (m0 :: rest) -> zlen (pm_data m) = npre) by (intros m Hm; rewrite Forall_forall in Hok; apply Hok; exact Hm).
  rewrite (proj2 (forallb_forall _ _)); [|intros m Hm; apply Z.eqb_eq; rewrite !H0; [reflexivity|left; reflexivity|exact Hm]].
  do 2 f_equal. rewrite (H0 m0) by now left. apply map_ext. intros p. apply flat_map_concat.
Qed.
Lemma npixs_mm {A} npre (maps : list (pmap A)) : npixs (mm_of npre maps) = map npix_of maps.
Proof. unfold npixs, mm_of. cbn. rewrite map_map. reflexivity. Qed.
Lemma mm_offs {A} npre (maps : list (pmap A)) i m : zget maps i = Some m ->
  pyget (cumsum_end (map npix_of maps)) i = Some (zsum (firstn (Z.to_nat i) (map npix_of maps))) /\
  pyget (cumsum_end (map npix_of maps)) (i + 1) = Some (zsum (firstn (S (Z.to_nat i)) (map npix_of maps))) /\
  pyget (mm_geos (mm_of npre maps)) i = Some (pm_ny m, pm_nx m).
Proof.
  intros H. pose proof (zget_Some_range _ _ _ H) as R. unfold pyget. destruct (Z.ltb_spec i 0); [lia|]. destruct (Z.ltb_spec (i + 1) 0); [lia|].
  rewrite !zget_cum by (rewrite zlen_map; lia). split; [reflexivity|]. split; [do 3 f_equal; lia|]. unfold mm_of. cbn. rewrite zget_map, H. reflexivity.
Qed.
Lemma mm_get_spec {A} npre (maps : list (pmap A)) i m : Forall (pmap_ok npre) maps -> zget maps i = Some m -> mm_get (mm_of npre maps) i = Some m.
Proof.
  intros Hok H. unfold mm_get. rewrite npixs_mm. destruct (mm_offs npre maps i m H) as (-> & -> & ->).
  pose proof (zget_Some_range _ _ _ H) as R. assert (Hm : In m maps) by (apply zget_In in H; exact H).
  assert (E : map (fun row => psl row (zsum (firstn (Z.to_nat i) (map npix_of maps))) (zsum (firstn (S (Z.to_nat i)) (map npix_of maps)))) (mm_data (mm_of npre maps)) = pm_data m).
  { rewrite <- (data_rows npre maps Hok m Hm). unfold mm_of. cbn [mm_data]. rewrite map_map. apply map_ext_in. intros p Hp. apply zrange_In in Hp.
    rewrite <- (rows_len npre maps Hok p Hp). apply psl_concat. rewrite nth_error_map. rewrite <- zget_nth_error, Z2Nat.id by lia. rewrite H. reflexivity. }
  rewrite E. rewrite Forall_forall in Hok. destruct (Hok m Hm) as (_ & _ & _ & H4). rewrite Forall_forall in H4.
  rewrite (proj2 (forallb_forall _ _)); [destruct m; reflexivity|]. intros c Hc. apply Z.eqb_eq, H4, Hc.
Qed.

Lemma mm_set_spec {A} npre (maps : list (pmap A)) i m val : Forall (pmap_ok npre) maps -> zget maps i = Some m ->
  zlen val = npre -> Forall (fun c => zlen c = npix_of m) val ->
  mm_set (mm_of npre maps) i val = Some (mm_of npre (upd maps (Z.to_nat i) (PM (pm_ny m) (pm_nx m) val))).
Proof.
  intros Hok H HV1 HV2. unfold mm_set. rewrite npixs_mm. destruct (mm_offs npre maps i m H) as (-> & -> & ->).
  pose proof (zget_Some_range _ _ _ H) as R. assert (Hm : In m maps) by (apply zget_In in H; exact H).
  assert (Hn : nth_error maps (Z.to_nat i) = Some m) by (rewrite <- zget_nth_error, Z2Nat.id by lia; exact H).
  assert (C : (forallb (fun row => zlen (psl row (zsum (firstn (Z.to_nat i) (map npix_of maps))) (zsum (firstn (S (Z.to_nat i)) (map npix_of maps)))) =? pm_ny m * pm_nx m) (mm_data (mm_of npre maps)) && (zlen val =? zlen (mm_data (mm_of npre maps))) && forallb (fun c => zlen c =? pm_ny m * pm_nx m) val) = true).
  { apply andb_true_intro. split; [apply andb_true_intro; split|].
    - apply forallb_forall. intros row Hrow. apply Z.eqb_eq. unfold mm_of in Hrow. cbn in Hrow. apply in_map_iff in Hrow as (p & <- & Hp). apply zrange_In in Hp. rewrite <- (rows_len npre maps Hok p Hp). erewrite psl_concat; [|rewrite nth_error_map, Hn; reflexivity]. apply (row_len npre maps Hok); assumption.
    - apply Z.eqb_eq. unfold mm_of. cbn. rewrite zlen_map, zrange_zlen. pose proof (zlen_nonneg val). lia.
    - apply forallb_forall. intros c Hc. apply Z.eqb_eq. rewrite Forall_forall in HV2. apply HV2, Hc. }
  rewrite C. f_equal. unfold mm_of at 3. unfold mm_of at 1. cbn [mm_geos mm_data].
  destruct (nth_error_split _ _ Hn) as (pre & post & E & L). 
  assert (UPD : upd maps (Z.to_nat i) (PM (pm_ny m) (pm_nx m) val) = pre ++ PM (pm_ny m) (pm_nx m) val :: post).
  { rewrite E, <- L. clear. induction pre as [|x pre IH]; cbn; [reflexivity|]. now rewrite IH. }
  f_equal.
  - rewrite UPD, E, !map_app. reflexivity.
  - unfold mm_of. cbn [mm_data]. apply zget_ext. intros k. rewrite !zget_map.
    destruct (Z_lt_dec k 0) as [N|N]; [rewrite !zget_out by lia; reflexivity|]. destruct (Z_lt_dec k npre) as [M|M].
    + rewrite (zget_zrange 0 npre k) by lia. cbn [option_map]. destruct (zget_in_range val k) as (c & Hc); [lia|].
      assert (Z1 : zget (combine (map (fun p => concat (map (row_of p) maps)) (zrange 0 npre)) val) k = Some (concat (map (row_of k) maps), c)).
      { assert (G : forall {X Y} (l1 : list X) (l2 : list Y) j x y, zget l1 j = Some x -> zget l2 j = Some y -> zget (combine l1 l2) j = Some (x, y)).
        { clear. induction l1 as [|a l1 IH]; intros [|b l2] j x y H1 H2; rewrite ?zget_nil in *; try discriminate. cbn. rewrite !zget_cons in *. destruct (j =? 0); [congruence|eauto]. }
        apply G; [|exact Hc]. rewrite zget_map, zget_zrange by lia. reflexivity. }
      rewrite Z1. cbn [option_map fst snd]. rewrite Z.add_0_l. f_equal. rewrite UPD.
      assert (RV : row_of k (PM (pm_ny m) (pm_nx m) val) = c). { unfold row_of. cbn. apply nth_error_nth. rewrite <- zget_nth_error, Z2Nat.id by lia. exact Hc. }
      assert (O : zsum (firstn (Z.to_nat i) (map npix_of maps)) = zlen (concat (map (row_of k) pre))).
      { rewrite zlen_concat. rewrite <- L. rewrite E at 1. rewrite map_app, firstn_app, map_length, Nat.sub_diag. cbn. rewrite app_nil_r. rewrite <- (map_length npix_of pre), firstn_all. f_equal. rewrite map_map. symmetry. apply map_ext_in. intros x Hx. apply (row_len npre maps Hok); [rewrite E; apply in_or_app; left; exact Hx|lia]. }
      rewrite O. rewrite E at 1. rewrite !map_app, !concat_app. cbn [map concat]. rewrite RV. apply write_at_app.
      assert (zlen (row_of k m) = zlen c); [|unfold zlen in *; lia]. rewrite (row_len npre maps Hok) by (auto; lia). rewrite Forall_forall in HV2. symmetry. apply HV2. apply zget_In in Hc. exact Hc.
    + rewrite (zget_out (zrange 0 npre)) by (rewrite zrange_zlen; lia). rewrite zget_out; [reflexivity|]. right. unfold zlen. rewrite combine_length, map_length. unfold zlen in HV1. lia.
Qed.
