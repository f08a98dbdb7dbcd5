From Verif Require Import Base SliceSpec ArrModel ArrLemmas BlockSpec BlockModel BlockLemmas RangeModel RangeLemmas WindModel WindLemmas CatSpec CatModel CatLemmas FindLemmas LabLemmas BinSpec TilSpec TilModel.
From Verif Require FindModel.
Local Open Scope Z_scope.

(* ---- generic ---- *)
Lemma zget_grid {A B C} (f : A -> B -> C) (R : list A) (L : list B) : forall i j a b, zget R i = Some a -> zget L j = Some b ->
  zget (flat_map (fun a => map (f a) L) R) (i * zlen L + j) = Some (f a b).
Proof.
  induction R as [|r R IH]; intros i j a b Hi Hj; [rewrite zget_nil in Hi; discriminate|]. pose proof (zget_Some_range _ _ _ Hj) as RJ. cbn [flat_map]. rewrite zget_cons in Hi.
  pose proof (zlen_map (f r) L) as EL. destruct (Z.eqb_spec i 0) as [->|N].
  - apply Some_inj in Hi. subst r. rewrite zget_app1 by lia. rewrite zget_map. replace (0 * zlen L + j) with j by lia. rewrite Hj. reflexivity.
  - pose proof (zget_Some_range _ _ _ Hi) as RI. rewrite zget_app2 by nia. rewrite EL. rewrite <- (IH (i - 1) j a b Hi Hj). f_equal. lia.
Qed.
Lemma zlen_grid {A B C} (f : A -> B -> C) (R : list A) (L : list B) : zlen (flat_map (fun a => map (f a) L) R) = zlen R * zlen L.
Proof. induction R as [|r R IH]; [reflexivity|]. cbn [flat_map]. rewrite zlen_app, IH, zlen_map, zlen_cons. lia. Qed.
Lemma zsum_scale (c : Z) {A} (f : A -> Z) l : zsum (map (fun x => c * f x) l) = c * zsum (map f l).
Proof. induction l; cbn; lia. Qed.
Lemma zsum_grid {A B} (f : A -> Z) (h : B -> Z) (R : list A) (L : list B) :
  zsum (map (fun s : Z * Z => fst s * snd s) (flat_map (fun a => map (fun b => (f a, h b)) L) R)) = zsum (map f R) * zsum (map h L).
Proof. induction R as [|r R IH]; [reflexivity|]. cbn [flat_map map zsum]. rewrite map_app, zsum_app, IH, map_map. cbn [fst snd]. rewrite zsum_scale. lia. Qed.
Lemma ztelescope (f : Z -> Z) n : 0 <= n -> zsum (map (fun t => f (t + 1) - f t) (zrange 0 n)) = f n - f 0.
Proof.
  intros H. pattern n. apply natlike_ind; [cbn; lia| |exact H]. intros m Hm IH. unfold Z.succ. rewrite zrange_snoc, map_app, zsum_app, IH by lia. cbn. lia.
Qed.
Lemma pygather_map {A} (l : list A) (f : Z -> A) inds : (forall i, In i inds -> pyget l i = Some (f i)) -> FindModel.pygather l inds = Some (map f inds).
Proof. induction inds as [|i inds IH]; intros H; cbn; [reflexivity|]. rewrite H by now left. rewrite IH by (intros; apply H; now right). reflexivity. Qed.
Lemma all_some_map {A B} (f : A -> option B) (h : A -> B) l : (forall x, In x l -> f x = Some (h x)) -> all_some (map f l) = Some (map h l).
Proof. unfold all_some. induction l as [|x l IH]; intros H; cbn; [reflexivity|]. rewrite H by now left. rewrite IH by (intros; apply H; now right). reflexivity. Qed.
Lemma existsb_In (l : list Z) x : existsb (Z.eqb x) l = true <-> In x l.
Proof. rewrite existsb_exists. split; [intros (y & H & E); apply Z.eqb_eq in E; now subst|]. intros H. exists x. split; [exact H|apply Z.eqb_refl]. Qed.
Lemma NoDup_zget {A} (l : list A) i j x : NoDup l -> zget l i = Some x -> zget l j = Some x -> i = j.
Proof.
  intros N Hi Hj. pose proof (zget_Some_range _ _ _ Hi) as RI. pose proof (zget_Some_range _ _ _ Hj) as RJ.
  rewrite NoDup_nth_error in N. rewrite <- (Z2Nat.id i), zget_nth_error in Hi by lia. rewrite <- (Z2Nat.id j), zget_nth_error in Hj by lia.
  specialize (N (Z.to_nat i) (Z.to_nat j)). unfold zlen in *. lapply N; [|lia]. intros N'. rewrite Hi, Hj in N'. specialize (N' eq_refl). lia.
Qed.

(* ---- one axis of the tiling ---- *)
Definition ax_n (s t : Z) : Z := (s + t - 1) / t.
Definition ax_len (s t k : Z) : Z := if k =? ax_n s t - 1 then Z.min t ((s - 1) mod t + 1) else t.
Lemma ax_n_pos s t : 1 <= s -> 1 <= t -> 1 <= ax_n s t.
Proof. intros. unfold ax_n. apply Z.div_le_lower_bound; lia. Qed.
Lemma ax_n_alt s t : 1 <= s -> 1 <= t -> ax_n s t = (s - 1) / t + 1.
Proof. intros. unfold ax_n. replace (s + t - 1) with (s - 1 + 1 * t) by lia. rewrite Z.div_add by lia. reflexivity. Qed.
Lemma ax_len_eq s t k : 1 <= s -> 1 <= t -> 0 <= k < ax_n s t -> ax_len s t k = Z.min ((k + 1) * t) s - k * t /\ k * t < s /\ 1 <= ax_len s t k.
Proof.
  intros Hs Ht Hk. rewrite ax_n_alt in Hk by lia. unfold ax_len. rewrite ax_n_alt by lia. pose proof (Z.div_mod (s - 1) t ltac:(lia)). pose proof (Z.mod_pos_bound (s - 1) t ltac:(lia)).
  set (q := (s - 1) / t) in *. set (r := (s - 1) mod t) in *. clearbody q r. destruct (Z.eqb_spec k (q + 1 - 1)) as [E|E].
  - assert (k = q) by lia. subst k. nia.
  - assert ((k + 1) * t <= q * t) by nia. nia.
Qed.
Lemma ax_find s t y : 1 <= s -> 1 <= t -> 0 <= y < s -> 0 <= y / t < ax_n s t /\ y / t * t <= y < y / t * t + ax_len s t (y / t).
Proof.
  intros Hs Ht Hy. assert (R : 0 <= y / t < ax_n s t). { rewrite ax_n_alt by lia. split; [apply Z.div_pos; lia|]. assert (y / t <= (s - 1) / t) by (apply Z.div_le_mono; lia). lia. }
  split; [exact R|]. destruct (ax_len_eq s t (y / t) Hs Ht R) as (-> & _ & _). pose proof (Z.div_mod y t ltac:(lia)). pose proof (Z.mod_pos_bound y t ltac:(lia)). nia.
Qed.
Lemma ax_unique s t k y : 1 <= s -> 1 <= t -> 0 <= k < ax_n s t -> k * t <= y < k * t + ax_len s t k -> y / t = k.
Proof. intros Hs Ht Hk Hy. destruct (ax_len_eq s t k Hs Ht Hk) as (E & _ & _). symmetry. apply (Z.div_unique y t k (y - k * t)); nia. Qed.
Lemma ax_sum s t : 1 <= s -> 1 <= t -> zsum (map (ax_len s t) (zrange 0 (ax_n s t))) = s.
Proof.
  intros Hs Ht. pose proof (ax_n_pos s t Hs Ht). rewrite (map_ext_in _ (fun k => Z.min ((k + 1) * t) s - Z.min (k * t) s)).
  - rewrite (ztelescope (fun k => Z.min (k * t) s)) by lia. rewrite Z.mul_0_l. pose proof (ax_n_alt s t Hs Ht) as E. pose proof (Z.div_mod (s - 1) t ltac:(lia)). pose proof (Z.mod_pos_bound (s - 1) t ltac:(lia)). nia.
  - intros k Hk. apply zrange_In in Hk. destruct (ax_len_eq s t k Hs Ht Hk) as (-> & L & _). lia.
Qed.

(* ---- the grid ---- *)
Definition shape_ok (g : tgeo) : Prop := 1 <= tg_ny g /\ 1 <= tg_nx g /\ 1 <= tg_th g /\ 1 <= tg_tw g.
Definition npx (g : tgeo) (gi : Z) : Z := tile_h g (gi / tg_gx g) * tile_w g (gi mod tg_gx g).
Section Grid.
Variable g : tgeo.
Hypothesis H : shape_ok g.
Lemma gy_pos : 1 <= tg_gy g. Proof. apply ax_n_pos; apply H. Qed.
Lemma gx_pos : 1 <= tg_gx g. Proof. apply ax_n_pos; apply H. Qed.
Lemma ntile_pos : 1 <= ntile g. Proof. pose proof gy_pos. pose proof gx_pos. unfold ntile. nia. Qed.
Lemma grid_range gi : 0 <= gi < ntile g -> 0 <= gi / tg_gx g < tg_gy g /\ 0 <= gi mod tg_gx g < tg_gx g /\ gi = gi / tg_gx g * tg_gx g + gi mod tg_gx g.
Proof.
  intros R. pose proof gx_pos. unfold ntile in R. pose proof (Z.div_mod gi (tg_gx g) ltac:(lia)). pose proof (Z.mod_pos_bound gi (tg_gx g) ltac:(lia)).
  split; [|split; lia]. split; [apply Z.div_pos; lia|]. apply Z.div_lt_upper_bound; nia.
Qed.
Lemma grid_range' ty tx : 0 <= ty < tg_gy g -> 0 <= tx < tg_gx g -> 0 <= grid2ind g ty tx < ntile g.
Proof. intros. unfold grid2ind, ntile. nia. Qed.
Lemma ind_grid ty tx : 0 <= ty -> 0 <= tx < tg_gx g -> ind2grid g (grid2ind g ty tx) = (ty, tx).
Proof. intros. unfold ind2grid, grid2ind. f_equal; [symmetry; apply (Z.div_unique _ _ ty tx); lia|symmetry; apply (Z.mod_unique _ _ ty tx); lia]. Qed.
Lemma grid_ind gi : grid2ind g (gi / tg_gx g) (gi mod tg_gx g) = gi.
Proof. pose proof gx_pos. unfold grid2ind. pose proof (Z.div_mod gi (tg_gx g) ltac:(lia)). lia. Qed.
Lemma tile_h_eq ty : tile_h g ty = ax_len (tg_ny g) (tg_th g) ty. Proof. reflexivity. Qed.
Lemma tile_w_eq tx : tile_w g tx = ax_len (tg_nx g) (tg_tw g) tx. Proof. reflexivity. Qed.
Lemma geo_tile_eq gi : 0 <= gi < ntile g ->
  geo_tile g gi = (gi / tg_gx g * tg_th g, gi mod tg_gx g * tg_tw g, tile_h g (gi / tg_gx g), tile_w g (gi mod tg_gx g)).
Proof.
  intros R. destruct H as (H1 & H2 & H3 & H4). destruct (grid_range gi R) as (R1 & R2 & _). unfold geo_tile, ind2grid. rewrite tile_h_eq, tile_w_eq.
  destruct (ax_len_eq _ _ _ H1 H3 R1) as (E1 & L1 & P1). destruct (ax_len_eq _ _ _ H2 H4 R2) as (E2 & L2 & P2). rewrite E1, E2 in *.
  rewrite !sl_len by nia. do 2 f_equal; lia.
Qed.
Lemma zget_shapes gi : 0 <= gi < ntile g -> zget (tile_shapes g) gi = Some (tile_h g (gi / tg_gx g), tile_w g (gi mod tg_gx g)).
Proof.
  intros R. destruct (grid_range gi R) as (R1 & R2 & E). pose proof gx_pos. unfold tile_shapes.
  rewrite E at 1. replace (gi / tg_gx g * tg_gx g) with (gi / tg_gx g * zlen (zrange 0 (tg_gx g))) by (rewrite zrange_zlen; f_equal; lia).
  apply (zget_grid (fun ty tx => (tile_h g ty, tile_w g tx))); rewrite zget_zrange; try lia; f_equal; lia.
Qed.
Lemma zlen_shapes : zlen (tile_shapes g) = ntile g.
Proof. unfold tile_shapes. rewrite (zlen_grid (fun ty tx => (tile_h g ty, tile_w g tx))), !zrange_zlen. pose proof gx_pos. pose proof gy_pos. unfold ntile. rewrite !Z.max_r by lia. lia. Qed.
Lemma zget_npixs gi : 0 <= gi < ntile g -> zget (npixs g) gi = Some (npx g gi).
Proof. intros R. unfold npixs. rewrite zget_map, zget_shapes by exact R. reflexivity. Qed.
Lemma npx_pos gi : 0 <= gi < ntile g -> 1 <= npx g gi.
Proof.
  intros R. destruct H as (H1 & H2 & H3 & H4). destruct (grid_range gi R) as (R1 & R2 & _). unfold npx. rewrite tile_h_eq, tile_w_eq.
  destruct (ax_len_eq _ _ _ H1 H3 R1) as (_ & _ & P1). destruct (ax_len_eq _ _ _ H2 H4 R2) as (_ & _ & P2). nia.
Qed.
Lemma sum_npixs : zsum (npixs g) = tg_ny g * tg_nx g.
Proof.
  unfold npixs, tile_shapes. destruct H as (H1 & H2 & H3 & H4).
  rewrite (zsum_grid (tile_h g) (tile_w g)). f_equal; [apply (ax_sum (tg_ny g) (tg_th g)); lia|apply (ax_sum (tg_nx g) (tg_tw g)); lia].
Qed.
Lemma tile_of y x : 0 <= y < tg_ny g -> 0 <= x < tg_nx g ->
  let gi := grid2ind g (y / tg_th g) (x / tg_tw g) in 0 <= gi < ntile g /\ gi / tg_gx g = y / tg_th g /\ gi mod tg_gx g = x / tg_tw g.
Proof.
  intros Hy Hx gi. destruct H as (H1 & H2 & H3 & H4). destruct (ax_find _ _ y H1 H3 Hy) as (A1 & _). destruct (ax_find _ _ x H2 H4 Hx) as (A2 & _).
  pose proof (ind_grid (y / tg_th g) (x / tg_tw g) ltac:(lia) A2) as E. unfold ind2grid in E. fold gi in E. injection E as E1 E2. split; [apply grid_range'; assumption|]. auto.
Qed.
Lemma tile_box gi y x : 0 <= gi < ntile g -> 
  in_box y x (gi / tg_gx g * tg_th g) (gi mod tg_gx g * tg_tw g) (tile_h g (gi / tg_gx g)) (tile_w g (gi mod tg_gx g)) <->
  0 <= y < tg_ny g /\ 0 <= x < tg_nx g /\ gi = grid2ind g (y / tg_th g) (x / tg_tw g).
Proof.
  intros R. destruct (grid_range gi R) as (R1 & R2 & _). destruct H as (H1 & H2 & H3 & H4). rewrite tile_h_eq, tile_w_eq. unfold in_box. split.
  - intros (Hy & Hx). destruct (ax_len_eq _ _ _ H1 H3 R1) as (E1 & L1 & P1). destruct (ax_len_eq _ _ _ H2 H4 R2) as (E2 & L2 & P2).
    pose proof (ax_unique _ _ _ _ H1 H3 R1 Hy) as U1. pose proof (ax_unique _ _ _ _ H2 H4 R2 Hx) as U2. rewrite U1, U2, grid_ind.
    set (p := gi / tg_gx g * tg_th g) in *. set (q := gi mod tg_gx g * tg_tw g) in *.
    assert (P0 : 0 <= p) by (unfold p; apply Z.mul_nonneg_nonneg; [apply R1|clear -H3; lia]). assert (Q0 : 0 <= q) by (unfold q; apply Z.mul_nonneg_nonneg; [apply R2|clear -H4; lia]).
    pose proof (Z.le_min_r ((gi / tg_gx g + 1) * tg_th g) (tg_ny g)) as M1. pose proof (Z.le_min_r ((gi mod tg_gx g + 1) * tg_tw g) (tg_nx g)) as M2.
    rewrite E1 in Hy. rewrite E2 in Hx. clearbody p q. clear -Hy Hx P0 Q0 M1 M2. repeat split; lia.
  - intros (Hy & Hx & E). destruct (tile_of y x Hy Hx) as (_ & G1 & G2). rewrite <- E in G1, G2. rewrite G1, G2.
    split; [apply (ax_find _ _ y H1 H3 Hy)|apply (ax_find _ _ x H2 H4 Hx)].
Qed.
End Grid.

(* ---- lookup ---- *)
Lemma set_lookup_spec active : forall lookup k, NoDup active -> Forall (fun a => 0 <= a < zlen lookup) active ->
  exists l, set_lookup lookup k active = Some l /\ zlen l = zlen lookup /\
    (forall j a, zget active j = Some a -> zget l a = Some (k + j)) /\ (forall a, ~ In a active -> zget l a = zget lookup a).
Proof.
  induction active as [|a rest IH]; intros lookup k N F.
  - exists lookup. cbn. split; [reflexivity|]. split; [reflexivity|]. split; [intros j a H; rewrite zget_nil in H; discriminate|reflexivity].
  - inversion N as [|? ? Na Nr]; subst. inversion F as [|? ? Fa Fr]; subst. cbn [set_lookup]. replace (a <? 0) with false by lia.
    replace ((0 <=? a) && (a <? zlen lookup)) with true by lia.
    assert (ZU : zlen (upd lookup (Z.to_nat a) k) = zlen lookup) by (unfold zlen; rewrite upd_length; reflexivity).
    destruct (IH (upd lookup (Z.to_nat a) k) (k + 1) Nr) as (l & E & EL & E1 & E2).
    { rewrite ZU. exact Fr. }
    exists l. split; [exact E|]. split; [lia|]. split.
    + intros j b Hj. rewrite zget_cons in Hj. destruct (Z.eqb_spec j 0) as [->|Nj].
      * apply Some_inj in Hj. subst b. rewrite E2 by exact Na. rewrite zget_upd by (unfold zlen in Fa; lia). replace (a =? Z.of_nat (Z.to_nat a)) with true by lia. f_equal. lia.
      * rewrite (E1 _ _ Hj). f_equal. lia.
    + intros b Hb. rewrite E2 by (intros X; apply Hb; now right). rewrite zget_upd by (unfold zlen in Fa; lia). destruct (Z.eqb_spec b (Z.of_nat (Z.to_nat a))); [|reflexivity]. exfalso. apply Hb. left. lia.
Qed.

Definition lookup_ok (nt : Z) (active lookup : list Z) : Prop :=
  zlen lookup = nt /\ (forall j a, zget active j = Some a -> zget lookup a = Some j) /\ (forall a, 0 <= a < nt -> ~ In a active -> zget lookup a = Some (-1)).
Definition act_ok (nt : Z) (active : list Z) : Prop := NoDup active /\ Forall (fun a => 0 <= a < nt) active.
Lemma lookup_unique nt active l1 l2 : lookup_ok nt active l1 -> lookup_ok nt active l2 -> l1 = l2.
Proof.
  intros (A1 & A2 & A3) (B1 & B2 & B3). apply zget_ext. intros k. destruct (Z_lt_dec k 0) as [N|N]; [rewrite !zget_out by lia; reflexivity|]. destruct (Z_lt_dec k nt) as [M|M]; [|rewrite !zget_out by lia; reflexivity].
  destruct (in_dec Z.eq_dec k active) as [I1|I1]; [apply In_zget in I1 as (j & Hj); rewrite (A2 _ _ Hj), (B2 _ _ Hj); reflexivity|rewrite A3, B3 by (auto; lia); reflexivity].
Qed.
Lemma new_lookup nt active : act_ok nt active -> 0 <= nt -> exists l, set_lookup (repeat (-1) (Z.to_nat nt)) 0 active = Some l /\ lookup_ok nt active l.
Proof.
  intros (N & F) Hnt. assert (ZR : zlen (repeat (-1) (Z.to_nat nt)) = nt) by (unfold zlen; rewrite repeat_length; lia).
  destruct (set_lookup_spec active (repeat (-1) (Z.to_nat nt)) 0 N) as (l & E & EL & E1 & E2); [rewrite ZR; exact F|].
  exists l. split; [exact E|]. split; [lia|]. split; [intros j a Hj; rewrite (E1 _ _ Hj); f_equal; lia|]. intros a Ha Na. rewrite E2 by exact Na. rewrite zget_repeat'. replace ((0 <=? a) && (a <? nt)) with true by lia. reflexivity.
Qed.

(* ---- geometries ---- *)
Definition geo_ok (g : tgeo) : Prop := shape_ok g /\ act_ok (ntile g) (tg_active g) /\ lookup_ok (ntile g) (tg_active g) (tg_lookup g).
Definition with_act (g : tgeo) (a l : list Z) : tgeo := TG (tg_ny g) (tg_nx g) (tg_th g) (tg_tw g) a l.
Lemma geometry_ok ny nx th tw active : 1 <= ny -> 1 <= nx -> 1 <= th -> 1 <= tw -> act_ok (ntile (TG ny nx th tw active [])) active ->
  exists l, geometry ny nx th tw active = Some (TG ny nx th tw active l) /\ geo_ok (TG ny nx th tw active l).
Proof.
  intros H1 H2 H3 H4 HA. assert (SO : shape_ok (TG ny nx th tw active [])) by (repeat split; cbn; assumption).
  unfold geometry. replace ((th =? 0) || (tw =? 0)) with false by lia. pose proof (gy_pos _ SO). pose proof (gx_pos _ SO). pose proof (ntile_pos _ SO).
  replace ((tg_gy (TG ny nx th tw active []) <=? 0) || (tg_gx (TG ny nx th tw active []) <=? 0)) with false by lia.
  destruct (new_lookup _ _ HA ltac:(lia)) as (l & E & L). rewrite E. exists l. split; [reflexivity|]. split; [exact SO|]. split; [exact HA|exact L].
Qed.
Lemma geometry_self g : geo_ok g -> geometry (tg_ny g) (tg_nx g) (tg_th g) (tg_tw g) (tg_active g) = Some g.
Proof.
  intros (SO & HA & HL). destruct (geometry_ok (tg_ny g) (tg_nx g) (tg_th g) (tg_tw g) (tg_active g)) as (l & E & (_ & _ & L)); try apply SO; [exact HA|].
  rewrite E. f_equal. destruct g as [ny nx th tw a l0]. cbn in *. f_equal. exact (lookup_unique _ _ _ _ L HL).
Qed.
Lemma copy_active_ok g active : shape_ok g -> act_ok (ntile g) active -> exists l, copy_active g active = Some (with_act g active l) /\ geo_ok (with_act g active l).
Proof.
  intros SO HA. pose proof (ntile_pos g SO). unfold copy_active. destruct (new_lookup _ _ HA ltac:(lia)) as (l & E & L). rewrite E. exists l. split; [reflexivity|]. split; [exact SO|]. split; [exact HA|exact L].
Qed.
Lemma lookup_nonneg nt active lookup a : lookup_ok nt active lookup -> 0 <= a < nt -> exists k, zget lookup a = Some k /\ (In a active <-> 0 <= k) /\ (0 <= k -> zget active k = Some a).
Proof.
  intros (L1 & L2 & L3) Ha. destruct (in_dec Z.eq_dec a active) as [I1|I1].
  - apply In_zget in I1 as (j & Hj). exists j. rewrite (L2 _ _ Hj). split; [reflexivity|]. split; [split; intros; [apply (zget_Some_range _ _ _ Hj)|eapply zget_In; eassumption]|auto].
  - exists (-1). rewrite (L3 _ Ha I1). split; [reflexivity|]. split; [split; [intros; tauto|lia]|lia].
Qed.
(* the tiles of add that are not active yet *)
Definition new_tiles (active add : list Z) : list Z := filter (fun a => negb (existsb (Z.eqb a) active)) add.
Lemma NoDup_app_disj {A} (l m : list A) : NoDup l -> NoDup m -> (forall x, In x l -> In x m -> False) -> NoDup (l ++ m).
Proof. induction 1 as [|x l Nx N IH]; intros M D; cbn; [exact M|]. constructor; [rewrite in_app_iff; intros [X|X]; [tauto|apply (D x); [now left|exact X]]|apply IH; [exact M|]]. intros y Y1 Y2. apply (D y); [now right|exact Y2]. Qed.
Lemma new_tiles_In active add a : In a (new_tiles active add) <-> In a add /\ ~ In a active.
Proof.
  unfold new_tiles. rewrite filter_In. split; intros (H1 & H2); (split; [exact H1|]).
  - intros X. apply existsb_In in X. rewrite X in H2. discriminate.
  - destruct (existsb (Z.eqb a) active) eqn:E; [apply existsb_In in E; tauto|reflexivity].
Qed.
Lemma copy_add_ok g add : geo_ok g -> act_ok (ntile g) add ->
  exists l, copy_add g add = Some (with_act g (tg_active g ++ new_tiles (tg_active g) add) l) /\ geo_ok (with_act g (tg_active g ++ new_tiles (tg_active g) add) l).
Proof.
  intros (SO & (HA1 & HA2) & HL) (HB1 & HB2). pose proof (ntile_pos g SO). unfold copy_add. destruct HL as (L1 & L2 & L3).
  rewrite Forall_forall in HA2, HB2.
  rewrite (pygather_map _ (fun a => match zget (tg_lookup g) a with Some k => k | None => 0 end)).
  2:{ intros a Ha. specialize (HB2 a Ha). unfold pyget. replace (a <? 0) with false by lia. destruct (zget_in_range (tg_lookup g) a) as (x & Hx); [lia|]. rewrite Hx. reflexivity. }
  replace (map fst (filter (fun p : Z * Z => snd p <? 0) (combine add (map (fun a => match zget (tg_lookup g) a with Some k => k | None => 0 end) add)))) with (new_tiles (tg_active g) add).
  2:{ clear HB1. induction add as [|a add IH]; [reflexivity|]. cbn [map combine filter new_tiles snd]. fold (new_tiles (tg_active g) add).
      destruct (lookup_nonneg (ntile g) (tg_active g) (tg_lookup g) a) as (k & Hk & I1 & I2); [repeat split; assumption|apply HB2; now left|]. rewrite Hk.
      rewrite IH by (intros; apply HB2; now right). destruct (existsb (Z.eqb a) (tg_active g)) eqn:E; cbn [negb].
      - apply existsb_In in E. replace (k <? 0) with false by (apply I1 in E; lia). reflexivity.
      - replace (k <? 0) with true; [reflexivity|]. destruct (Z.ltb_spec k 0); [reflexivity|]. assert (X : In a (tg_active g)) by (apply I1; lia). apply existsb_In in X. congruence. }
  set (act := tg_active g ++ new_tiles (tg_active g) add).
  assert (N : NoDup act). { apply NoDup_app_disj; [exact HA1|apply NoDup_filter; exact HB1|]. intros x X1 X2. apply new_tiles_In in X2. tauto. }
  assert (F : Forall (fun a => 0 <= a < ntile g) act). { apply Forall_forall. intros x X. apply in_app_or in X as [X|X]; [auto|]. apply new_tiles_In in X. apply HB2. tauto. }
  destruct (set_lookup_spec act (tg_lookup g) 0 N) as (l & E & EL & E1 & E2); [rewrite L1; exact F|]. rewrite E. exists l. split; [reflexivity|].
  split; [exact SO|]. split; [split; assumption|]. split; [cbn; unfold with_act, ntile, tg_gy, tg_gx in *; cbn in *; lia|]. split; [intros j a Hj; cbn in Hj |- *; rewrite (E1 _ _ Hj); f_equal; lia|].
  intros a Ha Na. cbn in Na |- *. rewrite E2 by exact Na. apply L3; [exact Ha|]. intros X. apply Na. unfold act. apply in_or_app. now left.
Qed.
Lemma act_npix_eq g : geo_ok g -> act_npix g = Some (map (npx g) (tg_active g)).
Proof.
  intros (SO & (_ & HA) & _). unfold act_npix. apply pygather_map. intros i Hi. rewrite Forall_forall in HA. specialize (HA i Hi). unfold pyget. replace (i <? 0) with false by lia. apply zget_npixs; assumption.
Qed.

(* ---- sparse maps ---- *)
Section Sparse.
Context {A : Type}.
Implicit Types (s : sparse A) (g : tgeo).
Definition toTM g s : tmap A := TM g (concat (map snd s)).
Definition good g s : Prop := geo_ok g /\ map fst s = tg_active g /\ Forall (fun e => zlen (snd e) = npx g (fst e)) s.
Definition mk g (gi : Z) (px : list A) : tile A :=
  Tile (gi / tg_gx g * tg_th g) (gi mod tg_gx g * tg_tw g) (tile_h g (gi / tg_gx g)) (tile_w g (gi mod tg_gx g)) px.
Lemma lens_good g s : good g s -> map zlen (map snd s) = map (npx g) (tg_active g).
Proof. intros (_ & H2 & H3). rewrite <- H2, !map_map. apply map_ext_in. intros e He. rewrite Forall_forall in H3. apply H3. exact He. Qed.
Definition tm_ok (tm : tmap A) : Prop := geo_ok (tm_geo tm) /\ zlen (tm_data tm) = zsum (map (npx (tm_geo tm)) (tg_active (tm_geo tm))).
Lemma good_ok g s : good g s -> tm_ok (toTM g s).
Proof. intros G. split; [apply G|]. cbn. rewrite zlen_concat, (lens_good g s G). reflexivity. Qed.
Lemma combine_fst {B C} (l : list B) (m : list C) : length l = length m -> map fst (combine l m) = l.
Proof. revert m; induction l as [|x l IH]; intros [|y m] H; cbn in *; try lia; [reflexivity|]. f_equal. apply IH. lia. Qed.
Lemma combine_snd {B C} (l : list B) (m : list C) : length l = length m -> map snd (combine l m) = m.
Proof. revert m; induction l as [|x l IH]; intros [|y m] H; cbn in *; try lia; [reflexivity|]. f_equal. apply IH. lia. Qed.
Lemma ok_good tm : tm_ok tm -> exists s, good (tm_geo tm) s /\ tm = toTM (tm_geo tm) s.
Proof.
  intros (G & E). destruct (split_exists (map (npx (tm_geo tm)) (tg_active (tm_geo tm))) (tm_data tm)) as (b & B1 & B2).
  - destruct G as (SO & (_ & F) & _). rewrite Forall_forall in *. intros n Hn. apply in_map_iff in Hn as (a & <- & Ha). pose proof (npx_pos _ SO a (F a Ha)). lia.
  - symmetry. exact E.
  - assert (EL : length (tg_active (tm_geo tm)) = length b) by (apply (f_equal (@length Z)) in B2; rewrite !map_length in B2; exact B2).
    exists (combine (tg_active (tm_geo tm)) b). split.
    + split; [exact G|]. split; [apply combine_fst; exact EL|]. apply Forall_forall. intros (a, px) He. cbn.
      apply In_zget in He as (k & Hk). assert (K1 : zget (tg_active (tm_geo tm)) k = Some a) by (rewrite <- (combine_fst _ b EL), zget_map, Hk; reflexivity). assert (K2 : zget b k = Some px) by (rewrite <- (combine_snd (tg_active (tm_geo tm)) b EL), zget_map, Hk; reflexivity).
      apply (f_equal (fun l => zget l k)) in B2. rewrite !zget_map, K1, K2 in B2. cbn in B2. congruence.
    + unfold toTM. rewrite combine_snd by exact EL. rewrite <- B1. destruct tm; reflexivity.
Qed.
Lemma good_nodup g s : good g s -> NoDup (map fst s).
Proof. intros ((_ & (N & _) & _) & E & _). rewrite E. exact N. Qed.
Lemma good_range g s e : good g s -> In e s -> 0 <= fst e < ntile g.
Proof. intros ((_ & (_ & F) & _) & E & _) He. rewrite Forall_forall in F. apply F. rewrite <- E. apply in_map. exact He. Qed.
Lemma lookup_In s gi px : NoDup (map fst s) -> (lookup_tile s gi = Some px <-> In (gi, px) s).
Proof.
  unfold lookup_tile. induction s as [|(a, p) s IH]; intros N; cbn [find fst]; [split; [discriminate|easy]|]. inversion N as [|? ? Na Ns]; subst. destruct (Z.eqb_spec a gi) as [->|E].
  - split; [intros [= ->]; now left|]. intros [[= ->]|X]; [reflexivity|]. exfalso. apply Na. apply (in_map fst) in X. exact X.
  - rewrite (IH Ns). split; [intros; now right|]. intros [[= -> ->]|X]; [tauto|exact X].
Qed.
Lemma lookup_None s gi : lookup_tile s gi = None <-> ~ In gi (map fst s).
Proof.
  unfold lookup_tile. induction s as [|(a, p) s IH]; cbn [find fst map]; [easy|]. destruct (Z.eqb_spec a gi) as [->|E].
  - split; [discriminate|]. intros X. exfalso. apply X. now left.
  - rewrite IH. cbn. tauto.
Qed.
Lemma tile_at_eq g s k gi px : good g s -> zget s k = Some (gi, px) -> tile_at (toTM g s) k gi = Some (mk g gi px).
Proof.
  intros G Hk. pose proof (zget_Some_range _ _ _ Hk) as R. unfold tile_at. cbn [tm_geo toTM tm_data]. rewrite act_npix_eq by apply G. rewrite <- (lens_good g s G).
  rewrite !zget_cum by (rewrite !zlen_map; lia). rewrite geo_tile_eq; [|apply G|change gi with (fst (gi, px)); apply (good_range g s); [exact G|eapply zget_In; exact Hk]].
  replace (Z.to_nat (k + 1)) with (S (Z.to_nat k)) by lia. rewrite (psl_concat _ (Z.to_nat k) px).
  2:{ rewrite <- zget_nth_error, Z2Nat.id, zget_map, Hk by lia. reflexivity. }
  destruct G as (_ & _ & F). rewrite Forall_forall in F. apply zget_In in Hk. specialize (F _ Hk). cbn in F. unfold npx in F. rewrite F, Z.eqb_refl. reflexivity.
Qed.
Lemma s_fst g s k e : good g s -> zget s k = Some e -> zget (tg_active g) k = Some (fst e).
Proof. intros (_ & E & _) H. rewrite <- E, zget_map, H. reflexivity. Qed.
Lemma s_fst' g s k gi : good g s -> zget (tg_active g) k = Some gi -> exists px, zget s k = Some (gi, px).
Proof. intros (_ & E & _) H. rewrite <- E, zget_map in H. destruct (zget s k) as [(a, p)|]; [|discriminate]. cbn in H. apply Some_inj in H. subst. eauto. Qed.
Lemma zlen_s g s : good g s -> zlen (tg_active g) = zlen s.
Proof. intros (_ & E & _). rewrite <- E, zlen_map. reflexivity. Qed.
Lemma get_active_eq g s k gi px : good g s -> zget s k = Some (gi, px) -> get_active (toTM g s) k = Some (mk g gi px).
Proof.
  intros G Hk. pose proof (zget_Some_range _ _ _ Hk) as R. unfold get_active. cbn [toTM tm_geo]. unfold pyget. replace (k <? 0) with false by lia. rewrite (s_fst g s k _ G Hk). cbn [orb].
  rewrite (zlen_s g s G). replace (zlen s <=? k) with false by lia. apply tile_at_eq; assumption.
Qed.
Lemma get_tile_eq g s gi : good g s -> 0 <= gi < ntile g -> get_tile (toTM g s) gi = Some (option_map (mk g gi) (lookup_tile s gi)).
Proof.
  intros G R. unfold get_tile. cbn [toTM tm_geo]. unfold pyget. replace (gi <? 0) with false by lia. destruct (lookup_nonneg _ _ _ gi (proj2 (proj2 (proj1 G))) R) as (k & -> & I1 & I2).
  destruct (Z.ltb_spec k 0) as [N|N].
  - replace (lookup_tile s gi) with (@None (list A)); [reflexivity|]. symmetry. apply lookup_None. destruct G as (_ & -> & _). intros X. apply I1 in X. lia.
  - specialize (I2 N). pose proof (zget_Some_range _ _ _ I2). replace (zlen (tg_active g) <=? k) with false by lia. destruct (s_fst' g s k gi G I2) as (px & Hk).
    change (TM g (concat (map snd s))) with (toTM g s). rewrite (tile_at_eq g s k gi px G Hk). replace (lookup_tile s gi) with (Some px); [reflexivity|]. symmetry. apply lookup_In; [apply (good_nodup g s G)|eapply zget_In; exact Hk].
Qed.
(* apply f to the pixels of tile gi *)
Definition modify (gi : Z) (f : list A -> list A) s : sparse A := map (fun e => if fst e =? gi then (fst e, f (snd e)) else e) s.
Lemma modify_fst gi f s : map fst (modify gi f s) = map fst s.
Proof. unfold modify. rewrite map_map. apply map_ext. intros e. destruct (fst e =? gi); reflexivity. Qed.
Lemma modify_good g gi f s : good g s -> (forall px, zlen px = npx g gi -> zlen (f px) = npx g gi) -> good g (modify gi f s).
Proof.
  intros (G1 & G2 & G3) Hf. split; [exact G1|]. split; [rewrite modify_fst; exact G2|]. rewrite Forall_forall in *. intros e He. apply in_map_iff in He as (d & <- & Hd). specialize (G3 d Hd).
  destruct (Z.eqb_spec (fst d) gi) as [E|E]; cbn [fst snd]; [|exact G3]. rewrite E in *. apply Hf. exact G3.
Qed.
Lemma modify_notin gi f s : ~ In gi (map fst s) -> modify gi f s = s.
Proof. induction s as [|e s IH]; intros N; [reflexivity|]. cbn in *. destruct (Z.eqb_spec (fst e) gi) as [E|E]; [exfalso; apply N; now left|]. f_equal. apply IH. tauto. Qed.
Lemma modify_app gi f s t : modify gi f (s ++ t) = modify gi f s ++ modify gi f t.
Proof. apply map_app. Qed.
Lemma set_tile_eq g s gi px v : good g s -> lookup_tile s gi = Some px -> zlen v = npx g gi -> set_tile (toTM g s) gi v = Some (toTM g (modify gi (fun _ => v) s)).
Proof.
  intros G Hl Hv. pose proof (good_nodup g s G) as ND. apply lookup_In in Hl; [|exact ND]. pose proof (good_range g s _ G Hl) as R. cbn in R. apply In_zget in Hl as (k & Hk).
  pose proof (zget_Some_range _ _ _ Hk) as RK. unfold set_tile. cbn [toTM tm_geo tm_data]. unfold pyget. replace (gi <? 0) with false by lia.
  pose proof (s_fst g s k _ G Hk) as HA. cbn in HA. destruct (proj2 (proj2 (proj1 G))) as (_ & L2 & _). rewrite (L2 _ _ HA). rewrite act_npix_eq by apply G. replace (k <? 0) with false by lia. rewrite <- (lens_good g s G).
  rewrite !zget_cum by (rewrite !zlen_map; lia). rewrite geo_tile_eq by (try apply G; lia).
  assert (Hn : nth_error s (Z.to_nat k) = Some (gi, px)) by (rewrite <- zget_nth_error, Z2Nat.id by lia; exact Hk).
  replace (Z.to_nat (k + 1)) with (S (Z.to_nat k)) by lia. rewrite (psl_concat _ (Z.to_nat k) px) by (rewrite nth_error_map, Hn; reflexivity).
  destruct G as (G1 & G2 & G3). assert (Hp : zlen px = npx g gi) by (rewrite Forall_forall in G3; apply zget_In in Hk; apply (G3 _ Hk)).
  unfold npx in *. rewrite Hp, Hv, Z.eqb_refl. cbn [andb]. unfold toTM. do 2 f_equal.
  apply nth_error_split in Hn as (s1 & s2 & -> & E). rewrite map_app in ND. cbn [map] in ND. apply NoDup_remove_2 in ND. rewrite in_app_iff in ND. cbn [fst] in ND.
  rewrite modify_app. cbn [modify map fst]. rewrite Z.eqb_refl. fold (modify gi (fun _ => v) s2). rewrite !modify_notin by tauto.
  rewrite !map_app, !concat_app. cbn [map concat snd]. rewrite <- E. rewrite <- (map_length snd s1), <- (map_length zlen (map snd s1)). rewrite firstn_app, firstn_all, Nat.sub_diag. cbn [firstn]. rewrite app_nil_r, <- zlen_concat.
  apply write_at_app. unfold zlen in *. lia.
Qed.
Lemma lookup_modify s gi f gj : lookup_tile (modify gi f s) gj = if gi =? gj then option_map f (lookup_tile s gj) else lookup_tile s gj.
Proof.
  unfold lookup_tile. induction s as [|(a, p) s IH]; [destruct (gi =? gj); reflexivity|]. cbn [modify map find fst snd]. fold (modify gi f s).
  destruct (Z.eqb_spec a gi) as [E1|E1]; cbn [fst]; destruct (Z.eqb_spec a gj) as [E2|E2]; destruct (Z.eqb_spec gi gj); try lia; cbn; try reflexivity; apply IH.
Qed.
(* a loop that updates every tile of l in turn *)
Lemma fold_tiles g (step : option (tmap A) -> Z -> option (tmap A)) (F : Z -> list A -> list A) l :
  (forall s gi, good g s -> In gi l -> step (Some (toTM g s)) gi = Some (toTM g (modify gi (F gi) s))) ->
  (forall gi px, In gi l -> zlen px = npx g gi -> zlen (F gi px) = npx g gi) -> NoDup l ->
  forall s, good g s -> good g (map (fun e => if existsb (Z.eqb (fst e)) l then (fst e, F (fst e) (snd e)) else e) s) /\
    fold_left step l (Some (toTM g s)) = Some (toTM g (map (fun e => if existsb (Z.eqb (fst e)) l then (fst e, F (fst e) (snd e)) else e) s)).
Proof.
  intros HS HF. revert HS HF. induction l as [|gi l IH]; intros HS HF N s G.
  - cbn. rewrite map_id. auto.
  - inversion N as [|? ? N1 N2]; subst. cbn [fold_left]. rewrite HS by (auto; now left).
    assert (G' : good g (modify gi (F gi) s)) by (apply modify_good; [exact G|intros; apply HF; [now left|assumption]]).
    destruct (IH ltac:(intros; apply HS; [assumption|now right]) ltac:(intros; apply HF; [now right|assumption]) N2 _ G') as (E1 & E2). rewrite E2.
    assert (E : map (fun e => if existsb (Z.eqb (fst e)) l then (fst e, F (fst e) (snd e)) else e) (modify gi (F gi) s) = map (fun e => if existsb (Z.eqb (fst e)) (gi :: l) then (fst e, F (fst e) (snd e)) else e) s).
    { unfold modify. rewrite map_map. apply map_ext. intros e. cbn [existsb]. destruct (Z.eqb_spec (fst e) gi) as [X|X]; cbn [fst snd orb]; [|reflexivity].
      destruct (existsb (Z.eqb (fst e)) l) eqn:Y; [apply existsb_In in Y; rewrite X in Y; tauto|]. rewrite X. reflexivity. }
    rewrite <- E. split; [exact E1|reflexivity].
Qed.
Lemma lookup_map s (h : Z -> list A -> list A) gi : lookup_tile (map (fun e => (fst e, h (fst e) (snd e))) s) gi = option_map (h gi) (lookup_tile s gi).
Proof. unfold lookup_tile. induction s as [|(a, p) s IH]; [reflexivity|]. cbn [map find fst snd]. destruct (Z.eqb_spec a gi) as [->|E]; [reflexivity|exact IH]. Qed.
Lemma lookup_const (l : list Z) (h : Z -> list A) gi : lookup_tile (map (fun a => (a, h a)) l) gi = if existsb (Z.eqb gi) l then Some (h gi) else None.
Proof. unfold lookup_tile. induction l as [|a l IH]; [reflexivity|]. cbn [map find fst snd existsb]. rewrite (Z.eqb_sym gi a). destruct (Z.eqb_spec a gi) as [->|E]; [reflexivity|exact IH]. Qed.
Lemma const_good g (h : Z -> list A) : geo_ok g -> (forall gi, In gi (tg_active g) -> zlen (h gi) = npx g gi) -> good g (map (fun a => (a, h a)) (tg_active g)).
Proof. intros G H. split; [exact G|]. split; [rewrite map_map; apply map_id|]. rewrite Forall_forall. intros e He. apply in_map_iff in He as (a & <- & Ha). apply H. exact Ha. Qed.
Lemma zlen_repeat0 (z : A) n : 0 <= n -> zlen (repeat z (Z.to_nat n)) = n.
Proof. intros. unfold zlen. rewrite repeat_length. lia. Qed.
Lemma npx_pos' g gi : geo_ok g -> In gi (tg_active g) -> 1 <= npx g gi.
Proof. intros (SO & (_ & F) & _) H. rewrite Forall_forall in F. apply npx_pos; auto. Qed.
Definition zero_s (zero : A) g : sparse A := map (fun a => (a, repeat zero (Z.to_nat (npx g a)))) (tg_active g).
Lemma zero_good zero g : geo_ok g -> good g (zero_s zero g).
Proof. intros G. apply (const_good g (fun a => repeat zero (Z.to_nat (npx g a)))); [exact G|]. intros gi Hi. pose proof (npx_pos' g gi G Hi). apply zlen_repeat0. lia. Qed.
Lemma tm_zeros_eq zero g : geo_ok g -> tm_zeros zero g = Some (toTM g (zero_s zero g)).
Proof.
  intros G. unfold tm_zeros. rewrite act_npix_eq by exact G. unfold toTM, zero_s. do 2 f_equal. rewrite map_map. cbn [snd].
  assert (F : forall gi, In gi (tg_active g) -> 1 <= npx g gi) by (intros; apply npx_pos'; assumption). induction (tg_active g) as [|a l IH]; [reflexivity|]. cbn [map zsum concat].
  rewrite <- IH by (intros; apply F; now right). assert (0 <= zsum (map (npx g) l)). { apply zsum_nonneg. apply Forall_forall. intros n Hn. apply in_map_iff in Hn as (b & <- & Hb). specialize (F b (or_intror Hb)). lia. }
  specialize (F a (or_introl eq_refl)). rewrite Z2Nat.inj_add by lia. apply repeat_app.
Qed.
End Sparse.

(* ---- to_enmap ---- *)
Section Enmap.
Context {A : Type}.
Variables (zero : A) (g : tgeo) (s : sparse A).
Hypothesis G : good g s.
Definition pix_of (ss : sparse A) (y x : Z) : A :=
  match lookup_tile ss (grid2ind g (y / tg_th g) (x / tg_tw g)) with
  | Some px => nth (Z.to_nat ((y - y / tg_th g * tg_th g) * tile_w g (x / tg_tw g) + (x - x / tg_tw g * tg_tw g))) px zero
  | None => zero
  end.
Lemma lookup_app (a b : sparse A) gi : lookup_tile (a ++ b) gi = match lookup_tile a gi with Some p => Some p | None => lookup_tile b gi end.
Proof. unfold lookup_tile. induction a as [|(u, p) a IH]; [reflexivity|]. cbn [app find fst]. destruct (u =? gi); [reflexivity|exact IH]. Qed.
Lemma firstn_snoc {B} (l : list B) k x : nth_error l k = Some x -> firstn (S k) l = firstn k l ++ [x].
Proof. revert k; induction l as [|y l IH]; intros [|k] H; try discriminate; cbn in *; [apply Some_inj in H; now subst|]. f_equal. apply IH. exact H. Qed.
Lemma to_enmap_eq : exists m, to_enmap zero (toTM g s) = Some m /\ f_ny m = tg_ny g /\ f_nx m = tg_nx g /\
  forall y x, 0 <= y < tg_ny g -> 0 <= x < tg_nx g -> f_at m y x = pix_of s y x.
Proof.
  destruct (proj1 (proj1 G)) as (H1 & H2 & H3 & H4). pose proof (proj1 (proj1 G)) as SO. pose proof (good_nodup g s G) as ND.
  unfold to_enmap. cbn [toTM tm_geo]. rewrite (zlen_s g s G). unfold full2. replace ((0 <=? tg_ny g) && (0 <=? tg_nx g)) with true by lia.
  set (step := fun om ai => _).
  assert (K : forall n, (n <= length s)%nat -> exists m, fold_left step (zrange 0 (Z.of_nat n)) (Some (FA (tg_ny g) (tg_nx g) (fun _ _ => zero))) = Some m /\ f_ny m = tg_ny g /\ f_nx m = tg_nx g /\
     forall y x, 0 <= y < tg_ny g -> 0 <= x < tg_nx g -> f_at m y x = pix_of (firstn n s) y x).
  { induction n as [|n IH]; intros Hn; [eexists; split; [reflexivity|]; repeat split|].
    destruct IH as (m & E & M1 & M2 & M3); [lia|]. rewrite Nat2Z.inj_succ. unfold Z.succ. rewrite zrange_snoc, fold_left_app, E by lia. cbn [fold_left].
    destruct (nth_error s n) as [(gi, px)|] eqn:En; [|apply nth_error_None in En; lia]. assert (Hk : zget s (Z.of_nat n) = Some (gi, px)) by (rewrite zget_nth_error; exact En).
    unfold step at 1. change (TM g (concat (map snd s))) with (toTM g s). rewrite (get_active_eq g s _ gi px G Hk), (s_fst g s _ _ G Hk). cbn [fst]. unfold ind2grid.
    pose proof (good_range g s _ G (zget_In _ _ _ Hk)) as R. cbn [fst] in R. destruct (grid_range g SO gi R) as (R1 & R2 & _).
    destruct (ax_len_eq _ _ _ H1 H3 R1) as (E1 & L1 & P1). destruct (ax_len_eq _ _ _ H2 H4 R2) as (E2 & L2 & P2).
    assert (BY : 0 <= gi / tg_gx g * tg_th g /\ gi / tg_gx g * tg_th g <= Z.min ((gi / tg_gx g + 1) * tg_th g) (tg_ny g) <= tg_ny g) by nia.
    assert (BX : 0 <= gi mod tg_gx g * tg_tw g /\ gi mod tg_gx g * tg_tw g <= Z.min ((gi mod tg_gx g + 1) * tg_tw g) (tg_nx g) <= tg_nx g) by nia.
    unfold set2. rewrite M1, M2. cbn [tile_arr mk t_h t_w f_ny f_nx]. rewrite !sl_len by nia. rewrite !tile_h_eq, !tile_w_eq. rewrite <- E1, <- E2, !Z.eqb_refl. cbn [andb].
    eexists. split; [reflexivity|]. cbn [f_ny f_nx f_at]. split; [reflexivity|]. split; [reflexivity|]. intros y x Hy Hx.
    rewrite (sl_find_in (gi / tg_gx g * tg_th g)), (sl_find_in (gi mod tg_gx g * tg_tw g)) by lia. cbn [t_px]. rewrite (firstn_snoc s n _ En).
    pose proof (tile_box g SO gi y x R) as TB. unfold in_box in TB. rewrite tile_h_eq, tile_w_eq in TB.
    unfold pix_of at 1. rewrite lookup_app. destruct (Z.eq_dec gi (grid2ind g (y / tg_th g) (x / tg_tw g))) as [EQ|NE].
    - destruct (proj2 TB) as (B1 & B2); [tauto|]. destruct (tile_of g SO y x Hy Hx) as (_ & T1 & T2). rewrite <- EQ in T1, T2.
      replace ((gi / tg_gx g * tg_th g <=? y) && (y <? Z.min ((gi / tg_gx g + 1) * tg_th g) (tg_ny g))) with true by (clear -B1 E1; lia).
      replace ((gi mod tg_gx g * tg_tw g <=? x) && (x <? Z.min ((gi mod tg_gx g + 1) * tg_tw g) (tg_nx g))) with true by (clear -B2 E2; lia).
      rewrite <- EQ. assert (NI : lookup_tile (firstn n s) gi = None).
      { apply lookup_None. rewrite <- (firstn_skipn n s) in ND. rewrite map_app in ND. intros X.
        assert (Y : In gi (map fst (skipn n s))). { change gi with (fst (gi, px)). apply in_map. apply nth_error_In with 0%nat. rewrite nth_error_skipn'. rewrite Nat.add_0_r. exact En. }
        clear - ND X Y. induction (map fst (firstn n s)) as [|z l IHl]; [easy|]. cbn in ND. inversion ND; subst. destruct X as [<-|X]; [apply H1; apply in_or_app; now right|]. apply IHl; assumption. }
      rewrite NI. unfold lookup_tile. cbn [find fst]. rewrite Z.eqb_refl. rewrite T1, T2. unfold tile_arr, mk. cbn [f_at t_w t_px]. rewrite T2. reflexivity.
    - assert (~ (gi / tg_gx g * tg_th g <= y < gi / tg_gx g * tg_th g + ax_len (tg_ny g) (tg_th g) (gi / tg_gx g) /\ gi mod tg_gx g * tg_tw g <= x < gi mod tg_gx g * tg_tw g + ax_len (tg_nx g) (tg_tw g) (gi mod tg_gx g))) by tauto.
      assert (FF : f_at m y x = match lookup_tile (firstn n s) (grid2ind g (y / tg_th g) (x / tg_tw g)) with Some p => nth (Z.to_nat ((y - y / tg_th g * tg_th g) * tile_w g (x / tg_tw g) + (x - x / tg_tw g * tg_tw g))) p zero | None => zero end) by (rewrite M3 by assumption; reflexivity).
      unfold lookup_tile at 2. cbn [find fst]. destruct (Z.eqb_spec gi (grid2ind g (y / tg_th g) (x / tg_tw g))); [tauto|].
      clear -H E1 E2 FF. rewrite E1, E2 in H. revert H FF. generalize (gi / tg_gx g * tg_th g), (gi mod tg_gx g * tg_tw g), (Z.min ((gi / tg_gx g + 1) * tg_th g) (tg_ny g)), (Z.min ((gi mod tg_gx g + 1) * tg_tw g) (tg_nx g)). intros y1 x1 y2 x2 H FF.
      destruct (Z.leb_spec y1 y), (Z.ltb_spec y y2), (Z.leb_spec x1 x), (Z.ltb_spec x x2); cbn [andb]; try (rewrite FF; destruct (lookup_tile (firstn n s) _); reflexivity). exfalso. apply H. lia. }
  destruct (K (length s) ltac:(lia)) as (m & E & M1 & M2 & M3). exists m. rewrite firstn_all in M3. split; [exact E|]. auto.
Qed.
End Enmap.

(* ---- from_tiles ---- *)
Lemma split_tiles_spec {A} (tiles : list (option (list A))) : forall off act ts, split_tiles off tiles = (act, ts) ->
  length act = length ts /\ Forall (fun a => off <= a < off + zlen tiles) act /\ NoDup act /\
  (forall k, 0 <= k < zlen tiles -> lookup_tile (combine act ts) (off + k) = nth (Z.to_nat k) tiles None).
Proof.
  induction tiles as [|t tiles IH]; intros off act ts E; cbn [split_tiles] in E.
  - injection E as <- <-. split; [reflexivity|]. split; [constructor|]. split; [constructor|]. change (zlen (@nil (option (list A)))) with 0. intros; lia.
  - destruct (split_tiles (off + 1) tiles) as (act', ts') eqn:E'. destruct (IH _ _ _ E') as (I1 & I2 & I3 & I4). rewrite zlen_cons.
    assert (F : Forall (fun a => off <= a < off + (1 + zlen tiles)) act') by (revert I2; apply Forall_impl; intros; lia).
    assert (LT : forall k, 0 <= k < 1 + zlen tiles -> k <> 0 -> lookup_tile (combine act' ts') (off + k) = nth (Z.to_nat k) (t :: tiles) None).
    { intros k Hk N. replace (off + k) with (off + 1 + (k - 1)) by lia. rewrite I4 by lia. replace (Z.to_nat k) with (S (Z.to_nat (k - 1))) by lia. reflexivity. }
    assert (NI : ~ In off act') by (intros X; rewrite Forall_forall in I2; specialize (I2 _ X); lia).
    destruct t as [px|]; injection E as <- <-.
    + split; [cbn; lia|]. pose proof (zlen_nonneg tiles). split; [constructor; [lia|exact F]|]. split; [constructor; assumption|]. intros k Hk. unfold lookup_tile. cbn [combine find fst].
      destruct (Z.eqb_spec off (off + k)) as [X|X]; [replace k with 0 by lia; reflexivity|]. apply LT; lia.
    + split; [exact I1|]. split; [exact F|]. split; [exact I3|]. intros k Hk. destruct (Z.eq_dec k 0) as [->|N]; [|apply LT; lia].
      rewrite Z.add_0_r. cbn. apply lookup_None. rewrite combine_fst by exact I1. exact NI.
Qed.
Lemma from_tiles_eq {A} (zero : A) (tiles : list (option (list A))) g : shape_ok g -> zlen tiles = ntile g ->
  (forall gi px, 0 <= gi < ntile g -> nth (Z.to_nat gi) tiles None = Some px -> zlen px = npx g gi) ->
  exists act l s, from_tiles zero tiles g = Some (toTM (with_act g act l) s) /\ good (with_act g act l) s /\ forall gi, 0 <= gi < ntile g -> lookup_tile s gi = nth (Z.to_nat gi) tiles None.
Proof.
  intros SO HL HP. unfold from_tiles. destruct (split_tiles 0 tiles) as (act, ts) eqn:E. destruct (split_tiles_spec _ _ _ _ E) as (I1 & I2 & I3 & I4). cbn [Z.add] in *.
  destruct (copy_active_ok g act SO) as (l & EC & GO). { split; [exact I3|]. rewrite HL in I2. exact I2. }
  rewrite EC. exists act, l, (combine act ts). assert (GD : good (with_act g act l) (combine act ts)).
  { split; [exact GO|]. split; [apply combine_fst; exact I1|]. rewrite Forall_forall. intros (a, px) He. cbn. assert (R : 0 <= a < ntile g) by (apply in_combine_l in He; rewrite Forall_forall in I2; rewrite <- HL; apply (I2 _ He)).
    change (npx (with_act g act l) a) with (npx g a). apply HP; [exact R|]. rewrite <- I4 by lia. apply lookup_In; [rewrite combine_fst by exact I1; exact I3|exact He]. }
  split; [|split; [exact GD|intros; apply I4; lia]]. unfold from_active_tiles. cbn [with_act tg_active]. unfold zlen at 1 2. rewrite I1, Z.eqb_refl. cbn [negb].
  unfold toTM. rewrite combine_snd by exact I1. destruct (Z.eqb_spec (zlen ts) 0) as [Z0|_]; [|reflexivity].
  rewrite tm_zeros_eq by exact GO. unfold toTM, zero_s. cbn [with_act tg_active]. destruct ts; [|unfold zlen in Z0; cbn in Z0; lia]. destruct act; [reflexivity|cbn in I1; lia].
Qed.

(* ---- with_tiles ---- *)
Lemma eqb_all_eq (a : list Z) : forall b, zlen a = zlen b -> (forallb (fun p => fst p =? snd p) (combine a b) = true <-> a = b).
Proof.
  induction a as [|x a IH]; intros [|y b] H; rewrite ?zlen_cons in H; change (zlen (@nil Z)) with 0 in H; try pose proof (zlen_nonneg a); try pose proof (zlen_nonneg b); try lia; [cbn; tauto|].
  cbn. rewrite andb_true_iff, IH by lia. rewrite Z.eqb_eq. split; [intros (-> & ->); reflexivity|intros [= -> ->]; auto].
Qed.
(* the comparison of the active lists gives the right answer *)
Definition comparable (newnp : bool) (a b : list Z) : Prop :=
  zlen a = zlen b \/ (zlen a = 1 /\ 2 <= zlen b) \/ (zlen b = 1 /\ 2 <= zlen a) \/ (newnp = false /\ zlen a <> 1 /\ zlen b <> 1).
Lemma np_all_eq_spec newnp a b : comparable newnp a b -> NoDup a -> NoDup b -> exists r, np_all_eq newnp a b = Some r /\ (r = true <-> a = b).
Proof.
  intros C Na Nb. unfold np_all_eq. destruct (Z.eqb_spec (zlen a) (zlen b)) as [E|E].
  - eexists. split; [reflexivity|]. apply eqb_all_eq. exact E.
  - assert (AN : a <> b) by congruence.
    assert (Two : forall (l : list Z) x, NoDup l -> 2 <= zlen l -> (forall y, In y l -> y = x) -> False).
    { intros l x N H1 H2. destruct l as [|u [|v l]]; [cbn in H1; lia|cbn in H1; lia|]. inversion N as [|? ? N1 _]; subst. apply N1. left. rewrite (H2 u), (H2 v); [reflexivity|right; now left|now left]. }
    destruct C as [C|[(C1 & C2)|[(C1 & C2)|(C1 & C2 & C3)]]]; [lia| | |].
    + destruct a as [|x [|x' a]]; [cbn in C1; lia| |rewrite !zlen_cons in C1; pose proof (zlen_nonneg a); lia]. eexists. split; [reflexivity|]. split; [|tauto]. intros F. exfalso. apply (Two b x Nb C2). intros y Hy. rewrite forallb_forall in F. specialize (F y Hy). lia.
    + destruct b as [|x [|x' b]]; [cbn in C1; lia| |rewrite !zlen_cons in C1; pose proof (zlen_nonneg b); lia]. destruct a as [|u [|v a]]; [cbn in C2; lia|cbn in C2; lia|]. eexists. split; [reflexivity|]. split; [|tauto].
      intros F. exfalso. apply (Two (u :: v :: a) x Na C2). intros y Hy. rewrite forallb_forall in F. specialize (F y Hy). lia.
    + subst newnp. exists false. split; [|split; [discriminate|tauto]]. destruct a as [|x [|]]; destruct b as [|y [|]]; try reflexivity; cbn in C2, C3; try lia.
Qed.
Lemma existsb_true_In gi l : In gi l -> existsb (Z.eqb gi) l = true. Proof. apply existsb_In. Qed.
Lemma existsb_false_In gi l : ~ In gi l -> existsb (Z.eqb gi) l = false.
Proof. intros H. destruct (existsb (Z.eqb gi) l) eqn:E; [apply existsb_In in E; tauto|reflexivity]. Qed.
Lemma lookup_iter {A} (s : sparse A) l (F : Z -> list A -> list A) gi :
  lookup_tile (map (fun e => if existsb (Z.eqb (fst e)) l then (fst e, F (fst e) (snd e)) else e) s) gi = option_map (fun px => if existsb (Z.eqb gi) l then F gi px else px) (lookup_tile s gi).
Proof.
  rewrite <- (lookup_map s (fun gj px => if existsb (Z.eqb gj) l then F gj px else px)). f_equal. apply map_ext. intros (a, p). cbn. destruct (existsb (Z.eqb a) l); reflexivity.
Qed.
Lemma lookup_len {A} g (s : sparse A) gi px : good g s -> lookup_tile s gi = Some px -> zlen px = npx g gi.
Proof. intros G H. apply lookup_In in H; [|apply (good_nodup g s G)]. destruct G as (_ & _ & F). rewrite Forall_forall in F. apply (F _ H). Qed.
Lemma lookup_active {A} g (s : sparse A) gi : good g s -> In gi (tg_active g) <-> exists px, lookup_tile s gi = Some px.
Proof.
  intros G. pose proof (lookup_None s gi) as L. destruct G as (_ & E & _). rewrite E in L. destruct (lookup_tile s gi); [|]; split; intros H; try (destruct H as (? & ?); discriminate); eauto.
  - destruct (in_dec Z.eq_dec gi (tg_active g)); [assumption|]. apply L in n. discriminate.
  - exfalso. apply (proj1 L eq_refl H).
Qed.
Lemma with_tiles_eq {A} (zero : A) newnp g s add (strict : bool) : good g s -> act_ok (ntile g) add -> comparable newnp add (tg_active g) ->
  exists l s', let act := if strict then add else tg_active g ++ new_tiles (tg_active g) add in
    with_tiles zero newnp (toTM g s) add strict = Some (toTM (with_act g act l) s') /\ good (with_act g act l) s' /\
    forall gi, lookup_tile s' gi = if existsb (Z.eqb gi) act then match lookup_tile s gi with Some px => Some px | None => Some (repeat zero (Z.to_nat (npx g gi))) end else None.
Proof.
  intros G HB HC. pose proof (proj1 (proj2 (proj1 G))) as HA. unfold with_tiles. cbn [toTM tm_geo].
  destruct (np_all_eq_spec newnp add (tg_active g) HC (proj1 HB) (proj1 HA)) as (r & -> & Hr). set (act := if strict then add else tg_active g ++ new_tiles (tg_active g) add).
  assert (SELF : act = tg_active g -> forall gi, lookup_tile s gi = if existsb (Z.eqb gi) act then match lookup_tile s gi with Some px => Some px | None => Some (repeat zero (Z.to_nat (npx g gi))) end else None).
  { intros E gi. rewrite E. destruct (lookup_tile s gi) as [px|] eqn:L.
    - rewrite existsb_true_In; [reflexivity|]. apply (lookup_active g s gi G). eauto.
    - rewrite existsb_false_In; [reflexivity|]. intros X. apply (lookup_active g s gi G) in X as (px & X). congruence. }
  destruct r.
  - pose proof (proj1 Hr eq_refl) as E. assert (EA : act = tg_active g).
    { unfold act. destruct strict; [exact E|]. unfold new_tiles. rewrite filter_nil; [apply app_nil_r|]. intros x X. rewrite E in X. rewrite existsb_true_In by exact X. reflexivity. }
    exists (tg_lookup g), s. assert (EG : with_act g act (tg_lookup g) = g) by (rewrite EA; destruct g; reflexivity). rewrite EG. split; [reflexivity|]. split; [exact G|apply SELF; exact EA].
  - assert (EC : exists l, (if strict then copy_active g add else copy_add g add) = Some (with_act g act l) /\ geo_ok (with_act g act l)).
    { unfold act. destruct strict; [apply copy_active_ok; [apply G|exact HB]|apply copy_add_ok; [apply G|exact HB]]. }
    destruct EC as (l & EC & GO). rewrite EC. set (g' := with_act g act l) in *. rewrite (tm_zeros_eq zero g' GO). cbn [g' with_act tg_active]. fold g'.
    set (F := fun (gi : Z) (px : list A) => match lookup_tile s gi with Some p => p | None => px end).
    set (step := fun (res : option (tmap A)) (gi : Z) => _).
    assert (RA : forall gi, In gi act -> 0 <= gi < ntile g). { intros gi X. destruct GO as (_ & (_ & GF) & _). rewrite Forall_forall in GF. apply (GF gi). exact X. }
    destruct (fold_tiles g' step F act) with (s := zero_s zero g') as (E1 & E2).
    { intros t gi Gt Hi. unfold step. unfold pyget. pose proof (RA gi Hi) as R. replace (gi <? 0) with false by lia. destruct (lookup_nonneg _ _ _ gi (proj2 (proj2 (proj1 G))) R) as (k & -> & I1 & I2).
      unfold F. destruct (Z.leb_spec 0 k) as [K|K].
      - specialize (I2 K). destruct (s_fst' g s k gi G I2) as (px & Hk). change (TM g (concat (map snd s))) with (toTM g s). rewrite (get_active_eq g s k gi px G Hk). cbn [mk t_px].
        assert (L : lookup_tile s gi = Some px) by (apply lookup_In; [apply (good_nodup g s G)|eapply zget_In; exact Hk]). rewrite L.
        assert (X : exists p, lookup_tile t gi = Some p) by (apply (lookup_active g' t gi Gt); exact Hi). destruct X as (p & X).
        rewrite (set_tile_eq g' t gi p px Gt X); [reflexivity|]. change (npx g' gi) with (npx g gi). apply (lookup_len g s); assumption.
      - assert (L : lookup_tile s gi = None). { destruct (lookup_tile s gi) as [px|] eqn:L; [|reflexivity]. assert (X : In gi (tg_active g)) by (apply (lookup_active g s gi G); eauto). apply I1 in X. lia. }
        rewrite L. unfold modify. f_equal. f_equal. rewrite <- (map_id t) at 1. apply map_ext. intros (a, p). cbn. destruct (a =? gi); reflexivity. }
    { intros gi px Hi Hp. unfold F. destruct (lookup_tile s gi) as [p|] eqn:L; [|exact Hp]. change (npx g' gi) with (npx g gi). apply (lookup_len g s); assumption. }
    { apply GO. }
    { apply zero_good. exact GO. }
    exists l. eexists. rewrite E2. split; [reflexivity|]. split; [exact E1|]. intros gi. rewrite lookup_iter. unfold zero_s. cbn [g' with_act tg_active]. rewrite (lookup_const act (fun a => repeat zero (Z.to_nat (npx g' a)))).
    destruct (existsb (Z.eqb gi) act); [|reflexivity]. cbn. unfold F. destruct (lookup_tile s gi); reflexivity.
Qed.

(* ---- binary operations ---- *)
Lemma map2_len {A B C} (f : A -> B -> C) l m : zlen l = zlen m -> zlen (map2 f l m) = zlen m.
Proof. unfold zlen. revert m; induction l as [|x l IH]; intros [|y m] H; cbn in *; lia. Qed.
Lemma map2_app {A B C} (f : A -> B -> C) l1 l2 m1 m2 : length l1 = length m1 -> map2 f (l1 ++ l2) (m1 ++ m2) = map2 f l1 m1 ++ map2 f l2 m2.
Proof. revert m1; induction l1 as [|x l1 IH]; intros [|y m1] H; cbn in *; try lia; [reflexivity|]. f_equal. apply IH. lia. Qed.
Lemma compatible_2 g h : compatible g h = 2 <-> tg_ny g = tg_ny h /\ tg_nx g = tg_nx h /\ tg_th g = tg_th h /\ tg_tw g = tg_tw h /\ tg_active g = tg_active h.
Proof.
  unfold compatible. destruct (Z.eqb_spec (tg_ny g) (tg_ny h)), (Z.eqb_spec (tg_nx g) (tg_nx h)), (Z.eqb_spec (tg_th g) (tg_th h)), (Z.eqb_spec (tg_tw g) (tg_tw h)); cbn [andb negb]; try (split; [discriminate|intuition congruence]).
  destruct (Z.eqb_spec (zlen (tg_active g)) (zlen (tg_active h))) as [E|E]; cbn [andb].
  - pose proof (eqb_all_eq _ _ E) as X. destruct (forallb _ _); [split; [intros _; intuition|reflexivity]|]. split; [discriminate|]. intros (_ & _ & _ & _ & Y). apply X in Y. discriminate.
  - split; [discriminate|]. intros (_ & _ & _ & _ & Y). rewrite Y in E. lia.
Qed.
Definition same_tiling (g h : tgeo) : Prop := tg_ny g = tg_ny h /\ tg_nx g = tg_nx h /\ tg_th g = tg_th h /\ tg_tw g = tg_tw h.
Lemma compatible_cases g h : same_tiling g h -> compatible g h = 2 \/ compatible g h = 1.
Proof. intros (E1 & E2 & E3 & E4). unfold compatible. rewrite E1, E2, E3, E4, !Z.eqb_refl. cbn [andb negb]. destruct (_ && _); auto. Qed.
Lemma same_npx g h gi : same_tiling g h -> npx g gi = npx h gi /\ ntile g = ntile h.
Proof. intros (E1 & E2 & E3 & E4). unfold npx, tile_h, tile_w, ntile, tg_gy, tg_gx. rewrite E1, E2, E3, E4. auto. Qed.
Section Binop.
Context {A : Type}.
Variables (op : A -> A -> A) (g h : tgeo) (s t : sparse A).
Hypothesis (G : good g s) (Hh : good h t) (ST : same_tiling g h).
Definition op_tile (gi : Z) (px : list A) : list A := match lookup_tile t gi with Some q => map2 op px q | None => px end.
Lemma tile_op_step g' : same_tiling g' h -> geo_ok g' -> (forall gi, In gi (tg_active h) -> In gi (tg_active g')) ->
  forall u gi, good g' u -> In gi (tg_active h) -> tile_op op (toTM h t) (Some (toTM g' u)) gi = Some (toTM g' (modify gi (op_tile gi) u)).
Proof.
  intros ST' GO SUB u gi Gu Hi. unfold tile_op. destruct (same_npx g' h gi ST') as (EN & ET).
  assert (R : 0 <= gi < ntile h) by (destruct (proj1 Hh) as (_ & (_ & F) & _); rewrite Forall_forall in F; auto).
  rewrite (get_tile_eq g' u gi Gu) by lia. rewrite (get_tile_eq h t gi Hh) by lia.
  assert (X : exists p, lookup_tile u gi = Some p) by (apply (lookup_active g' u gi Gu); auto). destruct X as (p & X).
  assert (Y : exists q, lookup_tile t gi = Some q) by (apply (lookup_active h t gi Hh); auto). destruct Y as (q & Y). rewrite X, Y. cbn [option_map mk t_px].
  pose proof (lookup_len g' u gi p Gu X) as L1. pose proof (lookup_len h t gi q Hh Y) as L2.
  rewrite (set_tile_eq g' u gi p _ Gu X) by (rewrite map2_len; lia). do 2 f_equal. unfold modify, op_tile. rewrite Y. apply map_ext_in. intros (a, r) He. cbn [fst snd]. destruct (Z.eqb_spec a gi) as [->|]; [|reflexivity].
  apply lookup_In in X; [|apply (good_nodup g' u Gu)]. do 2 f_equal. apply (lookup_In u gi r) in He; [|apply (good_nodup g' u Gu)]. apply (lookup_In u gi p) in X; [|apply (good_nodup g' u Gu)]. congruence.
Qed.
Lemma tile_op_len gi px : zlen px = npx h gi -> zlen (op_tile gi px) = npx h gi.
Proof. intros E. unfold op_tile. destruct (lookup_tile t gi) as [q|] eqn:Y; [|exact E]. pose proof (lookup_len h t gi q Hh Y). rewrite map2_len; lia. Qed.
Lemma same_data : tg_active g = tg_active h -> map2 op (concat (map snd s)) (concat (map snd t)) = concat (map snd (map (fun e => (fst e, op_tile (fst e) (snd e))) s)).
Proof.
  intros EA. pose proof (good_nodup h t Hh) as ND. destruct G as (_ & G2 & G3). destruct Hh as (_ & H2 & H3).
  assert (E : map fst s = map fst t) by congruence. rewrite map_map. cbn [snd].
  assert (K : forall s0 : sparse A, Forall (fun e => zlen (snd e) = npx g (fst e)) s0 -> forall u, (forall e, In e u -> In e t) -> map fst s0 = map fst u -> map2 op (concat (map snd s0)) (concat (map snd u)) = concat (map (fun e => op_tile (fst e) (snd e)) s0)).
  { induction s0 as [|(a, p) s' IH]; intros F0 [|(b, q) u] HU E0; cbn in E0; try discriminate; [reflexivity|]. injection E0 as -> E0. inversion F0; subst. cbn [map concat fst snd] in *.
    assert (Q : In (b, q) t) by (apply HU; now left). assert (L : lookup_tile t b = Some q) by (apply lookup_In; assumption).
    rewrite map2_app.
    - f_equal; [unfold op_tile; rewrite L; reflexivity|]. apply IH; [assumption|intros e He; apply HU; now right|exact E0].
    - rewrite Forall_forall in H3. specialize (H3 _ Q). cbn in H3. destruct (same_npx g h b ST) as (EN & _). unfold zlen in *. lia. }
  apply K; [exact G3|auto|exact E].
Qed.
Lemma binop_eq zero : exists g' u, binop zero op (toTM g s) (toTM h t) = Some (toTM g' u) /\ good g' u /\ same_tiling g' g /\
  (forall gi, In gi (tg_active g') <-> In gi (tg_active g) \/ In gi (tg_active h)) /\
  forall gi, lookup_tile u gi = match lookup_tile s gi, lookup_tile t gi with
    | Some p, Some q => Some (map2 op p q) | Some p, None => Some p
    | None, Some q => Some (map2 op (repeat zero (Z.to_nat (npx g gi))) q) | None, None => None end.
Proof.
  unfold binop. cbn [toTM tm_geo tm_data]. destruct (compatible_cases g h ST) as [E|E]; rewrite E; cbn [Z.eqb Pos.eqb].
  - apply compatible_2 in E as (_ & _ & _ & _ & EA). exists g, (map (fun e => (fst e, op_tile (fst e) (snd e))) s). split; [rewrite same_data by exact EA; reflexivity|]. split.
    + destruct G as (G1 & G2 & G3). split; [exact G1|]. split; [rewrite map_map; exact G2|]. rewrite Forall_forall in *. intros e He. apply in_map_iff in He as (d & <- & Hd). cbn. destruct (same_npx g h (fst d) ST) as (EN & _). rewrite EN. apply tile_op_len. rewrite <- EN. apply G3. exact Hd.
    + split; [repeat split|]. split; [intros gi; rewrite EA; tauto|]. intros gi. rewrite lookup_map. unfold op_tile.
      pose proof (lookup_active g s gi G) as L1. pose proof (lookup_active h t gi Hh) as L2. rewrite EA in L1. destruct (lookup_tile s gi) as [p|] eqn:X, (lookup_tile t gi) as [q|] eqn:Y; cbn; try reflexivity.
      exfalso. destruct (proj1 L1) as (p & Hp); [apply L2; eauto|discriminate].
  - set (oact := FindModel.np_unique (tg_active g ++ tg_active h)).
    assert (IO : forall gi, In gi oact <-> In gi (tg_active g) \/ In gi (tg_active h)) by (intros gi; unfold oact; rewrite np_unique_In, in_app_iff; reflexivity).
    pose proof (proj1 G) as (SO & (GN & GF) & GL). pose proof (proj1 Hh) as (_ & (HN & HF) & _). rewrite Forall_forall in GF, HF. destruct (same_npx g h 0 ST) as (_ & ET).
    destruct (geometry_ok (tg_ny g) (tg_nx g) (tg_th g) (tg_tw g) oact) as (l & EG & GO); try apply SO.
    { split; [apply np_unique_NoDup|]. apply Forall_forall. intros gi X. change (ntile (TG (tg_ny g) (tg_nx g) (tg_th g) (tg_tw g) oact [])) with (ntile g). apply IO in X as [X|X]; [auto|rewrite ET; auto]. }
    rewrite EG. set (g' := TG (tg_ny g) (tg_nx g) (tg_th g) (tg_tw g) oact l) in *. rewrite (tm_zeros_eq zero g' GO).
    assert (ST' : same_tiling g' g) by (repeat split). assert (ST2 : same_tiling g' h) by exact ST.
    set (F1 := fun (gi : Z) (px : list A) => match lookup_tile s gi with Some p => p | None => px end).
    set (step1 := fun (out : option (tmap A)) (gi : Z) => _).
    destruct (fold_tiles g' step1 F1 (tg_active g)) with (s := zero_s zero g') as (E1 & E2).
    { intros u gi Gu Hi. unfold step1. change (TM g (concat (map snd s))) with (toTM g s). rewrite (get_tile_eq g s gi G) by auto. 
      assert (X : exists p, lookup_tile s gi = Some p) by (apply (lookup_active g s gi G); auto). destruct X as (p & X).
      assert (Y : exists q, lookup_tile u gi = Some q) by (apply (lookup_active g' u gi Gu); apply IO; auto). destruct Y as (q & Y).
      rewrite X. cbn [option_map mk t_px]. rewrite (set_tile_eq g' u gi q p Gu Y) by (apply (lookup_len g s gi p G X)). do 2 f_equal. unfold F1. rewrite X. reflexivity. }
    { intros gi px Hi Hp. unfold F1. destruct (lookup_tile s gi) as [p|] eqn:L; [|exact Hp]. apply (lookup_len g s gi p G L). }
    { exact GN. }
    { apply zero_good. exact GO. }
    rewrite E2. set (u1 := map _ (zero_s zero g')) in *.
    destruct (fold_tiles g' (tile_op op (toTM h t)) op_tile (tg_active h)) with (s := u1) as (E3 & E4).
    { apply tile_op_step; [exact ST2|exact GO|]. intros gi X. apply IO. now right. }
    { intros gi px Hi Hp. destruct (same_npx g' h gi ST2) as (EN & _). rewrite EN in *. apply tile_op_len. exact Hp. }
    { exact HN. }
    { exact E1. }
    eexists g', _. change (TM h (concat (map snd t))) with (toTM h t). rewrite E4. split; [reflexivity|]. split; [exact E3|]. split; [exact ST'|]. split; [exact IO|]. intros gi. rewrite lookup_iter. unfold u1. rewrite lookup_iter. unfold zero_s. change (tg_active g') with oact.
    rewrite (lookup_const oact (fun a => repeat zero (Z.to_nat (npx g' a)))). pose proof (lookup_active g s gi G) as L1. pose proof (lookup_active h t gi Hh) as L2. specialize (IO gi).
    unfold op_tile, F1. change (npx g' gi) with (npx g gi).
    destruct (lookup_tile s gi) as [p|] eqn:X, (lookup_tile t gi) as [q|] eqn:Y.
    + rewrite !existsb_true_In; [reflexivity|..]; solve [apply L2; eauto|apply L1; eauto|apply IO; left; apply L1; eauto].
    + rewrite (existsb_true_In gi oact), (existsb_true_In gi (tg_active g)); [|solve [apply L1; eauto|apply IO; left; apply L1; eauto]..]. cbn. destruct (existsb _ _); reflexivity.
    + rewrite (existsb_true_In gi oact), (existsb_true_In gi (tg_active h)); [|solve [apply L2; eauto|apply IO; right; apply L2; eauto]..]. cbn. destruct (existsb _ (tg_active g)); reflexivity.
    + rewrite (existsb_false_In gi oact); [reflexivity|]. intros Z1. apply IO in Z1 as [Z1|Z1]; [apply L1 in Z1|apply L2 in Z1]; destruct Z1; discriminate.
Qed.
Lemma ibinop_eq : (forall gi, In gi (tg_active h) -> In gi (tg_active g)) -> exists u, ibinop op (toTM g s) (toTM h t) = Some (toTM g u) /\ good g u /\
  forall gi, lookup_tile u gi = match lookup_tile s gi with Some p => Some (op_tile gi p) | None => None end.
Proof.
  intros SUB. unfold ibinop. cbn [toTM tm_geo tm_data]. destruct (compatible_cases g h ST) as [E|E]; rewrite E; cbn [Z.eqb Pos.eqb].
  - apply compatible_2 in E as (_ & _ & _ & _ & EA). exists (map (fun e => (fst e, op_tile (fst e) (snd e))) s). split; [rewrite same_data by exact EA; reflexivity|]. split.
    + destruct G as (G1 & G2 & G3). split; [exact G1|]. split; [rewrite map_map; exact G2|]. rewrite Forall_forall in *. intros e He. apply in_map_iff in He as (d & <- & Hd). cbn. destruct (same_npx g h (fst d) ST) as (EN & _). rewrite EN. apply tile_op_len. rewrite <- EN. apply G3. exact Hd.
    + intros gi. rewrite lookup_map. destruct (lookup_tile s gi); reflexivity.
  - pose proof (proj1 G) as (SO & (GN & GF) & GL). pose proof (proj1 Hh) as (_ & (HN & HF) & _). rewrite Forall_forall in GF, HF. destruct (same_npx g h 0 ST) as (_ & ET).
    rewrite (pygather_map _ (fun a => match zget (tg_lookup g) a with Some k => k | None => 0 end)).
    2:{ intros a Ha. specialize (HF a Ha). unfold pyget. replace (a <? 0) with false by lia. destruct (zget_in_range (tg_lookup g) a) as (x & Hx); [destruct GL as (-> & _); lia|]. rewrite Hx. reflexivity. }
    replace (existsb (fun a => a <? 0) _) with false.
    2:{ symmetry. apply not_true_is_false. intros X. apply existsb_exists in X as (k & X & Y). apply in_map_iff in X as (a & <- & Ha). specialize (SUB a Ha). apply In_zget in SUB as (j & Hj). destruct GL as (_ & L2 & _). rewrite (L2 _ _ Hj) in Y. pose proof (zget_Some_range _ _ _ Hj). lia. }
    destruct (fold_tiles g (tile_op op (toTM h t)) op_tile (tg_active h)) with (s := s) as (E3 & E4).
    { apply tile_op_step; [exact ST|apply G|exact SUB]. }
    { intros gi px Hi Hp. destruct (same_npx g h gi ST) as (EN & _). rewrite EN in *. apply tile_op_len. exact Hp. }
    { exact HN. }
    { exact G. }
    eexists. change (TM h (concat (map snd t))) with (toTM h t). change (TM g (concat (map snd s))) with (toTM g s). rewrite E4. split; [reflexivity|]. split; [exact E3|]. intros gi. rewrite lookup_iter. destruct (lookup_tile s gi) as [p|]; [|reflexivity]. cbn. f_equal.
    unfold op_tile. destruct (lookup_tile t gi) as [q|] eqn:Y; [rewrite existsb_true_In; [reflexivity|apply (lookup_active h t gi Hh); eauto]|]. destruct (existsb _ _); reflexivity.
Qed.
End Binop.

(* ---- redistribution ---- *)
Lemma act_mask_eq g : geo_ok g -> act_mask g = Some (map (fun gi => existsb (Z.eqb gi) (tg_active g)) (zrange 0 (ntile g))).
Proof.
  intros (SO & (_ & F) & _). pose proof (ntile_pos g SO). rewrite Forall_forall in F. unfold act_mask. rewrite (pygather_map _ (fun _ => tt)).
  2:{ intros i Hi. specialize (F i Hi). unfold pyget. replace (i <? 0) with false by lia. rewrite zget_repeat'. replace ((0 <=? i) && (i <? ntile g)) with true by lia. reflexivity. }
  f_equal. apply map_ext. intros gi. assert (forall l, (forall a, In a l -> 0 <= a < ntile g) -> existsb (fun a => (if a <? 0 then a + ntile g else a) =? gi) l = existsb (Z.eqb gi) l) as K; [|apply K; exact F].
  induction l as [|a l IH]; intros HF; [reflexivity|]. cbn [existsb]. rewrite IH by (intros; apply HF; now right). specialize (HF a (or_introl eq_refl)). replace (a <? 0) with false by lia. rewrite Z.eqb_sym. reflexivity.
Qed.
Definition maskof (g : tgeo) : list bool := map (fun gi => existsb (Z.eqb gi) (tg_active g)) (zrange 0 (ntile g)).
Lemma owned_eq g gi : geo_ok g -> 0 <= gi < ntile g -> owned (maskof g) gi = existsb (Z.eqb gi) (tg_active g).
Proof.
  intros G R. unfold owned, maskof. apply nth_error_nth. rewrite <- zget_nth_error, Z2Nat.id, zget_map, zget_zrange by lia. reflexivity.
Qed.
Lemma concat_filter {A B} (p : A -> bool) (f : A -> list B) l : concat (map (fun e => if p e then f e else []) l) = concat (map f (filter p l)).
Proof. induction l as [|x l IH]; [reflexivity|]. cbn. destruct (p x); cbn; rewrite IH; reflexivity. Qed.
Lemma znth_eq l k v : zget l k = Some v -> znth l k = v. Proof. intros H. unfold znth. rewrite H. reflexivity. Qed.
Lemma send_seg_eq {A} g (s : sparse A) omask : good g s -> send_seg (toTM g s) omask = Some (concat (map snd (filter (fun e => owned omask (fst e)) s))).
Proof.
  intros G. unfold send_seg. cbn [toTM tm_geo tm_data]. rewrite act_npix_eq by apply G. f_equal. rewrite <- (concat_filter (fun e => owned omask (fst e)) snd). f_equal.
  rewrite <- (lens_good g s G). apply zget_ext. intros k. rewrite !zget_map. destruct (Z_lt_dec k 0) as [N|N]; [rewrite !zget_out by lia; reflexivity|].
  assert (ZC : zlen (combine (zrange 0 (zlen (map zlen (map snd s)))) (tg_active g)) = zlen s).
  { unfold zlen at 1. rewrite combine_length. pose proof (zrange_zlen 0 (zlen (map zlen (map snd s)))) as Z1. rewrite !zlen_map in *. pose proof (zlen_s g s G) as Z2. unfold zlen in *. lia. }
  destruct (Z_lt_dec k (zlen s)) as [M|M]; [|rewrite !zget_out by lia; reflexivity].
  destruct (zget_in_range s k) as ((gi, px) & Hk); [lia|]. rewrite Hk. cbn [option_map fst snd].
  assert (HC : zget (combine (zrange 0 (zlen (map zlen (map snd s)))) (tg_active g)) k = Some (k, gi)).
  { destruct (zget_in_range (combine (zrange 0 (zlen (map zlen (map snd s)))) (tg_active g)) k) as ((a, b) & Hab); [lia|].
    assert (EL : length (zrange 0 (zlen (map zlen (map snd s)))) = length (tg_active g)) by (pose proof (zrange_zlen 0 (zlen (map zlen (map snd s)))) as Z1; rewrite !zlen_map in *; pose proof (zlen_s g s G) as Z2; unfold zlen in *; lia).
    pose proof (f_equal (option_map fst) Hab) as P1. pose proof (f_equal (option_map snd) Hab) as P2. rewrite <- zget_map in P1, P2. rewrite combine_fst in P1 by exact EL. rewrite combine_snd in P2 by exact EL.
    rewrite zget_zrange in P1 by (rewrite !zlen_map; lia). rewrite (s_fst g s k _ G Hk) in P2. cbn in *. congruence. }
  rewrite HC. cbn [option_map]. destruct (owned omask gi); [|reflexivity]. f_equal.
  assert (Hn : nth_error (map snd s) (Z.to_nat k) = Some px) by (rewrite <- zget_nth_error, Z2Nat.id, zget_map, Hk by lia; reflexivity).
  rewrite (znth_eq (cumsum_end _) k (zsum (firstn (Z.to_nat k) (map zlen (map snd s))))) by (apply zget_cum; rewrite !zlen_map; lia).
  rewrite (znth_eq (map zlen (map snd s)) k (zlen px)) by (rewrite !zget_map, Hk; reflexivity).
  rewrite <- (firstn_S_nth (map zlen (map snd s)) (Z.to_nat k) (zlen px)) by (rewrite nth_error_map, Hn; reflexivity). apply psl_concat. exact Hn.
Qed.

Lemma psl_mid {A} (pre mid post : list A) : psl (pre ++ mid ++ post) (zlen pre) (zlen pre + zlen mid) = mid.
Proof.
  pose proof (zlen_nonneg pre). pose proof (zlen_nonneg mid). pose proof (zlen_nonneg post). rewrite psl_sub by (rewrite ?zlen_app; lia). rewrite !zlen_app, !Z.min_l by lia. unfold sub. replace (zlen pre + zlen mid - zlen pre) with (zlen mid) by lia.
  unfold zlen. rewrite !Nat2Z.id, skipn_app, skipn_all, Nat.sub_diag. cbn. rewrite firstn_app, firstn_all, Nat.sub_diag. cbn. apply app_nil_r.
Qed.
Section Unpack.
Context {A : Type}.
Variables (add : A -> A -> A) (og : tgeo).
Hypothesis GO : geo_ok og.
Definition addto (m : list bool) (c : Z -> list A) (u : sparse A) : sparse A :=
  map (fun e => if owned m (fst e) then (fst e, map2 add (snd e) (c (fst e))) else e) u.
Definition ustep (rbuf : list A) := (fun (st : list A * Z) (p : list bool * Z) =>
    let '(m, k) := p in let '(oflat, off) := st in
    if owned m (znth (tg_active og) k) then
      (add_at add oflat (znth (cumsum_end (map (npx og) (tg_active og))) k) (psl rbuf off (off + znth (map (npx og) (tg_active og)) k)), off + znth (map (npx og) (tg_active og)) k)
    else st).
Lemma unpack_row m c rbuf (post : list A) : forall (u2 u1 : sparse A) (pre : list A), good og (u1 ++ u2) ->
  (forall gi, In gi (tg_active og) -> owned m gi = true -> zlen (c gi) = npx og gi) ->
  rbuf = pre ++ concat (map c (filter (owned m) (map fst u2))) ++ post ->
  fold_left (ustep rbuf) (map (fun k => (m, k)) (zrange (zlen u1) (zlen u1 + zlen u2))) (concat (map snd (u1 ++ u2)), zlen pre) =
  (concat (map snd (u1 ++ addto m c u2)), zlen (pre ++ concat (map c (filter (owned m) (map fst u2))))).
Proof.
  induction u2 as [|(gi, px) u2 IH]; intros u1 pre G HC HR.
  - change (zlen (@nil (Z * list A))) with 0. rewrite Z.add_0_r, zrange_empty by lia. cbn. rewrite !app_nil_r. reflexivity.
  - rewrite zlen_cons. pose proof (zlen_nonneg u2). rewrite zrange_cons by lia. cbn [map fold_left].
    assert (EU : forall oflat off, ustep rbuf (oflat, off) (m, zlen u1) = if owned m (znth (tg_active og) (zlen u1)) then
      (add_at add oflat (znth (cumsum_end (map (npx og) (tg_active og))) (zlen u1)) (psl rbuf off (off + znth (map (npx og) (tg_active og)) (zlen u1))), off + znth (map (npx og) (tg_active og)) (zlen u1))
      else (oflat, off)) by reflexivity. rewrite EU.
    assert (Hk : zget (u1 ++ (gi, px) :: u2) (zlen u1) = Some (gi, px)) by (rewrite zget_app2, Z.sub_diag by lia; reflexivity).
    rewrite (znth_eq (tg_active og) (zlen u1) gi) by (apply (s_fst og _ _ _ G Hk)).
    rewrite (znth_eq (map (npx og) (tg_active og)) (zlen u1) (npx og gi)) by (rewrite zget_map, (s_fst og _ _ _ G Hk); reflexivity).
    assert (ED : concat (map snd (u1 ++ (gi, px) :: u2)) = concat (map snd u1) ++ px ++ concat (map snd u2)) by (rewrite map_app, concat_app; reflexivity).
    assert (IA : In gi (tg_active og)) by (apply (zget_In (tg_active og) (zlen u1)); apply (s_fst og _ _ _ G Hk)).
    assert (LP : zlen px = npx og gi) by (destruct G as (_ & _ & F); rewrite Forall_forall in F; apply (F (gi, px)); apply in_or_app; right; now left).
    replace (zlen u1 + (1 + zlen u2)) with (zlen (u1 ++ [(gi, px)]) + zlen u2) by (rewrite zlen_app, zlen_cons; change (zlen (@nil (Z * list A))) with 0; lia).
    replace (zlen u1 + 1) with (zlen (u1 ++ [(gi, px)])) by (rewrite zlen_app; reflexivity).
    cbn [map filter fst] in HR |- *. cbn [addto map fst snd]. fold (addto m c u2). destruct (owned m gi) eqn:EO.
    + cbn [map concat] in HR |- *. specialize (HC gi IA EO) as LC. rewrite <- LC. assert (PM : psl rbuf (zlen pre) (zlen pre + zlen (c gi)) = c gi) by (rewrite HR, <- !app_assoc; apply psl_mid). rewrite PM.
      assert (EOFF : znth (cumsum_end (map (npx og) (tg_active og))) (zlen u1) = zlen (concat (map snd u1))).
      { apply znth_eq. rewrite <- (lens_good og _ G). rewrite zget_cum by (rewrite !zlen_map; pose proof (zget_Some_range _ _ _ Hk); pose proof (zlen_nonneg u1); lia). f_equal. rewrite zlen_concat. f_equal.
        rewrite !map_app. unfold zlen at 1. rewrite Nat2Z.id. rewrite <- (map_length snd u1), <- (map_length zlen (map snd u1)). rewrite firstn_app, firstn_all, Nat.sub_diag. cbn. apply app_nil_r. }
      rewrite EOFF. unfold add_at. rewrite ED, LC, <- LP, psl_mid, write_at_app by (pose proof (map2_len add px (c gi)) as ML; unfold zlen in *; lia).
      assert (G' : good og ((u1 ++ [(gi, map2 add px (c gi))]) ++ u2)).
      { rewrite <- app_assoc. destruct G as (G1 & G2 & G3). split; [exact G1|]. split; [rewrite <- G2, !map_app; reflexivity|]. apply Forall_app in G3 as (G3 & G4). inversion G4; subst. apply Forall_app. split; [exact G3|]. constructor; [|assumption]. cbn. rewrite map2_len; lia. }
      specialize (IH (u1 ++ [(gi, map2 add px (c gi))]) (pre ++ c gi) G' HC).
      replace (zlen pre + zlen px) with (zlen (pre ++ c gi)) by (rewrite zlen_app; lia).
      replace (concat (map snd u1) ++ map2 add px (c gi) ++ concat (map snd u2)) with (concat (map snd ((u1 ++ [(gi, map2 add px (c gi))]) ++ u2))) by (rewrite <- app_assoc, map_app, concat_app; reflexivity).
      replace (zlen (u1 ++ [(gi, px)])) with (zlen (u1 ++ [(gi, map2 add px (c gi))])) by (rewrite !zlen_app; reflexivity).
      rewrite IH by (rewrite HR, <- !app_assoc; reflexivity). rewrite <- !app_assoc. reflexivity.
    + specialize (IH (u1 ++ [(gi, px)]) pre). rewrite <- app_assoc in IH. cbn [app] in IH. rewrite IH by assumption. rewrite <- app_assoc. reflexivity.
Qed.
Lemma addto_good m c u : good og u -> (forall gi, In gi (tg_active og) -> owned m gi = true -> zlen (c gi) = npx og gi) -> good og (addto m c u).
Proof.
  intros (G1 & G2 & G3) HC. split; [exact G1|]. split.
  - unfold addto. rewrite map_map. rewrite <- G2. apply map_ext. intros e. destruct (owned m (fst e)); reflexivity.
  - rewrite Forall_forall in *. intros e He. apply in_map_iff in He as (d & <- & Hd). specialize (G3 d Hd). destruct (owned m (fst d)) eqn:EO; [|exact G3]. assert (IA : In (fst d) (tg_active og)) by (rewrite <- G2; apply in_map; exact Hd). specialize (HC _ IA EO). cbn. rewrite map2_len; lia.
Qed.
Lemma fst_good (u : sparse A) : good og u -> map fst u = tg_active og. Proof. intros (_ & E & _). exact E. Qed.
Lemma unpack_all (L : list (list bool * (Z -> list A))) rbuf : forall (u : sparse A) (pre : list A), good og u ->
  (forall m c, In (m, c) L -> forall gi, In gi (tg_active og) -> owned m gi = true -> zlen (c gi) = npx og gi) ->
  rbuf = pre ++ concat (map (fun e => concat (map (snd e) (filter (owned (fst e)) (tg_active og)))) L) ->
  fst (fold_left (ustep rbuf) (list_prod (map fst L) (zrange 0 (zlen (map (npx og) (tg_active og))))) (concat (map snd u), zlen pre)) =
  concat (map snd (fold_left (fun u e => addto (fst e) (snd e) u) L u)) /\ good og (fold_left (fun u e => addto (fst e) (snd e) u) L u).
Proof.
  induction L as [|(m, c) L IH]; intros u pre G HC HR; [split; [reflexivity|exact G]|].
  cbn [map fst list_prod]. rewrite fold_left_app. cbn [map concat fst snd] in HR.
  rewrite zlen_map, (zlen_s og u G). pose proof (unpack_row m c rbuf (concat (map (fun e => concat (map (snd e) (filter (owned (fst e)) (tg_active og)))) L)) u [] pre) as K.
  cbn [app] in K. change (zlen (@nil (Z * list A))) with 0 in K. rewrite Z.add_0_l in K. rewrite K; [|exact G|apply HC; now left|rewrite (fst_good u G); exact HR].
  cbn [fold_left fst snd]. pose proof (addto_good m c u G (HC m c (or_introl eq_refl))) as G'.
  specialize (IH (addto m c u) (pre ++ concat (map c (filter (owned m) (map fst u)))) G'). rewrite zlen_map, (zlen_s og u G) in IH. apply IH; [intros; eapply HC; [right; eassumption|assumption|assumption]|].
  rewrite HR, (fst_good u G), <- app_assoc. reflexivity.
Qed.
Lemma lookup_addto_all (L : list (list bool * (Z -> list A))) gi : forall u, lookup_tile (fold_left (fun u e => addto (fst e) (snd e) u) L u) gi =
  option_map (fun px => fold_left (fun acc e => if owned (fst e) gi then map2 add acc (snd e gi) else acc) L px) (lookup_tile u gi).
Proof.
  induction L as [|(m, c) L IH]; intros u; [cbn; destruct (lookup_tile u gi); reflexivity|]. cbn [fold_left fst snd]. rewrite IH.
  assert (E : lookup_tile (addto m c u) gi = option_map (fun px => if owned m gi then map2 add px (c gi) else px) (lookup_tile u gi)).
  { rewrite <- (lookup_map u (fun gj px => if owned m gj then map2 add px (c gj) else px)). f_equal. unfold addto. apply map_ext. intros (a, p). cbn. destruct (owned m a); reflexivity. }
  rewrite E. destruct (lookup_tile u gi); reflexivity.
Qed.
End Unpack.
Section Redist.
Context {A : Type}.
Variables (zero : A) (add : A -> A -> A) (g0 : tgeo) (I : list (tgeo * sparse A)) (O : list tgeo).
Hypothesis (HI : forall g s, In (g, s) I -> good g s /\ same_tiling g g0) (HO : forall og, In og O -> geo_ok og /\ same_tiling og g0).
Hypothesis ORD : forall g s og, In (g, s) I -> In og O ->
  filter (fun gi => existsb (Z.eqb gi) (tg_active og)) (tg_active g) = filter (fun gi => existsb (Z.eqb gi) (tg_active g)) (tg_active og).
Definition cont (s : sparse A) (gi : Z) : list A := match lookup_tile s gi with Some p => p | None => [] end.
Lemma range_of g gi : geo_ok g -> In gi (tg_active g) -> 0 <= gi < ntile g.
Proof. intros (_ & (_ & F) & _) H. rewrite Forall_forall in F. auto. Qed.
Lemma seg_eq g s og : In (g, s) I -> In og O -> send_seg (toTM g s) (maskof og) = Some (concat (map (cont s) (filter (owned (maskof g)) (tg_active og)))).
Proof.
  intros H1 H2. destruct (HI g s H1) as (G & ST). destruct (HO og H2) as (GO & ST2). rewrite send_seg_eq by exact G. do 2 f_equal.
  assert (ET : ntile g = ntile og) by (destruct (same_npx g g0 0 ST) as (_ & E1); destruct (same_npx og g0 0 ST2) as (_ & E2); lia).
  assert (E : filter (owned (maskof g)) (tg_active og) = filter (fun gi => existsb (Z.eqb gi) (tg_active g)) (tg_active og)).
  { apply filter_ext_in'. intros gi Hi. apply owned_eq; [apply G|]. rewrite ET. apply range_of; assumption. }
  rewrite E, <- (ORD g s og H1 H2). pose proof (good_nodup g s G) as ND. pose proof (proj1 (proj2 G)) as EF. rewrite <- EF.
  assert (K : forall u, (forall e, In e u -> In e s) -> map snd (filter (fun e => owned (maskof og) (fst e)) u) = map (cont s) (filter (fun gi => existsb (Z.eqb gi) (tg_active og)) (map fst u))).
  { induction u as [|(a, p) u IH]; intros HU; [reflexivity|]. cbn [map filter fst]. assert (HA : In (a, p) s) by (apply HU; now left).
    rewrite (owned_eq og a GO) by (rewrite <- ET; pose proof (good_range g s _ G HA); assumption). specialize (IH (fun e He => HU e (or_intror He))).
    destruct (existsb (Z.eqb a) (tg_active og)); [|exact IH]. cbn [map snd]. rewrite IH. f_equal. unfold cont. apply (lookup_In s a p ND) in HA. rewrite HA. reflexivity. }
  apply K. auto.
Qed.
Lemma own_cont g s og gi : In (g, s) I -> In og O -> In gi (tg_active og) -> (owned (maskof g) gi = true <-> exists p, lookup_tile s gi = Some p /\ zlen p = npx og gi) /\ (owned (maskof g) gi = false <-> lookup_tile s gi = None).
Proof.
  intros H1 H2 H3. destruct (HI g s H1) as (G & ST). destruct (HO og H2) as (GO & ST2).
  destruct (same_npx g g0 gi ST) as (N1 & E1). destruct (same_npx og g0 gi ST2) as (N2 & E2).
  rewrite owned_eq; [|apply G|rewrite E1, <- E2; apply range_of; assumption]. pose proof (lookup_active g s gi G) as L. destruct (lookup_tile s gi) as [p|] eqn:X.
  - assert (IA : In gi (tg_active g)) by (apply L; eauto). rewrite existsb_true_In by exact IA. split; split; try discriminate; auto. intros _. exists p. split; [reflexivity|]. rewrite N2, <- N1. apply (lookup_len g s); assumption.
  - rewrite existsb_false_In by (intros Y; apply L in Y as (? & ?); discriminate). split; split; try discriminate; auto. intros (? & ? & _); discriminate.
Qed.
Definition out_tiles (og : tgeo) : sparse A := fold_left (fun u e => addto add (fst e) (snd e) u) (map (fun e => (maskof (fst e), cont (snd e))) I) (zero_s zero og).
Lemma combine_map_eq {B C D} (f : B -> C) (h : B -> D) l : combine (map f l) (map h l) = map (fun x => (f x, h x)) l.
Proof. induction l; cbn; [reflexivity|]. now rewrite IHl. Qed.
Lemma combine_self {B C} (f : B -> C) l : combine l (map f l) = map (fun x => (x, f x)) l.
Proof. induction l; cbn; [reflexivity|]. now rewrite IHl. Qed.
Lemma map2_map {B C D E F} (f : C -> D -> E) (h : B -> C) (k : F -> D) l m : map2 f (map h l) (map k m) = map2 (fun x y => f (h x) (k y)) l m.
Proof. revert m; induction l as [|x l IH]; intros [|y m]; cbn; try reflexivity. now rewrite IH. Qed.
Lemma map2_same {B C} (f : B -> B -> C) l : map2 f l l = map (fun x => f x x) l.
Proof. induction l; cbn; [reflexivity|]. now rewrite IHl. Qed.
Lemma redist_eq : redist zero add (map (fun e => toTM (fst e) (snd e)) I) O = Some (map (fun og => toTM og (out_tiles og)) O) /\ (forall og, In og O -> good og (out_tiles og)).
Proof.
  unfold redist. rewrite map_map. cbn [toTM tm_geo]. rewrite (all_some_map _ (fun e => maskof (fst e))) by (intros (g, s) He; apply act_mask_eq; apply (HI g s He)).
  rewrite (all_some_map _ maskof) by (intros og Ho; apply act_mask_eq; apply (HO og Ho)). rewrite combine_self, map_map.
  assert (K : forall og, In og O -> recv_buf (map (fun e => toTM (fst e) (snd e)) I) (map (fun e => maskof (fst e)) I) og (maskof og) = Some (concat (map (fun e => concat (map (cont (snd e)) (filter (owned (maskof (fst e))) (tg_active og)))) I))).
  { intros og Ho. unfold recv_buf. rewrite act_npix_eq by apply (HO og Ho). rewrite map_map.
    rewrite (all_some_map _ (fun e => concat (map (cont (snd e)) (filter (owned (maskof (fst e))) (tg_active og))))) by (intros (g, s) He; apply seg_eq; assumption).
    rewrite map_map, combine_map_eq. replace (forallb _ _) with true; [reflexivity|]. symmetry. apply forallb_forall. intros (n, seg) He. apply in_map_iff in He as ((g, s) & [= <- <-] & He). cbn [fst snd]. apply Z.eqb_eq.
    rewrite zlen_concat, map_map. assert (Q : forall l, (forall gi, In gi l -> In gi (tg_active og)) -> zsum (map2 (fun gi n => if owned (maskof g) gi then n else 0) l (map (npx og) l)) = zsum (map (fun x => zlen (cont s x)) (filter (owned (maskof g)) l))); [|apply Q; auto].
    induction l as [|gi l IH]; intros HL; [reflexivity|]. cbn [map map2 zsum filter]. rewrite IH by (intros; apply HL; now right). destruct (own_cont g s og gi He Ho (HL gi (or_introl eq_refl))) as (O1 & O2).
    destruct (owned (maskof g) gi); [|reflexivity]. cbn [map zsum]. f_equal. destruct (proj1 O1 eq_refl) as (p & X & Y). unfold cont. rewrite X. congruence. }
  assert (U : forall og, In og O -> unpack zero add (map (fun e => maskof (fst e)) I) og (map (npx og) (tg_active og)) (concat (map (fun e => concat (map (cont (snd e)) (filter (owned (maskof (fst e))) (tg_active og)))) I)) = concat (map snd (out_tiles og)) /\ good og (out_tiles og)).
  { intros og Ho. unfold unpack. destruct (HO og Ho) as (GO & _). pose proof (tm_zeros_eq zero og GO) as TZ. unfold tm_zeros in TZ. rewrite act_npix_eq in TZ by exact GO. apply Some_inj in TZ. injection TZ as TZ. rewrite TZ.
    set (rb := concat (map (fun e => concat (map (cont (snd e)) (filter (owned (maskof (fst e))) (tg_active og)))) I)).
    destruct (unpack_all add og (map (fun e => (maskof (fst e), cont (snd e))) I) rb (zero_s zero og) []) as (E1 & E2).
    - apply zero_good. exact GO.
    - intros m c Hm gi Hi Hw. apply in_map_iff in Hm as ((g, s) & [= <- <-] & He). destruct (own_cont g s og gi He Ho Hi) as (O1 & _). apply O1 in Hw as (p & X & Y). cbn. unfold cont. rewrite X. exact Y.
    - unfold rb. cbn [app]. rewrite map_map. reflexivity.
    - split; [|exact E2]. unfold out_tiles. rewrite <- E1. rewrite map_map. reflexivity. }
  split; [|intros og Ho; apply U; exact Ho]. apply all_some_map. intros og Ho. rewrite act_npix_eq by apply (HO og Ho). rewrite K by exact Ho. do 2 f_equal. unfold toTM. rewrite (proj1 (U og Ho)). reflexivity.
Qed.
Lemma lookup_out og gi : In og O -> In gi (tg_active og) ->
  lookup_tile (out_tiles og) gi = Some (fold_left (fun acc e => match lookup_tile (snd e) gi with Some q => map2 add acc q | None => acc end) I (repeat zero (Z.to_nat (npx og gi)))).
Proof.
  intros Ho Hi. unfold out_tiles. rewrite lookup_addto_all. unfold zero_s. rewrite (lookup_const (tg_active og) (fun a => repeat zero (Z.to_nat (npx og a)))), existsb_true_In by exact Hi. cbn [option_map]. f_equal.
  assert (K : forall l, (forall e, In e l -> In e I) -> forall acc, fold_left (fun acc e => if owned (fst e) gi then map2 add acc (snd e gi) else acc) (map (fun e => (maskof (fst e), cont (snd e))) l) acc =
    fold_left (fun acc e => match lookup_tile (snd e) gi with Some q => map2 add acc q | None => acc end) l acc); [|apply K; auto].
  induction l as [|(g, s) l IH]; intros HS acc; [reflexivity|]. cbn [map fold_left fst snd].
  rewrite IH by (intros; apply HS; now right). f_equal. destruct (own_cont g s og gi (HS _ (or_introl eq_refl)) Ho Hi) as (O1 & O2). destruct (owned (maskof g) gi).
  - destruct (proj1 O1 eq_refl) as (p & X & _). unfold cont. rewrite X. reflexivity.
  - rewrite (proj1 O2 eq_refl). reflexivity.
Qed.
End Redist.

(* ---- array_split ---- *)
Lemma psl_join {A} (l : list A) a b c : 0 <= a <= b -> b <= c -> psl l a b ++ psl l b c = psl l a c.
Proof.
  intros H1 H2. rewrite !psl_sub by lia. unfold sub. pose proof (zlen_nonneg l). set (n := zlen l) in *.
  replace (Z.to_nat (Z.min c n - Z.min a n)) with (Z.to_nat (Z.min b n - Z.min a n) + Z.to_nat (Z.min c n - Z.min b n))%nat by lia. rewrite firstn_add. f_equal. f_equal.
  rewrite skipn_skipn'. f_equal. lia.
Qed.
Lemma split_pieces {A} (l : list A) (c : Z -> Z) n : 0 <= n -> (forall k, 0 <= k < n -> 0 <= c k <= c (k + 1)) -> c 0 = 0 ->
  concat (map (fun k => psl l (c k) (c (k + 1))) (zrange 0 n)) = psl l 0 (c n).
Proof.
  intros H. pattern n. apply natlike_ind; [| |exact H].
  - intros _ E. rewrite E. cbn. rewrite psl_sub by lia. unfold sub. rewrite Z.sub_diag. reflexivity.
  - intros m Hm IH HC E. unfold Z.succ in *. rewrite zrange_snoc, map_app, concat_app, IH by (try intros; try apply HC; lia). cbn [map concat]. rewrite app_nil_r. pose proof (HC m ltac:(lia)).
    apply psl_join; lia.
Qed.
Lemma array_split_concat {A} (l : list A) n : 1 <= n -> concat (map (array_split l n) (zrange 0 n)) = l.
Proof.
  intros H. unfold array_split. pose proof (Z.div_mod (zlen l) n ltac:(lia)) as D. pose proof (Z.mod_pos_bound (zlen l) n ltac:(lia)) as M. pose proof (zlen_nonneg l). assert (0 <= zlen l / n) by (apply Z.div_pos; lia).
  set (q := zlen l / n) in *. set (r := zlen l mod n) in *. rewrite (split_pieces l (fun k => k * q + Z.min k r)); [|lia|intros; nia|lia].
  rewrite Z.min_r by lia. replace (n * q + r) with (zlen l) by lia. rewrite psl_sub by lia. unfold sub. rewrite !Z.min_l by lia. rewrite Z.sub_0_r. cbn. unfold zlen. rewrite Nat2Z.id. apply firstn_all.
Qed.
