From Coq Require Import Sorting.Sorted.
From Verif Require Import Base SliceSpec ArrModel ArrLemmas BlockSpec BlockModel BlockLemmas RangeModel RangeLemmas WindModel WindLemmas CatSpec CatModel CatLemmas FindLemmas LabLemmas BinSpec TilSpec TilModel TilLemmas.
From Verif Require FindModel.
Local Open Scope Z_scope.

(* ================= C35 ================= *)
(* the tiles cover every pixel exactly once and stay inside the map *)
Theorem C35_partition ny nx th tw active : 1 <= ny -> 1 <= nx -> 1 <= th -> 1 <= tw ->
  NoDup active -> (forall a, In a active -> 0 <= a < ntile (TG ny nx th tw active [])) ->
  exists g, geometry ny nx th tw active = Some g /\
    (forall y x, 0 <= y < ny -> 0 <= x < nx ->
       exists gi, 0 <= gi < ntile g /\ (let '(y1, x1, h, w) := geo_tile g gi in in_box y x y1 x1 h w) /\
         forall gj, 0 <= gj < ntile g -> (let '(y1, x1, h, w) := geo_tile g gj in in_box y x y1 x1 h w) -> gj = gi) /\
    (forall gi, 0 <= gi < ntile g -> let '(y1, x1, h, w) := geo_tile g gi in
       1 <= h <= th /\ 1 <= w <= tw /\ 0 <= y1 /\ y1 + h <= ny /\ 0 <= x1 /\ x1 + w <= nx).
Proof.
  intros H1 H2 H3 H4 N F. destruct (geometry_ok ny nx th tw active H1 H2 H3 H4) as (l & E & GO); [split; [exact N|]; rewrite Forall_forall; exact F|].
  exists (TG ny nx th tw active l). split; [exact E|]. set (g := TG ny nx th tw active l) in *. pose proof (proj1 GO) as SO. split.
  - intros y x Hy Hx. destruct (tile_of g SO y x Hy Hx) as (R & _). exists (grid2ind g (y / th) (x / tw)). split; [exact R|]. split.
    + rewrite geo_tile_eq by assumption. apply (tile_box g SO _ y x R). auto.
    + intros gj Rj. rewrite geo_tile_eq by assumption. intros B. apply (tile_box g SO gj y x Rj) in B. apply B.
  - intros gi R. rewrite geo_tile_eq by assumption. destruct (grid_range g SO gi R) as (R1 & R2 & _). rewrite tile_h_eq, tile_w_eq. cbn [g tg_ny tg_nx tg_th tg_tw] in *. cbn [g tg_ny tg_nx tg_th tg_tw].
    destruct (ax_len_eq ny th _ H1 H3 R1) as (E1 & L1 & P1). destruct (ax_len_eq nx tw _ H2 H4 R2) as (E2 & L2 & P2). fold g. nia.
Qed.
(* tile numbers and grid positions are inverse *)
Theorem C35_index g : 1 <= tg_ny g -> 1 <= tg_nx g -> 1 <= tg_th g -> 1 <= tg_tw g ->
  (forall gi, 0 <= gi < ntile g -> let '(ty, tx) := ind2grid g gi in 0 <= ty < tg_gy g /\ 0 <= tx < tg_gx g /\ grid2ind g ty tx = gi) /\
  (forall ty tx, 0 <= ty < tg_gy g -> 0 <= tx < tg_gx g -> 0 <= grid2ind g ty tx < ntile g /\ ind2grid g (grid2ind g ty tx) = (ty, tx)).
Proof.
  intros H1 H2 H3 H4. assert (SO : shape_ok g) by (repeat split; assumption). split.
  - intros gi R. unfold ind2grid. destruct (grid_range g SO gi R) as (R1 & R2 & _). split; [exact R1|]. split; [exact R2|]. apply (grid_ind g SO).
  - intros ty tx A B. split; [apply grid_range'; assumption|]. apply ind_grid; lia.
Qed.
(* the stored shapes and pixel counts are those of the tiles, and add up to the map's *)
Theorem C35_counts g : 1 <= tg_ny g -> 1 <= tg_nx g -> 1 <= tg_th g -> 1 <= tg_tw g ->
  zlen (tile_shapes g) = ntile g /\ zsum (npixs g) = tg_ny g * tg_nx g /\
  forall gi, 0 <= gi < ntile g -> let '(_, _, h, w) := geo_tile g gi in zget (tile_shapes g) gi = Some (h, w) /\ zget (npixs g) gi = Some (h * w).
Proof.
  intros H1 H2 H3 H4. assert (SO : shape_ok g) by (repeat split; assumption). split; [apply zlen_shapes; exact SO|]. split; [apply sum_npixs; exact SO|].
  intros gi R. rewrite geo_tile_eq by assumption. split; [apply zget_shapes; assumption|rewrite zget_npixs by assumption; reflexivity].
Qed.
Example C35_ex : exists g, geometry 7 10 3 4 [5; 0; 8] = Some g /\ tg_lookup g = [1; -1; -1; -1; -1; 0; -1; -1; 2] /\
  geo_tile g 8 = (6, 8, 1, 2) /\ geo_tile g 4 = (3, 4, 3, 4) /\ npixs g = [12; 12; 6; 12; 12; 6; 4; 4; 2].
Proof. eexists. repeat split. Qed.
Print Assumptions C35_partition.
Print Assumptions C35_index.
Print Assumptions C35_counts.

(* a tile map as the library makes them: distinct active tiles, and as much data as they need *)
Definition valid_geo (g : tgeo) : Prop :=
  1 <= tg_ny g /\ 1 <= tg_nx g /\ 1 <= tg_th g /\ 1 <= tg_tw g /\ NoDup (tg_active g) /\ (forall a, In a (tg_active g) -> 0 <= a < ntile g) /\
  geometry (tg_ny g) (tg_nx g) (tg_th g) (tg_tw g) (tg_active g) = Some g.
Definition valid_map {A} (tm : tmap A) : Prop := valid_geo (tm_geo tm) /\ exists n, act_npix (tm_geo tm) = Some n /\ zlen (tm_data tm) = zsum n.
(* the pixels of tile gi, if it is active *)
Definition px_of {A} (tm : tmap A) (gi : Z) : option (list A) := match get_tile tm gi with Some (Some t) => Some (t_px t) | _ => None end.

Lemma valid_geo_ok g : valid_geo g <-> geo_ok g.
Proof.
  split.
  - intros (H1 & H2 & H3 & H4 & H5 & H6 & H7). assert (A : act_ok (ntile g) (tg_active g)) by (split; [exact H5|apply Forall_forall; exact H6]).
    destruct (geometry_ok (tg_ny g) (tg_nx g) (tg_th g) (tg_tw g) (tg_active g) H1 H2 H3 H4 A) as (l & E & GO). rewrite H7 in E. apply Some_inj in E. rewrite <- E in GO. exact GO.
  - intros G. pose proof (geometry_self g G). destruct G as ((H1 & H2 & H3 & H4) & (N & F) & _). rewrite Forall_forall in F. repeat split; auto; apply F; assumption.
Qed.
Lemma valid_ok {A} (tm : tmap A) : valid_map tm <-> tm_ok tm.
Proof.
  unfold valid_map, tm_ok. rewrite valid_geo_ok. split.
  - intros (G & n & E & L). split; [exact G|]. rewrite act_npix_eq in E by exact G. apply Some_inj in E. rewrite L, E. reflexivity.
  - intros (G & L). split; [exact G|]. eexists. split; [apply act_npix_eq; exact G|exact L].
Qed.
Lemma px_of_eq {A} g (s : sparse A) gi : good g s -> 0 <= gi < ntile g -> px_of (toTM g s) gi = lookup_tile s gi.
Proof. intros G R. unfold px_of. rewrite (get_tile_eq g s gi G R). destruct (lookup_tile s gi); reflexivity. Qed.

(* ================= C36 ================= *)
(* tiles[gi] is None for an inactive tile, and otherwise has the position and shape of tile gi in the map; active_tiles[k] is tiles[active[k]] *)
Theorem C36_views {A} (tm : tmap A) : valid_map tm ->
  (forall gi, 0 <= gi < ntile (tm_geo tm) ->
     (~ In gi (tg_active (tm_geo tm)) -> get_tile tm gi = Some None) /\
     (In gi (tg_active (tm_geo tm)) -> exists px, let '(y, x, h, w) := geo_tile (tm_geo tm) gi in zlen px = h * w /\ get_tile tm gi = Some (Some (Tile y x h w px)))) /\
  (forall k gi, zget (tg_active (tm_geo tm)) k = Some gi -> get_tile tm gi = option_map Some (get_active tm k) /\ get_active tm k <> None) /\
  tm_data tm = flat_map (fun gi => match px_of tm gi with Some px => px | None => [] end) (tg_active (tm_geo tm)).
Proof.
  intros V. apply valid_ok in V. destruct (ok_good tm V) as (s & G & E). set (g := tm_geo tm) in *. rewrite E. clearbody g. pose proof (proj1 (proj1 G)) as SO. split; [|split].
  - intros gi R. rewrite (get_tile_eq g s gi G R), (geo_tile_eq g SO gi R). pose proof (lookup_active g s gi G) as L. destruct (lookup_tile s gi) as [px|] eqn:X; split.
    + intros N. exfalso. apply N. apply L. eauto.
    + intros _. exists px. split; [apply (lookup_len g s gi px G X)|reflexivity].
    + reflexivity.
    + intros I1. apply L in I1 as (px & ?). discriminate.
  - intros k gi Hk. destruct (s_fst' g s k gi G Hk) as (px & Hs). rewrite (get_active_eq g s k gi px G Hs). pose proof (zget_In _ _ _ Hs) as IN. rewrite (get_tile_eq g s gi G) by apply (good_range g s _ G IN).
    apply (lookup_In s gi px (good_nodup g s G)) in IN. rewrite IN. split; [reflexivity|discriminate].
  - cbn [toTM tm_data]. rewrite <- (proj1 (proj2 G)). rewrite flat_map_concat. rewrite map_map. f_equal. apply map_ext_in. intros (gi, px) Hi. cbn [fst snd]. rewrite (px_of_eq g s gi G) by apply (good_range g s _ G Hi). apply (lookup_In s gi px (good_nodup g s G)) in Hi. rewrite Hi. reflexivity.
Qed.
(* writing a tile changes that tile and no other *)
Theorem C36_set {A} (tm : tmap A) gi v old : valid_map tm -> 0 <= gi < ntile (tm_geo tm) -> px_of tm gi = Some old -> zlen v = zlen old ->
  exists tm', set_tile tm gi v = Some tm' /\ valid_map tm' /\ tm_geo tm' = tm_geo tm /\ px_of tm' gi = Some v /\
    forall gj, 0 <= gj < ntile (tm_geo tm) -> gj <> gi -> get_tile tm' gj = get_tile tm gj.
Proof.
  intros V R P L. apply valid_ok in V. destruct (ok_good tm V) as (s & G & E). set (g := tm_geo tm) in *. rewrite E in *. clearbody g. rewrite (px_of_eq g s gi G R) in P.
  assert (LV : zlen v = npx g gi) by (rewrite L; apply (lookup_len g s gi old G P)). rewrite (set_tile_eq g s gi old v G P LV). eexists. split; [reflexivity|].
  assert (G' : good g (modify gi (fun _ => v) s)) by (apply modify_good; auto). split; [apply valid_ok, good_ok; exact G'|]. split; [reflexivity|]. split.
  - rewrite (px_of_eq g _ gi G' R), lookup_modify, Z.eqb_refl, P. reflexivity.
  - intros gj Rj N. rewrite (get_tile_eq g _ gj G' Rj), (get_tile_eq g s gj G Rj), lookup_modify. destruct (Z.eqb_spec gi gj); [lia|reflexivity].
Qed.
(* writing to an inactive tile raises *)
Theorem C36_set_inactive {A} (tm : tmap A) gi v : valid_map tm -> 0 <= gi < ntile (tm_geo tm) -> ~ In gi (tg_active (tm_geo tm)) -> set_tile tm gi v = None.
Proof.
  intros V R N. apply valid_ok in V as (G & _). unfold set_tile, pyget. replace (gi <? 0) with false by lia. destruct (proj2 (proj2 G)) as (_ & _ & L3). rewrite (L3 gi R N). rewrite act_npix_eq by exact G. reflexivity.
Qed.
(* from_tiles gives a map with the given tiles *)
Theorem C36_from_tiles {A} (zero : A) (tiles : list (option (list A))) g : valid_geo g -> zlen tiles = ntile g ->
  (forall gi px, 0 <= gi < ntile g -> nth (Z.to_nat gi) tiles None = Some px -> zget (npixs g) gi = Some (zlen px)) ->
  exists tm, from_tiles zero tiles g = Some tm /\ valid_map tm /\ tg_ny (tm_geo tm) = tg_ny g /\ tg_nx (tm_geo tm) = tg_nx g /\ tg_th (tm_geo tm) = tg_th g /\ tg_tw (tm_geo tm) = tg_tw g /\
    forall gi, 0 <= gi < ntile g -> px_of tm gi = nth (Z.to_nat gi) tiles None /\ (nth (Z.to_nat gi) tiles None = None -> get_tile tm gi = Some None).
Proof.
  intros V HL HP. apply valid_geo_ok in V. pose proof (proj1 V) as SO. destruct (from_tiles_eq zero tiles g SO HL) as (act & l & s & E & G & L).
  { intros gi px R X. specialize (HP gi px R X). rewrite zget_npixs in HP by assumption. apply Some_inj in HP. lia. }
  exists (toTM (with_act g act l) s). split; [exact E|]. split; [apply valid_ok, good_ok; exact G|]. repeat (split; [reflexivity|]). intros gi R. specialize (L gi R). split.
  - rewrite (px_of_eq _ s gi G R). exact L.
  - intros N. rewrite (get_tile_eq _ s gi G R), L, N. reflexivity.
Qed.
(* to_enmap puts the tiles where they belong, and zero in the inactive ones *)
Theorem C36_to_enmap {A} (zero : A) (tm : tmap A) : valid_map tm ->
  exists m, to_enmap zero tm = Some m /\ f_ny m = tg_ny (tm_geo tm) /\ f_nx m = tg_nx (tm_geo tm) /\
    forall gi y x, 0 <= gi < ntile (tm_geo tm) -> let '(y1, x1, h, w) := geo_tile (tm_geo tm) gi in in_box y x y1 x1 h w ->
      f_at m y x = match px_of tm gi with Some px => nth (Z.to_nat ((y - y1) * w + (x - x1))) px zero | None => zero end.
Proof.
  intros V. apply valid_ok in V. destruct (ok_good tm V) as (s & G & E). set (g := tm_geo tm) in *. rewrite E in *. clearbody g. pose proof (proj1 (proj1 G)) as SO.
  destruct (to_enmap_eq zero g s G) as (m & E1 & E2 & E3 & E4). exists m. split; [exact E1|]. split; [exact E2|]. split; [exact E3|]. intros gi y x R. rewrite (geo_tile_eq g SO gi R). intros B. apply (tile_box g SO gi y x R) in B as (Hy & Hx & EQ).
  rewrite E4 by assumption. unfold pix_of. destruct (tile_of g SO y x Hy Hx) as (_ & T1 & T2). rewrite <- EQ in *. rewrite (px_of_eq g s gi G R). rewrite T1, T2. reflexivity.
Qed.
(* cutting a map into tiles, keeping those chosen by sel, and reassembling *)
Definition cut {A} (a : farr A) (y1 x1 h w : Z) : list A := flat_map (fun y => map (fun x => f_at a y x) (zrange x1 (x1 + w))) (zrange y1 (y1 + h)).
Theorem C36_roundtrip {A} (zero : A) (a : farr A) g (sel : Z -> bool) : valid_geo g -> f_ny a = tg_ny g -> f_nx a = tg_nx g ->
  exists tm m, from_tiles zero (map (fun gi => if sel gi then Some (let '(y1, x1, h, w) := geo_tile g gi in cut a y1 x1 h w) else None) (zrange 0 (ntile g))) g = Some tm /\
    to_enmap zero tm = Some m /\ f_ny m = f_ny a /\ f_nx m = f_nx a /\
    forall y x, 0 <= y < f_ny a -> 0 <= x < f_nx a ->
      f_at m y x = if sel (grid2ind g (y / tg_th g) (x / tg_tw g)) then f_at a y x else zero.
Proof.
  intros V HY HX. pose proof V as V0. apply valid_geo_ok in V. pose proof (proj1 V) as SO. pose proof (ntile_pos g SO) as NP.
  set (tiles := map _ (zrange 0 (ntile g))).
  assert (NT : forall gi, 0 <= gi < ntile g -> nth (Z.to_nat gi) tiles None = if sel gi then Some (let '(y1, x1, h, w) := geo_tile g gi in cut a y1 x1 h w) else None).
  { intros gi R. apply nth_error_nth. rewrite <- zget_nth_error, Z2Nat.id by lia. unfold tiles. rewrite zget_map, zget_zrange by lia. reflexivity. }
  assert (CL : forall gi, 0 <= gi < ntile g -> zlen (let '(y1, x1, h, w) := geo_tile g gi in cut a y1 x1 h w) = npx g gi).
  { intros gi R. rewrite geo_tile_eq by assumption. unfold cut. rewrite (zlen_grid (fun y x => f_at a y x)), !zrange_zlen. unfold npx. destruct (grid_range g SO gi R) as (R1 & R2 & _). destruct SO as (H1 & H2 & H3 & H4). rewrite tile_h_eq, tile_w_eq.
    destruct (ax_len_eq _ _ _ H1 H3 R1) as (_ & _ & P1). destruct (ax_len_eq _ _ _ H2 H4 R2) as (_ & _ & P2). rewrite !Z.max_r by lia. f_equal; lia. }
  destruct (C36_from_tiles zero tiles g V0) as (tm & E & VM & S1 & S2 & S3 & S4 & K).
  { unfold tiles. rewrite zlen_map, zrange_zlen. lia. }
  { intros gi px R X. rewrite NT in X by exact R. rewrite zget_npixs by assumption. f_equal. destruct (sel gi); [|discriminate]. apply Some_inj in X. rewrite <- X. symmetry. apply CL. exact R. }
  destruct (C36_to_enmap zero tm VM) as (m & E1 & E2 & E3 & E4). exists tm, m. split; [exact E|]. split; [exact E1|]. split; [lia|]. split; [lia|]. intros y x Hy Hx.
  assert (EG : forall gi, geo_tile (tm_geo tm) gi = geo_tile g gi) by (intros gi; unfold geo_tile, ind2grid, tg_gx; rewrite S1, S2, S3, S4; reflexivity).
  assert (EN : ntile (tm_geo tm) = ntile g) by (unfold ntile, tg_gy, tg_gx; rewrite S1, S2, S3, S4; reflexivity).
  rewrite HY in Hy. rewrite HX in Hx. destruct (tile_of g SO y x Hy Hx) as (R & T1 & T2). set (gi := grid2ind g (y / tg_th g) (x / tg_tw g)) in *. pose proof R as R0. rewrite <- EN in R0. specialize (E4 gi y x R0). rewrite EG, (geo_tile_eq g SO gi R) in E4.
  assert (B : in_box y x (gi / tg_gx g * tg_th g) (gi mod tg_gx g * tg_tw g) (tile_h g (gi / tg_gx g)) (tile_w g (gi mod tg_gx g))) by (apply (tile_box g SO gi y x R); auto). specialize (E4 B). rewrite E4.
  destruct (K gi R) as (K1 & _). rewrite K1, NT by exact R. destruct (sel gi); [|reflexivity]. rewrite (geo_tile_eq g SO gi R). unfold in_box in B. destruct B as (B1 & B2).
  set (y1 := gi / tg_gx g * tg_th g) in *. set (x1 := gi mod tg_gx g * tg_tw g) in *. set (h := tile_h g (gi / tg_gx g)) in *. set (w := tile_w g (gi mod tg_gx g)) in *. clearbody y1 x1 h w.
  unfold cut. apply nth_error_nth. assert (I0 : 0 <= (y - y1) * w + (x - x1)) by (apply Z.add_nonneg_nonneg; [apply Z.mul_nonneg_nonneg|]; clear -B1 B2; lia). rewrite <- zget_nth_error, Z2Nat.id by exact I0. pose proof (zget_grid (fun y x => f_at a y x) (zrange y1 (y1 + h)) (zrange x1 (x1 + w)) (y - y1) (x - x1) y x) as ZG. rewrite zrange_zlen in ZG. replace (Z.max 0 (x1 + w - x1)) with w in ZG by (clear -B2; lia).
  clear -ZG B1 B2. apply ZG; rewrite zget_zrange by lia; f_equal; lia.
Qed.
Example C36_ex : option_map (fun tm => (tg_active (tm_geo tm), px_of tm 1, get_tile tm 0, option_map (fun m => (f_at m 1 2, f_at m 2 4, f_at m 0 0)) (to_enmap 0 tm)))
    (match geometry 3 5 2 2 [] with Some g => from_tiles 0 [None; Some [1; 2; 3; 4]; None; None; None; Some [9]] g | None => None end) =
  Some ([1; 5], Some [1; 2; 3; 4], Some None, Some (3, 9, 0)).
Proof. vm_compute. reflexivity. Qed.
Example C36_ex_valid : exists tm, from_tiles 0 [None; Some [1; 2; 3; 4]; None; None; None; Some [9]] (TG 3 5 2 2 [] (repeat (-1) 6)) = Some tm /\ valid_map tm.
Proof.
  destruct (C36_from_tiles 0 [None; Some [1; 2; 3; 4]; None; None; None; Some [9]] (TG 3 5 2 2 [] (repeat (-1) 6))) as (tm & E & V & _); [|reflexivity| |eauto].
  - repeat split; cbn; try lia; try constructor; try (intros; contradiction); try (exfalso; assumption).
  - intros gi px R. change (ntile (TG 3 5 2 2 [] (repeat (-1) 6))) with 6 in R. assert (gi = 0 \/ gi = 1 \/ gi = 2 \/ gi = 3 \/ gi = 4 \/ gi = 5) as X by lia. decompose [or] X; subst gi; cbn; intros [= <-]; reflexivity.
Qed.
Print Assumptions C36_views.
Print Assumptions C36_set.
Print Assumptions C36_set_inactive.
Print Assumptions C36_from_tiles.
Print Assumptions C36_to_enmap.
Print Assumptions C36_roundtrip.

(* ================= C37 ================= *)
(* with_tiles, for lists of active tiles whose comparison numpy gets right (newnp: numpy 1.25 or later):
   equal lengths, or one of them of length one and the other longer, or an older numpy and neither of length one *)
Theorem C37_with_tiles_partial {A} (zero : A) (newnp : bool) (tm : tmap A) (req : list Z) (strict : bool) :
  valid_map tm -> NoDup req -> (forall a, In a req -> 0 <= a < ntile (tm_geo tm)) ->
  (let n := zlen req in let m := zlen (tg_active (tm_geo tm)) in n = m \/ (n = 1 /\ 2 <= m) \/ (m = 1 /\ 2 <= n) \/ (newnp = false /\ n <> 1 /\ m <> 1)) ->
  exists tm', with_tiles zero newnp tm req strict = Some tm' /\ valid_map tm' /\
    tg_active (tm_geo tm') = (if strict then req else tg_active (tm_geo tm) ++ filter (fun a => negb (existsb (Z.eqb a) (tg_active (tm_geo tm)))) req) /\
    (forall gi, geo_tile (tm_geo tm') gi = geo_tile (tm_geo tm) gi) /\
    forall gi, 0 <= gi < ntile (tm_geo tm) -> In gi (tg_active (tm_geo tm')) ->
      px_of tm' gi = match px_of tm gi with Some px => Some px | None => Some (let '(_, _, h, w) := geo_tile (tm_geo tm) gi in repeat zero (Z.to_nat (h * w))) end.
Proof.
  intros V N F C. apply valid_ok in V. destruct (ok_good tm V) as (s & G & E). set (g := tm_geo tm) in *. rewrite E in *. clearbody g. pose proof (proj1 (proj1 G)) as SO.
  destruct (with_tiles_eq zero newnp g s req strict G) as (l & s' & E1 & E2 & E3); [split; [exact N|apply Forall_forall; exact F]|exact C|].
  eexists. split; [exact E1|]. split; [apply valid_ok, good_ok; exact E2|]. split; [destruct strict; reflexivity|]. split; [reflexivity|]. intros gi R I1. rewrite (px_of_eq _ s' gi E2 R), (px_of_eq g s gi G R), E3. cbn [toTM tm_geo with_act tg_active] in I1. rewrite existsb_true_In by exact I1.
  rewrite (geo_tile_eq g SO gi R). reflexivity.
Qed.
Ltac valid_lit := split; [split; [cbn; lia|split; [cbn; lia|split; [cbn; lia|split; [cbn; lia|split; [repeat constructor; cbn; intuition lia|split; [let a := fresh in let H := fresh in intros a H; cbn in H; repeat (destruct H as [<-|H]; [vm_compute; split; congruence|]); destruct H|reflexivity]]]]]]|eexists; split; reflexivity].
(* a map without active tiles asked for one tile stays without *)
Theorem C37_empty_refuted : exists (tm : tmap Z), valid_map tm /\ forall newnp, exists tm', with_tiles 0 newnp tm [2] false = Some tm' /\ tg_active (tm_geo tm') = [].
Proof.
  exists (TM (TG 4 4 2 2 [] [-1; -1; -1; -1]) []). split.
  - valid_lit.
  - intros newnp. eexists. split; reflexivity.
Qed.
(* and with numpy 1.25 or later lists of different lengths (other than one) raise *)
Theorem C37_lengths_refuted : exists (tm : tmap Z), valid_map tm /\ with_tiles 0 true tm [0; 1; 2] false = None.
Proof.
  exists (TM (TG 4 4 2 2 [1; 2] [-1; 0; 1; -1]) [1; 2; 3; 4; 5; 6; 7; 8]). split; [|reflexivity].
  valid_lit.
Qed.
Example C37_ex : option_map (fun m => (tg_active (tm_geo m), tm_data m)) (with_tiles 0 false (TM (TG 4 4 2 2 [1; 2] [-1; 0; 1; -1]) [1; 2; 3; 4; 5; 6; 7; 8]) [3; 2; 0] false) =
  Some ([1; 2; 3; 0], [1; 2; 3; 4; 5; 6; 7; 8; 0; 0; 0; 0; 0; 0; 0; 0]).
Proof. vm_compute. reflexivity. Qed.
Example C37_ex_strict : option_map tm_data (with_tiles 0 true (TM (TG 4 4 2 2 [1; 2] [-1; 0; 1; -1]) [1; 2; 3; 4; 5; 6; 7; 8]) [3; 2] true) = Some [0; 0; 0; 0; 5; 6; 7; 8].
Proof. vm_compute. reflexivity. Qed.
Print Assumptions C37_with_tiles_partial.
Print Assumptions C37_empty_refuted.
Print Assumptions C37_lengths_refuted.

(* ================= C38 ================= *)
Definition tiling (g : tgeo) := (tg_ny g, tg_nx g, tg_th g, tg_tw g).
(* what a op b holds: op where both are active; a's own value where only a is; op(0, b) where only b is *)
Theorem C38_binop {A} (zero : A) op (a b : tmap A) : valid_map a -> valid_map b -> tiling (tm_geo a) = tiling (tm_geo b) ->
  exists c, binop zero op a b = Some c /\ valid_map c /\ tiling (tm_geo c) = tiling (tm_geo a) /\
    (forall gi, In gi (tg_active (tm_geo c)) <-> In gi (tg_active (tm_geo a)) \/ In gi (tg_active (tm_geo b))) /\
    forall gi, 0 <= gi < ntile (tm_geo a) ->
      px_of c gi = match px_of a gi, px_of b gi with
                   | Some p, Some q => Some (map2 op p q)
                   | Some p, None => Some p
                   | None, Some q => Some (map (op zero) q)
                   | None, None => None
                   end.
Proof.
  intros Va Vb ST. apply valid_ok in Va, Vb. destruct (ok_good a Va) as (s & G & Ea). destruct (ok_good b Vb) as (t & H & Eb). set (g := tm_geo a) in *. set (h := tm_geo b) in *. rewrite Ea, Eb in *. clearbody g h.
  assert (ST' : same_tiling g h) by (unfold tiling in ST; injection ST as S1 S2 S3 S4; repeat split; assumption).
  destruct (binop_eq op g h s t G H ST' zero) as (g' & u & E & G' & S' & IA & L). eexists. split; [exact E|]. split; [apply valid_ok, good_ok; exact G'|]. split; [destruct S' as (S1 & S2 & S3 & S4); unfold tiling; cbn; congruence|]. split; [exact IA|].
  intros gi R. destruct (same_npx g' g gi S') as (_ & N1). destruct (same_npx g h gi ST') as (N3 & N2). rewrite (px_of_eq g' u gi G') by lia. rewrite (px_of_eq g s gi G R), (px_of_eq h t gi H) by lia. rewrite L.
  destruct (lookup_tile s gi), (lookup_tile t gi) as [q|] eqn:X; try reflexivity. f_equal. pose proof (lookup_len h t gi q H X) as LQ. rewrite N3, <- LQ. unfold zlen. rewrite Nat2Z.id. clear. induction q as [|x q IH]; [reflexivity|]. cbn. f_equal. exact IH.
Qed.
(* for an operation with op x 0 = x this is arithmetic on the full maps *)
Theorem C38_full_partial {A} (zero : A) op (a b : tmap A) : (forall x, op x zero = x) -> valid_map a -> valid_map b -> tiling (tm_geo a) = tiling (tm_geo b) ->
  exists c fa fb fc, binop zero op a b = Some c /\ to_enmap zero a = Some fa /\ to_enmap zero b = Some fb /\ to_enmap zero c = Some fc /\
    f_ny fc = f_ny fa /\ f_nx fc = f_nx fa /\ forall y x, 0 <= y < f_ny fa -> 0 <= x < f_nx fa -> f_at fc y x = op (f_at fa y x) (f_at fb y x).
Proof.
  intros HZ Va Vb ST. destruct (C38_binop zero op a b Va Vb ST) as (c & E & Vc & Sc & _ & K). destruct (C36_to_enmap zero a Va) as (fa & A1 & A2 & A3 & A4). destruct (C36_to_enmap zero b Vb) as (fb & B1 & B2 & B3 & B4). destruct (C36_to_enmap zero c Vc) as (fc & C1 & C2 & C3 & C4).
  unfold tiling in *. injection ST as S1 S2 S3 S4. injection Sc as T1 T2 T3 T4. exists c, fa, fb, fc. repeat (split; [assumption|]). split; [lia|]. split; [lia|]. intros y x Hy Hx.
  pose proof (proj1 (valid_ok a) Va) as ((SO & _ & _) & _). pose proof (proj1 (valid_ok b) Vb) as OKb. rewrite A2 in Hy. rewrite A3 in Hx.
  destruct (tile_of (tm_geo a) SO y x Hy Hx) as (R & _). set (gi := grid2ind (tm_geo a) (y / tg_th (tm_geo a)) (x / tg_tw (tm_geo a))) in *.
  assert (EB : geo_tile (tm_geo b) gi = geo_tile (tm_geo a) gi) by (unfold geo_tile, ind2grid, tg_gx; rewrite S1, S2, S3, S4; reflexivity). assert (EC : geo_tile (tm_geo c) gi = geo_tile (tm_geo a) gi) by (unfold geo_tile, ind2grid, tg_gx; rewrite T1, T2, T3, T4; reflexivity).
  assert (NB : ntile (tm_geo b) = ntile (tm_geo a)) by (unfold ntile, tg_gy, tg_gx; rewrite S1, S2, S3, S4; reflexivity). assert (NC : ntile (tm_geo c) = ntile (tm_geo a)) by (unfold ntile, tg_gy, tg_gx; rewrite T1, T2, T3, T4; reflexivity).
  specialize (A4 gi y x R). assert (Rb : 0 <= gi < ntile (tm_geo b)) by (rewrite NB; exact R). assert (Rc : 0 <= gi < ntile (tm_geo c)) by (rewrite NC; exact R). specialize (B4 gi y x Rb). specialize (C4 gi y x Rc). rewrite EB in B4. rewrite EC in C4.
  destruct (C36_views a Va) as (VA & _). destruct (C36_views b Vb) as (VB & _). specialize (VA gi R). specialize (VB gi Rb). rewrite EB in VB.
  rewrite (geo_tile_eq _ SO gi R) in *.
  assert (B : in_box y x (gi / tg_gx (tm_geo a) * tg_th (tm_geo a)) (gi mod tg_gx (tm_geo a) * tg_tw (tm_geo a)) (tile_h (tm_geo a) (gi / tg_gx (tm_geo a))) (tile_w (tm_geo a) (gi mod tg_gx (tm_geo a)))) by (apply (tile_box _ SO gi y x R); auto).
  rewrite (A4 B), (B4 B), (C4 B), (K gi R). unfold in_box in B. destruct B as (BY & BX).
  set (h := tile_h (tm_geo a) (gi / tg_gx (tm_geo a))) in *. set (w := tile_w (tm_geo a) (gi mod tg_gx (tm_geo a))) in *. set (i := (y - gi / tg_gx (tm_geo a) * tg_th (tm_geo a)) * w + (x - gi mod tg_gx (tm_geo a) * tg_tw (tm_geo a))).
  assert (RI : 0 <= i < h * w).
  { clear -BY BX i. revert BY BX. unfold i. generalize (gi / tg_gx (tm_geo a) * tg_th (tm_geo a)), (gi mod tg_gx (tm_geo a) * tg_tw (tm_geo a)). clear i. clearbody h w. intros p q BY BX. nia. }
  clearbody i h w.
  assert (LB : forall q, px_of b gi = Some q -> zlen q = h * w).
  { intros q X. unfold px_of in X. destruct (in_dec Z.eq_dec gi (tg_active (tm_geo b))) as [I1|I1]; [destruct VB as (_ & VB); destruct (VB I1) as (px & L & P); rewrite P in X; cbn in X; apply Some_inj in X; subst; exact L|]. destruct VB as (VB & _). rewrite (VB I1) in X. discriminate. }
  assert (LA : forall q, px_of a gi = Some q -> zlen q = h * w).
  { intros q X. unfold px_of in X. destruct (in_dec Z.eq_dec gi (tg_active (tm_geo a))) as [I1|I1]; [destruct VA as (_ & VA); destruct (VA I1) as (px & L & P); rewrite P in X; cbn in X; apply Some_inj in X; subst; exact L|]. destruct VA as (VA & _). rewrite (VA I1) in X. discriminate. }
  assert (M2 : forall (p q : list A) n, (n < length p)%nat -> length p = length q -> nth n (map2 op p q) zero = op (nth n p zero) (nth n q zero)).
  { clear. induction p as [|u p IH]; intros [|v q] n H L; cbn in *; try lia. destruct n; [reflexivity|]. apply IH; lia. }
  destruct (px_of a gi) as [p|] eqn:PA, (px_of b gi) as [q|] eqn:PB.
  - specialize (LA p eq_refl). specialize (LB q eq_refl). unfold zlen in LA, LB. clear -M2 LA LB RI. apply M2; lia.
  - rewrite HZ. reflexivity.
  - specialize (LB q eq_refl). rewrite (nth_indep _ zero (op zero zero)) by (rewrite map_length; unfold zlen in LB; clear -LB RI; lia). apply (map_nth (op zero)).
  - rewrite HZ. reflexivity.
Qed.
(* but not for a product: where only a is active, a*b holds a instead of a*0 *)
Theorem C38_mul_refuted : exists (a b c : tmap Z), valid_map a /\ valid_map b /\ tiling (tm_geo a) = tiling (tm_geo b) /\ binop 0 Z.mul a b = Some c /\
  option_map (fun m => f_at m 0 0) (to_enmap 0 a) = Some 3 /\ option_map (fun m => f_at m 0 0) (to_enmap 0 b) = Some 0 /\ option_map (fun m => f_at m 0 0) (to_enmap 0 c) = Some 3.
Proof.
  exists (TM (TG 1 2 1 1 [0] [0; -1]) [3]), (TM (TG 1 2 1 1 [1] [-1; 0]) [5]), (TM (TG 1 2 1 1 [0; 1] [0; 1]) [3; 0]).
  split; [valid_lit|]. split; [valid_lit|]. repeat split; vm_compute; reflexivity.
Qed.
(* insert: the tiles of b replace those of a *)
Theorem C38_insert {A} (zero : A) (a b : tmap A) : valid_map a -> valid_map b -> tiling (tm_geo a) = tiling (tm_geo b) ->
  exists c, binop zero (fun _ y => y) a b = Some c /\ valid_map c /\ forall gi, 0 <= gi < ntile (tm_geo a) -> px_of c gi = match px_of b gi with Some q => Some q | None => px_of a gi end.
Proof.
  intros Va Vb ST. destruct (C38_binop zero (fun _ y => y) a b Va Vb ST) as (c & E & Vc & _ & _ & K). exists c. split; [exact E|]. split; [exact Vc|]. intros gi R. rewrite K by exact R.
  pose proof (proj1 (valid_ok a) Va) as OKa. pose proof (proj1 (valid_ok b) Vb) as OKb. destruct (ok_good a OKa) as (s & G & Ea). destruct (ok_good b OKb) as (t & H & Eb).
  assert (ST' : same_tiling (tm_geo a) (tm_geo b)) by (unfold tiling in ST; injection ST as S1 S2 S3 S4; repeat split; assumption). destruct (same_npx _ _ gi ST') as (N1 & N2).
  assert (PA : px_of a gi = lookup_tile s gi) by (rewrite Ea; apply px_of_eq; [exact G|exact R]). assert (PB : px_of b gi = lookup_tile t gi) by (rewrite Eb; apply px_of_eq; [exact H|rewrite <- N2; exact R]). rewrite PA, PB.
  destruct (lookup_tile s gi) as [p|] eqn:X, (lookup_tile t gi) as [q|] eqn:Y; try reflexivity.
  - pose proof (lookup_len _ s gi p G X). pose proof (lookup_len _ t gi q H Y). f_equal. assert (LE : length p = length q) by (unfold zlen in *; lia). clear -LE. revert q LE. induction p as [|u p IH]; intros [|v q] L; cbn in *; try lia; [reflexivity|]. f_equal. apply IH. lia.
  - f_equal. apply map_id.
Qed.
(* a op= b, when b's tiles are active in a: a keeps its tiles, the result is op on b's tiles *)
Theorem C38_inplace {A} op (a b : tmap A) : valid_map a -> valid_map b -> tiling (tm_geo a) = tiling (tm_geo b) -> (forall gi, In gi (tg_active (tm_geo b)) -> In gi (tg_active (tm_geo a))) ->
  exists c, ibinop op a b = Some c /\ valid_map c /\ tm_geo c = tm_geo a /\
    forall gi, 0 <= gi < ntile (tm_geo a) -> px_of c gi = match px_of a gi, px_of b gi with Some p, Some q => Some (map2 op p q) | Some p, None => Some p | None, _ => None end.
Proof.
  intros Va Vb ST SUB. apply valid_ok in Va, Vb. destruct (ok_good a Va) as (s & G & Ea). destruct (ok_good b Vb) as (t & H & Eb). set (g := tm_geo a) in *. set (h := tm_geo b) in *. rewrite Ea, Eb in *. clearbody g h.
  assert (ST' : same_tiling g h) by (unfold tiling in ST; injection ST as S1 S2 S3 S4; repeat split; assumption).
  destruct (ibinop_eq op g h s t G H ST' SUB) as (u & E & G' & L). eexists. split; [exact E|]. split; [apply valid_ok, good_ok; exact G'|]. split; [reflexivity|].
  intros gi R. destruct (same_npx g h gi ST') as (_ & N2). rewrite (px_of_eq g u gi G' R), (px_of_eq g s gi G R), (px_of_eq h t gi H) by lia. rewrite L. unfold op_tile. destruct (lookup_tile s gi), (lookup_tile t gi); reflexivity.
Qed.
(* and otherwise it raises *)
Theorem C38_inplace_raises {A} op (a b : tmap A) gi : valid_map a -> valid_map b -> In gi (tg_active (tm_geo b)) -> ~ In gi (tg_active (tm_geo a)) -> ibinop op a b = None.
Proof.
  intros Va Vb Hb Ha. apply valid_ok in Va as (G & _). apply valid_ok in Vb as (H & _). unfold ibinop. destruct (Z.eqb_spec (compatible (tm_geo a) (tm_geo b)) 0) as [|N0]; [reflexivity|].
  assert (ST : same_tiling (tm_geo a) (tm_geo b)). { unfold compatible in N0. destruct (Z.eqb_spec (tg_ny (tm_geo a)) (tg_ny (tm_geo b))), (Z.eqb_spec (tg_nx (tm_geo a)) (tg_nx (tm_geo b))), (Z.eqb_spec (tg_th (tm_geo a)) (tg_th (tm_geo b))), (Z.eqb_spec (tg_tw (tm_geo a)) (tg_tw (tm_geo b))); cbn in N0; try lia. repeat split; assumption. }
  destruct (compatible_cases _ _ ST) as [E|E]; rewrite E; cbn [Z.eqb Pos.eqb]. { apply compatible_2 in E as (_ & _ & _ & _ & EA). rewrite EA in Ha. tauto. }
  destruct (same_npx _ _ 0 ST) as (_ & ET). destruct (FindModel.pygather _ _) as [found|] eqn:EF; [|reflexivity]. rewrite (pygather_map _ (fun a0 => match zget (tg_lookup (tm_geo a)) a0 with Some k => k | None => 0 end)) in EF.
  2:{ intros i Hi. pose proof (range_of _ i H Hi) as R. unfold pyget. replace (i <? 0) with false by lia. destruct (zget_in_range (tg_lookup (tm_geo a)) i) as (x & Hx); [destruct G as (_ & _ & (-> & _)); lia|]. rewrite Hx. reflexivity. }
  apply Some_inj in EF. subst found. replace (existsb _ _) with true; [reflexivity|]. symmetry. apply existsb_exists. exists (-1). split; [|reflexivity]. apply in_map_iff. exists gi. split; [|exact Hb]. destruct G as (_ & _ & (_ & _ & L3)). rewrite L3; [reflexivity| |exact Ha]. pose proof (range_of _ gi H Hb). lia.
Qed.
Example C38_ex : option_map (fun m => (tg_active (tm_geo m), tm_data m)) (binop 0 Z.add (TM (TG 1 3 1 1 [1; 0] [1; 0; -1]) [3; 4]) (TM (TG 1 3 1 1 [1; 2] [-1; 0; 1]) [10; 20])) = Some ([0; 1; 2], [4; 13; 20]).
Proof. vm_compute. reflexivity. Qed.
Print Assumptions C38_binop.
Print Assumptions C38_full_partial.
Print Assumptions C38_mul_refuted.
Print Assumptions C38_insert.
Print Assumptions C38_inplace.
Print Assumptions C38_inplace_raises.

(* ================= C39 ================= *)
(* what rank's output tile should hold: the sum, in rank order, of the tile over the ranks where it is active *)
Definition tile_total {A} (zero : A) add (imaps : list (tmap A)) (gi n : Z) : list A :=
  fold_left (fun acc im => match px_of im gi with Some px => map2 add acc px | None => acc end) imaps (repeat zero (Z.to_nat n)).
Definition mem (l : list Z) (x : Z) : bool := existsb (Z.eqb x) l.
(* correct when the tiles two ranks have in common come in the same order in the sender's and in the receiver's list *)
Theorem C39_redistribute_partial {A} (zero : A) add (imaps : list (tmap A)) (ogeos : list tgeo) t0 :
  (forall im, In im imaps -> valid_map im /\ tiling (tm_geo im) = t0) -> (forall og, In og ogeos -> valid_geo og /\ tiling og = t0) ->
  (forall im og, In im imaps -> In og ogeos -> filter (mem (tg_active og)) (tg_active (tm_geo im)) = filter (mem (tg_active (tm_geo im))) (tg_active og)) ->
  exists omaps, redist zero add imaps ogeos = Some omaps /\ map tm_geo omaps = ogeos /\
    forall om, In om omaps -> valid_map om /\ forall gi, In gi (tg_active (tm_geo om)) ->
      exists px, px_of om gi = Some px /\ px = tile_total zero add imaps gi (zlen px).
Proof.
  intros HI HO ORD.
  assert (EX : exists I, imaps = map (fun e => toTM (fst e) (snd e)) I /\ forall g s, In (g, s) I -> good g s /\ In (toTM g s) imaps).
  { clear ORD. induction imaps as [|im rest IH]; [exists []; split; [reflexivity|intros ? ? []]|]. destruct IH as (I & E & F); [intros; apply HI; now right|].
    destruct (HI im (or_introl eq_refl)) as (V & _). apply valid_ok in V. destruct (ok_good im V) as (s & G & Ei). exists ((tm_geo im, s) :: I). cbn [map fst snd]. rewrite <- Ei, E. split; [reflexivity|]. intros g s' [[= <- <-]|X]; [split; [exact G|left; exact Ei]|]. destruct (F g s' X). split; [assumption|right; rewrite E in *; assumption]. }
  destruct EX as (I & E & F).
  assert (g0 : exists g0, forall g, tiling g = t0 -> same_tiling g g0). { destruct t0 as (((a, b), c), d). exists (TG a b c d [] []). intros g T. unfold tiling in T. injection T as T1 T2 T3 T4. repeat split; assumption. }
  destruct g0 as (g0 & HG0).
  assert (HI' : forall g s, In (g, s) I -> good g s /\ same_tiling g g0). { intros g s X. destruct (F g s X) as (G & Y). split; [exact G|]. apply HG0. destruct (HI _ Y) as (_ & T). exact T. }
  assert (HO' : forall og, In og ogeos -> geo_ok og /\ same_tiling og g0). { intros og X. destruct (HO og X) as (V & T). split; [apply valid_geo_ok; exact V|apply HG0; exact T]. }
  assert (ORD' : forall g s og, In (g, s) I -> In og ogeos -> filter (fun gi => existsb (Z.eqb gi) (tg_active og)) (tg_active g) = filter (fun gi => existsb (Z.eqb gi) (tg_active g)) (tg_active og)).
  { intros g s og X Y. destruct (F g s X) as (_ & Z1). apply (ORD (toTM g s) og Z1 Y). }
  destruct (redist_eq zero add g0 I ogeos HI' HO' ORD') as (R1 & R2). rewrite <- E in R1. eexists. split; [exact R1|]. split; [rewrite map_map; cbn; apply map_id|].
  intros om Hm. apply in_map_iff in Hm as (og & <- & Hog). pose proof (R2 og Hog) as GD. split; [apply valid_ok, good_ok; exact GD|]. cbn [toTM tm_geo]. intros gi Hi.
  pose proof (range_of og gi (proj1 GD) Hi) as RG. rewrite (px_of_eq og _ gi GD RG). pose proof (lookup_out zero add g0 I ogeos HI' HO' og gi Hog Hi) as LO. rewrite LO. eexists. split; [reflexivity|].
  rewrite (lookup_len og _ gi _ GD LO). unfold tile_total. rewrite E. destruct (HO' og Hog) as (_ & STo). destruct (same_npx og g0 gi STo) as (_ & N1). revert HI'. clear -RG N1.
  generalize (repeat zero (Z.to_nat (npx og gi))). induction I as [|(g, s) I IH]; intros acc HI'; [reflexivity|]. cbn [map fold_left fst snd]. destruct (HI' g s (or_introl eq_refl)) as (G & ST). destruct (same_npx g g0 gi ST) as (_ & N2).
  rewrite (px_of_eq g s gi G) by lia. apply IH. intros; apply HI'; now right.
Qed.
(* in particular if every list is sorted *)
Lemma sorted_ext (l m : list Z) : StronglySorted Z.lt l -> StronglySorted Z.lt m -> (forall x, In x l <-> In x m) -> l = m.
Proof.
  intros S1. revert m. induction S1 as [|x l SL IH F1]; intros m S2 H.
  - destruct m as [|y m]; [reflexivity|]. exfalso. apply (H y). now left.
  - destruct S2 as [|y m SM F2]; [exfalso; apply (H x); now left|]. rewrite Forall_forall in F1, F2.
    assert (x = y). { destruct (proj1 (H x) (or_introl eq_refl)) as [->|X]; [reflexivity|]. destruct (proj2 (H y) (or_introl eq_refl)) as [->|Y]; [reflexivity|]. specialize (F1 _ Y). specialize (F2 _ X). lia. }
    subst y. f_equal. apply IH; [exact SM|]. intros z. split; intros X.
    + destruct (proj1 (H z) (or_intror X)) as [<-|Y]; [specialize (F1 _ X); lia|exact Y].
    + destruct (proj2 (H z) (or_intror X)) as [<-|Y]; [specialize (F2 _ X); lia|exact Y].
Qed.
Theorem C39_sorted {A} (zero : A) add (imaps : list (tmap A)) (ogeos : list tgeo) t0 :
  (forall im, In im imaps -> valid_map im /\ tiling (tm_geo im) = t0 /\ StronglySorted Z.lt (tg_active (tm_geo im))) ->
  (forall og, In og ogeos -> valid_geo og /\ tiling og = t0 /\ StronglySorted Z.lt (tg_active og)) ->
  exists omaps, redist zero add imaps ogeos = Some omaps /\ map tm_geo omaps = ogeos /\
    forall om, In om omaps -> valid_map om /\ forall gi, In gi (tg_active (tm_geo om)) ->
      exists px, px_of om gi = Some px /\ px = tile_total zero add imaps gi (zlen px).
Proof.
  intros HI HO. apply (C39_redistribute_partial zero add imaps ogeos t0); [intros im X; destruct (HI im X) as (? & ? & _); auto|intros og X; destruct (HO og X) as (? & ? & _); auto|].
  intros im og X Y. destruct (HI im X) as (_ & _ & S1). destruct (HO og Y) as (_ & _ & S2). apply sorted_ext; [apply SS_filter'; exact S1|apply SS_filter'; exact S2|].
  intros z. rewrite !filter_In. unfold mem. rewrite !existsb_In. tauto.
Qed.
(* without instructions: every tile some rank has ends up in exactly one rank, summed; input lists sorted *)
Theorem C39_auto_partial {A} (zero : A) add (imaps : list (tmap A)) t0 : imaps <> [] ->
  (forall im, In im imaps -> valid_map im /\ tiling (tm_geo im) = t0 /\ StronglySorted Z.lt (tg_active (tm_geo im))) ->
  exists omaps, redistribute zero add imaps None = Some omaps /\ zlen omaps = zlen imaps /\
    StronglySorted Z.lt (flat_map (fun om => tg_active (tm_geo om)) omaps) /\
    (forall gi, In gi (flat_map (fun om => tg_active (tm_geo om)) omaps) <-> exists im, In im imaps /\ In gi (tg_active (tm_geo im))) /\
    forall om, In om omaps -> valid_map om /\ forall gi, In gi (tg_active (tm_geo om)) ->
      exists px, px_of om gi = Some px /\ px = tile_total zero add imaps gi (zlen px).
Proof.
  intros NE HI. unfold redistribute. rewrite (all_some_map _ (fun im => maskof (tm_geo im))) by (intros im X; apply act_mask_eq; destruct (HI im X) as (V & _); apply valid_ok in V; apply V).
  set (masks := map (fun im => maskof (tm_geo im)) imaps). set (N := zlen imaps).
  assert (HN : 1 <= N) by (unfold N; destruct imaps; [congruence|rewrite zlen_cons; pose proof (zlen_nonneg imaps); lia]).
  assert (NTC : exists nt, (forall g, tiling g = t0 -> ntile g = nt)). { destruct t0 as (((a, b), c), d). exists (ntile (TG a b c d [] [])). intros g T. unfold tiling in T. injection T as T1 T2 T3 T4. unfold ntile, tg_gy, tg_gx. cbn. rewrite T1, T2, T3, T4. reflexivity. }
  destruct NTC as (nt & HNT). 
  set (any := filter (fun gi => existsb (fun m => nth (Z.to_nat gi) m false) masks) (zrange 0 nt)).
  set (piece := fun k => array_split any N k).
  assert (EA : map (fun p : Z * tmap A => auto_active (ntile (tm_geo (snd p))) masks (fst p)) (combine (zrange 0 N) imaps) = map piece (zrange 0 N)).
  { assert (Q : forall l k, (forall im, In im l -> In im imaps) -> map (fun p : Z * tmap A => auto_active (ntile (tm_geo (snd p))) masks (fst p)) (combine (zrange k (k + zlen l)) l) = map piece (zrange k (k + zlen l))).
    { induction l as [|im l IH]; intros k HL; [change (zlen (@nil (tmap A))) with 0; rewrite zrange_empty by lia; reflexivity|]. rewrite zlen_cons. pose proof (zlen_nonneg l). rewrite zrange_cons by lia. cbn [combine map fst snd]. replace (k + (1 + zlen l)) with (k + 1 + zlen l) by lia. rewrite IH by (intros; apply HL; now right). f_equal.
      unfold auto_active, piece. destruct (HI im (HL im (or_introl eq_refl))) as (_ & T & _). rewrite (HNT _ T). unfold masks at 2. rewrite zlen_map. reflexivity. }
    specialize (Q imaps 0 (fun im X => X)). rewrite Z.add_0_l in Q. exact Q. }
  rewrite EA.
  assert (CAT : concat (map piece (zrange 0 N)) = any) by (unfold piece; apply array_split_concat; lia).
  assert (SA : StronglySorted Z.lt any). { unfold any. apply SS_filter'. clear. unfold zrange. generalize (Z.to_nat (nt - 0)). intros n. generalize 0. induction n as [|n IH]; intros z; cbn; constructor; [apply IH|]. apply Forall_forall. intros x X. apply zseq_In in X. lia. }
  assert (ANY : forall gi, In gi any <-> exists im, In im imaps /\ In gi (tg_active (tm_geo im))).
  { intros gi. unfold any. rewrite filter_In, zrange_In, existsb_exists. split.
    - intros (R & m & X & Y). unfold masks in X. apply in_map_iff in X as (im & <- & X). exists im. split; [exact X|]. destruct (HI im X) as (V & T & _). apply valid_ok in V. destruct V as (G & _). change (owned (maskof (tm_geo im)) gi = true) in Y. rewrite owned_eq in Y by (try assumption; rewrite (HNT _ T); lia). apply existsb_In. exact Y.
    - intros (im & X & Y). destruct (HI im X) as (V & T & _). apply valid_ok in V. destruct V as (G & _). pose proof (range_of _ gi G Y) as R. rewrite (HNT _ T) in R. split; [lia|]. exists (maskof (tm_geo im)). split; [unfold masks; apply in_map_iff; eauto|]. change (owned (maskof (tm_geo im)) gi = true). rewrite owned_eq by (try assumption; rewrite (HNT _ T); lia). apply existsb_In. exact Y. }
  assert (PIN : forall k gi, 0 <= k < N -> In gi (piece k) -> In gi any) by (intros k gi Hk X; rewrite <- CAT; apply in_concat; exists (piece k); split; [apply in_map, zrange_In; lia|exact X]).
  assert (SSsub : forall (l1 l2 l3 : list Z), StronglySorted Z.lt (l1 ++ l2 ++ l3) -> StronglySorted Z.lt l2).
  { clear. induction l1 as [|x l1 IH]; intros l2 l3 S1; cbn in S1; [|inversion S1; subst; eauto]. induction l2 as [|x l2 IH]; constructor; cbn in S1; inversion S1 as [|? ? S2 F]; subst; [apply IH; exact S2|]. apply Forall_app in F. apply F. }
  assert (PS : forall k, 0 <= k < N -> StronglySorted Z.lt (piece k)).
  { intros k Hk. rewrite <- CAT in SA. rewrite (zrange_split 0 k N), (zrange_cons k N), map_app, concat_app in SA by lia. cbn [map concat] in SA. eapply SSsub. exact SA. }
  assert (GEO : exists ogeos, all_some (map (fun p : tmap A * list Z => copy_active (tm_geo (fst p)) (snd p)) (combine imaps (map piece (zrange 0 N)))) = Some ogeos /\ map tg_active ogeos = map piece (zrange 0 N) /\ forall og, In og ogeos -> valid_geo og /\ tiling og = t0 /\ StronglySorted Z.lt (tg_active og)).
  { assert (Q : forall l k, 0 <= k -> k + zlen l <= N -> (forall im, In im l -> In im imaps) -> exists ogeos, all_some (map (fun p : tmap A * list Z => copy_active (tm_geo (fst p)) (snd p)) (combine l (map piece (zrange k (k + zlen l))))) = Some ogeos /\ map tg_active ogeos = map piece (zrange k (k + zlen l)) /\ forall og, In og ogeos -> valid_geo og /\ tiling og = t0 /\ StronglySorted Z.lt (tg_active og)).
    { induction l as [|im l IH]; intros k Hk HK HL; [exists []; change (zlen (@nil (tmap A))) with 0; rewrite zrange_empty by lia; repeat split; contradiction|].
      rewrite zlen_cons in *. pose proof (zlen_nonneg l). rewrite zrange_cons by lia. replace (k + (1 + zlen l)) with (k + 1 + zlen l) by lia. destruct (IH (k + 1) ltac:(lia) ltac:(lia) (fun i X => HL i (or_intror X))) as (og & E1 & E2 & E3).
      destruct (HI im (HL im (or_introl eq_refl))) as (V & T & _). apply valid_ok in V. destruct V as ((SO & _ & _) & _).
      destruct (copy_active_ok (tm_geo im) (piece k) SO) as (lk & EC & GO).
      { pose proof (PS k ltac:(lia)) as SP. split; [clear -SP; induction SP as [|x m HS IH HF]; constructor; [|exact IH]; intros X; rewrite Forall_forall in HF; specialize (HF _ X); lia|]. apply Forall_forall. intros gi X. apply PIN in X; [|lia]. unfold any in X. apply filter_In in X as (X & _). apply zrange_In in X. rewrite (HNT _ T). lia. }
      exists (with_act (tm_geo im) (piece k) lk :: og). cbn [combine map all_some fold_right fst snd]. rewrite EC. change (fold_right _ (Some []) ?l) with (all_some l). unfold all_some in E1 |- *. rewrite E1. split; [reflexivity|]. split; [cbn; rewrite E2; reflexivity|].
      intros g [<-|X]; [|apply E3; exact X]. split; [apply valid_geo_ok; exact GO|]. split; [exact T|]. apply PS. lia. }
    specialize (Q imaps 0 ltac:(lia)). rewrite Z.add_0_l in Q. apply Q; [unfold N; lia|auto]. }
  destruct GEO as (ogeos & EG & EACT & HOG). rewrite EG.
  destruct (C39_sorted zero add imaps ogeos t0 HI HOG) as (omaps & E1 & E2 & E3). exists omaps. split; [exact E1|].
  assert (EFM : flat_map (fun om => tg_active (tm_geo om)) omaps = any) by (rewrite flat_map_concat, <- CAT, <- EACT, <- E2, map_map; reflexivity). split.
  - apply (f_equal (@zlen _)) in E2, EACT. rewrite !zlen_map in *. rewrite zrange_zlen in EACT. lia.
  - rewrite EFM. split; [exact SA|]. split; [exact ANY|exact E3].
Qed.
Lemma zget_In' {A} (l : list A) i x : zget l i = Some x -> In x l.
Proof. unfold zget. destruct (i <? 0); [discriminate|]. apply nth_error_In. Qed.
(* reduce: for maps with sorted tiles, root gets every tile that any rank has, with the contributions added up, and the others get nothing.
   Missing: other orders of the tiles, see C39_order_refuted. *)
Theorem C39_reduce_partial {A} (zero : A) add (imaps : list (tmap A)) t0 root : 0 <= root < zlen imaps ->
  (forall im, In im imaps -> valid_map im /\ tiling (tm_geo im) = t0 /\ StronglySorted Z.lt (tg_active (tm_geo im))) ->
  exists omaps, reduce zero add imaps root = Some omaps /\ zlen omaps = zlen imaps /\
    forall k om, zget omaps k = Some om -> valid_map om /\
      (k <> root -> tg_active (tm_geo om) = []) /\
      (k = root -> StronglySorted Z.lt (tg_active (tm_geo om)) /\
        forall gi, (In gi (tg_active (tm_geo om)) <-> exists im, In im imaps /\ In gi (tg_active (tm_geo im))) /\
          (In gi (tg_active (tm_geo om)) -> exists px, px_of om gi = Some px /\ px = tile_total zero add imaps gi (zlen px))).
Proof.
  intros HR HI. set (masks := map (fun im => maskof (tm_geo im)) imaps). set (N := zlen imaps) in *.
  assert (EM : all_some (map (fun im => act_mask (tm_geo im)) imaps) = Some masks) by (apply (all_some_map _ (fun im => maskof (tm_geo im))); intros im X; apply act_mask_eq; destruct (HI im X) as (V & _); apply valid_ok in V; apply V).
  assert (NTC : exists nt, (forall g, tiling g = t0 -> ntile g = nt)). { destruct t0 as (((a, b), c), d). exists (ntile (TG a b c d [] [])). intros g T. unfold tiling in T. injection T as T1 T2 T3 T4. unfold ntile, tg_gy, tg_gx. cbn. rewrite T1, T2, T3, T4. reflexivity. }
  destruct NTC as (nt & HNT). set (any := active_distributed nt masks).
  set (piece := fun k => if k =? root then any else []).
  assert (EA : map (fun p : Z * tmap A => if fst p =? root then active_distributed (ntile (tm_geo (snd p))) masks else []) (combine (zrange 0 N) imaps) = map piece (zrange 0 N)).
  { assert (Q : forall l k, (forall im, In im l -> In im imaps) -> map (fun p : Z * tmap A => if fst p =? root then active_distributed (ntile (tm_geo (snd p))) masks else []) (combine (zrange k (k + zlen l)) l) = map piece (zrange k (k + zlen l))).
    { induction l as [|im l IH]; intros k HL; [change (zlen (@nil (tmap A))) with 0; rewrite zrange_empty by lia; reflexivity|]. rewrite zlen_cons. pose proof (zlen_nonneg l). rewrite zrange_cons by lia. cbn [combine map fst snd]. replace (k + (1 + zlen l)) with (k + 1 + zlen l) by lia. rewrite IH by (intros; apply HL; now right). f_equal.
      unfold piece, any. destruct (HI im (HL im (or_introl eq_refl))) as (_ & T & _). rewrite (HNT _ T). reflexivity. }
    specialize (Q imaps 0 (fun im X => X)). rewrite Z.add_0_l in Q. exact Q. }
  unfold reduce. rewrite EM. fold N. rewrite EA. unfold redistribute. rewrite EM.
  assert (SA : StronglySorted Z.lt any). { unfold any, active_distributed. apply SS_filter'. clear. unfold zrange. generalize (Z.to_nat (nt - 0)). intros n. generalize 0. induction n as [|n IH]; intros z; cbn; constructor; [apply IH|]. apply Forall_forall. intros x X. apply zseq_In in X. lia. }
  assert (ANY : forall gi, In gi any <-> exists im, In im imaps /\ In gi (tg_active (tm_geo im))).
  { intros gi. unfold any, active_distributed. rewrite filter_In, zrange_In, existsb_exists. split.
    - intros (R & m & X & Y). unfold masks in X. apply in_map_iff in X as (im & <- & X). exists im. split; [exact X|]. destruct (HI im X) as (V & T & _). apply valid_ok in V. destruct V as (G & _). rewrite owned_eq in Y by (try assumption; rewrite (HNT _ T); lia). apply existsb_In. exact Y.
    - intros (im & X & Y). destruct (HI im X) as (V & T & _). apply valid_ok in V. destruct V as (G & _). pose proof (range_of _ gi G Y) as R. rewrite (HNT _ T) in R. split; [lia|]. exists (maskof (tm_geo im)). split; [unfold masks; apply in_map_iff; eauto|]. rewrite owned_eq by (try assumption; rewrite (HNT _ T); lia). apply existsb_In. exact Y. }
  assert (PS : forall k, StronglySorted Z.lt (piece k)) by (intros k; unfold piece; destruct (k =? root); [exact SA|constructor]).
  assert (PIN : forall k gi, In gi (piece k) -> 0 <= gi < nt).
  { intros k gi. unfold piece. destruct (k =? root); [|intros []]. unfold any, active_distributed. intros X. apply filter_In in X as (X & _). apply zrange_In in X. lia. }
  assert (GEO : exists ogeos, all_some (map (fun p : tmap A * list Z => copy_active (tm_geo (fst p)) (snd p)) (combine imaps (map piece (zrange 0 N)))) = Some ogeos /\ map tg_active ogeos = map piece (zrange 0 N) /\ forall og, In og ogeos -> valid_geo og /\ tiling og = t0 /\ StronglySorted Z.lt (tg_active og)).
  { assert (Q : forall l k, (forall im, In im l -> In im imaps) -> exists ogeos, all_some (map (fun p : tmap A * list Z => copy_active (tm_geo (fst p)) (snd p)) (combine l (map piece (zrange k (k + zlen l))))) = Some ogeos /\ map tg_active ogeos = map piece (zrange k (k + zlen l)) /\ forall og, In og ogeos -> valid_geo og /\ tiling og = t0 /\ StronglySorted Z.lt (tg_active og)).
    { induction l as [|im l IH]; intros k HL; [exists []; change (zlen (@nil (tmap A))) with 0; rewrite zrange_empty by lia; repeat split; contradiction|].
      rewrite zlen_cons in *. pose proof (zlen_nonneg l). rewrite zrange_cons by lia. replace (k + (1 + zlen l)) with (k + 1 + zlen l) by lia. destruct (IH (k + 1) (fun i X => HL i (or_intror X))) as (og & E1 & E2 & E3).
      destruct (HI im (HL im (or_introl eq_refl))) as (V & T & _). apply valid_ok in V. destruct V as ((SO & _ & _) & _).
      destruct (copy_active_ok (tm_geo im) (piece k) SO) as (lk & EC & GO).
      { pose proof (PS k) as SP. split; [clear -SP; induction SP as [|x m HS IH HF]; constructor; [|exact IH]; intros X; rewrite Forall_forall in HF; specialize (HF _ X); lia|]. apply Forall_forall. intros gi X. apply PIN in X. rewrite (HNT _ T). lia. }
      exists (with_act (tm_geo im) (piece k) lk :: og). cbn [combine map all_some fold_right fst snd]. rewrite EC. change (fold_right _ (Some []) ?l) with (all_some l). unfold all_some in E1 |- *. rewrite E1. split; [reflexivity|]. split; [cbn; rewrite E2; reflexivity|].
      intros g [<-|X]; [|apply E3; exact X]. split; [apply valid_geo_ok; exact GO|]. split; [exact T|]. apply PS. }
    specialize (Q imaps 0 (fun i X => X)). rewrite Z.add_0_l in Q. exact Q. }
  destruct GEO as (ogeos & EG & EACT & HOG). rewrite EG.
  destruct (C39_sorted zero add imaps ogeos t0 HI HOG) as (omaps & E1 & E2 & E3). exists omaps. split; [exact E1|]. split.
  - apply (f_equal (@zlen _)) in E2, EACT. rewrite !zlen_map in *. rewrite zrange_zlen in EACT. lia.
  - intros k om Ek. assert (AK : tg_active (tm_geo om) = piece k).
    { assert (X : zget (map (fun om => tg_active (tm_geo om)) omaps) k = Some (tg_active (tm_geo om))) by (rewrite zget_map, Ek; reflexivity).
      assert (Y : map (fun om => tg_active (tm_geo om)) omaps = map piece (zrange 0 N)) by (rewrite <- EACT, <- E2, map_map; reflexivity). rewrite Y, zget_map in X.
      destruct (zget (zrange 0 N) k) as [j|] eqn:J; [|discriminate]. apply Some_inj in X. rewrite <- X. f_equal. pose proof J as J'. apply zget_Some_range in J'. rewrite zrange_zlen in J'. rewrite zget_zrange in J by lia. apply Some_inj in J. lia. }
    destruct (E3 om (zget_In' _ _ _ Ek)) as (V & PX). split; [exact V|]. rewrite AK in *. unfold piece in *. split.
    + intros NR. replace (k =? root) with false by lia. reflexivity.
    + intros ->. rewrite Z.eqb_refl in *. split; [exact SA|]. intros gi. split; [apply ANY|]. intros X. apply PX, X.
Qed.
(* wrong when the orders differ: on a single rank, collecting the tiles [1,0] swaps their contents *)
Theorem C39_order_refuted : exists (im : tmap Z), valid_map im /\ px_of im 0 = Some [20] /\ px_of im 1 = Some [10] /\
  exists om, reduce 0 Z.add [im] 0 = Some [om] /\ tg_active (tm_geo om) = [0; 1] /\ px_of om 0 = Some [10] /\ px_of om 1 = Some [20].
Proof.
  exists (TM (TG 1 2 1 1 [1; 0] [1; 0]) [10; 20]). split.
  - valid_lit.
  - split; [reflexivity|]. split; [reflexivity|]. exists (TM (TG 1 2 1 1 [0; 1] [0; 1]) [10; 20]). repeat split; vm_compute; reflexivity.
Qed.
Example C39_ex : option_map (map (fun m => (tg_active (tm_geo m), tm_data m))) (redistribute 0 Z.add [TM (TG 1 3 1 1 [0; 1] [0; 1; -1]) [10; 20]; TM (TG 1 3 1 1 [1; 2] [-1; 0; 1]) [5; 7]] None) =
  Some [([0; 1], [10; 25]); ([2], [7])].
Proof. vm_compute. reflexivity. Qed.
Print Assumptions C39_redistribute_partial.
Print Assumptions C39_sorted.
Print Assumptions C39_auto_partial.
Print Assumptions C39_reduce_partial.
Print Assumptions C39_order_refuted.
