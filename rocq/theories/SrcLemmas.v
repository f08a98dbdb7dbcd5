From Coq Require Import QArith QArith.Qpower Sorting.Sorted Permutation.
From Verif Require Import Base RangeModel RangeLemmas AlmModel AlmLemmas ShtLemmas TilLemmas LabLemmas DistLemmas DistRun HpModel SrcSpec SrcModel.
Local Open Scope Z_scope.
Ltac Zify.zify_post_hook ::= idtac.

Lemma cmod_spec a b : 0 < b -> cmod a b = a mod b.
Proof.
  intros H. unfold cmod. cbv zeta. pose proof (Z.quot_rem' a b) as E. pose proof (Z.div_mod a b ltac:(lia)) as D.
  pose proof (Z.mod_pos_bound a b H) as M.
  destruct (Z_le_dec 0 a) as [P | P].
  - pose proof (Z.rem_bound_pos a b P H). rewrite (proj2 (Z.ltb_ge _ 0)) by lia. now rewrite Z.rem_mod_nonneg by lia.
  - pose proof (Z.rem_bound_pos (- a) b ltac:(lia) H) as R. rewrite Z.rem_opp_l in R by lia.
    destruct (Z.ltb_spec (Z.rem a b) 0) as [L | L].
    + apply (Z.mod_unique _ _ (Z.quot a b - 1)); [ left; lia | lia ].
    + apply (Z.mod_unique _ _ (Z.quot a b)); [ left; lia | lia ].
Qed.
Lemma floor_div_spec a b : 0 < b -> floor_div a b = a / b.
Proof.
  intros H. unfold floor_div. cbv zeta. pose proof (Z.quot_rem' a b) as E.
  destruct (Z_le_dec 0 a) as [P | P].
  - pose proof (Z.rem_bound_pos a b P H). rewrite (proj2 (Z.ltb_ge a _)) by lia. apply (Z.div_unique _ _ _ (Z.rem a b)); [ left; lia | lia ].
  - pose proof (Z.rem_bound_pos (- a) b ltac:(lia) H) as R. rewrite Z.rem_opp_l in R by lia.
    destruct (Z.ltb_spec a (Z.quot a b * b)) as [L | L].
    + apply (Z.div_unique _ _ _ (Z.rem a b + b)); [ left; lia | lia ].
    + apply (Z.div_unique _ _ _ (Z.rem a b)); [ left; lia | lia ].
Qed.

(* ---- the wrapped range of an axis ---- *)
Definition unwrap (n k : Z) : Z := if n <=? k then k - n else k.
Definition wrapped (lo hi n : Z) : list Z := map (unwrap n) (zrange (fst (wrap_box lo hi n)) (snd (wrap_box lo hi n))).
Lemma wrap_box_eq lo hi n : 0 < n -> wrap_box lo hi n = (lo mod n, lo mod n + Z.min n (hi - lo)).
Proof. intros H. unfold wrap_box. cbv zeta. rewrite (cmod_spec _ _ H). destruct (Z.ltb_spec n (hi - lo)); f_equal; f_equal; lia. Qed.
Lemma unwrap_mod n k : 0 < n -> 0 <= k < 2 * n -> unwrap n k = k mod n.
Proof.
  intros H K. unfold unwrap. destruct (Z.leb_spec n k).
  - apply (Z.mod_unique _ _ 1); [ left; lia | lia ].
  - symmetry. apply Z.mod_small. lia.
Qed.
Lemma wrapped_spec lo hi n : 0 < n -> NoDup (wrapped lo hi n) /\
  forall k, In k (wrapped lo hi n) <-> exists K, lo <= K < hi /\ K mod n = k.
Proof.
  intros H. unfold wrapped. rewrite (wrap_box_eq _ _ _ H). cbn [fst snd]. pose proof (Z.mod_pos_bound lo n H) as B.
  set (a := lo mod n) in *. set (h := Z.min n (hi - lo)).
  assert (Hh : h <= n /\ h <= hi - lo) by (unfold h; lia). split.
  - apply NoDup_map_inj; [ | apply zrange_NoDup ].
    intros x y Hx Hy E. rewrite zrange_In in Hx, Hy. rewrite 2 unwrap_mod in E by lia.
    apply (mod_close n); [ lia | | lia ]. rewrite Zminus_mod, E, Z.sub_diag. apply Z.mod_0_l. lia.
  - intros k. rewrite in_map_iff. split.
    + intros [j [E Hj]]. rewrite zrange_In in Hj. rewrite unwrap_mod in E by lia.
      exists (lo + (j - a)). split; [ lia | ]. rewrite <- E. rewrite Zplus_mod. fold a. rewrite <- Zplus_mod_idemp_r. rewrite Zmod_mod.
      rewrite Zplus_mod_idemp_r. f_equal. lia.
    + intros [K [HK E]]. exists (a + (K - lo) mod n). pose proof (Z.mod_pos_bound (K - lo) n H) as M.
      assert (LE : (K - lo) mod n <= K - lo) by (apply Z.mod_le; lia).
      rewrite zrange_In. split; [ | unfold h; lia ]. rewrite unwrap_mod by lia. rewrite <- E. unfold a.
      rewrite <- Zplus_mod. f_equal. lia.
Qed.
Lemma wrapped_range lo hi n k : 0 < n -> In k (wrapped lo hi n) -> 0 <= k < n.
Proof. intros H I. apply (proj2 (wrapped_spec lo hi n H)) in I. destruct I as [K [_ E]]. rewrite <- E. apply Z.mod_pos_bound. lia. Qed.

(* ---- cells of an axis ---- *)
Definition ncells (n c : Z) : Z := Z.quot (n + c - 1) c.
Lemma ncells_eq n c : 0 < n -> 0 < c -> ncells n c = (n + c - 1) / c.
Proof. intros. unfold ncells. apply Z.quot_div_nonneg; lia. Qed.
Lemma ncells_pos n c : 0 < n -> 0 < c -> 0 < ncells n c /\ n <= ncells n c * c < n + c.
Proof.
  intros. rewrite ncells_eq by lia. pose proof (Z.div_mod (n + c - 1) c ltac:(lia)) as E. pose proof (Z.mod_pos_bound (n + c - 1) c ltac:(lia)) as M.
  set (q := (n + c - 1) / c) in *. clearbody q. split; [ | lia ].
  destruct (Z_le_dec q 0); [ nia | lia ].
Qed.
Lemma in_cell n c y : 0 < n -> 0 < c -> 0 <= y < n -> 0 <= y / c < ncells n c.
Proof.
  intros Hn Hc Hy. pose proof (ncells_pos n c Hn Hc) as [P Q]. split; [ apply Z.div_pos; lia | ].
  apply Z.div_lt_upper_bound; lia.
Qed.
Definition axis_cells (n c lo hi : Z) : list Z := let '(c1, c2) := pixbox2cellbox lo hi c in wrapped c1 c2 (ncells n c).
Lemma axis_cells_cover n c lo hi Y : 0 < n -> 0 < c -> fits n c lo hi -> lo <= Y < hi -> In ((Y mod n) / c) (axis_cells n c lo hi).
Proof.
  intros Hn Hc F HY. unfold axis_cells, pixbox2cellbox. rewrite 2 floor_div_spec by lia.
  pose proof (ncells_pos n c Hn Hc) as [P Q]. apply wrapped_spec; [ lia | ].
  pose proof (Z.div_le_mono lo Y c Hc ltac:(lia)) as L1. pose proof (Z.div_le_mono Y (hi - 1) c Hc ltac:(lia)) as L2.
  pose proof (Z.mod_pos_bound Y n Hn) as MB. pose proof (in_cell n c (Y mod n) Hn Hc MB) as IC.
  destruct F as [[F1 F2] | [F | F]].
  - exists (Y / c). split; [ lia | ]. rewrite (Z.mod_small Y n) in * by lia. apply Z.mod_small. lia.
  - exists (Y / c). split; [ lia | ].
    assert (E : n = ncells n c * c).
    { pose proof (Z.div_mod n c ltac:(lia)) as D. rewrite F in D. set (q := n / c) in *. clearbody q.
      assert (ncells n c = q); [ | nia ]. set (m := ncells n c) in *. clearbody m.
      destruct (Z.lt_trichotomy m q) as [G | [G | G]]; [ nia | assumption | nia ]. }
    pose proof (Z.div_mod Y n ltac:(lia)) as D.
    assert (EY : Y / c = (Y / n) * ncells n c + (Y mod n) / c).
    { rewrite D at 1. replace (n * (Y / n) + Y mod n) with ((Y / n) * ncells n c * c + Y mod n) by (rewrite <- Z.mul_assoc, <- E; ring).
      rewrite Z.add_comm, Z.div_add by lia. apply Z.add_comm. }
    rewrite EY, Z.add_comm, Z.mod_add by lia. apply Z.mod_small. lia.
  - (* the range covers every cell *)
    set (k := (Y mod n) / c) in *. set (a := lo / c). pose proof (Z.mod_pos_bound (k - a) (ncells n c) P) as MM.
    exists (a + (k - a) mod (ncells n c)). split.
    + split; [ unfold a; lia | ].
      assert (a + ncells n c < (hi - 1) / c + 1 + 1); [ | lia ].
      pose proof (Z.div_mod lo c ltac:(lia)) as D1. pose proof (Z.mod_pos_bound lo c Hc) as D2.
      pose proof (Z.div_mod (hi - 1) c ltac:(lia)) as D3. pose proof (Z.mod_pos_bound (hi - 1) c Hc) as D4.
      fold a in D1. set (b := (hi - 1) / c) in *. set (m := ncells n c) in *. clearbody a b m. clear - Hc Hn F Q D1 D2 D3 D4.
      destruct (Z_lt_dec (a + m) (b + 1 + 1)); [ assumption | nia ].
    + rewrite Zplus_mod_idemp_r. replace (a + (k - a)) with k by lia. apply Z.mod_small. lia.
Qed.

(* ---- registering objects ---- *)
Definition obj_cells (ny nx c : Z) (b : box4) : list Z := let '(y1, y2, x1, x2) := b in
  map (fun '(cy, cx) => cy * ncells nx c + cx) (list_prod (axis_cells ny c y1 y2) (axis_cells nx c x1 x2)).
Lemma list_prod_map {A B C D} (f : A -> C) (g : B -> D) l m : list_prod (map f l) (map g m) = map (fun '(a, b) => (f a, g b)) (list_prod l m).
Proof.
  induction l as [ | a l IH ]; [ reflexivity | ]. cbn [map list_prod]. rewrite IH, map_app. f_equal. rewrite !map_map. reflexivity.
Qed.
Lemma NoDup_prod {A B} (l : list A) (m : list B) : NoDup l -> NoDup m -> NoDup (list_prod l m).
Proof.
  intros Hl Hm. induction Hl as [ | a l Ha Hl IH ]; [ constructor | ]. cbn [list_prod].
  apply NoDup_app_disj; [ | assumption | ].
  - apply NoDup_map_inj; [ | assumption ]. congruence.
  - intros [u v] H1 H2. apply in_map_iff in H1. destruct H1 as [w [E _]]. apply in_prod_iff in H2. apply Ha. destruct H2. congruence.
Qed.
Lemma obj_cells_spec ny nx c b : 0 < ny -> 0 < nx -> 0 < c ->
  NoDup (obj_cells ny nx c b) /\ Forall (fun ci => 0 <= ci < ncells ny c * ncells nx c) (obj_cells ny nx c b).
Proof.
  intros Hy Hx Hc. destruct b as [[[y1 y2] x1] x2]. unfold obj_cells, axis_cells, pixbox2cellbox.
  pose proof (ncells_pos ny c Hy Hc) as [Py _]. pose proof (ncells_pos nx c Hx Hc) as [Px _].
  set (ay := floor_div y1 c). set (by_ := floor_div (y2 - 1) c + 1). set (ax := floor_div x1 c). set (bx := floor_div (x2 - 1) c + 1).
  split.
  - apply NoDup_map_inj; [ | apply NoDup_prod; apply wrapped_spec; assumption ].
    intros [a b] [a' b'] H H' E. apply in_prod_iff in H, H'. apply flat_inj in E; [ destruct E; congruence | apply (wrapped_range ax bx _ _ Px); tauto | apply (wrapped_range ax bx _ _ Px); tauto ].
  - apply Forall_forall. intros ci H. apply in_map_iff in H. destruct H as [[a b] [E I]]. apply in_prod_iff in I. destruct I as [I1 I2].
    apply (wrapped_range _ _ _ _ Py) in I1. apply (wrapped_range _ _ _ _ Px) in I2. subst ci. nia.
Qed.

Definition memZ (k : Z) (l : list Z) : bool := existsb (Z.eqb k) l.
Lemma memZ_In k l : memZ k l = true <-> In k l.
Proof. unfold memZ. rewrite existsb_exists. split; [ intros [x [H E]]; apply Z.eqb_eq in E; congruence | intros H; exists k; split; [ assumption | apply Z.eqb_refl ] ]. Qed.
Lemma memZ_cons k a l : memZ k (a :: l) = (k =? a) || memZ k l.
Proof. reflexivity. Qed.

(* one update per listed index *)
Lemma upd_each {A B} (idx : B -> Z) (g : B -> A -> A) (ups : list B) : forall m, NoDup (map idx ups) -> Forall (fun u => 0 <= idx u < zlen m) ups ->
  exists m', ofold (fun m u => bind (zget m (idx u)) (fun v => set_at m (idx u) (g u v))) ups m = Some m' /\ zlen m' = zlen m /\
  (forall u v, In u ups -> zget m (idx u) = Some v -> zget m' (idx u) = Some (g u v)) /\
  (forall k, ~ In k (map idx ups) -> zget m' k = zget m k).
Proof.
  induction ups as [ | u ups IH ]; intros m N F.
  - exists m. cbn. repeat split; tauto.
  - inversion N as [ | ? ? N1 N2 ]; subst. inversion F as [ | ? ? F1 F2 ]; subst.
    destruct (zget_in_range m (idx u) F1) as [v Ev]. cbn [ofold]. rewrite Ev. cbn [bind].
    destruct (set_at_spec m (idx u) (g u v) F1) as [m1 [E1 [L1 G1]]]. rewrite E1.
    destruct (IH m1 N2) as [m' [E2 [L2 [G2 G3]]]]; [ rewrite L1; assumption | ].
    exists m'. split; [ assumption | ]. split; [ congruence | ]. split.
    + intros w z [-> | H] Ez.
      * rewrite (G3 _ N1), G1, Z.eqb_refl. congruence.
      * apply G2; [ assumption | ]. rewrite G1. destruct (Z.eqb_spec (idx w) (idx u)) as [E | E]; [ | assumption ].
        exfalso. apply N1. rewrite <- E. apply in_map. assumption.
    + intros k Hk. cbn [map In] in Hk. rewrite G3 by tauto. rewrite G1. destruct (Z.eqb_spec k (idx u)); [ exfalso; apply Hk; left; congruence | reflexivity ].
Qed.

Lemma register_spec ny nx c oi b cells : 0 < ny -> 0 < nx -> 0 < c -> zlen cells = ncells ny c * ncells nx c ->
  exists cells', register (ncells ny c) (ncells nx c) cells (oi, cell_box c (ncells ny c) (ncells nx c) b) = Some cells' /\ zlen cells' = zlen cells /\
  forall ci l, zget cells ci = Some l -> zget cells' ci = Some (if memZ ci (obj_cells ny nx c b) then l ++ [oi] else l).
Proof.
  intros Hy Hx Hc L. destruct (obj_cells_spec ny nx c b Hy Hx Hc) as [N F]. rewrite <- L in F.
  destruct (upd_each (fun ci : Z => ci) (fun _ l => l ++ [oi]) (obj_cells ny nx c b) cells) as [m' [E1 [E2 [E3 E4]]]];
    [ rewrite map_id; assumption | assumption | ].
  exists m'. split; [ | split; [ assumption | ] ].
  - rewrite <- E1. destruct b as [[[y1 y2] x1] x2]. unfold cell_box, obj_cells, axis_cells, register.
    destruct (pixbox2cellbox y1 y2 c) as [cy1 cy2]. destruct (pixbox2cellbox x1 x2 c) as [cx1 cx2]. unfold wrapped.
    destruct (wrap_box cy1 cy2 (ncells ny c)) as [a1 a2]. destruct (wrap_box cx1 cx2 (ncells nx c)) as [b1 b2]. cbn [fst snd].
    rewrite list_prod_map, map_map, ofold_map. apply ofold_ext. intros s [cy cx] _. reflexivity.
  - intros ci l H. rewrite map_id in E4. destruct (memZ ci (obj_cells ny nx c b)) eqn:M.
    + apply memZ_In in M. apply (E3 ci l M H).
    + rewrite E4; [ assumption | ]. intros I. apply memZ_In in I. congruence.
Qed.
Definition reg (ny nx c : Z) (boxes : list box4) (ci o : Z) : bool :=
  match zget boxes o with Some b => memZ ci (obj_cells ny nx c b) | None => false end.
Lemma cell_lists_spec ny nx c boxes : 0 < ny -> 0 < nx -> 0 < c ->
  exists cells, cell_lists ny nx c boxes = Some cells /\ zlen cells = ncells ny c * ncells nx c /\
  forall ci, 0 <= ci < zlen cells -> zget cells ci = Some (filter (reg ny nx c boxes ci) (zrange 0 (zlen boxes))).
Proof.
  intros Hy Hx Hc. unfold cell_lists. cbv zeta. fold (ncells ny c). fold (ncells nx c).
  pose proof (ncells_pos ny c Hy Hc) as [Py _]. pose proof (ncells_pos nx c Hx Hc) as [Px _].
  assert (PP : 0 < ncells ny c * ncells nx c) by nia.
  set (nc := ncells ny c * ncells nx c) in *.
  assert (G : forall pre post cells, boxes = pre ++ post -> zlen cells = nc ->
    (forall ci, 0 <= ci < nc -> zget cells ci = Some (filter (reg ny nx c boxes ci) (zrange 0 (zlen pre)))) ->
    exists cells', ofold (register (ncells ny c) (ncells nx c)) (combine (zrange (zlen pre) (zlen boxes)) (map (cell_box c (ncells ny c) (ncells nx c)) post)) cells = Some cells' /\
      zlen cells' = nc /\ forall ci, 0 <= ci < nc -> zget cells' ci = Some (filter (reg ny nx c boxes ci) (zrange 0 (zlen boxes)))).
  { intros pre post. revert pre. induction post as [ | b post IH ]; intros pre cells E L HG.
    - rewrite app_nil_r in E. subst pre. exists cells. cbn [map]. rewrite combine_nil. repeat split; assumption.
    - assert (LB : zlen boxes = zlen pre + 1 + zlen post) by (rewrite E, zlen_app; unfold zlen; cbn [length]; lia).
      assert (0 <= zlen pre /\ 0 <= zlen post) as [L0 L1] by (unfold zlen; lia).
      rewrite zrange_cons by lia. cbn [map combine ofold].
      destruct (register_spec ny nx c (zlen pre) b cells Hy Hx Hc L) as [c1 [E1 [E2 E3]]]. rewrite E1.
      replace (zlen pre + 1) with (zlen (pre ++ [b])) by (rewrite zlen_app; reflexivity).
      apply IH; [ rewrite <- app_assoc; assumption | congruence | ].
      intros ci Hci. rewrite (E3 ci _ (HG ci Hci)). rewrite zlen_app. change (zlen [b]) with 1.
      rewrite zrange_snoc by lia. rewrite filter_app. cbn [filter].
      assert (Eb : zget boxes (zlen pre) = Some b).
      { rewrite E. rewrite zget_app2 by lia. rewrite Z.sub_diag. reflexivity. }
      assert (R : reg ny nx c boxes ci (zlen pre) = memZ ci (obj_cells ny nx c b)) by (unfold reg; rewrite Eb; reflexivity).
      rewrite R. destruct (memZ ci (obj_cells ny nx c b)); [ reflexivity | now rewrite app_nil_r ]. }
  destruct (G [] boxes (repeat [] (Z.to_nat nc)) eq_refl) as [cells [E1 [E2 E3]]].
  - unfold zlen. rewrite repeat_length. lia.
  - intros ci Hci. rewrite zget_rep by lia. reflexivity.
  - exists cells. split; [ exact E1 | ]. split; [ assumption | ]. rewrite E2. assumption.
Qed.

(* ---- the cells partition the map ---- *)
Definition cell_of (nx c : Z) (p : Z * Z) : Z := (fst p / c) * ncells nx c + snd p / c.
Lemma range_cell n c k y : 0 < c -> (k * c <= y < (if n <? (k + 1) * c then n else (k + 1) * c)) <-> y < n /\ k = y / c.
Proof.
  intros Hc. pose proof (Z.div_mod y c ltac:(lia)) as D. pose proof (Z.mod_pos_bound y c Hc) as M. set (q := y / c) in *. clearbody q.
  destruct (Z.ltb_spec n ((k + 1) * c)); split; intros H1; try split; try lia; try nia.
Qed.
Lemma in_cell_pixbox ny nx c ci p : 0 < ny -> 0 < nx -> 0 < c -> 0 <= ci < ncells ny c * ncells nx c ->
  In p (box_pixels (cell_pixbox ny nx c (ncells nx c) ci)) <-> (0 <= fst p < ny /\ 0 <= snd p < nx) /\ ci = cell_of nx c p.
Proof.
  intros Hy Hx Hc Hci. destruct p as [y x]. unfold cell_pixbox, box_pixels, cell_of. cbv zeta. cbn [fst snd].
  pose proof (ncells_pos ny c Hy Hc) as [Py _]. pose proof (ncells_pos nx c Hx Hc) as [Px _].
  rewrite Z.quot_div_nonneg, Z.rem_mod_nonneg by lia. rewrite in_prod_iff, !zrange_In, !range_cell by lia.
  pose proof (Z.div_mod ci (ncells nx c) ltac:(lia)) as D. pose proof (Z.mod_pos_bound ci (ncells nx c) Px) as M.
  split.
  - intros [[H1 H2] [H3 H4]].
    assert (0 <= ci / ncells nx c) by (apply Z.div_pos; lia).
    split; [ | rewrite <- H2, <- H4; lia ].
    pose proof (Z.div_mod y c ltac:(lia)) as Dy. pose proof (Z.mod_pos_bound y c Hc) as My. pose proof (Z.div_mod x c ltac:(lia)) as Dx. pose proof (Z.mod_pos_bound x c Hc) as Mx.
    rewrite <- H2 in Dy. rewrite <- H4 in Dx. split; nia.
  - intros [[H1 H2] H3]. pose proof (in_cell ny c y Hy Hc H1) as I1. pose proof (in_cell nx c x Hx Hc H2) as I2.
    assert (A : ci / ncells nx c = y / c /\ ci mod ncells nx c = x / c).
    { apply (flat_inj (ncells nx c)); lia. }
    lia.
Qed.
Lemma box_pixels_NoDup b : NoDup (box_pixels b).
Proof. destruct b as [[[y1 y2] x1] x2]. apply NoDup_prod; apply zrange_NoDup. Qed.
Definition objs_at (ny nx c : Z) (boxes : list box4) (p : Z * Z) : list Z := filter (reg ny nx c boxes (cell_of nx c p)) (zrange 0 (zlen boxes)).
Definition nonempty {A B} (e : A * list B) : bool := match snd e with [] => false | _ => true end.
Definition all_pixels (ny nx : Z) : list (Z * Z) := list_prod (zrange 0 ny) (zrange 0 nx).
Definition updates (cells : list (box4 * list Z)) : list (Z * Z * list Z) := flat_map (fun cell => map (fun p => (p, snd cell)) (box_pixels (fst cell))) cells.

Lemma flat_map_flat_map {A B C} (f : A -> list B) (g : B -> list C) l : flat_map g (flat_map f l) = flat_map (fun x => flat_map g (f x)) l.
Proof. induction l as [ | a l IH ]; [ reflexivity | ]. cbn [flat_map]. rewrite flat_map_app, IH. reflexivity. Qed.
Lemma flat_map_map {A B C} (f : A -> B) (g : B -> list C) l : flat_map g (map f l) = flat_map (fun x => g (f x)) l.
Proof. induction l as [ | a l IH ]; [ reflexivity | ]. cbn [flat_map map]. now rewrite IH. Qed.

Lemma assign_cells_spec ny nx c boxes : 0 < ny -> 0 < nx -> 0 < c ->
  exists active, assign_cells ny nx c boxes = Some active /\
  Permutation (updates active) (filter nonempty (map (fun p => (p, objs_at ny nx c boxes p)) (all_pixels ny nx))) /\
  Forall (fun cell => exists ci, 0 <= ci /\ snd cell = filter (reg ny nx c boxes ci) (zrange 0 (zlen boxes))) active.
Proof.
  intros Hy Hx Hc. destruct (cell_lists_spec ny nx c boxes Hy Hx Hc) as [cells [E [L G]]].
  unfold assign_cells. rewrite E. cbn [bind]. cbv zeta. fold (ncells nx c). eexists. split; [ reflexivity | ].
  set (Lc := fun ci => filter (reg ny nx c boxes ci) (zrange 0 (zlen boxes))).
  assert (EC : combine (zrange 0 (zlen cells)) cells = map (fun ci => (ci, Lc ci)) (zrange 0 (zlen cells))).
  { rewrite (combine_range cells []). apply map_ext_in. intros ci H. apply zrange_In in H. rewrite (G ci H). reflexivity. }
  rewrite EC, flat_map_map. rewrite L. set (nc := ncells ny c * ncells nx c).
  set (act := fun ci => match Lc ci with [] => [] | _ :: _ => [(cell_pixbox ny nx c (ncells nx c) ci, Lc ci)] end).
  change (Permutation (updates (flat_map act (zrange 0 nc))) (filter nonempty (map (fun p => (p, objs_at ny nx c boxes p)) (all_pixels ny nx))) /\
    Forall (fun cell => exists ci, 0 <= ci /\ snd cell = filter (reg ny nx c boxes ci) (zrange 0 (zlen boxes))) (flat_map act (zrange 0 nc))).
  assert (IA : forall cell, In cell (flat_map act (zrange 0 nc)) <-> exists ci, 0 <= ci < nc /\ Lc ci <> [] /\ cell = (cell_pixbox ny nx c (ncells nx c) ci, Lc ci)).
  { intros cell. rewrite in_flat_map. split.
    - intros [ci [H I]]. apply zrange_In in H. exists ci. split; [ assumption | ]. unfold act in I. destruct (Lc ci) as [ | o l ]; [ destruct I | ].
      destruct I as [<- | []]. split; [ discriminate | reflexivity ].
    - intros [ci [H [N ->]]]. exists ci. split; [ apply zrange_In; assumption | ]. unfold act. destruct (Lc ci); [ congruence | left; reflexivity ]. }
  split.
  - apply NoDup_Permutation.
    + unfold updates. rewrite flat_map_flat_map. apply NoDup_flat_map; [ | | apply zrange_NoDup ].
      * intros ci _. unfold act. destruct (Lc ci) eqn:El; [ constructor | ]. cbn [flat_map]. rewrite app_nil_r. apply NoDup_map_inj; [ | apply box_pixels_NoDup ].
        intros ? ? _ _ Ep. cbn [snd] in Ep. congruence.
      * intros i j [p l] Hi Hj H1 H2. apply zrange_In in Hi, Hj.
        assert (K : forall k, 0 <= k < nc -> In (p, l) (flat_map (fun cell : box4 * list Z => map (fun p0 => (p0, snd cell)) (box_pixels (fst cell))) (act k)) -> k = cell_of nx c p).
        { intros k Hk H. apply in_flat_map in H. destruct H as [cell [I1 I2]]. unfold act in I1. destruct (Lc k); [ destruct I1 | ]. destruct I1 as [<- | []].
          apply in_map_iff in I2. destruct I2 as [q [Eq Iq]]. cbn [fst] in Iq. apply in_cell_pixbox in Iq; [ | assumption .. ]. destruct Iq. congruence. }
        rewrite (K i Hi H1), (K j Hj H2). reflexivity.
    + apply NoDup_filter, NoDup_map_inj; [ | apply NoDup_prod; apply zrange_NoDup ]. intros ? ? _ _ Ep. congruence.
    + intros [p l]. unfold updates. rewrite in_flat_map, filter_In, in_map_iff. split.
      * intros [cell [I1 I2]]. apply IA in I1. destruct I1 as [ci [Hci [N ->]]]. cbn [fst snd] in I2. apply in_map_iff in I2. destruct I2 as [q [Eq Iq]].
        apply in_cell_pixbox in Iq; [ | assumption .. ]. destruct Iq as [R1 R2]. assert (q = p) by congruence. subst q. assert (El : l = Lc ci) by congruence. split.
        -- exists p. split; [ rewrite El, R2; reflexivity | ]. unfold all_pixels. destruct p as [y x]. apply in_prod_iff. rewrite !zrange_In. exact R1.
        -- unfold nonempty. cbn [snd]. rewrite El. destruct (Lc ci); congruence.
      * intros [[q [Eq Iq]] N]. assert (q = p) by congruence. subst q. assert (El : l = Lc (cell_of nx c p)) by (unfold objs_at in Eq; unfold Lc; congruence).
        unfold all_pixels in Iq. destruct p as [y x]. apply in_prod_iff in Iq. rewrite !zrange_In in Iq.
        assert (R : 0 <= cell_of nx c (y, x) < nc).
        { unfold cell_of, nc. cbn [fst snd]. pose proof (in_cell ny c y Hy Hc ltac:(lia)). pose proof (in_cell nx c x Hx Hc ltac:(lia)). nia. }
        exists (cell_pixbox ny nx c (ncells nx c) (cell_of nx c (y, x)), Lc (cell_of nx c (y, x))). split.
        -- apply IA. exists (cell_of nx c (y, x)). split; [ assumption | ]. split; [ | reflexivity ]. unfold nonempty in N. cbn [snd] in N. rewrite El in N. destruct (Lc _); congruence.
        -- cbn [fst snd]. apply in_map_iff. exists (y, x). split; [ now rewrite El | ]. apply in_cell_pixbox; try assumption. split; [ exact Iq | reflexivity ].
  - apply Forall_forall. intros cell H. apply IA in H. destruct H as [ci [Hci [_ ->]]]. exists ci. split; [ lia | reflexivity ].
Qed.

(* ---- painting ---- *)
Definition pidx (nx : Z) (p : Z * Z) : Z := fst p * nx + snd p.
Lemma sim_objects_flat {A} (op : A -> A -> A) paint nx order m : sim_objects op paint nx order m =
  ofold (fun m (u : Z * Z * list Z) => bind (zget m (pidx nx (fst u))) (fun v => set_at m (pidx nx (fst u)) (fold_left (fun v o => op v (paint o (fst (fst u)) (snd (fst u)))) (snd u) v)))
    (updates order) m.
Proof.
  unfold sim_objects, updates. rewrite <- ofold_flat. apply ofold_ext. intros s cell _. unfold process_cell. rewrite ofold_map. apply ofold_ext.
  intros s' [y x] _. reflexivity.
Qed.
Lemma updates_perm a b : Permutation a b -> Permutation (updates a) (updates b).
Proof. intros H. unfold updates. apply Permutation_flat_map. assumption. Qed.
Lemma all_pixels_In ny nx p : In p (all_pixels ny nx) <-> 0 <= fst p < ny /\ 0 <= snd p < nx.
Proof. destruct p as [y x]. unfold all_pixels. rewrite in_prod_iff, !zrange_In. reflexivity. Qed.
Lemma pidx_range ny nx p : In p (all_pixels ny nx) -> 0 <= pidx nx p < ny * nx.
Proof. intros H. apply all_pixels_In in H. unfold pidx. nia. Qed.
Lemma pidx_inj ny nx p q : In p (all_pixels ny nx) -> In q (all_pixels ny nx) -> pidx nx p = pidx nx q -> p = q.
Proof. intros H1 H2 E. apply all_pixels_In in H1, H2. destruct p as [y x], q as [y' x']. unfold pidx in E. cbn [fst snd] in *. apply flat_inj in E; [ destruct E; congruence | lia | lia ]. Qed.

Lemma sim_objects_spec {A} (op : A -> A -> A) paint ny nx c boxes active order (m : list A) : 0 < ny -> 0 < nx -> 0 < c ->
  assign_cells ny nx c boxes = Some active -> Permutation active order -> zlen m = ny * nx ->
  exists m', sim_objects op paint nx order m = Some m' /\ zlen m' = zlen m /\
  forall p v, In p (all_pixels ny nx) -> zget m (pidx nx p) = Some v ->
    zget m' (pidx nx p) = Some (fold_left (fun v o => op v (paint o (fst p) (snd p))) (objs_at ny nx c boxes p) v).
Proof.
  intros Hy Hx Hc E P L. destruct (assign_cells_spec ny nx c boxes Hy Hx Hc) as [active' [E' [PU _]]]. rewrite E in E'. apply Some_inj in E'. subst active'.
  rewrite sim_objects_flat. assert (PO := Permutation_trans (Permutation_sym (updates_perm _ _ P)) PU).
  set (U := updates order) in *. clearbody U.
  assert (IU : forall u, In u U <-> In (fst u) (all_pixels ny nx) /\ snd u = objs_at ny nx c boxes (fst u) /\ snd u <> []).
  { intros [p l]. cbn [fst snd]. split.
    - intros H. apply (Permutation_in _ PO) in H. apply filter_In in H. destruct H as [H N]. apply in_map_iff in H. destruct H as [q [Eq Iq]].
      assert (q = p) by congruence. subst q. repeat split; [ assumption | congruence | ]. intros ->. discriminate.
    - intros [H1 [H2 H3]]. apply (Permutation_in _ (Permutation_sym PO)). apply filter_In. split; [ apply in_map_iff; exists p; split; [ congruence | assumption ] | ].
      unfold nonempty. cbn [snd]. destruct l; congruence. }
  destruct (upd_each (fun u : Z * Z * list Z => pidx nx (fst u)) (fun u v => fold_left (fun v o => op v (paint o (fst (fst u)) (snd (fst u)))) (snd u) v) U m) as [m' [R1 [R2 [R3 R4]]]].
  - apply NoDup_map_inj.
    + intros u w Hu Hw Ei. apply IU in Hu, Hw. destruct u as [p l], w as [q l']. cbn [fst snd] in *. assert (p = q) by (apply (pidx_inj ny nx); tauto). subst q. f_equal. destruct Hu as [_ [-> _]], Hw as [_ [-> _]]. reflexivity.
    + apply (Permutation_NoDup (Permutation_sym PO)). apply NoDup_filter, NoDup_map_inj; [ congruence | apply NoDup_prod; apply zrange_NoDup ].
  - apply Forall_forall. intros u Hu. apply IU in Hu. rewrite L. apply pidx_range. tauto.
  - exists m'. split; [ assumption | ]. split; [ assumption | ]. intros p v Hp Ev.
    destruct (objs_at ny nx c boxes p) as [ | o l ] eqn:EO.
    + cbn [fold_left]. rewrite R4; [ assumption | ]. intros I. apply in_map_iff in I. destruct I as [u [Eu Iu]]. apply IU in Iu.
      assert (fst u = p) by (apply (pidx_inj ny nx); tauto). subst p. destruct Iu as [_ [I1 I2]]. congruence.
    + rewrite <- EO. change (pidx nx p) with (pidx nx (fst (p, objs_at ny nx c boxes p))). apply (R3 (p, objs_at ny nx c boxes p) v); [ | exact Ev ].
      apply IU. cbn [fst snd]. repeat split; [ assumption | congruence ].
Qed.

(* ---- transposed ---- *)
Definition mval (nx : Z) (m : list Z) (p : Z * Z) : Z := match zget m (pidx nx p) with Some v => v | None => 0 end.
Definition cell_amp (prof : Z -> Z -> Z -> Z) (nx : Z) (m : list Z) (o : Z) (cell : box4 * list Z) : Z :=
  zsum (map (fun u => if memZ o (snd u) then mval nx m (fst u) * prof o (fst (fst u)) (snd (fst u)) else 0) (updates [cell])).
Lemma sum_loop (prof : Z -> Z -> Z -> Z) nx m o l : forall a, Forall (fun p => 0 <= pidx nx p < zlen m) l ->
  ofold (fun a '(y, x) => bind (zget m (y * nx + x)) (fun v => Some (a + v * prof o y x))) l a = Some (a + zsum (map (fun p => mval nx m p * prof o (fst p) (snd p)) l)).
Proof.
  induction l as [ | [y x] l IH ]; intros a F; [ cbn; f_equal; lia | ]. inversion F as [ | ? ? F1 F2 ]; subst. cbn [ofold map].
  destruct (zget_in_range m _ F1) as [v Ev]. unfold pidx in Ev. cbn [fst snd] in Ev. rewrite Ev. cbn [bind]. rewrite IH by assumption.
  unfold mval at 2. unfold pidx. cbn [fst snd]. rewrite Ev. cbn [zsum fold_right]. f_equal. change (fold_right Z.add 0) with zsum. lia.
Qed.
Lemma zsum_zero {A} (f : A -> Z) l : (forall x, In x l -> f x = 0) -> zsum (map f l) = 0.
Proof. induction l as [ | a l IH ]; intros H; [ reflexivity | ]. cbn [map]. change (zsum (f a :: map f l)) with (f a + zsum (map f l)). rewrite IH, (H a); [ reflexivity | left; reflexivity | intros; apply H; right; assumption ]. Qed.
Lemma transpose_cell_spec prof nx m amps cell : NoDup (snd cell) -> Forall (fun o => 0 <= o < zlen amps) (snd cell) ->
  Forall (fun p => 0 <= pidx nx p < zlen m) (box_pixels (fst cell)) ->
  exists amps', transpose_cell prof nx m amps cell = Some amps' /\ zlen amps' = zlen amps /\
    forall o a, zget amps o = Some a -> zget amps' o = Some (a + cell_amp prof nx m o cell).
Proof.
  intros N F1 F2. set (S0 := fun o => zsum (map (fun p => mval nx m p * prof o (fst p) (snd p)) (box_pixels (fst cell)))).
  destruct (upd_each (fun o : Z => o) (fun o a => a + S0 o) (snd cell) amps) as [m' [R1 [R2 [R3 R4]]]]; [ rewrite map_id; assumption | assumption | ].
  exists m'. split; [ | split; [ assumption | ] ].
  - rewrite <- R1. unfold transpose_cell. apply ofold_ext. intros s o _. rewrite sum_loop by assumption. cbn [bind]. f_equal.
  - intros o a Ea. unfold cell_amp, updates. cbn [flat_map]. rewrite app_nil_r, map_map. cbn [fst snd].
    rewrite map_id in R4. destruct (memZ o (snd cell)) eqn:M.
    + apply memZ_In in M. exact (R3 o a M Ea).
    + rewrite R4; [ rewrite Ea; f_equal | intros I; apply memZ_In in I; congruence ].
      rewrite zsum_zero by (intros; reflexivity). lia.
Qed.
Lemma updates_cons a l : updates (a :: l) = updates [a] ++ updates l.
Proof. unfold updates. cbn [flat_map]. now rewrite app_nil_r. Qed.
Definition amp_sum (prof : Z -> Z -> Z -> Z) (nx : Z) (m : list Z) (o : Z) (U : list (Z * Z * list Z)) : Z :=
  zsum (map (fun u => if memZ o (snd u) then mval nx m (fst u) * prof o (fst (fst u)) (snd (fst u)) else 0) U).
Definition cell_ok (nx nobj : Z) (m : list Z) (cell : box4 * list Z) : Prop :=
  NoDup (snd cell) /\ Forall (fun o => 0 <= o < nobj) (snd cell) /\ Forall (fun p => 0 <= pidx nx p < zlen m) (box_pixels (fst cell)).
Lemma thread_spec prof nx m nobj cells : forall amps, zlen amps = nobj -> Forall (cell_ok nx nobj m) cells ->
  exists amps', ofold (transpose_cell prof nx m) cells amps = Some amps' /\ zlen amps' = zlen amps /\
    forall o a, zget amps o = Some a -> zget amps' o = Some (a + amp_sum prof nx m o (updates cells)).
Proof.
  induction cells as [ | cell cells IH ]; intros amps L F.
  - exists amps. cbn [ofold]. repeat split; [ intros o a H; rewrite H; f_equal; cbn; lia ].
  - inversion F as [ | ? ? [F1 [F2 F3]] F4 ]; subst. destruct (transpose_cell_spec prof nx m amps cell F1 F2 F3) as [a1 [E1 [L1 G1]]].
    cbn [ofold]. rewrite E1. destruct (IH a1 L1) as [a2 [E2 [L2 G2]]]; [ assumption | ].
    exists a2. split; [ assumption | ]. split; [ congruence | ]. intros o a H. rewrite (G2 o _ (G1 o a H)). f_equal.
    unfold amp_sum. rewrite (updates_cons cell cells), map_app, zsum_app. unfold cell_amp. lia.
Qed.
Lemma zget_map2 {A B C} (f : A * B -> C) a b k : zget (map f (combine a b)) k = match zget a k, zget b k with Some x, Some y => Some (f (x, y)) | _, _ => None end.
Proof.
  revert b k. induction a as [ | x a IH ]; intros b k; [ cbn [combine map]; rewrite 2 zget_nil; reflexivity | ].
  destruct b as [ | y b ]; [ cbn [combine map]; rewrite 2 zget_nil; destruct (zget _ k); reflexivity | ]. cbn [combine map]. rewrite !zget_cons, IH.
  destruct (k =? 0); [ reflexivity | ]. destruct (k <? 0); reflexivity.
Qed.
Lemma threads_spec prof nx m nobj threads : 0 <= nobj -> forall amps, zlen amps = nobj -> Forall (Forall (cell_ok nx nobj m)) threads ->
  exists amps', sim_transpose prof nx nobj threads m amps = Some amps' /\ zlen amps' = zlen amps /\
    forall o a, zget amps o = Some a -> zget amps' o = Some (a + amp_sum prof nx m o (updates (concat threads))).
Proof.
  intros H0. unfold sim_transpose. induction threads as [ | t threads IH ]; intros amps L F.
  - exists amps. cbn [ofold concat]. repeat split; [ intros o a H; rewrite H; f_equal; cbn; lia ].
  - inversion F as [ | ? ? F1 F2 ]; subst. set (nobj := zlen amps) in *. destruct (thread_spec prof nx m nobj t (repeat 0 (Z.to_nat nobj))) as [w [E1 [L1 G1]]];
      [ unfold zlen; rewrite repeat_length; lia | assumption | ].
    cbn [ofold]. rewrite E1. cbn [bind].
    assert (Lw : zlen w = nobj) by (rewrite L1; unfold zlen; rewrite repeat_length; lia).
    set (a1 := map (fun '(a, w) => a + w) (combine amps w)).
    assert (La : zlen a1 = nobj). { unfold a1, zlen. rewrite map_length, combine_length. unfold nobj, zlen in *. lia. }
    destruct (IH a1 La F2) as [a2 [E2 [L2 G2]]]. exists a2. split; [ assumption | ]. split; [ congruence | ]. intros o a H.
    assert (R : 0 <= o < nobj) by (apply zget_Some_range in H; assumption).
    assert (E3 : zget a1 o = Some (a + amp_sum prof nx m o (updates t))).
    { unfold a1. rewrite zget_map2, H. rewrite (G1 o 0) by (apply zget_rep; lia). reflexivity. }
    rewrite (G2 o _ E3). f_equal. unfold amp_sum. cbn [concat]. unfold updates. rewrite flat_map_app, map_app, zsum_app. lia.
Qed.
Lemma amp_sum_perm prof nx m o U V : Permutation U V -> amp_sum prof nx m o U = amp_sum prof nx m o V.
Proof. intros P. unfold amp_sum. apply zsum_perm. apply Permutation_map. assumption. Qed.
Lemma amp_sum_nonempty prof nx m o U : amp_sum prof nx m o (filter nonempty U) = amp_sum prof nx m o U.
Proof.
  unfold amp_sum. induction U as [ | [p l] U IH ]; [ reflexivity | ]. cbn [filter]. destruct (nonempty (p, l)) eqn:N.
  - cbn [map]. change zsum with (fold_right Z.add 0) in *. cbn [fold_right]. rewrite IH. reflexivity.
  - rewrite IH. cbn [map]. change zsum with (fold_right Z.add 0). cbn [fold_right]. unfold nonempty in N. cbn [snd] in *. destruct l; [ | discriminate ]. reflexivity.
Qed.
Lemma sim_transpose_spec prof ny nx c boxes active threads m amps : 0 < ny -> 0 < nx -> 0 < c ->
  assign_cells ny nx c boxes = Some active -> Permutation active (concat threads) -> zlen m = ny * nx -> zlen amps = zlen boxes ->
  exists amps', sim_transpose prof nx (zlen boxes) threads m amps = Some amps' /\ zlen amps' = zlen amps /\
    forall o a, zget amps o = Some a ->
      zget amps' o = Some (a + zsum (map (fun p => if memZ o (objs_at ny nx c boxes p) then mval nx m p * prof o (fst p) (snd p) else 0) (all_pixels ny nx))).
Proof.
  intros Hy Hx Hc E P L LA. destruct (assign_cells_spec ny nx c boxes Hy Hx Hc) as [active' [E' [PU FA]]]. rewrite E in E'. apply Some_inj in E'. subst active'.
  assert (OK : Forall (cell_ok nx (zlen boxes) m) (concat threads)).
  { apply Forall_forall. intros cell H. apply (Permutation_in _ (Permutation_sym P)) in H. rewrite Forall_forall in FA. destruct (FA cell H) as [ci [Hci El]].
    unfold cell_ok. rewrite El. split; [ apply NoDup_filter, zrange_NoDup | ]. split.
    - apply Forall_forall. intros o Ho. apply filter_In in Ho. rewrite zrange_In in Ho. tauto.
    - apply Forall_forall. intros p Hp. rewrite L. apply pidx_range.
      destruct (snd cell) as [ | o l ] eqn:Es.
      + (* an active cell is never empty *)
        exfalso. clear - E H Es Hy Hx Hc. destruct (cell_lists_spec ny nx c boxes Hy Hx Hc) as [cells [E0 _]]. unfold assign_cells in E. rewrite E0 in E. cbn [bind] in E. cbv zeta in E. apply Some_inj in E. subst active.
        apply in_flat_map in H. destruct H as [[ci l] [_ H]]. destruct l; [ destruct H | ]. destruct H as [<- | []]. discriminate.
      + assert (IU : In (p, o :: l) (updates active)). { unfold updates. apply in_flat_map. exists cell. split; [ assumption | ]. rewrite Es. apply in_map_iff. exists p. split; [ reflexivity | assumption ]. }
        apply (Permutation_in _ PU) in IU. apply filter_In in IU. destruct IU as [IU _]. apply in_map_iff in IU. destruct IU as [q [Eq Iq]]. assert (q = p) by congruence. subst q. assumption. }
  destruct (threads_spec prof nx m (zlen boxes) threads ltac:(unfold zlen; lia) amps LA) as [a' [E1 [L1 G1]]].
  - rewrite Forall_forall in OK |- *. intros t Ht. apply Forall_forall. intros cell Hc'. apply OK. apply in_concat. exists t. tauto.
  - exists a'. split; [ assumption | ]. split; [ assumption | ]. intros o a H. rewrite (G1 o a H). f_equal. f_equal.
    rewrite (amp_sum_perm prof nx m o _ _ (Permutation_trans (Permutation_sym (updates_perm _ _ P)) PU)), amp_sum_nonempty. unfold amp_sum. rewrite map_map. reflexivity.
Qed.

(* ---- radial sums ---- *)
Lemma upd_add (key : Z * Z -> option Z) (val : Z * Z -> Z) nbin (ok : Z * Z -> Prop) l (F : list Z -> Z * Z -> option (list Z)) :
  (forall bins p, In p l -> zlen bins = nbin -> exists bins', F bins p = Some bins' /\ zlen bins' = nbin /\
     forall i b, zget bins i = Some b -> zget bins' i = Some (b + if match key p with Some k => k =? i | None => false end then val p else 0)) ->
  forall bins, zlen bins = nbin -> exists bins', ofold F l bins = Some bins' /\ zlen bins' = nbin /\
     forall i b, zget bins i = Some b -> zget bins' i = Some (b + zsum (map val (filter (fun p => match key p with Some k => k =? i | None => false end) l))).
Proof.
  induction l as [ | p l IH ]; intros HF bins L.
  - exists bins. cbn. repeat split; [ assumption | intros; f_equal; rewrite H; f_equal; lia ].
  - destruct (HF bins p (or_introl eq_refl) L) as [b1 [E1 [L1 G1]]]. cbn [ofold]. rewrite E1.
    destruct (IH ltac:(intros; apply HF; [ right; assumption | assumption ]) b1 L1) as [b2 [E2 [L2 G2]]].
    exists b2. split; [ assumption | ]. split; [ assumption | ]. intros i b H. rewrite (G2 i _ (G1 i b H)). f_equal. cbn [filter].
    destruct (match key p with Some k => k =? i | None => false end); [ | lia ]. cbn [map]. change zsum with (fold_right Z.add 0). cbn [fold_right]. lia.
Qed.
Lemma radial_sum_spec ny nx nbin find box m bins : 0 < ny -> 0 < nx -> zlen m = ny * nx -> zlen bins = nbin ->
  (forall y x, 0 <= y < ny -> 0 <= x < nx -> exists i, find y x = Some i) ->
  exists bins', radial_sum ny nx nbin find box m bins = Some bins' /\ zlen bins' = nbin /\
  forall i b (inb : Z * Z -> bool), zget bins i = Some b ->
    (forall y x, 0 <= y < ny -> 0 <= x < nx -> inb (y, x) = true <-> in_box ny nx box y x /\ find y x = Some i) ->
    zget bins' i = Some (b + zsum (map (mval nx m) (filter inb (all_pixels ny nx)))).
Proof.
  intros Hy Hx Lm Lb HF. destruct box as [[[y1 y2] x1] x2]. unfold radial_sum.
  set (wl := list_prod (wrapped y1 y2 ny) (wrapped x1 x2 nx)).
  assert (IW : forall y x, In (y, x) wl <-> in_box ny nx (y1, y2, x1, x2) y x).
  { intros y x. unfold wl. rewrite in_prod_iff. rewrite (proj2 (wrapped_spec y1 y2 ny Hy)), (proj2 (wrapped_spec x1 x2 nx Hx)). unfold in_box. split.
    - intros [[Y [A B]] [X [C D]]]. exists Y, X. tauto.
    - intros [Y [X [A [B [C D]]]]]. split; [ exists Y | exists X ]; tauto. }
  assert (RW : forall y x, In (y, x) wl -> 0 <= y < ny /\ 0 <= x < nx).
  { intros y x I. unfold wl in I. apply in_prod_iff in I. split; [ apply (wrapped_range y1 y2) | apply (wrapped_range x1 x2) ]; tauto. }
  destruct (upd_add (fun p => find (fst p) (snd p)) (mval nx m) nbin (fun _ => True) wl
    (fun bins '(y, x) => bind (find y x) (fun i => if (i <? 0) || (nbin <=? i) then Some bins else bind (zget bins i) (fun b => bind (zget m (y * nx + x)) (fun v => set_at bins i (b + v)))))) with (bins := bins) as [b' [E [L G]]]; [ | assumption | ].
  { intros bs [y x] I Lbs. destruct (RW y x I) as [Ry Rx]. destruct (HF y x Ry Rx) as [k Ek]. cbn [fst snd]. rewrite Ek. cbn [bind].
    destruct (Z.ltb_spec k 0) as [K | K]; cbn [orb]; [ | destruct (Z.leb_spec nbin k) as [K' | K'] ].
    - exists bs. split; [ reflexivity | ]. split; [ assumption | ]. intros i b H. rewrite H. apply zget_Some_range in H.
      destruct (Z.eqb_spec k i); [ lia | ]. f_equal. lia.
    - exists bs. split; [ reflexivity | ]. split; [ assumption | ]. intros i b H. rewrite H. apply zget_Some_range in H.
      destruct (Z.eqb_spec k i); [ lia | ]. f_equal. lia.
    - destruct (zget_in_range bs k ltac:(lia)) as [b Eb]. rewrite Eb. cbn [bind]. destruct (zget_in_range m (y * nx + x) ltac:(nia)) as [v Ev]. rewrite Ev. cbn [bind].
      destruct (set_at_spec bs k (b + v) ltac:(lia)) as [bs' [E1 [L1 G1]]]. rewrite E1. exists bs'. split; [ reflexivity | ]. split; [ congruence | ].
      intros i b0 H. rewrite G1. unfold mval, pidx. cbn [fst snd]. rewrite Ev. rewrite Z.eqb_sym. destruct (Z.eqb_spec k i) as [-> | N]; [ f_equal; congruence | rewrite H; f_equal; lia ]. }
  exists b'. split; [ | split; [ assumption | ] ].
  - rewrite <- E. unfold wl, wrapped. destruct (wrap_box y1 y2 ny) as [a1 a2]. destruct (wrap_box x1 x2 nx) as [c1 c2]. cbn [fst snd].
    rewrite list_prod_map, ofold_map. apply ofold_ext. intros s [y x] _. reflexivity.
  - intros i b inb H HI. rewrite (G i b H). f_equal. f_equal. apply zsum_perm, Permutation_map, NoDup_Permutation.
    + apply NoDup_filter. apply NoDup_prod; apply wrapped_spec; assumption.
    + apply NoDup_filter. apply NoDup_prod; apply zrange_NoDup.
    + intros [y x]. rewrite !filter_In. cbn [fst snd]. rewrite all_pixels_In. cbn [fst snd]. split.
      * intros [I1 I2]. pose proof (RW y x I1) as R. split; [ assumption | ]. apply HI; [ tauto | tauto | ]. split; [ apply IW; assumption | ].
        destruct (find y x); [ f_equal; now apply Z.eqb_eq | discriminate ].
      * intros [R I]. apply HI in I; [ | tauto | tauto ]. destruct I as [I1 I2]. split; [ apply IW; assumption | ]. rewrite I2. apply Z.eqb_refl.
Qed.

Lemma bs_loop_spec rs r : forall fuel a b va vb, zget rs a = Some va -> zget rs b = Some vb -> va <= r < vb -> 0 <= a < b -> b - a <= Z.of_nat fuel + 1 ->
  exists k u w, bs_loop fuel rs r a b = Some k /\ a <= k < b /\ zget rs k = Some u /\ zget rs (k + 1) = Some w /\ u <= r < w.
Proof.
  induction fuel as [ | fuel IH ]; intros a b va vb Ea Eb H1 H2 H3; cbn [bs_loop].
  - rewrite (proj2 (Z.ltb_ge _ b)) by lia. exists a, va, vb. replace (a + 1) with b by lia. split; [ reflexivity | ]. repeat split; try assumption; lia.
  - destruct (Z.ltb_spec (a + 1) b) as [K | K].
    + pose proof (Z.div_mod (a + b) 2 ltac:(lia)) as D. pose proof (Z.mod_pos_bound (a + b) 2 ltac:(lia)) as M. cbv zeta. set (c := (a + b) / 2) in *.
      assert (Rb : 0 <= b < zlen rs) by (apply zget_Some_range in Eb; assumption).
      destruct (zget_in_range rs c ltac:(lia)) as [vc Ec]. rewrite Ec. cbn [bind]. destruct (Z.ltb_spec r vc).
      * destruct (IH a c va vc Ea Ec) as [k [u [w [X1 [X2 X3]]]]]; [ lia .. | ]. exists k, u, w. split; [ assumption | ]. split; [ lia | assumption ].
      * destruct (IH c b vc vb Ec Eb) as [k [u [w [X1 [X2 X3]]]]]; [ lia .. | ]. exists k, u, w. split; [ assumption | ]. split; [ lia | assumption ].
    + exists a, va, vb. replace (a + 1) with b by lia. split; [ reflexivity | ]. repeat split; try assumption; lia.
Qed.
Lemma sorted_zget l i j a b : StronglySorted Z.le l -> i <= j -> zget l i = Some a -> zget l j = Some b -> a <= b.
Proof.
  intros H. revert i j. induction H as [ | x l H IH F ]; intros i j K Ea Eb; [ rewrite zget_nil in Ea; discriminate | ].
  assert (0 <= i) by (apply zget_Some_range in Ea; lia). rewrite zget_cons in Ea, Eb.
  destruct (Z.eqb_spec i 0) as [-> | N].
  - destruct (Z.eqb_spec j 0) as [-> | N']; [ apply Some_inj in Ea, Eb; lia | ]. apply zget_In in Eb.
    rewrite Forall_forall in F. apply Some_inj in Ea. subst. now apply F.
  - destruct (Z.eqb_spec j 0) as [-> | N']; [ lia | ].
    apply (IH (i - 1) (j - 1)); [ lia | assumption | assumption ].
Qed.
Lemma binary_search_spec n rs r : 1 <= n <= zlen rs -> StronglySorted Z.le rs ->
  exists i, binary_search n rs r = Some i /\ -1 <= i <= n /\ i <> n - 1 /\
  forall k u w, 0 <= k < n - 1 -> zget rs k = Some u -> zget rs (k + 1) = Some w -> (i = k <-> u <= r < w).
Proof.
  intros H S. unfold binary_search. destruct (zget_in_range rs 0 ltac:(lia)) as [r0 E0]. destruct (zget_in_range rs (n - 1) ltac:(lia)) as [rn En].
  rewrite E0. cbn [bind]. destruct (Z.ltb_spec r r0) as [K0 | K0].
  - exists (-1). split; [ reflexivity | ]. split; [ lia | ]. split; [ lia | ]. intros k u w Hk Eu Ew. pose proof (sorted_zget rs 0 k r0 u S ltac:(lia) E0 Eu). lia.
  - rewrite En. cbn [bind]. destruct (Z.leb_spec rn r) as [K1 | K1].
    + exists n. split; [ reflexivity | ]. split; [ lia | ]. split; [ lia | ]. intros k u w Hk Eu Ew. pose proof (sorted_zget rs (k + 1) (n - 1) w rn S ltac:(lia) Ew En). lia.
    + assert (n <> 1). { intros ->. change (1 - 1) with 0 in En. rewrite E0 in En. apply Some_inj in En. lia. }
      destruct (bs_loop_spec rs r (Z.to_nat n) 0 (n - 1) r0 rn E0 En) as [i [u [w [X1 [X2 [X3 [X4 X5]]]]]]]; [ lia .. | ].
      exists i. split; [ assumption | ]. split; [ lia | ]. split; [ lia | ]. intros k u' w' Hk Eu Ew. split.
      * intros <-. rewrite X3 in Eu. rewrite X4 in Ew. apply Some_inj in Eu, Ew. lia.
      * intros HR. destruct (Z.lt_trichotomy i k) as [T | [T | T]]; [ | assumption | ].
        -- pose proof (sorted_zget rs (i + 1) k w u' S ltac:(lia) X4 Eu). lia.
        -- pose proof (sorted_zget rs (k + 1) i w' u S ltac:(lia) Ew X3). lia.
Qed.

(* ---- profiles ---- *)
Lemma qlt_true a b : qlt a b = true <-> (a < b)%Q.
Proof. unfold qlt. rewrite Bool.negb_true_iff. split; intros H. - apply Qnot_le_lt. intros K. apply Qle_bool_iff in K. congruence. - destruct (Qle_bool b a) eqn:E; [ | reflexivity ]. apply Qle_bool_iff in E. exfalso. apply (Qlt_not_le _ _ H E). Qed.
Lemma qlt_false a b : qlt a b = false <-> (b <= a)%Q.
Proof. unfold qlt. rewrite Bool.negb_false_iff. apply Qle_bool_iff. Qed.
Lemma scan_spec vs lim stop : 0 <= stop -> forall fuel i, stop <= i < zlen vs -> i - stop <= Z.of_nat fuel ->
  stop <= scan fuel vs lim stop i <= i /\ (forall k v, scan fuel vs lim stop i < k <= i -> zget vs k = Some v -> (v < lim)%Q) /\
  (scan fuel vs lim stop i = stop \/ exists v, zget vs (scan fuel vs lim stop i) = Some v /\ (lim <= v)%Q).
Proof.
  intros H0. induction fuel as [ | fuel IH ]; intros i Hi HF; cbn [scan].
  - assert (i = stop) by lia. subst. split; [ lia | ]. split; [ intros; lia | left; reflexivity ].
  - destruct (zget_in_range vs i ltac:(lia)) as [v Ev]. rewrite Ev. destruct (Z.ltb_spec stop i) as [K | K]; cbn [andb].
    + destruct (qlt v lim) eqn:Q.
      * apply qlt_true in Q. destruct (IH (i - 1) ltac:(lia) ltac:(lia)) as [A [B C]]. split; [ lia | ]. split; [ | assumption ].
        intros k w Hk Ew. destruct (Z.eq_dec k i) as [-> | N]; [ congruence | ]. apply (B k w); [ lia | assumption ].
      * apply qlt_false in Q. split; [ lia | ]. split; [ intros; lia | ]. right. exists v. tauto.
    + split; [ lia | ]. split; [ intros; lia | left; lia ].
Qed.
Lemma levels_fold vs vmax imax tenth : 0 <= imax -> (0 <= vmax)%Q -> (forall a b, a <= b -> (tenth b <= tenth a)%Q) ->
  forall ls ri acc, StronglySorted Z.gt ls -> imax <= ri < zlen vs -> (forall li k v, In li ls -> ri < k -> zget vs k = Some v -> (v < vmax * tenth li)%Q) ->
  exists f, snd (fold_left (fun '(ri, acc) li => let ri := scan (length vs) vs (vmax * tenth li)%Q imax ri in (ri, ri :: acc)) ls (ri, acc)) = rev (map f ls) ++ acc /\
  forall li, In li ls -> imax <= f li < zlen vs /\ (forall k v, f li < k -> zget vs k = Some v -> (v < vmax * tenth li)%Q) /\
    (f li = imax \/ exists v, zget vs (f li) = Some v /\ (vmax * tenth li <= v)%Q).
Proof.
  intros H0 HV HT. induction ls as [ | li ls IH ]; intros ri acc S HR HB.
  - exists (fun _ => 0). split; [ reflexivity | intros ? [] ].
  - inversion S as [ | ? ? S1 S2 ]; subst. cbn [fold_left]. cbv zeta.
    destruct (scan_spec vs (vmax * tenth li)%Q imax H0 (length vs) ri HR) as [A [B C]]; [ unfold zlen in HR; lia | ].
    set (r := scan (length vs) vs (vmax * tenth li)%Q imax ri) in *.
    assert (B' : forall k v, r < k -> zget vs k = Some v -> (v < vmax * tenth li)%Q).
    { intros k v Hk Ev. destruct (Z_le_dec k ri); [ apply (B k v); [ lia | assumption ] | ]. apply (HB li k v); [ left; reflexivity | lia | assumption ]. }
    destruct (IH r (r :: acc) S1) as [f [E1 E2]]; [ lia | | ].
    { intros l k v Hl Hk Ev. rewrite Forall_forall in S2. specialize (S2 l Hl). apply (Qlt_le_trans _ (vmax * tenth li)); [ apply (B' k v); assumption | ].
      rewrite (Qmult_comm vmax (tenth li)), (Qmult_comm vmax (tenth l)). apply Qmult_le_compat_r; [ apply HT; lia | assumption ]. }
    assert (NI : forall l, In l ls -> l <> li). { intros l Hl. rewrite Forall_forall in S2. specialize (S2 l Hl). lia. }
    exists (fun l => if l =? li then r else f l). split.
    + etransitivity; [ exact E1 | ]. cbn [map rev]. rewrite <- app_assoc. cbn [app]. rewrite Z.eqb_refl. f_equal. f_equal. apply map_ext_in. intros l Hl. destruct (Z.eqb_spec l li); [ exfalso; apply (NI l Hl); assumption | reflexivity ].
    + intros l [<- | Hl].
      * rewrite Z.eqb_refl. split; [ lia | ]. split; [ assumption | ]. destruct C as [C | C]; [ left; assumption | right; assumption ].
      * destruct (Z.eqb_spec l li); [ exfalso; apply (NI l Hl); assumption | ]. apply E2. assumption.
Qed.
Definition tenth (li : Z) : Q := Qpower (1 # 10) li.
Lemma tenth_succ a : (tenth (a + 1) == tenth a * (1 # 10))%Q.
Proof. unfold tenth. rewrite Qpower_plus by (intros H; discriminate H). reflexivity. Qed.
Lemma tenth_pos a : (0 < tenth a)%Q.
Proof.
  unfold tenth. destruct (Qle_lt_or_eq 0 ((1 # 10) ^ a)) as [H | H]; [ apply Qpower_pos; discriminate | assumption | ].
  exfalso. apply (Qpower_not_0 (1 # 10) a); [ discriminate | symmetry; assumption ].
Qed.
Lemma tenth_anti a b : a <= b -> (tenth b <= tenth a)%Q.
Proof.
  intros H. replace b with (a + Z.of_nat (Z.to_nat (b - a))) by lia. induction (Z.to_nat (b - a)) as [ | n IH ].
  - rewrite Z.add_0_r. apply Qle_refl.
  - rewrite Nat2Z.inj_succ, <- Z.add_1_r, Z.add_assoc. rewrite tenth_succ. apply (Qle_trans _ (tenth (a + Z.of_nat n))); [ | assumption ].
    pose proof (tenth_pos (a + Z.of_nat n)) as P. set (t := tenth _) in *. clearbody t. apply (Qle_trans _ (t * 1)); [ | rewrite Qmult_1_r; apply Qle_refl ].
    apply Qmult_le_l; [ assumption | discriminate ].
Qed.
Lemma peak_mono vs v0 : zget vs 0 = Some v0 -> (forall i j a b, i <= j -> zget vs i = Some a -> zget vs j = Some b -> (b <= a)%Q) -> prof_peak vs = (0, v0).
Proof.
  intros E0 M. unfold prof_peak. rewrite E0.
  assert (G : forall l, (forall k, In k l -> 0 <= k) -> fold_left (fun '(imax, vmax) ri => match zget vs ri with Some v => if qlt vmax v then (ri, v) else (imax, vmax) | None => (imax, vmax) end) l (0, v0) = (0, v0)).
  { induction l as [ | k l IH ]; intros H; [ reflexivity | ]. cbn [fold_left]. destruct (zget vs k) as [v | ] eqn:Ev.
    - rewrite (proj2 (qlt_false v0 v)); [ apply IH; intros; apply H; right; assumption | ]. apply (M 0 k v0 v); [ apply H; left; reflexivity | assumption | assumption ].
    - apply IH. intros; apply H; right; assumption. }
  apply G. intros k Hk. apply zrange_In in Hk. lia.
Qed.
Lemma info_spec vs v0 : zget vs 0 = Some v0 -> (0 <= v0)%Q -> (forall i j a b, i <= j -> zget vs i = Some a -> zget vs j = Some b -> (b <= a)%Q) ->
  zget (build_prof_info vs tenth) 10 = Some (zlen vs) /\
  forall lev, 1 <= lev <= 9 -> exists ri, zget (build_prof_info vs tenth) lev = Some ri /\ 0 <= ri < zlen vs /\
    (forall k v, ri < k -> zget vs k = Some v -> (v < v0 * tenth lev)%Q).
Proof.
  intros E0 V0 M. unfold build_prof_info. rewrite (peak_mono vs v0 E0 M). change (map (fun k => prof_levels - 2 - k) (zrange 0 (prof_levels - 2))) with [9; 8; 7; 6; 5; 4; 3; 2; 1].
  assert (HL : 0 < zlen vs) by (apply zget_Some_range in E0; lia).
  destruct (levels_fold vs v0 0 tenth ltac:(lia) V0 tenth_anti [9; 8; 7; 6; 5; 4; 3; 2; 1] (zlen vs - 1) []) as [f [E1 E2]]; [ repeat constructor; lia | lia | | ].
  { intros li k v _ Hk Ev. apply zget_Some_range in Ev. lia. }
  destruct (fold_left _ _ _) as [rl inner]. cbn [snd] in E1. subst inner. rewrite app_nil_r. cbn [map rev app]. split; [ reflexivity | ].
  intros lev Hl. exists (f lev). destruct (E2 lev) as [A [B C]].
  { assert (lev = 9 \/ lev = 8 \/ lev = 7 \/ lev = 6 \/ lev = 5 \/ lev = 4 \/ lev = 3 \/ lev = 2 \/ lev = 1) as D by lia. cbn [In].
    repeat (destruct D as [-> | D]; [ tauto | ]). subst. tauto. }
  split; [ | split; assumption ].
  assert (lev = 9 \/ lev = 8 \/ lev = 7 \/ lev = 6 \/ lev = 5 \/ lev = 4 \/ lev = 3 \/ lev = 2 \/ lev = 1) as D by lia.
  repeat (destruct D as [-> | D]; [ reflexivity | ]). subst. reflexivity.
Qed.
Lemma direct_spec vs vrel level : vs <> [] -> exists i, rmax_index vs vrel None level = Some i /\ last_reaching vs vrel i.
Proof.
  intros N. assert (HL : 0 < zlen vs) by (destruct vs; [ congruence | unfold zlen; cbn [length]; lia ]).
  unfold rmax_index. cbn [bind]. cbv zeta.
  destruct (scan_spec vs vrel 0 ltac:(lia) (length vs) (zlen vs - 1) ltac:(lia) ltac:(unfold zlen; lia)) as [A [B C]].
  set (i := scan _ _ _ _ _) in *. rewrite (proj2 (Z.leb_le 0 i)), (proj2 (Z.ltb_lt i (zlen vs))) by lia. exists i. split; [ reflexivity | ].
  split; [ lia | ]. split; [ destruct C; tauto | ]. intros k v Hk Ev. apply (B k v); [ | assumption ]. apply zget_Some_range in Ev. lia.
Qed.
Lemma table_spec vs vrel level v0 v1 : zget vs 0 = Some v0 -> zget vs 1 = Some v1 -> (v0 <= 1)%Q -> (vrel <= v1)%Q -> (0 < vrel < 1)%Q ->
  (forall i j a b, i <= j -> zget vs i = Some a -> zget vs j = Some b -> (b <= a)%Q) -> (tenth (level vrel) <= vrel < tenth (level vrel - 1))%Q ->
  exists i d, rmax_index vs vrel (Some (build_prof_info vs tenth)) level = Some i /\ rmax_index vs vrel None level = Some d /\ d - 1 <= i <= d.
Proof.
  intros E0 E1 V0 V1 [R0 R1] M [L1 L2].
  assert (NE : vs <> []) by (intros ->; rewrite zget_nil in E0; discriminate).
  destruct (direct_spec vs vrel level NE) as [d [Ed [D1 [D2 D3]]]].
  assert (HL : 1 < zlen vs) by (apply zget_Some_range in E1; lia).
  assert (V0p : (0 <= v0)%Q). { apply (Qle_trans _ v1); [ apply (Qle_trans _ vrel); [ apply Qlt_le_weak; assumption | assumption ] | ]. apply (M 0 1 v0 v1); [ lia | assumption | assumption ]. }
  destruct (info_spec vs v0 E0 V0p M) as [I10 IL].
  assert (LP : 1 <= level vrel). { destruct (Z_le_dec 1 (level vrel)); [ assumption | exfalso ]. pose proof (tenth_anti (level vrel) 0 ltac:(lia)) as T. change (tenth 0) with 1%Q in T.
    apply (Qlt_not_le _ _ R1). apply (Qle_trans _ (tenth (level vrel))); assumption. }
  destruct (Z_le_dec 10 (level vrel)) as [HI | HI].
  - exists d, d. split; [ | split; [ assumption | lia ] ]. rewrite <- Ed. unfold rmax_index, prof_info_lookup. cbv zeta.
    rewrite (proj2 (Z.ltb_ge (level vrel) 0)) by lia. replace (if prof_levels <=? level vrel then prof_levels - 1 else level vrel) with 10 by (unfold prof_levels; destruct (Z.leb_spec 11 (level vrel)); lia).
    rewrite I10. reflexivity.
  - destruct (IL (level vrel) ltac:(lia)) as [ri [Er [Rr Br]]].
    assert (Br' : forall k v, ri < k -> zget vs k = Some v -> (v < vrel)%Q).
    { intros k v Hk Ev. apply (Qlt_le_trans _ (v0 * tenth (level vrel))); [ apply (Br k v); assumption | ]. apply (Qle_trans _ (tenth (level vrel))); [ | assumption ].
      apply (Qle_trans _ (1 * tenth (level vrel))); [ apply Qmult_le_compat_r; [ assumption | apply Qlt_le_weak, tenth_pos ] | rewrite Qmult_1_l; apply Qle_refl ]. }
    assert (1 <= ri). { destruct (Z_le_dec 1 ri); [ assumption | exfalso ]. apply (Qlt_not_le v1 vrel); [ apply (Br' 1 v1); [ lia | assumption ] | assumption ]. }
    unfold rmax_index at 1, prof_info_lookup. cbv zeta. rewrite (proj2 (Z.ltb_ge (level vrel) 0)) by lia. rewrite (proj2 (Z.leb_gt prof_levels (level vrel))) by (unfold prof_levels; lia).
    rewrite Er. cbn [bind].
    destruct (scan_spec vs vrel 0 ltac:(lia) (length vs) (ri - 1) ltac:(lia) ltac:(unfold zlen in *; lia)) as [A [B C]]. set (s := scan _ _ _ _ _) in *. clearbody s.
    rewrite (proj2 (Z.leb_le 0 s)), (proj2 (Z.ltb_lt s (zlen vs))) by lia. cbn [andb]. exists s, d. split; [ reflexivity | ]. split; [ assumption | ].
    assert (Hd : 1 <= d). { destruct (Z_le_dec 1 d); [ assumption | exfalso ]. apply (Qlt_not_le v1 vrel); [ apply (D3 1 v1); [ lia | assumption ] | assumption ]. }
    destruct D2 as [D2 | [vd [Evd Gd]]]; [ lia | ].
    split.
    + destruct (Z_le_dec (d - 1) s); [ assumption | exfalso ].
      assert (d <= ri). { destruct (Z_le_dec d ri); [ assumption | exfalso ]. apply (Qlt_not_le vd vrel); [ apply (Br' d vd); [ lia | assumption ] | assumption ]. }
      destruct (zget_in_range vs (d - 1) ltac:(lia)) as [w Ew]. apply (Qlt_not_le w vrel); [ apply (B (d - 1) w); [ lia | assumption ] | ].
      apply (Qle_trans _ vd); [ assumption | ]. apply (M (d - 1) d); [ lia | assumption | assumption ].
    + destruct (Z_le_dec s d); [ assumption | exfalso ]. destruct C as [C | [v [Ev Gv]]]; [ lia | ]. apply (Qlt_not_le v vrel); [ apply (D3 s v); [ lia | assumption ] | assumption ].
Qed.

(* ---- swapping sums ---- *)
Lemma zsum_cons a l : zsum (a :: l) = a + zsum l. Proof. reflexivity. Qed.
Lemma zsum_add {A} (f g : A -> Z) l : zsum (map (fun x => f x + g x) l) = zsum (map f l) + zsum (map g l).
Proof. induction l as [ | a l IH ]; [ reflexivity | ]. cbn [map]. rewrite !zsum_cons, IH. lia. Qed.
Lemma zsum_exchange {A B} (f : A -> B -> Z) l m : zsum (map (fun a => zsum (map (f a) m)) l) = zsum (map (fun b => zsum (map (fun a => f a b) l)) m).
Proof.
  induction l as [ | a l IH ].
  - cbn [map]. symmetry. apply zsum_zero. intros; reflexivity.
  - cbn [map]. rewrite zsum_cons, IH, <- zsum_add. f_equal.
Qed.
Lemma zsum_filter_if {A} (p : A -> bool) (f : A -> Z) l : zsum (map f (filter p l)) = zsum (map (fun x => if p x then f x else 0) l).
Proof. induction l as [ | a l IH ]; [ reflexivity | ]. cbn [filter map]. destruct (p a); cbn [map]; rewrite !zsum_cons, IH; reflexivity. Qed.
Lemma fold_add {A} (f : A -> Z) l : forall v, fold_left (fun v o => v + f o) l v = v + zsum (map f l).
Proof. induction l as [ | a l IH ]; intros v; cbn [fold_left map]; [ cbn; lia | ]. rewrite IH, zsum_cons. lia. Qed.
Lemma all_pixels_perm ny nx : 0 < ny -> 0 < nx -> Permutation (map (pidx nx) (all_pixels ny nx)) (zrange 0 (ny * nx)).
Proof.
  intros Hy Hx. apply NoDup_Permutation; [ | apply zrange_NoDup | ].
  - apply NoDup_map_inj; [ intros p q; apply pidx_inj | apply NoDup_prod; apply zrange_NoDup ].
  - intros k. rewrite zrange_In, in_map_iff. split.
    + intros [p [<- H]]. apply pidx_range. assumption.
    + intros H. exists (k / nx, k mod nx). pose proof (Z.div_mod k nx ltac:(lia)) as D. pose proof (Z.mod_pos_bound k nx Hx) as MB. split; [ unfold pidx; cbn [fst snd]; lia | ].
      apply all_pixels_In. cbn [fst snd]. split; [ | lia ]. split; [ apply Z.div_pos; lia | apply Z.div_lt_upper_bound; lia ].
Qed.
Definition zval (m : list Z) (k : Z) : Z := match zget m k with Some v => v | None => 0 end.
Lemma dot_range (a b : list Z) : zlen a = zlen b -> zsum (map (fun '(u, v) => u * v) (combine a b)) = zsum (map (fun k => zval a k * zval b k) (zrange 0 (zlen a))).
Proof.
  intros L. f_equal. apply zget_ext. intros k. rewrite zget_map2, zget_map. destruct (Z_lt_dec k 0) as [N | N]; [ rewrite !zget_out by lia; reflexivity | ].
  destruct (Z_lt_dec k (zlen a)) as [K | K].
  - rewrite zget_zrange by lia. cbn [option_map]. unfold zval. rewrite Z.add_0_l. destruct (zget_in_range a k ltac:(lia)) as [u Eu]. destruct (zget_in_range b k ltac:(lia)) as [v Ev]. rewrite Eu, Ev. reflexivity.
  - rewrite (zget_out a k), (zget_out (zrange 0 (zlen a)) k) by (rewrite ?zrange_zlen; unfold zlen in *; lia). reflexivity.
Qed.
