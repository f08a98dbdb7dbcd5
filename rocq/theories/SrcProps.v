(* C54-C56: painting sources cell by cell, the profile cut-off, and radial binning (cython/srcsim_core.c). *)
From Coq Require Import QArith Sorting.Sorted Permutation.
From Verif Require Import Base RangeModel RangeLemmas AlmModel AlmLemmas DistLemmas HpModel SrcSpec SrcModel SrcLemmas.
Local Open Scope Z_scope.
Ltac Zify.zify_post_hook ::= idtac.

Lemma SS_filter_range p a b : StronglySorted Z.lt (filter p (zrange a b)).
Proof.
  assert (S : StronglySorted Z.lt (zrange a b)).
  { destruct (Z_le_dec a b) as [H | H]; [ | rewrite zrange_empty by lia; constructor ].
    replace b with (a + Z.of_nat (Z.to_nat (b - a))) by lia. generalize (Z.to_nat (b - a)) as n. clear. intros n. revert a. induction n as [ | n IH ]; intros a.
    - rewrite zrange_empty by lia. constructor.
    - rewrite zrange_cons by lia. constructor.
      + specialize (IH (a + 1)). replace (a + Z.of_nat (Datatypes.S n)) with (a + 1 + Z.of_nat n) by lia. assumption.
      + apply Forall_forall. intros x Hx. apply zrange_In in Hx. lia. }
  induction S as [ | x l S IH F ]; [ constructor | ]. cbn [filter]. destruct (p x); [ | assumption ]. constructor; [ assumption | ].
  apply Forall_forall. intros y Hy. apply filter_In in Hy. rewrite Forall_forall in F. apply F. tauto.
Qed.
Lemma objs_at_cover ny nx c (boxes : list box4) o (b : box4) y x : 0 < ny -> 0 < nx -> 0 < c -> zget boxes o = Some b ->
  (let '(y1, y2, x1, x2) := b in fits ny c y1 y2 /\ fits nx c x1 x2) -> in_box ny nx b y x -> In o (objs_at ny nx c boxes (y, x)).
Proof.
  intros Hy Hx Hc Eb F I. unfold objs_at. apply filter_In. split; [ apply zrange_In; apply zget_Some_range in Eb; assumption | ].
  unfold reg. rewrite Eb. apply memZ_In. destruct b as [[[y1 y2] x1] x2]. destruct F as [F1 F2]. destruct I as [Y [X [A [B [C D]]]]].
  unfold obj_cells, cell_of. cbn [fst snd]. apply in_map_iff. exists (y / c, x / c). split; [ reflexivity | ]. apply in_prod_iff. subst y x.
  split; apply axis_cells_cover; assumption.
Qed.

(* C54 (part): with any cell size, any order of the cells and any way of merging, every object is painted on every pixel of its box, taken
   with wrap-around, and on no pixel twice, for the objects whose box fits. Missing: a box that crosses the edge of a map that is not a whole
   number of cells, see C54_edge_refuted. *)
Theorem C54_painted_partial (A : Type) (op : A -> A -> A) (paint : Z -> Z -> Z -> A) ny nx csize boxes (m : list A) :
  0 < ny -> 0 < nx -> 0 < csize -> zlen m = ny * nx ->
  exists active, assign_cells ny nx csize boxes = Some active /\
  forall order, Permutation active order ->
  exists m', sim_objects op paint nx order m = Some m' /\
    painted ny nx op paint (fun o y x => exists y1 y2 x1 x2, zget boxes o = Some (y1, y2, x1, x2) /\ fits ny csize y1 y2 /\ fits nx csize x1 x2 /\ in_box ny nx (y1, y2, x1, x2) y x) m m'.
Proof.
  intros Hy Hx Hc L. destruct (assign_cells_spec ny nx csize boxes Hy Hx Hc) as [active [E _]]. exists active. split; [ assumption | ]. intros order P.
  destruct (sim_objects_spec op paint ny nx csize boxes active order m Hy Hx Hc E P L) as [m' [E1 [L1 G]]]. exists m'. split; [ assumption | ].
  split; [ assumption | ]. intros y x v Ry Rx Ev. exists (objs_at ny nx csize boxes (y, x)). split; [ apply SS_filter_range | ]. split.
  - intros o [y1 [y2 [x1 [x2 [Eb [F1 [F2 I]]]]]]]. apply (objs_at_cover ny nx csize boxes o (y1, y2, x1, x2)); try assumption. split; assumption.
  - apply (G (y, x) v); [ apply all_pixels_In; cbn [fst snd]; lia | exact Ev ].
Qed.
Print Assumptions C54_painted_partial.
(* two objects on a 4 x 6 map in cells of 3, the second across the right edge *)
Example C54_painted_example :
  let boxes := [(0, 3, 0, 3); (1, 4, 5, 8)] in
  fits 4 3 0 3 /\ fits 6 3 0 3 /\ fits 4 3 1 4 /\ fits 6 3 5 8 /\
  option_map (fun active => sim_objects merge_add (fun o y x => 10 ^ o) 6 active (repeat 0 24)) (assign_cells 4 6 3 boxes)
  = Some (Some [11; 11; 11; 10; 10; 10; 11; 11; 11; 10; 10; 10; 11; 11; 11; 10; 10; 10; 10; 10; 10; 10; 10; 10]).
Proof. cbv zeta. unfold fits. split; [ lia | ]. split; [ lia | ]. split; [ lia | ]. split; [ right; left; reflexivity | vm_compute; reflexivity ]. Qed.

(* C54 (refuted): on a map of 20 columns in cells of 8, an object whose box spans columns -5 to 2 should reach column 15, and does not *)
Theorem C54_edge_refuted : exists ny nx csize b y x, 0 < ny /\ 0 < nx /\ 0 < csize /\ 0 <= y < ny /\ 0 <= x < nx /\ in_box ny nx b y x /\
  option_map (fun active => existsb (fun cell => existsb (fun p => (fst p =? y) && (snd p =? x)) (box_pixels (fst cell))) active) (assign_cells ny nx csize [b]) = Some false.
Proof.
  exists 8, 20, 8, (0, 3, -5, 3), 0, 15. split; [ lia | ]. split; [ lia | ]. split; [ lia | ]. split; [ lia | ]. split; [ lia | ]. split.
  - exists 0, (-5). split; [ lia | ]. split; [ lia | ]. split; reflexivity.
  - vm_compute. reflexivity.
Qed.
Print Assumptions C54_edge_refuted.

(* C54: the painted map does not depend on the order the threads take the cells in, nor the amplitudes on how the cells are shared out among the threads *)
Theorem C54_schedule (A : Type) (op : A -> A -> A) paint prof ny nx csize boxes active order order' threads threads' (m : list A) mz amps :
  0 < ny -> 0 < nx -> 0 < csize -> zlen m = ny * nx -> zlen mz = ny * nx -> zlen amps = zlen boxes -> assign_cells ny nx csize boxes = Some active ->
  Permutation active order -> Permutation active order' -> Permutation active (concat threads) -> Permutation active (concat threads') ->
  sim_objects op paint nx order m = sim_objects op paint nx order' m /\
  sim_transpose prof nx (zlen boxes) threads mz amps = sim_transpose prof nx (zlen boxes) threads' mz amps.
Proof.
  intros Hy Hx Hc L Lz La E P P' T T'. split.
  - destruct (sim_objects_spec op paint ny nx csize boxes active order m Hy Hx Hc E P L) as [m1 [E1 [L1 G1]]].
    destruct (sim_objects_spec op paint ny nx csize boxes active order' m Hy Hx Hc E P' L) as [m2 [E2 [L2 G2]]].
    rewrite E1, E2. f_equal. apply zget_ext. intros k.
    destruct (Z_le_dec 0 k) as [K | K]; [ destruct (Z_lt_dec k (zlen m)) as [K' | K'] | ]; [ | rewrite !zget_out by lia; reflexivity .. ].
    destruct (zget_in_range m k ltac:(lia)) as [v Ev].
    assert (I : In k (map (pidx nx) (all_pixels ny nx))). { apply (Permutation_in _ (Permutation_sym (all_pixels_perm ny nx Hy Hx))). apply zrange_In. lia. }
    apply in_map_iff in I. destruct I as [p [<- I]]. rewrite (G1 p v I Ev), (G2 p v I Ev). reflexivity.
  - destruct (sim_transpose_spec prof ny nx csize boxes active threads mz amps Hy Hx Hc E T Lz La) as [m1 [E1 [L1 G1]]].
    destruct (sim_transpose_spec prof ny nx csize boxes active threads' mz amps Hy Hx Hc E T' Lz La) as [m2 [E2 [L2 G2]]].
    rewrite E1, E2. f_equal. apply zget_ext. intros k.
    destruct (Z_le_dec 0 k) as [K | K]; [ destruct (Z_lt_dec k (zlen amps)) as [K' | K'] | ]; [ | rewrite !zget_out by lia; reflexivity .. ].
    destruct (zget_in_range amps k ltac:(lia)) as [v Ev]. rewrite (G1 k v Ev), (G2 k v Ev). reflexivity.
Qed.
Print Assumptions C54_schedule.
Example C54_schedule_example : option_map (fun active => (sim_objects merge_max (fun o y x => o + y) 6 active (repeat 1 24), sim_objects merge_max (fun o y x => o + y) 6 (rev active) (repeat 1 24)))
  (assign_cells 4 6 3 [(0, 3, 0, 3); (1, 4, 5, 8)])
  = Some (Some [1; 1; 1; 1; 1; 1; 2; 2; 2; 2; 2; 2; 3; 3; 3; 3; 3; 3; 4; 4; 4; 4; 4; 4], Some [1; 1; 1; 1; 1; 1; 2; 2; 2; 2; 2; 2; 3; 3; 3; 3; 3; 3; 4; 4; 4; 4; 4; 4]).
Proof. vm_compute. reflexivity. Qed.

(* C54 (part): with op="max" (min) a pixel ends up as the largest (smallest) of its value and what the objects paint there. Missing as in
   C54_painted_partial. *)
Theorem C54_extreme_partial paint ny nx csize boxes (m : list Z) : 0 < ny -> 0 < nx -> 0 < csize -> zlen m = ny * nx ->
  exists active, assign_cells ny nx csize boxes = Some active /\ forall order, Permutation active order ->
  exists mx mn, sim_objects merge_max paint nx order m = Some mx /\ sim_objects merge_min paint nx order m = Some mn /\
  forall y x v, 0 <= y < ny -> 0 <= x < nx -> zget m (y * nx + x) = Some v ->
  exists hi lo, zget mx (y * nx + x) = Some hi /\ zget mn (y * nx + x) = Some lo /\ lo <= v <= hi /\
    (hi = v \/ exists o, hi = paint o y x) /\ (lo = v \/ exists o, lo = paint o y x) /\
    forall o y1 y2 x1 x2, zget boxes o = Some (y1, y2, x1, x2) -> fits ny csize y1 y2 -> fits nx csize x1 x2 -> in_box ny nx (y1, y2, x1, x2) y x ->
      lo <= paint o y x <= hi.
Proof.
  intros Hy Hx Hc L. destruct (assign_cells_spec ny nx csize boxes Hy Hx Hc) as [active [E _]]. exists active. split; [ assumption | ]. intros order P.
  destruct (sim_objects_spec merge_max paint ny nx csize boxes active order m Hy Hx Hc E P L) as [mx [E1 [L1 G1]]].
  destruct (sim_objects_spec merge_min paint ny nx csize boxes active order m Hy Hx Hc E P L) as [mn [E2 [L2 G2]]].
  exists mx, mn. split; [ assumption | ]. split; [ assumption | ]. intros y x v Ry Rx Ev.
  assert (I : In (y, x) (all_pixels ny nx)) by (apply all_pixels_In; cbn [fst snd]; lia).
  specialize (G1 (y, x) v I Ev). specialize (G2 (y, x) v I Ev). unfold pidx in G1, G2. cbn [fst snd] in G1, G2. eexists _, _. split; [ exact G1 | ]. split; [ exact G2 | ].
  assert (A : forall l w, let hi := fold_left (fun v o => merge_max v (paint o y x)) l w in w <= hi /\ (hi = w \/ exists o, hi = paint o y x) /\ forall o, In o l -> paint o y x <= hi).
  { induction l as [ | o l IH ]; intros w; cbn [fold_left]; [ cbv zeta; split; [ lia | ]; split; [ auto | intros o [] ] | ].
    specialize (IH (merge_max w (paint o y x))). cbv zeta in *. destruct IH as [I1 [I2 I3]].
    assert (M : w <= merge_max w (paint o y x) /\ paint o y x <= merge_max w (paint o y x) /\ (merge_max w (paint o y x) = w \/ merge_max w (paint o y x) = paint o y x)) by (unfold merge_max; destruct (Z.ltb_spec w (paint o y x)); lia).
    split; [ lia | ]. split; [ destruct I2 as [I2 | I2]; [ rewrite I2; destruct M as [_ [_ [M | M]]]; [ left; exact M | right; exists o; exact M ] | right; exact I2 ] | ].
    intros o' [<- | H]; [ lia | apply I3, H ]. }
  assert (B : forall l w, let lo := fold_left (fun v o => merge_min v (paint o y x)) l w in lo <= w /\ (lo = w \/ exists o, lo = paint o y x) /\ forall o, In o l -> lo <= paint o y x).
  { induction l as [ | o l IH ]; intros w; cbn [fold_left]; [ cbv zeta; split; [ lia | ]; split; [ auto | intros o [] ] | ].
    specialize (IH (merge_min w (paint o y x))). cbv zeta in *. destruct IH as [I1 [I2 I3]].
    assert (M : merge_min w (paint o y x) <= w /\ merge_min w (paint o y x) <= paint o y x /\ (merge_min w (paint o y x) = w \/ merge_min w (paint o y x) = paint o y x)) by (unfold merge_min; destruct (Z.ltb_spec (paint o y x) w); lia).
    split; [ lia | ]. split; [ destruct I2 as [I2 | I2]; [ rewrite I2; destruct M as [_ [_ [M | M]]]; [ left; exact M | right; exists o; exact M ] | right; exact I2 ] | ].
    intros o' [<- | H]; [ lia | apply I3, H ]. }
  destruct (A (objs_at ny nx csize boxes (y, x)) v) as [A1 [A2 A3]]. destruct (B (objs_at ny nx csize boxes (y, x)) v) as [B1 [B2 B3]].
  split; [ split; assumption | ]. split; [ assumption | ]. split; [ assumption | ]. intros o y1 y2 x1 x2 Eb F1 F2 IB.
  assert (Io : In o (objs_at ny nx csize boxes (y, x))) by (apply (objs_at_cover ny nx csize boxes o (y1, y2, x1, x2)); try assumption; split; assumption).
  split; [ apply B3, Io | apply A3, Io ].
Qed.
Print Assumptions C54_extreme_partial.

(* C54: painting amplitudes on an empty map and reading amplitudes off a map are adjoint *)
Theorem C54_adjoint prof ny nx csize boxes active order threads m amps fm ta :
  0 < ny -> 0 < nx -> 0 < csize -> zlen m = ny * nx -> zlen amps = zlen boxes -> assign_cells ny nx csize boxes = Some active ->
  Permutation active order -> Permutation active (concat threads) ->
  sim_objects merge_add (fun o y x => match zget amps o with Some a => a * prof o y x | None => 0 end) nx order (repeat 0 (Z.to_nat (ny * nx))) = Some fm ->
  sim_transpose prof nx (zlen boxes) threads m (repeat 0 (length amps)) = Some ta ->
  zsum (map (fun '(u, v) => u * v) (combine m fm)) = zsum (map (fun '(u, v) => u * v) (combine amps ta)).
Proof.
  intros Hy Hx Hc L La E P T Ef Et.
  assert (N : 0 < ny * nx) by nia.
  destruct (sim_objects_spec merge_add (fun o y x => match zget amps o with Some a => a * prof o y x | None => 0 end) ny nx csize boxes active order (repeat 0 (Z.to_nat (ny * nx))) Hy Hx Hc E P) as [m1 [E1 [L1 G1]]];
    [ unfold zlen; rewrite repeat_length; lia | ].
  rewrite Ef in E1. apply Some_inj in E1. subst m1.
  assert (L2 : zlen (repeat 0 (length amps)) = zlen boxes) by (unfold zlen; rewrite repeat_length; exact La).
  destruct (sim_transpose_spec prof ny nx csize boxes active threads m (repeat 0 (length amps)) Hy Hx Hc E T L L2) as [t1 [E2 [L3 G2]]].
  rewrite Et in E2. apply Some_inj in E2. subst t1.
  assert (Lf : zlen fm = ny * nx) by (rewrite L1; unfold zlen; rewrite repeat_length; lia).
  assert (Lt : zlen ta = zlen amps) by (rewrite L3; unfold zlen; rewrite repeat_length; reflexivity).
  rewrite !dot_range by congruence. rewrite L.
  rewrite <- (zsum_perm _ _ (Permutation_map (fun k => zval m k * zval fm k) (all_pixels_perm ny nx Hy Hx))). rewrite map_map.
  set (nobj := zlen amps) in *.
  (* left: pixel by pixel *)
  transitivity (zsum (map (fun p => zsum (map (fun o => if memZ o (objs_at ny nx csize boxes p) then zval amps o * (mval nx m p * prof o (fst p) (snd p)) else 0) (zrange 0 nobj))) (all_pixels ny nx))).
  - f_equal. apply map_ext_in. intros p Ip. unfold zval at 2. rewrite (G1 p 0 Ip) by (apply zget_rep; apply pidx_range; assumption).
    unfold merge_add. rewrite (fold_add (fun o => match zget amps o with Some a => a * prof o (fst p) (snd p) | None => 0 end)). rewrite Z.add_0_l.
    change (zval m (pidx nx p)) with (mval nx m p). rewrite <- (TilLemmas.zsum_scale (mval nx m p)). unfold objs_at at 1. rewrite zsum_filter_if. rewrite <- La. fold nobj.
    f_equal. apply map_ext_in. intros o Io.
    assert (EM : memZ o (objs_at ny nx csize boxes p) = reg ny nx csize boxes (cell_of nx csize p) o).
    { apply Bool.eq_iff_eq_true. rewrite memZ_In. unfold objs_at. rewrite filter_In. rewrite <- La. fold nobj. tauto. }
    rewrite EM. destruct (reg ny nx csize boxes (cell_of nx csize p) o); [ | reflexivity ]. unfold zval. destruct (zget amps o); ring.
  - rewrite zsum_exchange. f_equal. apply map_ext_in. intros o Io. apply zrange_In in Io.
    assert (ER : zget (repeat 0 (length amps)) o = Some 0). { assert (E9 : zget (repeat 0 (Z.to_nat nobj)) o = Some 0) by (apply zget_rep; lia). unfold nobj, zlen in E9. rewrite Nat2Z.id in E9. exact E9. }
    assert (ET : zval ta o = 0 + zsum (map (fun p => if memZ o (objs_at ny nx csize boxes p) then mval nx m p * prof o (fst p) (snd p) else 0) (all_pixels ny nx))) by (unfold zval; rewrite (G2 o 0 ER); reflexivity).
    rewrite ET.
    rewrite Z.add_0_l, <- TilLemmas.zsum_scale. f_equal. apply map_ext. intros p. destruct (memZ o _); ring.
Qed.
Print Assumptions C54_adjoint.
Example C54_adjoint_example : option_map (fun active =>
   (option_map (fun fm => zsum (map (fun '(u, v) => u * v) (combine (zrange 0 24) fm))) (sim_objects merge_add (fun o y x => match zget [3; -2] o with Some a => a * (1 + o + x * y) | None => 0 end) 6 active (repeat 0 24)),
    option_map (fun ta => zsum (map (fun '(u, v) => u * v) (combine [3; -2] ta))) (sim_transpose (fun o y x => 1 + o + x * y) 6 2 [firstn 1 active; skipn 1 active] (zrange 0 24) [0; 0])))
  (assign_cells 4 6 3 [(0, 3, 0, 3); (1, 4, 5, 8)]) = Some (Some (-3780), Some (-3780)).
Proof. vm_compute. reflexivity. Qed.

(* C55: without the table the cut-off is the last sample of the profile that reaches the limit *)
Theorem C55_direct vs vrel level : vs <> [] -> exists i, rmax_index vs vrel None level = Some i /\ last_reaching vs vrel i.
Proof. apply direct_spec. Qed.
Print Assumptions C55_direct.
Example C55_direct_example : rmax_index [1; 1#2; 3#4; 1#10; 1#100]%Q (1#5) None (fun _ => 0) = Some 2.
Proof. vm_compute. reflexivity. Qed.

(* C55 (part): with the table, for a profile that never rises, starts at 1 or less and still reaches the limit at its second sample, the cut-off is the same
   or one sample short. level rounds -log10 up. Missing: equality, see the refutations below. *)
Theorem C55_table_partial vs vrel level v0 v1 : zget vs 0 = Some v0 -> zget vs 1 = Some v1 -> (v0 <= 1)%Q -> (vrel <= v1)%Q -> (0 < vrel < 1)%Q ->
  (forall i j a b, i <= j -> zget vs i = Some a -> zget vs j = Some b -> (b <= a)%Q) ->
  ((1 # 10) ^ (level vrel)%Z <= vrel < (1 # 10) ^ (level vrel - 1)%Z)%Q ->
  exists i d, rmax_index vs vrel (Some (build_prof_info vs (fun li => (1 # 10) ^ li)%Q)) level = Some i /\ rmax_index vs vrel None level = Some d /\
    last_reaching vs vrel d /\ d - 1 <= i <= d.
Proof.
  intros E0 E1 V0 V1 R M HL. destruct (table_spec vs vrel level v0 v1 E0 E1 V0 V1 R M HL) as [i [d [A [B C]]]]. exists i, d. split; [ exact A | ]. split; [ exact B | ]. split; [ | exact C ].
  destruct (direct_spec vs vrel level) as [d' [E' D']]; [ intros ->; rewrite zget_nil in E0; discriminate | ]. congruence.
Qed.
Print Assumptions C55_table_partial.
Example C55_table_example :
  let vs := [1; 1#2; 3#10; 1#10; 1#50; 1#100; 1#1000]%Q in
  rmax_index vs (1#5) (Some (build_prof_info vs (fun li => (1 # 10) ^ li)%Q)) (fun _ => 1) = Some 2 /\ rmax_index vs (1#5) None (fun _ => 1) = Some 2 /\
  ((1 # 10) ^ 1 <= 1 # 5 < (1 # 10) ^ 0)%Q.
Proof. cbv zeta. split; [ vm_compute; reflexivity | ]. split; [ vm_compute; reflexivity | ]. split; [ intros H; discriminate H | reflexivity ]. Qed.
(* C55 (refuted): with many objects the cut-off can be one sample short, read before the start of the profile, or ignore most of a profile that is not normalized *)
Theorem C55_table_refuted :
  (let vs := [1; 3#4; 1#20; 1#50]%Q in
   rmax_index vs (1#2) None (fun _ => 1) = Some 1 /\ rmax_index vs (1#2) (Some (build_prof_info vs (fun li => (1 # 10) ^ li)%Q)) (fun _ => 1) = Some 0) /\
  (let vs := [1; 1#100; 0]%Q in
   rmax_index vs (1#2) None (fun _ => 1) = Some 0 /\ rmax_index vs (1#2) (Some (build_prof_info vs (fun li => (1 # 10) ^ li)%Q)) (fun _ => 1) = None) /\
  (let vs := [100; 50; 5; 1]%Q in
   rmax_index vs 2 None (fun _ => 0) = Some 2 /\ rmax_index vs 2 (Some (build_prof_info vs (fun li => (1 # 10) ^ li)%Q)) (fun _ => 0) = Some 0).
Proof. cbv zeta. repeat split; vm_compute; reflexivity. Qed.
Print Assumptions C55_table_refuted.

(* C56 (part), general bins: every bin but the last gets the sum of the map over the pixels of the box whose distance is between its edges, each
   once. Missing: the last bin, see C56_last_refuted. *)
Theorem C56_general_partial ny nx nbin rs (r : Z -> Z -> Z) box m bins : 0 < ny -> 0 < nx -> 1 <= nbin -> zlen rs = nbin + 1 -> StronglySorted Z.le rs ->
  zlen m = ny * nx -> zlen bins = nbin ->
  exists bins', radial_sum ny nx nbin (fun y x => binary_search nbin rs (r y x)) box m bins = Some bins' /\ zlen bins' = nbin /\
  forall i lo hi b (inb : Z * Z -> bool), 0 <= i < nbin - 1 -> zget rs i = Some lo -> zget rs (i + 1) = Some hi -> zget bins i = Some b ->
    (forall y x, 0 <= y < ny -> 0 <= x < nx -> inb (y, x) = true <-> in_box ny nx box y x /\ lo <= r y x < hi) ->
    zget bins' i = Some (b + zsum (map (fun p => match zget m (fst p * nx + snd p) with Some v => v | None => 0 end) (filter inb (list_prod (zrange 0 ny) (zrange 0 nx))))).
Proof.
  intros Hy Hx Hn Lr S Lm Lb.
  destruct (radial_sum_spec ny nx nbin (fun y x => binary_search nbin rs (r y x)) box m bins Hy Hx Lm Lb) as [b' [E [L G]]].
  { intros y x _ _. destruct (binary_search_spec nbin rs (r y x) ltac:(lia) S) as [i [Ei _]]. exists i. assumption. }
  exists b'. split; [ assumption | ]. split; [ assumption | ]. intros i lo hi b inb Hi Elo Ehi Eb HI.
  apply (G i b inb Eb). intros y x Ry Rx. rewrite (HI y x Ry Rx). destruct (binary_search_spec nbin rs (r y x) ltac:(lia) S) as [k [Ek [_ [_ B]]]]. rewrite Ek.
  specialize (B i lo hi Hi Elo Ehi). split; intros [I1 I2]; (split; [ assumption | ]); [ f_equal; apply B; assumption | apply B; apply Some_inj; assumption ].
Qed.
Print Assumptions C56_general_partial.
Example C56_general_example : radial_sum 3 4 3 (fun y x => binary_search 3 [0; 1; 4; 10] (y * y + x * x)) (-1, 2, -1, 2) (zrange 0 12) [0; 0; 0] = Some [0; 10; 0] /\ in_box 3 4 (-1, 2, -1, 2) 1 1.
Proof. split; [ vm_compute; reflexivity | ]. exists 1, 1. split; [ lia | ]. split; [ lia | ]. split; reflexivity. Qed.

(* C56 (refuted): the last of the general bins never receives anything *)
Theorem C56_last_refuted ny nx nbin rs (r : Z -> Z -> Z) box m bins : 0 < ny -> 0 < nx -> 1 <= nbin -> zlen rs = nbin + 1 -> StronglySorted Z.le rs ->
  zlen m = ny * nx -> zlen bins = nbin ->
  exists bins', radial_sum ny nx nbin (fun y x => binary_search nbin rs (r y x)) box m bins = Some bins' /\ zget bins' (nbin - 1) = zget bins (nbin - 1).
Proof.
  intros Hy Hx Hn Lr S Lm Lb.
  destruct (radial_sum_spec ny nx nbin (fun y x => binary_search nbin rs (r y x)) box m bins Hy Hx Lm Lb) as [b' [E [L G]]].
  { intros y x _ _. destruct (binary_search_spec nbin rs (r y x) ltac:(lia) S) as [i [Ei _]]. exists i. assumption. }
  exists b'. split; [ assumption | ]. destruct (zget_in_range bins (nbin - 1) ltac:(lia)) as [b Eb]. rewrite Eb.
  rewrite (G (nbin - 1) b (fun _ => false) Eb).
  - f_equal. assert (Ef : filter (fun _ : Z * Z => false) (all_pixels ny nx) = []) by (clear; induction (all_pixels ny nx) as [ | a l IH ]; [ reflexivity | exact IH ]). rewrite Ef. cbn. lia.
  - intros y x _ _. split; [ discriminate | ]. intros [_ K]. destruct (binary_search_spec nbin rs (r y x) ltac:(lia) S) as [k [Ek [_ [N _]]]]. rewrite Ek in K. apply Some_inj in K. lia.
Qed.
Print Assumptions C56_last_refuted.
Example C56_last_example : radial_sum 3 4 2 (fun y x => binary_search 2 [0; 1; 100] (y * y + x * x)) (0, 3, 0, 4) (repeat 1 12) [0; 0] = Some [1; 0].
Proof. vm_compute. reflexivity. Qed.

(* C56 (part), equal bins of width w: every bin gets its pixels, as long as no distance in the map reaches the number of bins. Missing: larger distances, see C56_equal_refuted. *)
Theorem C56_equal_partial ny nx nbin (w : Q) (r : Z -> Z -> Q) box m bins : 0 < ny -> 0 < nx -> (0 < w)%Q ->
  (forall y x, 0 <= y < ny -> 0 <= x < nx -> (0 <= r y x < inject_Z nbin)%Q) -> zlen m = ny * nx -> zlen bins = nbin ->
  exists bins', radial_sum ny nx nbin (fun y x => Some (equi_search nbin w (r y x))) box m bins = Some bins' /\ zlen bins' = nbin /\
  forall i b (inb : Z * Z -> bool), zget bins i = Some b ->
    (forall y x, 0 <= y < ny -> 0 <= x < nx -> inb (y, x) = true <-> in_box ny nx box y x /\ (inject_Z i * w <= r y x < inject_Z (i + 1) * w)%Q) ->
    zget bins' i = Some (b + zsum (map (fun p => match zget m (fst p * nx + snd p) with Some v => v | None => 0 end) (filter inb (list_prod (zrange 0 ny) (zrange 0 nx))))).
Proof.
  intros Hy Hx Hw HR Lm Lb.
  destruct (radial_sum_spec ny nx nbin (fun y x => Some (equi_search nbin w (r y x))) box m bins Hy Hx Lm Lb) as [b' [E [L G]]]; [ intros; eexists; reflexivity | ].
  exists b'. split; [ assumption | ]. split; [ assumption | ]. intros i b inb Eb HI. apply (G i b inb Eb). intros y x Ry Rx. rewrite (HI y x Ry Rx).
  destruct (HR y x Ry Rx) as [R0 R1]. set (q := r y x) in *.
  assert (ES : equi_search nbin w q = Qround.Qfloor (q / w)).
  { unfold equi_search. cbv zeta. rewrite (proj2 (Z.ltb_ge _ 0)).
    - destruct (Qle_bool (inject_Z nbin) q) eqn:EQ; [ | reflexivity ]. apply Qle_bool_iff in EQ. exfalso. apply (Qlt_not_le _ _ R1 EQ).
    - change 0 with (Qround.Qfloor 0). apply Qround.Qfloor_resp_le. apply Qle_shift_div_l; [ assumption | ]. rewrite Qmult_0_l. assumption. }
  rewrite ES. assert (FL : Qround.Qfloor (q / w) = i <-> (inject_Z i * w <= q < inject_Z (i + 1) * w)%Q).
  { pose proof (Qround.Qfloor_le (q / w)) as F1. pose proof (Qround.Qlt_floor (q / w)) as F2. split.
    - intros EF. rewrite EF in F1, F2. split.
      + apply (Qmult_le_compat_r _ _ w) in F1; [ | apply Qlt_le_weak; assumption ]. rewrite (Qmult_comm (q / w)), Qmult_div_r in F1 by (intros Z0; rewrite Z0 in Hw; discriminate). assumption.
      + apply (Qmult_lt_compat_r _ _ w Hw) in F2. rewrite (Qmult_comm (q / w)), Qmult_div_r in F2 by (intros Z0; rewrite Z0 in Hw; discriminate). assumption.
    - intros [A B]. assert (A' : (inject_Z i <= q / w)%Q) by (apply Qle_shift_div_l; assumption). assert (B' : (q / w < inject_Z (i + 1))%Q) by (apply Qlt_shift_div_r; assumption).
      assert (X1 : (inject_Z i < inject_Z (Qround.Qfloor (q / w) + 1))%Q) by (eapply Qle_lt_trans; eassumption).
      assert (X2 : (inject_Z (Qround.Qfloor (q / w)) < inject_Z (i + 1))%Q) by (eapply Qle_lt_trans; eassumption).
      rewrite <- Zlt_Qlt in X1, X2. lia. }
  rewrite <- FL. split; intros [I1 I2]; (split; [ assumption | ]); congruence.
Qed.
Print Assumptions C56_equal_partial.
Example C56_equal_example : radial_sum 3 4 4 (fun y x => Some (equi_search 4 (1#2) (inject_Z (y + x) * (1#3)))) (0, 3, 0, 4) (repeat 1 12) [0; 0; 0; 0] = Some [3; 3; 5; 1].
Proof. vm_compute. reflexivity. Qed.
(* C56 (refuted): with two bins of width 5, a pixel at distance 3 belongs in the first bin and is dropped *)
Theorem C56_equal_refuted : (inject_Z 0 * 5 <= 3 < inject_Z 1 * 5)%Q /\ radial_sum 1 1 2 (fun y x => Some (equi_search 2 5 3)) (0, 1, 0, 1) [7] [0; 0] = Some [0; 0].
Proof. split; [ split; [ intros H; discriminate H | reflexivity ] | vm_compute; reflexivity ]. Qed.
Print Assumptions C56_equal_refuted.
