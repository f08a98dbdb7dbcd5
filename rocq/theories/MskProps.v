(* C104, C105: distance transforms of masks and of label maps; growing, shrinking and apodizing masks. *)
From Verif Require Import Base RangeModel AlmModel AlmLemmas HpModel DistModel MskSpec MskModel MskLemmas.
From Verif Require DistSpec DistProps.
From Coq Require Import Reals Lra Lia.
Ltac Zify.zify_post_hook ::= idtac.
Open Scope Z_scope.
Import DistSpec.

Lemma bad_iff ny nx mask q : zlen mask = ny * nx -> 0 <= q < ny * nx -> (mget mask q =? 0) = true <-> zget mask q = Some 0.
Proof. intros Hl Hq. rewrite (mget_zget mask q) by lia. split; intros H; [apply Z.eqb_eq in H; now rewrite H|apply Z.eqb_eq; congruence]. Qed.
Lemma limited_ext d n B B' p rmax v : (forall q, 0 <= q < n -> (B q <-> B' q)) -> limited d n B p rmax v -> limited d n B' p rmax v.
Proof.
  intros HB H. assert (Hc : forall w, closest d n B p w -> closest d n B' p w).
  { intros w [(q & Hq & Hb & Hd) Hm]. split; [exists q; split; [easy|split; [now apply (HB q Hq)|easy]]|]. intros q' Hq' Hb'. apply Hm; [easy|]. now apply (HB q' Hq'). }
  destruct H; [apply lim_none; auto|apply lim_near; auto|apply lim_far with v; auto|apply lim_empty; intros q Hq Hb; apply (H q Hq), (HB q Hq), Hb].
Qed.

Section Claims.
Variables (ny nx : Z) (d : Z -> Z -> R) (df : list Z -> option R -> Z -> R * Z).
Hypothesis (Hny : 1 <= ny) (Hnx : 1 <= nx) (G : grid_distance ny nx d) (F : finds_closest (ny * nx) d df).

Lemma closest_self (B : Z -> Prop) p : 0 <= p < ny * nx -> B p -> closest d (ny * nx) B p 0.
Proof.
  intros Hp Hb. split; [exists p; split; [easy|]; split; [easy|]; now apply (gd_self _ _ _ G)|].
  intros q Hq _. destruct (Z.eq_dec p q) as [<-|Hne]; [rewrite (gd_self _ _ _ G p Hp); lra|]. left. now apply (gd_pos _ _ _ G).
Qed.

Lemma transform_holds mask rmax p : zlen mask = ny * nx -> 0 <= p < ny * nx -> lim_ok rmax ->
  limited d (ny * nx) (fun q => zget mask q = Some 0) p rmax (distance_transform ny nx df mask rmax p).
Proof.
  intros Hl Hp Hr. unfold distance_transform. destruct (mget mask p =? 0) eqn:Em.
  - assert (Hc : closest d (ny * nx) (fun q => zget mask q = Some 0) p 0) by (apply closest_self; [easy|now apply (bad_iff ny nx mask p Hl Hp)]).
    destruct rmax as [r|]; [apply lim_near; [easy|]; specialize (Hr r eq_refl); lra|now apply lim_none].
  - apply limited_ext with (B := fun q => (mget mask q =? 0) = true); [intros q Hq; now apply bad_iff with (ny := ny) (nx := nx)|].
    apply (distance_from_limited (ny * nx) d df F (find_edges ny nx mask) rmax p (fun q => mget mask q =? 0) Hr Hp).
    + intros q Hq. apply (proj1 (DistProps.C53_edges ny nx mask Hny Hnx Hl q)) in Hq. exact (edge_in ny nx _ _ q Hq).
    + intros q Hq Hb Hm. apply (proj2 (DistProps.C53_edges ny nx mask Hny Hnx Hl q)).
      refine (closest_is_edge ny nx d Hnx G _ _ p q Hp Hq Em Hb Hm _). intros k _ Hk. now rewrite Hk.
Qed.

Lemma labels_hold labels rmax p : zlen labels = ny * nx -> 0 <= p < ny * nx -> lim_ok rmax ->
  let B := fun q => exists l, zget labels q = Some l /\ l <> 0 in
  let '(v, l) := labeled_distance_transform ny nx df labels rmax p in
  limited d (ny * nx) B p rmax v /\
  (zget labels p = Some 0 ->
   ((exists q, 0 <= q < ny * nx /\ zget labels q = Some l /\ l <> 0 /\ v = Some (d p q)) \/ (l = 0 /\ v = rmax))).
Proof.
  intros Hl Hp Hr B. unfold labeled_distance_transform.
  assert (HB : forall q, 0 <= q < ny * nx -> (negb (mget labels q =? 0) = true <-> B q)).
  { intros q Hq. unfold B. rewrite Bool.negb_true_iff, Z.eqb_neq. rewrite (mget_zget labels q) by lia. split; [intros H; now exists (mget labels q)|intros (l & E & H); congruence]. }
  assert (Hin : forall q, In q (find_edges_labeled ny nx labels) -> 0 <= q < ny * nx /\ negb (mget labels q =? 0) = true).
  { intros q Hq. apply (proj1 (DistProps.C53_edges_labeled ny nx labels Hny Hnx Hl q)) in Hq. exact (edge_in ny nx _ _ q Hq). }
  destruct (distance_from df (find_edges_labeled ny nx labels) rmax p) as [v k] eqn:Edf.
  destruct (mget labels p =? 0) eqn:Em.
  - destruct (distance_from_limited (ny * nx) d df F (find_edges_labeled ny nx labels) rmax p (fun q => negb (mget labels q =? 0)) Hr Hp Hin) as [H1 H2].
    { intros q Hq Hb Hm. apply (proj2 (DistProps.C53_edges_labeled ny nx labels Hny Hnx Hl q)).
      refine (closest_is_edge ny nx d Hnx G _ _ p q Hp Hq _ Hb Hm _); [now rewrite Em|].
      intros k' _ Hk. apply Bool.negb_false_iff, Z.eqb_eq in Hk. rewrite Hk. apply Bool.negb_true_iff, Z.eqb_neq. apply Bool.negb_true_iff, Z.eqb_neq in Hb. congruence. }
    rewrite Edf in H1, H2. cbn [fst snd] in H1, H2. split; [apply limited_ext with (2 := H1); exact HB|]. intros _.
    destruct H2 as [(q & Hk & Hk0 & Ev & _)|(-> & Ev & _)].
    + left. destruct (0 <=? k) eqn:Ek; [|lia]. assert (Eg : mget (find_edges_labeled ny nx labels) k = q) by (unfold mget; now rewrite Hk). rewrite Eg.
      assert (Hq : In q (find_edges_labeled ny nx labels)). { unfold zget in Hk. destruct (k <? 0); [discriminate|]. exact (nth_error_In _ _ Hk). }
      destruct (Hin q Hq) as [Hq1 Hq2]. apply Bool.negb_true_iff, Z.eqb_neq in Hq2. exists q. split; [easy|]. split; [apply mget_zget; lia|]. easy.
    + right. now cbn.
  - split.
    + assert (Hc : closest d (ny * nx) B p 0). { apply closest_self; [easy|]. apply (HB p Hp). now rewrite Em. }
      destruct rmax as [r|]; [apply lim_near; [easy|]; specialize (Hr r eq_refl); lra|now apply lim_none].
    + intros E. rewrite (mget_zget labels p) in E by lia. injection E as E. apply Z.eqb_neq in Em. congruence.
Qed.

Lemma own_label_holds labels p L : zlen labels = ny * nx -> 0 <= p < ny * nx -> inner_step ny nx d -> zget labels p = Some L -> L <> 0 ->
  labeled_distance_transform ny nx df labels None p = (Some 0%R, L).
Proof.
  intros Hl Hp I EL HL. assert (EmL : mget labels p = L) by (unfold mget; now rewrite EL).
  unfold labeled_distance_transform. set (edges := find_edges_labeled ny nx labels).
  assert (Hed : forall q, In q edges <-> edge_pixel (fun i => negb (mget labels i =? 0)) (fun k => negb (mget labels k =? mget labels q)) ny nx q) by (intros q; apply DistProps.C53_edges_labeled; easy).
  assert (Hfa : Forall (fun q => 0 <= q < ny * nx) edges). { apply Forall_forall. intros q Hq. apply Hed in Hq. apply (edge_in ny nx _ _ q Hq). }
  rewrite EmL. destruct (L =? 0) eqn:E0; [apply Z.eqb_eq in E0; congruence|].
  (* some edge pixel exists *)
  assert (Hne : edges <> []).
  { assert (H : exists q, In q edges).
    { destruct (Z.eq_dec (mget labels 0) 0) as [Ez|Enz].
      - destruct (none_or d (ny * nx) (fun q => negb (mget labels q =? 0)) 0) as [Hno|(q & Hq & Hb & Hm)].
        + exfalso. specialize (Hno p Hp). cbn beta in Hno. rewrite EmL, E0 in Hno. discriminate.
        + exists q. apply Hed. refine (closest_is_edge ny nx d Hnx G _ _ 0 q ltac:(lia) Hq _ Hb Hm _); [now rewrite Ez|].
          intros k _ Hk. apply Bool.negb_false_iff, Z.eqb_eq in Hk. rewrite Hk. apply Bool.negb_true_iff, Z.eqb_neq. apply Bool.negb_true_iff, Z.eqb_neq in Hb. congruence.
      - exists 0. apply Hed. exists 0, 0. split; [lia|]. split; [lia|]. split; [lia|]. split; [now apply Bool.negb_true_iff, Z.eqb_neq|now left]. }
    intros E. destruct H as [q Hq]. rewrite E in Hq. destruct Hq. }
  unfold distance_from. destruct edges as [|e0 es] eqn:Ee; [congruence|]. rewrite <- Ee in *.
  destruct (F edges None p Hne Hfa Hp ltac:(discriminate)) as [(k & q & Hk & Edf & Hm & _)|(r & E & _)]; [|discriminate].
  rewrite Edf. f_equal. destruct (0 <=? Z.of_nat k) eqn:Ek; [|lia].
  assert (Eg : mget edges (Z.of_nat k) = q). { unfold mget, zget. destruct (Z.of_nat k <? 0) eqn:Ez; [lia|]. now rewrite Nat2Z.id, Hk. }
  rewrite Eg, <- EmL. pose proof (nth_error_In _ _ Hk) as Hq. rewrite Forall_forall in Hfa, Hm.
  apply (own_label ny nx d (mget labels) p q Hnx I Hp (Hfa q Hq)); [congruence|].
  intros q' Hq' Hd He. apply (proj2 (Hed q')) in He. specialize (Hm q' He). lra.
Qed.
End Claims.

(* ---- C104 ---- *)
(* distance_transform gives every pixel its distance from the closest False pixel of the whole map, up to the limit *)
Theorem C104_transform : forall ny nx d df mask rmax p, 1 <= ny -> 1 <= nx -> grid_distance ny nx d -> finds_closest (ny * nx) d df ->
  zlen mask = ny * nx -> 0 <= p < ny * nx -> (forall r, rmax = Some r -> (0 < r)%R) ->
  limited d (ny * nx) (fun q => zget mask q = Some 0) p rmax (distance_transform ny nx df mask rmax p).
Proof. intros. now apply transform_holds. Qed.
Print Assumptions C104_transform.
(* labeled_distance_transform: the distance from the closest labelled pixel, and that pixel's label *)
Theorem C104_labels : forall ny nx d df labels rmax p, 1 <= ny -> 1 <= nx -> grid_distance ny nx d -> finds_closest (ny * nx) d df ->
  zlen labels = ny * nx -> 0 <= p < ny * nx -> (forall r, rmax = Some r -> (0 < r)%R) ->
  exists v l, labeled_distance_transform ny nx df labels rmax p = (v, l) /\
    limited d (ny * nx) (fun q => exists l, zget labels q = Some l /\ l <> 0) p rmax v /\
    (zget labels p = Some 0 ->
     ((exists q, 0 <= q < ny * nx /\ zget labels q = Some l /\ l <> 0 /\ v = Some (d p q)) \/ (l = 0 /\ v = rmax))).
Proof.
  intros ny nx d df labels rmax p H1 H2 G F Hl Hp Hr. pose proof (labels_hold ny nx d df H1 H2 G F labels rmax p Hl Hp Hr) as H.
  destruct (labeled_distance_transform ny nx df labels rmax p) as [v l]. exists v, l. split; [easy|]. exact H.
Qed.
Print Assumptions C104_labels.
(* and without a limit a labelled pixel keeps its own label *)
Theorem C104_own_label : forall ny nx d df labels p L, 1 <= ny -> 1 <= nx -> grid_distance ny nx d -> inner_step ny nx d -> finds_closest (ny * nx) d df ->
  zlen labels = ny * nx -> zget labels p = Some L -> L <> 0 -> labeled_distance_transform ny nx df labels None p = (Some 0%R, L).
Proof.
  intros ny nx d df labels p L H1 H2 G I F Hl EL HL. pose proof (zget_Some_range labels p L EL). apply own_label_holds with (d := d); try easy. lia.
Qed.
Print Assumptions C104_own_label.
(* flat maps, and maps of the sphere with straight rows and columns, however wide, have such distances *)
Theorem C104_flat : forall hy hx ny nx, (0 < hy)%R -> (0 < hx)%R -> 1 <= ny -> 1 <= nx ->
  grid_distance ny nx (flat_distance hy hx nx) /\ inner_step ny nx (flat_distance hy hx nx).
Proof. intros. split; [now apply flat_grid|now apply flat_inner]. Qed.
Print Assumptions C104_flat.
Theorem C104_sphere : forall dec0 ddec dra ny nx, 1 <= ny -> 1 <= nx -> sphere_map dec0 ddec dra ny nx ->
  grid_distance ny nx (sphere_distance dec0 ddec dra nx) /\ ((IZR nx * Rabs dra <= PI)%R -> inner_step ny nx (sphere_distance dec0 ddec dra nx)).
Proof. intros. split; [now apply sphere_grid|now apply sphere_inner]. Qed.
Print Assumptions C104_sphere.
(* and the brute force search finds the closest point *)
Theorem C104_simple : forall n d, finds_closest n d (simple_from d).
Proof. exact simple_finds. Qed.
Print Assumptions C104_simple.

(* ---- C105 ---- *)
Lemma zget_mnot mask q : zget (mnot mask) q = option_map (fun v => b2z (v =? 0)) (zget mask q).
Proof. unfold mnot. apply zget_map. Qed.
Lemma lt_r_limited d n B p r v : (0 < r)%R -> limited d n B p (Some r) v -> lt_r v r = true <-> exists q, 0 <= q < n /\ B q /\ (d p q < r)%R.
Proof.
  intros Hr H. unfold lt_r. inversion H as [|v0 r0 Hc Hle|v0 r0 Hc Hle|rm Hno]; subst.
  - destruct Hc as [(q & Hq & Hb & Ed) Hm]. destruct (Rlt_dec v0 r) as [Hlt|Hge].
    + split; [|easy]. intros _. exists q. split; [easy|]. split; [easy|]. lra.
    + split; [discriminate|]. intros (q' & Hq' & Hb' & Hd). specialize (Hm q' Hq' Hb'). lra.
  - destruct Hc as [_ Hm]. destruct (Rlt_dec r r) as [Hlt|]; [lra|]. split; [discriminate|]. intros (q' & Hq' & Hb' & Hd). specialize (Hm q' Hq' Hb'). lra.
  - destruct (Rlt_dec r r) as [Hlt|]; [lra|]. split; [discriminate|]. intros (q' & Hq' & Hb' & _). destruct (Hno q' Hq' Hb').
Qed.

(* growing a mask by r > 0 makes True exactly the pixels closer than r to a True pixel *)
Theorem C105_grow : forall ny nx d df mask r, 1 <= ny -> 1 <= nx -> grid_distance ny nx d -> finds_closest (ny * nx) d df -> zlen mask = ny * nx -> (0 < r)%R ->
  zlen (grow_mask ny nx df mask r) = ny * nx /\
  forall p, 0 <= p < ny * nx -> exists b : bool, zget (grow_mask ny nx df mask r) p = Some (if b then 1 else 0) /\
    (b = true <-> exists q v, zget mask q = Some v /\ v <> 0 /\ (d p q < r)%R).
Proof.
  intros ny nx d df mask r H1 H2 G F Hl Hr. split; [unfold grow_mask; rewrite zlen_map; unfold zrange, zlen; rewrite zseq_length; nia|].
  intros p Hp. eexists. split; [unfold grow_mask; rewrite zget_map, zget_zrange by lia; cbn [option_map]; rewrite Z.add_0_l; reflexivity|].
  assert (Hl' : zlen (mnot mask) = ny * nx) by (unfold mnot; now rewrite zlen_map).
  pose proof (C104_transform ny nx d df (mnot mask) (Some r) p H1 H2 G F Hl' Hp ltac:(intros r' E; injection E as <-; easy)) as HT.
  rewrite (lt_r_limited d (ny * nx) _ p r _ Hr HT). split.
  - intros (q & Hq & Hb & Hd). rewrite zget_mnot in Hb. destruct (zget mask q) as [v|] eqn:E; [|discriminate]. cbn in Hb. exists q, v. split; [easy|]. split; [|easy].
    unfold b2z in Hb. destruct (v =? 0) eqn:Ev; [discriminate|]. now apply Z.eqb_neq.
  - intros (q & v & E & Hv & Hd). pose proof (zget_Some_range mask q v E). exists q. split; [lia|]. split; [|easy]. rewrite zget_mnot, E. cbn. apply Z.eqb_neq in Hv. now rewrite Hv.
Qed.
Print Assumptions C105_grow.

(* shrinking it leaves True exactly the pixels at least r away from every False pixel *)
Theorem C105_shrink : forall ny nx d df mask r, 1 <= ny -> 1 <= nx -> grid_distance ny nx d -> finds_closest (ny * nx) d df -> zlen mask = ny * nx -> (0 < r)%R ->
  zlen (shrink_mask ny nx df mask r) = ny * nx /\
  forall p, 0 <= p < ny * nx -> exists b : bool, zget (shrink_mask ny nx df mask r) p = Some (if b then 1 else 0) /\
    (b = true <-> forall q, zget mask q = Some 0 -> (r <= d p q)%R).
Proof.
  intros ny nx d df mask r H1 H2 G F Hl Hr. split; [unfold shrink_mask; rewrite zlen_map; unfold zrange, zlen; rewrite zseq_length; nia|].
  intros p Hp. eexists. split; [unfold shrink_mask; rewrite zget_map, zget_zrange by lia; cbn [option_map]; rewrite Z.add_0_l; reflexivity|].
  pose proof (C104_transform ny nx d df mask (Some r) p H1 H2 G F Hl Hp ltac:(intros r' E; injection E as <-; easy)) as HT.
  pose proof (lt_r_limited d (ny * nx) _ p r _ Hr HT) as HL. rewrite Bool.negb_true_iff. split.
  - intros Hf q Hq. pose proof (zget_Some_range mask q 0 Hq). destruct (Rle_lt_dec r (d p q)) as [|Hlt]; [easy|]. rewrite (proj2 HL) in Hf; [discriminate|].
    exists q. split; [lia|easy].
  - intros H. apply Bool.not_true_iff_false. intros Ht. apply (proj1 HL) in Ht. destruct Ht as (q & Hq & Hb & Hd). specialize (H q Hb). lra.
Qed.
Print Assumptions C105_shrink.

(* hence, for r > 0, shrinking is growing the complement: no pixel is in both, none in neither *)
Theorem C105_complement : forall ny nx d df mask r p, 1 <= ny -> 1 <= nx -> grid_distance ny nx d -> finds_closest (ny * nx) d df -> zlen mask = ny * nx -> (0 < r)%R ->
  0 <= p < ny * nx -> zget (shrink_mask ny nx df mask r) p = Some 1 <-> zget (grow_mask ny nx df (map (fun v => if v =? 0 then 1 else 0) mask) r) p = Some 0.
Proof.
  intros ny nx d df mask r p H1 H2 G F Hl Hr Hp.
  destruct (C105_shrink ny nx d df mask r H1 H2 G F Hl Hr) as [_ HS]. destruct (HS p Hp) as (b & -> & Hb).
  destruct (C105_grow ny nx d df (map (fun v => if v =? 0 then 1 else 0) mask) r H1 H2 G F ltac:(now rewrite zlen_map) Hr) as [_ HG]. destruct (HG p Hp) as (g & -> & Hg).
  assert (Hx : g = true <-> ~ forall q, zget mask q = Some 0 -> (r <= d p q)%R).
  { rewrite Hg. split.
    - intros (q & v & E & Hv & Hd) Hall. rewrite zget_map in E. destruct (zget mask q) as [w|] eqn:Ew; [|discriminate]. cbn in E. injection E as E. destruct (Z.eqb_spec w 0) as [->|]; [|congruence].
      specialize (Hall q Ew). lra.
    - intros Hn. destruct (none_or d (ny * nx) (fun q => if Rlt_dec (d p q) r then match zget mask q with Some v => v =? 0 | None => false end else false) p) as [Hno|(q & Hq & Hw & _)].
      + exfalso. apply Hn. intros q Eq. pose proof (zget_Some_range mask q 0 Eq). specialize (Hno q ltac:(lia)). cbn beta in Hno. destruct (Rlt_dec (d p q) r); [rewrite Eq in Hno; discriminate|lra].
      + cbn beta in Hw. destruct (Rlt_dec (d p q) r) as [Hd|]; [|discriminate]. destruct (zget mask q) as [v|] eqn:Ev; [|discriminate]. exists q, 1. split; [|split; [lia|easy]].
        rewrite zget_map, Ev. cbn. now rewrite Hw. }
  destruct b, g; split; intros E; try congruence; exfalso.
  - apply (proj1 Hx eq_refl). now apply Hb.
  - apply Bool.diff_false_true. apply Hb. intros q Hq. destruct (Rle_lt_dec r (d p q)) as [|Hlt]; [easy|].
    exfalso. assert (Hf : false = true); [|discriminate]. apply Hx. intros Hall. specialize (Hall q Hq). lra.
Qed.
Print Assumptions C105_complement.

(* ---- apodized masks ---- *)
Lemma lin_ok x : (0 <= x <= 1)%R -> (0 <= apod_profile_lin x <= 1)%R /\ (apod_profile_lin x = 0 <-> x = 0)%R /\ (apod_profile_lin x = 1 <-> x = 1)%R.
Proof. unfold apod_profile_lin. lra. Qed.
Lemma cos_ok x : (0 <= x <= 1)%R -> (0 <= apod_profile_cos x <= 1)%R /\ (apod_profile_cos x = 0 <-> x = 0)%R /\ (apod_profile_cos x = 1 <-> x = 1)%R.
Proof.
  intros Hx. unfold apod_profile_cos. pose proof (COS_bound (PI * x)). pose proof PI_RGT_0. split; [lra|]. split; split; intros E.
  - destruct (Rle_lt_dec x 0) as [|Hlt]; [lra|]. assert (H1 : (cos (PI * x) < cos 0)%R) by (apply cos_decreasing_1; nra). rewrite cos_0 in H1. lra.
  - rewrite E, Rmult_0_r, cos_0. lra.
  - destruct (Rle_lt_dec 1 x) as [|Hlt]; [lra|]. assert (H1 : (cos PI < cos (PI * x))%R) by (apply cos_decreasing_1; nra). rewrite cos_PI in H1. lra.
  - rewrite E, Rmult_1_r, cos_PI. lra.
Qed.

(* apod_mask with either profile: a pixel counts as bad if it is False, or on the border unless edge=False. The result is 0 exactly
   at the bad pixels, 1 exactly where every bad pixel is at least the width away, and the profile of distance/width between *)
Theorem C105_apod : forall ny nx d df mask width edge profile p, 1 <= ny -> 1 <= nx -> grid_distance ny nx d -> finds_closest (ny * nx) d df -> zlen mask = ny * nx ->
  (0 < width)%R -> profile = apod_profile_lin \/ profile = apod_profile_cos -> 0 <= p < ny * nx ->
  let bad q := zget mask q = Some 0 \/ (edge = true /\ on_border ny nx q) in
  exists v, apod_mask ny nx df mask width edge profile p = Some v /\ (0 <= v <= 1)%R /\
    (v = 0%R <-> bad p) /\ (v = 1%R <-> forall q, 0 <= q < ny * nx -> bad q -> (width <= d p q)%R) /\
    (forall w, closest d (ny * nx) bad p w -> (w <= width)%R -> v = profile (w / width)%R).
Proof.
  intros ny nx d df mask width edge profile p H1 H2 G F Hl Hw Hpr Hp bad.
  set (m := if edge then drop_edge ny nx mask else mask).
  assert (Hlm : zlen m = ny * nx). { unfold m. destruct edge; [|easy]. unfold drop_edge. rewrite zlen_map. unfold zrange, zlen. rewrite zseq_length. nia. }
  assert (Hbad : forall q, 0 <= q < ny * nx -> zget m q = Some 0 <-> bad q).
  { intros q Hq. unfold m, bad. destruct edge; [|split; [now left|intros [H|[H _]]; [easy|discriminate]]].
    unfold drop_edge. rewrite zget_map, zget_zrange by lia. cbn [option_map]. rewrite Z.add_0_l. unfold on_border. rewrite (mget_zget mask q) by lia.
    destruct (Z.eqb_spec (q / nx) 0); [cbn; tauto|]. destruct (Z.eqb_spec (q / nx) (ny - 1)); [cbn; tauto|]. destruct (Z.eqb_spec (q mod nx) 0); [cbn; tauto|].
    destruct (Z.eqb_spec (q mod nx) (nx - 1)); cbn [orb]; tauto. }
  pose proof (C104_transform ny nx d df m (Some width) p H1 H2 G F Hlm Hp ltac:(intros r' E; injection E as <-; easy)) as HT.
  apply (limited_ext _ _ _ bad _ _ _ Hbad) in HT.
  assert (Hpo : forall x, (0 <= x <= 1)%R -> (0 <= profile x <= 1)%R /\ (profile x = 0 <-> x = 0)%R /\ (profile x = 1 <-> x = 1)%R).
  { destruct Hpr as [-> | ->]; [exact lin_ok|exact cos_ok]. }
  assert (Hd0 : forall q, 0 <= q < ny * nx -> (0 <= d p q)%R).
  { intros q Hq. destruct (Z.eq_dec p q) as [<-|Hne]; [rewrite (gd_self _ _ _ G p Hp); lra|]. left. now apply (gd_pos _ _ _ G). }
  (* the value from the distance u = min(closest, width) *)
  assert (Hmain : forall u, (0 <= u <= width)%R -> (u = 0%R <-> bad p) -> (u = width <-> forall q, 0 <= q < ny * nx -> bad q -> (width <= d p q)%R) ->
     (forall w, closest d (ny * nx) bad p w -> (w <= width)%R -> u = w) -> distance_transform ny nx df m (Some width) p = Some u ->
     exists v, apod_mask ny nx df mask width edge profile p = Some v /\ (0 <= v <= 1)%R /\ (v = 0%R <-> bad p) /\ (v = 1%R <-> forall q, 0 <= q < ny * nx -> bad q -> (width <= d p q)%R) /\
       (forall w, closest d (ny * nx) bad p w -> (w <= width)%R -> v = profile (w / width)%R)).
  { intros u Hu Hz Ho Hcl Edt. exists (profile (u / width)%R).
    assert (Hx : (0 <= u / width <= 1)%R). { split; [apply Rmult_le_pos; [lra|]; left; now apply Rinv_0_lt_compat|]. apply Rmult_le_reg_r with width; [easy|]. unfold Rdiv. rewrite Rmult_assoc, Rinv_l by lra. lra. }
    destruct (Hpo _ Hx) as (Hb & H0 & H1').
    assert (Ex : u = (u / width * width)%R) by (field; lra).
    split; [unfold apod_mask; fold m; rewrite Edt; destruct (Req_EM_T width 0); [lra|easy]|]. split; [easy|]. split.
    - rewrite H0, <- Hz. split; intros E; [rewrite Ex, E; ring|rewrite E; unfold Rdiv; ring].
    - split; [rewrite H1', <- Ho; split; intros E; [rewrite Ex, E; ring|rewrite E; field; lra]|].
      intros w Hc Hle. now rewrite <- (Hcl w Hc Hle). }
  assert (Huniq : forall w w', closest d (ny * nx) bad p w -> closest d (ny * nx) bad p w' -> w = w').
  { intros w w' [(q & Hq & Hb & E) Hm] [(q' & Hq' & Hb' & E') Hm']. specialize (Hm _ Hq' Hb'). specialize (Hm' _ Hq Hb). lra. }
  inversion HT as [|v0 r0 Hc Hle E1 E2|v0 r0 Hc Hle E1 E2|rm Hno E1 E2]; subst; symmetry in E2.
  - apply (Hmain v0); try easy.
    + destruct Hc as [(q & Hq & _ & <-) _]. split; [now apply Hd0|easy].
    + split.
      * intros ->. destruct Hc as [(q & Hq & Hb & Ed) _]. destruct (Z.eq_dec p q) as [<-|Hne]; [easy|]. pose proof (gd_pos _ _ _ G p q Hp Hq Hne). lra.
      * intros Hb. apply (Huniq v0 0%R Hc). now apply (closest_self ny nx d G).
    + destruct Hc as [(q & Hq & Hb & Ed) Hm]. split; [intros E q' Hq' Hb'; specialize (Hm q' Hq' Hb'); lra|]. intros Hall. specialize (Hall q Hq Hb). lra.
    + intros w Hc' _. now apply Huniq.
  - apply (Hmain width); try easy; [lra| | |].
    + split; [lra|]. intros Hb. destruct Hc as [_ Hm]. specialize (Hm p Hp Hb). rewrite (gd_self _ _ _ G p Hp) in Hm. lra.
    + split; [|easy]. intros _ q Hq Hb. destruct Hc as [_ Hm]. specialize (Hm q Hq Hb). lra.
    + intros w Hc' Hlw. rewrite (Huniq _ _ Hc' Hc) in *. lra.
  - apply (Hmain width); try easy; [lra| | |].
    + split; [lra|]. intros Hb. destruct (Hno p Hp Hb).
    + split; [|easy]. intros _ q Hq Hb. destruct (Hno q Hq Hb).
    + intros w [(q & Hq & Hb & _) _] _. destruct (Hno q Hq Hb).
Qed.
Print Assumptions C105_apod.

(* so the apodization does not decrease away from the bad pixels *)
Theorem C105_apod_monotone : forall ny nx d df mask width edge profile p p' w w' v v', 1 <= ny -> 1 <= nx -> grid_distance ny nx d -> finds_closest (ny * nx) d df -> zlen mask = ny * nx ->
  (0 < width)%R -> profile = apod_profile_lin \/ profile = apod_profile_cos -> 0 <= p < ny * nx -> 0 <= p' < ny * nx ->
  let bad q := zget mask q = Some 0 \/ (edge = true /\ on_border ny nx q) in
  closest d (ny * nx) bad p w -> closest d (ny * nx) bad p' w' -> (w <= w')%R ->
  apod_mask ny nx df mask width edge profile p = Some v -> apod_mask ny nx df mask width edge profile p' = Some v' -> (v <= v')%R.
Proof.
  intros ny nx d df mask width edge profile p p' w w' v v' H1 H2 G F Hl Hw Hpr Hp Hp' bad Hc Hc' Hle E E'.
  destruct (C105_apod ny nx d df mask width edge profile p H1 H2 G F Hl Hw Hpr Hp) as (u & Eu & Hb & _ & H1w & Hu).
  destruct (C105_apod ny nx d df mask width edge profile p' H1 H2 G F Hl Hw Hpr Hp') as (u' & Eu' & Hb' & _ & H1w' & Hu').
  rewrite E in Eu. injection Eu as <-. rewrite E' in Eu'. injection Eu' as <-.
  destruct (Rle_lt_dec width w') as [Hbig|Hsm].
  - replace v' with 1%R; [lra|]. symmetry. apply H1w'. intros q Hq Hbq. destruct Hc' as [_ Hm]. specialize (Hm q Hq Hbq). lra.
  - rewrite (Hu w Hc ltac:(lra)), (Hu' w' Hc' ltac:(lra)).
    assert (H0 : (0 <= w)%R). { destruct Hc as [(q & Hq & _ & <-) _]. destruct (Z.eq_dec p q) as [<-|Hne]; [rewrite (gd_self _ _ _ G p Hp); lra|]. left. now apply (gd_pos _ _ _ G). }
    assert (Hi : (0 < / width)%R) by now apply Rinv_0_lt_compat.
    assert (Hx : (0 <= w / width <= w' / width)%R) by (unfold Rdiv; split; [apply Rmult_le_pos; lra|apply Rmult_le_compat_r; lra]).
    assert (Hy : (w' / width <= 1)%R). { apply Rmult_le_reg_r with width; [easy|]. unfold Rdiv. rewrite Rmult_assoc, Rinv_l by lra. lra. }
    destruct Hpr as [-> | ->]; [unfold apod_profile_lin; lra|]. unfold apod_profile_cos. pose proof PI_RGT_0.
    assert (Hcos : (cos (PI * (w' / width)) <= cos (PI * (w / width)))%R) by (apply cos_decr_1; nra). lra.
Qed.
Print Assumptions C105_apod_monotone.

(* outside the claim: a radius of 0 does not leave the mask alone. Growing by 0 empties it and shrinking by 0 fills it *)
Theorem C105_zero_radius : forall ny nx df mask p, 0 <= p < ny * nx -> (forall pts q k v, df pts None q = (v, k) -> (0 <= v)%R) ->
  zget (grow_mask ny nx df mask 0) p = Some 0 /\ zget (shrink_mask ny nx df mask 0) p = Some 1.
Proof.
  intros ny nx df mask p Hp Hd. unfold grow_mask, shrink_mask. rewrite !zget_map, !zget_zrange by lia. cbn [option_map]. rewrite Z.add_0_l.
  assert (H : forall m, lt_r (distance_transform ny nx df m (Some 0%R) p) 0 = false).
  { intros m. unfold distance_transform. unfold distance_from. destruct (mget m p =? 0); cbn [lt_r]; [destruct (Rlt_dec 0 0); [lra|easy]|].
    destruct (find_edges ny nx m) as [|e es]; cbn [fst lt_r]; [destruct (Rlt_dec 0 0); [lra|easy]|].
    destruct (Rle_dec 0 0) as [_|n]; [|lra]. destruct (df (e :: es) None p) as [v k] eqn:E. cbn [fst lt_r]. specialize (Hd _ _ _ _ E). destruct (Rlt_dec v 0); [lra|easy]. }
  rewrite !H. easy.
Qed.
Print Assumptions C105_zero_radius.

(* outside the claim: with a limit, the inside of a labelled region loses its label, though its distance is 0 *)
Theorem C104_label_lost : forall df, finds_closest (5 * 5) (flat_distance 1 1 5) df ->
  labeled_distance_transform 5 5 df (repeat 1 25) (Some (1 / 2)%R) 12 = (Some 0%R, 0).
Proof.
  intros df F. unfold labeled_distance_transform.
  set (edges := find_edges_labeled 5 5 (repeat 1 25)).
  assert (Hb : Forall (fun q => (12 / 5 - q / 5) ^ 2 + (12 mod 5 - q mod 5) ^ 2 >= 1) edges).
  { apply Forall_forall. assert (H : forallb (fun q => 1 <=? (12 / 5 - q / 5) ^ 2 + (12 mod 5 - q mod 5) ^ 2) edges = true) by (vm_compute; reflexivity).
    intros q Hq. pose proof (proj1 (forallb_forall _ _) H q Hq) as Hx. cbn beta in Hx. apply Z.leb_le in Hx. lia. }
  assert (Hr : Forall (fun q => 0 <= q < 5 * 5) edges).
  { apply Forall_forall. assert (H : forallb (fun q => (0 <=? q) && (q <? 25)) edges = true) by (vm_compute; reflexivity).
    intros q Hq. pose proof (proj1 (forallb_forall _ _) H q Hq) as Hx. cbn beta in Hx. apply andb_prop in Hx. destruct Hx as [Hx1 Hx2]. apply Z.leb_le in Hx1. apply Z.ltb_lt in Hx2. lia. }
  assert (Hd : Forall (fun q => (1 <= flat_distance 1 1 5 12 q)%R) edges).
  { eapply Forall_impl; [|exact Hb]. intros q Hq. cbn beta in *. unfold flat_distance. rewrite !Rmult_1_l. rewrite <- sqrt_1. apply sqrt_le_1_alt.
    rewrite !pow_IZR, <- plus_IZR. apply IZR_le. change (Z.of_nat 2) with 2. lia. }
  assert (Hne : edges <> []) by (vm_compute; discriminate).
  unfold distance_from. destruct edges as [|e es] eqn:Ee; [congruence|]. rewrite <- Ee in *.
  destruct (Rle_dec (1 / 2) 0) as [|_]; [lra|].
  destruct (F edges (Some (1 / 2)%R) 12 Hne Hr ltac:(lia) ltac:(intros r E; injection E as <-; lra)) as [(k & q & Hk & Edf & _ & Hle)|(r & E & Edf & _)].
  - exfalso. rewrite Forall_forall in Hd. specialize (Hd q (nth_error_In _ _ Hk)). specialize (Hle _ eq_refl). lra.
  - injection E as <-. rewrite Edf. reflexivity.
Qed.
Print Assumptions C104_label_lost.

(* the hypotheses are met: a 3 x 4 flat map and a full-sky map with the brute force search *)
Example C104_ex : exists d df, grid_distance 3 4 d /\ inner_step 3 4 d /\ finds_closest (3 * 4) d df /\ zlen [1;1;1;1; 1;0;1;1; 1;1;1;1] = 3 * 4 /\
  limited d (3 * 4) (fun q => zget [1;1;1;1; 1;0;1;1; 1;1;1;1] q = Some 0) 7 None (distance_transform 3 4 df [1;1;1;1; 1;0;1;1; 1;1;1;1] None 7) /\ d 7 5 = 2%R.
Proof.
  exists (flat_distance 1 1 4), (simple_from (flat_distance 1 1 4)). destruct (C104_flat 1 1 3 4 ltac:(lra) ltac:(lra) ltac:(lia) ltac:(lia)) as [G I].
  split; [easy|]. split; [easy|]. split; [apply C104_simple|]. split; [reflexivity|]. split.
  - apply C104_transform with (d := flat_distance 1 1 4); try easy; try lia. apply C104_simple.
  - unfold flat_distance. replace (7 / 4 - 5 / 4) with 0 by reflexivity. replace (7 mod 4 - 5 mod 4) with 2 by reflexivity.
    replace ((1 * 0) ^ 2 + (1 * 2) ^ 2)%R with (Rsqr 2) by (unfold Rsqr; ring). apply sqrt_Rsqr. lra.
Qed.
Example C105_ex : exists dec0 ddec dra, sphere_map dec0 ddec dra 3 8 /\ grid_distance 3 8 (sphere_distance dec0 ddec dra 8) /\
  zlen (grow_mask 3 8 (simple_from (sphere_distance dec0 ddec dra 8)) (repeat 0 24) 1) = 3 * 8.
Proof.
  exists (- (PI / 4))%R, (PI / 4)%R, (PI / 4)%R. pose proof PI_RGT_0.
  assert (S : sphere_map (- (PI / 4)) (PI / 4) (PI / 4) 3 8).
  { split; [lra|]. split; [lra|]. split; [rewrite Rabs_right by lra; lra|]. intros y Hy. assert (Hc : y = 0 \/ y = 1 \/ y = 2) by lia. destruct Hc as [-> | [-> | ->]]; lra. }
  split; [easy|]. destruct (C104_sphere _ _ _ 3 8 ltac:(lia) ltac:(lia) S) as [G _]. split; [easy|].
  apply (C105_grow 3 8 _ (simple_from (sphere_distance (- (PI / 4)) (PI / 4) (PI / 4) 8)) (repeat 0 24) 1 ltac:(lia) ltac:(lia) G (C104_simple _ _) eq_refl ltac:(lra)).
Qed.
