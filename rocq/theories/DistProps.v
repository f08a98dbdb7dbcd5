(* C51, C52, C53. *)
From Coq Require Import Permutation.
From Verif Require Import Base RangeModel RangeLemmas FindLemmas AlmModel AlmLemmas HpSpec HpModel HpLemmas DistSpec DistModel DistLemmas DistHeap DistRun.
Local Open Scope Z_scope.
Ltac Zify.zify_post_hook ::= idtac.

Lemma transform_of D npoint rmax npix pix nbs (valid : node -> Prop) (nbr : Z -> Z -> Prop) points starts d m :
  (forall q, valid q -> exists p, pix q = Some p /\ 0 <= p < npix) ->
  (forall q q' p, valid q -> valid q' -> pix q = Some p -> pix q' = Some p -> q = q') -> (forall q, valid q -> exists l, nbs q = Some l /\ forall r, In r l -> valid r) ->
  (forall p q, nbr p q -> exists u v l, valid u /\ pix u = Some p /\ nbs u = Some l /\ In v l /\ pix v = Some q) ->
  (forall q, In q points -> valid q) -> zlen starts = zlen points ->
  (forall i q, zget points i = Some q -> zget starts i = pix q) ->
  outcome D npoint rmax npix pix nbs valid points d m -> transform D npoint npix rmax nbr starts d m.
Proof.
  intros Hpix Hinj Hnbs Hnbr HV HL HS O.
  assert (ST : forall i p, zget starts i = Some p -> exists u, zget points i = Some u /\ pix u = Some p).
  { intros i p E. pose proof (zget_Some_range _ _ _ E) as R. rewrite HL in R. destruct (zget_in_range points i R) as [u Eu]. exists u. split; [exact Eu|]. rewrite <- (HS i u Eu). exact E. }
  split.
  - destruct O as ((H & _) & _). exact H.
  - eapply outcome_local; eassumption.
  - intros i p0 p E W1 HD. destruct (ST i p0 E) as (u & Eu & Pu). eapply outcome_reach; eassumption.
  - intros i p0 p E U W1. destruct (ST i p0 E) as (u & Eu & Pu). eapply outcome_exact; try eassumption.
    intros k q' Ek Pk. apply U. rewrite (HS k q' Ek). exact Pk.
Qed.

(* C51: the flat bubble transform, for every map size, distance function, cut-off and list of points inside the map. It
   stops on its own: every sufficient number of passes gives the same result. *)
Theorem C51_bubble : forall D big ny nx rmax points, 1 <= ny -> 1 <= nx -> (forall q, In q points -> 0 <= fst q < ny /\ 0 <= snd q < nx) ->
  exists dists domains, (forall fuel, ny * nx * zlen points < Z.of_nat fuel -> distance_from_points_bubble D big ny nx (zlen points) rmax points fuel = Some (dists, domains)) /\
    transform D (zlen points) (ny * nx) (if rmax <=? 0 then big else rmax) (grid_nbr ny nx) (map (fun q => fst q * nx + snd q) points) dists domains.
Proof.
  intros D big ny nx rmax points Hy Hx HP. assert (Hn : 0 <= ny * nx) by (apply Z.mul_nonneg_nonneg; lia).
  destruct (bubble_ok D (zlen points) (rmax_or big rmax) (ny * nx) (flat_pix ny nx) (flat_nbs ny nx) (flat_valid ny nx) (flat_Hpix ny nx) (flat_Hinj ny nx) (flat_Hnbs ny nx) Hn points HP eq_refl) as (d & m & E & O).
  exists d, m. split; [intros fuel Hf; unfold distance_from_points_bubble; apply E; exact Hf|].
  eapply transform_of; [apply flat_Hpix|apply flat_Hinj|apply flat_Hnbs|apply flat_Hnbr|exact HP|unfold zlen; now rewrite map_length| |exact O].
  intros i q Eq. unfold node in *. rewrite zget_map, Eq. reflexivity.
Qed.
Print Assumptions C51_bubble.

(* C51: the healpix transforms *)
Theorem C51_bubble_healpix : forall D big n rmax points, 1 <= n <= 32767 -> (forall q, In q points -> is_pix n (fst q) (snd q)) ->
  exists geo dists domains, build_healpix_info n = Some geo /\
    (forall fuel, 12 * n * n * zlen points < Z.of_nat fuel -> distance_from_points_bubble_healpix D big geo (zlen points) rmax points fuel = Some (dists, domains)) /\
    transform D (zlen points) (12 * n * n) (if rmax <=? 0 then big else rmax) (hp_nbr n) (map (fun q => ring_start n (fst q) + snd q) points) dists domains.
Proof.
  intros D big n rmax points Hn HP. exists (the_info n).
  destruct (bubble_ok D (zlen points) (rmax_or big rmax) (12 * n * n) (hp_pix (the_info n)) (hp_nbs (the_info n)) (hp_valid n)
    (fun q => hp_Hpix n q ltac:(lia)) (fun q q' p => hp_Hinj n q q' p ltac:(lia)) (fun q => hp_Hnbs n q ltac:(lia)) ltac:(nia) points HP eq_refl) as (d & m & E & O).
  exists d, m. split; [apply build_ok; exact Hn|]. split; [intros fuel Hf; unfold distance_from_points_bubble_healpix; apply E; exact Hf|].
  eapply transform_of; [intros q; apply hp_Hpix; lia|intros q q' p; apply hp_Hinj; lia|intros q; apply hp_Hnbs; lia|intros p q; apply hp_Hnbr; lia|exact HP|unfold zlen; now rewrite map_length| |exact O].
  intros i q Eq. unfold node in *. rewrite zget_map, Eq. cbn [option_map]. symmetry. apply hp_pix_eq. apply HP. eapply zget_In. exact Eq.
Qed.
Print Assumptions C51_bubble_healpix.
Theorem C51_heap_healpix : forall D big n rmax points, 1 <= n <= 32767 -> (forall q, In q points -> is_pix n (fst q) (snd q)) ->
  exists geo dists domains, build_healpix_info n = Some geo /\
    (forall fuel, zlen points + 12 * n * n * zlen points <= Z.of_nat fuel -> distance_from_points_heap_healpix D big geo (zlen points) rmax points fuel = Some (dists, domains)) /\
    transform D (zlen points) (12 * n * n) (if rmax <=? 0 then big else rmax) (hp_nbr n) (map (fun q => ring_start n (fst q) + snd q) points) dists domains.
Proof.
  intros D big n rmax points Hn HP. exists (the_info n).
  destruct (heap_ok D (zlen points) (rmax_or big rmax) (12 * n * n) (hp_pix (the_info n)) (hp_nbs (the_info n)) (hp_valid n)
    (fun q => hp_Hpix n q ltac:(lia)) (fun q q' p => hp_Hinj n q q' p ltac:(lia)) (fun q => hp_Hnbs n q ltac:(lia)) ltac:(nia) points HP eq_refl) as (d & m & E & O).
  exists d, m. split; [apply build_ok; exact Hn|]. split; [intros fuel Hf; unfold distance_from_points_heap_healpix; apply E; exact Hf|].
  eapply transform_of; [intros q; apply hp_Hpix; lia|intros q q' p; apply hp_Hinj; lia|intros q; apply hp_Hnbs; lia|intros p q; apply hp_Hnbr; lia|exact HP|unfold zlen; now rewrite map_length| |exact O].
  intros i q Eq. unfold node in *. rewrite zget_map, Eq. cbn [option_map]. symmetry. apply hp_pix_eq. apply HP. eapply zget_In. exact Eq.
Qed.
Print Assumptions C51_heap_healpix.

(* C51: so a named distance never falls below that of the nearest point *)
Theorem C51_never_below : forall D npoint npix rmax nbr starts dists domains, transform D npoint npix rmax nbr starts dists domains ->
  forall p d j low, zget dists p = Some d -> zget domains p = Some j -> 0 <= j -> (forall k, 0 <= k < npoint -> low <= D k p) -> low <= d.
Proof.
  intros D npoint npix rmax nbr starts dists domains [H _ _ _] p d j low Ed Ej Hj HL. pose proof H as (L & _). pose proof (zget_Some_range _ _ _ Ed).
  destruct (honest_at _ _ _ _ _ _ p H ltac:(lia)) as (d1 & j1 & E1 & E2 & X). assert (d1 = d) by congruence. assert (j1 = j) by congruence. subst.
  destruct X as [X|[X ->]]; [lia|]. apply HL. exact X.
Qed.
Print Assumptions C51_never_below.

Lemma zget_combine_ {A B} (a : list A) (b : list B) k : zget (combine a b) k = match zget a k, zget b k with Some x, Some y => Some (x, y) | _, _ => None end.
Proof.
  unfold zget. destruct (k <? 0); [reflexivity|]. generalize (Z.to_nat k). clear k. intros k. revert a b. induction k as [|k IH]; intros [|x a] [|y b]; cbn; try reflexivity; [destruct (nth_error a k); reflexivity|apply IH].
Qed.
Lemma map_snd_combine_ {A B} (a : list A) (b : list B) : length a = length b -> map snd (combine a b) = b.
Proof. revert b; induction a as [|x a IH]; intros [|y b] H; cbn in *; try congruence. now rewrite IH by congruence. Qed.
(* C51: brute force gives the nearest point, the first of several, whatever was in the output; without points the output is left as it was *)
Theorem C51_simple : forall D npix npoint out, zlen out = npix -> 1 <= npoint -> forall p, 0 <= p < npix -> exists j,
  zget (distance_from_points_simple D npix npoint out) p = Some (D j p, j) /\ 0 <= j < npoint /\
  (forall k, 0 <= k < npoint -> D j p <= D k p) /\ (forall k, 0 <= k < j -> D j p < D k p).
Proof.
  intros D npix npoint out HL Hn p Hp. unfold distance_from_points_simple. destruct (zget_in_range out p ltac:(lia)) as [o Eo].
  assert (E : zget (combine (zrange 0 npix) out) p = Some (p, o)).
  { rewrite zget_combine_, Eo, zget_zrange by lia. reflexivity. }
  rewrite zget_map, E. cbn [option_map]. set (F := fun j => D j p).
  assert (G : forall n, 1 <= n -> exists j, simple_pixel F n o = (F j, j) /\ 0 <= j < n /\ (forall k, 0 <= k < n -> F j <= F k) /\ (forall k, 0 <= k < j -> F j < F k)).
  { intros n H1. pattern n. apply (Zlt_lower_bound_ind _ 1); [|lia]. clear n H1. intros n IH H1. unfold simple_pixel.
    destruct (Z.eq_dec n 1) as [->|N1].
    - exists 0. split; [destruct o; reflexivity|]. split; [lia|]. split; intros k Hk; [replace k with 0 by lia; lia|lia].
    - destruct (IH (n - 1) ltac:(lia)) as (j & E1 & Hj & A & B). rewrite (zrange_split 0 (n - 1) n) by lia. rewrite fold_left_app. unfold simple_pixel in E1. rewrite E1.
      rewrite (zrange_cons (n - 1)) by lia. rewrite (zrange_empty (n - 1 + 1)) by lia. cbn [fold_left].
      destruct (Z.eqb_spec (n - 1) 0); [lia|]. cbn [orb]. destruct (Z.ltb_spec (F (n - 1)) (F j)) as [C|C].
      + exists (n - 1). split; [reflexivity|]. split; [lia|]. split; intros k Hk; [destruct (Z.eq_dec k (n - 1)) as [->|]; [lia|specialize (A k ltac:(lia)); lia]|specialize (A k ltac:(lia)); lia].
      + exists j. split; [reflexivity|]. split; [lia|]. split; [|exact B]. intros k Hk. destruct (Z.eq_dec k (n - 1)) as [->|]; [lia|apply A; lia]. }
  destruct (G npoint Hn) as (j & E1 & Hj & A & B). exists j. rewrite E1. repeat split; try assumption; lia.
Qed.
Print Assumptions C51_simple.
Theorem C51_simple_no_points : forall D npix out, zlen out = npix -> distance_from_points_simple D npix 0 out = out.
Proof.
  intros D npix out HL. unfold distance_from_points_simple. rewrite (map_ext _ snd) by (intros [a b]; reflexivity).
  rewrite map_snd_combine_; [reflexivity|]. pose proof (zrange_zlen 0 npix). unfold zlen in *. lia.
Qed.
Print Assumptions C51_simple_no_points.

(* The limits of the growing methods. When two points start in one pixel the last one wins, even if it is further away; *)
Theorem C51_shared_pixel_counterexample : let D := fun j p => if (j =? 0) then 1 else 5 in
  distance_from_points_bubble D 1000 1 2 2 0 [(0, 0); (0, 0)] 10 = Some ([5; 5], [1; 1]).
Proof. vm_compute. reflexivity. Qed.
Print Assumptions C51_shared_pixel_counterexample.
(* and the nearest point is missed by a pixel whose neighbours all belong to other points *)
Theorem C51_narrow_counterexample : let D := fun j p => if p =? 2 then (if j =? 0 then 1 else 2) else 3 * Z.abs (p - (if j =? 2 then 3 else j)) in
  D 0 2 = 1 /\ distance_from_points_bubble D 1000 1 4 3 0 [(0, 0); (0, 1); (0, 3)] 20 = Some ([0; 0; 2; 0], [0; 1; 1; 2]).
Proof. vm_compute. auto. Qed.
Print Assumptions C51_narrow_counterexample.

Example C51_ex : distance_from_points_bubble (fun j p => Z.abs (p - 3 * j)) 1000 2 3 2 0 [(0, 0); (1, 0)] 20 = Some ([0; 1; 1; 0; 1; 2], [0; 0; 1; 1; 1; 1]).
Proof. vm_compute. reflexivity. Qed.
Example C51_hp_ex : bind (build_healpix_info 1) (fun g => distance_from_points_heap_healpix (fun j p => Z.abs (p - 11 * j)) 1000 g 2 4 [(0, 0); (2, 3)] 100)
  = Some ([0; 1; 2; 3; 4; 4; 4; 4; 3; 2; 1; 0], [0; 0; 0; 0; -1; -1; -1; -1; 1; 1; 1; 1]).
Proof. vm_compute. reflexivity. Qed.

(* ---- C52 ---- *)
Lemma heap_run_bag ops : forall l l' out, heap_run ops l = Some (l', out) -> Permutation (l ++ pushed ops) (out ++ l').
Proof.
  induction ops as [|[e|] ops IH]; intros l l' out E; cbn [heap_run pushed] in *.
  - apply Some_inj in E. injection E as <- <-. rewrite app_nil_r. reflexivity.
  - apply IH in E. rewrite <- E. etransitivity; [symmetry; apply Permutation_middle|]. rewrite push_perm. reflexivity.
  - apply bind_some in E. destruct E as ([e l1] & E1 & E2). apply bind_some in E2. destruct E2 as ([l2 out2] & E2 & E3). apply Some_inj in E3. injection E3 as <- <-.
    apply IH in E2. destruct l as [|x l]; [discriminate|]. destruct (pop_perm (x :: l) ltac:(discriminate)) as (e' & l1' & E' & P). rewrite E' in E1. injection E1 as -> ->.
    rewrite P. cbn [app]. rewrite E2. reflexivity.
Qed.
(* C52: in every history each pop removes exactly the entry it returns: what was pushed is what was popped and what is left *)
Theorem C52_nothing_lost : forall ops heap out, heap_run ops [] = Some (heap, out) -> Permutation (pushed ops) (out ++ heap).
Proof. intros ops heap out E. apply heap_run_bag in E. exact E. Qed.
Print Assumptions C52_nothing_lost.
Lemma heap_run_ordered ops : forall l l' out, ordered l -> even_pops (zlen l) ops -> heap_run ops l = Some (l', out) -> ordered l'.
Proof.
  induction ops as [|[e|] ops IH]; intros l l' out O V E; cbn [heap_run even_pops] in *.
  - apply Some_inj in E. injection E as <- <-. exact O.
  - eapply IH; [apply push_ordered; exact O| |exact E]. replace (zlen (pointheap_push l e)) with (zlen l + 1); [exact V|].
    unfold zlen. rewrite (Permutation_length (push_perm l e)). cbn [length]. lia.
  - apply bind_some in E. destruct E as ([e l1] & E1 & E2). apply bind_some in E2. destruct E2 as ([l2 out2] & E2 & E3). apply Some_inj in E3. injection E3 as <- <-.
    assert (L : zlen l1 = zlen l - 1). { destruct l as [|x l]; [discriminate|]. destruct (pop_perm (x :: l) ltac:(discriminate)) as (e' & l1' & E' & P). rewrite E' in E1. injection E1 as -> ->.
      apply Permutation_length in P. unfold zlen. rewrite P. cbn [length]. lia. }
    destruct V as [V1 V2]. rewrite <- L in V1, V2. eapply IH; [eapply pop_ordered; [exact O|exact E1|exact V1]|exact V2|exact E2].
Qed.
(* C52: a pop returns a smallest entry as long as no earlier pop left an odd number of entries above one *)
Theorem C52_smallest_partial : forall ops heap out e rest, heap_run ops [] = Some (heap, out) -> even_pops 0 ops ->
  pointheap_pop heap = Some (e, rest) -> Permutation heap (e :: rest) /\ forall x, In x heap -> fst e <= fst x.
Proof.
  intros ops heap out e rest E V P. split.
  - destruct heap as [|x l]; [discriminate|]. destruct (pop_perm (x :: l) ltac:(discriminate)) as (e' & l1 & E' & Q). rewrite E' in P. injection P as -> ->. exact Q.
  - eapply pop_min; [|exact P]. apply (heap_run_ordered ops [] heap out); [intros k Hk; cbn in Hk; lia|exact V|exact E].
Qed.
Print Assumptions C52_smallest_partial.
(* C52: in general it does not: with 3 still in the queue, 4 is returned *)
Theorem C52_smallest_refuted : let q := (0, 0) in
  option_map snd (heap_run [QPush (1, q); QPush (2, q); QPush (3, q); QPush (9, q); QPop; QPush (4, q); QPop; QPop; QPop] []) = Some [(1, q); (2, q); (4, q); (3, q)].
Proof. vm_compute. reflexivity. Qed.
Print Assumptions C52_smallest_refuted.
Example C52_ex : let q := (0, 0) in let ops := [QPush (5, q); QPush (2, q); QPush (7, q); QPop; QPush (1, q)] in
  even_pops 0 ops /\ option_map (fun '(l, o) => (option_map fst (pointheap_pop l), o)) (heap_run ops []) = Some (Some (1, q), [(2, q)]).
Proof. vm_compute. repeat split; auto; right; reflexivity. Qed.

(* ---- C53 ---- *)
Lemma c_range_In a b s i : 0 < s -> In i (c_range a b s) <-> exists k, 0 <= k /\ i = a + s * k /\ i < b.
Proof.
  intros Hs. unfold c_range. rewrite in_map_iff. split.
  - intros (k & <- & Hk). apply zrange_In in Hk. exists k. split; [lia|]. split; [reflexivity|]. pose proof (Z.mul_div_le (b - a + s - 1) s Hs).
    assert (s * (k + 1) <= s * ((b - a + s - 1) / s)) by (apply Z.mul_le_mono_nonneg_l; lia). lia.
  - intros (k & Hk & -> & Hb). exists k. split; [reflexivity|]. apply zrange_In. split; [lia|]. assert (k + 1 <= (b - a + s - 1) / s); [|lia].
    apply Z.div_le_lower_bound; lia.
Qed.
Lemma edges_exact own differ ny nx i : 1 <= ny -> 1 <= nx -> In i (edges_of own differ ny nx) <-> edge_pixel own (differ i) ny nx i.
Proof.
  intros Hy Hx. unfold edges_of, edge_pixel. rewrite !in_app_iff, !filter_In, !zrange_In, !c_range_In by lia. rewrite in_flat_map.
  assert (B : forall y, 0 <= y < ny -> 0 <= y * nx /\ y * nx + nx <= ny * nx).
  { intros y H. split; [apply Z.mul_nonneg_nonneg; lia|]. assert ((y + 1) * nx <= ny * nx) by (apply Z.mul_le_mono_nonneg_r; lia). lia. }
  split.
  - intros [[R O]|[[R O]|[[(k & Hk & E & L) O]|[[(k & Hk & E & L) O]|(y & Hy' & H)]]]].
    + exists 0, i. repeat split; try lia; auto.
    + exists (ny - 1), (i - (ny - 1) * nx). repeat split; try lia; auto.
    + exists (k + 1), 0. assert (k + 1 < ny). { destruct (Z.lt_ge_cases (k + 1) ny) as [C|C]; [exact C|]. assert (ny * nx <= (k + 1) * nx) by (apply Z.mul_le_mono_nonneg_r; lia). lia. }
      repeat split; try lia; auto.
    + exists k, (nx - 1). assert (k < ny). { destruct (Z.lt_ge_cases k ny) as [C|C]; [exact C|]. assert (ny * nx <= k * nx) by (apply Z.mul_le_mono_nonneg_r; lia). lia. }
      repeat split; try lia; auto.
    + apply zrange_In in Hy'. apply filter_In in H. destruct H as [H T]. apply in_map_iff in H. destruct H as (x & <- & Hx'). apply zrange_In in Hx'.
      apply andb_true_iff in T. destruct T as [O T]. exists y, x. repeat split; try lia; auto. right; right; right; right.
      apply orb_true_iff in T. destruct T as [T|T]; [apply orb_true_iff in T; destruct T as [T|T]; [apply orb_true_iff in T; destruct T as [T|T]|]|].
      * exists 0, (-1). split; [reflexivity|]. replace ((y + 0) * nx + (x + -1)) with (y * nx + x - 1) by lia. exact T.
      * exists 0, 1. split; [reflexivity|]. replace ((y + 0) * nx + (x + 1)) with (y * nx + x + 1) by lia. exact T.
      * exists (-1), 0. split; [reflexivity|]. replace ((y + -1) * nx + (x + 0)) with (y * nx + x - nx) by lia. exact T.
      * exists 1, 0. split; [reflexivity|]. replace ((y + 1) * nx + (x + 0)) with (y * nx + x + nx) by lia. exact T.
  - intros (y & x & Hy' & Hx' & E & O & C). pose proof (B y Hy') as By.
    destruct (Z.eq_dec y 0) as [->|N1]; [left; split; [lia|exact O]|]. right.
    destruct (Z.eq_dec y (ny - 1)) as [->|N2]; [left; split; [lia|exact O]|]. right.
    destruct (Z.eq_dec x 0) as [->|N3]; [left; split; [exists (y - 1); lia|exact O]|]. right.
    destruct (Z.eq_dec x (nx - 1)) as [->|N4]; [left; split; [exists y; lia|exact O]|]. right.
    destruct C as [C|[C|[C|[C|(dy & dx & Hd & T)]]]]; try lia. exists y. split; [apply zrange_In; lia|]. apply filter_In. split; [apply in_map_iff; exists x; split; [lia|apply zrange_In; lia]|].
    rewrite O. cbn [andb]. rewrite !orb_true_iff. assert (X : dy = 0 /\ dx = -1 \/ dy = 0 /\ dx = 1 \/ dy = -1 /\ dx = 0 \/ dy = 1 /\ dx = 0) by lia.
    destruct X as [[-> ->]|[[-> ->]|[[-> ->]|[-> ->]]]].
    + left; left; left. replace (i - 1) with ((y + 0) * nx + (x + -1)) by lia. exact T.
    + left; left; right. replace (i + 1) with ((y + 0) * nx + (x + 1)) by lia. exact T.
    + left; right. replace (i - nx) with ((y + -1) * nx + (x + 0)) by lia. exact T.
    + right. replace (i + nx) with ((y + 1) * nx + (x + 0)) by lia. exact T.
Qed.
(* C53: find_edges lists exactly the zero pixels on the border of the map or beside a non-zero pixel *)
Theorem C53_edges : forall ny nx mask, 1 <= ny -> 1 <= nx -> zlen mask = ny * nx ->
  forall i, In i (find_edges ny nx mask) <-> edge_pixel (fun i => mget mask i =? 0) (fun k => negb (mget mask k =? 0)) ny nx i.
Proof. intros ny nx mask Hy Hx _ i. apply (edges_exact _ (fun _ k => negb (mget mask k =? 0))); assumption. Qed.
Print Assumptions C53_edges.
Theorem C53_edges_labeled : forall ny nx labels, 1 <= ny -> 1 <= nx -> zlen labels = ny * nx ->
  forall i, In i (find_edges_labeled ny nx labels) <-> edge_pixel (fun i => negb (mget labels i =? 0)) (fun k => negb (mget labels k =? mget labels i)) ny nx i.
Proof. intros ny nx labels Hy Hx _ i. apply (edges_exact _ (fun i k => negb (mget labels k =? mget labels i))); assumption. Qed.
Print Assumptions C53_edges_labeled.
(* but corner pixels are listed twice, or more often on maps of one row or column *)
Theorem C53_corner_counterexample : find_edges 2 3 [0; 1; 1; 1; 1; 1] = [0] /\ find_edges 2 3 [1; 1; 0; 1; 1; 1] = [2; 2] /\ find_edges 1 1 [0] = [0; 0; 0].
Proof. vm_compute. auto. Qed.
Print Assumptions C53_corner_counterexample.

(* C53: on healpix maps every edge pixel is listed once *)
Definition hp_rows (geo : hpinfo) : list node :=
  flat_map (fun y => match zget (hp_nx geo) y with Some w => map (fun x => (y, x)) (zrange 0 w) | None => [] end) (zrange 0 (hp_ny geo)).
Lemma hp_rows_In n q : 1 <= n -> In q (hp_rows (the_info n)) <-> is_pix n (fst q) (snd q).
Proof.
  intros Hn. unfold hp_rows. rewrite in_flat_map. change (hp_ny (the_info n)) with (nring n). split.
  - intros (y & Hy & H). apply zrange_In in Hy. rewrite info_nx in H by exact Hy. apply in_map_iff in H. destruct H as (x & <- & Hx). apply zrange_In in Hx. split; assumption.
  - intros [Hy Hx]. exists (fst q). split; [apply zrange_In; exact Hy|]. rewrite info_nx by exact Hy. apply in_map_iff. exists (snd q). split; [destruct q; reflexivity|apply zrange_In; exact Hx].
Qed.
Lemma hp_rows_NoDup n : 1 <= n -> NoDup (hp_rows (the_info n)).
Proof.
  intros Hn. unfold hp_rows. apply NoDup_flat_map; [| |apply zrange_NoDup].
  - intros y Hy. apply zrange_In in Hy. change (hp_ny (the_info n)) with (nring n) in Hy. rewrite info_nx by exact Hy. apply NoDup_map_inj; [intros a b _ _ E; injection E; auto|apply zrange_NoDup].
  - intros y y' q Hy Hy' H H'. apply zrange_In in Hy, Hy'. change (hp_ny (the_info n)) with (nring n) in *. rewrite info_nx in H, H' by assumption.
    apply in_map_iff in H, H'. destruct H as (x & <- & _), H' as (x' & E & _). injection E as E _. symmetry. exact E.
Qed.
Lemma hp_edges_ok n own differ : 1 <= n -> exists l, hp_edges (the_info n) own differ = Some l /\ NoDup l /\
  forall y x, In (y, x) l <-> is_pix n y x /\ own (ring_start n y + x) = true /\ exists d y' x', In d directions /\ edge_neighbour n (fst d) (snd d) y x y' x' /\
    differ (ring_start n y + x) (ring_start n y' + x') = true.
Proof.
  intros Hn. set (P := fun q : node => own (ring_start n (fst q) + snd q) && match get_healpix_neighs (the_info n) (fst q) (snd q) with
    Some nb => existsb (fun v => differ (ring_start n (fst q) + snd q) (ring_start n (fst v) + snd v)) nb | None => false end).
  exists (filter P (hp_rows (the_info n))). split; [|split].
  - unfold hp_edges. fold (hp_rows (the_info n)).
    assert (G : forall l out, (forall q, In q l -> is_pix n (fst q) (snd q)) ->
      ofold (fun out q => bind (get_healpix_neighs (the_info n) (fst q) (snd q)) (fun nb => bind (hp_pix (the_info n) q) (fun i =>
        if own i then bind (all_some (map (hp_pix (the_info n)) nb)) (fun ks => Some (if existsb (differ i) ks then out ++ [q] else out)) else Some out))) l out = Some (out ++ filter P l)).
    { induction l as [|q l IH]; intros out HP; cbn [ofold filter]; [rewrite app_nil_r; reflexivity|]. pose proof (HP q (or_introl eq_refl)) as Hq.
      destruct (neighs_spec n (fst q) (snd q) Hn Hq) as (nb & E & F). assert (NV : forall v, In v nb -> hp_valid n v).
      { intros v Hv. destruct (hp_Hnbs n q Hn Hq) as (nb' & E' & H'). unfold hp_nbs in E'. rewrite E in E'. apply Some_inj in E'. subst nb'. auto. }
      rewrite E. cbn [bind]. rewrite (hp_pix_eq n q Hq). cbn [bind]. unfold P at 1. rewrite E.
      assert (AS : all_some (map (hp_pix (the_info n)) nb) = Some (map (fun v => ring_start n (fst v) + snd v) nb)).
      { apply all_some_map. intros v Hv. apply hp_pix_eq. auto. }
      destruct (own (ring_start n (fst q) + snd q)); cbn [andb].
      - rewrite AS. cbn [bind]. rewrite existsb_map_false. destruct (existsb _ nb); rewrite IH by (intros; apply HP; right; assumption); [rewrite <- app_assoc|]; reflexivity.
      - apply IH. intros; apply HP; right; assumption. }
    apply (G _ []). intros q Hq. apply hp_rows_In in Hq; assumption.
  - apply NoDup_filter. apply hp_rows_NoDup. exact Hn.
  - intros y x. rewrite filter_In, hp_rows_In by exact Hn. unfold P. cbn [fst snd]. rewrite andb_true_iff. split.
    + intros (HP & HO & HE). split; [exact HP|]. split; [exact HO|]. destruct (get_healpix_neighs (the_info n) y x) as [nb|] eqn:E; [|discriminate].
      apply existsb_exists in HE. destruct HE as (v & Hv & T). destruct (neighs_sound n y x v nb Hn HP E Hv) as (d & Hd & H). exists d, (fst v), (snd v). auto.
    + intros (HP & HO & d & y' & x' & Hd & HE & T). split; [exact HP|]. split; [exact HO|]. destruct (neighs_spec n y x Hn HP) as (nb & E & _). rewrite E.
      apply existsb_exists. exists (y', x'). split; [eapply neighs_complete; eassumption|exact T].
Qed.
Theorem C53_edges_healpix : forall n mask, 1 <= n <= 32767 -> zlen mask = 12 * n * n -> exists geo l, build_healpix_info n = Some geo /\ find_edges_healpix geo mask = Some l /\ NoDup l /\
  forall y x, In (y, x) l <-> is_pix n y x /\ mget mask (ring_start n y + x) = 0 /\
    exists d y' x', In d directions /\ edge_neighbour n (fst d) (snd d) y x y' x' /\ mget mask (ring_start n y' + x') <> 0.
Proof.
  intros n mask Hn _. destruct (hp_edges_ok n (fun i => mget mask i =? 0) (fun _ k => negb (mget mask k =? 0)) ltac:(lia)) as (l & E & N & H).
  exists (the_info n), l. split; [apply build_ok; exact Hn|]. split; [exact E|]. split; [exact N|]. intros y x. rewrite H. rewrite Z.eqb_eq.
  split; intros (A & B & d & y' & x' & C1 & C2 & C3); (split; [exact A|]; split; [exact B|]; exists d, y', x'; split; [exact C1|]; split; [exact C2|]).
  - apply negb_true_iff, Z.eqb_neq in C3. exact C3. - apply negb_true_iff, Z.eqb_neq. exact C3.
Qed.
Print Assumptions C53_edges_healpix.
Theorem C53_edges_labeled_healpix : forall n labels, 1 <= n <= 32767 -> zlen labels = 12 * n * n -> exists geo l, build_healpix_info n = Some geo /\ find_edges_labeled_healpix geo labels = Some l /\ NoDup l /\
  forall y x, In (y, x) l <-> is_pix n y x /\ mget labels (ring_start n y + x) <> 0 /\
    exists d y' x', In d directions /\ edge_neighbour n (fst d) (snd d) y x y' x' /\ mget labels (ring_start n y' + x') <> mget labels (ring_start n y + x).
Proof.
  intros n labels Hn _. destruct (hp_edges_ok n (fun i => negb (mget labels i =? 0)) (fun i k => negb (mget labels k =? mget labels i)) ltac:(lia)) as (l & E & N & H).
  exists (the_info n), l. split; [apply build_ok; exact Hn|]. split; [exact E|]. split; [exact N|]. intros y x. rewrite H. rewrite negb_true_iff, Z.eqb_neq.
  split; intros (A & B & d & y' & x' & C1 & C2 & C3); (split; [exact A|]; split; [exact B|]; exists d, y', x'; split; [exact C1|]; split; [exact C2|]).
  - apply negb_true_iff, Z.eqb_neq in C3. exact C3. - apply negb_true_iff, Z.eqb_neq. exact C3.
Qed.
Print Assumptions C53_edges_labeled_healpix.
Example C53_ex : find_edges 4 4 [1;1;1;1; 1;0;0;1; 1;0;0;1; 1;1;1;1] = [5; 6; 9; 10] /\ find_edges 5 5 (repeat 0 25) = [0;1;2;3;4;20;21;22;23;24;5;10;15;20;4;9;14;19;24].
Proof. vm_compute. auto. Qed.
Example C53_hp_ex : bind (build_healpix_info 1) (fun g => find_edges_healpix g [1;0;0;0; 0;0;0;0; 0;0;0;0]) = Some [(0, 1); (0, 3); (1, 0); (1, 1)].
Proof. vm_compute. reflexivity. Qed.
