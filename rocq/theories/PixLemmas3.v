From Coq Require Import Lqa Qabs.
From Verif Require Import Base RangeLemmas SliceSpec SliceModel SboxSpec ArrModel ArrLemmas PixSpec PixModel PixLemmas PixLemmas2.

Lemma bind_Some {A B} (x : A) (f : A -> option B) : bind (Some x) f = f x. Proof. reflexivity. Qed.

(* copying rows or columns of an array onto others *)
Lemma copy_rows {A} (r : farr A) s s' : 0 <= f_nx r -> py_len s (f_ny r) = py_len s' (f_ny r) ->
  exists r', set2 r s sl_all (get2 r s' sl_all) = Some r' /\ f_ny r' = f_ny r /\ f_nx r' = f_nx r /\
  forall y x, 0 <= x < f_nx r -> f_at r' y x = match sl_find s (f_ny r) y with Some i => f_at r (sl_at s' (f_ny r) i) x | None => f_at r y x end.
Proof.
  intros Hx E. unfold set2, get2. cbn [f_ny f_nx f_at]. rewrite E, !Z.eqb_refl. cbn [andb]. eexists. split; [reflexivity|]. cbn [f_ny f_nx f_at]. split; [reflexivity|]. split; [reflexivity|].
  intros y x Hxx. rewrite (find_all (f_nx r) x Hx). replace ((0 <=? x) && (x <? f_nx r)) with true by lia. destruct (sl_find s (f_ny r) y); [|reflexivity]. rewrite at_all by exact Hx. reflexivity.
Qed.
Lemma copy_cols {A} (r : farr A) s s' : 0 <= f_ny r -> py_len s (f_nx r) = py_len s' (f_nx r) ->
  exists r', set2 r sl_all s (get2 r sl_all s') = Some r' /\ f_ny r' = f_ny r /\ f_nx r' = f_nx r /\
  forall y x, 0 <= y < f_ny r -> f_at r' y x = match sl_find s (f_nx r) x with Some i => f_at r y (sl_at s' (f_nx r) i) | None => f_at r y x end.
Proof.
  intros Hy E. unfold set2, get2. cbn [f_ny f_nx f_at]. rewrite E, !Z.eqb_refl. cbn [andb]. eexists. split; [reflexivity|]. cbn [f_ny f_nx f_at]. split; [reflexivity|]. split; [reflexivity|].
  intros y x Hyy. rewrite (find_all (f_ny r) y Hy). replace ((0 <=? y) && (y <? f_ny r)) with true by lia. destruct (sl_find s (f_nx r) x); [|reflexivity]. rewrite at_all by exact Hy. reflexivity.
Qed.

Lemma find_to b n k : 0 <= b <= n -> sl_find (sl_to b) n k = if (0 <=? k) && (k <? b) then Some k else None.
Proof. intros H. destruct (sl_to_facts b n H) as (E1 & E2 & E3). rewrite sl_find_step1 by exact E2. rewrite E1, E3, Z.sub_0_r, Z.add_0_l. reflexivity. Qed.
Lemma find_from a n k : 0 < a <= n -> sl_find (sl_from (- a)) n k = if (n - a <=? k) && (k <? n) then Some (k - (n - a)) else None.
Proof. intros H. destruct (sl_from_facts a n H) as (E1 & E2 & E3). rewrite sl_find_step1 by exact E2. rewrite E1, E3. replace (n - a + a) with n by lia. reflexivity. Qed.
Lemma at_neg a b n j : 0 <= a -> 0 < b -> a + b <= n -> sl_at (sl (- a - b) (- b)) n j = n - a - b + j.
Proof. intros. destruct (sl_neg_facts a b n) as (E1 & E2 & E3); try lia. unfold sl_at. rewrite E1, E2. lia. Qed.

(* index into the unpadded axis after the two wrapping copies *)
Lemma wrap_index n a b k : 0 <= a <= n -> 0 < b <= n -> 0 <= k < n + (a + b) ->
  let k2 := if (n + a <=? k) && (k <? n + (a + b)) then a + (k - (n + a)) else k in
  let k1 := if (0 <=? k2) && (k2 <? a) then n + k2 else k2 in
  a <= k1 < a + n /\ k1 - a = (k - a) mod n.
Proof.
  intros Ha Hb Hk. cbv zeta. destruct ((n + a <=? k) && (k <? n + (a + b))) eqn:E1.
  - destruct ((0 <=? a + (k - (n + a))) && (a + (k - (n + a)) <? a)) eqn:E2; [lia|]. split; [lia|].
    replace (k - a) with (a + (k - (n + a)) - a + 1 * n) by lia. rewrite Z.mod_add by lia. rewrite Z.mod_small; lia.
  - destruct ((0 <=? k) && (k <? a)) eqn:E2.
    + split; [lia|]. replace (k - a) with (n + k - a + (-1) * n) by lia. rewrite Z.mod_add by lia. rewrite Z.mod_small; lia.
    + split; [lia|]. rewrite Z.mod_small; lia.
Qed.

Lemma embed_spec {A} (m : farr A) y0 x0 y1 x1 (v : A) : 0 <= f_ny m -> 0 <= f_nx m -> 0 <= y0 -> 0 <= x0 -> 0 <= y1 -> 0 <= x1 ->
  let ny := f_ny m + (y0 + y1) in let nx := f_nx m + (x0 + x1) in
  exists r, set2 (FA ny nx (fun _ _ => v)) (sl y0 (ny - y1)) (sl x0 (nx - x1)) m = Some r /\ f_ny r = ny /\ f_nx r = nx /\
  forall y x, f_at r y x = if (y0 <=? y) && (y <? y0 + f_ny m) && (x0 <=? x) && (x <? x0 + f_nx m) then f_at m (y - y0) (x - x0) else v.
Proof.
  intros. unfold set2. cbn [f_ny f_nx f_at]. rewrite !sl_len by lia. replace (ny - y1 - y0) with (f_ny m) by lia. replace (nx - x1 - x0) with (f_nx m) by lia. rewrite !Z.eqb_refl. cbn [andb].
  eexists. split; [reflexivity|]. cbn [f_ny f_nx f_at]. split; [reflexivity|]. split; [reflexivity|]. intros y x. rewrite !sl_find_in by lia.
  replace (ny - y1) with (y0 + f_ny m) by lia. replace (nx - x1) with (x0 + f_nx m) by lia.
  destruct (y0 <=? y), (y <? y0 + f_ny m), (x0 <=? x), (x <? x0 + f_nx m); reflexivity.
Qed.

Lemma pad_plain {A} (m : fmap A) y0 x0 y1 x1 v : 0 <= f_ny (fm_arr m) -> 0 <= f_nx (fm_arr m) -> 0 <= y0 -> 0 <= x0 -> 0 <= y1 -> 0 <= x1 ->
  exists r, pad m y0 x0 y1 x1 false v = Some (r, (sl y0 (y0 + f_ny (fm_arr m)), sl x0 (x0 + f_nx (fm_arr m)))) /\
   f_ny (fm_arr r) = f_ny (fm_arr m) + y0 + y1 /\ f_nx (fm_arr r) = f_nx (fm_arr m) + x0 + x1 /\ fm_wcs r = crpix_add (fm_wcs m) y0 x0 /\
   forall y x, f_at (fm_arr r) y x = if (y0 <=? y) && (y <? y0 + f_ny (fm_arr m)) && (x0 <=? x) && (x <? x0 + f_nx (fm_arr m)) then f_at (fm_arr m) (y - y0) (x - x0) else v.
Proof.
  intros. unfold pad, full2. replace (_ && _) with true by lia. rewrite bind_Some.
  destruct (embed_spec (fm_arr m) y0 x0 y1 x1 v) as (r & -> & H5 & H6 & H7); try assumption. rewrite bind_Some.
  eexists. split; [f_equal; apply f_equal2; [reflexivity|apply f_equal2; f_equal; lia]|]. cbn [fm_arr fm_wcs]. split; [lia|]. split; [lia|]. split; [reflexivity|exact H7].
Qed.

Lemma pad_wrap {A} (m : fmap A) y0 x0 y1 x1 v : let ny := f_ny (fm_arr m) in let nx := f_nx (fm_arr m) in
  0 <= y0 <= ny -> 0 <= x0 <= nx -> 0 < y1 <= ny -> 0 < x1 <= nx ->
  exists r, pad m y0 x0 y1 x1 true v = Some (r, (sl y0 (y0 + ny), sl x0 (x0 + nx))) /\
   f_ny (fm_arr r) = ny + y0 + y1 /\ f_nx (fm_arr r) = nx + x0 + x1 /\ fm_wcs r = crpix_add (fm_wcs m) y0 x0 /\
   forall y x, 0 <= y < f_ny (fm_arr r) -> 0 <= x < f_nx (fm_arr r) -> f_at (fm_arr r) y x = f_at (fm_arr m) ((y - y0) mod ny) ((x - x0) mod nx).
Proof.
  cbv zeta. set (ny := f_ny (fm_arr m)). set (nx := f_nx (fm_arr m)). intros Hy0 Hx0 Hy1 Hx1. unfold pad, full2. fold ny nx. replace (_ && _) with true by lia. rewrite bind_Some.
  destruct (embed_spec (fm_arr m) y0 x0 y1 x1 v) as (r & E & A1 & A2 & A3); try (fold ny nx; lia). fold ny nx in E, A1, A2, A3. rewrite E, bind_Some. clear E.
  destruct (copy_rows r (sl_to y0) (sl (- y0 - y1) (- y1))) as (r1 & -> & B1 & B2 & B3); [lia|rewrite A1; destruct (sl_to_facts y0 (ny + (y0 + y1))) as (_ & _ & ->); [lia|]; destruct (sl_neg_facts y0 y1 (ny + (y0 + y1))) as (_ & _ & ->); lia|]. rewrite bind_Some.
  destruct (copy_rows r1 (sl_from (- y1)) (sl y0 (y0 + y1))) as (r2 & -> & C1 & C2 & C3); [lia|rewrite B1, A1; destruct (sl_from_facts y1 (ny + (y0 + y1))) as (_ & _ & ->); [lia|]; rewrite sl_len by lia; lia|]. rewrite bind_Some.
  destruct (copy_cols r2 (sl_to x0) (sl (- x0 - x1) (- x1))) as (r3 & -> & D1 & D2 & D3); [lia|rewrite C2, B2, A2; destruct (sl_to_facts x0 (nx + (x0 + x1))) as (_ & _ & ->); [lia|]; destruct (sl_neg_facts x0 x1 (nx + (x0 + x1))) as (_ & _ & ->); lia|]. rewrite bind_Some.
  destruct (copy_cols r3 (sl_from (- x1)) (sl x0 (x0 + x1))) as (r4 & -> & F1 & F2 & F3); [lia|rewrite D2, C2, B2, A2; destruct (sl_from_facts x1 (nx + (x0 + x1))) as (_ & _ & ->); [lia|]; rewrite sl_len by lia; lia|]. rewrite bind_Some.
  eexists. split; [f_equal; apply f_equal2; [reflexivity|apply f_equal2; f_equal; lia]|]. cbn [fm_arr fm_wcs]. split; [lia|]. split; [lia|]. split; [reflexivity|].
  intros y x Hy Hx. rewrite F1, D1, C1, B1, A1 in Hy. rewrite F2, D2, C2, B2, A2 in Hx.
  destruct (wrap_index ny y0 y1 y) as [Wy1 Wy2]; [lia|lia|lia|]. destruct (wrap_index nx x0 x1 x) as [Wx1 Wx2]; [lia|lia|lia|].
  rewrite F3 by lia. rewrite D2, C2, B2, A2. rewrite find_from by lia. replace (nx + (x0 + x1) - x1) with (nx + x0) by lia.
  set (x2 := if (nx + x0 <=? x) && (x <? nx + (x0 + x1)) then x0 + (x - (nx + x0)) else x) in *.
  assert (Hx2 : 0 <= x2 < nx + (x0 + x1)) by (unfold x2; destruct ((nx + x0 <=? x) && (x <? nx + (x0 + x1))) eqn:?; lia).
  replace (match (if (nx + x0 <=? x) && (x <? nx + (x0 + x1)) then Some (x - (nx + x0)) else None) with Some i => f_at r3 y (sl_at (sl x0 (x0 + x1)) (nx + (x0 + x1)) i) | None => f_at r3 y x end) with (f_at r3 y x2).
  2:{ unfold x2. destruct ((nx + x0 <=? x) && (x <? nx + (x0 + x1))); [rewrite sl_at_in by lia; reflexivity|reflexivity]. }
  rewrite D3 by lia. rewrite C2, B2, A2. rewrite find_to by lia.
  set (xx := if (0 <=? x2) && (x2 <? x0) then nx + x2 else x2) in *.
  replace (match (if (0 <=? x2) && (x2 <? x0) then Some x2 else None) with Some i => f_at r2 y (sl_at (sl (- x0 - x1) (- x1)) (nx + (x0 + x1)) i) | None => f_at r2 y x2 end) with (f_at r2 y xx).
  2:{ unfold xx. destruct ((0 <=? x2) && (x2 <? x0)); [rewrite at_neg by lia; f_equal; lia|reflexivity]. }
  rewrite C3 by lia. rewrite B1, A1. rewrite find_from by lia. replace (ny + (y0 + y1) - y1) with (ny + y0) by lia.
  set (y2 := if (ny + y0 <=? y) && (y <? ny + (y0 + y1)) then y0 + (y - (ny + y0)) else y) in *.
  assert (Hy2 : 0 <= y2 < ny + (y0 + y1)) by (unfold y2; destruct ((ny + y0 <=? y) && (y <? ny + (y0 + y1))) eqn:?; lia).
  replace (match (if (ny + y0 <=? y) && (y <? ny + (y0 + y1)) then Some (y - (ny + y0)) else None) with Some i => f_at r1 (sl_at (sl y0 (y0 + y1)) (ny + (y0 + y1)) i) xx | None => f_at r1 y xx end) with (f_at r1 y2 xx).
  2:{ unfold y2. destruct ((ny + y0 <=? y) && (y <? ny + (y0 + y1))); [rewrite sl_at_in by lia; reflexivity|reflexivity]. }
  rewrite B3 by lia. rewrite A1. rewrite find_to by lia.
  set (yy := if (0 <=? y2) && (y2 <? y0) then ny + y2 else y2) in *.
  replace (match (if (0 <=? y2) && (y2 <? y0) then Some y2 else None) with Some i => f_at r (sl_at (sl (- y0 - y1) (- y1)) (ny + (y0 + y1)) i) xx | None => f_at r y2 xx end) with (f_at r yy xx).
  2:{ unfold yy. destruct ((0 <=? y2) && (y2 <? y0)); [rewrite at_neg by lia; f_equal; lia|reflexivity]. }
  rewrite A3. replace (_ && _) with true by lia. f_equal; lia.
Qed.

(* cropping *)
Lemma getmap_spec {A} (m : fmap A) y0 y1 x0 x1 : 0 <= y0 -> y0 <= y1 -> y1 <= f_ny (fm_arr m) -> 0 <= x0 -> x0 <= x1 -> x1 <= f_nx (fm_arr m) ->
  let r := getmap m (sl y0 y1) (sl x0 x1) in
  f_ny (fm_arr r) = y1 - y0 /\ f_nx (fm_arr r) = x1 - x0 /\
  (forall y x, f_at (fm_arr r) y x = f_at (fm_arr m) (y0 + y) (x0 + x)) /\
  (forall y x, same_sky_at (fm_wcs r) (fm_wcs m) y x (y0 + y) (x0 + x)).
Proof.
  intros. unfold r, getmap. cbn [fm_arr fm_wcs]. unfold get2. cbn [f_ny f_nx f_at]. rewrite !sl_len by lia. split; [reflexivity|]. split; [reflexivity|]. split.
  - intros y x. rewrite !sl_at_in by lia. reflexivity.
  - intros y x. unfold slice_geometry, slice_axis, expand_slice, sl, es_step, same_sky_at. cbn [ps_start ps_stop ps_step es_default Z.ltb Z.compare es_cycle].
    replace (0 <=? y0) with true by lia. replace (0 <=? x0) with true by lia. rewrite !Z.min_l by lia. cbn [snd]. unfold sky_y, sky_x, sky_at. cbn [crval_x crpix_x cdelt_x crval_y crpix_y cdelt_y].
    rewrite !inject_Z_plus. change (inject_Z 1) with 1%Q. split; field.
Qed.

Lemma crpix_add_sky w dy dx y x : same_sky_at (crpix_add w dy dx) w (y + dy) (x + dx) y x.
Proof. unfold same_sky_at, crpix_add, sky_y, sky_x, sky_at. cbn [crval_x crpix_x cdelt_x crval_y crpix_y cdelt_y]. rewrite !inject_Z_plus. split; ring. Qed.

(** padslice *)
Lemma clip_axis n a b : 0 <= n -> a <= b -> let ca := Z.max 0 (Z.min n a) in let cb := Z.max 0 (Z.min n b) in
  let s := sl (ca - a) (ca - a + (cb - ca)) in
  py_len s (b - a) = cb - ca /\ (forall i, 0 <= i < b - a -> sl_find s (b - a) i = if (0 <=? a + i) && (a + i <? n) then Some (a + i - ca) else None).
Proof.
  intros Hn Hab. cbv zeta. set (ca := Z.max 0 (Z.min n a)). set (cb := Z.max 0 (Z.min n b)).
  assert (Hlen : py_len (sl (ca - a) (ca - a + (cb - ca))) (b - a) = cb - ca).
  { destruct (Z_le_gt_dec a n).
    - destruct (Z_le_gt_dec 0 b).
      + rewrite sl_len by lia. lia.
      + (* entirely below *) rewrite len1 by reflexivity. assert (cb = ca) by lia. rewrite H, Z.sub_diag, Z.add_0_r. unfold py_start, py_stop, sl. cbn [ps_start ps_stop]. lia.
    - rewrite len1 by reflexivity. assert (cb = ca) by lia. rewrite H, Z.sub_diag, Z.add_0_r. unfold py_start, py_stop, sl. cbn [ps_start ps_stop]. lia. }
  split; [exact Hlen|]. intros i Hi. rewrite sl_find_step1 by reflexivity. rewrite Hlen.
  destruct (Z.eq_dec ca cb) as [Ec|Ec].
  - replace ((0 <=? a + i) && (a + i <? n)) with false by lia. rewrite Ec, Z.sub_diag, Z.add_0_r. destruct (_ && _) eqn:E; [lia|reflexivity].
  - rewrite sl_start by lia. destruct ((ca - a <=? i) && (i <? ca - a + (cb - ca))) eqn:E.
    + replace ((0 <=? a + i) && (a + i <? n)) with true by lia. f_equal. lia.
    + replace ((0 <=? a + i) && (a + i <? n)) with false by lia. reflexivity.
Qed.

Lemma padslice_spec {A} (m : fmap A) y0 x0 y1 x1 d : 0 <= f_ny (fm_arr m) -> 0 <= f_nx (fm_arr m) -> y0 <= y1 -> x0 <= x1 ->
  exists r, padslice m y0 x0 y1 x1 d = Some r /\ f_ny (fm_arr r) = y1 - y0 /\ f_nx (fm_arr r) = x1 - x0 /\
  forall i j, 0 <= i < y1 - y0 -> 0 <= j < x1 - x0 ->
    f_at (fm_arr r) i j = (if (0 <=? y0 + i) && (y0 + i <? f_ny (fm_arr m)) && (0 <=? x0 + j) && (x0 + j <? f_nx (fm_arr m)) then f_at (fm_arr m) (y0 + i) (x0 + j) else d) /\
    same_sky_at (fm_wcs r) (fm_wcs m) i j (y0 + i) (x0 + j).
Proof.
  intros Hny Hnx Hy Hx. unfold padslice, full2. replace ((0 <=? y1 - y0) && (0 <=? x1 - x0)) with true by lia. rewrite bind_Some.
  destruct (clip_axis (f_ny (fm_arr m)) y0 y1 Hny Hy) as [Ly Fy]. destruct (clip_axis (f_nx (fm_arr m)) x0 x1 Hnx Hx) as [Lx Fx]. cbv zeta in *.
  set (cy0 := Z.max 0 (Z.min (f_ny (fm_arr m)) y0)) in *. set (cy1 := Z.max 0 (Z.min (f_ny (fm_arr m)) y1)) in *.
  set (cx0 := Z.max 0 (Z.min (f_nx (fm_arr m)) x0)) in *. set (cx1 := Z.max 0 (Z.min (f_nx (fm_arr m)) x1)) in *.
  unfold set2, get2. cbn [f_ny f_nx f_at]. rewrite Ly, Lx. rewrite !(sl_len cy0 cy1), !(sl_len cx0 cx1) by lia. rewrite !Z.eqb_refl. cbn [andb]. rewrite bind_Some.
  eexists. split; [reflexivity|]. cbn [fm_arr f_ny f_nx f_at fm_wcs]. split; [reflexivity|]. split; [reflexivity|]. intros i j Hi Hj. split.
  - rewrite Fy, Fx by assumption. destruct ((0 <=? y0 + i) && (y0 + i <? f_ny (fm_arr m))); [|reflexivity]. cbn [andb].
    destruct ((0 <=? x0 + j)), (x0 + j <? f_nx (fm_arr m)); try reflexivity. cbn [andb]. rewrite !sl_at_in by lia. f_equal; lia.
  - pose proof (crpix_add_sky (fm_wcs m) (- y0) (- x0) (y0 + i) (x0 + j)) as H. replace (y0 + i + - y0) with i in H by lia. replace (x0 + j + - x0) with j in H by lia. exact H.
Qed.

(** autocrop *)
Lemma last_In {A} (l : list A) d : l <> [] -> In (last l d) l.
Proof. induction l as [|x [|y l] IH]; intros H; [congruence|now left|]. right. apply IH. discriminate. Qed.

Lemma blank_ends_spec hit a b : blank_ends hit = Some (a, b) ->
  0 <= a /\ 0 <= b /\ a + b < zlen hit /\ (forall k, 0 <= k < zlen hit -> k < a \/ zlen hit - b <= k -> zget hit k = Some true) /\
  zget hit a = Some false /\ zget hit (zlen hit - b - 1) = Some false.
Proof.
  unfold blank_ends. set (n := zlen hit). set (f := fun k : Z => match zget hit k with Some b0 => negb b0 | None => false end).
  assert (Hn : 0 <= n) by apply zlen_nonneg.
  assert (Hf : forall k, In k (filter f (zrange 0 n)) <-> zget hit k = Some false).
  { intros k. rewrite filter_In, zrange_In. unfold f. split.
    - intros [_ H]. destruct (zget hit k) as [[|]|]; try discriminate. reflexivity.
    - intros H. rewrite H. split; [|reflexivity]. apply zget_Some_range in H. exact H. }
  assert (Hsort : forall l lo, (forall k, In k l -> lo <= k) -> True) by auto. clear Hsort.
  assert (Hmin : forall m0 lo x r, filter f (zseq lo m0) = x :: r -> (forall k, In k r -> x < k) /\ (forall k, In k (x :: r) -> k <= last (x :: r) 0) /\ lo <= x).
  { induction m0 as [|m0 IH]; intros lo x r H; [discriminate|]. cbn [zseq filter] in H. destruct (f lo) eqn:E.
    - injection H as <- Hr. split; [|split; [|lia]].
      + intros k Hk. rewrite <- Hr in Hk. apply filter_In in Hk as [Hk _]. apply zseq_In in Hk. lia.
      + destruct r as [|x' r']; [intros k [<-|[]]; cbn; lia|]. destruct (IH (lo + 1) x' r' Hr) as (G1 & G2 & G3). change (last (lo :: x' :: r') 0) with (last (x' :: r') 0).
        intros k [<-|Hk]; [|apply G2, Hk]. pose proof (G2 x' (or_introl eq_refl)). lia.
    - destruct (IH (lo + 1) x r H) as (G1 & G2 & G3). split; [exact G1|]. split; [exact G2|lia]. }
  destruct (filter f (zrange 0 n)) as [|x r] eqn:Ef; [discriminate|]. intros H. apply Some_inj in H.
  assert (Ha : x = a) by exact (f_equal fst H). assert (Hb0 : n - last (x :: r) 0 - 1 = b) by exact (f_equal snd H). subst a b. clear H.
  destruct (Hmin (Z.to_nat (n - 0)) 0 x r Ef) as (G1 & G2 & G3).
  assert (Hl : In (last (x :: r) 0) (x :: r)) by (apply last_In; discriminate). set (la := last (x :: r) 0) in *.
  assert (Hxf : zget hit x = Some false) by (apply Hf; now left). assert (Hlf : zget hit la = Some false) by (apply Hf; exact Hl).
  pose proof (zget_Some_range _ _ _ Hxf) as R1. pose proof (zget_Some_range _ _ _ Hlf) as R2. fold n in R1, R2.
  pose proof (G2 x (or_introl eq_refl)) as R3.
  split; [lia|]. split; [lia|]. split; [lia|]. split.
  - intros k Hk Hout. destruct (zget_in_range hit k Hk) as (bb & Hb). rewrite Hb. destruct bb; [reflexivity|]. exfalso.
    apply Hf in Hb. pose proof (G2 k Hb). destruct Hb as [->|Hb]; [lia|]. pose proof (G1 k Hb). lia.
  - split; [exact Hxf|]. replace (n - (n - la - 1) - 1) with la by lia. exact Hlf.
Qed.

(* sides of the map that are entirely blank, with respect to one notion of blank *)
Definition blank_sides {A} (m : farr A) (blank : A -> bool) (b : (Z * Z) * (Z * Z)) : Prop :=
  let '((y0, y1), (x0, x1)) := b in
  0 <= y0 /\ 0 <= y1 /\ y0 + y1 <= f_ny m /\ 0 <= x0 /\ 0 <= x1 /\ x0 + x1 <= f_nx m /\
  forall y x, 0 <= y < f_ny m -> 0 <= x < f_nx m -> y < y0 \/ f_ny m - y1 <= y \/ x < x0 \/ f_nx m - x1 <= x -> blank (f_at m y x) = true.

Lemma zget_map_range {B} (f : Z -> B) n k : 0 <= k < n -> zget (map f (zrange 0 n)) k = Some (f k).
Proof. intros H. rewrite zget_map, zget_zrange by lia. cbn. f_equal. Qed.

Lemma find_blank_spec {A} (m : farr A) blank b : 0 <= f_ny m -> 0 <= f_nx m -> find_blank_edges m blank = Some b -> blank_sides m blank b.
Proof.
  intros Hny Hnx. unfold find_blank_edges. set (hr := map _ (zrange 0 (f_ny m))). set (hc := map _ (zrange 0 (f_nx m))).
  destruct (blank_ends hr) as [[y0 y1]|] eqn:E1; [|discriminate]. destruct (blank_ends hc) as [[x0 x1]|] eqn:E2; [|discriminate]. intros H. injection H as <-.
  apply blank_ends_spec in E1 as (A1 & A2 & A3 & A4 & _). apply blank_ends_spec in E2 as (B1 & B2 & B3 & B4 & _).
  assert (Lr : zlen hr = f_ny m) by (unfold hr; rewrite zlen_map, zrange_zlen by lia; lia). assert (Lc : zlen hc = f_nx m) by (unfold hc; rewrite zlen_map, zrange_zlen by lia; lia).
  rewrite Lr in *. rewrite Lc in *. repeat (split; [lia|]). intros y x Hy Hx [C|[C|[C|C]]].
  - specialize (A4 y Hy (or_introl C)). unfold hr in A4. rewrite zget_map_range in A4 by lia. injection A4 as A4. rewrite forallb_forall in A4. apply A4. apply zrange_In. lia.
  - specialize (A4 y Hy (or_intror C)). unfold hr in A4. rewrite zget_map_range in A4 by lia. injection A4 as A4. rewrite forallb_forall in A4. apply A4. apply zrange_In. lia.
  - specialize (B4 x Hx (or_introl C)). unfold hc in B4. rewrite zget_map_range in B4 by lia. injection B4 as B4. rewrite forallb_forall in B4. apply B4. apply zrange_In. lia.
  - specialize (B4 x Hx (or_intror C)). unfold hc in B4. rewrite zget_map_range in B4 by lia. injection B4 as B4. rewrite forallb_forall in B4. apply B4. apply zrange_In. lia.
Qed.


Lemma all_blank_spec {A} (m : farr A) : 0 <= f_ny m -> 0 <= f_nx m -> forall bs l, all_blank m bs = Some l -> Forall (fun b => exists blank, In blank bs /\ blank_sides m blank b) l.
Proof.
  intros Hy Hx. induction bs as [|b bs IH]; intros l; cbn [all_blank]; [intros H; injection H as <-; constructor|].
  destruct (find_blank_edges m b) as [r|] eqn:E; [|discriminate]. cbn [bind]. destruct (all_blank m bs) as [rs|]; [|discriminate]. cbn [bind]. intros H. injection H as <-.
  constructor; [exists b; split; [now left|apply find_blank_spec; assumption]|]. eapply Forall_impl; [|apply IH; reflexivity]. cbn. intros a (bl & Hin & Hs). exists bl. auto.
Qed.
Lemma best_blank_In l : forall b, In (best_blank b l) (b :: l).
Proof. induction l as [|c l IH]; intros b; [now left|]. cbn. destruct (blank_score b <? blank_score c); [right; apply IH|]. destruct (IH b) as [H|H]; [now left|right; now right]. Qed.

Lemma blanks_of_spec {A} (m : farr A) v b : 0 <= f_ny m -> 0 <= f_nx m -> blanks_of m v = Some b ->
  b = ((0, 0), (0, 0)) \/ exists blank, In blank (blank_choice v) /\ blank_sides m blank b.
Proof.
  intros Hy Hx. destruct v as [bl| |bs]; cbn [blanks_of blank_choice].
  - intros H. right. exists bl. split; [now left|apply find_blank_spec; assumption].
  - intros H. injection H as <-. now left.
  - destruct (all_blank m bs) as [l|] eqn:E; [|discriminate]. cbn [bind]. destruct l as [|c l]; [discriminate|]. intros H. apply Some_inj in H. right.
    pose proof (all_blank_spec m Hy Hx bs _ E) as HF. rewrite Forall_forall in HF. apply HF. rewrite <- H. apply best_blank_In.
Qed.

(* one axis of the crop: off is where the result starts in the original map (negative: padded) *)
Lemma crop_axis n b0 b1 g : 0 <= n -> 0 <= b0 -> 0 <= b1 -> b0 + b1 <= n -> n - (b0 + b1) <= g ->
  let a := Z.max 0 (g - n) in let N := n + a in let c := N - g in let l := Z.min c (b0 + a) in
  0 <= l /\ l <= N - (c - l) /\ N - (c - l) <= N /\ N - (c - l) - l = g /\ l - a <= b0 /\ n - b1 <= l - a + g /\ l - a + g <= n /\ (0 < a -> l = 0).
Proof. intros. cbv zeta. lia. Qed.

Lemma autocrop_spec {A} (m : fmap A) good v margin zero r : 0 <= f_ny (fm_arr m) -> 0 <= f_nx (fm_arr m) -> 0 <= margin -> (forall l, l <= good l) ->
  autocrop m good v margin zero = Some r ->
  exists oy ox b, blanks_of (fm_arr m) v = Some b /\
  let '((by0, by1), (bx0, bx1)) := b in
  f_ny (fm_arr r) = good (f_ny (fm_arr m) - (by0 + by1) + margin) /\ f_nx (fm_arr r) = good (f_nx (fm_arr m) - (bx0 + bx1) + margin) /\
  (forall y x, 0 <= y < f_ny (fm_arr r) -> 0 <= x < f_nx (fm_arr r) ->
     f_at (fm_arr r) y x = (if (0 <=? oy + y) && (oy + y <? f_ny (fm_arr m)) && (0 <=? ox + x) && (ox + x <? f_nx (fm_arr m)) then f_at (fm_arr m) (oy + y) (ox + x) else zero) /\
     same_sky_at (fm_wcs r) (fm_wcs m) y x (oy + y) (ox + x)) /\
  (forall y x, 0 <= y < f_ny (fm_arr m) -> 0 <= x < f_nx (fm_arr m) ->
     ~ (0 <= y - oy < f_ny (fm_arr r) /\ 0 <= x - ox < f_nx (fm_arr r)) -> exists blank, In blank (blank_choice v) /\ blank (f_at (fm_arr m) y x) = true).
Proof.
  intros Hny Hnx Hm Hg. unfold autocrop. destruct (blanks_of (fm_arr m) v) as [b|] eqn:Eb; [|discriminate]. cbn [bind].
  pose proof (blanks_of_spec _ _ _ Hny Hnx Eb) as Hb. destruct b as [[by0 by1] [bx0 bx1]].
  set (ny := f_ny (fm_arr m)) in *. set (nx := f_nx (fm_arr m)) in *.
  assert (HB : 0 <= by0 /\ 0 <= by1 /\ by0 + by1 <= ny /\ 0 <= bx0 /\ 0 <= bx1 /\ bx0 + bx1 <= nx).
  { destruct Hb as [H|(bl & _ & H)]; [injection H as -> -> -> ->; lia|unfold blank_sides in H; fold ny nx in H; tauto]. }
  destruct HB as (B1 & B2 & B3 & B4 & B5 & B6).
  set (gy := good (ny - (by0 + by1) + margin)). set (gx := good (nx - (bx0 + bx1) + margin)).
  assert (Gy : ny - (by0 + by1) <= gy) by (unfold gy; specialize (Hg (ny - (by0 + by1) + margin)); lia).
  assert (Gx : nx - (bx0 + bx1) <= gx) by (unfold gx; specialize (Hg (nx - (bx0 + bx1) + margin)); lia).
  set (ay := Z.max 0 (gy - ny)). set (ax := Z.max 0 (gx - nx)).
  assert (Hpad : exists m1, (if (0 <? ay) || (0 <? ax) then option_map fst (pad m ay ax 0 0 false zero) else Some m) = Some m1 /\
    f_ny (fm_arr m1) = ny + ay /\ f_nx (fm_arr m1) = nx + ax /\
    (forall y x, 0 <= y < ny + ay -> 0 <= x < nx + ax -> f_at (fm_arr m1) y x = if (ay <=? y) && (ax <=? x) then f_at (fm_arr m) (y - ay) (x - ax) else zero) /\
    (forall y x, same_sky_at (fm_wcs m1) (fm_wcs m) (y + ay) (x + ax) y x)).
  { destruct ((0 <? ay) || (0 <? ax)) eqn:E.
    - destruct (pad_plain m ay ax 0 0 zero) as (r1 & -> & P1 & P2 & P3 & P4); [exact Hny|exact Hnx|lia|lia|lia|lia|]. exists r1. cbn [option_map fst]. split; [reflexivity|]. fold ny nx in P1, P2, P4. split; [lia|]. split; [lia|].
      split; [|intros y x; rewrite P3; apply crpix_add_sky]. intros y x Hy Hx. rewrite P4. replace (y <? ay + ny) with true by lia. replace (x <? ax + nx) with true by lia. rewrite !andb_true_r. reflexivity.
    - exists m. assert (ay = 0 /\ ax = 0) as [-> ->] by lia. split; [reflexivity|]. fold ny nx. split; [lia|]. split; [lia|]. split.
      + intros y x Hy Hx. replace ((0 <=? y) && (0 <=? x)) with true by lia. f_equal; lia.
      + intros y x. rewrite !Z.add_0_r. split; reflexivity. }
  destruct Hpad as (m1 & -> & P1 & P2 & P3 & P4). cbn [bind]. rewrite P1, P2.
  destruct (crop_axis ny by0 by1 gy) as (Y1 & Y2 & Y3 & Y4 & Y5 & Y6 & Y7 & Y8); [assumption..|]. destruct (crop_axis nx bx0 bx1 gx) as (X1 & X2 & X3 & X4 & X5 & X6 & X7 & X8); [assumption..|].
  cbv zeta in *. fold ay in Y1, Y2, Y3, Y4, Y5, Y6, Y7, Y8. fold ax in X1, X2, X3, X4, X5, X6, X7, X8.
  set (ly := Z.min (ny + ay - gy) (by0 + ay)) in *. set (lx := Z.min (nx + ax - gx) (bx0 + ax)) in *.
  intros H. apply Some_inj in H. destruct (getmap_spec m1 ly (ny + ay - (ny + ay - gy - ly)) lx (nx + ax - (nx + ax - gx - lx))) as (R1 & R2 & R3 & R4); try lia.
  rewrite H in R1, R2, R3, R4. exists (ly - ay), (lx - ax), ((by0, by1), (bx0, bx1)). split; [reflexivity|]. fold gy gx.
  split; [lia|]. split; [lia|]. split.
  - intros y x Hy Hx. split.
    + rewrite R3, P3 by lia.
      replace ((0 <=? ly - ay + y) && (ly - ay + y <? ny) && (0 <=? lx - ax + x) && (lx - ax + x <? nx)) with ((ay <=? ly + y) && (ax <=? lx + x)) by lia.
      destruct ((ay <=? ly + y) && (ax <=? lx + x)); [f_equal; lia|reflexivity].
    + pose proof (R4 y x) as [S1 S2]. pose proof (P4 (ly - ay + y) (lx - ax + x)) as [S3 S4]. replace (ly - ay + y + ay) with (ly + y) in S3 by lia. replace (lx - ax + x + ax) with (lx + x) in S4 by lia.
      split; [rewrite S1; exact S3|rewrite S2; exact S4].
  - intros y x Hy Hx Hout. destruct Hb as [H0|(bl & Hin & HS)].
    + injection H0 as -> -> -> ->. exfalso. apply Hout. lia.
    + exists bl. split; [exact Hin|]. unfold blank_sides in HS. fold ny nx in HS. destruct HS as (_ & _ & _ & _ & _ & _ & HS). apply HS; [assumption|assumption|]. lia.
Qed.

Lemma blank_ends_total hit k : zget hit k = Some false -> exists r, blank_ends hit = Some r.
Proof.
  intros H. unfold blank_ends. set (f := fun k0 : Z => _). assert (Hin : In k (filter f (zrange 0 (zlen hit)))).
  { apply filter_In. split; [apply zrange_In; apply zget_Some_range in H; exact H|]. unfold f. rewrite H. reflexivity. }
  destruct (filter f (zrange 0 (zlen hit))) as [|x r]; [destruct Hin|]. eauto.
Qed.
Lemma find_blank_total {A} (m : farr A) blank y x : 0 <= y < f_ny m -> 0 <= x < f_nx m -> blank (f_at m y x) = false -> exists b, find_blank_edges m blank = Some b.
Proof.
  intros Hy Hx Hb. unfold find_blank_edges. set (hr := map _ (zrange 0 (f_ny m))). set (hc := map _ (zrange 0 (f_nx m))).
  assert (H1 : zget hr y = Some false).
  { unfold hr. rewrite zget_map_range by lia. f_equal. destruct (forallb _ _) eqn:E; [|reflexivity]. rewrite forallb_forall in E. rewrite (E x) in Hb; [discriminate|apply zrange_In; lia]. }
  assert (H2 : zget hc x = Some false).
  { unfold hc. rewrite zget_map_range by lia. f_equal. destruct (forallb _ _) eqn:E; [|reflexivity]. rewrite forallb_forall in E. rewrite (E y) in Hb; [discriminate|apply zrange_In; lia]. }
  destruct (blank_ends_total hr y H1) as ([y0 y1] & ->). destruct (blank_ends_total hc x H2) as ([x0 x1] & ->). eauto.
Qed.
Lemma autocrop_total {A} (m : fmap A) good v margin zero b : 0 <= f_ny (fm_arr m) -> 0 <= f_nx (fm_arr m) -> blanks_of (fm_arr m) v = Some b -> exists r, autocrop m good v margin zero = Some r.
Proof.
  intros Hy Hx E. unfold autocrop. rewrite E. cbn [bind]. destruct b as [[by0 by1] [bx0 bx1]].
  set (ay := Z.max 0 _). set (ax := Z.max 0 _). destruct ((0 <? ay) || (0 <? ax)); [|eexists; reflexivity].
  destruct (pad_plain m ay ax 0 0 zero) as (r1 & -> & _); [exact Hy|exact Hx|lia|lia|lia|lia|]. eexists; reflexivity.
Qed.
Lemma forallb_false {A} (f : A -> bool) l : forallb f l = false -> exists x, In x l /\ f x = false.
Proof. induction l as [|a l IH]; [discriminate|]. cbn. destruct (f a) eqn:E; [intros H; destruct (IH H) as (x & Hx & Hf); eauto|intros _; eauto]. Qed.
Lemma find_blank_tight {A} (m : farr A) blank y0 y1 x0 x1 : 0 <= f_ny m -> 0 <= f_nx m -> find_blank_edges m blank = Some ((y0, y1), (x0, x1)) ->
  (exists x, 0 <= x < f_nx m /\ blank (f_at m y0 x) = false) /\ (exists x, 0 <= x < f_nx m /\ blank (f_at m (f_ny m - y1 - 1) x) = false) /\
  (exists y, 0 <= y < f_ny m /\ blank (f_at m y x0) = false) /\ (exists y, 0 <= y < f_ny m /\ blank (f_at m y (f_nx m - x1 - 1)) = false).
Proof.
  intros Hny Hnx. unfold find_blank_edges. set (hr := map _ (zrange 0 (f_ny m))). set (hc := map _ (zrange 0 (f_nx m))).
  destruct (blank_ends hr) as [[y0' y1']|] eqn:E1; [|discriminate]. destruct (blank_ends hc) as [[x0' x1']|] eqn:E2; [|discriminate]. intros H. injection H as -> -> -> ->.
  apply blank_ends_spec in E1 as (A1 & A2 & A3 & _ & A5 & A6). apply blank_ends_spec in E2 as (B1 & B2 & B3 & _ & B5 & B6).
  assert (Lr : zlen hr = f_ny m) by (unfold hr; rewrite zlen_map, zrange_zlen by lia; lia). assert (Lc : zlen hc = f_nx m) by (unfold hc; rewrite zlen_map, zrange_zlen by lia; lia).
  rewrite Lr in *. rewrite Lc in *. unfold hr in A5, A6. unfold hc in B5, B6. rewrite zget_map_range in A5, A6, B5, B6 by lia.
  apply Some_inj in A5, A6, B5, B6. apply forallb_false in A5 as (a & Ha & Ha'), A6 as (b & Hb & Hb'), B5 as (c & Hc & Hc'), B6 as (d & Hd & Hd').
  apply zrange_In in Ha, Hb, Hc, Hd. repeat split; eauto.
Qed.
