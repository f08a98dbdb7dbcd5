From Verif Require Import Base RangeLemmas BlockSpec BlockModel BlockLemmas BinSpec BinModel.

Lemma edges2bins_zget e i : zget (edges2bins e) i = match zget e i, zget e (i + 1) with Some a, Some b => Some (a, b) | _, _ => None end.
Proof.
  revert i. induction e as [|a e IH]; intros i; [cbn [edges2bins]; rewrite !zget_nil; reflexivity|].
  destruct e as [|b e].
  - cbn [edges2bins]. rewrite zget_nil, !zget_cons, !zget_nil. destruct (i =? 0) eqn:E1, (i + 1 =? 0) eqn:E2; try reflexivity. lia.
  - change (edges2bins (a :: b :: e)) with ((a, b) :: edges2bins (b :: e)). rewrite zget_cons. destruct (i =? 0) eqn:E1.
    + assert (i = 0) by lia. subst i. reflexivity.
    + rewrite IH. rewrite (zget_cons a), (zget_cons a). rewrite E1. destruct (i + 1 =? 0) eqn:E2.
      * rewrite (zget_out _ (i - 1)) by lia. reflexivity.
      * replace (i + 1 - 1) with (i - 1 + 1) by lia. reflexivity.
Qed.
Lemma edges2bins_length e : length (edges2bins e) = (length e - 1)%nat.
Proof. induction e as [|a [|b e] IH]; try reflexivity. cbn [length edges2bins] in *. rewrite IH. lia. Qed.

Lemma last_default {A} (l : list A) d e : l <> [] -> last l d = last l e.
Proof. induction l as [|x [|y l] IH]; intros H; [congruence|reflexivity|]. cbn [last] in *. apply IH. discriminate. Qed.
Lemma last_cons_default {A} (a : A) r d : last (a :: r) d = last r a.
Proof. destruct r as [|b r]; [reflexivity|]. change (last (a :: b :: r) d) with (last (b :: r) d). apply last_default. discriminate. Qed.
(* sorted edges give contiguous bins *)
Fixpoint nondec (lo : Z) (e : list Z) : Prop := match e with [] => True | x :: r => lo <= x /\ nondec x r end.
Lemma edges_tile a r : nondec a r -> tiles_range a (last r a) (edges2bins (a :: r)).
Proof.
  revert a. induction r as [|b r IH]; intros a H; [reflexivity|]. destruct H as [H1 H2].
  change (edges2bins (a :: b :: r)) with ((a, b) :: edges2bins (b :: r)).
  split; [reflexivity|]. split; [exact H1|]. specialize (IH b H2).
  rewrite last_cons_default. exact IH.
Qed.

Lemma nondec_map f a b : (forall k, a <= k < b -> f k <= f (k + 1)) -> nondec (f a) (map f (zrange (a + 1) (b + 1))).
Proof.
  intros H. destruct (Z_lt_ge_dec a b) as [Hab|Hab]; [|rewrite zrange_empty by lia; exact I].
  remember (Z.to_nat (b - a)) as n eqn:En. revert a H Hab En. induction n as [|n IH]; intros a H Hab En; [lia|].
  rewrite zrange_cons by lia. cbn [map nondec]. split; [apply H; lia|].
  destruct (Z.eq_dec (a + 1) b) as [->|]; [rewrite zrange_empty by lia; exact I|]. apply IH; try lia. intros; apply H; lia.
Qed.
Lemma last_map_range (f : Z -> Z) a b d : a <= b -> last (map f (zrange a (b + 1))) d = f b.
Proof. intros H. rewrite zrange_snoc by lia. rewrite map_app. cbn [map]. apply last_last. Qed.

Lemma uniform_tile f nb : 0 <= nb -> (forall k, 0 <= k < nb -> f k <= f (k + 1)) ->
  let bins := edges2bins (map f (zrange 0 (nb + 1))) in
  zlen bins = nb /\ tiles_range (f 0) (f nb) bins /\ forall i, 0 <= i < nb -> zget bins i = Some (f i, f (i + 1)).
Proof.
  intros Hnb Hf bins. split; [|split].
  - unfold bins, zlen. rewrite edges2bins_length, map_length. pose proof (zrange_zlen 0 (nb + 1)) as E. unfold zlen in E. lia.
  - unfold bins. rewrite zrange_cons by lia. cbn [map]. destruct (Z.eq_dec nb 0) as [->|].
    + cbn. reflexivity.
    + replace (f nb) with (last (map f (zrange (0 + 1) (nb + 1))) (f 0)) by (apply last_map_range; lia).
      apply edges_tile. apply nondec_map. intros; apply Hf; lia.
  - intros i Hi. unfold bins. rewrite edges2bins_zget, !zget_map, !zget_zrange by lia. reflexivity.
Qed.

Lemma linbin_spec n nb : 0 <= n -> 1 <= nb ->
  let bins := linbin n (Some nb) in
  zlen bins = nb /\ tiles_range 0 n bins /\
  (forall b, In b bins -> n / nb <= bin_size b <= n / nb + 1) /\
  (nb <= n -> forall b, In b bins -> 0 < bin_size b).
Proof.
  intros Hn Hnb bins. set (f := fun k => k * n / nb).
  assert (Hsz : forall k, n / nb <= f (k + 1) - f k <= n / nb + 1).
  { intros k. unfold f. pose proof (Z.div_mod (k * n) nb ltac:(lia)). pose proof (Z.mod_pos_bound (k * n) nb ltac:(lia)).
    pose proof (Z.div_mod ((k + 1) * n) nb ltac:(lia)). pose proof (Z.mod_pos_bound ((k + 1) * n) nb ltac:(lia)).
    pose proof (Z.div_mod n nb ltac:(lia)). pose proof (Z.mod_pos_bound n nb ltac:(lia)). nia. }
  assert (H0 : 0 <= n / nb) by (apply Z.div_pos; lia).
  destruct (uniform_tile f nb) as (H1 & H2 & H3); [lia|intros k Hk; specialize (Hsz k); lia|]. fold bins in H1, H2, H3.
  assert (E0 : f 0 = 0) by reflexivity. assert (E1 : f nb = n) by (unfold f; rewrite Z.mul_comm; apply Z.div_mul; lia).
  rewrite E0, E1 in H2. change (edges2bins (map f (zrange 0 (nb + 1)))) with bins in *.
  assert (HA : forall b, In b bins -> n / nb <= bin_size b <= n / nb + 1).
  { intros b Hb. apply In_nth_error in Hb as [i Hi]. rewrite <- zget_nth_error in Hi. pose proof (zget_Some_range _ _ _ Hi).
    rewrite H3 in Hi by lia. injection Hi as <-. apply Hsz. }
  split; [exact H1|]. split; [exact H2|]. split; [exact HA|].
  intros Hle b Hb. specialize (HA b Hb). enough (1 <= n / nb) by lia. apply Z.div_le_lower_bound; lia.
Qed.

Lemma nint_sqrt_spec n : 0 <= n -> let s := nint_sqrt n in
  0 <= s /\ (2 * s - 1) * (2 * s - 1) <= 4 * n + 1 /\ 4 * n < (2 * s + 1) * (2 * s + 1) /\ (1 <= n -> 1 <= s <= n).
Proof.
  intros Hn s. unfold s, nint_sqrt. pose proof (Z.sqrt_spec n Hn) as [H1 H2]. pose proof (Z.sqrt_nonneg n).
  set (t := Z.sqrt n) in *. cbv zeta. unfold Z.succ in H2. destruct (n - t * t <=? t) eqn:E; repeat split; nia.
Qed.

Lemma linbin_bsize_spec n b : 0 <= n -> 1 <= b ->
  let bins := linbin_bsize n None b in
  let nb := zceil n b in
  zlen bins = nb /\ tiles_range 0 (nb * b) bins /\ n <= nb * b < n + b /\ (forall x, In x bins -> bin_size x = b).
Proof.
  intros Hn Hb bins nb. assert (Hc : n <= nb * b < n + b).
  { unfold nb, zceil. pose proof (Z.div_mod (- n) b ltac:(lia)). pose proof (Z.mod_pos_bound (- n) b ltac:(lia)). nia. }
  assert (0 <= nb) by nia.
  destruct (uniform_tile (fun k => k * b) nb) as (H1 & H2 & H3); [lia|intros; lia|].
  split; [exact H1|]. split; [exact H2|]. split; [exact Hc|].
  intros x Hx. apply In_nth_error in Hx as [i Hi]. rewrite <- zget_nth_error in Hi. pose proof (zget_Some_range _ _ _ Hi).
  fold bins in H1. change (edges2bins (map (fun k => k * b) (zrange 0 (nb + 1)))) with bins in *.
  rewrite H3 in Hi by lia. injection Hi as <-. unfold bin_size. cbn [fst snd]. lia.
Qed.

(** expbin *)
(* edges in steps of at least m, starting from a *)
Fixpoint steps_ge (m a : Z) (e : list Z) : Prop := match e with [] => True | x :: r => a + m <= x /\ steps_ge m x r end.
Lemma last_app1 {A} (l : list A) x d : last (l ++ [x]) d = x. Proof. apply last_last. Qed.
Lemma steps_ge_app m a e x : steps_ge m a e -> last e a + m <= x -> steps_ge m a (e ++ [x]).
Proof.
  revert a. induction e as [|y e IH]; intros a H1 H2; [cbn in *; lia|]. destruct H1 as [H1 H3]. cbn [app steps_ge]. split; [exact H1|].
  apply IH; [exact H3|]. destruct e as [|z e]; [exact H2|]. rewrite (last_default _ y a) by discriminate. exact H2.
Qed.


Definition scan_inv (nmin : Z) (tmp : list Z) (nbin i : Z) (r : list Z) : Prop :=
  0 <= i <= nbin /\ steps_ge nmin (znth tmp 0) r /\ last r (znth tmp 0) = znth tmp i /\ (r = [] -> i = 0).
Lemma exp_scan_spec nmin tmp nbin : forall js i r, (forall j, In j js -> 0 <= j <= nbin) -> scan_inv nmin tmp nbin i r ->
  exists i' r', exp_scan nmin tmp js i (znth tmp 0 :: r) = (i', znth tmp 0 :: r') /\ scan_inv nmin tmp nbin i' r'.
Proof.
  induction js as [|j js IH]; intros i r Hj Hi; [exists i, r; split; [reflexivity|exact Hi]|].
  cbn [exp_scan]. destruct (nmin <=? znth tmp j - znth tmp i) eqn:E.
  - change ((znth tmp 0 :: r) ++ [znth tmp j]) with (znth tmp 0 :: (r ++ [znth tmp j])). apply IH; [intros k Hk; apply Hj; now right|].
    destruct Hi as (H1 & H2 & H3 & H4). repeat split; try (apply Hj; now left).
    + apply steps_ge_app; [exact H2|]. rewrite H3. lia.
    + apply last_app1.
    + intros H. destruct r; discriminate.
  - apply IH; [intros k Hk; apply Hj; now right|exact Hi].
Qed.
Lemma exp_loop_spec nmin tmp nbin : forall fuel i r out, scan_inv nmin tmp nbin i r -> exp_loop fuel nbin nmin tmp i (znth tmp 0 :: r) = Some out ->
  exists r', out = znth tmp 0 :: r' /\ scan_inv nmin tmp nbin nbin r'.
Proof.
  induction fuel as [|fuel IH]; intros i r out Hi; cbn [exp_loop]; destruct (i <? nbin) eqn:E; try discriminate.
  - intros H. injection H as <-. exists r. split; [reflexivity|]. replace nbin with i at 2; [exact Hi|]. destruct Hi; lia.
  - destruct (exp_scan_spec nmin tmp nbin (zrange (i + 1) (nbin + 1)) i r) as (i' & r' & H1 & H2); [|exact Hi|].
    + intros j Hj. apply zrange_In in Hj. destruct Hi. lia.
    + rewrite H1. apply IH. exact H2.
  - intros H. injection H as <-. exists r. split; [reflexivity|]. replace nbin with i at 2; [exact Hi|]. destruct Hi; lia.
Qed.

(* the bins of steps_ge edges *)
Lemma steps_ge_nondec m a e : 0 <= m -> steps_ge m a e -> nondec a e.
Proof. intros Hm. revert a. induction e as [|x e IH]; intros a; [trivial|]. intros [H1 H2]. split; [lia|auto]. Qed.
Lemma steps_ge_bins m a e : steps_ge m a e -> forall b, In b (edges2bins (a :: e)) -> m <= bin_size b.
Proof.
  revert a. induction e as [|x e IH]; intros a H b Hb; [destruct Hb|]. destruct H as [H1 H2].
  change (edges2bins (a :: x :: e)) with ((a, x) :: edges2bins (x :: e)) in Hb. destruct Hb as [<-|Hb]; [unfold bin_size; cbn; lia|eauto].
Qed.
Lemma set_last_same l n : l <> [] -> last l 0 = n -> set_last l n = l.
Proof. intros H <-. unfold set_last. symmetry. apply app_removelast_last. exact H. Qed.

(* splitting keeps the order, bounds the bins, and keeps the end point *)

Fixpoint steps_bt (lo hi a : Z) (e : list Z) : Prop := match e with [] => True | x :: r => a + lo <= x <= a + hi /\ steps_bt lo hi x r end.
Lemma steps_bt_app lo hi a e1 e2 : steps_bt lo hi a e1 -> steps_bt lo hi (last e1 a) e2 -> steps_bt lo hi a (e1 ++ e2).
Proof.
  revert a. induction e1 as [|x e1 IH]; intros a H1 H2; [exact H2|]. destruct H1 as [H1 H3]. split; [exact H1|]. apply IH; [exact H3|].
  rewrite last_cons_default in H2. exact H2.
Qed.
Lemma steps_bt_map lo hi f a b : (forall i, a <= i < b -> f i + lo <= f (i + 1) <= f i + hi) -> steps_bt lo hi (f a) (map (fun i => f (i + 1)) (zrange a b)).
Proof.
  intros H. destruct (Z_lt_ge_dec a b) as [Hab|Hab]; [|rewrite zrange_empty by lia; exact I].
  remember (Z.to_nat (b - a)) as n eqn:En. revert a H Hab En. induction n as [|n IH]; intros a H Hab En; [lia|].
  rewrite zrange_cons by lia. cbn [map steps_bt]. split; [apply H; lia|].
  destruct (Z.eq_dec (a + 1) b) as [->|]; [rewrite zrange_empty by lia; exact I|]. apply IH; try lia. intros; apply H; lia.
Qed.
Lemma steps_bt_ge lo hi a e : steps_bt lo hi a e -> steps_ge lo a e.
Proof. revert a. induction e as [|x e IH]; intros a; [trivial|]. intros [H1 H2]. split; [lia|auto]. Qed.
Lemma steps_bt_bins lo hi a e : steps_bt lo hi a e -> forall b, In b (edges2bins (a :: e)) -> lo <= bin_size b <= hi.
Proof.
  revert a. induction e as [|x e IH]; intros a H b Hb; [destruct Hb|]. destruct H as [H1 H2].
  change (edges2bins (a :: x :: e)) with ((a, x) :: edges2bins (x :: e)) in Hb. destruct Hb as [<-|Hb]; [unfold bin_size; cbn; lia|eauto].
Qed.

Lemma exp_split_spec nmax : 1 <= nmax -> forall vs a, steps_ge 1 a vs ->
  steps_bt 1 nmax a (exp_split nmax a vs) /\ last (exp_split nmax a vs) a = last vs a /\ (vs <> [] -> exp_split nmax a vs <> []).
Proof.
  intros Hm. induction vs as [|v vs IH]; intros a H; [repeat split; congruence|]. destruct H as [H1 H2]. cbn [exp_split].
  set (dv := v - a). set (ns := (dv + nmax - 1) / nmax).
  assert (Hns : 1 <= ns /\ dv <= ns * nmax /\ ns <= dv).
  { unfold ns. pose proof (Z.div_mod (dv + nmax - 1) nmax ltac:(lia)). pose proof (Z.mod_pos_bound (dv + nmax - 1) nmax ltac:(lia)).
    assert (1 <= dv) by (unfold dv; lia). split; [|split]; nia. }
  set (f := fun i => a + dv * i / ns).
  change (map (fun i : Z => a + dv * (i + 1) / ns) (zrange 0 ns)) with (map (fun i => f (i + 1)) (zrange 0 ns)).
  set (new := map (fun i => f (i + 1)) (zrange 0 ns)).
  assert (E0 : f 0 = a) by (unfold f; rewrite Z.mul_0_r; cbn; lia).
  assert (Hnew : steps_bt 1 nmax a new).
  { rewrite <- E0. apply steps_bt_map. intros i Hi. unfold f.
    pose proof (Z.div_mod (dv * i) ns ltac:(lia)). pose proof (Z.mod_pos_bound (dv * i) ns ltac:(lia)).
    pose proof (Z.div_mod (dv * (i + 1)) ns ltac:(lia)). pose proof (Z.mod_pos_bound (dv * (i + 1)) ns ltac:(lia)). nia. }
  assert (Hsn : new = map (fun i => f (i + 1)) (zrange 0 (ns - 1)) ++ [v]).
  { unfold new. replace ns with (ns - 1 + 1) at 1 by lia. rewrite zrange_snoc by lia. rewrite map_app. f_equal. cbn [map]. f_equal.
    unfold f. replace (ns - 1 + 1) with ns by lia. rewrite Z.div_mul by lia. unfold dv. lia. }
  assert (Hl : last new a = v) by (rewrite Hsn; apply last_last).
  rewrite Hl. destruct (IH v H2) as (I1 & I2 & I3). split; [apply steps_bt_app; [exact Hnew|rewrite Hl; exact I1]|]. split.
  - rewrite last_cons_default. rewrite <- I2. rewrite Hsn, <- app_assoc.
    cbn [app]. clear. set (l1 := map _ _). induction l1 as [|x l1 IH1]; [apply last_cons_default|].
    cbn [app]. rewrite last_cons_default. rewrite (last_default _ x a); [exact IH1|]. destruct l1; discriminate.
  - intros _. rewrite Hsn. rewrite <- app_assoc. destruct (map (fun i => f (i + 1)) (zrange 0 (ns - 1))); discriminate.
Qed.

Lemma expbin_spec fuel tmp n nbin nmin nmax bins : exp_ok tmp n nbin -> 1 <= nbin -> 1 <= nmin -> 0 <= nmax ->
  expbin fuel tmp n nbin nmin nmax = Some bins ->
  tiles_range 0 n bins /\ bins <> [] /\ (forall b, In b bins -> 0 < bin_size b) /\
  (nmax = 0 -> forall b, In b bins -> nmin <= bin_size b) /\ (0 < nmax -> forall b, In b bins -> bin_size b <= nmax).
Proof.
  intros (T1 & T2 & T3 & T4) Hnb Hmin Hmax. unfold expbin.
  destruct (exp_loop fuel nbin nmin tmp 0 [znth tmp 0]) as [fixed|] eqn:E; [|discriminate].
  apply exp_loop_spec in E as (r & -> & I1 & I2 & I3 & I4).
  2:{ repeat split; try lia. }
  rewrite T2, T3 in *. assert (Hr : r <> []) by (intros ->; specialize (I4 eq_refl); lia).
  assert (S1 : steps_ge 1 0 r) by (clear -I2 Hmin; revert I2; generalize 0; induction r as [|x r IH]; intros a; [trivial|]; intros [H1 H2]; split; [lia|auto]).
  destruct (nmax =? 0) eqn:Em.
  - rewrite set_last_same; [|discriminate|rewrite last_cons_default; exact I3]. intros H. injection H as <-.
    split; [rewrite <- I3; apply edges_tile; apply (steps_ge_nondec nmin); [lia|exact I2]|].
    split; [destruct r; [congruence|discriminate]|]. pose proof (steps_ge_bins _ _ _ I2) as HB.
    split; [intros b Hb; specialize (HB b Hb); lia|]. split; [auto|lia].
  - destruct (exp_split_spec nmax ltac:(lia) r 0 S1) as (J1 & J2 & J3). rewrite I3 in J2. specialize (J3 Hr).
    rewrite set_last_same; [|discriminate|rewrite last_cons_default; exact J2]. intros H. injection H as <-.
    split; [rewrite <- J2; apply edges_tile; apply (steps_ge_nondec 1); [lia|apply steps_bt_ge with (hi := nmax); exact J1]|].
    split; [destruct (exp_split nmax 0 r); [congruence|discriminate]|]. pose proof (steps_bt_bins _ _ _ _ J1) as HB.
    split; [intros b Hb; specialize (HB b Hb); lia|]. split; [lia|]. intros _ b Hb. specialize (HB b Hb). lia.
Qed.

(* it returns when the last unmerged bin is big enough *)
Lemma exp_scan_reach nmin tmp nbin n : exp_ok tmp n nbin -> 0 <= nbin -> forall js i fixed, 0 <= i < nbin -> nmin <= znth tmp nbin - znth tmp (nbin - 1) ->
  (forall j, In j js -> 0 <= j < nbin) -> fst (exp_scan nmin tmp (js ++ [nbin]) i fixed) = nbin.
Proof.
  intros (T1 & T2 & T3 & T4) Hnb. induction js as [|j js IH]; intros i fixed Hi Hlast Hj.
  - cbn [app exp_scan]. pose proof (T4 i (nbin - 1)). destruct (nmin <=? znth tmp nbin - znth tmp i) eqn:E; [reflexivity|lia].
  - cbn [app exp_scan]. destruct (nmin <=? znth tmp j - znth tmp i); apply IH; auto; intros; apply Hj; (now left) || (now right).
Qed.
Lemma expbin_returns tmp n nbin nmin nmax : exp_ok tmp n nbin -> 1 <= nbin -> nmin <= znth tmp nbin - znth tmp (nbin - 1) ->
  exists bins, expbin 1 tmp n nbin nmin nmax = Some bins.
Proof.
  intros Hok Hnb Hlast. unfold expbin. cbn [exp_loop]. destruct (0 <? nbin) eqn:E; [|lia].
  pose proof (exp_scan_reach nmin tmp nbin n Hok ltac:(lia) (zrange (0 + 1) nbin) 0 [znth tmp 0] ltac:(lia) Hlast) as H.
  rewrite <- zrange_snoc in H by lia. destruct (exp_scan nmin tmp (zrange (0 + 1) (nbin + 1)) 0 [znth tmp 0]) as [i' fixed'] eqn:Es.
  cbn [fst] in H. rewrite H by (intros j Hj; apply zrange_In in Hj; lia). rewrite Z.ltb_irrefl. eauto.
Qed.

(** bin_data / bin_expand *)
Lemma tiles_le lo hi bins : tiles_range lo hi bins -> lo <= hi.
Proof. revert lo. induction bins as [|[a b] r IH]; intros lo; [cbn; lia|]. intros (-> & H1 & H2). apply IH in H2. lia. Qed.
Lemma tiles_in lo hi bins i a b : tiles_range lo hi bins -> zget bins i = Some (a, b) -> lo <= a <= b /\ b <= hi.
Proof.
  revert lo i. induction bins as [|[c d] r IH]; intros lo i; [rewrite zget_nil; discriminate|]. intros (-> & H1 & H2). rewrite zget_cons.
  destruct (i =? 0); [intros E; injection E as -> ->; apply tiles_le in H2; lia|]. intros Hi. apply (IH d) in Hi; [lia|exact H2].
Qed.
Lemma tiles_unique lo hi bins k : tiles_range lo hi bins -> lo <= k < hi -> exists! i, in_bin bins i k.
Proof.
  revert lo. induction bins as [|[a b] r IH]; intros lo; [cbn; lia|]. intros (-> & H1 & H2) Hk.
  destruct (Z_lt_ge_dec k b) as [Hb|Hb].
  - exists 0. split; [exists lo, b; split; [reflexivity|lia]|]. intros j (c & d & Hj & Hc). rewrite zget_cons in Hj. destruct (j =? 0) eqn:E; [lia|].
    apply (tiles_in b hi) in Hj; [lia|exact H2].
  - destruct (IH b H2 ltac:(lia)) as (i & (c & d & Hi & Hc) & Hu). pose proof (zget_Some_range _ _ _ Hi). exists (i + 1). split.
    + exists c, d. rewrite zget_cons. destruct (i + 1 =? 0) eqn:E; [lia|]. replace (i + 1 - 1) with i by lia. auto.
    + intros j (e & g & Hj & He). rewrite zget_cons in Hj. destruct (j =? 0) eqn:E; [injection Hj as -> ->; lia|].
      rewrite (Hu (j - 1)); [lia|]. exists e, g. auto.
Qed.

Lemma fill_zlen {A} (l : list A) a b v : 0 <= a <= b -> b <= zlen l -> zlen (fill l a b v) = zlen l.
Proof. intros H1 H2. unfold fill, zlen in *. rewrite !app_length, repeat_length, firstn_length, skipn_length. lia. Qed.
Lemma fill_zget {A} (l : list A) a b v k : 0 <= a <= b -> b <= zlen l -> zget (fill l a b v) k = if (a <=? k) && (k <? b) then Some v else zget l k.
Proof.
  intros H1 H2. unfold fill. assert (L1 : zlen (firstn (Z.to_nat a) l) = a) by (unfold zlen in *; rewrite firstn_length; lia).
  destruct (Z_lt_ge_dec k a) as [Hk|Hk].
  - rewrite zget_app1 by lia. rewrite zget_firstn. destruct (k <? a) eqn:E1; [|lia]. destruct ((a <=? k) && (k <? b)) eqn:E2; [lia|reflexivity].
  - rewrite zget_app2 by lia. rewrite L1. destruct (Z_lt_ge_dec k b) as [Hb|Hb].
    + rewrite zget_app1 by (rewrite zlen_repeat; lia). rewrite zget_repeat'. destruct ((0 <=? k - a) && (k - a <? b - a)) eqn:E1; [|lia].
      destruct ((a <=? k) && (k <? b)) eqn:E2; [reflexivity|lia].
    + rewrite zget_app2 by (rewrite zlen_repeat; lia). rewrite zlen_repeat by lia. rewrite zget_skipn by lia.
      destruct (k - a - (b - a) <? 0) eqn:E0; [lia|]. destruct ((a <=? k) && (k <? b)) eqn:E2; [lia|]. f_equal. lia.
Qed.
Lemma bin_fill_spec {A} : forall bins (bd : list A) res lo hi, tiles_range lo hi bins -> length bd = length bins -> 0 <= lo -> hi <= zlen res ->
  zlen (bin_fill bins bd res) = zlen res /\
  (forall k, k < lo -> zget (bin_fill bins bd res) k = zget res k) /\
  (forall i k, in_bin bins i k -> zget (bin_fill bins bd res) k = zget bd i).
Proof.
  induction bins as [|[a b] r IH]; intros [|v bd] res lo hi Ht Hlen Hlo Hhi; try discriminate.
  - split; [reflexivity|]. split; [reflexivity|]. intros i k (c & d & H & _). rewrite zget_nil in H. discriminate.
  - destruct Ht as (-> & H1 & H2). pose proof (tiles_le _ _ _ H2). cbn [bin_fill].
    destruct (IH bd (fill res lo b v) b hi) as (I1 & I2 & I3); [exact H2|cbn in Hlen; lia|lia|rewrite fill_zlen; lia|].
    rewrite fill_zlen in I1 by lia. split; [exact I1|]. split.
    + intros k Hk. rewrite I2 by lia. rewrite fill_zget by lia. destruct ((lo <=? k) && (k <? b)) eqn:E; [lia|reflexivity].
    + intros i k (c & d & Hi & Hk). rewrite zget_cons in Hi. rewrite (zget_cons v). destruct (i =? 0) eqn:E.
      * injection Hi as -> ->. rewrite I2 by lia. rewrite fill_zget by lia. destruct ((c <=? k) && (k <? d)) eqn:E2; [reflexivity|lia].
      * apply I3. exists c, d. auto.
Qed.
Lemma tiles_last lo hi bins b r : tiles_range lo hi bins -> rev bins = b :: r -> snd b = hi.
Proof.
  intros Ht Hr. assert (E : bins = rev r ++ [b]) by (rewrite <- (rev_involutive bins), Hr; reflexivity). subst bins. clear Hr.
  revert lo Ht. induction (rev r) as [|[x y] t IH]; intros lo; cbn [app].
  - destruct b as [x y]. cbn. tauto.
  - intros (_ & _ & H). eauto.
Qed.
Lemma bin_expand_spec {A} (zero : A) bins bd n : tiles_range 0 n bins -> length bd = length bins -> bins <> [] ->
  exists y, bin_expand zero bins bd = Some y /\ zlen y = n /\ forall i k, in_bin bins i k -> zget y k = zget bd i.
Proof.
  intros Ht Hl Hne. unfold bin_expand. destruct (rev bins) as [|b r] eqn:E.
  - apply (f_equal (@rev _)) in E. rewrite rev_involutive in E. cbn in E. congruence.
  - rewrite (tiles_last _ _ _ _ _ Ht E). pose proof (tiles_le _ _ _ Ht). eexists. split; [reflexivity|].
    destruct (bin_fill_spec bins bd (repeat zero (Z.to_nat n)) 0 n Ht Hl) as (I1 & I2 & I3); [lia|rewrite zlen_repeat; lia|].
    rewrite zlen_repeat in I1 by lia. auto.
Qed.

Lemma bin_data_spec {A} (op : list A -> A) bins d i a b : tiles_range 0 (zlen d) bins -> zget bins i = Some (a, b) ->
  zget (bin_data op bins d) i = Some (op (sub d a b)).
Proof.
  intros Ht Hi. unfold bin_data. rewrite zget_map, Hi. cbn [option_map fst snd]. apply (tiles_in 0 (zlen d)) in Hi as [H1 H2]; [|exact Ht].
  rewrite psl_sub by lia. rewrite !Z.min_l by lia. reflexivity.
Qed.
Lemma bin_data_expand {A} (R : A -> A -> Prop) (op : list A -> A) zero bins bd n : (forall v m, (1 <= m)%nat -> R (op (repeat v m)) v) ->
  tiles_range 0 n bins -> (forall b, In b bins -> 0 < bin_size b) -> bins <> [] -> length bd = length bins ->
  exists y, bin_expand zero bins bd = Some y /\ zlen y = n /\ Forall2 R (bin_data op bins y) bd.
Proof.
  intros Hop Ht Hpos Hne Hl. destruct (bin_expand_spec zero bins bd n Ht Hl Hne) as (y & H1 & H2 & H3).
  exists y. split; [exact H1|]. split; [exact H2|]. apply Forall2_zget.
  - unfold bin_data. rewrite zlen_map. unfold zlen. lia.
  - intros i u v Hu Hv. destruct (zget_in_range bins i) as [[a b] Hi]; [apply zget_Some_range in Hv; unfold zlen in *; lia|].
    assert (Hb : 0 < b - a). { specialize (Hpos (a, b)). apply Hpos. unfold zget in Hi. destruct (i <? 0); [discriminate|]. eapply nth_error_In, Hi. }
    subst n. pose proof (tiles_in _ _ _ _ _ _ Ht Hi). rewrite (bin_data_spec op bins y i a b Ht Hi) in Hu. injection Hu as <-.
    rewrite (sub_const _ v); [apply Hop; lia|lia|lia|]. intros k Hk. rewrite (H3 i k); [exact Hv|exists a, b; auto].
Qed.
(* nothing is lost or counted twice *)
Lemma bin_data_sum bins : forall d lo, tiles_range lo (zlen d) bins -> 0 <= lo -> (qsum (bin_data qsum bins d) == qsum (sub d lo (zlen d)))%Q.
Proof.
  induction bins as [|[a b] r IH]; intros d lo Ht Hlo.
  - cbn in Ht. subst lo. unfold sub. rewrite Z.sub_diag. reflexivity.
  - destruct Ht as (-> & H1 & H2). pose proof (tiles_le _ _ _ H2). cbn [bin_data map qsum fst snd]. fold (@bin_data Q qsum r d).
    rewrite (IH d b H2) by lia. rewrite psl_sub by lia. rewrite !Z.min_l by lia. rewrite <- qsum_app.
    replace (sub d lo b ++ sub d b (zlen d)) with (sub d lo (zlen d)); [reflexivity|]. apply zget_ext. intros k.
    destruct (Z_lt_ge_dec k (b - lo)) as [Hk|Hk].
    + rewrite zget_app1 by (rewrite zlen_sub; lia). rewrite !zget_sub by lia. destruct ((0 <=? k) && (k <? zlen d - lo)) eqn:E1, ((0 <=? k) && (k <? b - lo)) eqn:E2; try lia; reflexivity.
    + rewrite zget_app2 by (rewrite zlen_sub; lia). rewrite zlen_sub by lia. rewrite !zget_sub by lia.
      destruct ((0 <=? k) && (k <? zlen d - lo)) eqn:E1, ((0 <=? k - (b - lo)) && (k - (b - lo) <? zlen d - b)) eqn:E2; try lia; try reflexivity. f_equal. lia.
Qed.

Lemma bins2edges_two a b c : bins2edges (edges2bins [a; b; c]) = Some [a; b; c].
Proof. reflexivity. Qed.
