From Coq Require Import Reals Lra Permutation Sorted.
From Verif Require Import Base QtlSpec QtlModel.
Ltac Zify.zify_post_hook ::= idtac.
Open Scope R_scope.

Lemma search_le_len b a v : (search b a v <= length a)%nat.
Proof. induction a as [|x a IH]; [cbn; lia|]. cbn [search length]. destruct b; [destruct (Rlt_dec x v)|destruct (Rle_dec x v)]; lia. Qed.
Lemma search_none a v : (forall x, In x a -> v <= x) -> search true a v = 0%nat.
Proof. induction a as [|x a IH]; intros H; [reflexivity|]. cbn [search]. destruct (Rlt_dec x v) as [G|G]; [specialize (H x (or_introl eq_refl)); lra|]. apply IH. intros y Hy. apply H. now right. Qed.
Lemma search_spec a v : StronglySorted Rle a -> forall k, search true a v = k ->
  (forall j, (j < k)%nat -> nth j a 0 < v) /\ (forall j, (k <= j < length a)%nat -> v <= nth j a 0).
Proof.
  induction 1 as [|x a Ha IH Hx]; intros k E.
  - cbn in E. subst k. split; intros; cbn in *; lia.
  - rewrite Forall_forall in Hx. cbn [search] in E. destruct (Rlt_dec x v) as [G|G].
    + destruct k as [|k]; [lia|]. destruct (IH k) as [I1 I2]; [lia|]. split.
      * intros [|j] Hj; [exact G|]. cbn [nth]. apply I1. lia.
      * intros [|j] Hj; [lia|]. cbn [nth length] in *. apply I2. lia.
    + rewrite search_none in E by (intros y Hy; specialize (Hx y Hy); lra). cbn in E. subst k. split; [intros; lia|].
      intros [|j] Hj; cbn [nth length] in *; [lra|]. assert (x <= nth j a 0) by (apply Hx, nth_In; lia). lra.
Qed.
Lemma search_mono a v v' : v <= v' -> (search true a v <= search true a v')%nat.
Proof. intros H. induction a as [|x a IH]; [cbn; lia|]. cbn [search]. destruct (Rlt_dec x v), (Rlt_dec x v'); try lia; lra. Qed.

Lemma last_cumsum l : forall acc, last (cumsum acc l) acc = acc + rsum l.
Proof.
  induction l as [|x l IH]; intros acc; [cbn; lra|]. cbn [cumsum rsum]. replace (last ((acc + x) :: cumsum (acc + x) l) acc) with (last (cumsum (acc + x) l) (acc + x)).
  - rewrite IH. lra.
  - destruct (cumsum (acc + x) l) as [|c cs]; [reflexivity|]. cbn [last]. clear. revert c. induction cs as [|d cs IH]; intros c; [reflexivity|]. cbn [last] in *. apply IH.
Qed.
Lemma ends_total l : last (cumsum 0 l) 0 = rsum l.
Proof. rewrite last_cumsum. lra. Qed.

Definition den (ws : list R) : R := if Rlt_dec 0 (rsum ws) then rsum ws else 1.
Lemma den_pos ws : 0 < den ws. Proof. unfold den. destruct (Rlt_dec 0 (rsum ws)); lra. Qed.

Lemma cum_raw_nth ws : forall acc i, (i < length ws)%nat ->
  nth i (map (fun cw => fst cw - / 2 * snd cw) (combine (cumsum acc ws) ws)) 0 = acc + rsum (firstn i ws) + nth i ws 0 / 2.
Proof.
  induction ws as [|w ws IH]; intros acc i Hi; [cbn in Hi; lia|]. destruct i as [|i]; cbn [cumsum combine map nth firstn rsum fst snd].
  - field.
  - cbn [length] in Hi. rewrite IH by lia. lra.
Qed.
Lemma icum_map ws : icum ws = map (fun z => z / den ws) (map (fun cw => fst cw - / 2 * snd cw) (combine (cumsum 0 ws) ws)).
Proof. unfold icum. rewrite ends_total. rewrite map_map. reflexivity. Qed.
Lemma icum_length ws : length (icum ws) = length ws.
Proof. unfold icum. rewrite map_length, combine_length. assert (E : forall l acc, length (cumsum acc l) = length l) by (induction l; intros; cbn; congruence). rewrite E. lia. Qed.
Lemma icum_nth ws i : (i < length ws)%nat -> nth i (icum ws) 0 = (rsum (firstn i ws) + nth i ws 0 / 2) / den ws.
Proof.
  intros Hi. rewrite icum_map. transitivity (nth i (map (fun z => z / den ws) (map (fun cw => fst cw - / 2 * snd cw) (combine (cumsum 0 ws) ws))) ((fun z => z / den ws) 0)).
  - f_equal. cbn beta. field. pose proof (den_pos ws). lra.
  - rewrite (map_nth (fun z => z / den ws)). rewrite cum_raw_nth by exact Hi. f_equal. lra.
Qed.
Lemma rsum_nonneg l : (forall x, In x l -> 0 <= x) -> 0 <= rsum l.
Proof. induction l as [|x l IH]; intros H; [cbn; lra|]. cbn [rsum]. pose proof (H x (or_introl eq_refl)). assert (0 <= rsum l) by (apply IH; intros y Hy; apply H; now right). lra. Qed.

Lemma raw_sorted ws : (forall w, In w ws -> 0 <= w) -> forall acc,
  StronglySorted Rle (map (fun cw => fst cw - / 2 * snd cw) (combine (cumsum acc ws) ws)) /\
  (forall z, In z (map (fun cw => fst cw - / 2 * snd cw) (combine (cumsum acc ws) ws)) -> acc <= z).
Proof.
  induction ws as [|w ws IH]; intros H acc; [split; [constructor|intros z []]|]. cbn [cumsum combine map fst snd].
  pose proof (H w (or_introl eq_refl)) as Hw. destruct (IH (fun x Hx => H x (or_intror Hx)) (acc + w)) as [I1 I2]. split.
  - constructor; [exact I1|]. apply Forall_forall. intros z Hz. specialize (I2 z Hz). lra.
  - intros z [<-|Hz]; [lra|]. specialize (I2 z Hz). lra.
Qed.
Lemma icum_sorted ws : (forall w, In w ws -> 0 <= w) -> StronglySorted Rle (icum ws).
Proof.
  intros H. rewrite icum_map. destruct (raw_sorted ws H 0) as [S _]. pose proof (den_pos ws) as D. induction S as [|z l Hl IH Hz]; cbn [map]; constructor; [exact IH|].
  apply Forall_forall. intros y Hy. apply in_map_iff in Hy as (u & <- & Hu). rewrite Forall_forall in Hz. specialize (Hz u Hu).
  unfold Rdiv. apply Rmult_le_compat_r; [left; now apply Rinv_0_lt_compat|exact Hz].
Qed.

Lemma wq_ne s q : s <> [] -> weighted_quantile s q =
  let ic := icum (map snd s) in let i1 := search true ic q in
  Some (if Nat.eqb i1 0 then nth 0 (map fst s) 0
        else if Nat.eqb i1 (length s) then nth (length s - 1) (map fst s) 0
        else let x := (q - nth (i1 - 1) ic 0) / (nth i1 ic 0 - nth (i1 - 1) ic 0) in nth (i1 - 1) (map fst s) 0 * (1 - x) + nth i1 (map fst s) 0 * x).
Proof. intros H. unfold weighted_quantile. destruct s as [|p l]; [congruence|]. cbv zeta. destruct (Nat.eqb _ 0); [reflexivity|]. destruct (Nat.eqb _ _); reflexivity. Qed.
Lemma total_pos_ne s : s <> [] -> (forall p : wval, In p s -> 0 < snd p) -> 0 < total s.
Proof.
  intros Hne Hp. unfold total. destruct s as [|p l]; [congruence|]. cbn [map rsum]. assert (0 < snd p) by (apply Hp; now left).
  assert (0 <= rsum (map snd l)); [|lra]. apply rsum_nonneg. intros x Hx. apply in_map_iff in Hx as (q & <- & Hq). left. apply Hp. now right.
Qed.

Section Q.
Variable s : list wval.
Hypothesis Hs : StronglySorted (fun a b => fst a <= fst b) s.
Hypothesis Hne : s <> [].
Hypothesis Hw : forall p, In p s -> 0 <= snd p.
Let ic := icum (map snd s).
Let n := length s.

Lemma value_mono : forall i j, (i <= j < n)%nat -> value s i <= value s j.
Proof.
  unfold value, n. clear Hne Hw. induction Hs as [|p l Hl IH Hp]; intros i j [H1 H2]; [cbn in H2; lia|]. rewrite Forall_forall in Hp.
  destruct i as [|i], j as [|j]; cbn [nth length] in *; [lra| |lia|apply IH; [exact Hl|lia]].
  apply Hp, nth_In. lia.
Qed.
Lemma mp_nth i : nth i (map fst s) 0 = value s i.
Proof. unfold value. change 0 with (fst (0, 0)) at 1. apply map_nth. Qed.
Lemma n_pos : (0 < n)%nat. Proof. unfold n. destruct s; [congruence|cbn; lia]. Qed.
Lemma ic_sorted : StronglySorted Rle ic.
Proof. apply icum_sorted. intros w Hin. apply in_map_iff in Hin as (p & <- & Hp). auto. Qed.
Lemma ic_len : length ic = n. Proof. unfold ic, n. rewrite icum_length. apply map_length. Qed.

Definition lerp q k := let x := between q (nth (k - 1) ic 0) (nth k ic 0) in value s (k - 1) * (1 - x) + value s k * x.

Lemma quantile_cases q : let k := search true ic q in (k <= n)%nat /\
  weighted_quantile s q = Some (if Nat.eqb k 0 then value s 0 else if Nat.eqb k n then value s (n - 1) else lerp q k) /\
  ((0 < k < n)%nat -> nth (k - 1) ic 0 < q <= nth k ic 0 /\ 0 < between q (nth (k - 1) ic 0) (nth k ic 0) <= 1).
Proof.
  intros k. assert (Hk : (k <= n)%nat) by (rewrite <- ic_len; apply search_le_len). split; [exact Hk|]. split.
  - rewrite wq_ne by exact Hne. cbv zeta. fold ic. fold n. fold k. rewrite !mp_nth. unfold lerp, between. reflexivity.
  - intros H. destruct (search_spec ic q ic_sorted k eq_refl) as [S1 S2]. assert (A1 : nth (k - 1) ic 0 < q) by (apply S1; lia). assert (A2 : q <= nth k ic 0) by (apply S2; rewrite ic_len; lia).
    split; [lra|]. unfold between. set (a := nth (k - 1) ic 0) in *. set (b := nth k ic 0) in *. split.
    + apply Rmult_lt_0_compat; [lra|]. apply Rinv_0_lt_compat. lra.
    + apply (Rmult_le_reg_r (b - a)); [lra|]. unfold Rdiv. rewrite Rmult_assoc, Rinv_l by lra. lra.
Qed.

Lemma lerp_between q k : (0 < k < n)%nat -> 0 < between q (nth (k - 1) ic 0) (nth k ic 0) <= 1 -> value s (k - 1) <= lerp q k <= value s k.
Proof.
  intros Hk Hx. unfold lerp. pose proof (value_mono (k - 1) k ltac:(lia)) as V. set (x := between _ _ _) in *. split; nra.
Qed.

Lemma quantile_mono q q' v v' : q <= q' -> weighted_quantile s q = Some v -> weighted_quantile s q' = Some v' -> v <= v'.
Proof.
  intros Hq E E'. destruct (quantile_cases q) as (K1 & K2 & K3), (quantile_cases q') as (L1 & L2 & L3). rewrite K2 in E. rewrite L2 in E'. apply Some_inj in E, E'. clear K2 L2.
  pose proof (search_mono ic q q' Hq) as M. set (k := search true ic q) in *. set (k' := search true ic q') in *. pose proof n_pos as Np.
  assert (U : v <= value s (if Nat.eqb k n then n - 1 else k)).
  { subst v. destruct (Nat.eqb_spec k 0) as [->|]; [destruct (Nat.eqb_spec 0 n); [lia|lra]|]. destruct (Nat.eqb_spec k n); [lra|]. apply lerp_between; [lia|]. apply K3. lia. }
  assert (Lo : value s (if Nat.eqb k' 0 then 0 else k' - 1) <= v').
  { subst v'. destruct (Nat.eqb_spec k' 0); [lra|]. destruct (Nat.eqb_spec k' n) as [->|]; [lra|]. apply lerp_between; [lia|]. apply L3. lia. }
  destruct (Nat.eq_dec k k') as [Ek|Nk].
  - subst v v'. rewrite <- Ek in *. destruct (Nat.eqb_spec k 0); [lra|]. destruct (Nat.eqb_spec k n); [lra|].
    destruct (K3 ltac:(lia)) as [A _], (L3 ltac:(lia)) as [B _]. unfold lerp.
    pose proof (value_mono (k - 1) k ltac:(lia)) as V.
    assert (X : between q (nth (k - 1) ic 0) (nth k ic 0) <= between q' (nth (k - 1) ic 0) (nth k ic 0)).
    { unfold between, Rdiv. apply Rmult_le_compat_r; [left; apply Rinv_0_lt_compat; lra|lra]. }
    set (x := between q _ _) in *. set (y := between q' _ _) in *. nra.
  - destruct (Nat.eqb_spec k n); [lia|]. destruct (Nat.eqb_spec k' 0); [lia|]. pose proof (value_mono k (k' - 1) ltac:(lia)). lra.
Qed.

Lemma quantile_range q v : weighted_quantile s q = Some v -> value s 0 <= v <= value s (n - 1).
Proof.
  intros E. destruct (quantile_cases q) as (K1 & K2 & K3). rewrite K2 in E. apply Some_inj in E. set (k := search true ic q) in *. pose proof n_pos.
  destruct (Nat.eqb_spec k 0); [pose proof (value_mono 0 (n - 1) ltac:(lia)); lra|]. destruct (Nat.eqb_spec k n); [pose proof (value_mono 0 (n - 1) ltac:(lia)); lra|].
  destruct (lerp_between q k ltac:(lia)) as [L1 L2]; [apply K3; lia|]. pose proof (value_mono 0 (k - 1) ltac:(lia)). pose proof (value_mono k (n - 1) ltac:(lia)). subst v. lra.
Qed.

(* with positive weights the shares increase *)
Hypothesis Hp : forall p, In p s -> 0 < snd p.
Lemma total_pos : 0 < total s.
Proof. apply total_pos_ne; assumption. Qed.
Lemma ic_share i : (i < n)%nat -> nth i ic 0 = share s i.
Proof.
  intros Hi. unfold ic. rewrite icum_nth by (rewrite map_length; exact Hi). unfold share, den. fold (total s). destruct (Rlt_dec 0 (total s)); [|pose proof total_pos; contradiction].
  rewrite firstn_map. change 0 with (snd (0, 0)) at 1. rewrite map_nth. reflexivity.
Qed.
Lemma firstn_snoc {B} (l : list B) d i : (i < length l)%nat -> firstn (S i) l = firstn i l ++ [nth i l d].
Proof. revert i. induction l as [|x l IH]; intros [|i] Hi; cbn [length] in Hi; try lia; [reflexivity|]. cbn [firstn nth app]. f_equal. apply IH. lia. Qed.
Lemma share_step i : (S i < n)%nat -> share s i < share s (S i).
Proof.
  intros Hi. unfold share, n in *. pose proof total_pos as T. rewrite (firstn_snoc s (0, 0)) by lia. rewrite map_app. cbn [map].
  assert (E : forall l x, rsum (l ++ [x]) = rsum l + x) by (intros l x; induction l as [|y l IH]; cbn; [lra|rewrite IH; lra]). rewrite E.
  assert (0 < snd (nth i s (0, 0))) by (apply Hp, nth_In; lia). assert (0 < snd (nth (S i) s (0, 0))) by (apply Hp, nth_In; lia).
  unfold Rdiv at 1 3. apply Rmult_lt_compat_r; [now apply Rinv_0_lt_compat|lra].
Qed.
Lemma share_lt i j : (i < j < n)%nat -> share s i < share s j.
Proof. intros [H1 H2]. induction H1 as [|j H1 IH]; [apply share_step; exact H2|]. specialize (IH ltac:(lia)). pose proof (share_step j H2). lra. Qed.
Lemma search_unique q k : (k <= n)%nat -> (forall j, (j < k)%nat -> share s j < q) -> (forall j, (k <= j < n)%nat -> q <= share s j) -> search true ic q = k.
Proof.
  intros Hk H1 H2. destruct (search_spec ic q ic_sorted _ eq_refl) as [S1 S2]. pose proof (search_le_len true ic q) as SL. rewrite ic_len in *. set (m := search true ic q) in *.
  destruct (lt_eq_lt_dec m k) as [[L|L]|L]; [|exact L|].
  - specialize (H1 m L). specialize (S2 m ltac:(lia)). rewrite ic_share in S2 by lia. lra.
  - specialize (H2 k ltac:(lia)). specialize (S1 k L). rewrite ic_share in S1 by lia. lra.
Qed.

Lemma quantile_low q : q <= share s 0 -> weighted_quantile s q = Some (value s 0).
Proof.
  intros H. pose proof n_pos. destruct (quantile_cases q) as (_ & E & _). rewrite (search_unique q 0) in E; [exact E|lia|intros; lia|].
  intros j Hj. destruct j as [|j]; [exact H|]. pose proof (share_lt 0 (S j) ltac:(lia)). lra.
Qed.
Lemma quantile_high q : share s (n - 1) <= q -> weighted_quantile s q = Some (value s (n - 1)).
Proof.
  intros H. pose proof n_pos as Np. destruct (quantile_cases q) as (_ & E & _). destruct (Req_dec q (share s (n - 1))) as [Eq|Ne].
  - rewrite (search_unique q (n - 1)) in E; [|lia| |].
    + destruct (Nat.eqb_spec (n - 1) 0) as [E0|E0]; [rewrite E, E0; reflexivity|]. destruct (Nat.eqb_spec (n - 1) n); [lia|]. rewrite E. f_equal. unfold lerp, between.
      rewrite (ic_share (n - 1)) by lia. rewrite Eq. pose proof (share_lt (n - 1 - 1) (n - 1) ltac:(lia)). rewrite ic_share by lia. field. lra.
    + intros j Hj. rewrite Eq. apply share_lt. lia.
    + intros j Hj. replace j with (n - 1)%nat by lia. lra.
  - rewrite (search_unique q n) in E; [|lia| |intros; lia].
    + destruct (Nat.eqb_spec n 0); [lia|]. rewrite Nat.eqb_refl in E. exact E.
    + intros j Hj. destruct (Nat.eq_dec j (n - 1)) as [->|]; [lra|]. pose proof (share_lt j (n - 1) ltac:(lia)). lra.
Qed.
Lemma quantile_mid q i : (S i < n)%nat -> share s i <= q <= share s (S i) ->
  weighted_quantile s q = Some (value s i + (value s (S i) - value s i) * between q (share s i) (share s (S i))).
Proof.
  intros Hi [H1 H2]. pose proof (share_step i Hi) as SS. destruct (quantile_cases q) as (_ & E & _). destruct (Req_dec q (share s i)) as [Eq|Ne].
  - replace (between q (share s i) (share s (S i))) with 0 by (unfold between; rewrite Eq; field; lra). rewrite Rmult_0_r, Rplus_0_r.
    rewrite (search_unique q i) in E; [|lia| |].
    + destruct (Nat.eqb_spec i 0) as [->|N0]; [exact E|]. destruct (Nat.eqb_spec i n); [lia|]. rewrite E. f_equal. unfold lerp, between. rewrite (ic_share i), (ic_share (i - 1)) by lia.
      pose proof (share_lt (i - 1) i ltac:(lia)). rewrite Eq. field. lra.
    + intros j Hj. rewrite Eq. apply share_lt. lia.
    + intros j Hj. rewrite Eq. destruct (Nat.eq_dec i j) as [->|]; [lra|]. left. apply share_lt. lia.
  - rewrite (search_unique q (S i)) in E; [|lia| |].
    + destruct (Nat.eqb_spec (S i) 0); [lia|]. destruct (Nat.eqb_spec (S i) n); [lia|]. rewrite E. f_equal. unfold lerp. replace (S i - 1)%nat with i by lia. rewrite !ic_share by lia. ring.
    + intros j Hj. destruct (Nat.eq_dec j i) as [->|]; [lra|]. pose proof (share_lt j i ltac:(lia)). lra.
    + intros j Hj. destruct (Nat.eq_dec j (S i)) as [->|]; [lra|]. pose proof (share_lt (S i) j ltac:(lia)). lra.
Qed.
End Q.
