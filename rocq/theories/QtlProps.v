(* C109: weighted quantiles and medians *)
From Coq Require Import Reals Lra Permutation Sorted.
From Verif Require Import Base QtlSpec QtlModel QtlLemmas.
Ltac Zify.zify_post_hook ::= idtac.
Open Scope R_scope.

(* what np.argsort gives is any order by value: the theorems hold for all of them *)

Lemma perm_ne (l s : list wval) : Permutation l s -> l <> [] -> s <> [].
Proof. intros H N ->. apply N. apply Permutation_nil. now apply Permutation_sym. Qed.

(* positive weights: the values in order sit at the shares of the weight up to their middles; between two of them the
   quantile is found on the straight line, and it does not go beyond the first and the last *)
Theorem C109_quantile : forall l s q, l <> [] -> sorted_by_value l s -> (forall p, In p l -> 0 < snd p) ->
  let n := length l in
  (q <= share s 0 -> weighted_quantile s q = Some (value s 0)) /\
  (share s (n - 1) <= q -> weighted_quantile s q = Some (value s (n - 1))) /\
  (forall i, (S i < n)%nat -> share s i <= q <= share s (S i) ->
     weighted_quantile s q = Some (value s i + (value s (S i) - value s i) * between q (share s i) (share s (S i)))) /\
  (forall i, (S i < n)%nat -> share s i < share s (S i)).
Proof.
  intros l s q Hne [HP HS] Hw n. assert (Hs : s <> []) by (eapply perm_ne; eassumption). assert (Hp : forall p, In p s -> 0 < snd p) by (intros p Hin; apply Hw; eapply Permutation_in; [apply Permutation_sym; exact HP|exact Hin]).
  assert (Hp0 : forall p, In p s -> 0 <= snd p) by (intros p Hin; left; auto). unfold n. rewrite (Permutation_length HP). repeat split; intros.
  - apply quantile_low; assumption.
  - apply quantile_high; assumption.
  - apply quantile_mid; assumption.
  - apply share_step; assumption.
Qed.

(* any weights that are not negative: the result lies between two of the values *)
Theorem C109_within : forall l s q, l <> [] -> sorted_by_value l s -> (forall p, In p l -> 0 <= snd p) ->
  exists v, weighted_quantile s q = Some v /\ (exists p, In p l /\ fst p <= v) /\ (exists p, In p l /\ v <= fst p).
Proof.
  intros l s q Hne [HP HS] Hw. assert (Hs : s <> []) by (eapply perm_ne; eassumption). assert (HP' := Permutation_sym HP).
  assert (Hp : forall p, In p s -> 0 <= snd p) by (intros p Hin; apply Hw; eapply Permutation_in; [exact HP'|exact Hin]).
  destruct (quantile_cases s Hs Hp q) as (_ & E & _). eexists. split; [exact E|]. destruct (quantile_range s HS Hs Hp q _ E) as [A B].
  assert (L : (0 < length s)%nat) by (destruct s; [congruence|cbn; lia]).
  split; [exists (nth 0 s (0, 0))|exists (nth (length s - 1) s (0, 0))]; (split; [|assumption]); eapply Permutation_in; try exact HP'; apply nth_In; lia.
Qed.

Theorem C109_monotone : forall l s q q' v v', l <> [] -> sorted_by_value l s -> (forall p, In p l -> 0 <= snd p) ->
  q <= q' -> weighted_quantile s q = Some v -> weighted_quantile s q' = Some v' -> v <= v'.
Proof.
  intros l s q q' v v' Hne [HP HS] Hw. apply quantile_mono; [exact HS|eapply perm_ne; eassumption|].
  intros p Hin. apply Hw. eapply Permutation_in; [apply Permutation_sym; exact HP|exact Hin].
Qed.

Lemma rsum_const (l : list wval) w : (forall p, In p l -> snd p = w) -> rsum (map snd l) = INR (length l) * w.
Proof.
  induction l as [|p l IH]; intros H; [cbn; lra|]. cbn [map rsum length]. rewrite S_INR, IH by (intros; apply H; now right). rewrite (H p) by now left. lra.
Qed.
Lemma firstn_incl {B} n (l : list B) x : In x (firstn n l) -> In x l.
Proof. intros H. rewrite <- (firstn_skipn n l). apply in_or_app. now left. Qed.

(* equal weights: the ordinary median, the middle value or the mean of the middle two *)
Theorem C109_median : forall l s w, l <> [] -> sorted_by_value l s -> 0 < w -> (forall p, In p l -> snd p = w) ->
  (forall k, length l = (2 * k + 1)%nat -> weighted_median s = Some (value s k)) /\
  (forall k, length l = (2 * k + 2)%nat -> weighted_median s = Some ((value s k + value s (S k)) / 2)).
Proof.
  intros l s w Hne [HP HS] Hw He. assert (Hs : s <> []) by (eapply perm_ne; eassumption).
  assert (Hp : forall p, In p s -> snd p = w) by (intros p Hin; apply He; eapply Permutation_in; [apply Permutation_sym; exact HP|exact Hin]).
  assert (Hpos : forall p, In p s -> 0 < snd p) by (intros p Hin; rewrite Hp by exact Hin; exact Hw).
  assert (Hp0 : forall p, In p s -> 0 <= snd p) by (intros p Hin; left; auto).
  rewrite (Permutation_length HP).
  assert (Hsh : forall i, (i < length s)%nat -> share s i = (INR i + / 2) / INR (length s)).
  { intros i Hi. unfold share, total. rewrite (rsum_const s w Hp), (rsum_const (firstn i s) w) by (intros p Hin; apply Hp; eapply firstn_incl; exact Hin).
    rewrite firstn_length, Nat.min_l by lia. rewrite Hp by (apply nth_In; lia). assert (0 < INR (length s)) by (apply lt_0_INR; lia). field. lra. }
  unfold weighted_median. split; intros k Hk.
  - assert (Hhalf : share s k = / 2). { rewrite Hsh by lia. rewrite Hk, plus_INR, mult_INR. cbn [INR]. pose proof (pos_INR k). field. lra. }
    destruct (Nat.eq_dec k 0) as [->|Nk].
    + apply (quantile_low s HS Hs Hp0 Hpos). lra.
    + destruct k as [|k]; [congruence|]. rewrite (quantile_mid s Hs Hp0 Hpos (/ 2) k ltac:(lia)).
      * f_equal. pose proof (share_step s Hs Hpos k ltac:(lia)). unfold between. rewrite Hhalf in *. field. lra.
      * pose proof (share_step s Hs Hpos k ltac:(lia)). lra.
  - pose proof (pos_INR k) as P.
    assert (Ha : share s k = (INR k + / 2) / (2 * INR k + 2)) by (rewrite Hsh by lia; rewrite Hk, plus_INR, mult_INR; cbn [INR]; field; lra).
    assert (Hb : share s (S k) = (INR k + 3 / 2) / (2 * INR k + 2)) by (rewrite Hsh by lia; rewrite Hk, plus_INR, mult_INR, S_INR; cbn [INR]; field; lra).
    rewrite (quantile_mid s Hs Hp0 Hpos (/ 2) k ltac:(lia)).
    + f_equal. unfold between. rewrite Ha, Hb. field. lra.
    + rewrite Ha, Hb. split; apply (Rmult_le_reg_r (2 * INR k + 2)); try lra; unfold Rdiv; rewrite ?Rmult_assoc, ?Rinv_l by lra; lra.
Qed.

(* only the ratios of the weights matter *)
Lemma rsum_scale c l : rsum (map (fun x => c * x) l) = c * rsum l.
Proof. induction l as [|x l IH]; cbn; [lra|rewrite IH; lra]. Qed.
Lemma rsum_zero l : (forall x, In x l -> 0 <= x) -> rsum l <= 0 -> forall x, In x l -> x = 0.
Proof.
  induction l as [|y l IH]; intros H Hz x Hx; [destruct Hx|]. cbn [rsum] in Hz. pose proof (H y (or_introl eq_refl)). assert (0 <= rsum l) by (apply rsum_nonneg; intros z Hz'; apply H; now right).
  destruct Hx as [<-|Hx]; [lra|]. apply IH; [intros z Hz'; apply H; now right|lra|exact Hx].
Qed.
Lemma icum_scale c ws : 0 < c -> (forall w, In w ws -> 0 <= w) -> icum (map (fun x => c * x) ws) = icum ws.
Proof.
  intros Hc Hw. destruct (Rlt_dec 0 (rsum ws)) as [T|T].
  - apply (nth_ext _ _ 0 0); [rewrite !icum_length; apply map_length|]. intros i Hi. rewrite icum_length, map_length in Hi. rewrite !icum_nth by (rewrite ?map_length; exact Hi).
    rewrite firstn_map, rsum_scale. assert (En : nth i (map (fun x => c * x) ws) 0 = c * nth i ws 0) by (rewrite (nth_indep _ 0 (c * 0)) by (rewrite map_length; exact Hi); apply (map_nth (fun x => c * x))). rewrite En.
    unfold den. rewrite rsum_scale. destruct (Rlt_dec 0 (rsum ws)) as [_|]; [|contradiction]. destruct (Rlt_dec 0 (c * rsum ws)) as [_|G]; [field; split; lra|]. exfalso. apply G. now apply Rmult_lt_0_compat.
  - f_equal. rewrite <- (map_id ws) at 2. apply map_ext_in. intros w Hin. rewrite (rsum_zero ws Hw ltac:(lra) w Hin). ring.
Qed.
Lemma quantile_scale : forall s q c, 0 < c -> (forall p, In p s -> 0 <= snd p) ->
  weighted_quantile (map (fun p => (fst p, c * snd p)) s) q = weighted_quantile s q.
Proof.
  intros s q c Hc Hw. destruct s as [|p s]; [reflexivity|]. rewrite !wq_ne by discriminate. rewrite map_length. rewrite !map_map. cbv zeta.
  replace (map (fun x : wval => snd (fst x, c * snd x)) (p :: s)) with (map (fun x => c * x) (map snd (p :: s))) by (rewrite map_map; reflexivity).
  rewrite icum_scale; [reflexivity|exact Hc|]. intros w Hin. apply in_map_iff in Hin as (r & <- & Hr). auto.
Qed.

(* the quantile of a v + b is a times the quantile of v plus b *)
Lemma quantile_affine : forall s q v a b, weighted_quantile s q = Some v ->
  weighted_quantile (map (fun p => (a * fst p + b, snd p)) s) q = Some (a * v + b).
Proof.
  intros s q v a b H. destruct s as [|p s]; [discriminate|]. rewrite wq_ne in H |- * by discriminate. cbv zeta in *. apply Some_inj in H. subst v. f_equal.
  rewrite !map_map, map_length. cbn [fst snd].
  assert (E : forall i, (i < length (p :: s))%nat -> nth i (map (fun x : wval => a * fst x + b) (p :: s)) 0 = a * nth i (map fst (p :: s)) 0 + b).
  { intros i Hi. rewrite (nth_indep _ 0 (a * fst (0, 0) + b)) by (rewrite map_length; exact Hi). rewrite (map_nth (fun x : wval => a * fst x + b)).
    change 0 with (fst (0, 0)) at 3. now rewrite (map_nth fst). }
  set (k := search true _ q). assert (K : (k <= length (p :: s))%nat). { pose proof (search_le_len true (icum (map snd (p :: s))) q) as L. rewrite icum_length, map_length in L. exact L. }
  destruct (Nat.eqb_spec k 0); [apply E; cbn; lia|]. destruct (Nat.eqb_spec k (length (p :: s))); [apply E; cbn; lia|]. rewrite (E (k - 1)%nat), (E k) by lia.
  change (map (fun x : wval => snd x) (p :: s)) with (map snd (p :: s)). set (x := (q - _) / _). ring.
Qed.

Lemma sorted_map (f : wval -> wval) l s : (forall p r, fst p <= fst r -> fst (f p) <= fst (f r)) -> sorted_by_value l s -> sorted_by_value (map f l) (map f s).
Proof.
  intros Hf [P S]. split; [now apply Permutation_map|]. clear P. induction S as [|p s S IH Hp]; cbn [map]; constructor; [exact IH|].
  rewrite Forall_forall in *. intros r Hr. apply in_map_iff in Hr as (u & <- & Hu). auto.
Qed.
Theorem C109_scale : forall l s q c, 0 < c -> (forall p, In p l -> 0 <= snd p) -> sorted_by_value l s ->
  let f := fun p : wval => (fst p, c * snd p) in
  sorted_by_value (map f l) (map f s) /\ weighted_quantile (map f s) q = weighted_quantile s q.
Proof.
  intros l s q c Hc Hw HS f. split; [apply sorted_map; [unfold f; cbn; auto|exact HS]|]. apply quantile_scale; [exact Hc|]. intros p Hp. apply Hw. eapply Permutation_in; [apply Permutation_sym; exact (proj1 HS)|exact Hp].
Qed.
Theorem C109_affine : forall l s q v a b, 0 <= a -> sorted_by_value l s -> weighted_quantile s q = Some v ->
  let f := fun p : wval => (a * fst p + b, snd p) in
  sorted_by_value (map f l) (map f s) /\ weighted_quantile (map f s) q = Some (a * v + b).
Proof. intros l s q v a b Ha HS H f. split; [apply sorted_map; [unfold f; cbn; intros; nra|exact HS]|]. now apply quantile_affine. Qed.

(* if no two values are equal there is only one order, and so one result *)
Lemma nodup_fst (l : list wval) a b : NoDup (map fst l) -> In a l -> In b l -> fst a = fst b -> a = b.
Proof.
  induction l as [|c l IH]; intros N Ha Hb E; [destruct Ha|]. cbn [map] in N. apply NoDup_cons_iff in N as [N1 N2]. destruct Ha as [->|Ha], Hb as [->|Hb]; [reflexivity| | |now apply IH].
  - exfalso. apply N1. rewrite E. now apply in_map.
  - exfalso. apply N1. rewrite <- E. now apply in_map.
Qed.
Theorem C109_order : forall l s s' q, NoDup (map fst l) -> sorted_by_value l s -> sorted_by_value l s' ->
  weighted_quantile s q = weighted_quantile s' q.
Proof.
  intros l s s' q N [P1 S1] [P2 S2]. f_equal. assert (P : Permutation s s') by (eapply Permutation_trans; [apply Permutation_sym; exact P1|exact P2]).
  assert (N' : NoDup (map fst s)) by (eapply Permutation_NoDup; [apply Permutation_map; exact P1|exact N]). clear l N P1 P2.
  revert s' P S2. induction S1 as [|a s HS IH Ha]; intros s' P S2; [symmetry; now apply Permutation_nil|]. destruct S2 as [|b s' HS' Hb]; [apply Permutation_sym, Permutation_nil in P; discriminate|].
  rewrite Forall_forall in Ha, Hb. assert (E : a = b).
  { apply (nodup_fst (a :: s)); [exact N'|now left|eapply Permutation_in; [apply Permutation_sym; exact P|now left]|].
    assert (A1 : fst a <= fst b). { assert (I : In b (a :: s)) by (eapply Permutation_in; [apply Permutation_sym; exact P|now left]). destruct I as [->|I]; [lra|auto]. }
    assert (A2 : fst b <= fst a). { assert (I : In a (b :: s')) by (eapply Permutation_in; [exact P|now left]). destruct I as [->|I]; [lra|auto]. }
    lra. }
  subst b. f_equal. apply IH; [now apply NoDup_cons_iff in N'|now apply Permutation_cons_inv in P|exact HS'].
Qed.

(* outside the claim: nothing to look at raises *)
Theorem C109_empty : forall q, weighted_quantile [] q = None.
Proof. reflexivity. Qed.

(* concrete lists *)
Ltac decide_R := repeat match goal with
  | |- context [Rlt_dec ?a ?b] => destruct (Rlt_dec a b); [try (exfalso; lra)|try (exfalso; lra)]
  end.

(* outside the claim: if values are equal the result depends on the order they are found in *)
Example C109_ties : exists l s s' q, sorted_by_value l s /\ sorted_by_value l s' /\ (forall p, In p l -> 0 < snd p) /\
  weighted_quantile s q <> weighted_quantile s' q.
Proof.
  exists [(0, 1); (1, 1); (1, 3)], [(0, 1); (1, 1); (1, 3)], [(0, 1); (1, 3); (1, 1)], (1 / 5).
  assert (S1 : sorted_by_value [(0, 1); (1, 1); (1, 3)] [(0, 1); (1, 1); (1, 3)]) by (split; [apply Permutation_refl|repeat constructor; cbn; lra]).
  assert (S2 : sorted_by_value [(0, 1); (1, 1); (1, 3)] [(0, 1); (1, 3); (1, 1)]) by (split; [repeat constructor|repeat constructor; cbn; lra]).
  assert (W : forall p, In p [(0, 1); (1, 1); (1, 3)] -> 0 < snd p) by (intros p [<-|[<-|[<-|[]]]]; cbn; lra).
  split; [exact S1|]. split; [exact S2|]. split; [exact W|].
  destruct (C109_quantile [(0, 1); (1, 1); (1, 3)] _ (1 / 5) ltac:(discriminate) S1 W) as (_ & _ & H1 & _). destruct (C109_quantile [(0, 1); (1, 1); (1, 3)] _ (1 / 5) ltac:(discriminate) S2 W) as (_ & _ & H2 & _).
  rewrite (H1 0%nat), (H2 0%nat); try (cbn [length]; lia); try (unfold share, total; cbn; lra).
  unfold value, between, share, total. cbn. intros E. apply Some_inj in E. lra.
Qed.

Ltac run_quantile := unfold weighted_quantile, icum; cbn [map cumsum combine fst snd last]; cbn [search];
  repeat match goal with |- context [Rlt_dec ?a ?b] => destruct (Rlt_dec a b) as [?|?]; [try (exfalso; lra)|try (exfalso; lra)] end; cbn.

(* outside the claim: a value without weight can still change the result *)
Example C109_zero_weight : weighted_quantile [(0, 1); (1, 1)] (9 / 10) = Some 1 /\
  exists v, weighted_quantile [(0, 1); (1, 1); (100, 0)] (9 / 10) = Some v /\ v > 50.
Proof. split; [|eexists; split]; [run_quantile|run_quantile|]; try reflexivity; lra. Qed.
(* outside the claim: without any weight every quantile above 0 is the largest value *)
Example C109_no_weight : weighted_quantile [(0, 0); (1, 0); (2, 0)] (1 / 10) = Some 2.
Proof. run_quantile; reflexivity. Qed.

Example C109_ex : let l := [(5, 1); (1, 2); (3, 1)] in let s := [(1, 2); (3, 1); (5, 1)] in
  l <> [] /\ sorted_by_value l s /\ (forall p, In p l -> 0 < snd p) /\ NoDup (map fst l) /\
  weighted_quantile s (1 / 4) = Some 1 /\ weighted_quantile s (5 / 8) = Some 3 /\ exists v, weighted_median s = Some v /\ v = 7 / 3.
Proof.
  intros l s. assert (S1 : sorted_by_value l s).
  { split; [|repeat constructor; cbn; lra]. change s with ([(1, 2); (3, 1)] ++ [(5, 1)]). apply Permutation_sym. apply (Permutation_cons_append [(1, 2); (3, 1)] (5, 1)) || (apply Permutation_sym, Permutation_cons_append). }
  assert (W : forall p, In p l -> 0 < snd p) by (intros p [<-|[<-|[<-|[]]]]; cbn; lra).
  split; [discriminate|]. split; [exact S1|]. split; [exact W|]. split.
  { cbn. repeat constructor; cbn; intuition lra. }
  destruct (C109_quantile l s (1 / 4) ltac:(discriminate) S1 W) as (H1 & _). destruct (C109_quantile l s (5 / 8) ltac:(discriminate) S1 W) as (_ & _ & H2 & _).
  destruct (C109_quantile l s (/ 2) ltac:(discriminate) S1 W) as (_ & _ & H3 & _).
  split; [rewrite H1; [reflexivity|unfold share, total; cbn; lra]|]. split.
  - rewrite (H2 1%nat); [|cbn; lia|unfold share, total; cbn; lra]. f_equal. unfold value, between, share, total. cbn. field.
  - eexists. split; [unfold weighted_median; apply (H3 0%nat); [cbn; lia|unfold share, total; cbn; lra]|]. unfold value, between, share, total. cbn. field.
Qed.

Print Assumptions C109_quantile.
Print Assumptions C109_within.
Print Assumptions C109_monotone.
Print Assumptions C109_median.
Print Assumptions C109_scale.
Print Assumptions C109_affine.
Print Assumptions C109_order.
Print Assumptions C109_empty.
