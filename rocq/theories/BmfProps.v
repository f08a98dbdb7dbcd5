From Coq Require Import Reals List Arith ZArith Bool Lia Lra Psatz.
From Verif Require Import BmfSpec SliceSpec BmfModel.
Import ListNotations.
Open Scope nat_scope.
Ltac Zify.zify_post_hook ::= idtac.

Lemma skipn_add {T : Type} a : forall b (l : list T), skipn a (skipn b l) = skipn (b + a) l.
Proof. induction b as [|b IH]; intros l; [reflexivity|]. destruct l; cbn; [now rewrite skipn_nil|apply IH]. Qed.
Lemma rows_length w n : forall l, length (rows w n l) = n.
Proof. induction n as [|n IH]; intros l; cbn; [reflexivity|now rewrite IH]. Qed.
Lemma rows_nth w n : forall l k, k < n -> nth k (rows w n l) [] = block w k l.
Proof.
  induction n as [|n IH]; intros l k K; [lia|]. destruct k as [|k]; cbn [rows nth]; [reflexivity|]. rewrite IH by lia. unfold block. rewrite skipn_add. do 2 f_equal.
Qed.
Lemma block_firstn w k m l : (k + 1) * w <= m -> block w k (firstn m l) = block w k l.
Proof. intros H. unfold block. rewrite skipn_firstn_comm, firstn_firstn. f_equal. nia. Qed.
Lemma div_bounds n w : 0 < w -> n / w * w <= n < n / w * w + w.
Proof. intros W. pose proof (Nat.div_mod n w ltac:(lia)). pose proof (Nat.mod_upper_bound n w ltac:(lia)). nia. Qed.
Lemma blocks_eq w n : 0 < w -> blocks w n = n / w + (if n / w * w =? n then 0 else 1).
Proof.
  intros W. unfold blocks. pose proof (div_bounds n w W) as [A B]. destruct (Nat.eqb_spec (n / w * w) n) as [E|E].
  - symmetry. apply (Nat.div_unique _ _ _ (w - 1)); nia.
  - symmetry. apply (Nat.div_unique _ _ _ (n + (w - 1) - w * (n / w + 1))); nia.
Qed.
Lemma nth_lmean l k : nth k (map lmean l) 0%R = if k <? length l then lmean (nth k l []) else 0%R.
Proof. revert k. induction l as [|x l IH]; intros [|k]; cbn; try reflexivity. rewrite IH. reflexivity. Qed.

(* C134 the step of the slice is the number of samples that are averaged *)
Theorem C134_downgrade d s : let step := match ps_step s with None => 1%Z | Some 0%Z => 1%Z | Some k => k end in
  let a := py_getslice d (PS (ps_start s) (ps_stop s) (Some (Z.sgn step))) in let w := Z.abs_nat step in
  length (slice_downgrade d s) = blocks w (length a) /\ forall k, k < blocks w (length a) -> nth k (slice_downgrade d s) 0%R = lmean (block w k a).
Proof.
  cbn zeta. unfold slice_downgrade.
  set (step := match ps_step s with None => 1%Z | Some k => if (k =? 0)%Z then 1%Z else k end).
  replace (match ps_step s with None => 1%Z | Some 0%Z => 1%Z | Some k => k end) with step by (unfold step; destruct (ps_step s) as [[]|]; reflexivity).
  assert (SN : step <> 0%Z) by (unfold step; destruct (ps_step s) as [k|]; [destruct (Z.eqb_spec k 0); lia|lia]).
  replace (if (step <? 0)%Z then (-1)%Z else 1%Z) with (Z.sgn step) by (destruct step; [lia|reflexivity|reflexivity]).
  set (a := py_getslice d _). set (w := Z.abs_nat step). assert (W : 0 < w) by (unfold w; lia). clearbody a w. clear step SN.
  pose proof (div_bounds (length a) w W) as [A B]. set (q := length a / w) in *.
  assert (L1 : length (firstn (q * w) a) = q * w) by (rewrite firstn_length; lia).
  rewrite L1, Nat.div_mul by lia. rewrite map_length, rows_length.
  rewrite (blocks_eq w (length a) W). fold q. destruct (Nat.eqb_spec (q * w) (length a)) as [E|E].
  - split; [rewrite map_length, rows_length; lia|]. intros k K. rewrite nth_lmean, rows_length. destruct (Nat.ltb_spec k q); [|lia]. rewrite rows_nth by lia. f_equal. apply block_firstn. nia.
  - split; [rewrite app_length, map_length, rows_length; cbn; lia|]. intros k K. destruct (Nat.eq_dec k q) as [->|N].
    + rewrite app_nth2; rewrite map_length, rows_length; [|lia]. rewrite Nat.sub_diag. cbn [nth]. f_equal. unfold block. symmetry. apply firstn_all2. rewrite skipn_length. lia.
    + rewrite app_nth1 by (rewrite map_length, rows_length; lia). rewrite nth_lmean, rows_length. destruct (Nat.ltb_spec k q); [|lia]. rewrite rows_nth by lia. f_equal. apply block_firstn. nia.
Qed.
Print Assumptions C134_downgrade.
Lemma lmean_total l : l <> [] -> (INR (length l) * lmean l = fold_right Rplus 0 l)%R.
Proof. intros N. unfold lmean. field. apply not_0_INR. destruct l; [contradiction|discriminate]. Qed.
Lemma sum_app l m : fold_right Rplus 0%R (l ++ m) = (fold_right Rplus 0 l + fold_right Rplus 0 m)%R.
Proof. induction l; cbn; [lra|rewrite IHl; lra]. Qed.
Lemma blocks_total w n : forall l, 0 < w -> length l <= n * w -> (n - 1) * w < length l \/ n = 0 ->
  (fold_right Rplus 0 (map (fun k => INR (length (block w k l)) * lmean (block w k l)) (seq 0 n)) = fold_right Rplus 0 l)%R.
Proof.
  induction n as [|n IH]; intros l W L H.
  - destruct l; [reflexivity|cbn in L; lia].
  - cbn [seq map fold_right]. rewrite lmean_total.
    + rewrite <- (firstn_skipn w l) at 2. rewrite sum_app. unfold block at 1. rewrite Nat.mul_0_l. cbn [skipn]. f_equal. rewrite <- (IH (skipn w l)) by (try exact W; rewrite skipn_length; nia).
      rewrite <- seq_shift, map_map. f_equal. apply map_ext. intros k. assert (B : block w (S k) l = block w k (skipn w l)) by (unfold block; rewrite skipn_add; reflexivity). now rewrite B.
    + unfold block. rewrite Nat.mul_0_l. cbn [skipn]. intros E. apply (f_equal (@length R)) in E. rewrite firstn_length in E. cbn in E. nia.
Qed.
(* nothing is lost: the means times the numbers of samples add up to the total *)
Theorem C134_total d s : let step := match ps_step s with None => 1%Z | Some 0%Z => 1%Z | Some k => k end in
  let a := py_getslice d (PS (ps_start s) (ps_stop s) (Some (Z.sgn step))) in let w := Z.abs_nat step in
  (fold_right Rplus 0 (map (fun k => INR (Nat.min w (length a - k * w)) * nth k (slice_downgrade d s) 0) (seq 0 (blocks w (length a)))) = fold_right Rplus 0 a)%R.
Proof.
  cbn zeta. pose proof (C134_downgrade d s) as H. cbn zeta in H. set (step := match ps_step s with None => 1%Z | Some 0%Z => 1%Z | Some k => k end) in *. assert (W : 0 < Z.abs_nat step) by (unfold step; destruct (ps_step s) as [[]|]; lia).
  set (a := py_getslice d _) in *. set (w := Z.abs_nat step) in *. destruct H as [_ H]. clearbody a w.
  rewrite <- (blocks_total w (blocks w (length a)) a W).
  - f_equal. apply map_ext_in. intros k K. apply in_seq in K. rewrite H by lia. unfold block at 2. rewrite firstn_length, skipn_length. reflexivity.
  - rewrite blocks_eq by exact W. pose proof (div_bounds (length a) w W) as [A B]. set (q := length a / w) in *. clearbody q. destruct (Nat.eqb_spec (q * w) (length a)); rewrite Nat.mul_add_distr_r; lia.
  - rewrite blocks_eq by exact W. pose proof (div_bounds (length a) w W) as [A B]. set (q := length a / w) in *. clearbody q. destruct (Nat.eqb_spec (q * w) (length a)); [|left; rewrite Nat.add_sub; lia]. destruct q as [|q]; [right; reflexivity|left]. replace (S q + 0 - 1) with q by lia. cbn in A, B. lia.
Qed.
Print Assumptions C134_total.

(* block_mean_filter *)
Lemma flat_const (w : nat) n : forall l, length l = n * w -> length (flat_map (fun r => map (fun _ => lmean r) r) (rows w n l)) = n * w /\
  forall i, i < n * w -> nth i (flat_map (fun r => map (fun _ => lmean r) r) (rows w n l)) 0%R = lmean (block w (i / w) l).
Proof.
  induction n as [|n IH]; intros l L; [split; [reflexivity|intros; lia]|]. cbn [rows flat_map]. assert (F : length (firstn w l) = w) by (rewrite firstn_length; nia). destruct (IH (skipn w l)) as [L2 N2]; [rewrite skipn_length; nia|].
  split; [rewrite app_length, map_length, L2, F; nia|]. intros i I. assert (W : 0 < w) by nia. destruct (Nat.lt_ge_cases i w) as [S|S].
  - rewrite app_nth1 by (rewrite map_length, F; exact S). rewrite Nat.div_small by exact S. unfold block. rewrite Nat.mul_0_l. cbn [skipn].
    assert (C : forall (c : R) (m : list R) j, j < length m -> nth j (map (fun _ => c) m) 0%R = c) by (clear; induction m; intros [|j] J; cbn in *; try lia; [reflexivity|apply IHm; lia]). apply C. rewrite F. exact S.
  - rewrite app_nth2; rewrite map_length, F; [|exact S]. rewrite N2 by nia. f_equal. unfold block. rewrite skipn_add. do 2 f_equal. replace i with ((i - w) + 1 * w) at 2 by lia. rewrite Nat.div_add by lia. nia.
Qed.
Lemma filter_value a w : 0 < w <= length a -> exists r, block_mean_filter a w = Some r /\ length r = length a /\ forall i, i < length a -> nth i r 0%R = lmean (block w (i / w) (firstn (w * blocks w (length a)) (a ++ rev (removelast a)))).
Proof.
  intros W. unfold block_mean_filter. destruct (Nat.ltb_spec (length a) w); [lia|]. destruct (Nat.eqb_spec w 0); [lia|].
  replace ((length a + w - 1) / w) with (blocks w (length a)) by (unfold blocks; f_equal; lia). set (nb := blocks w (length a)).
  assert (NB : length a <= nb * w < length a + w). { unfold nb. rewrite blocks_eq by lia. pose proof (div_bounds (length a) w ltac:(lia)). destruct (Nat.eqb_spec (length a / w * w) (length a)); nia. }
  assert (RL : length (removelast a) = length a - 1). { destruct a as [|x a] using rev_ind; [reflexivity|]. rewrite removelast_app by discriminate. rewrite !app_length. cbn. lia. }
  set (work := firstn (w * nb) (a ++ rev (removelast a))). assert (WL : length work = nb * w) by (unfold work; rewrite firstn_length, app_length, rev_length, RL; lia).
  rewrite WL, Nat.eqb_refl. cbn [negb]. destruct (flat_const w nb work WL) as [FL FN]. eexists. split; [reflexivity|]. split; [rewrite firstn_length, FL; lia|]. intros i I.
  rewrite <- (FN i ltac:(lia)). rewrite <- (firstn_skipn (length a) (flat_map _ _)) at 2. rewrite app_nth1; [reflexivity|]. rewrite firstn_length, FL. lia.
Qed.
(* whole blocks become their means *)
Theorem C134_filter_partial a w : 0 < w -> exists r, block_mean_filter a w = Some r /\ length r = length a /\
  forall i, i < length a -> (i / w + 1) * w <= length a -> nth i r 0%R = lmean (block w (i / w) a).
Proof.
  intros W. destruct (Nat.lt_ge_cases (length a) w) as [S|S].
  - unfold block_mean_filter. destruct (Nat.ltb_spec (length a) w); [|lia]. eexists. split; [reflexivity|]. split; [apply map_length|]. intros i I H1. rewrite Nat.mul_add_distr_r in H1. pose proof (Nat.le_0_l (i / w * w)). set (q := i / w * w) in *. clearbody q. lia.
  - destruct (filter_value a w (conj W S)) as (r & E & L & N). exists r. split; [exact E|]. split; [exact L|]. intros i I H. rewrite N by exact I. f_equal.
    assert (BL : length a <= w * blocks w (length a)). { rewrite blocks_eq by lia. pose proof (div_bounds (length a) w ltac:(lia)). destruct (Nat.eqb_spec (length a / w * w) (length a)); nia. }
    rewrite block_firstn by lia. unfold block. rewrite skipn_app, firstn_app. replace (w - length (skipn (i / w * w) a)) with 0 by (rewrite skipn_length; lia). rewrite firstn_O, app_nil_r. reflexivity.
Qed.
Print Assumptions C134_filter_partial.
(* everything does, if the blocks fill the array or the array is shorter than one *)
Theorem C134_filter_whole a w : 0 < w -> (length a mod w = 0 \/ length a < w) -> exists r, block_mean_filter a w = Some r /\ length r = length a /\
  forall i, i < length a -> nth i r 0%R = lmean (block w (i / w) a).
Proof.
  intros W H. destruct (Nat.lt_ge_cases (length a) w) as [S|S].
  - unfold block_mean_filter. destruct (Nat.ltb_spec (length a) w); [|lia]. eexists. split; [reflexivity|]. split; [apply map_length|]. intros i I.
    rewrite (nth_indep _ 0%R ((fun _ : R => lmean a) 0%R)) by (rewrite map_length; exact I). rewrite (map_nth (fun _ : R => lmean a) a 0%R). rewrite Nat.div_small by lia. unfold block. rewrite Nat.mul_0_l. cbn [skipn]. rewrite firstn_all2 by lia. reflexivity.
  - destruct (C134_filter_partial a w W) as (r & E & L & N). exists r. split; [exact E|]. split; [exact L|]. intros i I. apply N; [exact I|]. destruct H as [H|H]; [|lia]. pose proof (Nat.div_mod (length a) w ltac:(lia)). rewrite H in H0. assert (i / w < length a / w) by (apply Nat.div_lt_upper_bound; lia). nia.
Qed.
Print Assumptions C134_filter_whole.
(* otherwise the last samples become the mean of themselves and some samples before them in reverse *)
Theorem C134_filter_refuted : exists a w i r, 0 < w /\ i < length a /\ block_mean_filter a w = Some r /\ nth i r 0%R <> lmean (block w (i / w) a).
Proof.
  exists [0; 0; 3]%R, 2, 2. eexists. split; [lia|]. split; [cbn; lia|]. split; [reflexivity|]. cbn [nth firstn rows flat_map map app rev removelast skipn length Nat.mul Nat.add Nat.sub Nat.div Nat.divmod fst snd block]. unfold lmean. cbn [fold_right length INR]. lra.
Qed.
Print Assumptions C134_filter_refuted.
Example C134_ex : slice_downgrade [1; 2; 3; 4; 5]%R (PS None None (Some (-2)%Z)) = [9 / 2; 5 / 2; 1]%R.
Proof.
  transitivity [lmean [5; 4]; lmean [3; 2]; lmean [1]]%R; [reflexivity|]. unfold lmean. cbn [fold_right length INR]. repeat (apply f_equal2; [lra|]). reflexivity.
Qed.
Example C134_ex_hyps : (0 < 2 /\ length [1; 2; 3; 4]%R mod 2 = 0).
Proof. split; [lia|reflexivity]. Qed.
