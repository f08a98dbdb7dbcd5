From Coq Require Import Reals Lra Lia.
From Coquelicot Require Import Complex.
From Verif Require Import Base ArrModel PixModel FftSpec FftModel FftLemmas FftLemmas2 DctSpec DctModel DctLemmas.
Ltac Zify.zify_post_hook ::= idtac.
Open Scope R_scope.

Definition delta (i j : Z) : R := if (i =? j)%Z then 1 else 0.

(* weighted sums of cosines *)
Lemma T00 N m : (0 < N)%Z -> rsum (N + 1) (fun k => wt00 (N + 1) k * cos (PI * IZR m * IZR k / IZR N)) = 2 * IZR N * ind N m.
Proof.
  intros HN. rewrite rsum_succ by lia. rewrite (rsum_head N (fun k => _)) by lia. unfold wt00. replace ((0 =? 0) || (0 =? N + 1 - 1))%Z with true by reflexivity.
  replace ((N =? 0) || (N =? N + 1 - 1))%Z with true by lia. replace (cos (PI * IZR m * 0 / IZR N)) with 1 by (symmetry; rewrite <- cos_0; f_equal; field; apply IZRn0, HN).
  replace (cos (PI * IZR m * IZR N / IZR N)) with (parity m) by (rewrite parity_sum; f_equal; field; apply IZRn0, HN).
  rewrite (rsum_ext (N - 1) _ (fun k => 2 * cos (PI * IZR m * IZR (k + 1) / IZR N))) by (intros k Hk; replace ((k + 1 =? 0) || (k + 1 =? N + 1 - 1))%Z with false by lia; reflexivity).
  rewrite rsum_scal_l. pose proof (S1 N HN m). lra.
Qed.
Lemma T0 n m : (0 < n)%Z -> rsum n (fun k => wt0 k * cos (PI * IZR m * IZR k / IZR n)) = 2 * IZR n * ind n m - parity m.
Proof.
  intros HN. rewrite (rsum_head n (fun k => _)) by lia. unfold wt0. replace (0 =? 0)%Z with true by reflexivity.
  replace (cos (PI * IZR m * 0 / IZR n)) with 1 by (symmetry; rewrite <- cos_0; f_equal; field; apply IZRn0, HN).
  rewrite (rsum_ext (n - 1) _ (fun k => 2 * cos (PI * IZR m * IZR (k + 1) / IZR n))) by (intros k Hk; replace (k + 1 =? 0)%Z with false by lia; reflexivity).
  rewrite rsum_scal_l. pose proof (S1 n HN m). lra.
Qed.
Lemma Tl n m : (0 < n)%Z -> rsum n (fun k => wtl n k * cos (PI * IZR m * IZR (k + 1) / IZR n)) = 2 * IZR n * ind n m - 1.
Proof.
  intros HN. rewrite (rsum_last n (fun k => _)) by lia. unfold wtl. replace (n - 1 =? n - 1)%Z with true by lia. replace (n - 1 + 1)%Z with n by lia.
  replace (cos (PI * IZR m * IZR n / IZR n)) with (parity m) by (rewrite parity_sum; f_equal; field; apply IZRn0, HN).
  rewrite (rsum_ext (n - 1) _ (fun k => 2 * cos (PI * IZR m * IZR (k + 1) / IZR n))) by (intros k Hk; replace (k =? n - 1)%Z with false by lia; reflexivity).
  rewrite rsum_scal_l. pose proof (S1 n HN m). lra.
Qed.

Lemma lin n c (f g h : Z -> R) : (forall k, (0 <= k < n)%Z -> f k = c * (g k + h k)) -> rsum n f = c * (rsum n g + rsum n h).
Proof. intros H. rewrite (rsum_ext n f _ H). rewrite rsum_scal_l, rsum_plus. reflexivity. Qed.
Lemma lin_minus n c (f g h : Z -> R) : (forall k, (0 <= k < n)%Z -> f k = c * (g k - h k)) -> rsum n f = c * (rsum n g - rsum n h).
Proof. intros H. rewrite (rsum_ext n f _ H). rewrite rsum_scal_l, rsum_minus. reflexivity. Qed.

Section One.
Context (n i j : Z) (Hi : (0 <= i < n)%Z) (Hj : (0 <= j < n)%Z).
Local Lemma n_pos : (0 < n)%Z. Proof. lia. Qed.
Local Lemma n_ne : IZR n <> 0. Proof. apply IZRn0. lia. Qed.

Lemma inv_REDFT00 : (1 < n)%Z -> rsum n (fun k => mat REDFT00 n j k * mat REDFT00 n k i) = 2 * IZR (n - 1) * delta i j.
Proof.
  intros H1. set (N := (n - 1)%Z). assert (HN : (0 < N)%Z) by (unfold N; lia). pose proof (IZRn0 N HN) as N0.
  replace n with (N + 1)%Z at 1 by (unfold N; lia).
  rewrite (lin _ (wt00 n i / 2) _ (fun k => wt00 (N + 1) k * cos (PI * IZR (i - j) * IZR k / IZR N)) (fun k => wt00 (N + 1) k * cos (PI * IZR (i + j) * IZR k / IZR N))).
  - rewrite !T00 by exact HN. rewrite ind_eq by (unfold N; lia). fold (delta i j). unfold delta. destruct (i =? j)%Z eqn:E.
    + apply Z.eqb_eq in E. subst j. unfold wt00. destruct ((i =? 0) || (i =? n - 1))%Z eqn:F.
      * assert (G : ind N (i + i) = 1) by (destruct (Z.eq_dec i 0) as [->|?]; [apply ind_0, HN|]; replace (i + i)%Z with (2 * N)%Z by (unfold N; lia); apply ind_full, HN). rewrite G. field.
      * rewrite (ind_small N (i + i)) by (unfold N; lia). field.
    + apply Z.eqb_neq in E. assert (G : ind N (i + j) = 0) by (apply ind_small; unfold N; lia). rewrite G. field.
  - intros k Hk. cbn [mat]. fold N. replace (N + 1)%Z with n by (unfold N; lia).
    replace (wt00 n k * cos (PI * IZR k * IZR j / IZR N) * (wt00 n i * cos (PI * IZR i * IZR k / IZR N))) with (wt00 n i / 2 * (wt00 n k * (2 * (cos (PI * IZR i * IZR k / IZR N) * cos (PI * IZR k * IZR j / IZR N))))) by field.
    rewrite cos_cos. replace (PI * IZR i * IZR k / IZR N - PI * IZR k * IZR j / IZR N) with (PI * IZR (i - j) * IZR k / IZR N) by (rewrite minus_IZR; field; exact N0).
    replace (PI * IZR i * IZR k / IZR N + PI * IZR k * IZR j / IZR N) with (PI * IZR (i + j) * IZR k / IZR N) by (rewrite plus_IZR; field; exact N0). ring.
Qed.

Lemma inv_REDFT10 : rsum n (fun k => mat REDFT01 n j k * mat REDFT10 n k i) = 2 * IZR n * delta i j.
Proof.
  pose proof n_ne as N0. rewrite (lin _ 1 _ (fun k => wt0 k * cos (PI * IZR (i - j) * IZR k / IZR n)) (fun k => wt0 k * cos (PI * IZR (i + j + 1) * IZR k / IZR n))).
  - rewrite !T0 by lia. rewrite ind_eq by lia. fold (delta i j). rewrite (ind_small n (i + j + 1)) by lia. rewrite parity_succ, parity_diff. ring.
  - intros k Hk. cbn [mat]. replace (wt0 k * cos (PI * IZR k * h2 j / IZR n) * (2 * cos (PI * h2 i * IZR k / IZR n))) with (wt0 k * (2 * (cos (PI * h2 i * IZR k / IZR n) * cos (PI * IZR k * h2 j / IZR n)))) by ring.
    rewrite cos_cos. replace (PI * h2 i * IZR k / IZR n - PI * IZR k * h2 j / IZR n) with (PI * IZR (i - j) * IZR k / IZR n) by (unfold h2; rewrite minus_IZR; field; exact N0).
    replace (PI * h2 i * IZR k / IZR n + PI * IZR k * h2 j / IZR n) with (PI * IZR (i + j + 1) * IZR k / IZR n) by (unfold h2; rewrite !plus_IZR; field; exact N0). ring.
Qed.

Lemma inv_REDFT01 : rsum n (fun k => mat REDFT10 n j k * mat REDFT01 n k i) = 2 * IZR n * delta i j.
Proof.
  pose proof n_ne as N0. rewrite (lin _ (wt0 i) _ (fun k => cos (PI * IZR (i - j) * h2 k / IZR n)) (fun k => cos (PI * IZR (i + j) * h2 k / IZR n))).
  - rewrite !S2 by lia. rewrite ind_eq by lia. fold (delta i j). unfold delta, wt0. destruct (i =? j)%Z eqn:E.
    + apply Z.eqb_eq in E. subst j. rewrite Z.sub_diag. replace (cos (PI * 0 / (2 * IZR n))) with 1 by (symmetry; rewrite <- cos_0; f_equal; field; exact N0).
      destruct (i =? 0)%Z eqn:F.
      * apply Z.eqb_eq in F. subst i. change (0 + 0)%Z with 0%Z. rewrite ind_0 by lia. replace (cos (PI * 0 / (2 * IZR n))) with 1 by (symmetry; rewrite <- cos_0; f_equal; field; exact N0). ring.
      * rewrite (ind_small n (i + i)) by lia. ring.
    + apply Z.eqb_neq in E. rewrite (ind_small n (i + j)) by lia. ring.
  - intros k Hk. cbn [mat]. replace (2 * cos (PI * h2 k * IZR j / IZR n) * (wt0 i * cos (PI * IZR i * h2 k / IZR n))) with (wt0 i * (2 * (cos (PI * IZR i * h2 k / IZR n) * cos (PI * h2 k * IZR j / IZR n)))) by ring.
    rewrite cos_cos. replace (PI * IZR i * h2 k / IZR n - PI * h2 k * IZR j / IZR n) with (PI * IZR (i - j) * h2 k / IZR n) by (rewrite minus_IZR; field; exact N0).
    replace (PI * IZR i * h2 k / IZR n + PI * h2 k * IZR j / IZR n) with (PI * IZR (i + j) * h2 k / IZR n) by (rewrite plus_IZR; field; exact N0). ring.
Qed.

Lemma cos_same : IZR n * delta i j * cos (PI * IZR (i - j) / (2 * IZR n)) = IZR n * delta i j.
Proof.
  pose proof n_ne as N0. unfold delta. destruct (i =? j)%Z eqn:E; [|ring]. apply Z.eqb_eq in E. subst j. rewrite Z.sub_diag.
  replace (cos (PI * 0 / (2 * IZR n))) with 1 by (symmetry; rewrite <- cos_0; f_equal; field; exact N0). ring.
Qed.
Lemma inv_REDFT11 : rsum n (fun k => mat REDFT11 n j k * mat REDFT11 n k i) = 2 * IZR n * delta i j.
Proof.
  pose proof n_ne as N0. rewrite (lin _ 2 _ (fun k => cos (PI * IZR (i - j) * h2 k / IZR n)) (fun k => cos (PI * IZR (i + j + 1) * h2 k / IZR n))).
  - rewrite !S2 by lia. rewrite ind_eq by lia. fold (delta i j). rewrite cos_same. rewrite (ind_small n (i + j + 1)) by lia. ring.
  - intros k Hk. cbn [mat]. replace (2 * cos (PI * h2 k * h2 j / IZR n) * (2 * cos (PI * h2 i * h2 k / IZR n))) with (2 * (2 * (cos (PI * h2 i * h2 k / IZR n) * cos (PI * h2 k * h2 j / IZR n)))) by ring.
    rewrite cos_cos. replace (PI * h2 i * h2 k / IZR n - PI * h2 k * h2 j / IZR n) with (PI * IZR (i - j) * h2 k / IZR n) by (unfold h2; rewrite minus_IZR; field; exact N0).
    replace (PI * h2 i * h2 k / IZR n + PI * h2 k * h2 j / IZR n) with (PI * IZR (i + j + 1) * h2 k / IZR n) by (unfold h2; rewrite !plus_IZR; field; exact N0). ring.
Qed.
Lemma inv_RODFT11 : rsum n (fun k => mat RODFT11 n j k * mat RODFT11 n k i) = 2 * IZR n * delta i j.
Proof.
  pose proof n_ne as N0. rewrite (lin_minus _ 2 _ (fun k => cos (PI * IZR (i - j) * h2 k / IZR n)) (fun k => cos (PI * IZR (i + j + 1) * h2 k / IZR n))).
  - rewrite !S2 by lia. rewrite ind_eq by lia. fold (delta i j). rewrite cos_same. rewrite (ind_small n (i + j + 1)) by lia. ring.
  - intros k Hk. cbn [mat]. replace (2 * sin (PI * h2 k * h2 j / IZR n) * (2 * sin (PI * h2 i * h2 k / IZR n))) with (2 * (2 * (sin (PI * h2 i * h2 k / IZR n) * sin (PI * h2 k * h2 j / IZR n)))) by ring.
    rewrite sin_sin. replace (PI * h2 i * h2 k / IZR n - PI * h2 k * h2 j / IZR n) with (PI * IZR (i - j) * h2 k / IZR n) by (unfold h2; rewrite minus_IZR; field; exact N0).
    replace (PI * h2 i * h2 k / IZR n + PI * h2 k * h2 j / IZR n) with (PI * IZR (i + j + 1) * h2 k / IZR n) by (unfold h2; rewrite !plus_IZR; field; exact N0). ring.
Qed.

Lemma inv_RODFT00 : rsum n (fun k => mat RODFT00 n j k * mat RODFT00 n k i) = 2 * IZR (n + 1) * delta i j.
Proof.
  set (N := (n + 1)%Z). assert (HN : (0 < N)%Z) by (unfold N; lia). pose proof (IZRn0 N HN) as N0.
  rewrite (lin_minus _ 2 _ (fun k => cos (PI * IZR (i - j) * IZR (k + 1) / IZR N)) (fun k => cos (PI * IZR (i + j + 2) * IZR (k + 1) / IZR N))).
  - replace n with (N - 1)%Z at 1 2 by (unfold N; lia). pose proof (S1 N HN (i - j)) as A. pose proof (S1 N HN (i + j + 2)) as B.
    rewrite ind_eq in A by (unfold N; lia). fold (delta i j) in A. rewrite (ind_small N (i + j + 2)) in B by (unfold N; lia).
    replace (i + j + 2)%Z with (i + j + 1 + 1)%Z in * by lia. rewrite (parity_succ (i + j + 1)), (parity_succ (i + j)), <- parity_diff in B. lra.
  - intros k Hk. cbn [mat]. fold N. replace (2 * sin (PI * IZR (k + 1) * IZR (j + 1) / IZR N) * (2 * sin (PI * IZR (i + 1) * IZR (k + 1) / IZR N))) with (2 * (2 * (sin (PI * IZR (i + 1) * IZR (k + 1) / IZR N) * sin (PI * IZR (k + 1) * IZR (j + 1) / IZR N)))) by ring.
    rewrite sin_sin. replace (PI * IZR (i + 1) * IZR (k + 1) / IZR N - PI * IZR (k + 1) * IZR (j + 1) / IZR N) with (PI * IZR (i - j) * IZR (k + 1) / IZR N) by (rewrite !plus_IZR, minus_IZR; field; exact N0).
    replace (PI * IZR (i + 1) * IZR (k + 1) / IZR N + PI * IZR (k + 1) * IZR (j + 1) / IZR N) with (PI * IZR (i + j + 2) * IZR (k + 1) / IZR N) by (rewrite !plus_IZR; field; exact N0). ring.
Qed.

Lemma inv_RODFT10 : rsum n (fun k => mat RODFT01 n j k * mat RODFT10 n k i) = 2 * IZR n * delta i j.
Proof.
  pose proof n_ne as N0. rewrite (lin_minus _ 1 _ (fun k => wtl n k * cos (PI * IZR (i - j) * IZR (k + 1) / IZR n)) (fun k => wtl n k * cos (PI * IZR (i + j + 1) * IZR (k + 1) / IZR n))).
  - rewrite !Tl by lia. rewrite ind_eq by lia. fold (delta i j). rewrite (ind_small n (i + j + 1)) by lia. ring.
  - intros k Hk. cbn [mat]. replace (wtl n k * sin (PI * IZR (k + 1) * h2 j / IZR n) * (2 * sin (PI * h2 i * IZR (k + 1) / IZR n))) with (wtl n k * (2 * (sin (PI * h2 i * IZR (k + 1) / IZR n) * sin (PI * IZR (k + 1) * h2 j / IZR n)))) by ring.
    rewrite sin_sin. replace (PI * h2 i * IZR (k + 1) / IZR n - PI * IZR (k + 1) * h2 j / IZR n) with (PI * IZR (i - j) * IZR (k + 1) / IZR n) by (unfold h2; rewrite minus_IZR; field; exact N0).
    replace (PI * h2 i * IZR (k + 1) / IZR n + PI * IZR (k + 1) * h2 j / IZR n) with (PI * IZR (i + j + 1) * IZR (k + 1) / IZR n) by (unfold h2; rewrite !plus_IZR; field; exact N0). ring.
Qed.
Lemma inv_RODFT01 : rsum n (fun k => mat RODFT10 n j k * mat RODFT01 n k i) = 2 * IZR n * delta i j.
Proof.
  pose proof n_ne as N0. rewrite (lin_minus _ (wtl n i) _ (fun k => cos (PI * IZR (i - j) * h2 k / IZR n)) (fun k => cos (PI * IZR (i + j + 2) * h2 k / IZR n))).
  - rewrite !S2 by lia. rewrite ind_eq by lia. fold (delta i j). rewrite cos_same. unfold delta, wtl. destruct (i =? j)%Z eqn:E.
    + apply Z.eqb_eq in E. subst j. destruct (i =? n - 1)%Z eqn:F.
      * apply Z.eqb_eq in F. replace (i + i + 2)%Z with (2 * n)%Z by lia. rewrite ind_full by lia. replace (cos (PI * IZR (2 * n) / (2 * IZR n))) with (-1); [ring|].
        rewrite <- cos_PI. f_equal. rewrite mult_IZR. field. exact N0.
      * rewrite (ind_small n (i + i + 2)) by lia. ring.
    + apply Z.eqb_neq in E. rewrite (ind_small n (i + j + 2)) by lia. ring.
  - intros k Hk. cbn [mat]. replace (2 * sin (PI * h2 k * IZR (j + 1) / IZR n) * (wtl n i * sin (PI * IZR (i + 1) * h2 k / IZR n))) with (wtl n i * (2 * (sin (PI * IZR (i + 1) * h2 k / IZR n) * sin (PI * h2 k * IZR (j + 1) / IZR n)))) by ring.
    rewrite sin_sin. replace (PI * IZR (i + 1) * h2 k / IZR n - PI * h2 k * IZR (j + 1) / IZR n) with (PI * IZR (i - j) * h2 k / IZR n) by (rewrite !plus_IZR, minus_IZR; field; exact N0).
    replace (PI * IZR (i + 1) * h2 k / IZR n + PI * h2 k * IZR (j + 1) / IZR n) with (PI * IZR (i + j + 2) * h2 k / IZR n) by (rewrite !plus_IZR; field; exact N0). ring.
Qed.
End One.

Lemma mat_inv t n i j : long_enough t n -> (0 <= i < n)%Z -> (0 <= j < n)%Z ->
  rsum n (fun k => mat (dct_inverses t) n j k * mat t n k i) = IZR (2 * (n + dct_sizes (dct_inverses t))) * delta i j.
Proof.
  intros H Hi Hj. rewrite mult_IZR. destruct t; cbn [long_enough dct_inverses dct_sizes] in *; try (replace (n + 0)%Z with n by lia); try (replace (n + -1)%Z with (n - 1)%Z by lia);
  [apply inv_REDFT00|apply inv_REDFT10|apply inv_REDFT01|apply inv_REDFT11|apply inv_RODFT00|apply inv_RODFT10|apply inv_RODFT01|apply inv_RODFT11]; assumption.
Qed.
Lemma long_inv t n : long_enough t n -> long_enough (dct_inverses t) n.
Proof. destruct t; cbn; auto. Qed.
Lemma r2r_inv t n a j : long_enough t n -> (0 <= j < n)%Z -> r2r (dct_inverses t) n (r2r t n a) j = IZR (2 * (n + dct_sizes (dct_inverses t))) * a j.
Proof.
  intros H Hj. rewrite r2r_mat by (apply long_inv, H). rewrite (rsum_ext n _ (fun k => rsum n (fun i => mat (dct_inverses t) n j k * mat t n k i * a i))).
  - rewrite rsum_swap. rewrite (rsum_ext n _ (fun i => if (i =? j)%Z then IZR (2 * (n + dct_sizes (dct_inverses t))) * a i else 0)).
    + apply (rsum_single n j (fun i => IZR (2 * (n + dct_sizes (dct_inverses t))) * a i)). exact Hj.
    + intros i Hi. rewrite rsum_scal_r, mat_inv by assumption. unfold delta. destruct (i =? j)%Z; ring.
  - intros k _. rewrite r2r_mat by exact H. rewrite <- rsum_scal_l. apply rsum_ext. intros. ring.
Qed.
Lemma r2r_ext t n a b k : long_enough t n -> (forall i, (0 <= i < n)%Z -> a i = b i) -> r2r t n a k = r2r t n b k.
Proof. intros H E. rewrite !r2r_mat by exact H. apply rsum_ext. intros i Hi. rewrite E by exact Hi. reflexivity. Qed.
Lemma r2r_scal t n c a k : long_enough t n -> r2r t n (fun i => a i * c) k = r2r t n a k * c.
Proof. intros H. rewrite !r2r_mat by exact H. rewrite <- rsum_scal_r. apply rsum_ext. intros. ring. Qed.
Lemma r2r_swap t u n m B x l : long_enough t n -> long_enough u m -> r2r t n (fun k => r2r u m (fun j => B j k) l) x = r2r u m (fun j => r2r t n (B j) x) l.
Proof.
  intros Ht Hu. rewrite r2r_mat by exact Ht. rewrite (rsum_ext n _ (fun k => rsum m (fun j => mat t n x k * mat u m l j * B j k))).
  - rewrite rsum_swap. rewrite r2r_mat by exact Hu. apply rsum_ext. intros j _. rewrite r2r_mat by exact Ht. rewrite <- rsum_scal_l. apply rsum_ext. intros. ring.
  - intros k _. rewrite r2r_mat by exact Hu. rewrite <- rsum_scal_l. apply rsum_ext. intros. ring.
Qed.
