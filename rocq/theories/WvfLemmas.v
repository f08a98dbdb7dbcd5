From Coq Require Import Reals Lra List Lia ZArith Bool Permutation Sorting.Sorted.
From Verif Require Import WavSpec WvfModel.
Import ListNotations.
Local Open Scope R_scope.

(** differences of increasing kernels *)
Lemma sqrt_sq x : 0 <= x -> sqrt x * sqrt x = x.
Proof. intros H. apply sqrt_def. exact H. Qed.

Section Diff.
Variables (K : nat -> R -> R) (l : R).
Hypothesis K01 : forall i, 0 <= K i l <= 1.
Hypothesis Kinc : forall i, K i l <= K (S i) l.

Lemma profile_nonneg n i : (i < n)%nat -> 0 <= profile K n i l.
Proof.
  intros H. unfold profile. destruct (Nat.eqb_spec i (n - 1)) as [E|E]; destruct i as [|i]; cbn [Nat.ltb Nat.leb].
  - lra.
  - replace (S i - 1)%nat with i by lia. pose proof (K01 i). lra.
  - pose proof (K01 0%nat). lra.
  - replace (S i - 1)%nat with i by lia. pose proof (Kinc i). lra.
Qed.

Lemma partial_sum n k : (k <= n - 1)%nat -> sum_squares (filter_at K n) k l = match k with O => 0 | S j => K j l end.
Proof.
  induction k as [|k IH]; intros H; cbn [sum_squares]; [reflexivity|]. rewrite IH by lia. unfold filter_at at 1 2.
  rewrite sqrt_sq by (apply profile_nonneg; lia). unfold profile. destruct (Nat.eqb_spec k (n - 1)); [lia|].
  destruct k as [|k]; cbn [Nat.ltb Nat.leb]; [lra|]. replace (S k - 1)%nat with k by lia. lra.
Qed.

Lemma total_sum n : (1 <= n)%nat -> sum_squares (filter_at K n) n l = 1.
Proof.
  intros H. destruct n as [|n]; [lia|]. cbn [sum_squares]. rewrite partial_sum by lia. unfold filter_at at 1 2.
  rewrite sqrt_sq by (apply profile_nonneg; lia). unfold profile. destruct (Nat.eqb_spec n (S n - 1)); [|lia].
  destruct n as [|n]; cbn [Nat.ltb Nat.leb]; [lra|]. replace (S n - 1)%nat with n by lia. lra.
Qed.
End Diff.

(** the kernels *)
Lemma pow0_nonneg x p : 0 <= pow0 x p.
Proof. unfold pow0. destruct (Req_EM_T x 0); [lra|]. unfold Rpower. left. apply exp_pos. Qed.
Lemma pow0_le x y p : 0 <= x <= y -> 0 <= p -> pow0 x p <= pow0 y p.
Proof.
  intros H Hp. unfold pow0 at 1. destruct (Req_EM_T x 0); [apply pow0_nonneg|]. unfold pow0. destruct (Req_EM_T y 0); [lra|].
  apply Rle_Rpower_l; lra.
Qed.

Section Butter.
Variables step shape lmin : R.
Hypothesis Hstep : 1 < step.
Hypothesis Hshape : 0 < shape.
Hypothesis Hlmin : 0 < lmin.

Lemma ln_step : 0 < ln step. Proof. rewrite <- ln_1. apply ln_increasing; lra. Qed.
Lemma expo_pos : 0 < shape / ln step. Proof. apply Rdiv_lt_0_compat; [exact Hshape|exact ln_step]. Qed.
Lemma scale_pos i : 0 < lmin * Rpower step (INR i + 1/2).
Proof. apply Rmult_lt_0_compat; [exact Hlmin|]. unfold Rpower. apply exp_pos. Qed.

Lemma kernel_01 i l : 0 <= butter_kernel step shape lmin i l <= 1.
Proof.
  unfold butter_kernel. set (x := pow0 _ _). assert (Hx : 0 <= x) by apply pow0_nonneg. split.
  - apply Rlt_le, Rdiv_lt_0_compat; lra.
  - apply (Rmult_le_reg_r (1 + x)); [lra|]. unfold Rdiv. rewrite Rmult_assoc, Rinv_l by lra. lra.
Qed.
Lemma kernel_inc i l : 0 <= l -> butter_kernel step shape lmin i l <= butter_kernel step shape lmin (S i) l.
Proof.
  intros Hl. unfold butter_kernel. set (x := pow0 (l / (lmin * Rpower step (INR i + 1/2))) _). set (y := pow0 _ _).
  assert (Hx : 0 <= x) by apply pow0_nonneg. assert (Hy : 0 <= y) by apply pow0_nonneg. assert (Hxy : y <= x).
  { apply pow0_le; [|left; exact expo_pos]. pose proof (scale_pos i) as P1. pose proof (scale_pos (S i)) as P2.
    split; [apply Rmult_le_pos; [exact Hl|left; apply Rinv_0_lt_compat; exact P2]|]. apply Rmult_le_compat_l; [exact Hl|].
    apply Rinv_le_contravar; [exact P1|]. apply Rmult_le_compat_l; [lra|]. apply Rle_Rpower; [lra|]. rewrite S_INR. lra. }
  unfold Rdiv. rewrite !Rmult_1_l. apply Rinv_le_contravar; lra.
Qed.

Lemma trim_01 a t : 0 <= trim_kernel a t <= 1.
Proof. unfold trim_kernel, Rmin, Rmax. repeat destruct (Rle_dec _ _); lra. Qed.
Lemma trim_inc a b t : 0 <= 1 + 2 * t -> a <= b -> trim_kernel a t <= trim_kernel b t.
Proof.
  intros Ht H. assert (a * (1 + 2 * t) <= b * (1 + 2 * t)) by (apply Rmult_le_compat_r; assumption).
  unfold trim_kernel, Rmin, Rmax. repeat destruct (Rle_dec _ _); lra.
Qed.

(* beyond lmaxs[i] the trimmed kernel is zero *)
Lemma trimmed_zero t i l : 0 < t -> trim_lmax step shape lmin t i <= l -> trimmed_kernel step shape lmin t i l = 0.
Proof.
  intros Ht Hl. set (q := (1 + 2 * t) / t - 1) in *. assert (Hq : q = (1 + t) / t) by (unfold q; field; lra).
  assert (Hq0 : 0 < q) by (rewrite Hq; apply Rdiv_lt_0_compat; lra).
  pose proof (scale_pos i) as P. pose proof ln_step as PL.
  set (s := lmin * Rpower step (INR i + 1/2)) in *.
  assert (Hlq : Rpower q (ln step / shape) <= l / s).
  { apply (Rmult_le_reg_r s); [exact P|]. unfold Rdiv at 2. rewrite Rmult_assoc, Rinv_l, Rmult_1_r by lra.
    eapply Rle_trans; [|exact Hl]. unfold trim_lmax. fold q. unfold s. apply Req_le. ring. }
  assert (Hp0 : 0 < Rpower q (ln step / shape)) by (unfold Rpower; apply exp_pos).
  assert (Hx : q <= pow0 (l / s) (shape / ln step)).
  { replace q with (Rpower (Rpower q (ln step / shape)) (shape / ln step)) at 1.
    - unfold pow0. destruct (Req_EM_T (l / s) 0); [lra|]. apply Rle_Rpower_l; [left; exact expo_pos|]. split; [exact Hp0|exact Hlq].
    - rewrite Rpower_mult. replace (ln step / shape * (shape / ln step)) with 1 by (field; split; lra). apply Rpower_1. exact Hq0. }
  unfold trimmed_kernel, butter_kernel. fold s. set (x := pow0 (l / s) _) in *.
  assert (Hk : 1 / (1 + x) * (1 + 2 * t) - t <= 0).
  { assert (Hx1 : 0 < 1 + x) by lra. apply (Rmult_le_reg_r (1 + x)); [exact Hx1|]. replace ((1 / (1 + x) * (1 + 2 * t) - t) * (1 + x)) with (1 + 2 * t - t * (1 + x)) by (field; lra).
    assert (t * q <= t * x) by (apply Rmult_le_compat_l; lra). assert (E : t * q = 1 + t) by (rewrite Hq; field; lra). lra. }
  unfold trim_kernel, Rmin, Rmax. repeat destruct (Rle_dec _ _); lra.
Qed.
End Butter.

(** number of scales *)
Lemma trunc_ge1 x : (1 <= trunc x)%Z <-> 1 <= x.
Proof.
  unfold trunc. destruct (base_Int_part x) as [A1 A2]. destruct (Rle_dec 0 x) as [H|H].
  - split; intros H1.
    + apply IZR_le in H1. lra.
    + destruct (Z_le_gt_dec 1 (Int_part x)) as [G|G]; [exact G|]. assert (E : IZR (Int_part x) <= 0) by (apply IZR_le; lia). lra.
  - destruct (base_Int_part (- x)) as [B1 B2]. split; intros H1; [|lra].
    assert (E : (Int_part (- x) <= -1)%Z) by lia. apply IZR_le in E. lra.
Qed.

(** cosine needlets *)
Lemma sum_squares_zero f n l : (forall i, (i < n)%nat -> f i l = 0) -> sum_squares f n l = 0.
Proof. induction n as [|n IH]; intros H; cbn [sum_squares]; [reflexivity|]. rewrite IH, (H n) by (intros; try apply H; lia). lra. Qed.
Lemma sum_squares_two f n k l : (S k < n)%nat -> (forall i, (i < n)%nat -> i <> k -> i <> S k -> f i l = 0) ->
  sum_squares f n l = f k l * f k l + f (S k) l * f (S k) l.
Proof.
  intros Hk Hz. assert (E : forall m, (m <= n)%nat -> sum_squares f m l =
    (if Nat.ltb k m then f k l * f k l else 0) + (if Nat.ltb (S k) m then f (S k) l * f (S k) l else 0)).
  { induction m as [|m IH]; intros Hm; cbn [sum_squares]; [cbn; lra|]. rewrite IH by lia.
    destruct (Nat.eq_dec m k) as [->|N1].
    - destruct (Nat.ltb_spec k k), (Nat.ltb_spec (S k) k), (Nat.ltb_spec k (S k)), (Nat.ltb_spec (S k) (S k)); try lia; lra.
    - destruct (Nat.eq_dec m (S k)) as [->|N2].
      + destruct (Nat.ltb_spec k (S k)), (Nat.ltb_spec (S k) (S k)), (Nat.ltb_spec k (S (S k))), (Nat.ltb_spec (S k) (S (S k))); try lia; lra.
      + rewrite (Hz m) by lia. destruct (Nat.ltb_spec k m), (Nat.ltb_spec (S k) m), (Nat.ltb_spec k (S m)), (Nat.ltb_spec (S k) (S m)); try lia; lra. }
  rewrite (E n) by lia. destruct (Nat.ltb_spec k n), (Nat.ltb_spec (S k) n); try lia. lra.
Qed.

Section Cos.
Variable P : list R.
Notation p := (fun k => nth k P 0).
Hypothesis Psorted : forall i, (S i < length P)%nat -> p i <= p (S i).
Lemma p_le i j : (i <= j)%nat -> (j < length P)%nat -> p i <= p j.
Proof. intros Hij Hj. induction Hij as [|j Hij IH]; [cbn; lra|]. pose proof (Psorted j Hj). assert (p i <= p j) by (apply IH; lia). cbn beta in *. lra. Qed.

Lemma find_peak l m : (m < length P)%nat -> p 0%nat <= l < p m -> exists k, (k < m)%nat /\ p k <= l < p (S k).
Proof.
  induction m as [|m IH]; intros Hm H; cbn beta in *; [lra|]. destruct (Rlt_dec l (p m)) as [L|L]; cbn beta in L.
  - destruct IH as (k & Hk & E); [lia|lra|]. exists k. split; [lia|exact E].
  - exists m. split; [lia|lra].
Qed.

Lemma cos_sum l : p 0%nat <= l < p (length P - 1)%nat -> sum_squares (cosine P) (length P) l = 1.
Proof.
  intros H. destruct (Nat.eq_dec (length P) 0) as [E0|E0]; [rewrite E0 in H; cbn in H; lra|].
  destruct (find_peak l (length P - 1)) as (k & Hk & E); [lia|exact H|]. cbn beta in E.
  rewrite (sum_squares_two _ _ k); [|lia|].
  - assert (Ea : cosine P k l = cos (PI * (l - p k) / (p (S k) - p k) / 2)).
    { unfold cosine. replace (k + 1)%nat with (S k) by lia. destruct (Nat.ltb_spec k (length P - 1)); [|lia].
      destruct (Rle_dec (nth k P 0) l); [|lra]. destruct (Rlt_dec l (nth (S k) P 0)); [reflexivity|lra]. }
    assert (Eb : cosine P (S k) l = cos (PI * (p (S k) - l) / (p (S k) - p k) / 2)).
    { unfold cosine. replace (S k - 1)%nat with k by lia. destruct (Nat.ltb_spec 0 (S k)); [|lia].
      destruct (Rle_dec (nth k P 0) l); [|lra]. destruct (Rlt_dec l (nth (S k) P 0)); [|lra].
      destruct (Nat.ltb (S k) (length P - 1)); [|reflexivity]. destruct (Rle_dec (nth (S k) P 0) l); [lra|reflexivity]. }
    rewrite Ea, Eb. set (d := p (S k) - p k). assert (Hd : 0 < d) by (unfold d; cbn beta; lra).
    replace (PI * (p (S k) - l) / d / 2) with (PI / 2 - PI * (l - p k) / d / 2) by (unfold d; cbn beta; field; unfold d in Hd; cbn beta in Hd; lra).
    rewrite cos_shift. set (t := PI * (l - p k) / d / 2). pose proof (sin2_cos2 t) as S. unfold Rsqr in S. lra.
  - intros i Hi N1 N2. unfold cosine.
    assert (Z1 : Nat.ltb 0 i = true -> ~ (p (i - 1)%nat <= l /\ l < p i)).
    { intros Hi0 [A1 A2]. apply Nat.ltb_lt in Hi0. destruct (Nat.lt_ge_cases i (S k)) as [L|L].
      - pose proof (p_le i k ltac:(lia) ltac:(lia)). cbn beta in *. lra.
      - pose proof (p_le (S k) (i - 1)%nat ltac:(lia) ltac:(lia)). cbn beta in *. lra. }
    assert (Z2 : Nat.ltb i (length P - 1) = true -> ~ (p i <= l /\ l < p (i + 1)%nat)).
    { intros Hi0 [A1 A2]. apply Nat.ltb_lt in Hi0. destruct (Nat.lt_ge_cases i k) as [L|L].
      - pose proof (p_le (i + 1)%nat k ltac:(lia) ltac:(lia)). cbn beta in *. lra.
      - pose proof (p_le (S k) i ltac:(lia) ltac:(lia)). cbn beta in *. lra. }
    cbn beta in Z1, Z2.
    destruct (Nat.ltb 0 i), (Nat.ltb i (length P - 1)); repeat destruct (Rle_dec _ _); repeat destruct (Rlt_dec _ _); try reflexivity;
      exfalso; first [apply Z1; [reflexivity|split; assumption] | apply Z2; [reflexivity|split; assumption]].
Qed.
End Cos.

(** digitized filters *)
Local Open Scope Z_scope.
Lemma insert_perm x l : Permutation (insert x l) (x :: l).
Proof.
  induction l as [|y l IH]; cbn [insert]; [reflexivity|]. destruct (x <=? y); [reflexivity|]. rewrite IH. apply perm_swap.
Qed.
Lemma isort_perm l : Permutation (isort l) l.
Proof. induction l as [|x l IH]; cbn [isort fold_right]; [reflexivity|]. rewrite insert_perm. apply perm_skip. exact IH. Qed.
Lemma insert_sorted x l : StronglySorted Z.le l -> StronglySorted Z.le (insert x l).
Proof.
  induction 1 as [|y l Hs IH Hf]; cbn [insert]; [repeat constructor|]. destruct (Z.leb_spec x y).
  - constructor; [constructor; assumption|]. constructor; [assumption|]. eapply Forall_impl; [|exact Hf]. intros; lia.
  - constructor; [exact IH|]. apply Forall_forall. intros z Hz. apply (Permutation_in _ (insert_perm x l)) in Hz.
    destruct Hz as [->|Hz]; [lia|]. rewrite Forall_forall in Hf. auto.
Qed.
Lemma isort_sorted l : StronglySorted Z.le (isort l).
Proof. induction l as [|x l IH]; cbn [isort fold_right]; [constructor|]. apply insert_sorted, IH. Qed.

(* a sorted list of zeros and ones, not constant, steps up exactly once *)
Lemma one_step s : StronglySorted Z.le s -> (forall x, In x s -> x = 0 \/ x = 1) -> In 1 s -> nth 0 s 0 = 0 ->
  exists k, (S k < length s)%nat /\ nth k s 0 = 0 /\ nth (S k) s 0 = 1 /\
    forall i, (S i < length s)%nat -> i <> k -> nth (S i) s 0 - nth i s 0 = 0.
Proof.
  induction s as [|x s IH]; intros Hs H01 H1 H0; [destruct H1|]. cbn [nth] in H0. subst x. inversion Hs as [|? ? Hs' Hf]; subst.
  destruct s as [|y s]; [destruct H1 as [|[]]; lia|].
  destruct (H01 y) as [E|E]; [right; left; reflexivity|subst y|subst y].
  - destruct IH as (k & Hk & K0 & K1 & K); [exact Hs'|intros; apply H01; right; assumption|destruct H1; [lia|assumption]|reflexivity|].
    exists (S k). split; [cbn [length] in *; lia|]. split; [exact K0|]. split; [exact K1|]. intros [|i] Hi Ni; [reflexivity|].
    apply (K i); [cbn [length] in *; lia|lia].
  - exists 0%nat. split; [cbn [length]; lia|]. split; [reflexivity|]. split; [reflexivity|]. intros [|i] Hi Ni; [lia|].
    assert (A : forall j, (j < length (1%Z :: s))%nat -> nth j (1 :: s) 0 = 1).
    { intros j Hj. inversion Hs' as [|? ? ? Hf']; subst. destruct j as [|j]; [reflexivity|]. cbn [nth].
      assert (I1 : In (nth j s 0) s) by (apply nth_In; cbn [length] in Hj; lia).
      rewrite Forall_forall in Hf'. specialize (Hf' _ I1). destruct (H01 (nth j s 0)); [right; right; exact I1|lia|assumption]. }
    change (nth (S (S i)) (0 :: 1 :: s) 0) with (nth (S i) (1 :: s) 0). change (nth (S i) (0 :: 1 :: s) 0) with (nth i (1 :: s) 0).
    cbn [length] in Hi. rewrite !A by (cbn [length]; lia). reflexivity.
Qed.

Lemma changes_01 f x : In x (changes f) -> x = 0 \/ x = 1.
Proof.
  induction f as [|a f IH]; [intros []|]. destruct f as [|b f]; [intros []|]. cbn [changes]. intros [H|H]; [destruct (a =? b); lia|]. apply IH, H.
Qed.
Lemma digitize_01 rnd a l : nth l (digitize rnd a) 0 = 0 \/ nth l (digitize rnd a) 0 = 1.
Proof.
  destruct (nth_in_or_default l (digitize rnd a) 0) as [H|H]; [|left; exact H].
  unfold digitize in *. destruct H as [H|H]; [right; symmetry; exact H|]. apply changes_01 in H. exact H.
Qed.

Lemma digital_spec rnd kernel n lmax l : (1 <= n)%nat -> (l < lmax)%nat ->
  exists k, (k < n)%nat /\ digital rnd kernel n lmax k l = 1 /\ forall i, (i < n)%nat -> i <> k -> digital rnd kernel n lmax i l = 0.
Proof.
  intros Hn Hl. set (col := map (fun row => nth l row 0) (digital_rows rnd kernel n lmax)).
  assert (E0 : nth l (repeat 0 lmax) 0 = 0) by apply nth_repeat.
  assert (E1 : nth l (repeat 1 lmax) 0 = 1).
  { clear - Hl. revert lmax Hl. induction l as [|l IH]; intros [|m] H; try lia; [reflexivity|]. cbn [repeat nth]. apply IH. lia. }
  assert (Hlen : length (isort col) = S n).
  { rewrite (Permutation_length (isort_perm col)). unfold col, digital_rows. rewrite map_length. cbn [length].
    rewrite app_length, map_length, seq_length. cbn [length]. lia. }
  assert (H01 : forall x, In x (isort col) -> x = 0 \/ x = 1).
  { intros x Hx. apply (Permutation_in _ (isort_perm col)) in Hx. unfold col, digital_rows in Hx. apply in_map_iff in Hx. destruct Hx as (row & <- & Hr).
    destruct Hr as [<-|Hr]; [left; exact E0|]. apply in_app_or in Hr. destruct Hr as [Hr|[<-|[]]]; [|right; exact E1].
    apply in_map_iff in Hr. destruct Hr as (i & <- & _). apply digitize_01. }
  assert (I0 : In 0 (isort col)).
  { apply (Permutation_in _ (Permutation_sym (isort_perm col))). unfold col, digital_rows. cbn [map]. left. exact E0. }
  assert (I1 : In 1 (isort col)).
  { apply (Permutation_in _ (Permutation_sym (isort_perm col))). unfold col, digital_rows. cbn [map]. right. rewrite map_app. apply in_or_app. right. left. exact E1. }
  assert (S0 : nth 0 (isort col) 0 = 0).
  { pose proof (isort_sorted col) as Hs. destruct (isort col) as [|x s]; [reflexivity|]. cbn [nth]. destruct (H01 x) as [E|E]; [left; reflexivity|exact E|subst x].
    exfalso. destruct I0 as [|I0]; [lia|]. inversion Hs as [|? ? ? Hf]; subst. rewrite Forall_forall in Hf. specialize (Hf 0 I0). lia. }
  destruct (one_step (isort col) (isort_sorted col) H01 I1 S0) as (k & Hk & K0 & K1 & K). rewrite Hlen in Hk.
  exists k. unfold digital. fold col. split; [lia|]. split.
  - replace (k + 1)%nat with (S k) by lia. rewrite K0, K1. reflexivity.
  - intros i Hi Ni. replace (i + 1)%nat with (S i) by lia. apply K; [rewrite Hlen; lia|exact Ni].
Qed.
