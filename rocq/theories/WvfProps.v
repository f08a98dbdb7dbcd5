(* C59: the wavelet filters form a partition of unity. *)
From Coq Require Import Reals Lra List Lia ZArith Bool.
From Verif Require Import WavSpec WvfModel WvfLemmas.
Import ListNotations.
Local Open Scope R_scope.

(* the squared Butterworth filters of n >= 1 scales sum to one at every multipole, and no square root of a
   negative number is taken *)
Theorem C59_butterworth : forall step shape lmin n l, 1 < step -> 0 < shape -> 0 < lmin -> (1 <= n)%nat -> 0 <= l ->
  (forall i, (i < n)%nat -> 0 <= profile (butter_kernel step shape lmin) n i l) /\
  sum_squares (butterworth step shape lmin n) n l = 1.
Proof.
  intros step shape lmin n l H1 H2 H3 Hn Hl. split.
  - intros i Hi. apply profile_nonneg; [intros; apply kernel_01|intros; apply kernel_inc; assumption|exact Hi].
  - apply total_sum; [intros; apply kernel_01|intros; apply kernel_inc; assumption|exact Hn].
Qed.
Print Assumptions C59_butterworth.

Theorem C59_buttertrim : forall step shape lmin trim n l, 1 < step -> 0 < shape -> 0 < lmin -> 0 <= trim -> (1 <= n)%nat -> 0 <= l ->
  (forall i, (i < n)%nat -> 0 <= profile (trimmed_kernel step shape lmin trim) n i l) /\
  sum_squares (buttertrim step shape lmin trim n) n l = 1.
Proof.
  intros step shape lmin trim n l H1 H2 H3 Ht Hn Hl.
  assert (Hinc : forall i, trimmed_kernel step shape lmin trim i l <= trimmed_kernel step shape lmin trim (S i) l)
    by (intros i; apply trim_inc; [lra|]; apply kernel_inc; assumption). split.
  - intros i Hi. apply profile_nonneg; [intros; apply trim_01|exact Hinc|exact Hi].
  - apply total_sum; [intros; apply trim_01|exact Hinc|exact Hn].
Qed.
Print Assumptions C59_buttertrim.

(* the trimmed filters are compact: filter i vanishes from lmaxs[i] (the value below, rounded up) on, so reducing the
   resolution of wavelet map i to lmaxs[i] loses nothing; the last filter, which reaches to lmax, excepted *)
Theorem C59_compact : forall step shape lmin trim n i l, 1 < step -> 0 < shape -> 0 < lmin -> 0 < trim -> (i < n - 1)%nat ->
  0 <= l -> trim_lmax step shape lmin trim i <= l -> buttertrim step shape lmin trim n i l = 0.
Proof.
  intros step shape lmin trim n i l H1 H2 H3 Ht Hi Hl0 Hl. unfold buttertrim, filter_at, profile.
  destruct (Nat.eqb_spec i (n - 1)); [lia|]. pose proof (trimmed_zero step shape lmin H1 H2 H3 trim i l Ht Hl) as E. rewrite E.
  destruct i as [|i]; cbn [Nat.ltb Nat.leb]; [rewrite Rminus_0_r; apply sqrt_0|]. replace (S i - 1)%nat with i by lia.
  assert (L : trimmed_kernel step shape lmin trim i l <= trimmed_kernel step shape lmin trim (S i) l) by (apply trim_inc; [lra|]; apply kernel_inc; assumption).
  pose proof (trim_01 (butter_kernel step shape lmin i l) trim) as B. unfold trimmed_kernel in *.
  assert (E0 : trim_kernel (butter_kernel step shape lmin i l) trim = 0) by lra. rewrite E0, Rminus_0_r. apply sqrt_0.
Qed.
Print Assumptions C59_compact.

(* the basis can be set up if and only if there is room for one factor step between lmin and lmax *)
Theorem C59_levels : forall step lmin lmax, 1 < step -> 0 < lmin -> 0 < lmax ->
  ((exists n, nscale step lmin lmax = Some n /\ (1 <= n)%nat) <-> step * lmin <= lmax).
Proof.
  intros step lmin lmax H1 H2 H3. pose proof (ln_step step H1) as PL. unfold nscale. set (x := (ln lmax - ln lmin) / ln step).
  assert (EX : 1 <= x <-> step * lmin <= lmax).
  { transitivity (ln step + ln lmin <= ln lmax).
    - unfold x. split; intros H.
      + apply (Rmult_le_compat_r (ln step)) in H; [|lra]. unfold Rdiv in H. rewrite Rmult_assoc, Rinv_l in H by lra. lra.
      + apply (Rmult_le_reg_r (ln step)); [exact PL|]. unfold Rdiv. rewrite Rmult_assoc, Rinv_l by lra. lra.
    - rewrite <- ln_mult by lra. split; intros H.
      + apply Rnot_lt_le. intros L. apply ln_increasing in L; lra.
      + destruct (Rle_lt_or_eq_dec _ _ H) as [L|L]; [left; apply ln_increasing; [apply Rmult_lt_0_compat; lra|exact L]|rewrite L; lra]. }
  rewrite <- EX, <- trunc_ge1. destruct (Z.leb_spec (trunc x) 0).
  - split; [intros (n & E & _); discriminate|lia].
  - split; [lia|]. intros _. exists (Z.to_nat (trunc x)). split; [reflexivity|lia].
Qed.
Print Assumptions C59_levels.

(* cosine needlets: from the first peak up to, but not including, the last *)
Theorem C59_cosine_partial : forall lpeaks l, (forall i, (S i < length lpeaks)%nat -> nth i lpeaks 0 <= nth (S i) lpeaks 0) ->
  nth 0 lpeaks 0 <= l < nth (length lpeaks - 1) lpeaks 0 -> sum_squares (cosine lpeaks) (length lpeaks) l = 1.
Proof. intros P l HP Hl. exact (cos_sum P HP l Hl). Qed.
Print Assumptions C59_cosine_partial.

(* at the last peak, which is the lmax of the basis, every needlet is zero *)
Theorem C59_cosine_refuted : exists lpeaks l, (forall i, (S i < length lpeaks)%nat -> nth i lpeaks 0 < nth (S i) lpeaks 0) /\
  l = nth (length lpeaks - 1) lpeaks 0 /\ sum_squares (cosine lpeaks) (length lpeaks) l = 0.
Proof.
  exists [10; 20; 40], 40. split; [|split].
  - intros [|[|[|i]]] H; cbn in *; try lra; lia.
  - reflexivity.
  - apply sum_squares_zero. intros [|[|[|i]]] H; cbn in H; try lia; unfold cosine; cbn; repeat destruct (Rle_dec _ _); repeat destruct (Rlt_dec _ _); try reflexivity; lra.
Qed.
Print Assumptions C59_cosine_refuted.

(* digitized filters: at every multipole below lmax exactly one of the n profiles is one and the others are zero,
   whatever the kernels and whatever way of rounding *)
Theorem C59_digital : forall rnd kernel n lmax l, (1 <= n)%nat -> (l < lmax)%nat ->
  exists k, (k < n)%nat /\ digital rnd kernel n lmax k l = 1%Z /\
    forall i, (i < n)%nat -> i <> k -> digital rnd kernel n lmax i l = 0%Z.
Proof. exact digital_spec. Qed.
Print Assumptions C59_digital.

(* two scales of the default shape cover l = 0 with the first filter alone, and l = lmin*step^(1/2) half and half *)
Example C59_ex : butterworth 2 7 100 2 0 0 = 1 /\ butterworth 2 7 100 2 1 0 = 0 /\
  profile (butter_kernel 2 7 100) 2 0 (100 * Rpower 2 (0 + 1/2)) = 1/2.
Proof.
  assert (K0 : butter_kernel 2 7 100 0 0 = 1).
  { unfold butter_kernel, pow0. replace (0 / (100 * Rpower 2 (INR 0 + 1 / 2))) with 0 by (unfold Rdiv; ring). destruct (Req_EM_T 0 0); [field|congruence]. }
  unfold butterworth, filter_at, profile. cbn [Nat.eqb Nat.ltb Nat.leb Nat.sub]. rewrite !K0. split; [rewrite Rminus_0_r; apply sqrt_1|]. split; [replace (1 - 1) with 0 by ring; apply sqrt_0|].
  unfold butter_kernel. change (INR 0) with 0. set (s := 100 * Rpower 2 (0 + 1/2)). assert (Hs : 0 < s) by (unfold s, Rpower; apply Rmult_lt_0_compat; [lra|apply exp_pos]).
  replace (s / s) with 1 by (field; lra). unfold pow0. destruct (Req_EM_T 1 0); [lra|]. unfold Rpower. rewrite ln_1, Rmult_0_r, exp_0. field.
Qed.
