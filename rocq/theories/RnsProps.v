From Coq Require Import List Arith ZArith Reals Lia Lra Psatz.
From Verif Require Import BldModel BldLemmas RnsSpec RnsModel.
Import ListNotations.
Open Scope nat_scope.
Ltac Zify.zify_post_hook ::= idtac.

Lemma sum_repeat a n : sum (repeat a n) = n * a.
Proof. induction n as [|n IH]; cbn; [reflexivity|]. unfold sum in IH. now rewrite IH. Qed.
Lemma sum_app l l' : sum (l ++ l') = sum l + sum l'.
Proof. induction l as [|x l IH]; [reflexivity|]. change (sum ((x :: l) ++ l')) with (x + sum (l ++ l')). change (sum (x :: l)) with (x + sum l). lia. Qed.
Lemma rdiv_spec n d : 0 < d -> 2 * n <= 2 * (rdiv n d * d) + d /\ 2 * (rdiv n d * d) <= 2 * n + d /\ (2 * n = 2 * (rdiv n d * d) + d -> Nat.even (rdiv n d) = true).
Proof.
  intros D. unfold rdiv. pose proof (Nat.div_mod n d ltac:(lia)) as E. pose proof (Nat.mod_upper_bound n d ltac:(lia)) as B. set (q := n / d) in *. set (r := n mod d) in *. clearbody q r.
  assert (E' : n = q * d + r) by (rewrite E; ring). clear E. assert (S1 : (q + 1) * d = q * d + d) by ring. set (qd := q * d) in *. clearbody qd. destruct (Nat.ltb_spec (2 * r) d); [split; [lia|split; [lia|intros; exfalso; lia]]|]. destruct (Nat.ltb_spec d (2 * r)); [rewrite S1; split; [lia|split; [lia|intros; exfalso; lia]]|]. destruct (Nat.even q) eqn:EV; [repeat split; try lia; intros _; exact EV|]. rewrite S1. split; [lia|split; [lia|intros; exfalso; lia]].
Qed.
Lemma distribute_form N nmax : 1 <= nmax -> let a := 2 * (nmax + 1) / 3 in
  1 <= a /\ 2 * nmax <= 3 * a <= 2 * nmax + 2 /\ exists c rem, distribute N nmax = Some (repeat a c ++ (if rem =? 0 then [] else [rem])) /\ N = c * a + rem /\ 2 * rem <= 3 * a /\ (rem <= nmax \/ nmax mod 3 = 2) /\ (c = 0 \/ 2 * rem >= a).
Proof.
  intros M a. pose proof (Nat.div_mod (2 * (nmax + 1)) 3 ltac:(lia)) as E. pose proof (Nat.mod_upper_bound (2 * (nmax + 1)) 3 ltac:(lia)) as B. fold a in E.
  assert (A : 1 <= a) by lia. split; [exact A|]. split; [lia|]. unfold distribute. fold a. destruct (Nat.eqb_spec a 0); [lia|]. destruct (rdiv_spec N a ltac:(lia)) as (R1 & R2 & R3). set (k := rdiv N a) in *. clearbody k. change (fold_right plus 0) with sum. rewrite sum_repeat.
  assert (LE : (k - 1) * a <= N). { destruct k as [|k]; [cbn; lia|]. replace (S k - 1) with k by lia. replace (S k * a) with (k * a + a) in R2 by ring. set (ka := k * a) in *. clearbody ka. lia. }
  exists (k - 1), (N - (k - 1) * a). split; [|split; [lia|split; [|split]]].
  - destruct (Nat.leb_spec N ((k - 1) * a)).
    + rewrite sum_repeat. replace (N - (k - 1) * a) with 0 by lia. cbn [Nat.eqb]. rewrite app_nil_r. destruct (Nat.eqb_spec ((k - 1) * a) N); [reflexivity|lia].
    + destruct (Nat.eqb_spec (N - (k - 1) * a) 0); [lia|]. rewrite sum_app, sum_repeat. cbn [sum fold_right]. destruct (Nat.eqb_spec ((k - 1) * a + (N - (k - 1) * a + 0)) N); [reflexivity|lia].
  - destruct k as [|k]; [cbn [Nat.sub Nat.mul] in *; lia|]. replace (S k - 1) with k in * by lia. replace (S k * a) with (k * a + a) in R1 by ring. set (ka := k * a) in *. clearbody ka. lia.
  - set (rr := N - (k - 1) * a). assert (T : 2 * rr <= 3 * a).
    { unfold rr. destruct k as [|k]; [cbn [Nat.sub Nat.mul] in *; lia|]. replace (S k - 1) with k in * by lia. replace (S k * a) with (k * a + a) in R1 by ring. set (ka := k * a) in *. clearbody ka. lia. }
    clearbody rr. destruct (le_lt_dec rr nmax) as [|LT]; [now left|right]. pose proof (Nat.div_mod nmax 3 ltac:(lia)) as EN. pose proof (Nat.mod_upper_bound nmax 3 ltac:(lia)) as BN. set (q := nmax / 3) in *. clearbody q. set (r := nmax mod 3) in *. clearbody r. set (z := (2 * (nmax + 1)) mod 3) in *. clearbody z a. lia.
  - destruct k as [|k]; [left; reflexivity|]. right. replace (S k - 1) with k in * by lia. replace (S k * a) with (k * a + a) in R2 by ring. set (ka := k * a) in *. clearbody ka. lia.
Qed.
(* C142 all things are dealt out *)
Theorem C142_sum N nmax : 1 <= nmax -> exists cells, distribute N nmax = Some cells /\ sum cells = N /\ Forall (fun c => 0 < c <= nmax + 1) cells.
Proof.
  intros M. destruct (distribute_form N nmax M) as (A & B & c & rem & E & S & R & _). cbv zeta in *. set (a := 2 * (nmax + 1) / 3) in *. clearbody a. exists (repeat a c ++ (if rem =? 0 then [] else [rem])). split; [exact E|]. split.
  - rewrite sum_app, sum_repeat. destruct (Nat.eqb_spec rem 0); cbn [sum fold_right]; lia.
  - apply Forall_app. split; [apply Forall_forall; intros x X; apply repeat_spec in X; lia|]. destruct (Nat.eqb_spec rem 0); constructor; [lia|constructor].
Qed.
Print Assumptions C142_sum.
(* no cell has more than nmax, if nmax + 1 is not a multiple of 3 *)
Theorem C142_limit_partial N nmax cells : 1 <= nmax -> nmax mod 3 <> 2 -> distribute N nmax = Some cells -> Forall (fun c => c <= nmax) cells.
Proof.
  intros M G H. destruct (distribute_form N nmax M) as (A & B & c & rem & E & S & R & T & _). cbv zeta in *. set (a := 2 * (nmax + 1) / 3) in *. rewrite E in H. injection H as <-. apply Forall_app. split.
  - apply Forall_forall; intros x X; apply repeat_spec in X. destruct (Nat.eq_dec a (nmax + 1)); [|lia]. exfalso. lia.
  - destruct (Nat.eqb_spec rem 0); constructor; [|constructor]. destruct T; [assumption|contradiction].
Qed.
Print Assumptions C142_limit_partial.
(* otherwise the last cell may have one more *)
Theorem C142_limit_refuted : distribute 10 5 = Some [4; 6].
Proof. reflexivity. Qed.
Print Assumptions C142_limit_refuted.
(* about equally: all but the last have the same number, and the last at least half and at most one and a half times it *)
Theorem C142_equal N nmax cells : 1 <= nmax -> distribute N nmax = Some cells -> exists a c last, cells = repeat a c ++ last /\ (last = [] \/ exists r, last = [r] /\ 2 * r <= 3 * a /\ (c = 0 \/ a <= 2 * r)) /\ length last <= 1.
Proof.
  intros M H. destruct (distribute_form N nmax M) as (A & B & c & rem & E & S & R & T & F). cbv zeta in *. set (a := 2 * (nmax + 1) / 3) in *. rewrite E in H. injection H as <-. exists a, c, (if rem =? 0 then [] else [rem]). split; [reflexivity|]. destruct (Nat.eqb_spec rem 0); [split; [now left|cbn; lia]|]. split; [right; exists rem; split; [reflexivity|]; lia|cbn; lia].
Qed.
Print Assumptions C142_equal.
Example C142_ex : distribute 1000 400 = Some [267; 267; 267; 199].
Proof. reflexivity. Qed.
Example C142_ex_hyps : 1 <= 400 /\ 400 mod 3 <> 2.
Proof. split; [lia|discriminate]. Qed.

Open Scope R_scope.
Lemma rfun_spec m x : rounds m x (rfun m x).
Proof.
  destruct m; cbn [rfun rounds].
  - apply floorR_spec.
  - unfold roundR. pose proof (floorR_spec x) as [A B]. set (k := floorR x) in *. destruct (Rlt_dec (x - IZR k) (1/2)); [lra|]. destruct (Rlt_dec (1/2) (x - IZR k)); [rewrite plus_IZR; lra|]. destruct (Z.even k); [lra|rewrite plus_IZR; lra].
  - unfold ceilR. pose proof (floorR_spec (- x)) as [A B]. rewrite opp_IZR. lra.
Qed.
Lemma trunc_whole k : truncR (IZR k) = k.
Proof. unfold truncR. destruct (Rlt_dec (IZR k) 0); [rewrite <- opp_IZR; rewrite (floorR_unique _ (- k)) by lra; lia|apply floorR_unique; lra]. Qed.
(* C143 at least 1, whatever is asked for *)
Theorem C143_positive nside mode m : (1 <= restrict_nside nside mode m)%Z.
Proof. unfold restrict_nside. lia. Qed.
Print Assumptions C143_positive.
(* no restriction but whole numbers *)
Theorem C143_any nside m : exists k, rounds m nside k /\ restrict_nside nside Any m = Z.max 1 k.
Proof. exists (rfun m nside). split; [apply rfun_spec|]. unfold restrict_nside. now rewrite trunc_whole. Qed.
Print Assumptions C143_any.
(* multiples of 32 above the limit, 1 where that would be none *)
Theorem C143_mul32 nside m : 0 < nside -> 1024 < 12 * nside ^ 2 -> exists k, rounds m (nside / 32) k /\ ((1 <= k)%Z /\ restrict_nside nside Mul32 m = (32 * k)%Z \/ k = 0%Z /\ restrict_nside nside Mul32 m = 1%Z).
Proof.
  intros P L. exists (rfun m (nside / 32)). pose proof (rfun_spec m (nside / 32)) as R. split; [exact R|]. unfold restrict_nside. destruct (Rlt_dec 1024 (12 * nside ^ 2)) as [_|N]; [|contradiction]. set (k := rfun m (nside / 32)) in *. rewrite <- mult_IZR, trunc_whole.
  assert (K : (0 <= k)%Z). { assert (-1 < IZR k) by (clearbody k; clear -P R; destruct m; cbn [rounds] in R; lra). apply lt_IZR in H. lia. } destruct (Z.eq_dec k 0); [right|left]; lia.
Qed.
Print Assumptions C143_mul32.
Lemma pow_log2 (k : Z) x : 0 < x -> (IZR k <= log2 x -> powerRZ 2 k <= x) /\ (log2 x <= IZR k -> x <= powerRZ 2 k) /\ (log2 x < IZR k -> x < powerRZ 2 k) /\ (IZR k < log2 x -> powerRZ 2 k < x).
Proof.
  intros X. assert (L2 : 0 < ln 2) by (rewrite <- ln_1; apply ln_increasing; lra). assert (PK : 0 < powerRZ 2 k) by (apply powerRZ_lt; lra).
  assert (LK : ln (powerRZ 2 k) = IZR k * ln 2). { rewrite powerRZ_Rpower by lra. unfold Rpower. apply ln_exp. } assert (LX : ln x = log2 x * ln 2) by (unfold log2; field; lra).
  assert (M : forall a b, a < b -> a * ln 2 < b * ln 2) by (intros; apply Rmult_lt_compat_r; lra).
  assert (I1 : IZR k < log2 x -> powerRZ 2 k < x) by (intros H; apply ln_lt_inv; [exact PK|exact X|]; rewrite LK, LX; now apply M).
  assert (I2 : log2 x < IZR k -> x < powerRZ 2 k) by (intros H; apply ln_lt_inv; [exact X|exact PK|]; rewrite LK, LX; now apply M).
  assert (I3 : log2 x = IZR k -> x = powerRZ 2 k) by (intros H; apply ln_inv; [exact X|exact PK|]; rewrite LK, LX; now rewrite H).
  split; [|split; [|split; assumption]].
  - intros [H|H]; [left; now apply I1|right; symmetry; apply I3; now symmetry].
  - intros [H|H]; [left; now apply I2|right; now apply I3].
Qed.
Lemma pow_pos k : (0 <= k)%Z -> powerRZ 2 k = IZR (2 ^ k).
Proof. intros K. rewrite <- (Z2Nat.id k K) at 1. rewrite <- pow_powerRZ. rewrite <- (Z2Nat.id k K) at 2. now rewrite pow_IZR. Qed.
(* powers of two: the next above, the next below, or one within a factor of the square root of 2 *)
Theorem C143_pow2 nside m : 0 < nside -> exists k, (0 <= k)%Z /\ restrict_nside nside Pow2 m = (2 ^ k)%Z /\
  (m = Ceil -> 1 <= nside -> nside <= IZR (2 ^ k) < 2 * nside) /\ (m = Floor -> 1 <= nside -> IZR (2 ^ k) <= nside < 2 * IZR (2 ^ k)) /\ (m = Round -> 1 <= nside -> nside ^ 2 <= 2 * IZR (2 ^ k) ^ 2 /\ IZR (2 ^ k) ^ 2 <= 2 * nside ^ 2).
Proof.
  intros P. set (k0 := rfun m (log2 nside)). pose proof (rfun_spec m (log2 nside)) as R. fold k0 in R. exists (Z.max 0 k0). split; [lia|]. assert (L2 : 0 < ln 2) by (rewrite <- ln_1; apply ln_increasing; lra).
  assert (K1 : 1 <= nside -> (0 <= k0)%Z).
  { intros N. assert (0 <= log2 nside). { unfold log2. apply Rmult_le_pos; [|left; now apply Rinv_0_lt_compat]. destruct N as [N|N]; [left; rewrite <- ln_1; apply ln_increasing; lra|right; rewrite <- N; now rewrite ln_1]. } assert (-1 < IZR k0) by (clearbody k0; clear -R H; destruct m; cbn [rounds] in R; lra). apply lt_IZR in H0. lia. }
  split; [|split; [|split]].
  - unfold restrict_nside. fold k0. destruct (Z_le_gt_dec 0 k0) as [K|K].
    + rewrite pow_pos by exact K. rewrite trunc_whole. rewrite Z.max_r by lia. rewrite Z.max_r; [reflexivity|]. pose proof (Z.pow_pos_nonneg 2 k0 ltac:(lia) K). lia.
    + rewrite Z.max_l with (n := 0%Z) by lia. cbn [Z.pow Z.pow_pos]. assert (X : 0 < powerRZ 2 k0 < 1). { split; [apply powerRZ_lt; lra|]. destruct (pow_log2 k0 1 ltac:(lra)) as (_ & _ & _ & H). apply H. unfold log2. rewrite ln_1. unfold Rdiv. rewrite Rmult_0_l. apply IZR_lt. lia. }
      unfold truncR. destruct (Rlt_dec (powerRZ 2 k0) 0); [lra|]. rewrite (floorR_unique _ 0) by lra. reflexivity.
  - intros -> N. specialize (K1 N). rewrite Z.max_r by exact K1. cbn [rounds] in R. destruct (pow_log2 k0 nside P) as (_ & A & _ & _). destruct (pow_log2 (k0 - 1) nside P) as (_ & _ & _ & B). rewrite <- pow_pos by exact K1. split; [apply A; lra|]. rewrite minus_IZR in B. specialize (B ltac:(lra)). unfold Zminus in B. rewrite powerRZ_add in B by lra. change (- (1))%Z with (-1)%Z in B. replace (powerRZ 2 (-1)) with (/ 2) in B by (unfold powerRZ; rewrite Pos2Nat.inj_1, pow_1; reflexivity).
    lra.
  - intros -> N. specialize (K1 N). rewrite Z.max_r by exact K1. cbn [rounds] in R. destruct (pow_log2 k0 nside P) as (A & _ & _ & _). destruct (pow_log2 (k0 + 1) nside P) as (_ & _ & B & _). rewrite <- pow_pos by exact K1. split; [apply A; lra|]. rewrite plus_IZR in B. specialize (B ltac:(lra)). rewrite powerRZ_add in B by lra. rewrite powerRZ_1 in B. lra.
  - intros -> N. specialize (K1 N). rewrite Z.max_r by exact K1. cbn [rounds] in R. rewrite <- pow_pos by exact K1. assert (N2 : 0 < nside ^ 2) by (apply pow_lt; exact P). assert (LL : log2 (nside ^ 2) = 2 * log2 nside). { unfold log2. rewrite ln_pow by exact P. simpl INR. field. lra. }
    assert (PW : powerRZ 2 k0 ^ 2 = powerRZ 2 (k0 + k0)). { rewrite powerRZ_add by lra. ring. } rewrite PW. destruct (pow_log2 (k0 + k0 + 1) (nside ^ 2) N2) as (_ & A & _ & _). destruct (pow_log2 (k0 + k0 - 1) (nside ^ 2) N2) as (B & _ & _ & _). rewrite LL, plus_IZR, plus_IZR in A. rewrite LL, minus_IZR, plus_IZR in B. specialize (A ltac:(lra)). specialize (B ltac:(lra)).
    rewrite powerRZ_add, powerRZ_1 in A by lra. unfold Zminus in B. rewrite powerRZ_add in B by lra. change (- (1))%Z with (-1)%Z in B. replace (powerRZ 2 (-1)) with (/ 2) in B by (unfold powerRZ; rewrite Pos2Nat.inj_1, pow_1; reflexivity). lra.
Qed.
Print Assumptions C143_pow2.
(* below the limit the rounding that was asked for is not used: the fraction is cut off *)
Theorem C143_small_refuted : ~ rounds Ceil (27/10) (restrict_nside (27/10) Mul32 Ceil) /\ restrict_nside (27/10) Mul32 Ceil = 2%Z.
Proof.
  assert (E : restrict_nside (27/10) Mul32 Ceil = 2%Z). { unfold restrict_nside. destruct (Rlt_dec 1024 (12 * (27/10) ^ 2)) as [H|H]; [exfalso; simpl in H; lra|]. unfold truncR. destruct (Rlt_dec (27/10) 0); [lra|]. rewrite (floorR_unique _ 2) by lra. reflexivity. }
  split; [|exact E]. rewrite E. cbn [rounds]. lra.
Qed.
Print Assumptions C143_small_refuted.
Example C143_ex : restrict_nside 100 Mul32 Ceil = 128%Z.
Proof.
  destruct (C143_mul32 100 Ceil ltac:(lra) ltac:(simpl; lra)) as (k & R & C). cbn [rounds] in R. assert (k = 4%Z). { assert (3 < IZR k < 5) as [A B] by lra. apply lt_IZR in A, B. lia. } subst k. destruct C as [[_ ->]|[C _]]; [reflexivity|discriminate].
Qed.
Example C143_ex_hyps : 0 < 100 /\ 1024 < 12 * 100 ^ 2 /\ 1 <= 100.
Proof. simpl. lra. Qed.
