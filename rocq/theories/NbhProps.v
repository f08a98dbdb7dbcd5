From Coq Require Import Reals ZArith Lia Lra Psatz.
From Verif Require Import BldSpec BldModel BldLemmas NbhSpec NbhModel.
Open Scope R_scope.
Ltac Zify.zify_post_hook ::= idtac.

(* latitudes *)
Lemma within_lat t u t' u' r : -PI/2 <= t <= PI/2 -> -PI/2 <= t' <= PI/2 -> 0 <= r <= PI -> within t u t' u' r -> Rabs (t' - t) <= r.
Proof.
  intros T T' Rr H. unfold within in H. pose proof PI_RGT_0.
  assert (C : 0 <= cos t) by (apply cos_ge_0; lra). assert (C' : 0 <= cos t') by (apply cos_ge_0; lra).
  pose proof (COS_bound (u' - u)) as [_ B].
  assert (D : cos r <= cos (Rabs (t' - t))).
  { replace (cos (Rabs (t' - t))) with (cos (t - t')).
    - rewrite cos_minus. assert (cos t * cos t' * cos (u' - u) <= cos t * cos t' * 1) by (apply Rmult_le_compat_l; [now apply Rmult_le_pos|exact B]). lra.
    - unfold Rabs. destruct (Rcase_abs _); [f_equal; ring|]. rewrite <- cos_neg. f_equal. ring. }
  destruct (Rle_or_lt (Rabs (t' - t)) r) as [|L]; [assumption|]. exfalso.
  assert (cos (Rabs (t' - t)) < cos r); [|lra]. pose proof (Rabs_pos (t' - t)). assert (Rabs (t' - t) <= PI) by (apply Rabs_le; lra). apply cos_decreasing_1; lra.
Qed.

(* longitudes *)
Lemma asin_lim x : -1 < x < 1 -> derivable_pt_lim asin x (1 / sqrt (1 - x * x)).
Proof.
  intros H. pose proof (derive_pt_asin x H) as E. apply derive_pt_eq_1 in E. unfold Rsqr in *. exact E.
Qed.
Lemma sqrt_lower a b : 0 <= a -> a * a <= b -> a <= sqrt b.
Proof. intros A B. rewrite <- (sqrt_square a A). now apply sqrt_le_1_alt. Qed.

Lemma asin_bound_neigh d r : 0 <= d -> 0 < r -> d + r < PI / 2 -> asin (sin r / cos d) <= r / cos (d + r).
Proof.
  intros Hd Hr S. pose proof PI_RGT_0.
  assert (Cd : 0 < cos d) by (apply cos_gt_0; lra). assert (Cr : 0 < cos (d + r)) by (apply cos_gt_0; lra).
  assert (L : forall s, 0 <= s <= r -> 0 <= sin s / cos d < 1).
  { intros s Hs. split.
    - apply Rmult_le_pos; [apply sin_ge_0; lra|]. apply Rlt_le, Rinv_0_lt_compat. exact Cd.
    - apply Rmult_lt_reg_r with (cos d); [exact Cd|]. unfold Rdiv. rewrite Rmult_assoc, Rinv_l, Rmult_1_l, Rmult_1_r by lra.
      rewrite <- sin_shift. apply sin_increasing_1; lra. }
  set (F := fun s => asin (sin s / cos d)).
  assert (D : forall s, 0 <= s <= r -> derivable_pt_lim F s (1 / sqrt (1 - sin s / cos d * (sin s / cos d)) * (cos s / cos d))).
  { intros s Hs. unfold F. apply (derivable_pt_lim_comp (fun s => sin s / cos d) asin).
    - replace (fun s => sin s / cos d) with (mult_real_fct (/ cos d) sin).
      + replace (cos s / cos d) with (/ cos d * cos s) by (unfold Rdiv; ring). apply derivable_pt_lim_scal, derivable_pt_lim_sin.
      + unfold mult_real_fct. apply FunctionalExtensionality.functional_extensionality. intros z. unfold Rdiv. ring.
    - apply asin_lim. specialize (L s Hs). lra. }
  destruct (MVT_cor2 F (fun s => 1 / sqrt (1 - sin s / cos d * (sin s / cos d)) * (cos s / cos d)) 0 r Hr D) as (c & E & C).
  assert (F0 : F 0 = 0) by (unfold F; rewrite sin_0; unfold Rdiv; rewrite Rmult_0_l; apply asin_0).
  rewrite F0, !Rminus_0_r in E. change (asin (sin r / cos d)) with (F r). rewrite E. unfold Rdiv at 4. rewrite Rmult_comm. apply Rmult_le_compat_l; [lra|].
  set (v := 1 - sin c / cos d * (sin c / cos d)).
  assert (V : (cos (d + r) / cos d) * (cos (d + r) / cos d) <= v).
  { assert (cos (d + r) * cos (d + r) <= v * (cos d * cos d)).
    { replace (v * (cos d * cos d)) with (cos (d + c) * cos (d - c)).
      - assert (A1 : cos (d + r) <= cos (d + c)) by (apply cos_decr_1; lra).
        assert (A2 : cos (d + r) <= cos (d - c)).
        { destruct (Rle_or_lt c d); [apply cos_decr_1; lra|]. rewrite <- (cos_neg (d - c)). apply cos_decr_1; lra. }
        apply Rmult_le_compat; lra.
      - unfold v. rewrite cos_plus, cos_minus. pose proof (sin2_cos2 d) as P1. pose proof (sin2_cos2 c) as P2. unfold Rsqr in P1, P2.
        transitivity (cos d * cos d - sin c * sin c); [|field; lra].
        replace (sin c * sin c) with (1 - cos c * cos c) by lra. replace ((cos d * cos c - sin d * sin c) * (cos d * cos c + sin d * sin c)) with (cos d * cos d * (cos c * cos c) - sin d * sin d * (sin c * sin c)) by ring.
        replace (sin d * sin d) with (1 - cos d * cos d) by lra. replace (sin c * sin c) with (1 - cos c * cos c) by lra. ring. }
    apply Rmult_le_reg_r with (cos d * cos d); [now apply Rmult_lt_0_compat|].
    replace (cos (d + r) / cos d * (cos (d + r) / cos d) * (cos d * cos d)) with (cos (d + r) * cos (d + r)) by (field; lra). assumption. }
  assert (Q : cos (d + r) / cos d <= sqrt v) by (apply sqrt_lower; [apply Rlt_le, Rdiv_lt_0_compat; assumption|exact V]).
  assert (Q0 : 0 < cos (d + r) / cos d) by (apply Rdiv_lt_0_compat; assumption).
  assert (Cc : 0 <= cos c <= 1) by (split; [apply cos_ge_0; lra|apply COS_bound]).
  apply Rle_trans with (1 / (cos (d + r) / cos d) * (cos c / cos d)).
  - apply Rmult_le_compat_r; [apply Rmult_le_pos; [lra|apply Rlt_le, Rinv_0_lt_compat; exact Cd]|]. unfold Rdiv at 1 2. rewrite !Rmult_1_l. apply Rinv_le_contravar; assumption.
  - replace (1 / (cos (d + r) / cos d) * (cos c / cos d)) with (/ cos (d + r) * cos c) by (field; lra). rewrite <- (Rmult_1_r (/ cos (d + r))) at 2. apply Rmult_le_compat_l; [apply Rlt_le, Rinv_0_lt_compat; exact Cr|lra].
Qed.

Lemma lon_bound d t' x r : 0 <= d -> 0 < r -> d + r < PI / 2 -> 0 <= x <= PI ->
  -PI/2 <= t' <= PI/2 -> cos r <= sin d * sin t' + cos d * cos t' * cos x -> x <= r / cos (d + r).
Proof.
  intros Hd Hr S Hx T H. pose proof PI_RGT_0.
  assert (Cd : 0 < cos d) by (apply cos_gt_0; lra). assert (C' : 0 <= cos t') by (apply cos_ge_0; lra). assert (Cr : 0 < cos r) by (apply cos_gt_0; lra).
  assert (Sd : 0 <= sin d) by (apply sin_ge_0; lra).
  assert (X : x < PI / 2).
  { destruct (Rlt_or_le x (PI / 2)) as [|L]; [assumption|]. exfalso. assert (cos x <= 0) by (rewrite <- cos_PI2; apply cos_decr_1; lra).
    assert (cos d * cos t' * cos x <= 0) by (assert (0 <= cos d * cos t') by (apply Rmult_le_pos; lra); nra).
    assert (sin d * sin t' <= sin d) by (pose proof (SIN_bound t'); nra). assert (sin d < cos r); [|lra].
    rewrite <- (cos_shift d). apply cos_decreasing_1; lra. }
  assert (Sx : 0 <= sin x) by (apply sin_ge_0; lra). assert (Sr : 0 <= sin r) by (apply sin_ge_0; lra).
  assert (K : cos d * sin x <= sin r).
  { apply Rsqr_incr_0; [|apply Rmult_le_pos; lra|exact Sr]. unfold Rsqr.
    set (A := sin d * sin t' + cos d * cos t' * cos x) in *. pose proof (sin2_cos2 d) as P1. pose proof (sin2_cos2 t') as P2. pose proof (sin2_cos2 x) as P3. pose proof (sin2_cos2 r) as P4. unfold Rsqr in *.
    assert (A2 : cos r * cos r <= A * A) by (apply Rmult_le_compat; lra).
    assert (CS : A * A <= sin d * sin d + cos d * cos x * (cos d * cos x)).
    { pose proof (Rle_0_sqr (sin d * cos t' - cos d * cos x * sin t')) as Q. unfold Rsqr in Q. unfold A.
      replace (sin d * sin d + cos d * cos x * (cos d * cos x)) with ((sin d * sin d + cos d * cos x * (cos d * cos x)) * (sin t' * sin t' + cos t' * cos t')) by (rewrite P2; ring). lra. }
    replace (cos d * cos x * (cos d * cos x)) with (cos d * cos d * (cos x * cos x)) in CS by ring. replace (cos x * cos x) with (1 - sin x * sin x) in CS by lra. lra. }
  assert (B : sin x <= sin r / cos d). { apply Rmult_le_reg_r with (cos d); [exact Cd|]. unfold Rdiv. rewrite Rmult_assoc, Rinv_l by lra. lra. }
  apply Rle_trans with (asin (sin r / cos d)); [|now apply asin_bound_neigh].
  assert (R1 : sin r / cos d < 1).
  { apply Rmult_lt_reg_r with (cos d); [exact Cd|]. unfold Rdiv. rewrite Rmult_assoc, Rinv_l, Rmult_1_l, Rmult_1_r by lra. rewrite <- sin_shift. apply sin_increasing_1; lra. }
  destruct (Rle_or_lt x (asin (sin r / cos d))) as [|L]; [assumption|]. exfalso.
  pose proof (asin_bound (sin r / cos d)). assert (sin (asin (sin r / cos d)) < sin x) by (apply sin_increasing_1; lra).
  rewrite sin_asin in H2 by lra. lra.
Qed.

Lemma within_lon t u t' u' r D : -PI/2 <= t <= PI/2 -> -PI/2 <= t' <= PI/2 -> 0 < r -> Rabs t + r < PI / 2 ->
  within t u t' u' r -> 0 <= D <= PI -> cos D = cos (u' - u) -> D <= r / cos (Rabs t + r).
Proof.
  intros T T' Hr S H HD E. unfold within in H. rewrite <- E in H. unfold Rabs in *. destruct (Rcase_abs t) as [N|N].
  - apply (lon_bound (- t) (- t')); try lra. rewrite !sin_neg, !cos_neg. lra.
  - apply (lon_bound t t'); lra.
Qed.
(* an angle can be brought to within half a turn *)
Lemma near_turn x : exists k : Z, Rabs (x + 2 * PI * IZR k) <= PI.
Proof.
  pose proof PI_RGT_0. exists (- floorR (x / (2 * PI) + 1/2))%Z. pose proof (floorR_spec (x / (2 * PI) + 1/2)) as F. set (f := floorR _) in *.
  rewrite opp_IZR. apply Rabs_le. assert (E : x = 2 * PI * (x / (2 * PI))) by (field; lra). set (q := x / (2 * PI)) in *. rewrite E. split; nra.
Qed.
Lemma cos_turns x k : cos (x + 2 * PI * IZR k) = cos x.
Proof.
  destruct (Z_le_gt_dec 0 k) as [P|N].
  - replace (2 * PI * IZR k) with (2 * INR (Z.to_nat k) * PI) by (rewrite INR_IZR_INZ, Z2Nat.id by assumption; ring). apply cos_period.
  - rewrite <- (cos_period _ (Z.to_nat (- k))). f_equal. rewrite INR_IZR_INZ, Z2Nat.id by lia. rewrite opp_IZR. ring.
Qed.
Lemma rabs_bounds x a : Rabs x <= a -> - a <= x <= a.
Proof. unfold Rabs. destruct (Rcase_abs x); lra. Qed.
Lemma round_lower x (z : Z) : x <= IZR z -> (roundR x <= z)%Z.
Proof.
  intros H. pose proof (roundR_spec x) as Q. apply rabs_bounds in Q. apply Z.lt_succ_r. apply lt_IZR. rewrite succ_IZR. lra.
Qed.
Lemma round_upper x (z : Z) : IZR z <= x -> (z <= roundR x)%Z.
Proof.
  intros H. pose proof (roundR_spec x) as Q. apply rabs_bounds in Q. apply Z.lt_succ_r. apply lt_IZR. rewrite succ_IZR. lra.
Qed.
Lemma round_between (z : Z) p q : Rmin p q <= IZR z <= Rmax p q ->
  (Z.min (roundR p) (roundR q) <= z < Z.max (roundR p) (roundR q) + 1)%Z.
Proof.
  unfold Rmin, Rmax. destruct (Rle_dec p q); intros [A B]; apply round_lower in A; apply round_upper in B; lia.
Qed.
(* positions between two others have pixel coordinates between theirs *)
Lemma between_scale a b c s o : s <> 0 -> a <= c <= b -> Rmin (a / s + o) (b / s + o) <= c / s + o <= Rmax (a / s + o) (b / s + o).
Proof.
  intros S H. destruct (Rlt_or_le 0 s) as [P|N].
  - assert (0 < / s) by now apply Rinv_0_lt_compat. unfold Rdiv.
    assert (a * / s <= c * / s) by (apply Rmult_le_compat_r; lra). assert (c * / s <= b * / s) by (apply Rmult_le_compat_r; lra).
    split; [eapply Rle_trans; [apply Rmin_l|lra]|eapply Rle_trans; [|apply Rmax_r]; lra].
  - assert (/ s < 0) by (apply Rinv_lt_0_compat; lra). unfold Rdiv.
    assert (c * / s <= a * / s) by nra. assert (b * / s <= c * / s) by nra.
    split; [eapply Rle_trans; [apply Rmin_r|lra]|eapply Rle_trans; [|apply Rmax_l]; lra].
Qed.
Lemma degrees_le a b : a <= b -> degrees a <= degrees b.
Proof. intros H. unfold degrees. apply Rmult_le_compat_r; [|exact H]. pose proof PI_RGT_0. apply Rlt_le, Rdiv_lt_0_compat; lra. Qed.

(* the width in right ascension that the code chooses *)
Lemma width_choice dec r : -PI/2 <= dec <= PI/2 -> 0 < r ->
  let m := Rmin (cos (Rmax (dec - r) (- PI / 2))) (cos (Rmin (dec + r) (PI / 2))) in
  (Rabs dec + r < PI / 2 /\ m = cos (Rabs dec + r) /\ m <> 0) \/ (PI / 2 <= Rabs dec + r /\ m = 0).
Proof.
  intros D Hr m. pose proof PI_RGT_0. destruct (Rlt_or_le (Rabs dec + r) (PI / 2)) as [L|L]; [left|right]; (split; [exact L|]).
  - assert (C : 0 < cos (Rabs dec + r)). { apply cos_gt_0; [|lra]. pose proof (Rabs_pos dec). lra. }
    assert (E : m = cos (Rabs dec + r)); [|split; [exact E|lra]].
    unfold m. rewrite (Rmax_left (dec - r)), (Rmin_left (dec + r)) by (unfold Rabs in L; destruct (Rcase_abs dec); lra).
    unfold Rabs in *. destruct (Rcase_abs dec) as [N|N].
    + rewrite <- (cos_neg (dec - r)). replace (- (dec - r)) with (- dec + r) by ring. apply Rmin_left.
      destruct (Rle_or_lt 0 (dec + r)); [apply cos_decr_1; lra|]. rewrite <- (cos_neg (dec + r)). apply cos_decr_1; lra.
    + apply Rmin_right. destruct (Rle_or_lt 0 (dec - r)); [apply cos_decr_1; lra|]. rewrite <- (cos_neg (dec - r)). apply cos_decr_1; lra.
  - assert (0 <= cos (Rmax (dec - r) (- PI / 2))). { apply cos_ge_0; [pose proof (Rmax_r (dec - r) (-PI/2)); lra|]. apply Rmax_lub; lra. }
    assert (0 <= cos (Rmin (dec + r) (PI / 2))). { apply cos_ge_0; [|pose proof (Rmin_r (dec + r) (PI/2)); lra]. apply Rmin_glb; lra. }
    unfold m. unfold Rabs in L. destruct (Rcase_abs dec) as [N|N].
    + rewrite Rmax_right in * by lra. replace (- PI / 2) with (- (PI / 2)) in * by field. rewrite cos_neg, cos_PI2 in *. now apply Rmin_left.
    + rewrite (Rmin_right (dec + r)) in * by lra. rewrite cos_PI2 in *. now apply Rmin_right.
Qed.

Lemma opened turn w dec ra r y0 x0 y1 x1 : rsys w = Car -> -PI/2 <= dec <= PI/2 -> 0 < r ->
  neighborhood_pixbox turn w dec ra r = Some ((y0, x0), (y1, x1)) ->
  exists dra, 0 <= dra <= PI /\ (Rabs dec + r < PI / 2 -> dra = Rmin (r / cos (Rabs dec + r)) PI) /\ (PI / 2 <= Rabs dec + r -> dra = PI) /\
    let Y d := degrees d / rdy w + (- rvy w / rdy w + rpy w - 1) in
    let X a := degrees a / rdx w + (- rvx w / rdx w + rpx w - 1 + 360 / rdx w * IZR turn) in
    y0 = Z.min (roundR (Y (Rmax (dec - r) (- PI / 2)))) (roundR (Y (Rmin (dec + r) (PI / 2)))) /\
    y1 = Z.add (Z.max (roundR (Y (Rmax (dec - r) (- PI / 2)))) (roundR (Y (Rmin (dec + r) (PI / 2))))) 1 /\
    x0 = Z.min (roundR (X (ra - dra))) (roundR (X (ra + dra))) /\ x1 = Z.add (Z.max (roundR (X (ra - dra))) (roundR (X (ra + dra)))) 1.
Proof.
  intros C D Hr H. unfold neighborhood_pixbox, skybox2pixbox in H. rewrite C in H. pose proof PI_RGT_0 as HP.
  set (m := Rmin (cos (Rmax (dec - r) (- PI / 2))) (cos (Rmin (dec + r) (PI / 2)))) in *.
  assert (R0 : r <> 0) by lra.
  assert (EY : forall d, (degrees d - rvy w) / rdy w + rpy w - 1 = degrees d / rdy w + (- rvy w / rdy w + rpy w - 1)) by (intros; unfold Rdiv; ring).
  assert (EX : forall a, (degrees a - rvx w) / rdx w + rpx w - 1 + 360 / rdx w * IZR turn = degrees a / rdx w + (- rvx w / rdx w + rpx w - 1 + 360 / rdx w * IZR turn)) by (intros; unfold Rdiv; ring).
  destruct (width_choice dec r D Hr) as [(L & E & Z0)|(L & E)]; fold m in E.
  - fold m in Z0. destruct (Req_EM_T m 0) as [?|_]; [contradiction|]. exists (Rmin (r * (1 / m)) PI).
    assert (M : 0 < m). { rewrite E. apply cos_gt_0; [|lra]. pose proof (Rabs_pos dec). lra. }
    split; [split; [apply Rmin_glb; [|lra]|apply Rmin_r]|]. { apply Rmult_le_pos; [lra|]. apply Rlt_le, Rdiv_lt_0_compat; lra. }
    split; [intros _; rewrite E; f_equal; unfold Rdiv; ring|]. split; [lra|]. cbn zeta. rewrite !EY, !EX in H. injection H as <- <- <- <-. repeat split.
  - destruct (Req_EM_T m 0) as [_|?]; [|contradiction]. destruct (Req_EM_T r 0) as [?|_]; [contradiction|]. exists PI.
    split; [lra|]. split; [lra|]. split; [reflexivity|]. cbn zeta. rewrite !EY, !EX in H. injection H as <- <- <- <-. repeat split.
Qed.

(* C126 every pixel whose centre is within the distance is in the box, the column up to whole turns around the sky *)
Theorem C126_covers turn w n dec ra r y0 x0 y1 x1 :
  rsys w = Car -> rdy w <> 0 -> rdx w <> 0 -> 360 / rdx w = IZR n ->
  -PI/2 <= dec <= PI/2 -> 0 < r <= PI -> neighborhood_pixbox turn w dec ra r = Some ((y0, x0), (y1, x1)) ->
  forall (y x : Z) t u, -PI/2 <= t <= PI/2 -> at_pixel w (IZR y) (IZR x) (degrees t) (degrees u) -> within dec ra t u r ->
  (y0 <= y < y1)%Z /\ exists j : Z, (x0 <= x + j * n < x1)%Z.
Proof.
  intros C NY NX N D Hr H y x t u T (P1 & k & P2 & _) W. pose proof PI_RGT_0 as HP.
  destruct (opened turn w dec ra r y0 x0 y1 x1 C D ltac:(lra) H) as (dra & B & E1 & E2 & F). cbn zeta in F. destruct F as (-> & -> & -> & ->).
  pose proof (within_lat dec ra t u r D T ltac:(lra) W) as La. apply rabs_bounds in La.
  rewrite C in P1. cbn [height] in P1. split.
  - apply round_between. replace (IZR y) with (degrees t / rdy w + (- rvy w / rdy w + rpy w - 1)) by (rewrite P1; field; exact NY).
    apply between_scale; [exact NY|]. split; apply degrees_le; [apply Rmax_lub|apply Rmin_glb]; lra.
  - destruct (near_turn (u - ra)) as (q & Q). set (v := u - ra + 2 * PI * IZR q) in *.
    assert (V : Rabs v <= dra).
    { destruct (Rlt_or_le (Rabs dec + r) (PI / 2)) as [L|L].
      - rewrite (E1 L). apply Rmin_glb; [|exact Q]. apply (within_lon dec ra t u); try lra; try assumption.
        + split; [apply Rabs_pos|exact Q].
        + unfold Rabs. destruct (Rcase_abs v); [rewrite cos_neg|]; unfold v; apply cos_turns.
      - rewrite (E2 L). exact Q. }
    apply rabs_bounds in V. exists (q - k + turn)%Z. apply round_between.
    replace (IZR (x + (q - k + turn) * n)) with (degrees (ra + v) / rdx w + (- rvx w / rdx w + rpx w - 1 + 360 / rdx w * IZR turn)).
    + apply between_scale; [exact NX|]. split; apply degrees_le; lra.
    + rewrite plus_IZR, mult_IZR, plus_IZR, minus_IZR, <- N.
      assert (degrees (ra + v) = degrees u + 360 * IZR q) as -> by (unfold v, degrees; field; lra).
      replace (IZR x) with ((degrees u + 360 * IZR k - rvx w) / rdx w + rpx w - 1) by (rewrite P2; field; exact NX). field. exact NX.
Qed.
Print Assumptions C126_covers.

Lemma round_within (z : Z) p q c : (Z.min (roundR p) (roundR q) <= z < Z.max (roundR p) (roundR q) + 1)%Z ->
  (p <= c <= q \/ q <= c <= p) -> Rabs (IZR z - c) <= Rmax (Rabs (p - c)) (Rabs (q - c)) + 1/2.
Proof.
  intros H B. pose proof (roundR_spec p) as P. pose proof (roundR_spec q) as Q. apply rabs_bounds in P. apply rabs_bounds in Q.
  pose proof (Rmax_l (Rabs (p - c)) (Rabs (q - c))) as M1. pose proof (Rmax_r (Rabs (p - c)) (Rabs (q - c))) as M2. apply rabs_bounds in M1. apply rabs_bounds in M2.
  assert (IZR (Z.min (roundR p) (roundR q)) <= IZR z) by (apply IZR_le; lia). assert (IZR z <= IZR (Z.max (roundR p) (roundR q))) by (apply IZR_le; lia).
  apply Rabs_le. destruct (Z.min_spec (roundR p) (roundR q)) as [[_ E]|[_ E]]; rewrite E in *; destruct (Z.max_spec (roundR p) (roundR q)) as [[_ F]|[_ F]]; rewrite F in *; split; lra.
Qed.
Lemma scaled_between a b c s o : s <> 0 -> a <= c <= b -> (a / s + o <= c / s + o <= b / s + o) \/ (b / s + o <= c / s + o <= a / s + o).
Proof.
  intros S H. unfold Rdiv. destruct (Rlt_or_le 0 s) as [P|N].
  - left. assert (0 < / s) by now apply Rinv_0_lt_compat. split; apply Rplus_le_compat_r, Rmult_le_compat_r; lra.
  - right. assert (/ s < 0) by (apply Rinv_lt_0_compat; lra). split; apply Rplus_le_compat_r; nra.
Qed.
Lemma pixel_dist a c s o z : s <> 0 -> Rabs (a / s + o - (c / s + o)) * Rabs s = Rabs (a - c) /\ Rabs (z - (c / s + o)) * Rabs s = Rabs ((z - o) * s - c).
Proof. intros S. rewrite <- !Rabs_mult. split; f_equal; field; exact S. Qed.
Lemma range_within (z : Z) a b c s o e : s <> 0 -> a <= c <= b -> c - a <= e -> b - c <= e ->
  (Z.min (roundR (a / s + o)) (roundR (b / s + o)) <= z < Z.max (roundR (a / s + o)) (roundR (b / s + o)) + 1)%Z ->
  Rabs ((IZR z - o) * s - c) <= e + Rabs s / 2.
Proof.
  intros S H A B Hz. destruct (pixel_dist a c s o (IZR z) S) as [Ea Ez]. destruct (pixel_dist b c s o (IZR z) S) as [Eb _]. rewrite <- Ez.
  pose proof (round_within z _ _ (c / s + o) Hz (scaled_between a b c s o S H)) as Q.
  assert (P : 0 <= Rabs s) by apply Rabs_pos. apply (Rmult_le_compat_r _ _ _ P) in Q. rewrite Rmult_plus_distr_r in Q. eapply Rle_trans; [exact Q|].
  replace (Rabs s / 2) with (1 / 2 * Rabs s) by field. apply Rplus_le_compat_r. unfold Rmax. destruct (Rle_dec _ _); [rewrite Eb|rewrite Ea]; apply Rabs_le; lra.
Qed.

(* the box is no larger than it has to be: rows are within the distance and half a pixel, columns within the largest difference in longitude that the
   nearest to the poles of these declinations has there, and half a pixel *)
Theorem C126_rows turn w dec ra r y0 x0 y1 x1 : rsys w = Car -> rdy w <> 0 -> -PI/2 <= dec <= PI/2 -> 0 < r ->
  neighborhood_pixbox turn w dec ra r = Some ((y0, x0), (y1, x1)) ->
  forall (y : Z) x t u, (y0 <= y < y1)%Z -> lies w (IZR y) x t u -> Rabs (t - degrees dec) <= degrees r + Rabs (rdy w) / 2.
Proof.
  intros C NY D Hr H y x t u Hy (L & _). destruct (opened turn w dec ra r y0 x0 y1 x1 C D Hr H) as (dra & B & _ & _ & F). cbn zeta in F. destruct F as (-> & -> & _).
  rewrite C in L. cbn [height] in L. pose proof PI_RGT_0.
  replace t with ((IZR y - (- rvy w / rdy w + rpy w - 1)) * rdy w) by (rewrite L; field; exact NY).
  assert (E : forall a b, degrees a - degrees b = degrees (a - b)) by (intros; unfold degrees; ring).
  refine (range_within y _ _ (degrees dec) (rdy w) _ (degrees r) NY _ _ _ Hy).
  - split; apply degrees_le; [apply Rmax_lub|apply Rmin_glb]; lra.
  - rewrite E. apply degrees_le. pose proof (Rmax_l (dec - r) (-PI/2)). lra.
  - rewrite E. apply degrees_le. pose proof (Rmin_l (dec + r) (PI/2)). lra.
Qed.
Print Assumptions C126_rows.
Theorem C126_columns turn w dec ra r y0 x0 y1 x1 : rsys w = Car -> rdx w <> 0 -> -PI/2 <= dec <= PI/2 -> 0 < r ->
  neighborhood_pixbox turn w dec ra r = Some ((y0, x0), (y1, x1)) ->
  forall y (x : Z) t u, (x0 <= x < x1)%Z -> lies w y (IZR x) t u ->
  exists k : Z, Rabs (u + 360 * IZR k - degrees ra) <= 180 + Rabs (rdx w) / 2 /\
    (Rabs dec + r < PI / 2 -> Rabs (u + 360 * IZR k - degrees ra) <= degrees (r / cos (Rabs dec + r)) + Rabs (rdx w) / 2).
Proof.
  intros C NX D Hr H y x t u Hx (_ & L). destruct (opened turn w dec ra r y0 x0 y1 x1 C D Hr H) as (dra & B & E1 & _ & F). cbn zeta in F. destruct F as (_ & _ & -> & ->).
  pose proof PI_RGT_0. exists (- turn)%Z.
  assert (E : forall a b, degrees a - degrees b = degrees (a - b)) by (intros; unfold degrees; ring).
  assert (G : Rabs (u + 360 * IZR (- turn) - degrees ra) <= degrees dra + Rabs (rdx w) / 2).
  { replace (u + 360 * IZR (- turn)) with ((IZR x - (- rvx w / rdx w + rpx w - 1 + 360 / rdx w * IZR turn)) * rdx w) by (rewrite L, opp_IZR; field; exact NX).
    refine (range_within x _ _ (degrees ra) (rdx w) _ (degrees dra) NX _ _ _ Hx).
    - split; apply degrees_le; lra.
    - rewrite E. apply degrees_le. lra.
    - rewrite E. apply degrees_le. lra. }
  split.
  - eapply Rle_trans; [exact G|]. apply Rplus_le_compat_r. replace 180 with (degrees PI) by (unfold degrees; field; lra). apply degrees_le. lra.
  - intros S. eapply Rle_trans; [exact G|]. apply Rplus_le_compat_r, degrees_le. rewrite (E1 S). apply Rmin_l.
Qed.
Print Assumptions C126_columns.
Theorem C126_defined turn w dec ra r : rsys w <> Plain -> 0 < r -> neighborhood_pixbox turn w dec ra r <> None.
Proof.
  intros C Hr. unfold neighborhood_pixbox, skybox2pixbox. destruct (rsys w); try contradiction; destruct (Req_EM_T (Rmin _ _) 0); try discriminate; destruct (Req_EM_T r 0); try lra; discriminate.
Qed.
Print Assumptions C126_defined.
(* plain coordinates always raise, and the pole with a radius of zero gives nan *)
Theorem C126_plain_refuted turn w dec ra r : rsys w = Plain -> neighborhood_pixbox turn w dec ra r = None.
Proof. intros C. unfold neighborhood_pixbox. now rewrite C. Qed.
Print Assumptions C126_plain_refuted.
Theorem C126_pole_refuted turn w ra : rsys w = Car -> neighborhood_pixbox turn w (PI / 2) ra 0 = None.
Proof.
  intros C. unfold neighborhood_pixbox. rewrite C. pose proof PI_RGT_0. rewrite Rmax_left, (Rmin_left (PI / 2 + 0)) by lra.
  rewrite Rplus_0_r, Rminus_0_r, cos_PI2, Rmin_left by lra. destruct (Req_EM_T 0 0) as [_|?]; [reflexivity|lra].
Qed.
Print Assumptions C126_pole_refuted.
(* a half degree map; a circle of 30 degrees around (60 degrees, 10 degrees) goes over the pole: the box has every column. The pixel at (70,200) is within it *)
Example C126_ex_hyps : let w := RWcs Car 0 0 1 (-1/2) 0 1 (1/2) in
  rdy w <> 0 /\ rdx w <> 0 /\ 360 / rdx w = IZR (-720) /\ at_pixel w (IZR 140) (IZR (-20)) (degrees (7 * (PI / 18))) (degrees (PI / 18)) /\ within (PI / 3) (PI / 18) (7 * (PI / 18)) (PI / 18) (PI / 6) /\
  exists box, neighborhood_pixbox 0 w (PI / 3) (PI / 18) (PI / 6) = Some box.
Proof.
  intros w. pose proof PI_RGT_0. repeat split; try (cbn; lra).
  - cbn. unfold degrees. field. lra.
  - exists 0%Z. split; [|discriminate]. cbn. unfold degrees. field. lra.
  - unfold within. rewrite Rminus_diag_eq by reflexivity. rewrite cos_0, Rmult_1_r. replace (sin (PI / 3) * sin (7 * (PI / 18)) + cos (PI / 3) * cos (7 * (PI / 18))) with (cos (7 * (PI / 18) - PI / 3)) by (rewrite cos_minus; ring). apply cos_decr_1; lra.
  - destruct (neighborhood_pixbox 0 w (PI / 3) (PI / 18) (PI / 6)) as [b|] eqn:E; [now exists b|]. exfalso. revert E. apply C126_defined; [discriminate|lra].
Qed.
