From Coq Require Import Reals ZArith Lra Lia.
From Verif Require Import BldModel BldLemmas TriSpec TriModel.
Open Scope R_scope.
Ltac Zify.zify_post_hook ::= idtac.

Lemma le_quot a w c : 0 < c -> a * c <= w -> a <= w / c.
Proof. intros C H. apply (Rmult_le_reg_r c); [exact C|]. replace (w / c * c) with w by (field; lra). exact H. Qed.
Lemma quot_le a w c : 0 < c -> w <= a * c -> w / c <= a.
Proof. intros C H. apply (Rmult_le_reg_r c); [exact C|]. replace (w / c * c) with w by (field; lra). exact H. Qed.
Lemma sin_turns_Z x (k : Z) : sin (x + 2 * IZR k * PI) = sin x.
Proof.
  destruct (Z_le_gt_dec 0 k) as [H|H].
  - rewrite <- (Z2Nat.id k H), <- INR_IZR_INZ. apply sin_period.
  - rewrite <- (sin_period (x + 2 * IZR k * PI) (Z.to_nat (- k))). f_equal. rewrite INR_IZR_INZ, Z2Nat.id by lia. rewrite opp_IZR. ring.
Qed.
Lemma asin_sin_mid t : PI / 2 <= t <= 3 * (PI / 2) -> asin (sin t) = PI - t.
Proof. intros H. rewrite <- (asin_sin (PI - t)) by lra. now rewrite sin_PI_x. Qed.
Lemma asin_sin_last t : 3 * (PI / 2) <= t <= 5 * (PI / 2) -> asin (sin t) = t - 2 * PI.
Proof. intros H. rewrite <- (asin_sin (t - 2 * PI)) by lra. f_equal. rewrite <- (sin_turns_Z (t - 2 * PI) 1). f_equal. simpl. ring. Qed.
(* C136 the wave, for every period except 0 *)
Theorem C136_wave x period : period <> 0 -> triangle_wave x period = triangle period x.
Proof.
  intros P. unfold triangle_wave, triangle, rmod. pose proof (floorR_spec (x / period)) as [A B]. set (k := floorR (x / period)) in *. pose proof PI_RGT_0 as PP.
  set (u := (x - period * IZR k) / period). assert (U : u = x / period - IZR k) by (unfold u; field; exact P). assert (U0 : 0 <= u < 1) by lra.
  replace (sin (2 * PI * x / period)) with (sin (2 * PI * u)).
  2:{ rewrite U. rewrite <- (sin_turns_Z (2 * PI * (x / period - IZR k)) k). f_equal. field. exact P. }
  assert (Q1 : forall a b, a <= b -> PI * a <= PI * b) by (intros; apply Rmult_le_compat_l; lra).
  destruct (Rlt_dec (u * 4) 1) as [L|L].
  - rewrite asin_sin; [field; lra|]. pose proof (Q1 0 u ltac:(lra)). pose proof (Q1 u (1/4) ltac:(lra)). lra.
  - destruct (Rlt_dec (u * 4) 3) as [M|M].
    + rewrite asin_sin_mid; [field; lra|]. pose proof (Q1 (1/4) u ltac:(lra)). pose proof (Q1 u (3/4) ltac:(lra)). lra.
    + rewrite asin_sin_last; [field; lra|]. pose proof (Q1 (3/4) u ltac:(lra)). pose proof (Q1 u 1 ltac:(lra)). lra.
Qed.
Print Assumptions C136_wave.
(* between -1 and 1; the same after a period; the opposite after half a period and for the opposite argument *)
Theorem C136_symmetry x period : period <> 0 -> -1 <= triangle_wave x period <= 1 /\ triangle_wave (x + period) period = triangle_wave x period /\
  triangle_wave (x + period / 2) period = - triangle_wave x period /\ triangle_wave (- x) period = - triangle_wave x period.
Proof.
  intros P. rewrite !C136_wave by exact P. unfold triangle. pose proof PI_RGT_0 as PP. split; [|split; [|split]].
  - destruct (asin_bound (sin (2 * PI * x / period))) as [A B]. set (w := asin _) in *. split; [apply le_quot|apply quot_le]; lra.
  - f_equal. f_equal. rewrite <- (sin_turns_Z (2 * PI * x / period) 1). f_equal. simpl. field. exact P.
  - replace (2 * PI * (x + period / 2) / period) with (2 * PI * x / period + PI) by (field; exact P). rewrite neg_sin, asin_opp. field. lra.
  - replace (2 * PI * (- x) / period) with (- (2 * PI * x / period)) by (field; exact P). rewrite sin_neg, asin_opp. field. lra.
Qed.
Print Assumptions C136_symmetry.
(* straight lines: up around every whole period, down around every half *)
Theorem C136_slopes x period (k : Z) : 0 < period ->
  (Rabs (x - IZR k * period) <= period / 4 -> triangle_wave x period = 4 * (x - IZR k * period) / period) /\
  (Rabs (x - (IZR k + 1 / 2) * period) <= period / 4 -> triangle_wave x period = - (4 * (x - (IZR k + 1 / 2) * period) / period)).
Proof.
  intros P. rewrite !C136_wave by lra. unfold triangle. pose proof PI_RGT_0 as PP.
  assert (UP : forall y, Rabs y <= period / 4 -> asin (sin (2 * PI * y / period)) = 2 * PI * y / period).
  { intros y Y. apply asin_sin. assert (H : -1 / 4 <= y / period <= 1 / 4). { unfold Rabs in Y. destruct (Rcase_abs y); (split; [apply le_quot|apply quot_le]); lra. }
    replace (2 * PI * y / period) with (PI * (2 * (y / period))) by (field; lra). pose proof (Rmult_le_compat_l PI (-1/2) (2 * (y / period)) ltac:(lra) ltac:(lra)). pose proof (Rmult_le_compat_l PI (2 * (y / period)) (1/2) ltac:(lra) ltac:(lra)). lra. }
  split; intros H; apply UP in H.
  - replace (sin (2 * PI * x / period)) with (sin (2 * PI * (x - IZR k * period) / period)); [rewrite H; field; lra|]. rewrite <- (sin_turns_Z (2 * PI * (x - IZR k * period) / period) k). f_equal. field. lra.
  - replace (sin (2 * PI * x / period)) with (- sin (2 * PI * (x - (IZR k + 1 / 2) * period) / period)); [rewrite asin_opp, H; field; lra|]. rewrite <- neg_sin. rewrite <- (sin_turns_Z (_ + PI) k). f_equal. field. lra.
Qed.
Print Assumptions C136_slopes.
Example C136_ex : triangle_wave (1 / 4) 1 = 1 /\ triangle_wave (7 / 8) 1 = -1 / 2.
Proof.
  split.
  - rewrite (proj1 (C136_slopes (1/4) 1 0 ltac:(lra))); [simpl; lra|]. simpl. rewrite Rabs_pos_eq; lra.
  - rewrite (proj1 (C136_slopes (7/8) 1 1 ltac:(lra))); [simpl; lra|]. rewrite Rabs_left; lra.
Qed.
Example C136_ex_hyps : (2:R) <> 0 /\ 0 < 2 /\ Rabs (3/8 - (IZR 0 + 1/2) * 1) <= 1 / 4.
Proof. split; [lra|]. split; [lra|]. rewrite Rabs_left; lra. Qed.

(* C137 two segments: every distance up to 2 r is 2 r cos a for one angle a *)
Lemma clip_in x : 0 <= x <= 1 -> rclip x 0 1 = x.
Proof. intros H. unfold rclip. rewrite Rmax_left by lra. apply Rmin_left. lra. Qed.
Theorem C137_segments r a : 0 < r -> 0 <= a <= PI / 2 -> disk_overlap (2 * r * cos a) r = 2 * segment r (2 * a).
Proof.
  intros R0 A. pose proof PI_RGT_0. unfold disk_overlap. replace (2 * r * cos a / (2 * r)) with (cos a) by (field; lra). assert (C : 0 <= cos a <= 1) by (split; [apply cos_ge_0; lra|apply COS_bound]). rewrite clip_in by exact C.
  rewrite acos_cos by lra. replace (sqrt (1 - cos a ^ 2)) with (sin a).
  2:{ replace (1 - cos a ^ 2) with (Rsqr (sin a)) by (pose proof (sin2_cos2 a) as SC; unfold Rsqr in *; lra). symmetry. apply sqrt_Rsqr. apply sin_ge_0; lra. }
  unfold segment, sector, corner. replace (2 * a / 2) with a by lra. field.
Qed.
Print Assumptions C137_segments.
(* every distance is covered *)
Theorem C137_distances r d : 0 < r -> 0 <= d -> (exists a, 0 <= a <= PI / 2 /\ d = 2 * r * cos a /\ disk_overlap d r = 2 * segment r (2 * a)) \/ (2 * r < d /\ disk_overlap d r = 0).
Proof.
  intros R0 D. pose proof PI_RGT_0. destruct (Rle_dec d (2 * r)) as [L|L].
  - left. assert (X : 0 <= d / (2 * r) <= 1). { split; [apply le_quot|apply quot_le]; lra. }
    assert (E : d = 2 * r * cos (acos (d / (2 * r)))) by (rewrite cos_acos by lra; field; lra). exists (acos (d / (2 * r))). pose proof (acos_bound (d / (2 * r))) as B.
    assert (B2 : acos (d / (2 * r)) <= PI / 2). { destruct (Rle_dec (acos (d / (2 * r))) (PI / 2)) as [|N]; [assumption|]. exfalso. assert (cos (acos (d / (2 * r))) < 0) by (apply cos_lt_0; lra). rewrite cos_acos in * by lra. lra. }
    split; [lra|]. split; [exact E|]. rewrite E at 1. apply C137_segments; lra.
  - right. split; [lra|]. unfold disk_overlap, rclip. assert (X : 1 <= d / (2 * r)). { apply le_quot; lra. }
    rewrite Rmax_left by lra. rewrite Rmin_right by lra. rewrite acos_1. replace (1 - 1 ^ 2) with 0 by ring. rewrite sqrt_0. ring.
Qed.
Print Assumptions C137_distances.
(* the whole disc at no distance, nothing from 2 r on *)
Theorem C137_ends r : 0 < r -> disk_overlap 0 r = PI * r ^ 2 /\ forall d, 2 * r <= d -> disk_overlap d r = 0.
Proof.
  intros R0. pose proof PI_RGT_0. split.
  - replace 0 with (2 * r * cos (PI / 2)) by (rewrite cos_PI2; ring). rewrite C137_segments by lra. unfold segment, sector, corner. replace (2 * (PI / 2) / 2) with (PI / 2) by field. rewrite sin_PI2, cos_PI2. field.
  - intros d D. destruct (C137_distances r d R0 ltac:(lra)) as [(a & A & E & Q)|[_ Q]]; [|exact Q]. assert (a = 0). { destruct (Req_dec a 0); [assumption|]. exfalso. pose proof (cos_decreasing_1 0 a ltac:(lra) ltac:(lra) ltac:(lra) ltac:(lra) ltac:(lra)) as CD. rewrite cos_0 in CD. pose proof (Rmult_lt_compat_l (2 * r) _ _ ltac:(lra) CD). lra. }
    subst a. rewrite Q. unfold segment, sector, corner. replace (2 * 0 / 2) with 0 by field. rewrite sin_0, cos_0. field.
Qed.
Print Assumptions C137_ends.
Lemma lens_increasing a b : 0 <= a -> a < b -> b <= PI / 2 -> a - sin a * cos a < b - sin b * cos b.
Proof.
  intros A AB B. pose proof PI_RGT_0.
  (* sin b cos b - sin a cos a = sin (b - a) cos (b + a) <= sin (b - a) < b - a *)
  assert (E : sin b * cos b - sin a * cos a = sin (b - a) * cos (b + a)).
  { rewrite sin_minus, cos_plus. pose proof (sin2_cos2 a) as P. pose proof (sin2_cos2 b) as Q. unfold Rsqr in *.
    replace ((sin b * cos a - cos b * sin a) * (cos b * cos a - sin b * sin a)) with (sin b * cos b * (sin a * sin a + cos a * cos a) - sin a * cos a * (sin b * sin b + cos b * cos b)) by ring. rewrite P, Q. ring. }
  assert (S : sin (b - a) < b - a) by (apply sin_lt_x; lra). assert (S0 : 0 <= sin (b - a)) by (apply sin_ge_0; lra). pose proof (COS_bound (b + a)) as [_ C].
  pose proof (Rmult_le_compat_l (sin (b - a)) _ _ S0 C). lra.
Qed.
(* discs that are further apart overlap less *)
Theorem C137_decreasing r d d' : 0 < r -> 0 <= d -> d < d' -> d' <= 2 * r -> disk_overlap d' r < disk_overlap d r.
Proof.
  intros R0 D DD D'. pose proof PI_RGT_0. destruct (C137_distances r d R0 D) as [(a & A & E & Q)|[F _]]; [|lra]. destruct (C137_distances r d' R0 ltac:(lra)) as [(b & B & E' & Q')|[F _]]; [|lra].
  rewrite Q, Q'. assert (BA : b < a). { destruct (Rlt_dec b a) as [|N]; [assumption|]. exfalso. assert (cos b <= cos a). { destruct (Req_dec a b); [subst; lra|]. apply Rlt_le, cos_decreasing_1; lra. } pose proof (Rmult_le_compat_l (2 * r) _ _ ltac:(lra) H0). lra. }
  pose proof (lens_increasing b a ltac:(lra) BA ltac:(lra)) as L. unfold segment, sector, corner. replace (2 * a / 2) with a by field. replace (2 * b / 2) with b by field.
  assert (RR : 0 < 2 * (r * r)) by (pose proof (Rmult_lt_0_compat r r R0 R0); lra). pose proof (Rmult_lt_compat_l _ _ _ RR L). lra.
Qed.
Print Assumptions C137_decreasing.
Lemma lim_acos x : -1 < x < 1 -> derivable_pt_lim acos x (-1 / sqrt (1 - x²)).
Proof. intros H. apply (derive_pt_eq_1 acos x _ (derivable_pt_acos x H)). apply derive_pt_acos. Qed.
(* moving the discs apart takes away area in proportion to the chord between the points where the circles meet *)
Theorem C137_derivative r d : 0 < r -> 0 < d < 2 * r -> derivable_pt_lim (fun d => disk_overlap d r) d (- chord r d).
Proof.
  intros R0 D. assert (IN : forall z, 0 < z < 2 * r -> 0 < z / (2 * r) < 1).
  { intros z Z. split; apply (Rmult_lt_reg_r (2 * r)); try lra; replace (z / (2 * r) * (2 * r)) with z by (field; lra); lra. }
  set (x := d / (2 * r)). pose proof (IN d D) as X. fold x in X.
  assert (Q : 0 < 1 - x²). { unfold Rsqr. pose proof (Rmult_lt_compat_l x x 1 ltac:(lra) ltac:(lra)). lra. }
  set (s := sqrt (1 - x²)). assert (S0 : 0 < s) by (apply sqrt_lt_R0, Q). assert (SS : s * s = 1 - x²) by (apply sqrt_sqrt; lra).
  assert (G : derivable_pt_lim (acos - id * (comp sqrt (fct_cte 1 - Rsqr)))%F x (- 2 * s)).
  { replace (- 2 * s) with (-1 / s - (1 * s + x * (/ (2 * s) * (0 - 2 * x)))).
    - apply derivable_pt_lim_minus; [apply lim_acos; lra|]. apply derivable_pt_lim_mult; [apply derivable_pt_lim_id|]. apply derivable_pt_lim_comp.
      + apply derivable_pt_lim_minus; [apply derivable_pt_lim_const|apply derivable_pt_lim_Rsqr].
      + unfold minus_fct, fct_cte. apply derivable_pt_lim_sqrt. exact Q.
    - unfold Rsqr in SS. apply (Rmult_eq_reg_r s); [|lra]. replace (- 2 * s * s) with (-2 * (s * s)) by ring. replace ((-1 / s - (1 * s + x * (/ (2 * s) * (0 - 2 * x)))) * s) with (-1 - s * s + x * x) by (field; lra). lra. }
  apply (derivable_pt_lim_locally_ext (mult_real_fct (2 * r ^ 2) (comp (acos - id * (comp sqrt (fct_cte 1 - Rsqr)))%F (mult_real_fct (/ (2 * r)) id))) _ d 0 (2 * r)).
  - exact D.
  - intros z Z. pose proof (IN z Z) as ZI. unfold disk_overlap, mult_real_fct, comp, minus_fct, mult_fct, fct_cte, id. replace (/ (2 * r) * z) with (z / (2 * r)) by (unfold Rdiv; ring). rewrite clip_in by lra. replace (1 - (z / (2 * r))²) with (1 - (z / (2 * r)) ^ 2) by (unfold Rsqr; ring). ring.
  - replace (- chord r d) with (2 * r ^ 2 * (- 2 * s * (/ (2 * r) * 1))).
    + apply derivable_pt_lim_scal. apply derivable_pt_lim_comp; [apply derivable_pt_lim_scal, derivable_pt_lim_id|]. unfold mult_real_fct, id. replace (/ (2 * r) * d) with x by (unfold x, Rdiv; ring). exact G.
    + unfold chord. replace (r * r - d / 2 * (d / 2)) with ((r * r) * (1 - x²)) by (unfold x, Rsqr; field; lra). rewrite sqrt_mult by (try (apply Rmult_le_pos); lra). rewrite sqrt_square by lra. fold s. field. lra.
Qed.
Print Assumptions C137_derivative.
Example C137_ex : disk_overlap 1 1 = 2 * PI / 3 - sqrt 3 / 2.
Proof.
  replace 1 with (2 * 1 * cos (PI / 3)) at 1 by (rewrite cos_PI3; field). pose proof PI_RGT_0. rewrite C137_segments by lra. unfold segment, sector, corner. replace (2 * (PI / 3) / 2) with (PI / 3) by field. rewrite sin_PI3, cos_PI3. field.
Qed.
Example C137_ex_hyps : 0 < 1 /\ 0 <= 1 < 3 / 2 /\ 3 / 2 <= 2 * 1 /\ 0 <= PI / 3 <= PI / 2.
Proof. pose proof PI_RGT_0. lra. Qed.
