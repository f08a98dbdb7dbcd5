(* Lemmas for C95-C98. *)
From Coq Require Import Reals Lra.
From Verif Require Import Base SkyrModel RotSpec RotModel.
Ltac Zify.zify_post_hook ::= idtac.
Open Scope R_scope.

Lemma sc (t : R) : sin t * sin t + cos t * cos t = 1.
Proof. pose proof (sin2_cos2 t) as H. unfold Rsqr in H. exact H. Qed.
Lemma sqrt_mul_abs x k : 0 <= k -> sqrt (x * x * (k * k)) = Rabs x * k.
Proof. intros H. replace (x * x * (k * k)) with (Rsqr (x * k)) by (unfold Rsqr; ring). rewrite sqrt_Rsqr_abs, Rabs_mult, (Rabs_pos_eq k) by exact H. reflexivity. Qed.
Lemma atan2_polar y x : (x <> 0 \/ y <> 0) -> sqrt (x ^ 2 + y ^ 2) * cos (atan2 y x) = x /\ sqrt (x ^ 2 + y ^ 2) * sin (atan2 y x) = y.
Proof.
  intros H. unfold atan2.
  assert (G : x <> 0 -> let k := sqrt (1 + (y / x)²) in 0 < k /\ sqrt (x ^ 2 + y ^ 2) = Rabs x * k /\ cos (atan (y / x)) = 1 / k /\ sin (atan (y / x)) = y / x / k).
  { intros Hx k. assert (P : 0 < 1 + (y / x)²) by (pose proof (Rle_0_sqr (y / x)); lra). assert (K : 0 < k) by (apply sqrt_lt_R0, P). split; [exact K|]. split.
    - rewrite <- sqrt_mul_abs by lra. f_equal. unfold k. rewrite sqrt_def by lra. unfold Rsqr. field. exact Hx.
    - rewrite cos_atan, sin_atan. split; reflexivity. }
  destruct (Rlt_dec 0 x) as [X|X]; [|destruct (Rlt_dec x 0) as [X'|X']].
  - destruct (G ltac:(lra)) as (K & E & C & S). rewrite E, C, S, Rabs_pos_eq by lra. split; field; lra.
  - destruct (G ltac:(lra)) as (K & E & C & S). rewrite Rabs_left in E by lra. rewrite E.
    destruct (Rle_dec 0 y); rewrite ?cos_plus, ?sin_plus, ?cos_minus, ?sin_minus, cos_PI, sin_PI, C, S; split; field; lra.
  - assert (x = 0) as -> by lra. destruct H as [H|H]; [lra|]. replace (0 ^ 2 + y ^ 2) with (Rsqr y) by (unfold Rsqr; ring). rewrite sqrt_Rsqr_abs.
    destruct (Rlt_dec 0 y); [rewrite cos_PI2, sin_PI2, Rabs_pos_eq by lra; split; ring|]. destruct (Rlt_dec y 0); [|lra].
    replace (- PI / 2) with (- (PI / 2)) by field. rewrite cos_neg, sin_neg, cos_PI2, sin_PI2, Rabs_left by lra. split; ring.
Qed.
Lemma atan2_range y x : - PI < atan2 y x <= PI.
Proof.
  pose proof PI_RGT_0 as P. unfold atan2. pose proof (atan_bound (y / x)) as [B1 B2]. destruct (Rlt_dec 0 x) as [X|X]; [lra|]. destruct (Rlt_dec x 0) as [X'|X'].
  - destruct (Rle_dec 0 y) as [Y|Y].
    2:{ assert (Q : 0 < y / x) by (replace (y / x) with (- y / - x) by (field; lra); apply Rdiv_lt_0_compat; lra). pose proof (atan_increasing 0 (y / x) Q) as I. rewrite atan_0 in I. lra. }
    split; [lra|]. destruct (Rle_lt_or_eq_dec 0 y Y) as [Y'|<-].
    + assert (y / x < 0) by (unfold Rdiv; apply Rinv_lt_0_compat in X'; nra). assert (atan (y / x) < atan 0) by (apply atan_increasing; assumption). rewrite atan_0 in *. lra.
    + unfold Rdiv. rewrite Rmult_0_l, atan_0. lra.
  - destruct (Rlt_dec 0 y); [lra|]. destruct (Rlt_dec y 0); lra.
Qed.
Lemma atan2_upper y x : 0 <= y -> 0 <= atan2 y x.
Proof.
  intros Y. pose proof PI_RGT_0 as P. unfold atan2. pose proof (atan_bound (y / x)) as [B1 B2]. destruct (Rlt_dec 0 x) as [X|X].
  - destruct (Rle_lt_or_eq_dec 0 y Y) as [Y'|<-]; [assert (0 < y / x) by (apply Rdiv_lt_0_compat; lra); assert (atan 0 < atan (y / x)) by (apply atan_increasing; assumption); rewrite atan_0 in *; lra|]. unfold Rdiv. rewrite Rmult_0_l, atan_0. lra.
  - destruct (Rlt_dec x 0); [destruct (Rle_dec 0 y); lra|]. destruct (Rlt_dec 0 y); [lra|]. destruct (Rlt_dec y 0); lra.
Qed.
Lemma atan2_right y x : 0 <= x -> - (PI / 2) <= atan2 y x <= PI / 2.
Proof.
  intros X. pose proof PI_RGT_0 as P. unfold atan2. pose proof (atan_bound (y / x)) as [B1 B2]. destruct (Rlt_dec 0 x); [lra|]. destruct (Rlt_dec x 0); [lra|]. destruct (Rlt_dec 0 y); [lra|]. destruct (Rlt_dec y 0); lra.
Qed.
Lemma half_zero d : - (2 * PI) < d < 2 * PI -> cos d = 1 -> d = 0.
Proof.
  intros B C. assert (S : sin (d / 2) = 0). { pose proof (cos_2a_sin (d / 2)) as K. replace (2 * (d / 2)) with d in K by field. rewrite C in K. nra. }
  destruct (Rtotal_order d 0) as [L|[E|L]]; [|exact E|]; exfalso.
  - pose proof (sin_lt_0_var (d / 2) ltac:(lra) ltac:(lra)). lra.
  - pose proof (sin_gt_0 (d / 2) ltac:(lra) ltac:(lra)). lra.
Qed.
Lemma ang_unique a b : cos a = cos b -> sin a = sin b -> - PI < a <= PI -> - PI < b <= PI -> a = b.
Proof. intros C S A B. assert (a - b = 0); [|lra]. apply half_zero; [lra|]. rewrite cos_minus, C, S. pose proof (sc b). lra. Qed.
Lemma cos_inj a b : 0 <= a <= PI -> 0 <= b <= PI -> cos a = cos b -> a = b.
Proof.
  intros A B C. destruct (Rtotal_order a b) as [L|[E|L]]; [|exact E|]; exfalso.
  - pose proof (cos_decreasing_1 a b ltac:(lra) ltac:(lra) ltac:(lra) ltac:(lra) L). lra.
  - pose proof (cos_decreasing_1 b a ltac:(lra) ltac:(lra) ltac:(lra) ltac:(lra) L). lra.
Qed.

Lemma ang2rect_dir z a : ang2rect z a = dir z a.
Proof. destruct a as [p t], z; reflexivity. Qed.
Lemma dir_unit z a : dot (dir z a) (dir z a) = 1.
Proof.
  destruct a as [p t]. pose proof (sc p). pose proof (sc t). unfold dot, dir. destruct z; cbn [fst snd].
  - replace (sin t * cos p * (sin t * cos p) + sin t * sin p * (sin t * sin p) + cos t * cos t) with (sin t * sin t * (sin p * sin p + cos p * cos p) + cos t * cos t) by ring. rewrite H. lra.
  - replace (cos t * cos p * (cos t * cos p) + cos t * sin p * (cos t * sin p) + sin t * sin t) with (cos t * cos t * (sin p * sin p + cos p * cos p) + sin t * sin t) by ring. rewrite H. lra.
Qed.
Lemma sq_sum_pos x y : (x <> 0 \/ y <> 0) -> 0 < x ^ 2 + y ^ 2.
Proof. intros [H|H]; [pose proof (Rsqr_pos_lt x H) as K; pose proof (Rle_0_sqr y) as L|pose proof (Rsqr_pos_lt y H) as K; pose proof (Rle_0_sqr x) as L]; unfold Rsqr in *; lra. Qed.
Lemma rect2ang_dir z v : 0 < norm v -> scale (norm v) (dir z (fst (rect2ang z v))) = v.
Proof.
  destruct v as [[x y] w]. intros N. unfold norm, dot in N. cbn [fst snd] in N. unfold rect2ang. cbn [fst snd]. set (r := sqrt (x ^ 2 + y ^ 2)).
  assert (R2 : r ^ 2 = x ^ 2 + y ^ 2). { unfold r. replace (sqrt (x ^ 2 + y ^ 2) ^ 2) with (sqrt (x ^ 2 + y ^ 2) * sqrt (x ^ 2 + y ^ 2)) by ring. apply sqrt_def. pose proof (Rle_0_sqr x). pose proof (Rle_0_sqr y). unfold Rsqr in *. lra. }
  assert (RP : 0 <= r) by apply sqrt_pos.
  assert (NE : norm ((x, y), w) = sqrt (r ^ 2 + w ^ 2)) by (unfold norm, dot; cbn [fst snd]; f_equal; rewrite R2; ring).
  assert (NZ : r <> 0 \/ w <> 0). { destruct (Req_dec r 0) as [E|E]; [|left; exact E]. right. intros W. assert (Z : norm ((x, y), w) = 0) by (rewrite NE, E, W; replace (0 ^ 2 + 0 ^ 2) with 0 by ring; apply sqrt_0). unfold norm, dot in Z. cbn [fst snd] in Z. lra. }
  assert (PH : r * cos (atan2 y x) = x /\ r * sin (atan2 y x) = y).
  { destruct (Req_dec r 0) as [E|E].
    - assert (x = 0 /\ y = 0) as [-> ->]; [|rewrite E; split; ring]. rewrite E in R2. replace (0 ^ 2) with 0 in R2 by ring. pose proof (Rle_0_sqr x). pose proof (Rle_0_sqr y). unfold Rsqr in *. split; nra.
    - apply atan2_polar. destruct (Req_dec x 0) as [->|]; [|left; assumption]. right. intros ->. apply E. unfold r. replace (0 ^ 2 + 0 ^ 2) with 0 by ring. apply sqrt_0. }
  destruct PH as [P1 P2]. rewrite NE. unfold scale, dir. destruct z; cbn [fst snd].
  - destruct (atan2_polar r w ltac:(tauto)) as [Q1 Q2]. replace (w ^ 2 + r ^ 2) with (r ^ 2 + w ^ 2) in Q1, Q2 by ring. rewrite <- !Rmult_assoc, Q1, Q2, P1, P2. reflexivity.
  - destruct (atan2_polar w r NZ) as [Q1 Q2]. rewrite <- !Rmult_assoc, Q1, Q2, P1, P2. reflexivity.
Qed.
Lemma rect2ang_unit z v : dot v v = 1 -> dir z (fst (rect2ang z v)) = v.
Proof.
  intros H. assert (N : norm v = 1) by (unfold norm; rewrite H; apply sqrt_1). pose proof (rect2ang_dir z v ltac:(lra)) as E. rewrite N in E. unfold scale in E. rewrite !Rmult_1_l in E.
  destruct (dir z (fst (rect2ang z v))) as [[p q] s]. exact E.
Qed.

(* distances *)
Lemma dist_dot z a b : 0 <= angdist z a b <= PI /\ cos (angdist z a b) = dot (dir z a) (dir z b).
Proof.
  destruct a as [p t], b as [q u]. unfold angdist. cbn [fst snd]. set (c' := if z then sin else cos). set (s' := if z then cos else sin). set (yy := sqrt _). set (xx := s' t * s' u + c' t * c' u * cos (p - q)).
  split; [split; [apply atan2_upper, sqrt_pos|apply atan2_range]|].
  assert (T : s' t * s' t + c' t * c' t = 1) by (unfold s', c'; destruct z; pose proof (sc t); lra). assert (U : s' u * s' u + c' u * c' u = 1) by (unfold s', c'; destruct z; pose proof (sc u); lra). pose proof (sc (p - q)) as D.
  assert (D1 : xx = dot (dir z (p, t)) (dir z (q, u))). { unfold xx, s', c', dot, dir. rewrite cos_minus. destruct z; cbn [fst snd]; ring. }
  assert (Y2 : xx ^ 2 + yy ^ 2 = 1).
  { unfold yy. match goal with |- _ + sqrt ?a ^ 2 = _ => replace (sqrt a ^ 2) with (sqrt a * sqrt a) by ring end. rewrite sqrt_def by (apply Rplus_le_le_0_compat; apply pow2_ge_0). unfold xx.
    set (A := s' t) in *. set (B := c' t) in *. set (C := s' u) in *. set (E := c' u) in *. set (F := cos (p - q)) in *. set (G := sin (p - q)) in *.
    replace ((A * C + B * E * F) ^ 2 + ((E * G) ^ 2 + (B * C - A * E * F) ^ 2)) with ((A * A + B * B) * (C * C) + E * E * (G * G + (A * A + B * B) * (F * F))) by ring. rewrite T. replace (G * G + 1 * (F * F)) with 1 by lra. lra. }
  assert (NZ : xx <> 0 \/ yy <> 0) by (destruct (Req_dec xx 0); [right; intros Z; nra|left; assumption]).
  destruct (atan2_polar yy xx NZ) as [P _]. rewrite Y2, sqrt_1, Rmult_1_l in P. rewrite P. exact D1.
Qed.
Lemma dot_comm a b : dot a b = dot b a. Proof. unfold dot. ring. Qed.
Lemma dot_one a b : dot a a = 1 -> dot b b = 1 -> dot a b = 1 -> a = b.
Proof.
  destruct a as [[a1 a2] a3], b as [[b1 b2] b3]. unfold dot. cbn [fst snd]. intros A B C.
  assert (S : (a1 - b1) * (a1 - b1) + (a2 - b2) * (a2 - b2) + (a3 - b3) * (a3 - b3) = 0) by lra.
  assert (Z : forall x, 0 <= x * x) by (intros x; apply Rle_0_sqr). assert (Q : forall x, x * x = 0 -> x = 0) by (intros x K; destruct (Rmult_integral _ _ K); assumption).
  pose proof (Z (a1 - b1)). pose proof (Z (a2 - b2)). pose proof (Z (a3 - b3)).
  rewrite (Rminus_diag_uniq a1 b1), (Rminus_diag_uniq a2 b2), (Rminus_diag_uniq a3 b3); [reflexivity| | |]; apply Q; lra.
Qed.
Lemma cauchy a b : Rabs (dot a b) <= norm a * norm b.
Proof.
  unfold norm. rewrite <- sqrt_mult_alt.
  - rewrite <- sqrt_Rsqr_abs. apply sqrt_le_1_alt. destruct a as [[a1 a2] a3], b as [[b1 b2] b3]. unfold dot, Rsqr. cbn [fst snd].
    pose proof (Rle_0_sqr (a1 * b2 - a2 * b1)). pose proof (Rle_0_sqr (a1 * b3 - a3 * b1)). pose proof (Rle_0_sqr (a2 * b3 - a3 * b2)). unfold Rsqr in *. nra.
  - destruct a as [[a1 a2] a3]. unfold dot. cbn [fst snd]. pose proof (Rle_0_sqr a1). pose proof (Rle_0_sqr a2). pose proof (Rle_0_sqr a3). unfold Rsqr in *. lra.
Qed.
Lemma triangle u v w al be ga : dot u u = 1 -> dot v v = 1 -> dot w w = 1 -> 0 <= al <= PI -> 0 <= be <= PI -> 0 <= ga <= PI ->
  cos al = dot u v -> cos be = dot v w -> cos ga = dot u w -> ga <= al + be.
Proof.
  intros U V W A B G CA CB CG. destruct (Rle_dec ga (al + be)) as [|N]; [assumption|]. exfalso. apply Rnot_le_lt in N.
  assert (L : cos ga < cos (al + be)) by (apply cos_decreasing_1; lra). rewrite cos_plus in L.
  set (p := sub3 u (scale (cos al) v)). set (q := sub3 w (scale (cos be) v)).
  assert (PQ : dot p q = dot u w - dot u v * dot v w).
  { unfold p, q. rewrite CA, CB. destruct u as [[u1 u2] u3], v as [[v1 v2] v3], w as [[w1 w2] w3]. unfold dot, sub3, scale in *. cbn [fst snd] in *. 
    replace ((u1 - (u1 * v1 + u2 * v2 + u3 * v3) * v1) * (w1 - (v1 * w1 + v2 * w2 + v3 * w3) * v1) + (u2 - (u1 * v1 + u2 * v2 + u3 * v3) * v2) * (w2 - (v1 * w1 + v2 * w2 + v3 * w3) * v2) + (u3 - (u1 * v1 + u2 * v2 + u3 * v3) * v3) * (w3 - (v1 * w1 + v2 * w2 + v3 * w3) * v3))
      with ((u1 * w1 + u2 * w2 + u3 * w3) - 2 * ((u1 * v1 + u2 * v2 + u3 * v3) * (v1 * w1 + v2 * w2 + v3 * w3)) + (u1 * v1 + u2 * v2 + u3 * v3) * (v1 * w1 + v2 * w2 + v3 * w3) * (v1 * v1 + v2 * v2 + v3 * v3)) by ring. rewrite V. ring. }
  assert (NP : forall x c, dot x x = 1 -> c = dot x v -> dot (sub3 x (scale c v)) (sub3 x (scale c v)) = 1 - c * c).
  { intros [[x1 x2] x3] c X ->. destruct v as [[v1 v2] v3]. unfold dot, sub3, scale in *. cbn [fst snd] in *.
    replace ((x1 - (x1 * v1 + x2 * v2 + x3 * v3) * v1) * (x1 - (x1 * v1 + x2 * v2 + x3 * v3) * v1) + (x2 - (x1 * v1 + x2 * v2 + x3 * v3) * v2) * (x2 - (x1 * v1 + x2 * v2 + x3 * v3) * v2) + (x3 - (x1 * v1 + x2 * v2 + x3 * v3) * v3) * (x3 - (x1 * v1 + x2 * v2 + x3 * v3) * v3))
      with ((x1 * x1 + x2 * x2 + x3 * x3) - 2 * ((x1 * v1 + x2 * v2 + x3 * v3) * (x1 * v1 + x2 * v2 + x3 * v3)) + (x1 * v1 + x2 * v2 + x3 * v3) * (x1 * v1 + x2 * v2 + x3 * v3) * (v1 * v1 + v2 * v2 + v3 * v3)) by ring. rewrite V, X. ring. }
  assert (SN : forall t, 0 <= t <= PI -> sqrt (1 - cos t * cos t) = sin t). { intros t T. replace (1 - cos t * cos t) with (Rsqr (sin t)) by (unfold Rsqr; pose proof (sc t); lra). apply sqrt_Rsqr. apply sin_ge_0; lra. }
  assert (N1 : norm p = sin al) by (unfold norm, p; rewrite (NP u (cos al) U CA); apply SN, A).
  assert (N2 : norm q = sin be) by (unfold norm, q; rewrite (NP w (cos be) W ltac:(rewrite dot_comm; exact CB)); apply SN, B).
  pose proof (cauchy p q) as K. rewrite N1, N2, PQ in K. rewrite <- CA, <- CB, <- CG in K. assert (- (sin al * sin be) <= cos ga - cos al * cos be) by (unfold Rabs in K; destruct (Rcase_abs (cos ga - cos al * cos be)); lra). lra.
Qed.
Lemma len3_norm v : len3 v = norm v.
Proof. unfold len3, norm, dot. f_equal. ring. Qed.
Lemma norm_sq v : norm v * norm v = dot v v.
Proof. unfold norm. apply sqrt_def. destruct v as [[a b] c]. unfold dot. cbn [fst snd]. pose proof (Rle_0_sqr a). pose proof (Rle_0_sqr b). pose proof (Rle_0_sqr c). unfold Rsqr in *. lra. Qed.
Lemma vec_dist v1 v2 : 0 < norm v1 -> 0 < norm v2 -> 0 <= vec_angdist v1 v2 <= PI /\ norm v1 * norm v2 * cos (vec_angdist v1 v2) = dot v1 v2.
Proof.
  intros A B. unfold vec_angdist. rewrite !len3_norm. set (a := norm v1) in *. set (b := norm v2) in *. set (c := norm (sub3 v1 v2)).
  assert (C2 : c * c = a * a + b * b - 2 * dot v1 v2). { unfold a, b, c. rewrite !norm_sq. unfold dot, sub3. cbn [fst snd]. ring. }
  assert (MU : (if Rle_dec c b then c - (a - b) else b - (a - c)) = c - a + b) by (destruct (Rle_dec c b); ring). rewrite MU.
  set (num := (a - b + c) * (c - a + b)). set (den := (a + (b + c)) * (a - c + b)).
  assert (NU : num = 2 * (a * b) - 2 * dot v1 v2) by (unfold num; nra). assert (DE : den = 2 * (a * b) + 2 * dot v1 v2) by (unfold den; nra).
  pose proof (cauchy v1 v2) as CS. fold a b in CS. assert (H1 : dot v1 v2 <= a * b /\ - (a * b) <= dot v1 v2) by (unfold Rabs in CS; destruct (Rcase_abs (dot v1 v2)); lra). destruct H1 as [H1 H2].
  pose proof PI_RGT_0 as P. assert (AB : 0 < a * b) by nra. destruct (Req_EM_T den 0) as [Z|Z].
  - split; [lra|]. replace (2 * (PI / 2)) with PI by field. rewrite cos_PI. lra.
  - assert (D0 : 0 < den) by lra. assert (N0 : 0 <= num) by lra. assert (Q : 0 <= num / den) by (apply Rmult_le_pos; [exact N0|left; apply Rinv_0_lt_compat, D0]). set (t := sqrt (num / den)). assert (T0 : 0 <= t) by apply sqrt_pos.
    pose proof (atan_bound t) as [AL AH]. assert (A0 : 0 <= atan t). { destruct (Rle_lt_or_eq_dec 0 t T0) as [L|<-]; [|rewrite atan_0; lra]. pose proof (atan_increasing 0 t L). rewrite atan_0 in *. lra. }
    split; [lra|]. rewrite cos_2a_cos, cos_atan. assert (T2 : t² = num / den) by (unfold t; apply Rsqr_sqrt, Q). rewrite T2.
    assert (K : 0 < 1 + num / den) by lra. replace (2 * (1 / sqrt (1 + num / den)) * (1 / sqrt (1 + num / den))) with (2 / (sqrt (1 + num / den) * sqrt (1 + num / den))) by (field; apply Rgt_not_eq, sqrt_lt_R0, K).
    rewrite sqrt_def by lra. assert (SD : den + num = 4 * (a * b)) by lra. replace (2 / (1 + num / den)) with (2 * den / (den + num)) by (field; lra). rewrite SD. replace (2 * den / (4 * (a * b))) with (1 + dot v1 v2 / (a * b)) by (rewrite DE; field; lra). field; lra.
Qed.

(* rotations *)
Lemma rot_turned ax t v : mulv (rotmatrix t ax) v = turned ax t v.
Proof. destruct v as [[x y] z], ax; unfold mulv, rotmatrix, turned, dot; cbn [fst snd]; repeat apply (f_equal2 pair); ring. Qed.
Lemma mulm_mulv a b v : mulv (mulm a b) v = mulv a (mulv b v).
Proof. destruct a as [[[[a1 a2] a3] [[a4 a5] a6]] [[a7 a8] a9]], b as [[[[b1 b2] b3] [[b4 b5] b6]] [[b7 b8] b9]], v as [[x y] z]. unfold mulv, mulm, col, dot. cbn [fst snd]. repeat apply (f_equal2 pair); ring. Qed.
Lemma turned_dot ax t u v : dot (turned ax t u) (turned ax t v) = dot u v.
Proof.
  destruct u as [[x y] z], v as [[x' y'] z'], ax; unfold turned, dot; cbn [fst snd]; pose proof (sc t) as S.
  - replace (x * x' + (cos t * y - sin t * z) * (cos t * y' - sin t * z') + (sin t * y + cos t * z) * (sin t * y' + cos t * z')) with (x * x' + (sin t * sin t + cos t * cos t) * (y * y' + z * z')) by ring. rewrite S. ring.
  - replace ((cos t * x + sin t * z) * (cos t * x' + sin t * z') + y * y' + (cos t * z - sin t * x) * (cos t * z' - sin t * x')) with (y * y' + (sin t * sin t + cos t * cos t) * (x * x' + z * z')) by ring. rewrite S. ring.
  - replace ((cos t * x - sin t * y) * (cos t * x' - sin t * y') + (sin t * x + cos t * y) * (sin t * x' + cos t * y') + z * z') with (z * z' + (sin t * sin t + cos t * cos t) * (x * x' + y * y')) by ring. rewrite S. ring.
Qed.
Lemma turned_plus ax a b v : turned ax a (turned ax b v) = turned ax (a + b) v.
Proof. destruct v as [[x y] z], ax; unfold turned; rewrite cos_plus, sin_plus; repeat apply (f_equal2 pair); ring. Qed.
Lemma turned_0 ax v : turned ax 0 v = v.
Proof. destruct v as [[x y] z], ax; unfold turned; rewrite cos_0, sin_0; repeat apply (f_equal2 pair); ring. Qed.
Lemma turned_inv ax a b v : b = - a -> turned ax b (turned ax a v) = v.
Proof. intros ->. rewrite turned_plus, Rplus_opp_l. apply turned_0. Qed.
Lemma rot_dir e kind co : dir false (euler_rot e kind co) = turned (fst (fst kind)) (fst (fst e)) (turned (snd (fst kind)) (snd (fst e)) (turned (snd kind) (snd e) (dir false co))).
Proof.
  unfold euler_rot, euler_mat. destruct e as [[al be] ga]. cbn [fst snd]. rewrite !mulm_mulv, !rot_turned, ang2rect_dir. apply rect2ang_unit. rewrite !turned_dot. apply dir_unit.
Qed.
