From Coq Require Import Reals Lra Lia.
From Verif Require Import Base PixModel SkyrModel RotSpec RotLemmas LenSpec LenModel.
Ltac Zify.zify_post_hook ::= idtac.
Open Scope R_scope.

Lemma vec_eq (a b c a' b' c' : R) : a = a' -> b = b' -> c = c' -> ((a, b), c) = ((a', b'), c').
Proof. congruence. Qed.
Lemma chunks_map {A B} step (f : A -> B) : (0 < step)%nat -> forall fuel l, (length l <= fuel)%nat -> chunks step f fuel l = map f l.
Proof.
  intros S0. induction fuel as [|k IH]; intros l L; cbn [chunks].
  - destruct l; [reflexivity|cbn in L; lia].
  - destruct l as [|x l]; [reflexivity|]. rewrite IH; [rewrite <- map_app, firstn_skipn; reflexivity|]. rewrite skipn_length. cbn [length] in *. lia.
Qed.

(* the sphere in the frame of the meridian *)
Section Geo.
  Context (S Cc n e sd cd : R) (HS : S ^ 2 + Cc ^ 2 = 1) (HN : n ^ 2 + e ^ 2 = 1) (HD : sd ^ 2 + cd ^ 2 = 1).
  Definition gz := cd * S + sd * Cc * n.
  Definition gx := Cc * cd - S * sd * n.
  Definition gy := e * sd.
  Lemma gxyz : gx ^ 2 + gy ^ 2 + gz ^ 2 = 1.
  Proof.
    unfold gx, gy, gz.
    replace ((Cc * cd - S * sd * n) ^ 2 + (e * sd) ^ 2 + (cd * S + sd * Cc * n) ^ 2) with ((S ^ 2 + Cc ^ 2) * (cd ^ 2 + sd ^ 2 * n ^ 2) + sd ^ 2 * e ^ 2) by ring.
    rewrite HS. replace (1 * (cd ^ 2 + sd ^ 2 * n ^ 2) + sd ^ 2 * e ^ 2) with (cd ^ 2 + sd ^ 2 * (n ^ 2 + e ^ 2)) by ring. rewrite HN. lra.
  Qed.
  Lemma gz_range : -1 <= gz <= 1.
  Proof. pose proof gxyz. split; nra. Qed.
  Definition gr := sqrt (1 - gz ^ 2).
  Lemma gr_sq : gr ^ 2 = gx ^ 2 + gy ^ 2.
  Proof. unfold gr. pose proof gxyz. rewrite pow2_sqrt; lra || nra. Qed.
  Lemma gr_pos : 0 <= gr. Proof. apply sqrt_pos. Qed.
  Lemma q_range : gr <> 0 -> -1 <= gy / gr <= 1.
  Proof.
    intros R0. pose proof gr_pos as P. pose proof gr_sq as Q. assert (G : 0 < gr) by lra. assert (- gr <= gy <= gr) as [L U].
    { split; apply Rnot_lt_le; intros H; nra. }
    split; apply (Rmult_le_reg_r gr); try exact G; unfold Rdiv; rewrite Rmult_assoc, Rinv_l by exact R0; lra.
  Qed.
  Lemma asin_sc : gr <> 0 -> 0 <= gx -> gr * sin (asin (gy / gr)) = gy /\ gr * cos (asin (gy / gr)) = gx.
  Proof.
    intros R0 X. pose proof (q_range R0) as Q. pose proof gr_pos as P. rewrite sin_asin by exact Q. split; [field; exact R0|].
    rewrite cos_asin by exact Q. pose proof gr_sq as G. unfold Rsqr.
    replace (1 - gy / gr * (gy / gr)) with ((gx / gr) ^ 2) by (replace (gx ^ 2) with (gr ^ 2 - gy ^ 2) by lra || idtac; field_simplify_eq; [nra|exact R0]).
    rewrite sqrt_pow2 by (apply Rmult_le_pos; [exact X|left; apply Rinv_0_lt_compat; lra]). field. exact R0.
  Qed.
End Geo.

Lemma norm_split a b : a <> 0 \/ b <> 0 -> 0 < sqrt (a ^ 2 + b ^ 2) /\ (a / sqrt (a ^ 2 + b ^ 2)) ^ 2 + (b / sqrt (a ^ 2 + b ^ 2)) ^ 2 = 1.
Proof.
  intros H. assert (P : 0 < a ^ 2 + b ^ 2) by (destruct H as [H|H]; apply Rsqr_pos_lt in H; unfold Rsqr in H; pose proof (pow2_ge_0 a); pose proof (pow2_ge_0 b); lra).
  pose proof (sqrt_lt_R0 _ P) as Q. split; [exact Q|]. pose proof (pow2_sqrt (a ^ 2 + b ^ 2) ltac:(lra)) as E.
  unfold Rdiv. rewrite !Rpow_mult_distr, <- Rmult_plus_distr_r, <- E at 1. rewrite E. rewrite pow_inv, E. apply Rinv_r. lra.
Qed.
Lemma sc1 x : sin x ^ 2 + cos x ^ 2 = 1.
Proof. pose proof (sin2_cos2 x) as E. unfold Rsqr in E. lra. Qed.

Section Move.
  Context (dec ra a b : R) (NZ : a <> 0 \/ b <> 0).
  Let d := sqrt (a ^ 2 + b ^ 2).
  Let n := a / d.
  Let e := b / d.
  Let S := sin dec. Let Cc := cos dec. Let sd := sin d. Let cd := cos d.
  Let z := gz S Cc n sd cd. Let x := gx S Cc n sd cd. Let y := gy e sd. Let r := gr S Cc n sd cd.
  Let HN : n ^ 2 + e ^ 2 = 1 := proj2 (norm_split a b NZ).
  Let HS : S ^ 2 + Cc ^ 2 = 1 := sc1 dec.
  Let HD : sd ^ 2 + cd ^ 2 = 1 := sc1 d.
  Definition turn_ra := ra + asin (y / r).
  Definition turn_dec := PI / 2 - acos z.

  Lemma moved_eq : moved dec ra a b = ((x * cos ra - y * sin ra, x * sin ra + y * cos ra), z).
  Proof.
    unfold moved, heading, point, dir, north_at, east_at, add3, scale. cbn [fst snd]. fold d n e sd cd S Cc. unfold x, y, z, gx, gy, gz.
    apply vec_eq; ring.
  Qed.
  Lemma ahead_eq : dot (moved dec ra a b) ((cos ra, sin ra), 0) = x.
  Proof. rewrite moved_eq. unfold dot. cbn [fst snd]. transitivity (x * (sin ra ^ 2 + cos ra ^ 2)); [ring|]. rewrite sc1. ring. Qed.
  Lemma snd_moved : snd (moved dec ra a b) = z. Proof. rewrite moved_eq. reflexivity. Qed.
  Lemma r_nz : z ^ 2 <> 1 -> r <> 0.
  Proof. intros H E. apply H. unfold r, gr in E. apply sqrt_eq_0 in E; [fold z in E; lra|]. pose proof (gxyz S Cc n e sd cd HS HN HD) as G. fold z in G |- *. nra. Qed.
  Lemma turn_sc : r <> 0 -> 0 <= x -> r * cos turn_ra = x * cos ra - y * sin ra /\ r * sin turn_ra = x * sin ra + y * cos ra /\ sin turn_dec = z /\ cos turn_dec = r.
  Proof.
    intros R0 X. destruct (asin_sc S Cc n e sd cd HS HN HD R0 X) as [P Q]. fold y r in P, Q. fold x in Q. unfold turn_ra, turn_dec.
    pose proof (gz_range S Cc n e sd cd HS HN HD) as ZR. fold z in ZR. rewrite cos_plus, sin_plus, sin_shift, cos_shift, cos_acos, sin_acos by exact ZR.
    repeat split.
    - transitivity (cos ra * (r * cos (asin (y / r))) - sin ra * (r * sin (asin (y / r)))); [ring|]. rewrite P, Q. ring.
    - transitivity (sin ra * (r * cos (asin (y / r))) + cos ra * (r * sin (asin (y / r)))); [ring|]. rewrite P, Q. ring.
    - unfold r, gr. fold z. f_equal. unfold Rsqr. ring.
  Qed.
  Lemma turn_point : r <> 0 -> 0 <= x -> point turn_dec turn_ra = moved dec ra a b.
  Proof.
    intros R0 X. destruct (turn_sc R0 X) as (P & Q & U & V). rewrite moved_eq. unfold point, dir. cbn [fst snd]. rewrite U, V, P, Q. reflexivity.
  Qed.
  Lemma turn_range : - (PI / 2) <= turn_dec <= PI / 2.
  Proof. unfold turn_dec. pose proof (acos_bound z). lra. Qed.
  Let n' := dot (arriving dec ra a b) (north_at turn_dec turn_ra).
  Let e' := dot (arriving dec ra a b) (east_at turn_ra).
  Lemma arr_eq : arriving dec ra a b = (((- sd * Cc - cd * n * S) * cos ra - cd * e * sin ra, (- sd * Cc - cd * n * S) * sin ra + cd * e * cos ra), cd * n * Cc - sd * S).
  Proof. unfold arriving, heading, point, dir, north_at, east_at, add3, scale. cbn [fst snd]. fold d n e sd cd S Cc. apply vec_eq; ring. Qed.
  Lemma arr_comps : r <> 0 -> 0 <= x -> r * n' = cd * n * Cc - sd * S /\ r * e' = e * Cc.
  Proof.
    intros R0 X. destruct (turn_sc R0 X) as (P & Q & U & V). unfold n', e'. rewrite arr_eq. unfold dot, north_at, east_at. cbn [fst snd]. rewrite U, V.
    pose proof (gr_sq S Cc n e sd cd HS HN HD) as RS. fold r x y in RS. pose proof (gxyz S Cc n e sd cd HS HN HD) as G. fold x y z in G.
    set (ax := - sd * Cc - cd * n * S). set (az := cd * n * Cc - sd * S). set (ay := cd * e).
    assert (O : x * ax + y * ay + z * az = 0).
    { unfold x, y, z, gx, gy, gz, ax, ay, az. transitivity (sd * cd * (n ^ 2 + e ^ 2 - 1) + (1 - (S ^ 2 + Cc ^ 2)) * (sd * cd * (1 - n ^ 2 ) * 1) + (1 - (S ^ 2 + Cc ^ 2)) * 0).
      - replace (e ^ 2) with (1 - n ^ 2) by lra. replace (cd * e) with (cd * e) by ring. replace (e * sd * (cd * e)) with (sd * cd * (1 - n ^ 2)) by (replace (1 - n ^ 2) with (e ^ 2) by lra; ring). 
        replace (S ^ 2) with (1 - Cc ^ 2) by lra. 
        transitivity (sd * cd * (- (S ^ 2 + Cc ^ 2) + n ^ 2 * (S ^ 2 + Cc ^ 2)) + sd * cd * (1 - n ^ 2)); [ring|]. rewrite HS. ring.
      - rewrite HN, HS. ring. }
    split.
    - transitivity (- z * (ax * (cos ra * (r * cos turn_ra) + sin ra * (r * sin turn_ra)) + ay * (cos ra * (r * sin turn_ra) - sin ra * (r * cos turn_ra))) + r ^ 2 * az); [ring|].
      rewrite P, Q. transitivity (- z * (x * ax + y * ay) * (sin ra ^ 2 + cos ra ^ 2) + r ^ 2 * az); [ring|]. rewrite sc1, RS.
      replace (x * ax + y * ay) with (- (z * az)) by lra. transitivity (az * (x ^ 2 + y ^ 2 + z ^ 2)); [ring|]. rewrite G. ring.
    - transitivity (- (ax * (cos ra * (r * sin turn_ra) - sin ra * (r * cos turn_ra))) + ay * (cos ra * (r * cos turn_ra) + sin ra * (r * sin turn_ra))); [ring|].
      rewrite P, Q. transitivity ((x * ay - y * ax) * (sin ra ^ 2 + cos ra ^ 2)); [ring|]. rewrite sc1. unfold x, y, gx, gy, ax, ay.
      transitivity (e * Cc * (sd ^ 2 + cd ^ 2)); [ring|]. rewrite HD. ring.
  Qed.
  Lemma arr_unit : r <> 0 -> 0 <= x -> n' ^ 2 + e' ^ 2 = 1.
  Proof.
    intros R0 X. destruct (arr_comps R0 X) as [P Q]. pose proof (gr_sq S Cc n e sd cd HS HN HD) as RS. fold r x y in RS.
    apply (Rmult_eq_reg_l (r ^ 2)); [|apply pow_nonzero, R0]. transitivity ((r * n') ^ 2 + (r * e') ^ 2); [ring|]. rewrite P, Q, RS. unfold x, y, gx, gy.
    replace (e ^ 2) with (1 - n ^ 2) by lra. rewrite !Rpow_mult_distr. replace (e ^ 2) with (1 - n ^ 2) by lra.
    replace (Cc ^ 2) with (1 - S ^ 2) by lra.
    transitivity (cd ^ 2 * n ^ 2 * Cc ^ 2 + sd ^ 2 * S ^ 2 - 2 * cd * n * Cc * sd * S + (1 - n ^ 2) * (1 - S ^ 2)); [ring|].
    transitivity (Cc ^ 2 * cd ^ 2 + S ^ 2 * sd ^ 2 * n ^ 2 - 2 * cd * n * Cc * sd * S + (1 - n ^ 2) * sd ^ 2); [|ring].
    replace (Cc ^ 2) with (1 - S ^ 2) by lra. replace (cd ^ 2) with (1 - sd ^ 2) by lra. ring.
  Qed.
End Move.

Lemma rot_alg n e n' e' : n' ^ 2 + e' ^ 2 = 1 -> let c := n * n' + e * e' in let s := e * n' - n * e' in n = c * n' - s * e' /\ e = c * e' + s * n'.
Proof. intros H c s. unfold c, s. split; [transitivity (n * (n' ^ 2 + e' ^ 2))|transitivity (e * (n' ^ 2 + e' ^ 2))]; try (rewrite H; ring); ring. Qed.
