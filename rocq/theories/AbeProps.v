(* C60: boosts; C61: y-doubling; C69: modulation units and Planck spectra; C70: rewinding pixels. *)
From Coq Require Import Reals Lra ZArith List Lia.
From Verif Require Import AbeModel.
Import ListNotations.
Local Open Scope R_scope.

(** C60 *)
Lemma clip1_id x : -1 <= x <= 1 -> clip1 x = x.
Proof. intros H. unfold clip1. rewrite Rmax_left, Rmin_left by lra. reflexivity. Qed.
Lemma zb_pos z b : -1 <= z <= 1 -> -1 < b < 1 -> 0 < 1 + z * b.
Proof.
  intros Hz Hb. destruct (Rlt_dec 0 z) as [L|L].
  - assert (0 < z * (1 + b)) by (apply Rmult_lt_0_compat; lra). nra.
  - assert (0 <= (- z) * (1 - b)) by (apply Rmult_le_pos; lra). destruct (Req_dec z 0) as [->|N]; [lra|].
    assert (0 < (- z) * (1 - b)) by (apply Rmult_lt_0_compat; lra). nra.
Qed.
Lemma boost_z_range z b : -1 <= z <= 1 -> -1 < b < 1 -> boost_z z b = (z + b) / (1 + z * b) /\ -1 <= boost_z z b <= 1.
Proof.
  intros Hz Hb. pose proof (zb_pos z b Hz Hb) as P. assert (R : -1 <= (z + b) / (1 + z * b) <= 1).
  { split; apply (Rmult_le_reg_r (1 + z * b)); try exact P; unfold Rdiv; rewrite Rmult_assoc, Rinv_l, Rmult_1_r by lra; nra. }
  unfold boost_z. rewrite clip1_id by exact R. split; [reflexivity|exact R].
Qed.
Lemma gamma_pos b : -1 < b < 1 -> 0 < gamma b.
Proof. intros Hb. unfold gamma. apply Rinv_0_lt_compat, sqrt_lt_R0. nra. Qed.
Lemma gamma_sq b : -1 < b < 1 -> gamma b * gamma b * (1 - b * b) = 1.
Proof.
  intros Hb. assert (P : 0 < 1 - b * b) by nra. assert (S0 : sqrt (1 - b * b) <> 0) by (apply Rgt_not_eq, sqrt_lt_R0; exact P).
  unfold gamma. rewrite <- (sqrt_def (1 - b * b)) at 3 by lra. field. exact S0.
Qed.
Lemma boost_A_eq z b : -1 <= z <= 1 -> -1 < b < 1 -> boost_A z b = gamma b * (1 + z * b).
Proof.
  intros Hz Hb. destruct (boost_z_range z b Hz Hb) as [E _]. pose proof (zb_pos z b Hz Hb) as P. pose proof (gamma_pos b Hb) as G.
  unfold boost_A. rewrite E. assert (D : 1 - (z + b) / (1 + z * b) * b = (1 - b * b) / (1 + z * b)) by (field; lra). rewrite D.
  assert (P2 : 0 < 1 - b * b) by nra.
  replace (1 / (gamma b * ((1 - b * b) / (1 + z * b)))) with ((1 + z * b) * (1 / (gamma b * (1 - b * b)))) by (field; repeat split; lra).
  assert (I : 1 / (gamma b * (1 - b * b)) = gamma b) by (transitivity (gamma b * gamma b * (1 - b * b) / (gamma b * (1 - b * b))); [rewrite gamma_sq by exact Hb; reflexivity|field; split; lra]).
  rewrite I. ring.
Qed.

(* -beta undoes beta, the modulations multiply to one, and cosines stay cosines *)
Theorem C60_inverse : forall z beta, -1 <= z <= 1 -> -1 < beta < 1 ->
  let '(z1, A1) := calc_boost_1d z beta in
  let '(z2, A2) := calc_boost_1d z1 (- beta) in
  -1 <= z1 <= 1 /\ 0 < A1 /\ z2 = z /\ A1 * A2 = 1.
Proof.
  intros z b Hz Hb. unfold calc_boost_1d. destruct (boost_z_range z b Hz Hb) as [E R]. pose proof (zb_pos z b Hz Hb) as P.
  assert (Hb' : -1 < - b < 1) by lra. pose proof (gamma_pos b Hb) as G.
  split; [exact R|]. split; [rewrite boost_A_eq by assumption; nra|]. destruct (boost_z_range (boost_z z b) (- b) R Hb') as [E2 _].
  pose proof (zb_pos _ _ R Hb') as P2. assert (Q : 0 < 1 - b * b) by nra.
  assert (D : 1 + boost_z z b * - b = (1 - b * b) / (1 + z * b)) by (rewrite E; field; lra).
  split.
  - rewrite E2, D, E. field. split; lra.
  - rewrite (boost_A_eq (boost_z z b)), (boost_A_eq z) by assumption. rewrite D.
    assert (Gm : gamma (- b) = gamma b) by (unfold gamma; f_equal; f_equal; ring). rewrite Gm.
    replace (gamma b * (1 + z * b) * (gamma b * ((1 - b * b) / (1 + z * b)))) with (gamma b * gamma b * (1 - b * b)) by (field; lra). apply gamma_sq, Hb.
Qed.
Print Assumptions C60_inverse.

(* two boosts along the same direction are one boost with the relativistic sum of the speeds *)
Theorem C60_compose : forall z b1 b2, -1 <= z <= 1 -> -1 < b1 < 1 -> -1 < b2 < 1 ->
  let b := (b1 + b2) / (1 + b1 * b2) in
  -1 < b < 1 /\ boost_z (boost_z z b1) b2 = boost_z z b /\ boost_A z b1 * boost_A (boost_z z b1) b2 = boost_A z b.
Proof.
  intros z b1 b2 Hz H1 H2 b. assert (P12 : 0 < 1 + b1 * b2) by nra.
  assert (Hb : -1 < b < 1).
  { unfold b. split; apply (Rmult_lt_reg_r (1 + b1 * b2)); try exact P12; unfold Rdiv; rewrite Rmult_assoc, Rinv_l, Rmult_1_r by lra; nra. }
  destruct (boost_z_range z b1 Hz H1) as [E1 R1]. destruct (boost_z_range _ b2 R1 H2) as [E2 R2]. destruct (boost_z_range z b Hz Hb) as [E R].
  pose proof (zb_pos z b1 Hz H1) as P1. pose proof (zb_pos _ _ R1 H2) as P2. pose proof (zb_pos z b Hz Hb) as P.
  assert (D2 : 1 + boost_z z b1 * b2 = ((1 + z * b1) + (z + b1) * b2) / (1 + z * b1)) by (rewrite E1; field; lra).
  assert (N : 0 < (1 + z * b1) + (z + b1) * b2).
  { rewrite D2 in P2. apply (Rmult_lt_reg_r (/ (1 + z * b1))); [apply Rinv_0_lt_compat; exact P1|]. rewrite Rmult_0_l. exact P2. }
  assert (D : 1 + z * b = ((1 + z * b1) + (z + b1) * b2) / (1 + b1 * b2)) by (unfold b; field; lra).
  split; [exact Hb|]. split.
  - rewrite E2, E, D2, D. rewrite E1. unfold b. field. repeat split; lra.
  - rewrite !boost_A_eq by assumption. rewrite D2, D.
    assert (G : gamma b1 * gamma b2 * (1 + b1 * b2) = gamma b).
    { assert (Q1 : 0 < 1 - b1 * b1) by nra. assert (Q2 : 0 < 1 - b2 * b2) by nra. unfold gamma.
      replace (1 - b * b) with ((1 - b1 * b1) * (1 - b2 * b2) / ((1 + b1 * b2) * (1 + b1 * b2))) by (unfold b; field; lra).
      rewrite sqrt_div_alt by nra. rewrite sqrt_mult by lra. rewrite sqrt_square by lra.
      pose proof (sqrt_lt_R0 _ Q1). pose proof (sqrt_lt_R0 _ Q2). field. repeat split; lra. }
    rewrite <- G. field. repeat split; lra.
Qed.
Print Assumptions C60_compose.
Example C60_ex : calc_boost_1d (1/2) (3/5) = ((1/2 + 3/5) / (1 + 1/2 * (3/5)), 5/4 * (1 + 1/2 * (3/5))).
Proof.
  unfold calc_boost_1d. rewrite boost_A_eq by lra. destruct (boost_z_range (1/2) (3/5)) as [-> _]; [lra..|]. f_equal. f_equal. unfold gamma.
  replace (1 - 3/5 * (3/5)) with ((4/5) * (4/5)) by lra. rewrite sqrt_square by lra. field.
Qed.

(** C69 *)
Section Planck.
Variables h c k jy : R.
Hypothesis Hh : 0 < h. Hypothesis Hc : 0 < c. Hypothesis Hk : 0 < k. Hypothesis Hjy : 0 < jy.
Notation P := (planck h c k jy). Notation IP := (iplanck_T h c k jy). Notation DP := (dplanck h c k jy).

Lemma ex_pos f T : 0 < f -> 0 < T -> 1 < exp (h * f / (k * T)).
Proof. intros Hf HT. rewrite <- exp_0. apply exp_increasing. apply Rdiv_lt_0_compat; apply Rmult_lt_0_compat; assumption. Qed.
Lemma V_pos f : 0 < f -> 0 < 2 * h * f * f * f / (c * c).
Proof. intros Hf. apply Rdiv_lt_0_compat; [repeat apply Rmult_lt_0_compat; lra|nra]. Qed.
Lemma planck_pos f T : 0 < f -> 0 < T -> 0 < P f T.
Proof.
  intros Hf HT. unfold planck. apply Rmult_lt_0_compat; [|exact Hjy]. apply Rdiv_lt_0_compat; [apply V_pos, Hf|]. pose proof (ex_pos f T Hf HT). lra.
Qed.
Lemma iplanck_planck f T : 0 < f -> 0 < T -> IP f (P f T) = T.
Proof.
  intros Hf HT. unfold iplanck_T, planck. pose proof (ex_pos f T Hf HT) as E. set (e := exp (h * f / (k * T))) in *.
  replace (2 * h * f * f * f / (c * c) / (e - 1) * jy / jy * (c * c) / (2 * h * f ^ 3)) with (1 / (e - 1)) by (field; repeat split; try lra; apply pow_nonzero; lra).
  replace (1 + 1 / (1 / (e - 1))) with e by (field; lra). unfold e. rewrite ln_exp. field. repeat split; lra.
Qed.
Lemma planck_iplanck f I : 0 < f -> 0 < I -> P f (IP f I) = I /\ 0 < IP f I.
Proof.
  intros Hf HI. pose proof (V_pos f Hf) as V. set (q := 1 / (I / jy * (c * c) / (2 * h * f ^ 3))).
  assert (Hf3 : 0 < f ^ 3) by (apply pow_lt; exact Hf).
  assert (Hq : 0 < q).
  { unfold q. apply Rdiv_lt_0_compat; [lra|]. apply Rdiv_lt_0_compat; [|apply Rmult_lt_0_compat; lra]. apply Rmult_lt_0_compat; [apply Rdiv_lt_0_compat; lra|nra]. }
  assert (Hln : 0 < ln (1 + q)) by (rewrite <- ln_1; apply ln_increasing; lra).
  assert (EI : IP f I = h * f / k / ln (1 + q)) by reflexivity.
  split.
  - unfold planck. rewrite EI. replace (h * f / (k * (h * f / k / ln (1 + q)))) with (ln (1 + q)) by (field; repeat split; lra).
    rewrite exp_ln by lra. replace (1 + q - 1) with q by ring. unfold q. field. repeat split; lra.
  - rewrite EI. apply Rdiv_lt_0_compat; [|exact Hln]. apply Rdiv_lt_0_compat; [apply Rmult_lt_0_compat; lra|lra].
Qed.

Lemma sinh_sq x : 4 * sinh (x / 2) ^ 2 = (exp x - 1) * (exp x - 1) / exp x.
Proof.
  unfold sinh. pose proof (exp_pos (x / 2)) as E. set (s := exp (x / 2)) in *.
  assert (E1 : exp x = s * s) by (unfold s; rewrite <- exp_plus; f_equal; field). rewrite E1. replace (exp (- (x / 2))) with (/ s) by (unfold s; rewrite exp_Ropp; reflexivity).
  field. lra.
Qed.
Lemma dplanck_eq f T : 0 < f -> 0 < T -> let x := h * f / (k * T) in
  DP f T = 2 * h * f * f * f / (c * c) * (h * f / (k * T * T)) * exp x / ((exp x - 1) * (exp x - 1)) * jy.
Proof.
  intros Hf HT x. unfold dplanck. fold x. rewrite sinh_sq. pose proof (ex_pos f T Hf HT) as E. fold x in E.
  set (e := exp x) in *. unfold x. field. repeat split; lra.
Qed.
Lemma dplanck_pos f T : 0 < f -> 0 < T -> 0 < DP f T.
Proof.
  intros Hf HT. rewrite dplanck_eq by assumption. pose proof (ex_pos f T Hf HT) as E. pose proof (V_pos f Hf) as V.
  apply Rmult_lt_0_compat; [|exact Hjy]. apply Rdiv_lt_0_compat; [|nra]. apply Rmult_lt_0_compat; [|lra]. apply Rmult_lt_0_compat; [exact V|].
  apply Rdiv_lt_0_compat; [nra|]. repeat apply Rmult_lt_0_compat; lra.
Qed.
Lemma lim_inv g x l : g x <> 0 -> derivable_pt_lim g x l -> derivable_pt_lim (fun t => / g t) x (- l / Rsqr (g x)).
Proof.
  intros H D. pose proof (derivable_pt_lim_div (fun _ => 1) g x 0 l (derivable_pt_lim_const 1 x) D H) as E.
  replace (- l / Rsqr (g x)) with ((0 * g x - l * 1) / Rsqr (g x)) by (f_equal; ring).
  intros eps He. destruct (E eps He) as [d Hd]. exists d. intros t Ht Htd. specialize (Hd t Ht Htd). unfold div_fct in Hd.
  replace (/ g (x + t) - / g x) with (1 / g (x + t) - 1 / g x) by (unfold Rdiv; ring). exact Hd.
Qed.
Lemma planck_derive f T : 0 < f -> 0 < T -> derivable_pt_lim (P f) T (DP f T).
Proof.
  intros Hf HT. rewrite dplanck_eq by assumption. set (x := h * f / (k * T)). pose proof (ex_pos f T Hf HT) as E. fold x in E.
  set (V := 2 * h * f * f * f / (c * c)). set (g := fun t => exp (h * f / k * / t) - 1).
  assert (Dg : derivable_pt_lim g T (exp x * (h * f / k * (- (1) / Rsqr T)) - 0)).
  { unfold g. apply (derivable_pt_lim_minus (fun t => exp (h * f / k * / t)) (fun _ => 1)); [|apply derivable_pt_lim_const].
    replace (exp x) with (exp ((h * f / k * / T))) by (unfold x; f_equal; field; lra).
    apply (derivable_pt_lim_comp (fun t => h * f / k * / t) exp); [|apply derivable_pt_lim_exp].
    apply (derivable_pt_lim_scal (fun t => / t)).
    pose proof (lim_inv (fun t => t) T 1 (Rgt_not_eq _ _ HT) (derivable_pt_lim_id T)) as D.
    replace (- (1) / Rsqr T) with (- 1 / Rsqr T) by (unfold Rdiv; ring). exact D. }
  assert (gT : g T = exp x - 1) by (unfold g, x; f_equal; f_equal; field; lra).
  assert (Dp : derivable_pt_lim (fun t => (V * jy) * / g t) T ((V * jy) * (- (exp x * (h * f / k * (- (1) / Rsqr T)) - 0) / Rsqr (g T)))).
  { apply (derivable_pt_lim_scal (fun t => / g t)). apply lim_inv; [rewrite gT; lra|exact Dg]. }
  replace (V * (h * f / (k * T * T)) * exp x / ((exp x - 1) * (exp x - 1)) * jy) with ((V * jy) * (- (exp x * (h * f / k * (- (1) / Rsqr T)) - 0) / Rsqr (g T))).
  - intros eps Heps. destruct (Dp eps Heps) as [d Hd]. assert (Hd2 : 0 < Rmin d T) by (apply Rmin_pos; [apply cond_pos|exact HT]).
    exists (mkposreal _ Hd2). intros t Ht Htd. cbn [pos] in Htd. assert (A1 : Rabs t < d) by (eapply Rlt_le_trans; [exact Htd|apply Rmin_l]).
    assert (A2 : Rabs t < T) by (eapply Rlt_le_trans; [exact Htd|apply Rmin_r]). assert (A3 : T + t <> 0) by (unfold Rabs in A2; destruct (Rcase_abs t); lra).
    specialize (Hd t Ht A1). assert (EP : forall s, s <> 0 -> P f s = V * jy * / g s).
    { intros s Hs. unfold planck, g, V. replace (h * f / (k * s)) with (h * f / k * / s) by (field; split; lra). unfold Rdiv. ring. }
    rewrite !EP by lra. exact Hd.
  - rewrite gT. unfold Rsqr. field. repeat split; lra.
Qed.
End Planck.

(* the Planck spectrum and iplanck_T invert each other, and dplanck is the derivative *)
Theorem C69_planck : forall h c k jy f, 0 < h -> 0 < c -> 0 < k -> 0 < jy -> 0 < f ->
  (forall T, 0 < T -> iplanck_T h c k jy f (planck h c k jy f T) = T) /\
  (forall I, 0 < I -> planck h c k jy f (iplanck_T h c k jy f I) = I) /\
  (forall T, 0 < T -> derivable_pt_lim (planck h c k jy f) T (dplanck h c k jy f T)).
Proof.
  intros h c k jy f Hh Hc Hk Hj Hf. split; [|split].
  - intros T HT. apply iplanck_planck; assumption.
  - intros I HI. apply planck_iplanck; assumption.
  - intros T HT. apply planck_derive; assumption.
Qed.
Print Assumptions C69_planck.

(* modulating with A and converting to linearized units, then modulating with 1/A and converting back: nothing is
   lost if T0 is the T_cmb of utils. a > 0 is the modulation, u the map unit; the first part needs the sky temperature
   of the pixel to be positive, the second its intensity *)
Theorem C69_inverse_partial : forall h c k jy f T0 u mono a v, 0 < h -> 0 < c -> 0 < k -> 0 < jy -> 0 < f -> 0 < T0 -> u <> 0 -> 0 < a ->
  (0 < v * u + T0 -> modulate_lin2T h c k jy T0 T0 f u mono (1 / a) (modulate_T2lin h c k jy T0 f u mono a v) = v) /\
  (0 < v * u * dplanck h c k jy f T0 + (if mono : bool then planck h c k jy f T0 else planck h c k jy f (a * T0)) ->
   modulate_T2lin h c k jy T0 f u mono a (modulate_lin2T h c k jy T0 T0 f u mono (1 / a) v) = v).
Proof.
  intros h c k jy f T0 u mono a v Hh Hc Hk Hj Hf HT0 Hu Ha. pose proof (dplanck_pos h c k jy Hh Hc Hk Hj f T0 Hf HT0) as HD.
  assert (Ea : 1 / (1 / a) * T0 = a * T0) by (field; lra). split.
  - intros HT. unfold modulate_lin2T, modulate_T2lin. rewrite Ea. set (D := dplanck h c k jy f T0) in *. set (p := planck h c k jy f (a * (v * u + T0))).
    assert (E : (if mono then (if mono then p / D - planck h c k jy f T0 / D else p / D - planck h c k jy f (a * T0) / D) / u * u * D + planck h c k jy f T0
       else (if mono then p / D - planck h c k jy f T0 / D else p / D - planck h c k jy f (a * T0) / D) / u * u * D + planck h c k jy f (a * T0)) = p)
      by (destruct mono; field; split; lra). rewrite E. unfold p. rewrite iplanck_planck; try assumption; [field; lra|]. apply Rmult_lt_0_compat; assumption.
  - intros HI. unfold modulate_lin2T, modulate_T2lin. rewrite Ea. set (D := dplanck h c k jy f T0) in *.
    set (I := v * u * D + (if mono then planck h c k jy f T0 else planck h c k jy f (a * T0))) in *.
    assert (E : (if mono then v * u * D + planck h c k jy f T0 else v * u * D + planck h c k jy f (a * T0)) = I) by (unfold I; destruct mono; reflexivity).
    rewrite E. replace (a * ((iplanck_T h c k jy f I * (1 / a) - T0) / u * u + T0)) with (iplanck_T h c k jy f I) by (field; split; lra).
    rewrite (proj1 (planck_iplanck h c k jy Hh Hc Hk Hj f I Hf HI)). unfold I. destruct mono; field; split; lra.
Qed.
Print Assumptions C69_inverse_partial.

(* with another T0 the map comes back shifted by (T0 - T_cmb)/unit *)
Theorem C69_T0_refuted : forall h c k jy f Tcmb T0 u mono a v, 0 < h -> 0 < c -> 0 < k -> 0 < jy -> 0 < f -> 0 < T0 -> u <> 0 -> 0 < a ->
  0 < v * u + T0 -> T0 <> Tcmb ->
  modulate_lin2T h c k jy Tcmb T0 f u mono (1 / a) (modulate_T2lin h c k jy T0 f u mono a v) = v + (T0 - Tcmb) / u /\ v + (T0 - Tcmb) / u <> v.
Proof.
  intros h c k jy f Tcmb T0 u mono a v Hh Hc Hk Hj Hf HT0 Hu Ha HT N. split.
  - destruct (C69_inverse_partial h c k jy f T0 u mono a v Hh Hc Hk Hj Hf HT0 Hu Ha) as [E _]. specialize (E HT). rewrite <- E at 2.
    unfold modulate_lin2T at 1 2. field. split; lra.
  - intros E. apply N. assert (E0 : (T0 - Tcmb) / u = 0) by lra. assert (T0 - Tcmb = 0) by (replace (T0 - Tcmb) with ((T0 - Tcmb) / u * u) by (field; exact Hu); rewrite E0; ring). lra.
Qed.
Print Assumptions C69_T0_refuted.

(* the plain modulation: A times the full temperature, and 1/A undoes it *)
Theorem C69_plain : forall T0 u mono a v, a <> 0 ->
  modulate_plain T0 u mono (1 / a) (modulate_plain T0 u mono a v) = v /\
  modulate_plain T0 u true a v = a * (v + T0 / u) - T0 / u.
Proof. intros T0 u mono a v Ha. unfold modulate_plain. generalize (T0 / u). intros t. split; [destruct mono; field; exact Ha|ring]. Qed.
Print Assumptions C69_plain.

(* rotating the polarization by g and then by -g gives it back and keeps its length *)
Theorem C69_rotate : forall spin g q u, rotate_pol spin (- g) (rotate_pol spin g (q, u)) = (q, u) /\
  let '(q', u') := rotate_pol spin g (q, u) in q' * q' + u' * u' = q * q + u * u.
Proof.
  intros spin g q u. unfold rotate_pol. destruct (Req_EM_T spin 0); [split; reflexivity|].
  replace (spin * - g) with (- (spin * g)) by ring. rewrite cos_neg, sin_neg. pose proof (sin2_cos2 (spin * g)) as E. unfold Rsqr in E.
  set (s := sin (spin * g)) in *. set (co := cos (spin * g)) in *. split.
  - f_equal.
    + transitivity (q * (s * s + co * co)); [ring|rewrite E; ring].
    + transitivity (u * (s * s + co * co)); [ring|rewrite E; ring].
  - transitivity ((q * q + u * u) * (s * s + co * co)); [ring|rewrite E; ring].
Qed.
Print Assumptions C69_rotate.

(** C70 *)
(* values at most half a period below and 2.5 periods above zero are moved by whole periods into one period *)
Theorem C70_rewind_partial : forall p a, 0 < p -> - p / 2 <= a < 5 * p / 2 ->
  p / 2 <= fast_rewind p a < 3 * p / 2 /\ exists n : Z, fast_rewind p a = a + IZR n * p.
Proof.
  intros p a Hp Ha. unfold fast_rewind. destruct (Rle_dec p (a - p / 2)); destruct (Rlt_dec (a - p / 2) 0); try lra.
  - split; [lra|]. exists (-1)%Z. lra.
  - split; [lra|]. exists 1%Z. lra.
  - split; [lra|]. exists 0%Z. lra.
Qed.
Print Assumptions C70_rewind_partial.
(* but that period is not 0:p as the caller's comment says *)
Theorem C70_range_refuted : exists p a, 0 < p /\ 0 <= a < p /\ ~ (0 <= fast_rewind p a < p).
Proof. exists 10, 1. split; [lra|]. split; [lra|]. unfold fast_rewind. destruct (Rle_dec 10 (1 - 10 / 2)); destruct (Rlt_dec (1 - 10 / 2) 0); lra. Qed.
Print Assumptions C70_range_refuted.

(** C61 *)
Local Open Scope Z_scope.
Lemma np_roll_nth {A} (l : list A) s x d : (x < length l)%nat -> nth x (np_roll l s) d = nth (Z.to_nat ((Z.of_nat x - s) mod Z.of_nat (length l))) l d.
Proof.
  intros Hx. unfold np_roll. set (n := Z.of_nat (length l)). assert (Hn : 0 < n) by (unfold n; lia).
  pose proof (Z.mod_pos_bound (- s) n Hn) as B. set (m := (- s) mod n) in *.
  assert (E : (Z.of_nat x - s) mod n = (Z.of_nat x + m) mod n) by (unfold m; rewrite Z.add_mod_idemp_r by lia; f_equal; lia). rewrite E.
  destruct (Z_lt_ge_dec (Z.of_nat x + m) n) as [L|L].
  - rewrite Z.mod_small by lia. rewrite app_nth1 by (rewrite skipn_length; lia). rewrite <- (firstn_skipn (Z.to_nat m) l) at 2.
    rewrite app_nth2 by (rewrite firstn_length; lia). f_equal. rewrite firstn_length. lia.
  - assert (E2 : (Z.of_nat x + m) mod n = Z.of_nat x + m - n) by (symmetry; apply (Z.mod_unique _ _ 1); lia). rewrite E2.
    rewrite app_nth2 by (rewrite skipn_length; lia). rewrite skipn_length. rewrite <- (firstn_skipn (Z.to_nat m) l) at 3.
    rewrite app_nth1 by (rewrite firstn_length; lia). f_equal. lia.
Qed.

(* what the doubled map is: the map itself in rows 0..ny-1, and in row ny+j row j mirrored in x, with a half-turn shift *)
Theorem C61_doubled_partial : forall A (imap : list (list A)) nx d, Forall (fun r => Z.of_nat (length r) = nx) imap ->
  length (ydouble nx imap) = (2 * length imap)%nat /\
  (forall y, (y < length imap)%nat -> nth y (ydouble nx imap) [] = nth y imap []) /\
  (forall j x, (j < length imap)%nat -> 0 <= x < nx ->
    nth (Z.to_nat x) (nth (length imap + j) (ydouble nx imap) []) d = nth (Z.to_nat (nx - 1 - (x - nx / 2) mod nx)) (nth j imap []) d).
Proof.
  intros A imap nx d HF. unfold ydouble. split; [rewrite app_length, map_length; lia|]. split.
  - intros y Hy. apply app_nth1. exact Hy.
  - intros j x Hj Hx. rewrite app_nth2 by lia. replace (length imap + j - length imap)%nat with j by lia.
    assert (Hr : Z.of_nat (length (nth j imap [])) = nx) by (rewrite Forall_forall in HF; apply HF, nth_In; exact Hj).
    rewrite (nth_indep _ [] (np_roll (rev []) (nx / 2))) by (rewrite map_length; exact Hj).
    rewrite (map_nth (fun row => np_roll (rev row) (nx / 2))). rewrite np_roll_nth by (rewrite rev_length; lia). rewrite rev_length, Hr.
    pose proof (Z.mod_pos_bound (x - nx / 2) nx ltac:(lia)) as B. rewrite Z2Nat.id by lia. set (m := (x - nx / 2) mod nx) in *. rewrite rev_nth by lia. f_equal. lia.
Qed.
Print Assumptions C61_doubled_partial.

(* the documented boundary condition map[Ny,x] = map[Ny-1,x+Nx/2] does not hold *)
Theorem C61_pole_refuted : exists (imap : list (list Z)) nx ny, Z.of_nat (length imap) = ny /\ Forall (fun r => Z.of_nat (length r) = nx) imap /\ nx mod 2 = 0 /\
  exists x, 0 <= x < nx /\ nth (Z.to_nat x) (nth (Z.to_nat ny) (ydouble nx imap) []) 0 <> nth (Z.to_nat ((x + nx / 2) mod nx)) (nth (Z.to_nat (ny - 1)) imap []) 0.
Proof.
  exists [[1; 2; 3; 4]; [5; 6; 7; 8]], 4, 2. split; [reflexivity|]. split; [repeat constructor|]. split; [reflexivity|].
  exists 0. split; [lia|]. vm_compute. discriminate.
Qed.
Print Assumptions C61_pole_refuted.
Example C61_ex : ydouble 4 [[1; 2; 3; 4]; [5; 6; 7; 8]] = [[1; 2; 3; 4]; [5; 6; 7; 8]; [2; 1; 4; 3]; [6; 5; 8; 7]].
Proof. reflexivity. Qed.
