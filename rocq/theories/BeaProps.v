From Coq Require Import Reals ZArith Lra Lia Psatz.
From Verif Require Import BldModel BldLemmas SkyrModel RotLemmas BeaSpec BeaModel.
Open Scope R_scope.
Ltac Zify.zify_post_hook ::= idtac.

Lemma pymod_range x y : 0 < y -> 0 <= pymod x y < y.
Proof.
  intros Y. unfold pymod. pose proof (floorR_spec (x / y)) as [A B]. set (k := IZR (floorR (x / y))) in *.
  assert (x = y * (x / y)) by (field; lra). split; nra.
Qed.
Lemma pymod_turn x y : exists k : Z, pymod x y = x + IZR k * y.
Proof. exists (- floorR (x / y))%Z. unfold pymod. rewrite opp_IZR. ring. Qed.
(* half turns change both signs or none *)
Lemma half_turns x (k : Z) : (cos (x + IZR k * PI) = cos x /\ sin (x + IZR k * PI) = sin x) \/ (cos (x + IZR k * PI) = - cos x /\ sin (x + IZR k * PI) = - sin x).
Proof.
  assert (N : forall (n : nat) x, (cos (x + INR n * PI) = cos x /\ sin (x + INR n * PI) = sin x) \/ (cos (x + INR n * PI) = - cos x /\ sin (x + INR n * PI) = - sin x)).
  { induction n as [|n IH]; intros z.
    - left. cbn [INR]. now replace (z + 0 * PI) with z by ring.
    - rewrite S_INR. replace (z + (INR n + 1) * PI) with (z + INR n * PI + PI) by ring. rewrite neg_cos, neg_sin. destruct (IH z) as [[-> ->]|[-> ->]]; [right|left]; split; ring. }
  destruct k as [|p|p].
  - left. now replace (x + 0 * PI) with x by ring.
  - rewrite <- (positive_nat_Z p), <- INR_IZR_INZ. apply N.
  - pose proof (N (Pos.to_nat p) (x + IZR (Z.neg p) * PI)) as H. replace (x + IZR (Z.neg p) * PI + INR (Pos.to_nat p) * PI) with x in H.
    + destruct H as [[-> ->]|[-> ->]]; [left; split; reflexivity|right; split; ring].
    + rewrite INR_IZR_INZ, positive_nat_Z. change (Z.neg p) with (- Z.pos p)%Z. rewrite opp_IZR. ring.
Qed.
Lemma ellipse_turn s1 s2 phi (k : Z) x y : ellipse s1 s2 (phi + IZR k * PI) x y = ellipse s1 s2 phi x y.
Proof. unfold ellipse. destruct (half_turns phi k) as [[-> ->]|[-> ->]]; [reflexivity|]. unfold Rdiv. ring. Qed.
Lemma ellipse_quarter s1 s2 phi x y : ellipse s1 s2 (phi + PI / 2) x y = ellipse s2 s1 phi x y.
Proof. unfold ellipse. rewrite cos_plus, sin_plus, cos_PI2, sin_PI2. unfold Rdiv. ring. Qed.
Lemma trig1 p : cos p * cos p + sin p * sin p = 1.
Proof. pose proof (sin2_cos2 p) as H. unfold Rsqr in H. lra. Qed.
(* along the direction t *)
Lemma ellipse_dir s1 s2 phi t : s1 <> 0 -> s2 <> 0 -> ellipse s1 s2 phi (cos t) (sin t) = / s1 ^ 2 + (/ s2 ^ 2 - / s1 ^ 2) * sin (t - phi) ^ 2.
Proof.
  intros A B. unfold ellipse. replace (cos t * cos phi + sin t * sin phi) with (cos (t - phi)) by (rewrite cos_minus; ring). replace (sin t * cos phi - cos t * sin phi) with (sin (t - phi)) by (rewrite sin_minus; ring).
  pose proof (trig1 (t - phi)) as T. replace ((cos (t - phi) / s1) ^ 2) with ((1 - sin (t - phi) ^ 2) * / s1 ^ 2); [field; auto|]. replace (1 - sin (t - phi) ^ 2) with (cos (t - phi) ^ 2) by lra. field; auto.
Qed.
Lemma sq_le x : 0 <= sin x ^ 2 <= 1.
Proof. pose proof (trig1 x). split; nra. Qed.

(* C131 compress_beam gives the quadratic form with these widths *)
Theorem C131_compress s1 s2 phi : s1 <> 0 -> s2 <> 0 -> exists q, compress_beam s1 s2 phi = Some q /\ forall x y, form q x y = ellipse s1 s2 phi x y.
Proof.
  intros A B. unfold compress_beam. destruct (Req_EM_T s1 0); [contradiction|]. destruct (Req_EM_T s2 0); [contradiction|]. eexists. split; [reflexivity|]. intros x y. unfold form, ellipse. field. auto.
Qed.
Print Assumptions C131_compress.
Lemma form_inj q q' : (forall x y, form q x y = form q' x y) -> q = q'.
Proof.
  destruct q as [[a b] c], q' as [[a' b'] c']. intros H. pose proof (H 1 0) as H1. pose proof (H 0 1) as H2. pose proof (H 1 1) as H3. unfold form in *. assert (a = a') by lra. assert (b = b') by lra. assert (c = c') by lra. congruence.
Qed.
Section Ex.
Variable eigh : R -> R -> R -> (R * R) * ((R * R) * (R * R)).
Hypothesis OK : eigh2_ok eigh.
(* expand_beam gives the widths, the larger first, and the direction of the larger *)
Theorem C131_expand q : positive q -> exists s1 s2 phi, expand_beam eigh q = Some (s1, s2, phi) /\ s2 <= s1 /\ 0 < s2 /\ 0 <= phi < PI /\ forall x y, form q x y = ellipse s1 s2 phi x y.
Proof.
  destruct q as [[a b] c]. intros P. unfold expand_beam. specialize (OK a b c). destruct (eigh a c b) as [[e0 e1] [[v00 v01] [v10 v11]]]. destruct OK as (LE & N0 & N1 & O & Ha & Hb & Hc).
  assert (E0 : 0 < e0). { specialize (P v00 v10). unfold form in P. replace e0 with (a * v00 ^ 2 + b * v10 ^ 2 + 2 * c * v00 * v10).
    - apply P. destruct (Req_dec v00 0) as [Z|]; [right|left; assumption]. intros Z'. rewrite Z, Z' in N0. lra.
    - rewrite Ha, Hb, Hc. transitivity (e0 * (v00 * v00 + v10 * v10) ^ 2 + e1 * (v00 * v01 + v10 * v11) ^ 2); [ring|]. rewrite N0, O. ring. }
  destruct (Rlt_dec 0 e0); [|contradiction]. destruct (Rlt_dec 0 e1); [|lra].
  assert (S0 : 0 < sqrt e0) by now apply sqrt_lt_R0. assert (S1 : 0 < sqrt e1) by now apply sqrt_lt_R0. assert (SL : sqrt e0 <= sqrt e1) by now apply sqrt_le_1_alt.
  assert (IL : / sqrt e1 <= / sqrt e0) by now apply Rinv_le_contravar. destruct (Rlt_dec (/ sqrt e0) (/ sqrt e1)); [lra|].
  exists (/ sqrt e0), (/ sqrt e1), (pymod (atan2 v10 v00) PI). split; [reflexivity|]. split; [exact IL|]. split; [now apply Rinv_0_lt_compat|]. split; [apply pymod_range, PI_RGT_0|].
  intros x y. destruct (pymod_turn (atan2 v10 v00) PI) as (k & ->). rewrite ellipse_turn. destruct (atan2_polar v10 v00) as [C S].
  { destruct (Req_dec v00 0) as [Z|]; [right|left; assumption]. intros Z'. rewrite Z, Z' in N0. lra. }
  replace (v00 ^ 2 + v10 ^ 2) with 1 in C, S by lra. rewrite sqrt_1, Rmult_1_l in C, S. unfold ellipse. rewrite C, S.
  assert (Q0 : sqrt e0 * sqrt e0 = e0) by (apply sqrt_sqrt; lra). assert (Q1 : sqrt e1 * sqrt e1 = e1) by (apply sqrt_sqrt; lra).
  replace (((x * v00 + y * v10) / / sqrt e0) ^ 2) with (e0 * (x * v00 + y * v10) ^ 2) by (rewrite <- Q0 at 1; field; lra).
  replace (((y * v00 - x * v10) / / sqrt e1) ^ 2) with (e1 * (y * v00 - x * v10) ^ 2) by (rewrite <- Q1 at 1; field; lra).
  (* the second vector is at right angles *)
  assert (D : (v00 * v11 - v10 * v01) ^ 2 = 1). { transitivity ((v00 * v00 + v10 * v10) * (v01 * v01 + v11 * v11) - (v00 * v01 + v10 * v11) ^ 2); [ring|]. rewrite N0, N1, O. ring. }
  set (d := v00 * v11 - v10 * v01) in *.
  assert (V1 : v01 = - d * v10). { unfold d. transitivity (v01 * (v10 * v10 + v00 * v00) - v00 * (v00 * v01 + v10 * v11)); [rewrite O; replace (v10 * v10 + v00 * v00) with 1 by lra; ring|ring]. }
  assert (V2 : v11 = d * v00). { unfold d. transitivity (v11 * (v10 * v10 + v00 * v00) - v10 * (v00 * v01 + v10 * v11)); [rewrite O; replace (v10 * v10 + v00 * v00) with 1 by lra; ring|ring]. }
  unfold form. rewrite Ha, Hb, Hc, V1, V2. transitivity (e0 * (x * v00 + y * v10) ^ 2 + d ^ 2 * (e1 * (y * v00 - x * v10) ^ 2)); [ring|rewrite D; ring].
Qed.
(* and only if the form is positive *)
Theorem C131_expand_only q : expand_beam eigh q <> None -> positive q.
Proof.
  destruct q as [[a b] c]. unfold expand_beam. specialize (OK a b c). destruct (eigh a c b) as [[e0 e1] [[v00 v01] [v10 v11]]]. destruct OK as (LE & N0 & N1 & O & Ha & Hb & Hc). intros H x y XY.
  destruct (Rlt_dec 0 e0) as [E0|]; [|now elim H]. destruct (Rlt_dec 0 e1) as [E1|]; [|now elim H]. clear H.
  assert (F : form (a, b, c) x y = e0 * (x * v00 + y * v10) ^ 2 + e1 * (x * v01 + y * v11) ^ 2) by (unfold form; rewrite Ha, Hb, Hc; ring). rewrite F.
  assert (D : (v00 * v11 - v10 * v01) ^ 2 = 1). { transitivity ((v00 * v00 + v10 * v10) * (v01 * v01 + v11 * v11) - (v00 * v01 + v10 * v11) ^ 2); [ring|]. rewrite N0, N1, O. ring. }
  destruct (Req_dec (x * v00 + y * v10) 0) as [Z|Z].
  - destruct (Req_dec (x * v01 + y * v11) 0) as [Z'|Z'].
    + exfalso. assert (X : x * (v00 * v11 - v10 * v01) = 0) by (transitivity (v11 * (x * v00 + y * v10) - v10 * (x * v01 + y * v11)); [ring|rewrite Z, Z'; ring]). assert (Y : y * (v00 * v11 - v10 * v01) = 0) by (transitivity (v00 * (x * v01 + y * v11) - v01 * (x * v00 + y * v10)); [ring|rewrite Z, Z'; ring]).
      set (d := v00 * v11 - v10 * v01) in *. assert (d <> 0) by (intros Q; rewrite Q in D; lra). apply Rmult_integral in X. apply Rmult_integral in Y. destruct XY, X, Y; contradiction.
    + rewrite Z. assert (0 < (x * v01 + y * v11) ^ 2) by (apply Rsqr_pos_lt in Z'; unfold Rsqr in Z'; lra). nra.
  - assert (0 < (x * v00 + y * v10) ^ 2) by (apply Rsqr_pos_lt in Z; unfold Rsqr in Z; lra). pose proof (pow2_ge_0 (x * v01 + y * v11)). nra.
Qed.
(* compressing what was expanded gives the same numbers *)
Theorem C131_round_trip q s1 s2 phi : expand_beam eigh q = Some (s1, s2, phi) -> compress_beam s1 s2 phi = Some q.
Proof.
  intros H. assert (P : positive q) by (apply C131_expand_only; congruence). destruct (C131_expand q P) as (t1 & t2 & psi & E & L & T & _ & F). rewrite H in E. injection E as -> -> ->.
  destruct (C131_compress t1 t2 psi) as (q' & -> & G); [lra|lra|]. f_equal. apply form_inj. intros x y. now rewrite F, G.
Qed.
Lemma widths s1 s2 phi t1 t2 psi : s2 <= s1 -> 0 < s2 -> t2 <= t1 -> 0 < t2 -> (forall x y, ellipse s1 s2 phi x y = ellipse t1 t2 psi x y) -> s1 = t1 /\ s2 = t2 /\ (s2 < s1 -> sin (phi - psi) = 0).
Proof.
  intros A B C D F. assert (G : forall t, / s1 ^ 2 + (/ s2 ^ 2 - / s1 ^ 2) * sin (t - phi) ^ 2 = / t1 ^ 2 + (/ t2 ^ 2 - / t1 ^ 2) * sin (t - psi) ^ 2) by (intros t; rewrite <- !ellipse_dir by lra; apply F).
  assert (IS : forall u v, 0 < v <= u -> 0 < / u ^ 2 <= / v ^ 2). { intros u v V. split; [apply Rinv_0_lt_compat; nra|apply Rinv_le_contravar; nra]. }
  assert (INJ : forall u v, 0 < u -> 0 < v -> / u ^ 2 = / v ^ 2 -> u = v). { intros u v U V E. assert (u ^ 2 = v ^ 2) by (rewrite <- (Rinv_inv (u ^ 2)), E, Rinv_inv; reflexivity). nra. }
  pose proof (IS s1 s2 ltac:(lra)) as I1. pose proof (IS t1 t2 ltac:(lra)) as I2.
  set (p := / s1 ^ 2) in *. set (q := / s2 ^ 2) in *. set (u := / t1 ^ 2) in *. set (v := / t2 ^ 2) in *.
  pose proof (G phi) as G1. replace (phi - phi) with 0 in G1 by ring. rewrite sin_0 in G1.
  pose proof (G psi) as G2. replace (psi - psi) with 0 in G2 by ring. rewrite sin_0 in G2.
  pose proof (G (phi + PI / 2)) as G3. replace (phi + PI / 2 - phi) with (PI / 2) in G3 by ring. rewrite sin_PI2 in G3. replace (phi + PI / 2 - psi) with (PI / 2 + (phi - psi)) in G3 by ring. rewrite <- cos_sin in G3.
  pose proof (trig1 (phi - psi)) as T. set (s := sin (phi - psi)) in *. replace (sin (psi - phi)) with (- s) in G2 by (unfold s; rewrite <- sin_neg; f_equal; ring). set (c := cos (phi - psi)) in *.
  assert (PU : p = u) by nra. assert (QV : q = v) by nra. 
  split; [apply INJ; [lra|lra|exact PU]|]. split; [apply INJ; [lra|lra|exact QV]|]. intros L. assert (p < q). { unfold p, q. apply Rinv_lt_contravar; [|nra]. assert (0 < s1 ^ 2) by nra. assert (0 < s2 ^ 2) by nra. nra. }
  assert (Z : (q - p) * (s * s) = 0) by nra. apply Rmult_integral in Z. destruct Z as [Z|Z]; [lra|]. apply Rmult_integral in Z. lra.
Qed.
(* expanding what was compressed gives the widths in descending order and the direction of the larger up to half turns *)
Theorem C131_back s1 s2 phi : 0 < s1 -> 0 < s2 -> exists q psi, compress_beam s1 s2 phi = Some q /\
  expand_beam eigh q = Some (Rmax s1 s2, Rmin s1 s2, psi) /\ 0 <= psi < PI /\
  (s2 < s1 -> exists k : Z, psi = phi + IZR k * PI) /\ (s1 < s2 -> exists k : Z, psi = phi + PI / 2 + IZR k * PI).
Proof.
  intros A B. destruct (C131_compress s1 s2 phi) as (q & Q & F); [lra|lra|].
  assert (P : positive q). { intros x y XY. rewrite F. unfold ellipse. pose proof (trig1 phi) as T. set (c := cos phi) in *. set (s := sin phi) in *.
    assert (U : (x * c + y * s) ^ 2 + (y * c - x * s) ^ 2 = x ^ 2 + y ^ 2) by (transitivity ((x ^ 2 + y ^ 2) * (c * c + s * s)); [ring|rewrite T; ring]).
    assert (0 < x ^ 2 + y ^ 2) by (destruct XY as [N|N]; apply Rsqr_pos_lt in N; unfold Rsqr in N; nra).
    replace (((x * c + y * s) / s1) ^ 2) with ((x * c + y * s) ^ 2 * / s1 ^ 2) by (field; lra). replace (((y * c - x * s) / s2) ^ 2) with ((y * c - x * s) ^ 2 * / s2 ^ 2) by (field; lra).
    assert (0 < / s1 ^ 2) by (apply Rinv_0_lt_compat; nra). assert (0 < / s2 ^ 2) by (apply Rinv_0_lt_compat; nra).
    pose proof (pow2_ge_0 (x * c + y * s)). pose proof (pow2_ge_0 (y * c - x * s)). destruct (Req_dec (x * c + y * s) 0) as [Z|Z]; [rewrite Z in *; nra|]. assert (0 < (x * c + y * s) ^ 2) by (apply Rsqr_pos_lt in Z; unfold Rsqr in Z; lra). nra. }
  destruct (C131_expand q P) as (t1 & t2 & psi & E & L & T & R & G). exists q, psi. split; [exact Q|].
  assert (TURN : forall z, sin (z - psi) = 0 -> exists k : Z, psi = z + IZR k * PI). { intros z Z. apply sin_eq_0_0 in Z. destruct Z as (k & K). exists (- k)%Z. rewrite opp_IZR. lra. }
  destruct (Rle_dec s2 s1) as [S|S].
  - destruct (widths s1 s2 phi t1 t2 psi) as (-> & -> & W); try assumption; [intros x y; now rewrite <- F, G|]. rewrite Rmax_left, Rmin_right by exact S. split; [exact E|]. split; [exact R|]. split; [intros X; apply TURN, W, X|intros; lra].
  - destruct (widths s2 s1 (phi + PI / 2) t1 t2 psi) as (-> & -> & W); try assumption; [lra|intros x y; now rewrite ellipse_quarter, <- F, G|]. rewrite Rmax_right, Rmin_left by lra. split; [exact E|]. split; [exact R|]. split; [intros; lra|intros X; apply TURN, W, X].
Qed.
(* so beams in this form are recovered *)
Theorem C131_recovered s1 s2 phi : 0 < s2 < s1 -> 0 <= phi < PI -> exists q, compress_beam s1 s2 phi = Some q /\ expand_beam eigh q = Some (s1, s2, phi).
Proof.
  intros S P. destruct (C131_back s1 s2 phi) as (q & psi & Q & E & R & W & _); [lra|lra|]. exists q. split; [exact Q|]. rewrite E, Rmax_left, Rmin_right by lra. destruct (W ltac:(lra)) as (k & K).
  assert (KZ : k = 0%Z). { pose proof PI_RGT_0. assert (-1 < IZR k < 1) as [K1 K2] by (split; nra). apply lt_IZR in K1. apply lt_IZR in K2. lia. }
  rewrite K, KZ. repeat f_equal. ring.
Qed.
End Ex.
Print Assumptions C131_expand.
Print Assumptions C131_expand_only.
Print Assumptions C131_round_trip.
Print Assumptions C131_back.
Print Assumptions C131_recovered.
Example C131_ex_hyps : positive (2, 3, 1).
Proof. intros x y [H|H]; apply Rsqr_pos_lt in H; unfold Rsqr in H; unfold form; nra. Qed.
(* a beam twice as wide along x *)
Example C131_ex : compress_beam 2 1 0 = Some (1 / 4, 1, 0).
Proof. unfold compress_beam. destruct (Req_EM_T 2 0); [lra|]. destruct (Req_EM_T 1 0); [lra|]. rewrite cos_0, sin_0. f_equal. apply f_equal2; [apply f_equal2|]; field. Qed.
