(* Lemmas for IplProps: interpolation reproduces the samples at pixel centres. *)
From Coq Require Import Reals Lra Lia FunctionalExtensionality.
From Verif Require Import Base AlmModel AlmLemmas IplSpec IplModel IplLemmas IplLemmas2 IplLemmas3 IplLemmas4 IplLemmas5.
Ltac Zify.zify_post_hook ::= idtac.
Open Scope R_scope.

(* ---------------------------------------------------------------- rounding *)
Lemma rfloor_unique x z : IZR z <= x < IZR z + 1 -> rfloor x = z.
Proof.
  intros H. unfold rfloor. destruct (base_Int_part x) as [A B]. assert (IZR (Int_part x) < IZR (z + 1)) by (rewrite plus_IZR; lra). apply lt_IZR in H0.
  assert (IZR z < IZR (Int_part x + 1)) by (rewrite plus_IZR; lra). apply lt_IZR in H1. lia.
Qed.
Lemma rfloor_bounds x : IZR (rfloor x) <= x < IZR (rfloor x) + 1.
Proof. unfold rfloor. destruct (base_Int_part x). lra. Qed.

(* ---------------------------------------------------------------- the poles *)
Lemma pole_of u p : u < -1 -> p = sqrt (u * u - 1) + u -> p <> 0 /\ Rabs p < 1 /\ p + / p = 2 * u.
Proof.
  intros Hu E. assert (A : 0 <= u * u - 1) by nra. pose proof (sqrt_pos (u * u - 1)) as S0. pose proof (sqrt_sqrt _ A) as SS. set (r := sqrt (u * u - 1)) in *.
  assert (L1 : r < - u) by nra. assert (L2 : - u - 1 < r) by nra.
  assert (P0 : p <> 0) by lra. split; [exact P0|]. split; [apply Rabs_def1; lra|].
  assert (M : p * (u - r) = 1) by (subst p; nra). assert (I : / p = u - r). { apply (Rmult_eq_reg_l p); [|exact P0]. rewrite Rinv_r by exact P0. symmetry. exact M. }
  rewrite I. lra.
Qed.
Definition svals (order : Z) : list R :=
  match order with
  | 2%Z => [-6] | 3%Z => [-4]
  | 4%Z => [2 * (sqrt 304 - 19); 2 * (- sqrt 304 - 19)]
  | 5%Z => [2 * (sqrt 26.25 - 6.5); 2 * (- sqrt 26.25 - 6.5)]
  | _ => [] end.
Lemma sqrt_eq x y : 0 <= y -> x = y * y -> sqrt x = y.
Proof. intros H E. subst x. apply sqrt_square, H. Qed.
Lemma poles_spec order ps : poles order = Some ps -> Forall2 (fun p s => p <> 0 /\ Rabs p < 1 /\ p + / p = s) ps (svals order).
Proof.
  intros E. assert (O : (order = 2 \/ order = 3 \/ order = 4 \/ order = 5)%Z).
  { unfold poles in E. destruct order as [|o|o]; try discriminate. do 3 (destruct o as [o|o|]; try discriminate; try (now auto)). }
  destruct O as [O|[O|[O|O]]]; subst order; cbn [poles] in E; apply Some_inj in E; subst ps; cbn [svals].
  - constructor; [|constructor]. replace (-6) with (2 * -3) by lra. apply pole_of; [lra|]. replace (-3 * -3 - 1) with 8 by lra. lra.
  - constructor; [|constructor]. replace (-4) with (2 * -2) by lra. apply pole_of; [lra|]. replace (-2 * -2 - 1) with 3 by lra. lra.
  - assert (B0 := sqrt_pos 304). assert (BB : sqrt 304 * sqrt 304 = 304) by (apply sqrt_sqrt; lra). set (B := sqrt 304) in *.
    assert (C : sqrt 438976 = 38 * B) by (apply sqrt_eq; nra). rewrite C. assert (L1 : B < 18) by nra.
    constructor; [|constructor; [|constructor]]; apply pole_of; try lra.
    + replace ((B - 19) * (B - 19) - 1) with (664 - 38 * B) by nra. lra.
    + replace ((- B - 19) * (- B - 19) - 1) with (664 + 38 * B) by nra. lra.
  - assert (B0 := sqrt_pos 26.25). assert (BB : sqrt 26.25 * sqrt 26.25 = 26.25) by (apply sqrt_sqrt; lra). set (B := sqrt 26.25) in *.
    assert (C : sqrt 4436.25 = 13 * B) by (apply sqrt_eq; nra). rewrite C. assert (L1 : B < 5.5) by nra.
    constructor; [|constructor; [|constructor]]; apply pole_of; try lra.
    + replace ((B - 6.5) * (B - 6.5) - 1) with (67.5 - 13 * B) by nra. lra.
    + replace ((- B - 6.5) * (- B - 6.5) - 1) with (67.5 + 13 * B) by nra. lra.
Qed.

Lemma short_horizon p n : p <> 0 -> Rabs p < 1 -> (1 <= n)%Z -> / 10 ^ 15 < Rabs p ^ Z.to_nat (n - 1) -> (n <= horizon p)%Z.
Proof.
  intros P0 P1 Hn H. assert (A : 0 < Rabs p) by (apply Rabs_pos_lt, P0). assert (T0 : 0 < / 10 ^ 15) by (apply Rinv_0_lt_compat, pow_lt; lra).
  assert (L : ln (Rabs p) < 0) by (rewrite <- ln_1; apply ln_increasing; assumption).
  apply ln_increasing in H; [|exact T0].
  assert (P : ln (Rabs p ^ Z.to_nat (n - 1)) = IZR (n - 1) * ln (Rabs p)).
  { rewrite ln_pow by exact A. rewrite INR_IZR_INZ, Z2Nat.id by lia. reflexivity. }
  rewrite P in H. unfold horizon, rceil. set (x := ln (/ 10 ^ 15) / ln (Rabs p)).
  assert (X : IZR (n - 1) < x).
  { unfold x. apply (Rmult_lt_reg_r (- ln (Rabs p))); [lra|]. unfold Rdiv. replace (ln (/ 10 ^ 15) * / ln (Rabs p) * - ln (Rabs p)) with (- ln (/ 10 ^ 15)) by (field; lra). lra. }
  fold (rfloor (- x)). pose proof (rfloor_bounds (- x)) as [F1 F2]. assert (IZR (rfloor (- x)) < IZR (- (n - 1))) by (rewrite opp_IZR; lra). apply lt_IZR in H0. lia.
Qed.

(* ---------------------------------------------------------------- weights at integer positions *)
Lemma offset_int t order j : (1 <= order)%Z -> offset t order (IZR j) = (j - (nweight t order - 1) / 2)%Z.
Proof.
  intros H. unfold offset. replace (order =? 0)%Z with false by lia. apply rfloor_unique. set (w := nweight t order). rewrite minus_IZR.
  pose proof (Z.div_mod (w - 1) 2 ltac:(lia)) as D. pose proof (Z.mod_pos_bound (w - 1) 2 ltac:(lia)) as M. set (q := ((w - 1) / 2)%Z) in *. set (r := ((w - 1) mod 2)%Z) in *.
  apply (f_equal IZR) in D. rewrite minus_IZR, plus_IZR, mult_IZR in D. assert (0 <= IZR r <= 1) by (split; apply IZR_le; lia). lra.
Qed.
Lemma weight_int t order j k : (1 <= order)%Z -> weight_at t order (IZR j) k = kernel t order (IZR (Z.abs ((nweight t order - 1) / 2 - k))).
Proof.
  intros H. unfold weight_at. replace (order =? 0)%Z with false by lia. rewrite offset_int by exact H. f_equal. rewrite <- !minus_IZR, <- abs_IZR. f_equal. f_equal. lia.
Qed.

(* weights along the extended line, at a pixel *)
Definition line_sum (b : edge) (t : kind) (order n : Z) (p : R) (c : arr) : R :=
  rsuml (map (fun k => weight_at t order p k * c (map_border b n (k + offset t order p) + 1)%Z) (zrange 0 (nweight t order))).

Ltac klt := repeat match goal with |- context [Rlt_dec ?a ?b] => destruct (Rlt_dec a b); try (exfalso; lra) end.

Lemma sum_2 b n c j : line_sum b Spline 2 n (IZR j) c = (ext b n c (j - 1) + 6 * ext b n c j + ext b n c (j + 1)) / 8.
Proof.
  unfold line_sum. rewrite offset_int by lia. change (nweight Spline 2) with 3%Z. change (zrange 0 3) with [0; 1; 2]%Z. cbn [map rsuml]. rewrite !weight_int by lia. change (nweight Spline 2) with 3%Z.
  change (Z.abs ((3 - 1) / 2 - 0)) with 1%Z. change (Z.abs ((3 - 1) / 2 - 1)) with 0%Z. change (Z.abs ((3 - 1) / 2 - 2)) with 1%Z. change ((3 - 1) / 2)%Z with 1%Z.
  fold (ext b n c (0 + (j - 1))). fold (ext b n c (1 + (j - 1))). fold (ext b n c (2 + (j - 1))).
  replace (0 + (j - 1))%Z with (j - 1)%Z by lia. replace (1 + (j - 1))%Z with j by lia. replace (2 + (j - 1))%Z with (j + 1)%Z by lia.
  unfold kernel. klt. lra.
Qed.
Lemma sum_3 b n c j : line_sum b Spline 3 n (IZR j) c = (ext b n c (j - 1) + 4 * ext b n c j + ext b n c (j + 1)) / 6.
Proof.
  unfold line_sum. rewrite offset_int by lia. change (nweight Spline 3) with 4%Z. change (zrange 0 4) with [0; 1; 2; 3]%Z. cbn [map rsuml]. rewrite !weight_int by lia. change (nweight Spline 3) with 4%Z.
  change (Z.abs ((4 - 1) / 2 - 0)) with 1%Z. change (Z.abs ((4 - 1) / 2 - 1)) with 0%Z. change (Z.abs ((4 - 1) / 2 - 2)) with 1%Z. change (Z.abs ((4 - 1) / 2 - 3)) with 2%Z. change ((4 - 1) / 2)%Z with 1%Z.
  fold (ext b n c (0 + (j - 1))). fold (ext b n c (1 + (j - 1))). fold (ext b n c (2 + (j - 1))). fold (ext b n c (3 + (j - 1))).
  replace (0 + (j - 1))%Z with (j - 1)%Z by lia. replace (1 + (j - 1))%Z with j by lia. replace (2 + (j - 1))%Z with (j + 1)%Z by lia.
  unfold kernel. klt. lra.
Qed.
Lemma sum_4 b n c j : line_sum b Spline 4 n (IZR j) c = (ext b n c (j - 2) + 76 * ext b n c (j - 1) + 230 * ext b n c j + 76 * ext b n c (j + 1) + ext b n c (j + 2)) / 384.
Proof.
  unfold line_sum. rewrite offset_int by lia. change (nweight Spline 4) with 5%Z. change (zrange 0 5) with [0; 1; 2; 3; 4]%Z. cbn [map rsuml]. rewrite !weight_int by lia. change (nweight Spline 4) with 5%Z.
  change (Z.abs ((5 - 1) / 2 - 0)) with 2%Z. change (Z.abs ((5 - 1) / 2 - 1)) with 1%Z. change (Z.abs ((5 - 1) / 2 - 2)) with 0%Z. change (Z.abs ((5 - 1) / 2 - 3)) with 1%Z. change (Z.abs ((5 - 1) / 2 - 4)) with 2%Z. change ((5 - 1) / 2)%Z with 2%Z.
  fold (ext b n c (0 + (j - 2))). fold (ext b n c (1 + (j - 2))). fold (ext b n c (2 + (j - 2))). fold (ext b n c (3 + (j - 2))). fold (ext b n c (4 + (j - 2))).
  replace (0 + (j - 2))%Z with (j - 2)%Z by lia. replace (1 + (j - 2))%Z with (j - 1)%Z by lia. replace (2 + (j - 2))%Z with j by lia. replace (3 + (j - 2))%Z with (j + 1)%Z by lia. replace (4 + (j - 2))%Z with (j + 2)%Z by lia.
  unfold kernel. klt. lra.
Qed.
Lemma sum_5 b n c j : line_sum b Spline 5 n (IZR j) c = (ext b n c (j - 2) + 26 * ext b n c (j - 1) + 66 * ext b n c j + 26 * ext b n c (j + 1) + ext b n c (j + 2)) / 120.
Proof.
  unfold line_sum. rewrite offset_int by lia. change (nweight Spline 5) with 6%Z. change (zrange 0 6) with [0; 1; 2; 3; 4; 5]%Z. cbn [map rsuml]. rewrite !weight_int by lia. change (nweight Spline 5) with 6%Z.
  change (Z.abs ((6 - 1) / 2 - 0)) with 2%Z. change (Z.abs ((6 - 1) / 2 - 1)) with 1%Z. change (Z.abs ((6 - 1) / 2 - 2)) with 0%Z. change (Z.abs ((6 - 1) / 2 - 3)) with 1%Z. change (Z.abs ((6 - 1) / 2 - 4)) with 2%Z. change (Z.abs ((6 - 1) / 2 - 5)) with 3%Z. change ((6 - 1) / 2)%Z with 2%Z.
  fold (ext b n c (0 + (j - 2))). fold (ext b n c (1 + (j - 2))). fold (ext b n c (2 + (j - 2))). fold (ext b n c (3 + (j - 2))). fold (ext b n c (4 + (j - 2))).
  replace (0 + (j - 2))%Z with (j - 2)%Z by lia. replace (1 + (j - 2))%Z with (j - 1)%Z by lia. replace (2 + (j - 2))%Z with j by lia. replace (3 + (j - 2))%Z with (j + 1)%Z by lia. replace (4 + (j - 2))%Z with (j + 2)%Z by lia.
  unfold kernel. klt. lra.
Qed.

(* ---------------------------------------------------------------- one line *)
Lemma ext_in b n c i : (0 <= i < n)%Z -> ext b n c i = c (i + 1)%Z.
Proof. intros H. unfold ext, map_border. replace ((i <? 0) || (i >=? n))%Z with false by lia. reflexivity. Qed.

(* the pixels where a filtered line can be sampled exactly *)
Definition zone (b : edge) (n : Z) (ps : list R) (i : Z) : Prop :=
  (b = ECyclic \/ b = EMirror) /\ (forall p, In p ps -> (n <= horizon p)%Z) \/ (1 <= i <= n - 2)%Z.
Lemma pole_tri b n p a c i : (2 <= n)%Z -> p <> 0 -> Rabs p < 1 -> zone b n [p] i -> pole_fwd b n (horizon p) p a = Some c ->
  tri (p + / p) (ext b n c) i = ext b n a i.
Proof.
  intros Hn P0 P1 [[Hb Hh]|Hi] Hc.
  - apply (pole_exact b n (horizon p)); try assumption. apply Hh. left; reflexivity.
  - unfold tri. rewrite !ext_in by lia. replace (i - 1 + 1)%Z with (i + 1 - 1)%Z by lia. apply (pole_interior b n (horizon p)); try assumption. lia.
Qed.
Lemma pole_total b n p a : (2 <= n)%Z -> exists c, pole_fwd b n (horizon p) p a = Some c.
Proof. intros Hn. destruct (pole_steps b n (horizon p) p a Hn) as (? & ? & ? & c & _ & _ & E & _). eauto. Qed.
Lemma pole_loop_total b n ps a : (2 <= n)%Z -> exists c, pole_loop b n false ps a = Some c.
Proof.
  intros Hn. unfold pole_loop. revert a; induction ps as [|p ps IH]; intros a; cbn [ofold]; [eauto|]. destruct (pole_total b n p a Hn) as [c E]. rewrite E. apply IH.
Qed.

Definition lzone (b : edge) (n : Z) (ps : list R) (j : Z) : Prop :=
  (b = ECyclic \/ b = EMirror) /\ (forall p, In p ps -> (n <= horizon p)%Z) \/ (zlen ps <= j <= n - 1 - zlen ps)%Z.
Definition okpole (p s : R) : Prop := p <> 0 /\ Rabs p < 1 /\ p + / p = s.
Lemma pole_gain p s : okpole p s -> (1 - p) * (1 - 1 / p) = 2 - s.
Proof. intros (P0 & _ & E). rewrite <- E. field. exact P0. Qed.

Lemma line_one b n p s a c j : okpole p s -> (2 <= n)%Z -> (0 <= j < n)%Z -> lzone b n [p] j ->
  pole_loop b n false [p] (fun k => a k * weight [p]) = Some c -> tri s (ext b n c) j = a (j + 1)%Z * (2 - s).
Proof.
  intros HP Hn Hj Hz Hc. unfold pole_loop in Hc. cbn [ofold] in Hc. destruct (pole_fwd b n (horizon p) p _) as [c'|] eqn:E; [|discriminate]. apply Some_inj in Hc; subst c'.
  pose proof (pole_gain p s HP) as G. destruct HP as (P0 & P1 & P2). apply pole_tri with (i := j) in E; [|exact Hn|exact P0|exact P1|].
  - rewrite P2 in E. rewrite E, ext_in by exact Hj. unfold weight. cbn [map rprodl]. rewrite G. ring.
  - destruct Hz as [Hz|Hz]; [left; exact Hz|right; unfold zlen in Hz; cbn [length] in Hz; lia].
Qed.
Lemma line_two b n p q s r a c j : okpole p s -> okpole q r -> (2 <= n)%Z -> (0 <= j < n)%Z -> lzone b n [p; q] j ->
  pole_loop b n false [p; q] (fun k => a k * weight [p; q]) = Some c -> tri s (tri r (ext b n c)) j = a (j + 1)%Z * ((2 - s) * (2 - r)).
Proof.
  intros HP HQ Hn Hj Hz Hc. unfold pole_loop in Hc. cbn [ofold] in Hc. destruct (pole_fwd b n (horizon p) p _) as [c1|] eqn:E1; [|discriminate].
  destruct (pole_fwd b n (horizon q) q _) as [c2|] eqn:E2; [|discriminate]. apply Some_inj in Hc; subst c2.
  pose proof (pole_gain p s HP) as G1. pose proof (pole_gain q r HQ) as G2. destruct HP as (P0 & P1 & P2), HQ as (Q0 & Q1 & Q2).
  assert (T2 : forall i, (j - 1 <= i <= j + 1)%Z -> tri r (ext b n c) i = ext b n c1 i).
  { intros i Hi. rewrite <- Q2. apply pole_tri; try assumption. destruct Hz as [[Hb Hz]|Hz]; [left; split; [exact Hb|]|right; unfold zlen in Hz; cbn [length] in Hz; lia].
    intros x [Ex|[]]. apply Hz. right; left; exact Ex. }
  assert (T1 : tri s (ext b n c1) j = ext b n (fun k => a k * weight [p; q]) j).
  { rewrite <- P2. apply pole_tri; try assumption. destruct Hz as [[Hb Hz]|Hz]; [left; split; [exact Hb|]|right; unfold zlen in Hz; cbn [length] in Hz; lia].
    intros x [Ex|[]]. apply Hz. left; exact Ex. }
  unfold tri at 1. rewrite !T2 by lia. unfold tri in T1. rewrite T1, ext_in by exact Hj. unfold weight. cbn [map rprodl]. rewrite G1, G2. ring.
Qed.

Lemma line_exact b n order ps a c j : poles order = Some ps -> (2 <= n)%Z -> (0 <= j < n)%Z -> lzone b n ps j ->
  pole_loop b n false ps (fun k => a k * weight ps) = Some c -> line_sum b Spline order n (IZR j) c = a (j + 1)%Z.
Proof.
  intros Hps Hn Hj Hz Hc. pose proof (poles_spec order ps Hps) as P.
  assert (O : (order = 2 \/ order = 3 \/ order = 4 \/ order = 5)%Z).
  { unfold poles in Hps. destruct order as [|o|o]; try discriminate. do 3 (destruct o as [o|o|]; try discriminate; try (now auto)). }
  destruct O as [O|[O|[O|O]]]; subst order; cbn [svals] in P.
  - inversion P as [|p s ps' ss HP P' E1 E2]; subst. inversion P'; subst. apply (line_one _ _ _ _ _ _ _ HP Hn Hj Hz) in Hc. unfold tri in Hc. rewrite sum_2. lra.
  - inversion P as [|p s ps' ss HP P' E1 E2]; subst. inversion P'; subst. apply (line_one _ _ _ _ _ _ _ HP Hn Hj Hz) in Hc. unfold tri in Hc. rewrite sum_3. lra.
  - inversion P as [|p s ps' ss HP P' E1 E2]; subst. inversion P' as [|q r ps'' ss' HQ P'' E1 E2]; subst. inversion P''; subst.
    apply (line_two _ _ _ _ _ _ _ _ _ HP HQ Hn Hj Hz) in Hc. unfold tri in Hc.
    replace (j - 1 - 1)%Z with (j - 2)%Z in Hc by lia. replace (j - 1 + 1)%Z with j in Hc by lia. replace (j + 1 - 1)%Z with j in Hc by lia. replace (j + 1 + 1)%Z with (j + 2)%Z in Hc by lia.
    rewrite sum_4. assert (BB : sqrt 304 * sqrt 304 = 304) by (apply sqrt_sqrt; lra). set (B := sqrt 304) in *.
    assert (E : (2 - 2 * (B - 19)) * (2 - 2 * (- B - 19)) = 384) by nra. rewrite E in Hc.
    assert (E3 : 2 * (B - 19) * (2 * (- B - 19)) = 228) by nra.
    match goal with |- ?x / 384 = ?y => enough (G : x = y * 384) by (rewrite G; field) end. rewrite <- Hc.
    match type of E3 with ?x = _ => transitivity (ext b n c (j - 2) + 76 * ext b n c (j - 1) + (2 + x) * ext b n c j + 76 * ext b n c (j + 1) + ext b n c (j + 2)); [rewrite E3; ring|ring] end.
  - inversion P as [|p s ps' ss HP P' E1 E2]; subst. inversion P' as [|q r ps'' ss' HQ P'' E1 E2]; subst. inversion P''; subst.
    apply (line_two _ _ _ _ _ _ _ _ _ HP HQ Hn Hj Hz) in Hc. unfold tri in Hc.
    replace (j - 1 - 1)%Z with (j - 2)%Z in Hc by lia. replace (j - 1 + 1)%Z with j in Hc by lia. replace (j + 1 - 1)%Z with j in Hc by lia. replace (j + 1 + 1)%Z with (j + 2)%Z in Hc by lia.
    rewrite sum_5. replace 6.5 with (13 / 2) in Hc by lra. assert (BB : sqrt 26.25 * sqrt 26.25 = 26.25) by (apply sqrt_sqrt; lra). set (B := sqrt 26.25) in *.
    assert (E : (2 - 2 * (B - 13 / 2)) * (2 - 2 * (- B - 13 / 2)) = 120) by nra. rewrite E in Hc.
    assert (E3 : 2 * (B - 13 / 2) * (2 * (- B - 13 / 2)) = 64) by nra.
    match goal with |- ?x / 120 = ?y => enough (G : x = y * 120) by (rewrite G; field) end. rewrite <- Hc.
    match type of E3 with ?x = _ => transitivity (ext b n c (j - 2) + 26 * ext b n c (j - 1) + (2 + x) * ext b n c j + 26 * ext b n c (j + 1) + ext b n c (j + 2)); [rewrite E3; ring|field] end.
Qed.

(* ---------------------------------------------------------------- all axes *)
Lemma ravel_shift shape J e : length J = length shape -> ravel shape J e = (e * zprod shape + ravel shape J 0)%Z.
Proof.
  revert J e; induction shape as [|n shape IH]; intros [|j J] e L; cbn [length] in L; try discriminate; cbn [ravel zprod]; [lia|].
  rewrite (IH J (e * n + j)%Z), (IH J (0 * n + j)%Z) by lia. ring.
Qed.
Lemma ravel_range shape J : inside shape J -> (0 <= ravel shape J 0 < zprod shape)%Z.
Proof.
  revert J; induction shape as [|n shape IH]; intros [|j J] H; cbn [inside] in H; try contradiction; cbn [ravel zprod]; [lia|].
  destruct H as [H1 H2]. specialize (IH J H2).
  assert (L : length J = length shape). { clear - H2. revert J H2; induction shape as [|m shape IH]; intros [|i J] H; cbn [inside] in H; try contradiction; cbn [length]; [reflexivity|f_equal; apply IH, H]. }
  rewrite ravel_shift by exact L. nia.
Qed.
Lemma inside_length shape J : inside shape J -> length J = length shape.
Proof. revert J; induction shape as [|m shape IH]; intros [|i J] H; cbn [inside] in H; try contradiction; cbn [length]; [reflexivity|f_equal; apply IH, H]. Qed.

Section Nd.
Variables (b : edge) (order : Z) (ps : list R).
Hypothesis Hps : poles order = Some ps.

(* where the samples along every axis are recovered *)
Fixpoint nzone (shape J : list Z) : Prop :=
  match shape, J with
  | n :: shape, j :: J => (2 <= n)%Z /\ (0 <= j < n)%Z /\ lzone b n ps j
      /\ (forall k, (0 <= k < nweight Spline order)%Z -> (0 <= map_border b n (k + offset Spline order (IZR j)) < n)%Z) /\ nzone shape J
  | [], [] => True
  | _, _ => False
  end.
Lemma nzone_inside shape J : nzone shape J -> inside shape J.
Proof. revert J; induction shape as [|n shape IH]; intros [|j J] H; cbn [nzone inside] in *; try contradiction; [exact Logic.I|]. split; [apply H|apply IH, H]. Qed.

Lemma nest_exact (dims : list Z) (lines : nat -> list (Z * Z)) : (forall x, In x dims -> (1 <= x)%Z) -> valid_lines dims lines ->
  forall shape pre, dims = pre ++ shape -> forall J D, nzone shape J -> forall D',
  ofold (fun d axis => spline_filter1d (lines axis) d dims axis order b false) (seq (length pre) (length shape)) D = Some D' ->
  forall e, (0 <= e < zprod pre)%Z -> nest b Spline order shape (map IZR J) D' e = D (ravel shape J e).
Proof.
  intros Hd V. induction shape as [|n shape IH]; intros pre Ed [|j J] D HZ D' HD e He; cbn [nzone] in HZ; try contradiction.
  - cbn [length seq ofold] in HD. apply Some_inj in HD. subst D'. reflexivity.
  - destruct HZ as (Hn & Hj & Hl & Hm & HJ). cbn [length seq ofold] in HD.
    destruct (spline_filter1d (lines (length pre)) D dims (length pre) order b false) as [D1|] eqn:E1; [|discriminate].
    assert (Ed' : dims = (pre ++ [n]) ++ shape) by (rewrite <- app_assoc; exact Ed).
    assert (Lp : length (pre ++ [n]) = S (length pre)) by (rewrite app_length; cbn [length]; lia).
    specialize (IH (pre ++ [n]) Ed' J D1 HJ D'). rewrite Lp in IH. specialize (IH HD).
    assert (Zp : zprod (pre ++ [n]) = (zprod pre * n)%Z) by (rewrite zprod_app; cbn [zprod]; lia). rewrite Zp in IH.
    set (noff := zprod shape). set (oi := ravel shape J 0).
    assert (Hoi : (0 <= oi < noff)%Z) by (apply ravel_range, nzone_inside, HJ).
    assert (LJ : length J = length shape) by (apply inside_length, nzone_inside, HJ).
    (* what the filter does along this axis *)
    unfold spline_filter1d in E1. rewrite Hps in E1. rewrite Ed in E1. rewrite app_nth2, Nat.sub_diag in E1 by lia. cbn [nth] in E1.
    replace (skipn (S (length pre)) (pre ++ n :: shape)) with shape in E1.
    2: { rewrite skipn_app, skipn_all2 by lia. replace (S (length pre) - length pre)%nat with 1%nat by lia. reflexivity. }
    fold noff in E1.
    assert (HF : exists F, forall a, pole_loop b n false ps a = Some (F a)).
    { exists (fun a => match pole_loop b n false ps a with Some c => c | None => a end). intros a. destruct (pole_loop_total b n ps a Hn) as [c Ec]. rewrite Ec. reflexivity. }
    destruct HF as [F HF].
    assert (PV := V (length pre)). rewrite Ed in PV. rewrite app_length in PV. cbn [length] in PV. specialize (PV ltac:(lia)).
    replace (skipn (S (length pre)) (pre ++ n :: shape)) with shape in PV.
    2: { rewrite skipn_app, skipn_all2 by lia. replace (S (length pre) - length pre)%nat with 1%nat by lia. reflexivity. }
    rewrite firstn_app, firstn_all, Nat.sub_diag, firstn_O, app_nil_r in PV. fold noff in PV.
    rewrite (lines_run n noff ltac:(lia) ltac:(lia) b false ps F HF) in E1.
    2: { apply (Permutation_NoDup (Permutation_sym PV)). apply all_lines_NoDup; lia. }
    2: { intros ob Hob. apply (Permutation_in _ PV) in Hob. apply all_lines_In in Hob; lia. }
    apply Some_inj in E1.
    cbn [map nest]. cbn [ravel].
    pose proof (line_exact b n order ps (take_line n noff D (start n noff (oi, e))) (F (ldata n noff ps D (oi, e))) j Hps Hn Hj Hl (HF _)) as X.
    unfold line_sum in X. unfold take_line at 1 in X. replace ((1 <=? j + 1) && (j + 1 <=? n))%Z with true in X by lia.
    replace (ravel shape J (e * n + j)) with (start n noff (oi, e) + (j + 1 - 1) * noff)%Z.
    2: { rewrite (ravel_shift shape J (e * n + j)) by exact LJ. fold noff oi. unfold start. cbn [fst snd]. ring. }
    rewrite <- X. apply rsuml_ext. intros k Hk. apply zrange_In in Hk. f_equal. specialize (Hm k Hk). set (x := map_border b n (k + offset Spline order (IZR j))) in *.
    rewrite IH by nia. rewrite ravel_shift by exact LJ. fold noff oi.
    replace ((e * n + x) * noff + oi)%Z with (start n noff (oi, e) + (x + 1 - 1) * noff)%Z by (unfold start; cbn [fst snd]; ring).
    destruct (line_at n noff ltac:(lia) ltac:(lia) oi e (x + 1)%Z Hoi ltac:(lia)) as [L1 L2].
    rewrite <- E1. unfold lresult. replace (on_lines n noff (lines (length pre)) _) with true.
    2: { symmetry. apply on_lines_In. rewrite L1. apply (Permutation_in _ (Permutation_sym PV)). apply all_lines_In. cbn [fst snd]. lia. }
    rewrite L1, L2. reflexivity.
Qed.
End Nd.
