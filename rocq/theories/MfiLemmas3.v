(* Least squares and least variance. *)
From Coq Require Import Reals Lra Lia.
From Coquelicot Require Import Complex.
From Verif Require Import Base ArrModel PixModel DctSpec DctLemmas FftSpec FftModel FftLemmas FftLemmas2 MfiSpec MfiModel MfiLemmas.
Ltac Zify.zify_post_hook ::= idtac.
Open Scope R_scope.

Lemma parabola (misfit : R -> R) al rho kappa : (forall F, misfit F = al - 2 * F * rho + F ^ 2 * kappa) -> 0 < kappa -> best misfit (rho / kappa).
Proof.
  intros E K G. rewrite !E. assert (I : al - 2 * G * rho + G ^ 2 * kappa - (al - 2 * (rho / kappa) * rho + (rho / kappa) ^ 2 * kappa) = kappa * (G - rho / kappa) ^ 2) by (field; lra).
  assert (0 <= kappa * (G - rho / kappa) ^ 2) by (apply Rmult_le_pos; [lra|apply pow2_ge_0]). lra.
Qed.
Definition nrm (z : C) : R := Re z ^ 2 + Im z ^ 2.
Lemma nrm_sub z s F : nrm (z - RtoC F * s)%C = nrm z - 2 * F * Re (Cconj s * z)%C + F ^ 2 * nrm s.
Proof. destruct z, s. unfold nrm. cbn. ring. Qed.
Lemma nrm_pos z : 0 <= nrm z.
Proof. unfold nrm. pose proof (pow2_ge_0 (Re z)). pose proof (pow2_ge_0 (Im z)). lra. Qed.
Lemma nrm_scal c z : nrm (RtoC c * z)%C = c ^ 2 * nrm z.
Proof. destruct z. unfold nrm. cbn. ring. Qed.
Lemma nrm_cis t : nrm (cis t) = 1.
Proof. unfold nrm, cis. cbn. pose proof (sin2_cos2 t) as H. unfold Rsqr in H. lra. Qed.

Section Stat.
Variables ny nx : Z.
Variable area : R.
Hypothesis Hy : (0 < ny)%Z.
Hypothesis Hx : (0 < nx)%Z.
Hypothesis Ha : 0 < area.
Notation p := (pix ny nx area).
Notation cv := (cv ny nx area).
Notation prof := (profile ny nx area).
Notation N := (IZR (ny * nx)).
Let Np : 0 < N := npix_pos ny nx Hy Hx.
Let Pp : 0 < p := pix_pos ny nx Hy Hx area Ha.
Notation D := (D ny nx).

Lemma area_N : area = N * p. Proof. unfold pix. field. lra. Qed.
Lemma power_D m k l : power ny nx m k l = nrm (D (-1) (cx m) k l).
Proof.
  unfold power, nrm, MfiLemmas.D. rewrite Re_csum2, Im_csum2. f_equal.
  - f_equal. apply rsum2_ext. intros y x _. unfold cx.
    replace (-1 * (y * k))%Z with (- (k * y))%Z by ring. replace (-1 * (x * l))%Z with (- (l * x))%Z by ring.
    rewrite !w_opp by assumption. rewrite <- Cmult_conj, ww_angle by assumption. cbn. ring.
  - rewrite <- (Rsqr_pow2 (rsum2 ny nx (fun y x => m y x * sin _))), Rsqr_neg, Rsqr_pow2. f_equal.
    replace (- rsum2 ny nx (fun y x => m y x * sin (angle ny nx k l y x))) with (-1 * rsum2 ny nx (fun y x => m y x * sin (angle ny nx k l y x))) by ring.
    rewrite <- rsum2_scal_l. apply rsum2_ext. intros y x _. unfold cx.
    replace (-1 * (y * k))%Z with (- (k * y))%Z by ring. replace (-1 * (x * l))%Z with (- (l * x))%Z by ring.
    rewrite !w_opp by assumption. rewrite <- Cmult_conj, ww_angle by assumption. cbn. ring.
Qed.
Lemma D_sub m s F k l : D (-1) (cx (residual m s F)) k l = (D (-1) (cx m) k l - RtoC F * D (-1) (cx s) k l)%C.
Proof.
  replace (D (-1) (cx m) k l - RtoC F * D (-1) (cx s) k l)%C with (D (-1) (cx m) k l + RtoC (- F) * D (-1) (cx s) k l)%C by (rewrite RtoC_opp; ring).
  rewrite <- D_scal. unfold MfiLemmas.D, csum2. rewrite <- csum_plus. apply csum_ext. intros j _. rewrite <- csum_plus. apply csum_ext. intros i _.
  unfold cx, residual. rewrite RtoC_minus, RtoC_mult, RtoC_opp. ring.
Qed.
(* the transform of a beam centred on a pixel *)
Definition ph (y0 x0 k l : Z) : C := (w ny (- (k * y0)) * w nx (- (l * x0)))%C.
Lemma ph_conj y0 x0 k l : Cconj (ph y0 x0 k l) = (w ny (1 * (k * y0)) * w nx (1 * (l * x0)))%C.
Proof. unfold ph. rewrite Cmult_conj, !w_opp, !Cconj_conj, !Z.mul_1_l by assumption. reflexivity. Qed.
Lemma ph_nrm y0 x0 k l : nrm (ph y0 x0 k l) = 1.
Proof. unfold ph. replace (- (k * y0))%Z with (- k * y0)%Z by ring. replace (- (l * x0))%Z with (- l * x0)%Z by ring. rewrite ww_angle by assumption. apply nrm_cis. Qed.
Lemma D_beam B y0 x0 k l : even_profile ny nx B -> in_map ny nx k l ->
  D (-1) (cx (fun y x => prof B (y - y0) (x - x0))) k l = (RtoC (/ p * B k l) * ph y0 x0 k l)%C.
Proof.
  intros E H. assert (A0 : RtoC area <> RtoC 0) by (intros K; apply RtoC_inj in K; lra).
  rewrite (D_ext ny nx (-1) _ (fun y x => RtoC (/ area) * D (- (-1)) (fun k l => cx B k l * ph y0 x0 k l)%C y x)%C).
  - rewrite D_scal, (D_inv ny nx Hy Hx) by (try exact H; right; reflexivity). unfold cx. rewrite !Cmult_assoc, <- !RtoC_mult. f_equal. f_equal.
    unfold pix. field. lra.
  - intros y x _. change (- (-1))%Z with 1%Z. unfold ph. rewrite <- (D_shift ny nx Hy Hx), (D_prof ny nx Hy Hx area Ha B) by assumption. unfold cx. rewrite <- RtoC_mult. f_equal. field. lra.
Qed.
(* correlating a map with a beam, in Fourier space *)
Lemma corr_D B m y0 x0 : even_profile ny nx B ->
  rsum2 ny nx (fun k l => Re (RtoC (B k l) * Cconj (ph y0 x0 k l) * D (-1) (cx m) k l)%C) = area * cv B m y0 x0.
Proof.
  intros E. rewrite <- (Re_csum2 ny nx (fun k l => RtoC (B k l) * Cconj (ph y0 x0 k l) * D (-1) (cx m) k l)%C).
  transitivity (Re (RtoC (area * cv B m y0 x0))); [|reflexivity]. f_equal. rewrite <- (cv_D ny nx Hy Hx area Ha B m y0 x0 E).
  apply csum2_ext. intros k l _. rewrite ph_conj. unfold cx. ring.
Qed.

Section ConstCov.
Variables (B iN m : image) (y0 x0 : Z).
Hypothesis EB : even_profile ny nx B.
Hypothesis EN : even_profile ny nx iN.
Definition kap : R := / area * rsum2 ny nx (imul (ipow B 2) iN).
Definition one_source : image := source ny nx area B 1 y0 x0.
Lemma one_eq : same ny nx one_source (fun y x => prof B (y - y0) (x - x0)).
Proof. intros y x _. unfold one_source, source. ring. Qed.
Lemma D_one k l : in_map ny nx k l -> D (-1) (cx one_source) k l = (RtoC (/ p * B k l) * ph y0 x0 k l)%C.
Proof. intros H. rewrite <- D_beam by assumption. apply D_ext. intros y x H'. unfold cx. rewrite one_eq by assumption. reflexivity. Qed.
Lemma misfit_parabola F : misfit_power ny nx area iN (residual m one_source F) =
  area / (IZR ny * IZR nx) ^ 2 * rsum2 ny nx (fun k l => iN k l * power ny nx m k l) - 2 * F * (p * cv (imul B iN) m y0 x0) + F ^ 2 * kap.
Proof.
  unfold misfit_power.
  rewrite (rsum2_ext ny nx (fun k l => iN k l * power ny nx (residual m one_source F) k l)
    (fun k l => iN k l * power ny nx m k l + ((-2 * F * / p) * Re (RtoC (imul B iN k l) * Cconj (ph y0 x0 k l) * D (-1) (cx m) k l)%C + (F ^ 2 * (/ p) ^ 2) * imul (ipow B 2) iN k l))).
  - rewrite rsum2_plus, rsum2_plus, !rsum2_scal_l, (corr_D (imul B iN)) by (apply even_mul; assumption). unfold kap. rewrite <- mult_IZR.
    set (S1 := rsum2 ny nx (imul (ipow B 2) iN)). set (S2 := cv (imul B iN) m y0 x0). set (S3 := rsum2 ny nx _). unfold pix. field. lra.
  - intros k l H. rewrite !power_D, D_sub, nrm_sub, D_one by assumption. rewrite nrm_scal, ph_nrm. unfold imul at 1, imul, ipow. rewrite Cmult_conj, Cconj_RtoC.
    replace (Re (RtoC (/ p * B k l) * Cconj (ph y0 x0 k l) * D (-1) (cx m) k l)%C) with (/ p * (B k l * Re (Cconj (ph y0 x0 k l) * D (-1) (cx m) k l)%C)).
    + replace (Re (RtoC (B k l * iN k l) * Cconj (ph y0 x0 k l) * D (-1) (cx m) k l)%C) with (B k l * iN k l * Re (Cconj (ph y0 x0 k l) * D (-1) (cx m) k l)%C); [ring|].
      destruct (Cconj (ph y0 x0 k l)), (D (-1) (cx m) k l). cbn. ring.
    + destruct (Cconj (ph y0 x0 k l)), (D (-1) (cx m) k l). cbn. ring.
Qed.
Definition wts : image := fun y x => p / kap * prof (imul B iN) (y - y0) (x - x0).
Lemma weighted_cv A c : even_profile ny nx A -> weighted ny nx c (fun y x => prof A (y - y0) (x - x0)) = cv A c y0 x0.
Proof.
  intros E. apply rsum2_ext. intros y x _. f_equal. rewrite <- (prof_even ny nx Hy Hx area Ha A) by exact E. f_equal; ring.
Qed.
Lemma weighted_wts c : weighted ny nx wts c = p * cv (imul B iN) c y0 x0 / kap.
Proof.
  rewrite <- weighted_cv by (apply even_mul; assumption). unfold weighted, wts.
  transitivity (p / kap * rsum2 ny nx (fun y x => c y x * prof (imul B iN) (y - y0) (x - x0))); [|unfold Rdiv; ring].
  rewrite <- rsum2_scal_l. apply rsum2_ext. intros y x _. ring.
Qed.
Lemma unit_kap : p * cv (imul B iN) one_source y0 x0 = kap.
Proof.
  rewrite (cv_ext ny nx area _ _ _ y0 x0 one_eq), (beam_beam ny nx Hy Hx area Ha) by (try apply even_mul; assumption).
  rewrite !Z.sub_diag, (prof_ext ny nx area _ (imul (ipow B 2) iN)) by (intros k l _; unfold imul, ipow; ring).
  rewrite prof_0. unfold kap. field. lra.
Qed.
Hypothesis K0 : 0 < kap.
Hypothesis N0 : forall k l, in_map ny nx k l -> 0 < iN k l.
Lemma var_wts : variance_power ny nx area iN wts = / kap.
Proof.
  unfold variance_power. rewrite (rsum2_ext ny nx _ (fun k l => (/ kap) ^ 2 * imul (ipow B 2) iN k l)).
  - rewrite rsum2_scal_l. transitivity ((/ kap) ^ 2 * kap); [unfold kap; ring|field; lra].
  - intros k l H. rewrite power_D.
    rewrite (D_ext ny nx (-1) _ (fun y x => RtoC (p / kap) * cx (fun y x => prof (imul B iN) (y - y0) (x - x0)) y x)%C) by (intros y x _; unfold cx, wts; rewrite RtoC_mult; reflexivity).
    rewrite D_scal, D_beam, !nrm_scal, ph_nrm by (try apply even_mul; assumption). unfold imul, ipow. specialize (N0 k l H). field. lra.
Qed.
Lemma var_bound c : weighted ny nx c one_source = 1 -> / kap <= variance_power ny nx area iN c.
Proof.
  intros U. assert (U1 : cv B c y0 x0 = 1).
  { rewrite <- weighted_cv by exact EB. rewrite <- U. apply rsum2_ext. intros y x H. rewrite one_eq by exact H. reflexivity. }
  pose proof (corr_D B c y0 x0 EB) as CD. rewrite U1, Rmult_1_r in CD.
  assert (Q : 0 <= rsum2 ny nx (fun k l => iN k l * nrm (RtoC (/ iN k l) * D (-1) (cx c) k l - RtoC (/ kap) * (RtoC (B k l) * ph y0 x0 k l))%C)).
  { apply rsum2_pos. intros k l H. specialize (N0 k l H). apply Rmult_le_pos; [lra|apply nrm_pos]. }
  rewrite (rsum2_ext ny nx _ (fun k l => power ny nx c k l / iN k l + ((-2 * / kap) * Re (RtoC (B k l) * Cconj (ph y0 x0 k l) * D (-1) (cx c) k l)%C + (/ kap) ^ 2 * imul (ipow B 2) iN k l))) in Q.
  - rewrite rsum2_plus, rsum2_plus, !rsum2_scal_l, CD in Q. unfold variance_power. set (P := rsum2 ny nx (fun k l => power ny nx c k l / iN k l)) in *.
    replace (rsum2 ny nx (imul (ipow B 2) iN)) with (area * kap) in Q by (unfold kap; field; lra).
    apply (Rmult_le_reg_l area); [exact Ha|]. replace (area * (/ area * P)) with P by (field; lra).
    replace (P + (-2 * / kap * area + (/ kap) ^ 2 * (area * kap))) with (P - area * / kap) in Q by (field; lra). lra.
  - intros k l H. specialize (N0 k l H). rewrite nrm_sub, !nrm_scal, ph_nrm, power_D, Cmult_conj, Cconj_RtoC. unfold imul, ipow.
    replace (Re (RtoC (B k l) * Cconj (ph y0 x0 k l) * (RtoC (/ iN k l) * D (-1) (cx c) k l))%C) with (/ iN k l * Re (RtoC (B k l) * Cconj (ph y0 x0 k l) * D (-1) (cx c) k l)%C).
    + field. lra.
    + destruct (Cconj (ph y0 x0 k l)), (D (-1) (cx c) k l). cbn. ring.
Qed.
End ConstCov.

Section White.
Variables (iv s m : image).
Definition wk : R := rsum2 ny nx (fun y x => iv y x * s y x ^ 2).
Lemma white_parabola F : misfit_white ny nx iv (residual m s F) = rsum2 ny nx (fun y x => iv y x * m y x ^ 2) - 2 * F * rsum2 ny nx (fun y x => iv y x * m y x * s y x) + F ^ 2 * wk.
Proof.
  unfold misfit_white, wk. rewrite (rsum2_ext ny nx _ (fun y x => iv y x * m y x ^ 2 + ((-2 * F) * (iv y x * m y x * s y x) + F ^ 2 * (iv y x * s y x ^ 2)))) by (intros y x _; unfold residual; ring).
  rewrite rsum2_plus, rsum2_plus, !rsum2_scal_l. ring.
Qed.
Definition wwts : image := fun y x => iv y x * s y x / wk.
Hypothesis K0 : 0 < wk.
Lemma wwts_w c : weighted ny nx wwts c = rsum2 ny nx (fun y x => iv y x * c y x * s y x) / wk.
Proof. unfold weighted, wwts. unfold Rdiv. rewrite <- rsum2_scal_r. apply rsum2_ext. intros y x _. ring. Qed.
Lemma wwts_1 : weighted ny nx wwts s = 1.
Proof. rewrite wwts_w. transitivity (wk / wk); [|field; lra]. f_equal. apply rsum2_ext. intros y x _. ring. Qed.
Hypothesis V0 : forall y x, in_map ny nx y x -> 0 < iv y x.
Lemma var_wwts : variance_white ny nx iv wwts = / wk.
Proof.
  unfold variance_white. rewrite (rsum2_ext ny nx _ (fun y x => (/ wk) ^ 2 * (iv y x * s y x ^ 2))).
  - rewrite rsum2_scal_l. fold wk. field. lra.
  - intros y x H. specialize (V0 y x H). unfold wwts. field. lra.
Qed.
Lemma wbound c : weighted ny nx c s = 1 -> / wk <= variance_white ny nx iv c.
Proof.
  intros U. assert (Q : 0 <= rsum2 ny nx (fun y x => iv y x * (c y x / iv y x - / wk * s y x) ^ 2)).
  { apply rsum2_pos. intros y x H. specialize (V0 y x H). apply Rmult_le_pos; [lra|apply pow2_ge_0]. }
  rewrite (rsum2_ext ny nx _ (fun y x => c y x ^ 2 / iv y x + ((-2 * / wk) * (c y x * s y x) + (/ wk) ^ 2 * (iv y x * s y x ^ 2)))) in Q.
  - rewrite rsum2_plus, rsum2_plus, !rsum2_scal_l in Q. fold wk in Q. unfold weighted in U. rewrite U in Q. unfold variance_white.
    replace (-2 * / wk * 1 + (/ wk) ^ 2 * wk) with (- / wk) in Q by (field; lra). lra.
  - intros y x H. specialize (V0 y x H). field. lra.
Qed.
End White.
End Stat.
