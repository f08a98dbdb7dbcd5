(* C115: matched filters measure the fluxes of sources. *)
From Coq Require Import Reals Lra Lia.
From Coquelicot Require Import Complex.
From Verif Require Import Base ArrModel PixModel DctSpec DctLemmas FftSpec FftModel MfiSpec MfiModel MfiLemmas MfiLemmas2 MfiLemmas3 MfiLemmas4.
Ltac Zify.zify_post_hook ::= idtac.
Open Scope R_scope.

(* the map a transform was made for has pixels of equal size *)
Definition flat_map (u : uht) : Prop := equal_pixels (u_ny u) (u_nx u) (u_area u) (u_pixarea u).
Definition even_on (u : uht) (B : image) : Prop := even_profile (u_ny u) (u_nx u) B.
Definition within (u : uht) (y x : Z) : Prop := in_map (u_ny u) (u_nx u) y x.
Definition src (u : uht) (B : image) (F : R) (y0 x0 : Z) : image := source (u_ny u) (u_nx u) (u_area u) B F y0 x0.
Definition total (u : uht) (f : image) : R := rsum2 (u_ny u) (u_nx u) f.

Lemma flat_pix u : flat_map u -> (0 < u_ny u)%Z /\ (0 < u_nx u)%Z /\ 0 < u_area u /\ forall y x, within u y x -> u_pixarea u y x = pix (u_ny u) (u_nx u) (u_area u).
Proof. intros (A & B & C & D). repeat split; try assumption. intros y x H. rewrite D by exact H. unfold pix. rewrite mult_IZR. reflexivity. Qed.
Lemma src_eq u B F y0 x0 : same (u_ny u) (u_nx u) (src u B F y0 x0) (iscal F (fun y x => profile (u_ny u) (u_nx u) (u_area u) B (y - y0) (x - x0))).
Proof. intros y x _. reflexivity. Qed.

(* A unit point source put into one pixel and smoothed with the beam by the transform is the map of a source. *)
Theorem C115_source : forall u B y0 x0, flat_map u -> even_on u B -> within u y0 x0 ->
  exists s, bind (map2harm u (idiv (fun y x => if ((y =? y0) && (x =? x0))%Z%bool then 1 else 0) (u_pixarea u))) (fun h => harm2map u (hmul (cx B) h)) = Some s /\
    same (u_ny u) (u_nx u) s (src u B 1 y0 x0).
Proof.
  intros u B y0 x0 Fu EB H0. destruct (flat_pix u Fu) as (Hy & Hx & Ha & Hp). destruct (unit_source u Hy Hx Ha Hp B y0 x0 EB H0) as (h & s & Eh & Es & V).
  exists s. split; [rewrite Eh; exact Es|]. intros y x _. rewrite V. unfold src, source. ring.
Qed.

(* Noise given by its power spectrum: at the pixel of a source the filter gives its flux. *)
Theorem C115_constcov_flux : forall u B iN F y0 x0, flat_map u -> even_on u B -> even_on u iN -> within u y0 x0 ->
  exists rho kappa, matched_filter_constcov u (src u B F y0 x0) B iN = Some (rho, kappa) /\ rho y0 x0 = F * kappa /\
    kappa = / u_area u * total u (fun k l => B k l ^ 2 * iN k l).
Proof.
  intros u B iN F y0 x0 Fu EB EN H0. destruct (flat_pix u Fu) as (Hy & Hx & Ha & Hp).
  destruct (constcov_eq u Hy Hx Ha Hp (src u B F y0 x0) B iN EB EN) as (rho & E & V). do 2 eexists. split; [exact E|]. split; [|reflexivity].
  rewrite V by exact H0. rewrite (cv_ext _ _ _ _ _ (iscal F (one_source (u_ny u) (u_nx u) (u_area u) B y0 x0))) by (intros y x _; unfold src, source, iscal, one_source, source; ring).
  rewrite cv_scal. pose proof (unit_kap (u_ny u) (u_nx u) (u_area u) Hy Hx Ha B iN y0 x0 EB EN) as K. unfold kap in K.
  rewrite <- K. ring.
Qed.
(* In any map it is the flux of a source there that leaves the least misfit. *)
Theorem C115_constcov_best : forall u m B iN y0 x0, flat_map u -> even_on u B -> even_on u iN -> within u y0 x0 ->
  exists rho kappa, matched_filter_constcov u m B iN = Some (rho, kappa) /\
    (0 < kappa -> best (fun F => misfit_power (u_ny u) (u_nx u) (u_area u) iN (residual m (src u B 1 y0 x0) F)) (rho y0 x0 / kappa)).
Proof.
  intros u m B iN y0 x0 Fu EB EN H0. destruct (flat_pix u Fu) as (Hy & Hx & Ha & Hp).
  destruct (constcov_eq u Hy Hx Ha Hp m B iN EB EN) as (rho & E & V). do 2 eexists. split; [exact E|]. intros K.
  rewrite V by exact H0. apply (parabola _ (u_area u / (IZR (u_ny u) * IZR (u_nx u)) ^ 2 * rsum2 (u_ny u) (u_nx u) (fun k l => iN k l * power (u_ny u) (u_nx u) m k l))); [|exact K].
  intros F. apply (misfit_parabola (u_ny u) (u_nx u) (u_area u) Hy Hx Ha B iN m y0 x0 EB EN F).
Qed.
(* No linear estimator that gets the flux of sources right has a smaller variance, which is 1/kappa. *)
Theorem C115_constcov_variance : forall u B iN y0 x0, flat_map u -> even_on u B -> even_on u iN -> within u y0 x0 ->
  (forall k l, within u k l -> 0 < iN k l) -> 0 < total u (fun k l => B k l ^ 2 * iN k l) ->
  exists a, least_variance (u_ny u) (u_nx u) (variance_power (u_ny u) (u_nx u) (u_area u) iN) (src u B 1 y0 x0) a /\
    forall m, exists rho kappa, matched_filter_constcov u m B iN = Some (rho, kappa) /\
      rho y0 x0 / kappa = weighted (u_ny u) (u_nx u) a m /\ variance_power (u_ny u) (u_nx u) (u_area u) iN a = / kappa.
Proof.
  intros u B iN y0 x0 Fu EB EN H0 N0 T0. destruct (flat_pix u Fu) as (Hy & Hx & Ha & Hp).
  assert (K0 : 0 < kap (u_ny u) (u_nx u) (u_area u) B iN) by (unfold kap; apply Rmult_lt_0_compat; [apply Rinv_0_lt_compat, Ha|exact T0]).
  exists (wts (u_ny u) (u_nx u) (u_area u) B iN y0 x0). split.
  - split.
    + rewrite (weighted_wts (u_ny u) (u_nx u) (u_area u) Hy Hx Ha B iN y0 x0 EB EN).
      pose proof (unit_kap (u_ny u) (u_nx u) (u_area u) Hy Hx Ha B iN y0 x0 EB EN) as K. unfold one_source in K. unfold src. rewrite K. field. lra.
    + intros c U. rewrite (var_wts (u_ny u) (u_nx u) (u_area u) Hy Hx Ha B iN y0 x0 EB EN K0 N0).
      exact (var_bound (u_ny u) (u_nx u) (u_area u) Hy Hx Ha B iN y0 x0 EB K0 N0 c U).
  - intros m. destruct (constcov_eq u Hy Hx Ha Hp m B iN EB EN) as (rho & E & V). do 2 eexists. split; [exact E|]. split.
    + rewrite V by exact H0. rewrite (weighted_wts (u_ny u) (u_nx u) (u_area u) Hy Hx Ha B iN y0 x0 EB EN). reflexivity.
    + apply (var_wts (u_ny u) (u_nx u) (u_area u) Hy Hx Ha B iN y0 x0 EB EN K0 N0).
Qed.

(* Independent noise in every pixel. *)
Lemma white_rho u (Hy : (0 < u_ny u)%Z) (Hx : (0 < u_nx u)%Z) (Ha : 0 < u_area u) B a (y0 x0 : Z) : even_on u B ->
  cv (u_ny u) (u_nx u) (u_area u) B a y0 x0 = rsum2 (u_ny u) (u_nx u) (fun y x => a y x * src u B 1 y0 x0 y x).
Proof.
  intros EB. rewrite <- (weighted_cv (u_ny u) (u_nx u) (u_area u) Hy Hx Ha y0 x0 B a EB). apply rsum2_ext. intros y x _. unfold src, source. ring.
Qed.
Lemma white_kappa u (Hy : (0 < u_ny u)%Z) (Hx : (0 < u_nx u)%Z) (Ha : 0 < u_area u) B iv (y0 x0 : Z) : even_on u B ->
  rsum2 (u_ny u) (u_nx u) (fun j i => iv j i * profile (u_ny u) (u_nx u) (u_area u) B (y0 - j) (x0 - i) ^ 2) = wk (u_ny u) (u_nx u) iv (src u B 1 y0 x0).
Proof.
  intros EB. apply rsum2_ext. intros y x _. unfold src, source. rewrite Rmult_1_l. f_equal. f_equal.
  rewrite <- (prof_even (u_ny u) (u_nx u) Hy Hx (u_area u) Ha B) by exact EB. f_equal; ring.
Qed.
Theorem C115_white_flux : forall u B ivar F y0 x0, flat_map u -> even_on u B -> within u y0 x0 ->
  exists rho kappa, matched_filter_white u (src u B F y0 x0) B ivar None = Some (rho, kappa) /\ rho y0 x0 = F * kappa y0 x0 /\
    kappa y0 x0 = total u (fun y x => ivar y x * src u B 1 y0 x0 y x ^ 2).
Proof.
  intros u B iv F y0 x0 Fu EB H0. destruct (flat_pix u Fu) as (Hy & Hx & Ha & Hp).
  destruct (white_eq u Hy Hx Ha Hp (src u B F y0 x0) B iv EB) as (rho & kappa & E & V & W). exists rho, kappa. split; [exact E|].
  rewrite W, V by exact H0. rewrite (white_kappa u Hy Hx Ha) by exact EB. split; [|reflexivity].
  rewrite (white_rho u Hy Hx Ha B _ y0 x0 EB). unfold wk. rewrite <- rsum2_scal_l. apply rsum2_ext. intros y x _. unfold imul, src, source. ring.
Qed.
Theorem C115_white_best : forall u m B ivar y0 x0, flat_map u -> even_on u B -> within u y0 x0 ->
  exists rho kappa, matched_filter_white u m B ivar None = Some (rho, kappa) /\
    (0 < kappa y0 x0 -> best (fun F => misfit_white (u_ny u) (u_nx u) ivar (residual m (src u B 1 y0 x0) F)) (rho y0 x0 / kappa y0 x0)).
Proof.
  intros u m B iv y0 x0 Fu EB H0. destruct (flat_pix u Fu) as (Hy & Hx & Ha & Hp).
  destruct (white_eq u Hy Hx Ha Hp m B iv EB) as (rho & kappa & E & V & W). exists rho, kappa. split; [exact E|].
  rewrite W, V by exact H0. rewrite (white_kappa u Hy Hx Ha) by exact EB. intros K.
  apply (parabola _ (rsum2 (u_ny u) (u_nx u) (fun y x => iv y x * m y x ^ 2))); [|exact K].
  intros F. rewrite white_parabola, (white_rho u Hy Hx Ha) by exact EB. reflexivity.
Qed.
Theorem C115_white_variance : forall u B ivar y0 x0, flat_map u -> even_on u B -> within u y0 x0 ->
  (forall y x, within u y x -> 0 < ivar y x) -> 0 < total u (fun y x => ivar y x * src u B 1 y0 x0 y x ^ 2) ->
  exists a, least_variance (u_ny u) (u_nx u) (variance_white (u_ny u) (u_nx u) ivar) (src u B 1 y0 x0) a /\
    forall m, exists rho kappa, matched_filter_white u m B ivar None = Some (rho, kappa) /\
      rho y0 x0 / kappa y0 x0 = weighted (u_ny u) (u_nx u) a m /\ variance_white (u_ny u) (u_nx u) ivar a = / kappa y0 x0.
Proof.
  intros u B iv y0 x0 Fu EB H0 V0 T0. destruct (flat_pix u Fu) as (Hy & Hx & Ha & Hp).
  change (0 < wk (u_ny u) (u_nx u) iv (src u B 1 y0 x0)) in T0.
  exists (wwts (u_ny u) (u_nx u) iv (src u B 1 y0 x0)). split.
  - split; [apply wwts_1, T0|]. intros c U. rewrite (var_wwts (u_ny u) (u_nx u) iv _ T0 V0). apply wbound; assumption.
  - intros m. destruct (white_eq u Hy Hx Ha Hp m B iv EB) as (rho & kappa & E & V & W). exists rho, kappa. split; [exact E|].
    rewrite W, V by exact H0. rewrite (white_kappa u Hy Hx Ha), (white_rho u Hy Hx Ha) by exact EB. split.
    + rewrite wwts_w. reflexivity.
    + apply var_wwts; assumption.
Qed.

(* Correlated noise modulated by the depth. If the correlations are those of white noise, or the depth is uniform, the flux is exact; otherwise it can
   be made so at the centre of the map. *)
Lemma conv_src u (Hy : (0 < u_ny u)%Z) (Hx : (0 < u_nx u)%Z) (Ha : 0 < u_area u) A B F y0 x0 : even_on u A -> even_on u B ->
  cv (u_ny u) (u_nx u) (u_area u) A (src u B F y0 x0) y0 x0 = F * (/ pix (u_ny u) (u_nx u) (u_area u) * (/ u_area u * total u (imul B A))).
Proof.
  intros EA EB. rewrite (cv_ext _ _ _ _ _ _ y0 x0 (src_eq u B F y0 x0)), cv_scal, (beam_beam _ _ Hy Hx _ Ha) by assumption. rewrite !Z.sub_diag, prof_0. reflexivity.
Qed.
Lemma sum_sq u (Hy : (0 < u_ny u)%Z) (Hx : (0 < u_nx u)%Z) (Ha : 0 < u_area u) B (y x : Z) : even_on u B ->
  rsum2 (u_ny u) (u_nx u) (fun j i => profile (u_ny u) (u_nx u) (u_area u) B (y - j) (x - i) ^ 2) = / pix (u_ny u) (u_nx u) (u_area u) * (/ u_area u * total u (ipow B 2)).
Proof.
  intros EB. pose proof (conv_src u Hy Hx Ha B B 1 y x EB EB) as K. rewrite (white_rho u Hy Hx Ha) in K by exact EB. rewrite Rmult_1_l in K.
  transitivity (rsum2 (u_ny u) (u_nx u) (fun y1 x1 => src u B 1 y x y1 x1 * src u B 1 y x y1 x1)).
  - apply rsum2_ext. intros j i _. unfold src, source. rewrite <- (prof_even (u_ny u) (u_nx u) Hy Hx (u_area u) Ha B (y - j)) by exact EB.
    replace (- (y - j))%Z with (j - y)%Z by ring. replace (- (x - i))%Z with (i - x)%Z by ring. ring.
  - rewrite K. do 2 f_equal. apply rsum2_ext. intros j i _. unfold imul, ipow. ring.
Qed.
Theorem C115_lowcorr_white : forall u B ivar c F y0 x0, flat_map u -> even_on u B -> within u y0 x0 -> (forall y x, within u y x -> 0 <= ivar y x) -> total u (ipow B 2) <> 0 ->
  exists rho kappa, matched_filter_constcorr_lowcorr u (src u B F y0 x0) B ivar (fun _ _ => c) None false = Some (rho, kappa) /\ rho y0 x0 = F * kappa y0 x0 /\
    kappa y0 x0 = c * total u (fun y x => ivar y x * src u B 1 y0 x0 y x ^ 2).
Proof.
  intros u B iv c F y0 x0 Fu EB H0 V0 B0. destruct (flat_pix u Fu) as (Hy & Hx & Ha & Hp).
  destruct (lowcorr_eq u Hy Hx Ha Hp (src u B F y0 x0) B iv (fun _ _ => c) EB (even_const _ _ c) B0) as (rho & kappa & E & V & W). exists rho, kappa. split; [exact E|].
  rewrite W, V by exact H0. rewrite (white_kappa u Hy Hx Ha) by exact EB.
  assert (QC : rsum2 (u_ny u) (u_nx u) (imul (ipow B 2) (fun _ _ => c)) / rsum2 (u_ny u) (u_nx u) (ipow B 2) = c).
  { rewrite (rsum2_ext _ _ (imul (ipow B 2) (fun _ _ => c)) (fun y x => c * ipow B 2 y x)) by (intros y x _; unfold imul; ring).
    rewrite rsum2_scal_l. change (c * total u (ipow B 2) / total u (ipow B 2) = c). field. exact B0. }
  rewrite QC.
  split; [|reflexivity]. pose proof (pix_pos _ _ Hy Hx _ Ha) as Pp.
  rewrite (cv_ext _ _ _ _ _ (iscal (c / pix (u_ny u) (u_nx u) (u_area u)) (imul iv (src u B F y0 x0)))).
  - rewrite cv_scal, (white_rho u Hy Hx Ha) by exact EB. transitivity (c * rsum2 (u_ny u) (u_nx u) (fun y x => imul iv (src u B F y0 x0) y x * src u B 1 y0 x0 y x)).
    + field. lra.
    + unfold wk. rewrite Rmult_comm. transitivity (c * (F * rsum2 (u_ny u) (u_nx u) (fun y x => iv y x * src u B 1 y0 x0 y x ^ 2))); [|ring].
      rewrite Rmult_comm. f_equal. rewrite <- rsum2_scal_l. apply rsum2_ext. intros y x _. unfold imul, src, source. ring.
  - intros y x H. unfold imul at 1. rewrite (cv_const _ _ Hy Hx _ Ha) by exact H. unfold isqrt, iscal, imul. rewrite <- (sqrt_sqrt (iv y x)) at 3 by (apply V0, H). ring.
Qed.
Theorem C115_lowcorr_uniform : forall u B v iC F y0 x0, flat_map u -> even_on u B -> even_on u iC -> within u y0 x0 -> 0 <= v -> total u (ipow B 2) <> 0 ->
  exists rho kappa, matched_filter_constcorr_lowcorr u (src u B F y0 x0) B (fun _ _ => v) iC None false = Some (rho, kappa) /\ rho y0 x0 = F * kappa y0 x0 /\
    kappa y0 x0 = v * total u (fun k l => B k l ^ 2 * iC k l) / (u_area u * (u_area u / (IZR (u_ny u) * IZR (u_nx u)))).
Proof.
  intros u B v iC F y0 x0 Fu EB EC H0 V0 B0. destruct (flat_pix u Fu) as (Hy & Hx & Ha & Hp). pose proof (pix_pos _ _ Hy Hx _ Ha) as Pp. pose proof (npix_pos _ _ Hy Hx) as Np.
  destruct (lowcorr_eq u Hy Hx Ha Hp (src u B F y0 x0) B (fun _ _ => v) iC EB EC B0) as (rho & kappa & E & V & W). exists rho, kappa. split; [exact E|].
  rewrite W, V by exact H0. rewrite rsum2_scal_l, (sum_sq u Hy Hx Ha B y0 x0 EB). unfold total. rewrite <- mult_IZR. fold (pix (u_ny u) (u_nx u) (u_area u)).
  change (fun k l : Z => B k l ^ 2 * iC k l) with (imul (ipow B 2) iC). split; [|field; repeat split; first [exact B0|lra]].
  rewrite (cv_ext _ _ _ _ _ (iscal v (cv (u_ny u) (u_nx u) (u_area u) iC (src u B F y0 x0)))).
  - rewrite cv_scal, (cv_cv _ _ Hy Hx _ Ha) by assumption. rewrite (conv_src u Hy Hx Ha) by (try apply even_mul; assumption).
    unfold total. rewrite (rsum2_ext _ _ (imul B (imul iC B)) (imul (ipow B 2) iC)) by (intros k l _; unfold imul, ipow; ring).
    field. repeat split; first [exact B0|lra].
  - intros y x _. change (imul (isqrt (fun _ _ => v)) (src u B F y0 x0)) with (iscal (sqrt v) (src u B F y0 x0)).
    unfold imul at 1, isqrt. rewrite cv_scal. unfold iscal. rewrite <- Rmult_assoc, sqrt_sqrt by exact V0. reflexivity.
Qed.
Theorem C115_lowcorr_high_acc : forall u B ivar iC F, flat_map u -> even_on u B -> even_on u iC -> total u (ipow B 2) <> 0 ->
  let cy := (u_ny u / 2)%Z in let cx := (u_nx u / 2)%Z in
  (exists rho kappa, matched_filter_constcorr_lowcorr u (src u B 1 cy cx) B ivar iC None false = Some (rho, kappa) /\ rho cy cx <> 0 /\ kappa cy cx <> 0) ->
  exists rho kappa, matched_filter_constcorr_lowcorr u (src u B F cy cx) B ivar iC None true = Some (rho, kappa) /\ rho cy cx = F * kappa cy cx.
Proof.
  intros u B iv iC F Fu EB EC B0 cy cx0 (rho1 & kap1 & E1 & R0 & K0). destruct (flat_pix u Fu) as (Hy & Hx & Ha & Hp).
  assert (H0 : within u cy cx0).
  { split; [split; [apply Z.div_pos; lia|apply Z.div_lt; lia]|split; [apply Z.div_pos; lia|apply Z.div_lt; lia]]. }
  destruct (lowcorr_eq u Hy Hx Ha Hp (src u B 1 cy cx0) B iv iC EB EC B0) as (rho2 & kap2 & E2 & V2 & W2). rewrite E1 in E2. injection E2 as <- <-.
  rewrite W2 in K0 by exact H0. rewrite V2 in R0 by exact H0.
  destruct (lowcorr_eq u Hy Hx Ha Hp (src u B F cy cx0) B iv iC EB EC B0) as (rho & kappa & E & V & W).
  unfold matched_filter_constcorr_lowcorr in E |- *. destruct (rpow_h u Hy Hx Ha B 2 EB) as (g & Eg0 & Eg). rewrite Eg0 in E |- *. cbn [bind] in E |- *.
  destruct (lowcorr_rho_eq u Hy Hx Ha Hp (isqrt iv) B iC (src u B F cy cx0) EB EC) as (rho' & Er0 & Er). rewrite Er0 in E |- *. cbn [bind] in E |- *.
  match type of E with bind ?a _ = _ => destruct a as [h|]; [|discriminate E] end. cbn [bind] in E |- *.
  match type of E with bind ?a _ = _ => destruct a as [k|]; [|discriminate E] end. cbn [bind] in E |- *. injection E as -> EK. fold cy cx0.
  destruct (unit_source u Hy Hx Ha Hp B cy cx0 EB H0) as (h1 & s & -> & Es & Vs). cbn [bind]. rewrite Es. cbn [bind].
  destruct (lowcorr_rho_eq u Hy Hx Ha Hp (isqrt iv) B iC s EB EC) as (kii & -> & Ek). cbn [bind]. do 2 eexists. split; [reflexivity|].
  rewrite EK. rewrite W by exact H0.
  assert (KI : kii cy cx0 = pix (u_ny u) (u_nx u) (u_area u) * cv (u_ny u) (u_nx u) (u_area u) B (imul (isqrt iv) (cv (u_ny u) (u_nx u) (u_area u) iC (imul (isqrt iv) (src u B 1 cy cx0)))) cy cx0).
  { rewrite Ek by exact H0. f_equal. apply cv_ext. intros j i _. unfold imul at 1 3. f_equal. apply cv_ext. intros j' i' _. unfold imul. f_equal. rewrite Vs. unfold src, source. ring. }
  rewrite KI. rewrite V by exact H0.
  replace (cv (u_ny u) (u_nx u) (u_area u) B (imul (isqrt iv) (cv (u_ny u) (u_nx u) (u_area u) iC (imul (isqrt iv) (src u B F cy cx0)))) cy cx0)
    with (F * cv (u_ny u) (u_nx u) (u_area u) B (imul (isqrt iv) (cv (u_ny u) (u_nx u) (u_area u) iC (imul (isqrt iv) (src u B 1 cy cx0)))) cy cx0).
  - set (K := rsum2 _ _ (imul (ipow B 2) iC) / _ * _) in *. set (Q := cv _ _ _ B _ cy cx0) in *. field. repeat split; try exact K0; try (intros Z0; apply R0; rewrite Z0; ring).
  - rewrite <- cv_scal. apply cv_ext. intros j i _. unfold iscal, imul at 1 3. transitivity (isqrt iv j i * (F * cv (u_ny u) (u_nx u) (u_area u) iC (imul (isqrt iv) (src u B 1 cy cx0)) j i)); [ring|]. f_equal.
    rewrite <- cv_scal. apply cv_ext. intros j' i' _. unfold iscal, imul, src, source. ring.
Qed.

(* In general kappa is that of white noise with the mean of iC over the multipoles, weighted with the squared beam. *)
Theorem C115_lowcorr_kappa : forall u m B ivar iC, flat_map u -> even_on u B -> even_on u iC -> total u (ipow B 2) <> 0 ->
  exists rho kappa, matched_filter_constcorr_lowcorr u m B ivar iC None false = Some (rho, kappa) /\ forall y x, within u y x -> kappa y x = total u (fun k l => B k l ^ 2 * iC k l) / total u (fun k l => B k l ^ 2) * total u (fun j i => ivar j i * src u B 1 y x j i ^ 2).
Proof.
  intros u m B iv iC Fu EB EC B0. destruct (flat_pix u Fu) as (Hy & Hx & Ha & Hp).
  destruct (lowcorr_eq u Hy Hx Ha Hp m B iv iC EB EC B0) as (rho & kappa & E & V & W). exists rho, kappa. split; [exact E|].
  intros y x H. rewrite W by exact H. rewrite (white_kappa u Hy Hx Ha) by exact EB. reflexivity.
Qed.
(* A beam squared in advance, B2, is used as it is: with the square of B the results are the same. *)
Theorem C115_b2 : forall u m B ivar iC high_acc b, hprof_rpow u B 2 = Some b ->
  matched_filter_white u m B ivar (Some b) = matched_filter_white u m B ivar None /\ matched_filter_constcorr_lowcorr u m B ivar iC (Some b) high_acc = matched_filter_constcorr_lowcorr u m B ivar iC None high_acc.
Proof. intros u m B iv iC ha b E. unfold matched_filter_white, matched_filter_constcorr_lowcorr. rewrite E. split; reflexivity. Qed.

(* The approximation that the depth varies slowly is exact when it does not vary. *)
Theorem C115_smoothivar : forall u B v iC F y0 x0, flat_map u -> even_on u B -> even_on u iC -> within u y0 x0 -> 0 <= v ->
  exists rho kappa, matched_filter_constcorr_smoothivar u (src u B F y0 x0) B (fun _ _ => v) iC = Some (rho, kappa) /\ rho y0 x0 = F * kappa y0 x0 /\
    kappa y0 x0 = v * total u (fun k l => B k l ^ 2 * iC k l) / (u_area u * (u_area u / (IZR (u_ny u) * IZR (u_nx u)))).
Proof.
  intros u B v iC F y0 x0 Fu EB EC H0 V0. destruct (flat_pix u Fu) as (Hy & Hx & Ha & Hp). pose proof (pix_pos _ _ Hy Hx _ Ha) as Pp.
  destruct (smooth_eq u Hy Hx Ha Hp (src u B F y0 x0) B (fun _ _ => v) iC EB EC) as (rho & kappa & E & V & W). exists rho, kappa. split; [exact E|].
  rewrite W, V by exact H0. unfold total. rewrite <- mult_IZR. fold (pix (u_ny u) (u_nx u) (u_area u)).
  change (fun k l : Z => B k l ^ 2 * iC k l) with (imul (ipow B 2) iC). split; [|field; split; lra].
  change (imul (isqrt (fun _ _ => v)) (src u B F y0 x0)) with (iscal (sqrt v) (src u B F y0 x0)). rewrite cv_scal.
  rewrite (conv_src u Hy Hx Ha) by (try apply even_mul; assumption). unfold total.
  rewrite (rsum2_ext _ _ (imul B (imul B iC)) (imul (ipow B 2) iC)) by (intros k l _; unfold imul, ipow; ring).
  rewrite <- Rmult_assoc, sqrt_sqrt by exact V0. field. split; lra.
Qed.

(* The dual model, where the depth modulates whitened noise, is exact for all depths and spectra. *)
Lemma dual_rho u (Hy : (0 < u_ny u)%Z) (Hx : (0 < u_nx u)%Z) (Ha : 0 < u_area u) B iv iC m (y0 x0 : Z) : even_on u B -> even_on u iC ->
  cv (u_ny u) (u_nx u) (u_area u) (imul (isqrt iC) B) (imul iv (iscal (pix (u_ny u) (u_nx u) (u_area u)) (cv (u_ny u) (u_nx u) (u_area u) (isqrt iC) m))) y0 x0 =
  rsum2 (u_ny u) (u_nx u) (fun y x => iv y x * smoothed (u_ny u) (u_nx u) (u_area u) (isqrt iC) m y x * src u (imul B (isqrt iC)) 1 y0 x0 y x).
Proof.
  intros EB EC. rewrite (cv_extB _ _ _ (imul (isqrt iC) B) (imul B (isqrt iC))) by (intros k l _; unfold imul; ring).
  rewrite (white_rho u Hy Hx Ha) by (apply even_mul; [exact EB|apply even_sqrt, EC]). apply rsum2_ext. intros y x _. unfold imul, iscal, smoothed, cv, pix. rewrite mult_IZR. reflexivity.
Qed.
Lemma dual_src u (Hy : (0 < u_ny u)%Z) (Hx : (0 < u_nx u)%Z) (Ha : 0 < u_area u) B iC F (y0 x0 : Z) : even_on u B -> even_on u iC ->
  same (u_ny u) (u_nx u) (smoothed (u_ny u) (u_nx u) (u_area u) (isqrt iC) (src u B F y0 x0)) (iscal F (src u (imul B (isqrt iC)) 1 y0 x0)).
Proof.
  intros EB EC y x _. pose proof (pix_pos _ _ Hy Hx _ Ha) as Pp. unfold smoothed. rewrite <- mult_IZR. fold (pix (u_ny u) (u_nx u) (u_area u)).
  fold (cv (u_ny u) (u_nx u) (u_area u) (isqrt iC) (src u B F y0 x0) y x).
  rewrite (cv_ext _ _ _ _ _ _ y x (src_eq u B F y0 x0)), cv_scal, (beam_beam _ _ Hy Hx _ Ha) by (try apply even_sqrt; assumption). unfold iscal, src, source. field. lra.
Qed.
Theorem C115_dual_flux : forall u B ivar iC F y0 x0, flat_map u -> even_on u B -> even_on u iC -> within u y0 x0 ->
  exists rho kappa, matched_filter_constcorr_dual u (src u B F y0 x0) B ivar iC = Some (rho, kappa) /\ rho y0 x0 = F * kappa y0 x0 /\
    kappa y0 x0 = total u (fun y x => ivar y x * smoothed (u_ny u) (u_nx u) (u_area u) (fun k l => sqrt (iC k l)) (src u B 1 y0 x0) y x ^ 2).
Proof.
  intros u B iv iC F y0 x0 Fu EB EC H0. destruct (flat_pix u Fu) as (Hy & Hx & Ha & Hp).
  destruct (dual_eq u Hy Hx Ha Hp (src u B F y0 x0) B iv iC EB EC) as (rho & kappa & E & V & W). exists rho, kappa. split; [exact E|].
  rewrite W, V by exact H0. rewrite (dual_rho u Hy Hx Ha) by assumption. rewrite (white_kappa u Hy Hx Ha) by (apply even_mul; [exact EB|apply even_sqrt, EC]).
  unfold wk. split.
  - rewrite <- rsum2_scal_l. apply rsum2_ext. intros y x H. rewrite (dual_src u Hy Hx Ha B iC F y0 x0 EB EC) by exact H. unfold iscal. ring.
  - apply rsum2_ext. intros y x H. change (fun k l : Z => sqrt (iC k l)) with (isqrt iC). rewrite (dual_src u Hy Hx Ha B iC 1 y0 x0 EB EC) by exact H. unfold iscal. ring.
Qed.
(* and gives the flux of least misfit after whitening *)
Theorem C115_dual_best : forall u m B ivar iC y0 x0, flat_map u -> even_on u B -> even_on u iC -> within u y0 x0 ->
  exists rho kappa, matched_filter_constcorr_dual u m B ivar iC = Some (rho, kappa) /\
    (0 < kappa y0 x0 -> best (fun F => misfit_white (u_ny u) (u_nx u) ivar (smoothed (u_ny u) (u_nx u) (u_area u) (fun k l => sqrt (iC k l)) (residual m (src u B 1 y0 x0) F))) (rho y0 x0 / kappa y0 x0)).
Proof.
  intros u m B iv iC y0 x0 Fu EB EC H0. destruct (flat_pix u Fu) as (Hy & Hx & Ha & Hp).
  destruct (dual_eq u Hy Hx Ha Hp m B iv iC EB EC) as (rho & kappa & E & V & W). exists rho, kappa. split; [exact E|].
  rewrite W, V by exact H0. rewrite (white_kappa u Hy Hx Ha) by (apply even_mul; [exact EB|apply even_sqrt, EC]). intros K.
  set (sm := smoothed (u_ny u) (u_nx u) (u_area u) (isqrt iC)).
  apply (parabola _ (rsum2 (u_ny u) (u_nx u) (fun y x => iv y x * sm m y x ^ 2))); [|exact K].
  intros F. rewrite (dual_rho u Hy Hx Ha) by assumption. fold sm. rewrite <- white_parabola.
  unfold misfit_white. apply rsum2_ext. intros y x H. do 2 f_equal. unfold residual at 2. pose proof (dual_src u Hy Hx Ha B iC 1 y0 x0 EB EC y x H) as DS. fold sm in DS. unfold iscal in DS. rewrite Rmult_1_l in DS. rewrite <- DS.
  unfold sm, smoothed. change (fun k l : Z => sqrt (iC k l)) with (isqrt iC).
  match goal with |- ?c * ?A = ?c * ?P - F * (?c * ?Q) => transitivity (c * (P + - F * Q)); [|ring] end. f_equal. rewrite <- rsum2_scal_l, <- rsum2_plus.
  apply rsum2_ext. intros j i _. unfold residual. ring.
Qed.

(* Powers and products taken in real space. *)
Theorem C115_rpow : forall u B n, (0 < u_ny u)%Z -> (0 < u_nx u)%Z -> 0 < u_area u -> even_on u B ->
  exists h, rpow u B n = Some h /\ even_on u h /\
    forall y x, profile (u_ny u) (u_nx u) (u_area u) h y x = profile (u_ny u) (u_nx u) (u_area u) B y x ^ n.
Proof.
  intros u B n Hy Hx Ha EB. destruct (rpow_eq u Hy Hx Ha B n EB) as (h & E & V). exists h. split; [exact E|].
  pose proof (nice_pow u _ n (nice_prof u Hy Hx Ha B EB)) as NP. split.
  - intros k l H. rewrite !V. apply tr_even; assumption.
  - intros y x. rewrite (prof_ext _ _ _ h (tr u (ipow (profile (u_ny u) (u_nx u) (u_area u) B) n))) by (intros k l _; apply V). rewrite (tr_prof u Hy Hx Ha _ y x NP). reflexivity.
Qed.
Theorem C115_rmul : forall u l, (0 < u_ny u)%Z -> (0 < u_nx u)%Z -> 0 < u_area u -> l <> [] -> Forall (even_on u) l ->
  exists h, rmul u l = Some h /\ even_on u h /\
    forall y x, profile (u_ny u) (u_nx u) (u_area u) h y x = fold_right (fun B s => profile (u_ny u) (u_nx u) (u_area u) B y x * s) 1 l.
Proof.
  intros u l Hy Hx Ha L F. destruct (rmul_eq u Hy Hx Ha l L F) as (h & g & E & NP & V & W). exists h. split; [exact E|]. split.
  - intros k l' H. rewrite !V. apply tr_even; assumption.
  - intros y x. rewrite (prof_ext _ _ _ h (tr u g)) by (intros k l' _; apply V). rewrite (tr_prof u Hy Hx Ha _ y x NP). apply W.
Qed.

(* Several maps with correlated noise: the fluxes solve the linear system kappa F = rho. *)
Theorem C115_nmat_constcov : forall u n iN apod beam (F : Z -> R) y0 x0, flat_map u -> (0 <= n)%Z -> within u y0 x0 ->
  (forall y x, within u y x -> apod y x = 1) -> (forall i, (0 <= i < n)%Z -> even_on u (beam i)) ->
  (forall i j, (0 <= i < n)%Z -> (0 <= j < n)%Z -> even_on u (iN i j)) ->
  exists rho kappa, nmat_constcov u n iN apod (fun j => src u (beam j) (F j) y0 x0) beam = Some (rho, kappa) /\ zlen rho = n /\
    forall i, (0 <= i < n)%Z -> nth (Z.to_nat i) rho (fun _ _ => 0) y0 x0 = rsum n (fun j => kappa i j y0 x0 * F j).
Proof.
  intros u n iN apod beam F y0 x0 Fu Hn H0 A1 EB EN. destruct (flat_pix u Fu) as (Hy & Hx & Ha & Hp). pose proof (pix_pos _ _ Hy Hx _ Ha) as Pp.
  destruct (nmat_constcov_eq u Hy Hx Ha Hp n iN apod (fun j => src u (beam j) (F j) y0 x0) beam Hn A1 EB EN) as (rho & kappa & E & L & V & W).
  exists rho, kappa. split; [exact E|]. split; [exact L|]. intros i Hi. rewrite V by assumption. rewrite <- rsum_scal_l. apply rsum_ext. intros j Hj.
  rewrite W by exact H0. rewrite (conv_src u Hy Hx Ha) by first [apply EB, Hj|apply even_mul; [apply EB, Hi|apply EN; assumption]]. unfold total.
  rewrite (rsum2_ext _ _ (imul (beam j) (imul (beam i) (iN i j))) (fun k l => beam i k l * iN i j k l * beam j k l)) by (intros k l _; unfold imul; ring).
  field. split; lra.
Qed.
(* The class for modulated correlated noise agrees with the function. *)
Theorem C115_nmat_constcorr : forall u iN ivar m B, flat_map u -> even_on u B -> even_on u iN -> (forall y x, within u y x -> 0 <= ivar y x) -> total u (ipow B 2) <> 0 ->
  exists rho kappa rho' kappa', nmat_constcorr u iN ivar m B = Some (rho, kappa) /\
    matched_filter_constcorr_lowcorr u m B ivar iN None false = Some (rho', kappa') /\
    same (u_ny u) (u_nx u) rho rho' /\ same (u_ny u) (u_nx u) kappa kappa'.
Proof.
  intros u iN iv m B Fu EB EN V0 B0. destruct (flat_pix u Fu) as (Hy & Hx & Ha & Hp).
  destruct (nmat_constcorr_eq u Hy Hx Ha Hp iN iv m B EB EN V0) as (rho & kappa & E & V & W).
  destruct (lowcorr_eq u Hy Hx Ha Hp m B iv iN EB EN B0) as (rho' & kappa' & E' & V' & W').
  exists rho, kappa, rho', kappa'. split; [exact E|]. split; [exact E'|]. split; intros y x H.
  - rewrite V, V' by exact H. reflexivity.
  - rewrite W, W' by exact H. reflexivity.
Qed.

(* A map of two pixels and a beam that spreads a quarter of the flux into the neighbour. *)
Definition ex_u : uht := UHT 1 2 2 (fun _ _ => 1).
Definition ex_B : image := fun _ l => if (l =? 0)%Z then 1 else / 2.
Definition ex_iN : image := fun _ l => if (l =? 0)%Z then 3 else 5.
Lemma rsum2_12 f : rsum2 1 2 f = f 0%Z 0%Z + f 0%Z 1%Z.
Proof. unfold rsum2, rsum. change (Z.to_nat 1) with 1%nat. change (Z.to_nat 2) with 2%nat. cbn [rsumn Z.of_nat Pos.of_succ_nat]. ring. Qed.
Lemma even_12 f : even_profile 1 2 f.
Proof. intros k l [Hk Hl]. assert (k = 0%Z) by lia. assert (l = 0 \/ l = 1)%Z as [->| ->] by lia; subst k; reflexivity. Qed.
Lemma prof_12 f x : profile 1 2 2 f 0 x = / 2 * (f 0%Z 0%Z + f 0%Z 1%Z * cos (PI * IZR x)).
Proof.
  unfold profile. rewrite rsum2_12. unfold angle. replace (2 * PI * (0 * 0 / 1 + 0 * IZR x / 2)) with 0 by field. rewrite cos_0.
  replace (2 * PI * (0 * 0 / 1 + 1 * IZR x / 2)) with (PI * IZR x) by field. ring.
Qed.
Example C115_ex : flat_map ex_u /\ even_on ex_u ex_B /\ even_on ex_u ex_iN /\ within ex_u 0 1 /\
  src ex_u ex_B 8 0 1 0%Z 1%Z = 6 /\ src ex_u ex_B 8 0 1 0%Z 0%Z = 2 /\
  0 < total ex_u (fun k l => ex_B k l ^ 2 * ex_iN k l) /\ 0 < total ex_u (fun y x => ex_iN y x * src ex_u ex_B 1 0 1 y x ^ 2) /\ total ex_u (ipow ex_B 2) <> 0.
Proof.
  assert (S1 : forall F, src ex_u ex_B F 0 1 0%Z 1%Z = F * (3 / 4)).
  { intros F. unfold src, source, ex_u. cbn [u_ny u_nx u_area]. change (0 - 0)%Z with 0%Z. change (1 - 1)%Z with 0%Z. rewrite prof_12.
    replace (PI * 0) with 0 by ring. rewrite cos_0. unfold ex_B. cbn. field. }
  assert (S0 : forall F, src ex_u ex_B F 0 1 0%Z 0%Z = F * (1 / 4)).
  { intros F. unfold src, source, ex_u. cbn [u_ny u_nx u_area]. change (0 - 0)%Z with 0%Z. change (0 - 1)%Z with (-1)%Z. rewrite prof_12.
    replace (PI * -1) with (- PI) by ring. rewrite cos_neg, cos_PI. unfold ex_B. cbn. field. }
  split; [|split; [apply even_12|split; [apply even_12|split; [unfold within, in_map; cbn; lia|]]]].
  - unfold flat_map, equal_pixels, ex_u. cbn [u_ny u_nx u_area u_pixarea]. split; [lia|]. split; [lia|]. split; [lra|]. intros y x _. field.
  - rewrite S1, S0. split; [lra|]. split; [lra|]. unfold total, ex_u. cbn [u_ny u_nx]. rewrite !rsum2_12. fold ex_u. rewrite S1, S0. unfold ex_B, ex_iN, ipow. cbn. split; [lra|]. split; lra.
Qed.
Print Assumptions C115_constcov_variance.
Print Assumptions C115_lowcorr_high_acc.
Print Assumptions C115_dual_best.
Print Assumptions C115_nmat_constcov.
