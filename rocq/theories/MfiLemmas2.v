(* What the matched filters compute, pixel by pixel. *)
From Coq Require Import Reals Lra Lia.
From Coquelicot Require Import Complex.
From Verif Require Import Base ArrModel PixModel DctSpec DctLemmas FftSpec FftModel FftLemmas FftLemmas2 MfiSpec MfiModel MfiLemmas.
Ltac Zify.zify_post_hook ::= idtac.
Open Scope R_scope.

(* the factors of the transforms *)
Lemma sq_facts n q : 0 < n -> 0 < q -> sqrt n <> 0 /\ sqrt q <> 0 /\ n * q = (sqrt n * sqrt n) * (sqrt q * sqrt q) /\ q = sqrt q * sqrt q.
Proof.
  intros Hn Hq. pose proof (sqrt_lt_R0 n Hn). pose proof (sqrt_lt_R0 q Hq). repeat split; try lra; rewrite ?(sqrt_sqrt n), ?(sqrt_sqrt q) by lra; reflexivity.
Qed.
Lemma fac_ff n q : 0 < n -> 0 < q -> / sqrt n * sqrt q * (/ sqrt n * / sqrt q) * (n * q) = q.
Proof. intros Hn Hq. destruct (sq_facts n q Hn Hq) as (A & B & -> & E). transitivity (sqrt q * sqrt q); [field; split; assumption|symmetry; exact E]. Qed.
Lemma fac_ft n q : 0 < n -> 0 < q -> / sqrt n * sqrt q * (/ sqrt n * sqrt q) * (n * q) = q ^ 2.
Proof. intros Hn Hq. destruct (sq_facts n q Hn Hq) as (A & B & -> & E). transitivity ((sqrt q * sqrt q) ^ 2); [field; assumption|]. rewrite <- E. reflexivity. Qed.
Lemma fac_tt n q : 0 < n -> 0 < q -> / sqrt n * / sqrt q * (/ sqrt n * sqrt q) * (n * q) = q.
Proof. intros Hn Hq. transitivity (/ sqrt n * sqrt q * (/ sqrt n * / sqrt q) * (n * q)); [ring|exact (fac_ff n q Hn Hq)]. Qed.
Lemma fac_tf n q : 0 < n -> 0 < q -> / sqrt n * / sqrt q * (/ sqrt n * / sqrt q) * (n * q) = 1.
Proof. intros Hn Hq. destruct (sq_facts n q Hn Hq) as (A & B & -> & E). field. split; assumption. Qed.
Lemma fac_half n q : 0 < n -> 0 < q -> (n * q) * / sqrt (n * q) * (/ sqrt n * / sqrt q) = 1.
Proof. intros Hn Hq. rewrite sqrt_mult by lra. destruct (sq_facts n q Hn Hq) as (A & B & -> & E). field. split; assumption. Qed.
Lemma fac_back n q : 0 < n -> 0 < q -> sqrt (n * q) * (/ sqrt n * sqrt q) = q.
Proof. intros Hn Hq. rewrite sqrt_mult by lra. destruct (sq_facts n q Hn Hq) as (A & B & _ & E). transitivity (sqrt q * sqrt q); [field; exact A|symmetry; exact E]. Qed.

Section Filters.
Variable u : uht.
Notation ny := (u_ny u).
Notation nx := (u_nx u).
Notation area := (u_area u).
Hypothesis Hy : (0 < ny)%Z.
Hypothesis Hx : (0 < nx)%Z.
Hypothesis Ha : 0 < area.
Notation p := (pix ny nx area).
Notation cv := (cv ny nx area).
Notation prof := (profile ny nx area).
Notation N := (IZR (ny * nx)).
Hypothesis Hp : forall y x, in_map ny nx y x -> u_pixarea u y x = p.
Let Np : 0 < N := npix_pos ny nx Hy Hx.
Let Pp : 0 < p := pix_pos ny nx Hy Hx area Ha.

Definition cf (adj : bool) : R := / sqrt N * (if adj then / sqrt p else sqrt p).
Definition cb (adj : bool) : R := / sqrt N * (if adj then sqrt p else / sqrt p).
Lemma arr_ne a : nonempty (arr u a).
Proof. split; assumption. Qed.
Lemma emap_fft_at adj a : exists r, emap_fft Phys adj (u_pixsize u) (arr u a) = Some r /\ forall k l, f_at r k l = (D ny nx (-1) a k l * RtoC (cf adj))%C.
Proof.
  unfold emap_fft. rewrite (fft_some AXY (arr u a) (arr_ne a)). cbn [bind]. eexists. split; [reflexivity|]. intros k l.
  unfold scale, amap. cbn [f_at]. unfold arr at 1. rewrite dft_D. reflexivity.
Qed.
Lemma emap_ifft_at adj a : exists r, emap_ifft Phys adj (u_pixsize u) (arr u a) = Some r /\ forall k l, f_at r k l = (D ny nx 1 a k l * RtoC (cb adj))%C.
Proof.
  unfold emap_ifft. rewrite (ifft_some false AXY (arr u a) (arr_ne a)). cbn [bind]. eexists. split; [reflexivity|]. intros k l.
  unfold scale, amap. cbn [f_at]. unfold arr at 1. rewrite dft_D. reflexivity.
Qed.
Lemma fwd adj m : exists h, bind (emap_fft Phys adj (u_pixsize u) (arr u (cx m))) (fun r => Some (f_at r)) = Some h /\
  forall k l, h k l = (D ny nx (-1) (cx m) k l * RtoC (cf adj))%C.
Proof. destruct (emap_fft_at adj (cx m)) as (r & -> & E). cbn [bind]. eexists. split; [reflexivity|exact E]. Qed.
Lemma Re_scal z c : Re (z * RtoC c)%C = Re z * c.
Proof. destruct z. cbn. ring. Qed.
Lemma bwd adj h : exists r, bind (emap_ifft Phys adj (u_pixsize u) (arr u h)) (fun r => Some (fun y x => Re (f_at r y x))) = Some r /\
  forall y x, r y x = Re (D ny nx 1 h y x) * cb adj.
Proof. destruct (emap_ifft_at adj h) as (r & -> & E). cbn [bind]. eexists. split; [reflexivity|]. intros y x. cbn beta. rewrite E. apply Re_scal. Qed.
Lemma filt_re B a c h y x : even_profile ny nx B -> (forall k l, h k l = (D ny nx (-1) (cx a) k l * RtoC c)%C) ->
  Re (D ny nx 1 (hmul (cx B) h) y x) = c * (area * cv B a y x).
Proof.
  intros E H. rewrite (D_ext ny nx 1 _ (fun k l => RtoC c * (cx B k l * D ny nx (-1) (cx a) k l))%C).
  - rewrite D_scal, (cv_D ny nx Hy Hx area Ha B a y x E). rewrite <- RtoC_mult. reflexivity.
  - intros k l _. unfold hmul, cmul. rewrite H. ring.
Qed.
Lemma area_eq : area = N * p. Proof. unfold pix. field. lra. Qed.
Lemma cff : cf false * cb false * area = p.
Proof. pose proof (fac_ff N p Np Pp) as F. rewrite <- area_eq in F. exact F. Qed.
Lemma cft : cf false * cb true * area = p ^ 2.
Proof. pose proof (fac_ft N p Np Pp) as F. rewrite <- area_eq in F. exact F. Qed.
Lemma ctt : cf true * cb true * area = p.
Proof. pose proof (fac_tt N p Np Pp) as F. rewrite <- area_eq in F. exact F. Qed.
Lemma ctf : cf true * cb false * area = 1.
Proof. pose proof (fac_tf N p Np Pp) as F. rewrite <- area_eq in F. exact F. Qed.
Lemma c_half : area * / sqrt area * cb false = 1.
Proof. pose proof (fac_half N p Np Pp) as F. rewrite <- area_eq in F. exact F. Qed.
Lemma c_back : sqrt area * cf false = p.
Proof. pose proof (fac_back N p Np Pp) as F. rewrite <- area_eq in F. exact F. Qed.

(* transform, multiply, transform back: the four ways *)
Lemma h_m2h m : exists h, map2harm u m = Some h /\ forall k l, h k l = (D ny nx (-1) (cx m) k l * RtoC (cf false))%C.
Proof. apply fwd. Qed.
Lemma h_h2ma m : exists h, harm2map_adjoint u m = Some h /\ forall k l, h k l = (D ny nx (-1) (cx m) k l * RtoC (cf true))%C.
Proof. apply fwd. Qed.
Lemma h_h2m B a c h : even_profile ny nx B -> (forall k l, h k l = (D ny nx (-1) (cx a) k l * RtoC c)%C) ->
  exists r, harm2map u (hmul (cx B) h) = Some r /\ forall y x, r y x = c * cb false * area * cv B a y x.
Proof. intros E H. destruct (bwd false (hmul (cx B) h)) as (r & Er & Er'). exists r. split; [exact Er|]. intros y x. rewrite Er', (filt_re B a c h) by assumption. ring. Qed.
Lemma h_m2ha B a c h : even_profile ny nx B -> (forall k l, h k l = (D ny nx (-1) (cx a) k l * RtoC c)%C) ->
  exists r, map2harm_adjoint u (hmul (cx B) h) = Some r /\ forall y x, r y x = c * cb true * area * cv B a y x.
Proof. intros E H. destruct (bwd true (hmul (cx B) h)) as (r & Er & Er'). exists r. split; [exact Er|]. intros y x. rewrite Er', (filt_re B a c h) by assumption. ring. Qed.

(* squaring a beam in real space *)
Lemma D_half B y x : even_profile ny nx B -> Re (D ny nx 1 (cx (iscal (/ sqrt area) B)) y x) * cb false = prof B y x.
Proof.
  intros E. rewrite (D_prof ny nx Hy Hx area Ha) by (apply even_scal; assumption). cbn [RtoC Re fst]. rewrite prof_scal.
  rewrite <- (Rmult_1_l (prof B y x)) at 2. rewrite <- c_half. ring.
Qed.
Lemma rpow_h B n : even_profile ny nx B -> exists h, hprof_rpow u B n = Some h /\ forall k l, h k l = (RtoC p * D ny nx (-1) (cx (ipow (prof B) n)) k l)%C.
Proof.
  intros E. unfold hprof_rpow, harm2map. destruct (bwd false (cx (iscal (/ sqrt area) B))) as (r & -> & Er). cbn [bind].
  destruct (h_m2h (ipow r n)) as (h & -> & Eh). cbn [bind]. eexists. split; [reflexivity|]. intros k l. unfold cscal. rewrite Eh.
  rewrite (D_ext ny nx (-1) _ (cx (ipow (prof B) n))) by (intros j i _; unfold cx, ipow; rewrite Er, D_half by assumption; reflexivity).
  rewrite <- c_back at 1. rewrite RtoC_mult. ring.
Qed.
Lemma pow_mod B n y x : even_profile ny nx B -> ipow (prof B) n (y mod ny) (x mod nx) = ipow (prof B) n y x.
Proof. intros E. unfold ipow. rewrite prof_mod by assumption. reflexivity. Qed.
Lemma h_sq B n a c g h : even_profile ny nx B -> (forall k l, g k l = (RtoC p * D ny nx (-1) (cx (ipow (prof B) n)) k l)%C) ->
  (forall k l, h k l = (D ny nx (-1) (cx a) k l * RtoC c)%C) ->
  forall y x, Re (D ny nx 1 (hmul g h) y x) = c * (area * rsum2 ny nx (fun j i => a j i * prof B (y - j) (x - i) ^ n)).
Proof.
  intros E Hg Hh y x. rewrite (D_ext ny nx 1 _ (fun k l => RtoC (c * p) * (D ny nx (-1) (cx (ipow (prof B) n)) k l * D ny nx (-1) (cx a) k l))%C).
  - rewrite D_scal, (conv_map ny nx Hy Hx) by (intros; apply pow_mod; assumption). rewrite <- RtoC_mult. cbn [Re RtoC fst]. unfold ipow. set (S := rsum2 ny nx _). transitivity (c * ((N * p) * S)); [ring|]. rewrite <- area_eq. reflexivity.
  - intros k l _. unfold hmul, cmul. rewrite Hg, Hh, RtoC_mult. ring.
Qed.
Lemma h_sq_adj B n a c g h : even_profile ny nx B -> (forall k l, g k l = (RtoC p * D ny nx (-1) (cx (ipow (prof B) n)) k l)%C) ->
  (forall k l, h k l = (D ny nx (-1) (cx a) k l * RtoC c)%C) ->
  exists r, map2harm_adjoint u (hmul g h) = Some r /\ forall y x, r y x = c * cb true * area * rsum2 ny nx (fun j i => a j i * prof B (y - j) (x - i) ^ n).
Proof. intros E Hg Hh. destruct (bwd true (hmul g h)) as (r & Er & Er'). exists r. split; [exact Er|]. intros y x. rewrite Er', (h_sq B n a c g h) by assumption. ring. Qed.

Lemma sum_eq q : sum_hprof u q / (4 * PI) = / area * rsum2 ny nx q.
Proof. unfold sum_hprof, u_nper, u_fsky, iscal. rewrite rsum2_scal_l. pose proof PI_RGT_0. field. split; lra. Qed.

Lemma constcov_eq m B iN : even_profile ny nx B -> even_profile ny nx iN ->
  exists rho, matched_filter_constcov u m B iN = Some (rho, / area * rsum2 ny nx (imul (ipow B 2) iN)) /\
    forall y x, in_map ny nx y x -> rho y x = p * cv (imul B iN) m y x.
Proof.
  intros EB EN. unfold matched_filter_constcov. destruct (h_m2h m) as (h & -> & Eh). cbn [bind].
  destruct (h_m2ha (imul B iN) m _ h (even_mul _ _ _ _ EB EN) Eh) as (r & -> & Er). cbn [bind]. rewrite sum_eq. eexists. split; [reflexivity|].
  intros y x H. unfold idiv. rewrite Er, Hp, cft by assumption. field. lra.
Qed.
Lemma white_eq m B ivar : even_profile ny nx B ->
  exists rho kappa, matched_filter_white u m B ivar None = Some (rho, kappa) /\
    (forall y x, in_map ny nx y x -> rho y x = cv B (imul ivar m) y x) /\
    (forall y x, in_map ny nx y x -> kappa y x = rsum2 ny nx (fun j i => ivar j i * prof B (y - j) (x - i) ^ 2)).
Proof.
  intros EB. unfold matched_filter_white. destruct (rpow_h B 2 EB) as (g & -> & Eg). cbn [bind].
  destruct (h_h2ma (imul ivar m)) as (h & -> & Eh). cbn [bind].
  destruct (h_m2ha B _ _ h EB Eh) as (r & -> & Er). cbn [bind].
  destruct (h_h2ma ivar) as (h2 & -> & Eh2). cbn [bind].
  destruct (h_sq_adj B 2 _ _ g h2 EB Eg Eh2) as (k & -> & Ek). cbn [bind]. do 2 eexists. split; [reflexivity|].
  split; intros y x H; unfold imul at 1; rewrite ?Er, ?Ek, Hp, ctt by assumption; field; lra.
Qed.
Lemma lowcorr_rho_eq V B iC m : even_profile ny nx B -> even_profile ny nx iC ->
  exists rho, lowcorr_rho u V B iC m = Some rho /\
    forall y x, in_map ny nx y x -> rho y x = p * cv B (imul V (cv iC (imul V m))) y x.
Proof.
  intros EB EC. unfold lowcorr_rho. destruct (h_m2h (imul V m)) as (h & -> & Eh). cbn [bind].
  destruct (h_m2ha iC _ _ h EC Eh) as (r & -> & Er). cbn [bind].
  destruct (h_h2ma (imul V r)) as (h2 & -> & Eh2). cbn [bind].
  destruct (h_h2m B _ _ h2 EB Eh2) as (k & -> & Ek). cbn [bind]. eexists. split; [reflexivity|].
  intros y x H. unfold idiv. rewrite Ek, Hp, ctf by assumption.
  rewrite (cv_ext ny nx area B _ (iscal (p ^ 2) (imul V (cv iC (imul V m))))) by (intros j i _; unfold iscal, imul; rewrite Er, cft; unfold imul; ring).
  rewrite cv_scal. field. lra.
Qed.
Lemma sum_ratio q r : rsum2 ny nx r <> 0 -> sum_hprof u q / sum_hprof u r = rsum2 ny nx q / rsum2 ny nx r.
Proof. intros H. unfold sum_hprof, u_nper, u_fsky, iscal. rewrite !rsum2_scal_l. pose proof PI_RGT_0. field. repeat split; lra. Qed.
Lemma lowcorr_eq m B ivar iC : even_profile ny nx B -> even_profile ny nx iC -> rsum2 ny nx (ipow B 2) <> 0 ->
  exists rho kappa, matched_filter_constcorr_lowcorr u m B ivar iC None false = Some (rho, kappa) /\
    (forall y x, in_map ny nx y x -> rho y x = p * cv B (imul (isqrt ivar) (cv iC (imul (isqrt ivar) m))) y x) /\
    (forall y x, in_map ny nx y x -> kappa y x = rsum2 ny nx (imul (ipow B 2) iC) / rsum2 ny nx (ipow B 2) * rsum2 ny nx (fun j i => ivar j i * prof B (y - j) (x - i) ^ 2)).
Proof.
  intros EB EC B0. unfold matched_filter_constcorr_lowcorr. destruct (rpow_h B 2 EB) as (g & -> & Eg). cbn [bind].
  destruct (lowcorr_rho_eq (isqrt ivar) B iC m EB EC) as (rho & -> & Er). cbn [bind]. rewrite sum_ratio by exact B0.
  destruct (h_h2ma (iscal (rsum2 ny nx (imul (ipow B 2) iC) / rsum2 ny nx (ipow B 2)) (imul ivar (quad_weights u)))) as (h & -> & Eh). cbn [bind].
  destruct (h_sq_adj B 2 _ _ g h EB Eg Eh) as (k & -> & Ek). cbn [bind]. do 2 eexists. split; [reflexivity|]. split; [exact Er|].
  intros y x H. unfold idiv, ipow at 1. rewrite Ek, Hp, ctt by assumption.
  rewrite (rsum2_ext ny nx _ (fun j i => (rsum2 ny nx (imul (ipow B 2) iC) / rsum2 ny nx (ipow B 2) * p) * (ivar j i * prof B (y - j) (x - i) ^ 2))).
  - rewrite rsum2_scal_l. field. split; first [exact B0|lra].
  - intros j i Hj. unfold iscal, imul at 2, quad_weights. rewrite Hp by assumption. ring.
Qed.
Lemma unit_source B y0 x0 : even_profile ny nx B -> in_map ny nx y0 x0 ->
  exists h s, map2harm u (idiv (fun y x => if ((y =? y0) && (x =? x0))%Z%bool then 1 else 0) (u_pixarea u)) = Some h /\
    harm2map u (hmul (cx B) h) = Some s /\ forall y x, s y x = prof B (y - y0) (x - x0).
Proof.
  intros EB H0. destruct (h_m2h (idiv (fun y x => if ((y =? y0) && (x =? x0))%Z%bool then 1 else 0) (u_pixarea u))) as (h & Eh0 & Eh).
  destruct (h_h2m B _ _ h EB Eh) as (s & Es0 & Es). exists h, s. split; [exact Eh0|]. split; [exact Es0|]. intros y x. rewrite Es, cff. unfold MfiLemmas.cv.
  rewrite (rsum2_ext ny nx _ (fun j i => if ((j =? y0) && (i =? x0))%Z%bool then / p * prof B (y - j) (x - i) else 0)).
  - rewrite rsum2_single by exact H0. field. lra.
  - intros j i H. unfold idiv. rewrite Hp by assumption. destruct ((j =? y0) && (i =? x0))%Z%bool; unfold Rdiv; ring.
Qed.
Lemma smooth_eq m B ivar iC : even_profile ny nx B -> even_profile ny nx iC ->
  exists rho kappa, matched_filter_constcorr_smoothivar u m B ivar iC = Some (rho, kappa) /\
    (forall y x, in_map ny nx y x -> rho y x = sqrt (ivar y x) * cv (imul B iC) (imul (isqrt ivar) m) y x) /\
    (forall y x, in_map ny nx y x -> kappa y x = ivar y x * (/ area * rsum2 ny nx (imul (ipow B 2) iC)) / p).
Proof.
  intros EB EC. unfold matched_filter_constcorr_smoothivar. destruct (h_h2ma (imul (isqrt ivar) m)) as (h & -> & Eh). cbn [bind].
  destruct (h_m2ha (imul B iC) _ _ h (even_mul _ _ _ _ EB EC) Eh) as (r & -> & Er). cbn [bind]. rewrite sum_eq. do 2 eexists. split; [reflexivity|]. split.
  - intros y x H. unfold imul at 1, imul at 1, isqrt at 1. rewrite Er, Hp, ctt by assumption. field. lra.
  - intros y x H. unfold imul at 1, iscal. rewrite Hp by assumption. field. split; lra.
Qed.
Lemma dual_eq m B ivar iC : even_profile ny nx B -> even_profile ny nx iC ->
  exists rho kappa, matched_filter_constcorr_dual u m B ivar iC = Some (rho, kappa) /\
    (forall y x, in_map ny nx y x -> rho y x = cv (imul (isqrt iC) B) (imul ivar (iscal p (cv (isqrt iC) m))) y x) /\
    (forall y x, in_map ny nx y x -> kappa y x = rsum2 ny nx (fun j i => ivar j i * prof (imul B (isqrt iC)) (y - j) (x - i) ^ 2)).
Proof.
  intros EB EC. pose proof (even_sqrt _ _ _ EC) as ES. unfold matched_filter_constcorr_dual.
  destruct (rpow_h (imul B (isqrt iC)) 2 (even_mul _ _ _ _ EB ES)) as (g & -> & Eg). cbn [bind].
  destruct (h_m2h m) as (h & -> & Eh). cbn [bind].
  destruct (h_h2m (isqrt iC) _ _ h ES Eh) as (a & -> & Ea). cbn [bind].
  destruct (h_m2h (imul ivar a)) as (h1 & -> & Eh1). cbn [bind].
  destruct (h_h2m (isqrt iC) _ _ h1 ES Eh1) as (a1 & -> & Ea1). cbn [bind].
  destruct (h_m2h a1) as (h2 & -> & Eh2). cbn [bind].
  destruct (h_h2m B _ _ h2 EB Eh2) as (r & -> & Er). cbn [bind].
  destruct (h_h2ma (imul ivar (quad_weights u))) as (h3 & -> & Eh3). cbn [bind].
  destruct (h_sq_adj (imul B (isqrt iC)) 2 _ _ g h3 (even_mul _ _ _ _ EB ES) Eg Eh3) as (k & -> & Ek). cbn [bind]. do 2 eexists. split; [reflexivity|]. split.
  - intros y x H. unfold idiv. rewrite Er, Hp, cff by assumption.
    rewrite (cv_ext ny nx area B _ (iscal p (cv (isqrt iC) (imul ivar (iscal p (cv (isqrt iC) m)))))).
    + rewrite cv_scal, (cv_cv ny nx Hy Hx area Ha) by assumption. field. lra.
    + intros j i _. rewrite Ea1, cff. unfold iscal at 1. f_equal. apply cv_ext. intros j' i' _. unfold imul, iscal. rewrite Ea, cff. reflexivity.
  - intros y x H. unfold idiv, ipow at 1. rewrite Ek, Hp, ctt by assumption.
    rewrite (rsum2_ext ny nx _ (fun j i => p * (ivar j i * prof (imul B (isqrt iC)) (y - j) (x - i) ^ 2))).
    + rewrite rsum2_scal_l. field. lra.
    + intros j i Hj. unfold imul at 1, quad_weights. rewrite Hp by assumption. ring.
Qed.
End Filters.
