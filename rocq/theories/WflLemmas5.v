(* Multipoles, prepared filters and displaced maps. *)
From Coq Require Import Reals Lra Lia.
From Coquelicot Require Import Complex.
From Verif Require Import Base SliceSpec ArrModel PixModel BlockModel FresSpec FresModel FresLemmas FftSpec FftModel FftLemmas FftLemmas2 FftLemmas3 FftLemmas4 FftLemmas5 WflSpec WflModel WflLemmas WflLemmas2 WflLemmas3 WflLemmas4.
Ltac Zify.zify_post_hook ::= idtac.
Open Scope R_scope.

Lemma get_ls_at l my mx : (0 < my <= f_ny l)%Z -> (0 < mx <= f_nx l)%Z -> exists o, get_ls l my mx = Some o /\ f_ny o = my /\ f_nx o = mx /\
  forall y x, (0 <= y < my)%Z -> (0 <= x < mx)%Z -> f_at o y x = f_at l (src (f_ny l) my y) (src (f_nx l) mx x) * Re (Cmult (cph (f_ny l) my y) (cph (f_nx l) mx x)).
Proof.
  intros Hy Hx. unfold get_ls. destruct (resample_fft_spec 0 (fun z => z) (fun _ b => b) l my mx) as (o & Eo & No & Mo & Vo); try lia.
  rewrite Eo. cbn [bind]. unfold shift. cbn [bind has_y has_x amap f_ny f_nx f_at drop_im]. eexists. split; [reflexivity|]. cbn [amap f_ny f_nx f_at]. split; [exact No|]. split; [exact Mo|].
  intros y x Iy Ix. rewrite Vo, No, Mo, !fsrc_down by lia. unfold cph, offs.
  destruct (phase my _ false y) as [a b], (phase mx _ false x) as [a' b']. cbn. ring.
Qed.
Lemma get_ls_full l : (0 < f_ny l)%Z -> (0 < f_nx l)%Z -> exists o, get_ls l (f_ny l) (f_nx l) = Some o /\ aeq o l.
Proof.
  intros Hy Hx. destruct (get_ls_at l (f_ny l) (f_nx l) ltac:(lia) ltac:(lia)) as (o & E & No & Mo & V). exists o. split; [exact E|]. split; [exact No|]. split; [exact Mo|].
  rewrite No, Mo. intros y x Iy Ix. rewrite V by assumption. rewrite !src_same, !cph_same by assumption. cbn. ring.
Qed.
Lemma fftfreq_mode n k : (0 < n)%Z -> inside n k -> fftfreq n (k mod n) = IZR k / IZR n.
Proof. intros Hn Hk. unfold fftfreq. rewrite inside_freq by assumption. reflexivity. Qed.
Lemma get_ls_mode l my mx : (0 < my <= f_ny l)%Z -> (0 < mx <= f_nx l)%Z -> exists o, get_ls l my mx = Some o /\ f_ny o = my /\ f_nx o = mx /\
  forall ky kx, inside my ky -> inside mx kx -> f_at o (ky mod my)%Z (kx mod mx)%Z =
    cos (PI * (IZR ky * (/ IZR my - / IZR (f_ny l)) + IZR kx * (/ IZR mx - / IZR (f_nx l)))) * f_at l (ky mod f_ny l)%Z (kx mod f_nx l)%Z.
Proof.
  intros Hy Hx. destruct (get_ls_at l my mx Hy Hx) as (o & E & No & Mo & V). exists o. split; [exact E|]. split; [exact No|]. split; [exact Mo|]. intros ky kx Iy Ix.
  rewrite V by (apply Z.mod_pos_bound; lia). rewrite !src_mode by assumption. unfold cph. rewrite !phase_mode by (try lia; assumption). rewrite <- cis_plus. cbn [Re cis fst]. rewrite Rmult_comm. f_equal. f_equal.
  unfold offs. field. repeat split; apply IZRn0; lia.
Qed.

Lemma fftfreq_neg n k : (0 < n)%Z -> (0 <= k < n)%Z -> fftfreq n ((- k) mod n) ^ 2 = fftfreq n k ^ 2.
Proof.
  intros Hn Hk. unfold fftfreq. rewrite neg_mod by assumption. pose proof (Z.div_mod (n - 1) 2 ltac:(lia)) as D. pose proof (Z.mod_pos_bound (n - 1) 2 ltac:(lia)) as B.
  destruct (k =? 0)%Z eqn:E; [apply Z.eqb_eq in E; subst k; reflexivity|]. apply Z.eqb_neq in E.
  destruct (k <? (n - 1) / 2 + 1)%Z eqn:E1; destruct (n - k <? (n - 1) / 2 + 1)%Z eqn:E2.
  - lia.
  - replace (n - k - n)%Z with (- k)%Z by lia. rewrite opp_IZR. field. apply IZRn0, Hn.
  - replace (n - k)%Z with (- (k - n))%Z by lia. rewrite opp_IZR. field. apply IZRn0, Hn.
  - replace (k - n)%Z with (n - k - n)%Z by lia. reflexivity.
Qed.
Lemma modlmap_even ny nx dy dx y x : (0 < ny)%Z -> (0 < nx)%Z -> (0 <= y < ny)%Z -> (0 <= x < nx)%Z ->
  f_at (modlmap ny nx dy dx) ((- y) mod ny)%Z ((- x) mod nx)%Z = f_at (modlmap ny nx dy dx) y x.
Proof.
  intros Hy Hx Iy Ix. cbn [modlmap f_at]. f_equal. unfold Rdiv. rewrite !Rpow_mult_distr, !fftfreq_neg by assumption. reflexivity.
Qed.

(* sums of positive terms *)
Lemma csumn_pos n (f : Z -> R) : (forall j, 0 <= f j) -> 0 <= Re (csumn n (fun j => RtoC (f j))) /\ (forall j, (0 <= j < Z.of_nat n)%Z -> f j <= Re (csumn n (fun j => RtoC (f j)))).
Proof.
  intros P. induction n as [|n [IH1 IH2]]; cbn [csumn]; [split; [cbn; lra|intros; lia]|]. cbn [Cplus Re fst]. change (fst (csumn n (fun j => RtoC (f j)))) with (Re (csumn n (fun j => RtoC (f j)))). split.
  - pose proof (P (Z.of_nat n)). cbn. lra.
  - intros j Hj. destruct (Z.eq_dec j (Z.of_nat n)) as [->|Ne]; [cbn; lra|]. pose proof (IH2 j ltac:(lia)). pose proof (P (Z.of_nat n)). cbn. lra.
Qed.
Lemma csum_re n f g : (forall j, (0 <= j < n)%Z -> Re (f j) = g j) -> Re (csum n f) = Re (csum n (fun j => RtoC (g j))).
Proof.
  unfold csum. intros H. assert (K : forall j, (0 <= j < Z.of_nat (Z.to_nat n))%Z -> Re (f j) = g j) by (intros; apply H; lia). clear H. induction (Z.to_nat n) as [|k IH]; [reflexivity|]. cbn [csumn Cplus Re fst]. f_equal.
  - apply IH. intros. apply K. lia.
  - apply K. lia.
Qed.
Lemma asum_pos a : (forall y x, 0 <= f_at a y x) -> (exists y x, (0 <= y < f_ny a)%Z /\ (0 <= x < f_nx a)%Z /\ f_at a y x <> 0) -> 0 < asum a.
Proof.
  intros P (y & x & Iy & Ix & N). unfold asum, csum2. set (row := fun y => Re (csum (f_nx a) (fun x => RtoC (f_at a y x)))).
  rewrite (csum_re (f_ny a) _ row) by reflexivity. assert (R0 : forall j, 0 <= row j) by (intros j; apply (csumn_pos (Z.to_nat (f_nx a)) (f_at a j)), P).
  pose proof (proj2 (csumn_pos (Z.to_nat (f_ny a)) row R0) y ltac:(lia)) as A. pose proof (proj2 (csumn_pos (Z.to_nat (f_nx a)) (f_at a y) (P y)) x ltac:(lia)) as B. change (f_at a y x <= row y) in B.
  fold (csum (f_ny a) (fun j => RtoC (row j))) in A. pose proof (P y x). lra.
Qed.

(* filters prepared on full-size geometries *)
Section prepared.
Context (ny nx : Z) (Hy : (0 < ny)%Z) (Hx : (0 < nx)%Z) (l : farr R) (Ly : f_ny l = ny) (Lx : f_nx l = nx)
  (Le : forall y x, (0 <= y < ny)%Z -> (0 <= x < nx)%Z -> f_at l ((- y) mod ny)%Z ((- x) mod nx)%Z = f_at l y x).
Definition full_geo (g : (R -> R) * (Z * Z) * R) : Prop :=
  snd (fst g) = (ny, nx) /\ 0 < snd g /\ exists y x, (0 <= y < ny)%Z /\ (0 <= x < nx)%Z /\ fst (fst g) (f_at l y x) <> 0.
Definition of_geo (g : (R -> R) * (Z * Z) * R) (lv : level) : Prop :=
  good_level ny nx lv /\ full_size ny nx lv /\ forall y x, (0 <= y < ny)%Z -> (0 <= x < nx)%Z -> f_at (lv_filt lv) y x = fst (fst g) (f_at l y x).
Lemma prepare_one g : full_geo g -> exists lv, prepare_filter l g = Some lv /\ of_geo g lv.
Proof.
  destruct g as [[b s] area]. unfold full_geo, of_geo. cbn [fst snd]. intros (-> & Ha & y0 & x0 & Iy0 & Ix0 & N). destruct (get_ls_full l ltac:(lia) ltac:(lia)) as (ls & E & (E1 & E2 & E3)). rewrite Ly, Lx in *. rewrite E1, E2 in E3. unfold prepare_filter. rewrite E. cbn [bind].
  eexists. split; [reflexivity|]. split; [|split].
  - split.
    + cbn [lv_filt]. split; [|split].
      * split; cbn [amap f_ny f_nx]; lia.
      * intros y x _ _ _. cbn [amap f_ny f_nx]. split; left; congruence.
      * intros y x. cbn [amap f_ny f_nx f_at]. rewrite E1, E2. intros Iy Ix. rewrite !E3 by (try assumption; apply Z.mod_pos_bound; assumption). f_equal. apply Le; assumption.
    + cbn [lv_norm]. apply Rgt_not_eq. apply sqrt_lt_R0. apply asum_pos.
      * intros y x. cbn [amap f_at]. apply Rmult_le_pos; [apply pow2_ge_0|]. left. apply Rinv_0_lt_compat, Ha.
      * exists y0, x0. cbn [amap f_ny f_nx f_at]. rewrite E1, E2. split; [exact Iy0|]. split; [exact Ix0|]. rewrite E3 by assumption. apply Rmult_integral_contrapositive. split; [apply pow_nonzero, N|apply Rinv_neq_0_compat; lra].
  - split; [exact E1|exact E2].
  - intros y x Iy Ix. cbn [lv_filt amap f_at]. f_equal. apply E3; assumption.
Qed.
Lemma prepare_all gs : List.Forall full_geo gs -> exists lvs, prepare_filters l gs = Some lvs /\ List.Forall2 of_geo gs lvs.
Proof.
  induction 1 as [|g t Hg _ IH]; [exists []; split; [reflexivity|constructor]|]. destruct (prepare_one g Hg) as (lv & E & K). destruct IH as (r & E' & K'). exists (lv :: r). cbn [prepare_filters]. rewrite E. cbn [bind]. rewrite E'. split; [reflexivity|constructor; assumption].
Qed.
Lemma prepared_good gs lvs : List.Forall2 of_geo gs lvs -> List.Forall (good_level ny nx) lvs /\ List.Forall (full_size ny nx) lvs /\
  forall y x, (0 <= y < ny)%Z -> (0 <= x < nx)%Z -> rsum (map (fun lv => fv ny nx (lv_filt lv) y x ^ 2) lvs) = rsum (map (fun g => fst (fst g) (f_at l y x) ^ 2) gs).
Proof.
  induction 1 as [|g lv gs lvs (G & S & V) _ (I1 & I2 & I3)]; [repeat split; constructor|]. split; [constructor; assumption|]. split; [constructor; assumption|]. intros y x Iy Ix. cbn [map rsum]. rewrite I3 by assumption. f_equal. f_equal.
  unfold fv. destruct S as [Sy Sx]. rewrite Sy, Sx, !fsrc_down, !src_same by lia. apply V; assumption.
Qed.
End prepared.

(* modes of a pattern *)
Lemma acc_zero ny nx lvs Y X : (forall lv, In lv lvs -> fv ny nx (lv_filt lv) Y X = 0) -> forall T,
  acc ny nx lvs T Y X = Cmult T (Cmult (phase ny (rsum (map (fun lv => offs true 0 ny (f_ny (lv_filt lv))) lvs)) false Y) (phase nx (rsum (map (fun lv => offs true 0 nx (f_nx (lv_filt lv))) lvs)) false X)).
Proof.
  induction lvs as [|lv t IH]; intros Z T; cbn [acc map rsum].
  - rewrite !phase_0. rewrite !Cmult_1_r. reflexivity.
  - rewrite IH by (intros; apply Z; right; assumption). rewrite (Z lv) by (left; reflexivity). replace (RtoC (0 ^ 2)) with (RtoC 0) by (f_equal; ring). rewrite Cplus_0_r. rewrite !phase_plus. unfold cph. ring.
Qed.
Lemma displaced ny nx lv lvs ms : (0 < ny)%Z -> (0 < nx)%Z -> List.Forall (good_level ny nx) (lv :: lvs) -> band ny nx ms -> is_real (sampled ny nx (1 / 2) (1 / 2) (trig ms)) ->
  (forall c ky kx, In (c, ky, kx) ms -> freq_value (lv_filt lv) ky kx ^ 2 = 1 /\ forall v, In v lvs -> freq_value (lv_filt v) ky kx = 0) ->
  exists ws, map2wave (lv :: lvs) (sampled ny nx (1 / 2) (1 / 2) (trig ms)) = Some ws /\
  oaeq (wave2map ny nx (lv :: lvs) ws) (drop_im false (sampled ny nx (1 / 2 - rsum (map (fun v => offs true 0 ny (f_ny (lv_filt v))) lvs)) (1 / 2 - rsum (map (fun v => offs true 0 nx (f_nx (lv_filt v))) lvs)) (trig ms))).
Proof.
  intros Hy Hx HG HB HR HM. set (m := sampled ny nx (1 / 2) (1 / 2) (trig ms)) in *. set (sy := rsum (map (fun v => offs true 0 ny (f_ny (lv_filt v))) lvs)). set (sx := rsum (map (fun v => offs true 0 nx (f_nx (lv_filt v))) lvs)).
  assert (Hm : nonempty m) by (split; assumption). destruct (round_trip_eq ny nx m eq_refl eq_refl Hm HR (lv :: lvs) HG) as (ws & E & K). exists ws. split; [exact E|].
  destruct (wave2map _ _ _ _) as [o|]; [|exact K]. cbn [oaeq] in *. eapply aeq_trans; [exact K|]. apply drop_im_ext.
  apply (aeq_trans _ (filt AXY (pick (has_y AXY) (phase ny sy false)) (pick (has_x AXY) (phase nx sx false)) m)).
  - unfold filt. eapply aeq_trans; [|apply (dft_ax_scale 1 AXY)]. apply dft_ax_ext. split; [reflexivity|]. split; [reflexivity|]. cbn [f_ny f_nx]. intros Y X IY IX. cbn [scale amap mulp f_at f_ny f_nx nprod pick has_y has_x].
    change (f_ny m) with ny. change (f_nx m) with nx. rewrite RtoC_inv by (apply IZRn0; nia). f_equal. unfold m at 1 2. rewrite !dft_trig by assumption.
    rewrite <- (Cmult_assoc (mspec _ _ _ _ _)). apply mspec_scale. intros c ky kx Hi EY EX. destruct (HM c ky kx Hi) as [V1 V2]. pose proof (proj1 (Forall_forall _ _) HB _ Hi) as [By Bx].
    assert (Fv : forall v, In v (lv :: lvs) -> fv ny nx (lv_filt v) Y X = freq_value (lv_filt v) ky kx).
    { intros v Hv. pose proof (proj1 (Forall_forall _ _) HG v Hv) as [(G1 & G2 & _) _]. rewrite (fv_value ny nx (lv_filt v) G1 G2) by assumption. rewrite EY, EX, !sfreq_of by assumption. reflexivity. }
    cbn [acc]. rewrite acc_zero by (intros v Hv; rewrite Fv by (right; exact Hv); apply V2, Hv). rewrite Fv by (left; reflexivity). rewrite V1. fold sy sx. ring.
  - split; [rewrite filt_ny; reflexivity|]. split; [rewrite filt_nx; reflexivity|]. rewrite filt_ny, filt_nx. intros y x Iy Ix. rewrite filt_at by assumption. cbn [pick has_y has_x]. apply (sh1_trig ny nx sy sx (1 / 2) (1 / 2) ms y x); assumption.
Qed.

Lemma coefficients ny nx lvs ms : (0 < ny)%Z -> (0 < nx)%Z -> band ny nx ms -> List.Forall (fun lv => fits ny nx (lv_filt lv) /\ supported ny nx (lv_filt lv) /\ lv_norm lv <> 0) lvs ->
  exists ws, map2wave lvs (sampled ny nx (1 / 2) (1 / 2) (trig ms)) = Some ws /\
  List.Forall2 (fun lv w => aeq w (drop_im false (sampled (f_ny (lv_filt lv)) (f_nx (lv_filt lv)) (1 / 2) (1 / 2) (fun u v => Cmult (trig (filtered (lv_filt lv) ms) u v) (RtoC (/ lv_norm lv)))))) lvs ws.
Proof.
  intros Hy Hx HB HL. set (m := sampled ny nx (1 / 2) (1 / 2) (trig ms)). assert (Hm : nonempty m) by (split; assumption). unfold map2wave, emap_fft. rewrite fft_some by exact Hm. cbn [bind enorm].
  induction HL as [|lv t (H1 & H2 & H3) _ IH]; [exists []; split; [reflexivity|constructor]|]. destruct IH as (ws & E & W). destruct lv as [F c]. cbn [lv_filt lv_norm] in *. cbn [waves_of].
  pose proof (wave_of_spec ny nx m eq_refl eq_refl Hm F H1 c) as K. destruct (wave_of _ _) as [w|]; [|contradiction]. cbn [bind]. rewrite E. cbn [bind]. exists (w :: ws). split; [reflexivity|]. constructor; [|exact W].
  cbn [oaeq lv_filt lv_norm] in *. eapply aeq_trans; [exact K|]. apply drop_im_ext. split; [reflexivity|]. split; [reflexivity|]. intros y x Iy Ix. rewrite dft2_at. cbn [spec sampled f_ny f_nx f_at].
  transitivity (dft 1 (f_ny F) (fun j => dft 1 (f_nx F) (fun i => spec_of ny nx F (/ (c * IZR (ny * nx))) (mspec ny nx ms) j i) x) y).
  - destruct H1 as [Fy Fx]. apply dft_ext. intros j Hj. apply dft_ext. intros i Hi. unfold spec_of, m. rewrite dft_trig by (try assumption; apply src_range; assumption). reflexivity.
  - rewrite spec_of_trig by assumption. f_equal. f_equal. rewrite mult_IZR. field. repeat split; try exact H3; apply IZRn0; assumption.
Qed.
