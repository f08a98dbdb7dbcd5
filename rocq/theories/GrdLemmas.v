(* Derivatives in Fourier space. *)
From Coq Require Import Reals Lra Lia.
From Coquelicot Require Import Coquelicot.
From Verif Require Import Base ArrModel PixModel FftSpec FftModel FftLemmas FftLemmas2 FftLemmas3 FftLemmas4 FftLemmas5 FltSpec FltModel FltLemmas FltLemmas2 GrdSpec GrdModel.
Ltac Zify.zify_post_hook ::= idtac.
Open Scope R_scope. Open Scope C_scope.

(* ---- waves through arbitrary filters ---- *)
Definition gainedc (g : Z -> Z -> C) (ms : list (C * Z * Z)) : list (C * Z * Z) :=
  map (fun m => let '(c, ky, kx) := m in (c * g ky kx, ky, kx)) ms.

Lemma gfilt_plus g a b : nonempty a -> f_ny b = f_ny a -> f_nx b = f_nx a -> aeq (gfilt g (aplus a b)) (aplus (gfilt g a) (gfilt g b)).
Proof.
  intros H By Bx. split; [reflexivity|]. split; [reflexivity|]. intros y x Hy Hx. unfold gfilt, scale, amap, aplus.
  cbn [f_at dft_ax dft_y dft_x mulg f_ny f_nx]. rewrite (nprod_shape AXY b a) by assumption. rewrite By, Bx.
  rewrite (nprod_shape AXY (FA _ _ _) a) by reflexivity.
  match goal with |- _ = ?u * ?v + ?w * ?v => transitivity ((u + w) * v); [|ring] end. f_equal.
  rewrite <- dft_plus. apply dft_ext. intros j Hj. rewrite <- dft_plus. apply dft_ext. intros i Hi.
  rewrite <- Cmult_plus_distr_r. f_equal. rewrite <- dft_plus. apply dft_ext. intros k Hk. apply dft_plus.
Qed.
Lemma gfilt_gplus g h a : nonempty a -> aeq (gfilt (fun y x => g y x + h y x) a) (aplus (gfilt g a) (gfilt h a)).
Proof.
  intros H. split; [reflexivity|]. split; [reflexivity|]. intros y x Hy Hx. unfold gfilt, scale, amap, aplus.
  cbn [f_at dft_ax dft_y dft_x mulg f_ny f_nx].
  match goal with |- _ = ?u * ?v + ?w * ?v => transitivity ((u + w) * v); [|ring] end. f_equal.
  rewrite <- dft_plus. apply dft_ext. intros j Hj. rewrite <- dft_plus. apply dft_ext. intros i Hi. ring.
Qed.

Definition wave (ny nx : Z) (oy ox : R) (c : C) (ky kx : Z) : farr C :=
  FA ny nx (fun y x => c * cis (2 * PI * (IZR ky * ((IZR y + oy) / IZR ny) + IZR kx * ((IZR x + ox) / IZR nx)))).
Lemma wave_as ny nx oy ox c ky kx y x : (0 < ny)%Z -> (0 < nx)%Z ->
  f_at (wave ny nx oy ox c ky kx) y x
  = (c * cis (2 * PI * (IZR ky * (oy / IZR ny) + IZR kx * (ox / IZR nx)))) * w ny (ky * y) * w nx (kx * x).
Proof.
  intros Hy Hx. cbn [wave f_at]. rewrite !w_as by assumption. rewrite <- !Cmult_assoc. rewrite <- !cis_plus. f_equal. f_equal. field.
  split; apply IZRn0; assumption.
Qed.
Lemma wave_fft ny nx oy ox c ky kx y x : (0 < ny)%Z -> (0 < nx)%Z -> (0 <= y < ny)%Z -> (0 <= x < nx)%Z ->
  (y <> ky mod ny \/ x <> kx mod nx)%Z -> f_at (dft_ax (-1) AXY (wave ny nx oy ox c ky kx)) y x = 0.
Proof.
  intros Hy Hx Jy Jx N. set (c' := c * cis (2 * PI * (IZR ky * (oy / IZR ny) + IZR kx * (ox / IZR nx)))).
  cbn [dft_ax dft_y dft_x f_at f_ny f_nx wave].
  change (dft (-1) ny (fun j => dft (-1) nx (f_at (wave ny nx oy ox c ky kx) j) x) y = 0).
  rewrite (dft_ext (-1) ny _ (fun j => (if (x =? kx mod nx)%Z then c' * RtoC (IZR nx) else 0) * w ny (ky * j))).
  - rewrite dft_mode by auto. replace (- -1 * ky)%Z with ky by lia.
    destruct (y =? ky mod ny)%Z eqn:E1; [|reflexivity]. destruct (x =? kx mod nx)%Z eqn:E2; [|ring].
    apply Z.eqb_eq in E1. apply Z.eqb_eq in E2. destruct N; contradiction.
  - intros j Hj. rewrite (dft_ext (-1) nx _ (fun i => (c' * w ny (ky * j)) * w nx (kx * i))).
    + rewrite dft_mode by auto. replace (- -1 * kx)%Z with kx by lia. destruct (x =? kx mod nx)%Z; ring.
    + intros i Hi. rewrite wave_as by assumption. reflexivity.
Qed.
Lemma gfilt_wave g ny nx oy ox c ky kx : (0 < ny)%Z -> (0 < nx)%Z ->
  aeq (gfilt g (wave ny nx oy ox c ky kx)) (wave ny nx oy ox (c * g (ky mod ny)%Z (kx mod nx)%Z) ky kx).
Proof.
  intros Hy Hx. set (a := wave ny nx oy ox c ky kx). assert (H : nonempty a) by (split; assumption). set (v := g (ky mod ny)%Z (kx mod nx)%Z).
  unfold gfilt. eapply aeq_trans; [apply scale_ext, (dft_ax_ext 1 AXY _ (scale v (dft_ax (-1) AXY a)))|].
  { split; [reflexivity|]. split; [reflexivity|]. cbn [mulg f_ny f_nx f_at scale amap]. rewrite dft_ax_ny, dft_ax_nx. cbn [a wave f_ny f_nx].
    intros y x Jy Jx. destruct (Z.eq_dec y (ky mod ny)) as [E1|E1].
    - destruct (Z.eq_dec x (kx mod nx)) as [E2|E2]; [subst; reflexivity|]. fold a. unfold a. rewrite wave_fft by auto. ring.
    - fold a. unfold a. rewrite wave_fft by auto. ring. }
  eapply aeq_trans; [apply scale_ext, dft_ax_scale|]. eapply aeq_trans; [apply scale_scale|].
  eapply aeq_trans with (b := scale v (scale (/ RtoC (IZR (nprod AXY a))) (dft_ax 1 AXY (dft_ax (-1) AXY a)))).
  { split; [reflexivity|]. split; [reflexivity|]. intros y x _ _. cbn [scale amap f_at]. ring. }
  eapply aeq_trans; [apply scale_ext, ifft_fft, H|]. split; [reflexivity|]. split; [reflexivity|]. intros y x _ _. cbn [scale amap a wave f_at]. ring.
Qed.
Lemma gfilt_trig g G ny nx oy ox ms : (0 < ny)%Z -> (0 < nx)%Z ->
  List.Forall (fun m => let '(_, ky, kx) := m in g (ky mod ny)%Z (kx mod nx)%Z = G ky kx) ms ->
  aeq (gfilt g (sampled ny nx oy ox (trig ms))) (sampled ny nx oy ox (trig (gainedc G ms))).
Proof.
  intros Hy Hx. induction ms as [|[[c ky] kx] ms IH]; intros HF.
  - eapply aeq_trans; [apply (gfilt_ext g g _ (wave ny nx oy ox 0 0 0))|].
    + split; [reflexivity|]. split; [reflexivity|]. intros y x _ _. cbn. ring.
    + reflexivity.
    + eapply aeq_trans; [apply gfilt_wave; assumption|]. split; [reflexivity|]. split; [reflexivity|]. intros y x _ _. cbn. ring.
  - pose proof (Forall_inv HF) as HG. cbv beta iota in HG. apply Forall_inv_tail in HF. specialize (IH HF).
    assert (Sp : forall (c' : C) l, aeq (sampled ny nx oy ox (trig ((c', ky, kx) :: l))) (aplus (wave ny nx oy ox c' ky kx) (sampled ny nx oy ox (trig l)))).
    { intros c' l. split; [reflexivity|]. split; [reflexivity|]. intros y x _ _. cbn [sampled f_at aplus wave]. rewrite trig_cons. reflexivity. }
    eapply aeq_trans; [apply (gfilt_ext g g _ _ (Sp c ms)); reflexivity|].
    eapply aeq_trans; [apply gfilt_plus; [split; assumption|reflexivity|reflexivity]|].
    change (gainedc G ((c, ky, kx) :: ms)) with ((c * G ky kx, ky, kx) :: gainedc G ms).
    eapply aeq_trans; [|apply aeq_sym, Sp].
    pose proof (gfilt_wave g ny nx oy ox c ky kx Hy Hx) as (W1 & W2 & W). destruct IH as (I1 & I2 & I).
    split; [reflexivity|]. split; [reflexivity|]. cbn [aplus f_ny f_nx f_at]. intros y x Jy Jx. rewrite W by assumption. rewrite I by assumption. rewrite HG. reflexivity.
Qed.

(* ---- adjoints ---- *)
Lemma gfilt_dot g a b : nonempty a -> f_ny b = f_ny a -> f_nx b = f_nx a ->
  inner (gfilt g a) b = inner a (gfilt (fun y x => Cconj (g y x)) b).
Proof.
  intros H By Bx. assert (Hb : nonempty b) by (destruct H; split; congruence). unfold gfilt.
  rewrite <- RtoC_inv by (apply IZRn0, nprod_pos, H). rewrite inner_scale_l.
  rewrite dft_ax_dot by (exact H || (cbn; congruence)). change (- (1))%Z with (-1)%Z.
  rewrite (nprod_shape AXY b a) by assumption. rewrite <- RtoC_inv by (apply IZRn0, nprod_pos, H). rewrite inner_scale_r. f_equal.
  pose proof (dft_ax_dot (-1) AXY a (mulg (fun y x => Cconj (g y x)) (dft_ax (-1) AXY b)) H ltac:(cbn; congruence) ltac:(cbn; congruence)) as D.
  change (- -1)%Z with 1%Z in D. rewrite <- D. unfold inner, csum2. cbn [mulg f_ny f_nx f_at]. rewrite !dft_ax_ny, !dft_ax_nx.
  apply csum_ext. intros y Hy. apply csum_ext. intros x Hx. rewrite Cmult_conj. ring.
Qed.
Lemma csum_re n f : RtoC (Re (csum n f)) = csum n (fun j => RtoC (Re (f j))).
Proof.
  unfold csum. generalize (Z.to_nat n). intros m. induction m as [|m IH]; [reflexivity|]. cbn [csumn]. rewrite <- IH.
  apply C_eq; destruct (csumn m f), (f (Z.of_nat m)); unfold Re, Im, RtoC, Cplus; cbn [fst snd]; ring.
Qed.
Lemma inner_re_l a b : is_real b -> f_ny b = f_ny a -> f_nx b = f_nx a -> inner (drop_im false a) b = RtoC (Re (inner a b)).
Proof.
  intros R By Bx. unfold inner, csum2. rewrite csum_re. cbn [drop_im amap f_ny f_nx f_at]. apply csum_ext. intros y Hy. rewrite csum_re. apply csum_ext. intros x Hx.
  assert (I := R y x ltac:(congruence) ltac:(congruence)). destruct (f_at a y x) as [u v], (f_at b y x) as [p q]. unfold Im in I. cbn [snd] in I. subst q.
  apply C_eq; unfold Re, Im, RtoC, Cmult, Cconj; cbn [fst snd]; ring.
Qed.
Lemma inner_re_r a b : is_real a -> f_ny b = f_ny a -> f_nx b = f_nx a -> inner a (drop_im false b) = RtoC (Re (inner a b)).
Proof.
  intros R By Bx. unfold inner, csum2. rewrite csum_re. cbn [drop_im amap f_ny f_nx f_at]. apply csum_ext. intros y Hy. rewrite csum_re. apply csum_ext. intros x Hx.
  assert (I := R y x ltac:(assumption) ltac:(assumption)). destruct (f_at a y x) as [u v], (f_at b y x) as [p q]. unfold Im in I. cbn [snd] in I. subst v.
  apply C_eq; unfold Re, Im, RtoC, Cmult, Cconj; cbn [fst snd]; ring.
Qed.
Lemma inner_plus_r a b c : f_ny b = f_ny a -> f_nx b = f_nx a -> inner a (aplus b c) = inner a b + inner a c.
Proof.
  intros _ _. unfold inner, csum2. rewrite <- csum_plus. apply csum_ext. intros y _. rewrite <- csum_plus. apply csum_ext. intros x _. cbn [aplus f_at]. ring.
Qed.
Lemma gfilt_total g a : nonempty a -> total (gfilt g a) = total a * g 0%Z 0%Z.
Proof.
  intros H. assert (W0 : forall n, w n (-1 * 0) = 1).
  { intros n. change (-1 * 0)%Z with 0%Z. unfold w. replace (2 * PI * 0 / IZR n)%R with 0%R by (unfold Rdiv; ring). apply cis_0. }
  assert (T : forall b, total b = f_at (dft_ax (-1) AXY b) 0%Z 0%Z).
  { intros b. unfold total, csum2. cbn [dft_ax dft_y dft_x f_at f_ny f_nx]. unfold dft. apply csum_ext. intros y _.
    rewrite Z.mul_0_r, W0, Cmult_1_r. apply csum_ext. intros x _. rewrite Z.mul_0_r, W0. ring. }
  rewrite !T. pose proof (fft_gfilt g a H) as (E1 & E2 & E). rewrite dft_ax_ny in E. rewrite dft_ax_nx in E. destruct H.
  rewrite E by (cbn [gfilt scale amap f_ny f_nx dft_ax dft_y dft_x mulg]; lia). reflexivity.
Qed.
Lemma total_re a : total (drop_im false a) = RtoC (Re (total a)).
Proof. unfold total, csum2. rewrite csum_re. cbn [drop_im amap f_ny f_nx f_at]. apply csum_ext. intros y _. rewrite csum_re. reflexivity. Qed.

(* ---- the code's filters ---- *)
Definition iy (n : Z) (s : R) (y x : Z) : C := RtoC (laxis n s y) * Ci.
Definition ix (n : Z) (s : R) (y x : Z) : C := RtoC (laxis n s x) * Ci.

Lemma efilt' (h : farr C -> Z -> Z -> C) g a : nonempty a -> (forall f y x, h f y x = f_at f y x * g y x) ->
  exists r, bind (emap_fft Pix false 1 a) (fun f => emap_ifft Pix false 1 (FA (f_ny f) (f_nx f) (h f))) = Some r /\ aeq r (gfilt g a).
Proof.
  intros H Hh. pose proof (nprod_pos AXY a H) as NP. apply IZR_lt in NP. change (0 < IZR (nprod AXY a))%R in NP. pose proof (sqrt_lt_R0 _ NP) as SN.
  unfold emap_fft, emap_ifft. rewrite fft_some by exact H. cbn [bind]. rewrite ifft_some by exact H. cbn [bind]. eexists. split; [reflexivity|].
  set (c := RtoC (enorm Pix (nprod AXY a) (sqrt 1))). rewrite (nprod_shape AXY (FA _ _ _) a) by reflexivity.
  eapply aeq_trans; [apply scale_ext, (dft_ax_ext 1 AXY _ (scale c (mulg g (dft_ax (-1) AXY a))))|].
  { split; [reflexivity|]. split; [reflexivity|]. intros y x _ _. cbn [f_at]. rewrite Hh. cbn [scale amap mulg f_at]. ring. }
  eapply aeq_trans; [apply scale_ext, dft_ax_scale|]. eapply aeq_trans; [apply scale_scale|]. unfold gfilt.
  assert (E : c * RtoC (enorm Pix (nprod AXY a) (/ sqrt 1)) = / RtoC (IZR (nprod AXY a))).
  { unfold c. cbn [enorm]. rewrite <- RtoC_mult, <- RtoC_inv by lra. f_equal. pose proof (sqrt_sqrt (IZR (nprod AXY a)) ltac:(lra)) as SS. set (q := sqrt _) in *. rewrite <- SS. field. lra. }
  rewrite E. apply aeq_refl.
Qed.

Lemma grad_filt sy sx a : nonempty a -> exists gy gx, grad sy sx a = Some (gy, gx) /\
  aeq gy (drop_im false (gfilt (iy (f_ny a) sy) a)) /\ aeq gx (drop_im false (gfilt (ix (f_nx a) sx) a)).
Proof.
  intros H. destruct (efilt' (fun f y x => f_at f y x * RtoC (laxis (f_ny a) sy y) * Ci) (iy (f_ny a) sy) a H) as (r & E & A); [intros; unfold iy; ring|].
  destruct (efilt' (fun f y x => f_at f y x * RtoC (laxis (f_nx a) sx x) * Ci) (ix (f_nx a) sx) a H) as (r' & E' & A'); [intros; unfold ix; ring|].
  unfold grad. destruct (emap_fft Pix false 1 a) as [f|]; [|discriminate]. cbn [bind] in *. rewrite E. cbn [bind]. rewrite E'. cbn [bind].
  eexists. eexists. split; [reflexivity|]. split; apply drop_im_ext; assumption.
Qed.
Lemma laplace_filt sy sx a : nonempty a -> exists r, laplace sy sx a = Some r /\
  aeq r (drop_im false (gfilt (fun y x => - RtoC (laxis (f_ny a) sy y ^ 2 + laxis (f_nx a) sx x ^ 2)) a)).
Proof.
  intros H. destruct (efilt (fun y x => RtoC (laxis (f_ny a) sy y ^ 2 + laxis (f_nx a) sx x ^ 2)) a H) as (r & E & (A1 & A2 & A)).
  unfold laplace. destruct (emap_fft Pix false 1 a) as [f|]; [|discriminate]. cbn [bind] in *. rewrite E. cbn [bind].
  eexists. split; [reflexivity|]. split; [exact A1|]. split; [exact A2|]. cbn [drop_im amap f_ny f_nx f_at]. intros y x Hy Hx. rewrite A by assumption.
  assert (N : f_at (gfilt (fun y x => - RtoC (laxis (f_ny a) sy y ^ 2 + laxis (f_nx a) sx x ^ 2)) a) y x
    = - f_at (gfilt (fun y x => RtoC (laxis (f_ny a) sy y ^ 2 + laxis (f_nx a) sx x ^ 2)) a) y x).
  { unfold gfilt, scale, amap. cbn [f_at dft_ax dft_y dft_x mulg f_ny f_nx].
    match goal with |- _ = - (?u * ?v) => transitivity (((- RtoC 1) * u) * v); [|ring] end. f_equal.
    rewrite <- dft_scal. apply dft_ext. intros j Hj. rewrite <- dft_scal. apply dft_ext. intros i Hi. ring. }
  rewrite N. destruct (f_at (gfilt _ a) y x) as [u v]. apply C_eq; unfold Re, Im, RtoC, Copp; cbn [fst snd]; ring.
Qed.
Lemma div_filt sy sx vy vx : nonempty vy -> f_ny vx = f_ny vy -> f_nx vx = f_nx vy -> exists r, div sy sx vy vx = Some r /\
  aeq r (drop_im false (aplus (gfilt (iy (f_ny vy) sy) vy) (gfilt (ix (f_nx vy) sx) vx))).
Proof.
  intros H Vy Vx. assert (H' : nonempty vx) by (destruct H; split; congruence). pose proof (nprod_pos AXY vy H) as NP. apply IZR_lt in NP. change (0 < IZR (nprod AXY vy))%R in NP. pose proof (sqrt_lt_R0 _ NP) as SN.
  unfold div, emap_fft, emap_ifft. rewrite !fft_some by assumption. cbn [bind]. rewrite ifft_some by exact H. cbn [bind]. eexists. split; [reflexivity|].
  apply drop_im_ext. set (c := RtoC (enorm Pix (nprod AXY vy) (sqrt 1))). rewrite (nprod_shape AXY (FA _ _ _) vy) by reflexivity. rewrite (nprod_shape AXY vx vy) by assumption. fold c.
  assert (E : c * RtoC (enorm Pix (nprod AXY vy) (/ sqrt 1)) = / RtoC (IZR (nprod AXY vy))).
  { unfold c. cbn [enorm]. rewrite <- RtoC_mult, <- RtoC_inv by lra. f_equal. pose proof (sqrt_sqrt (IZR (nprod AXY vy)) ltac:(lra)) as SS. set (q := sqrt _) in *. rewrite <- SS. field. lra. }
  eapply aeq_trans; [apply scale_ext, (dft_ax_ext 1 AXY _ (scale c (aplus (mulg (iy (f_ny vy) sy) (dft_ax (-1) AXY vy)) (mulg (ix (f_nx vy) sx) (dft_ax (-1) AXY vx)))))|].
  { split; [reflexivity|]. split; [reflexivity|]. intros y x _ _. cbn [scale amap mulg aplus f_at]. unfold iy, ix. ring. }
  eapply aeq_trans; [apply scale_ext, dft_ax_scale|]. eapply aeq_trans; [apply scale_scale|]. rewrite E.
  split; [reflexivity|]. split; [reflexivity|]. intros y x Hy Hx. unfold gfilt, scale, amap, aplus. cbn [f_at dft_ax dft_y dft_x mulg f_ny f_nx].
  rewrite (nprod_shape AXY vx vy) by assumption. rewrite Vy, Vx.
  match goal with |- _ = ?u * ?v + ?z * ?v => transitivity ((u + z) * v); [|ring] end. f_equal.
  rewrite <- dft_plus. apply dft_ext. intros j Hj. rewrite <- dft_plus. apply dft_ext. intros i Hi. reflexivity.
Qed.
