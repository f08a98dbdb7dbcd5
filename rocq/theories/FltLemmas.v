(* Filters in Fourier space. *)
From Coq Require Import Reals Lra Lia.
From Coquelicot Require Import Coquelicot.
From Verif Require Import Base ArrModel PixModel FftSpec FftModel FftLemmas FftLemmas2 FftLemmas3 FftLemmas4 FftLemmas5 FltSpec FltModel.
Ltac Zify.zify_post_hook ::= idtac.
Open Scope R_scope. Open Scope C_scope.

Definition mulg (g : Z -> Z -> C) (a : farr C) : farr C := FA (f_ny a) (f_nx a) (fun y x => f_at a y x * g y x).
Definition gfilt (g : Z -> Z -> C) (a : farr C) : farr C := scale (/ RtoC (IZR (nprod AXY a))) (dft_ax 1 AXY (mulg g (dft_ax (-1) AXY a))).

Lemma mulg_ext g h a b : aeq a b -> (forall y x, (0 <= y < f_ny a)%Z -> (0 <= x < f_nx a)%Z -> g y x = h y x) -> aeq (mulg g a) (mulg h b).
Proof. intros (E1 & E2 & E) G. split; [exact E1|]. split; [exact E2|]. intros y x Hy Hx. cbn [mulg f_at f_ny f_nx] in *. rewrite E, G by assumption. reflexivity. Qed.
Lemma gfilt_ext g h a b : aeq a b -> (forall y x, (0 <= y < f_ny a)%Z -> (0 <= x < f_nx a)%Z -> g y x = h y x) -> aeq (gfilt g a) (gfilt h b).
Proof.
  intros E G. unfold gfilt. rewrite (nprod_shape AXY b a) by (symmetry; apply E). apply scale_ext, dft_ax_ext, mulg_ext; [apply dft_ax_ext, E|].
  intros y x. rewrite dft_ax_ny, dft_ax_nx. apply G.
Qed.
Lemma gfilt_ny g a : f_ny (gfilt g a) = f_ny a. Proof. reflexivity. Qed.
Lemma gfilt_nx g a : f_nx (gfilt g a) = f_nx a. Proof. reflexivity. Qed.
Lemma gfilt_sep g py px a : (forall y x, (0 <= y < f_ny a)%Z -> (0 <= x < f_nx a)%Z -> g y x = py y * px x) -> aeq (gfilt g a) (filt AXY py px a).
Proof.
  intros G. unfold gfilt, filt. apply scale_ext, dft_ax_ext. split; [reflexivity|]. split; [reflexivity|]. cbn [mulg mulp f_at f_ny f_nx]. rewrite dft_ax_ny, dft_ax_nx.
  intros y x Hy Hx. rewrite G by assumption. ring.
Qed.
Definition sub (a b : farr C) : farr C := FA (f_ny a) (f_nx a) (fun y x => f_at a y x - f_at b y x).
Lemma sub_ext a a' b b' : aeq a a' -> aeq b b' -> f_ny a = f_ny b -> f_nx a = f_nx b -> aeq (sub a b) (sub a' b').
Proof. intros (A1 & A2 & A) (B1 & B2 & B) S1 S2. split; [exact A1|]. split; [exact A2|]. cbn [sub f_at f_ny f_nx]. intros y x Hy Hx. rewrite A, B by (assumption || congruence). reflexivity. Qed.
Lemma dft_sub s n a b k : dft s n (fun j => a j - b j) k = dft s n a k - dft s n b k.
Proof. transitivity (dft s n (fun j => a j + (- RtoC 1) * b j) k); [apply dft_ext; intros; ring|]. rewrite dft_plus, dft_scal. ring. Qed.
Lemma gfilt_compl g a : nonempty a -> aeq (gfilt (fun y x => RtoC 1 - g y x) a) (sub a (gfilt g a)).
Proof.
  intros H. pose proof (ifft_fft AXY a H) as (I1 & I2 & I). split; [reflexivity|]. split; [reflexivity|]. intros y x Hy Hx. cbn [sub f_at].
  rewrite <- I by assumption. unfold gfilt, scale, amap. cbn [f_at dft_ax dft_y dft_x mulg f_ny f_nx].
  match goal with |- _ = ?u * ?v - ?w * ?v => transitivity ((u - w) * v); [|ring] end. f_equal.
  rewrite <- dft_sub. apply dft_ext. intros j Hj. rewrite <- dft_sub. apply dft_ext. intros i Hi. ring.
Qed.

(* fft, multiply, ifft *)
Lemma efilt g a : nonempty a -> exists r, bind (emap_fft Pix false 1 a) (fun f => emap_ifft Pix false 1 (FA (f_ny f) (f_nx f) (fun y x => f_at f y x * g y x))) = Some r /\ aeq r (gfilt g a).
Proof.
  intros H. pose proof (nprod_pos AXY a H) as NP. apply IZR_lt in NP. change (0 < IZR (nprod AXY a))%R in NP. pose proof (sqrt_lt_R0 _ NP) as SN.
  unfold emap_fft, emap_ifft. rewrite fft_some by exact H. cbn [bind]. rewrite ifft_some by exact H. cbn [bind]. eexists. split; [reflexivity|].
  set (c := RtoC (enorm Pix (nprod AXY a) (sqrt 1))). rewrite (nprod_shape AXY (FA _ _ _) a) by reflexivity.
  eapply aeq_trans; [apply scale_ext, (dft_ax_ext 1 AXY _ (scale c (mulg g (dft_ax (-1) AXY a))))|].
  { split; [reflexivity|]. split; [reflexivity|]. intros y x _ _. cbn [scale amap mulg f_at]. ring. }
  eapply aeq_trans; [apply scale_ext, dft_ax_scale|]. eapply aeq_trans; [apply scale_scale|]. unfold gfilt.
  assert (E : c * RtoC (enorm Pix (nprod AXY a) (/ sqrt 1)) = / RtoC (IZR (nprod AXY a))).
  { unfold c. cbn [enorm]. rewrite <- RtoC_mult, <- RtoC_inv by lra. f_equal. pose proof (sqrt_sqrt (IZR (nprod AXY a)) ltac:(lra)) as SS. set (q := sqrt _) in *. rewrite <- SS. field. lra. }
  rewrite E. apply aeq_refl.
Qed.
Lemma efilt_re g a : nonempty a ->
  oaeq (bind (emap_fft Pix false 1 a) (fun f => bind (emap_ifft Pix false 1 (FA (f_ny f) (f_nx f) (fun y x => f_at f y x * g y x))) (fun r => Some (drop_im false r)))) (drop_im false (gfilt g a)).
Proof.
  intros H. destruct (efilt g a H) as (r & E & A). destruct (emap_fft Pix false 1 a) as [f|]; [|discriminate]. cbn [bind] in *. rewrite E. cbn [bind oaeq]. apply drop_im_ext, A.
Qed.

(* one wave through a filter *)
Lemma sh1_wave n p k o j : (0 < n)%Z -> sh1 n p (fun i => cis (2 * PI * (IZR k * ((IZR i + o) / IZR n)))%R) j = p (k mod n)%Z * cis (2 * PI * (IZR k * ((IZR j + o) / IZR n)))%R.
Proof.
  intros Hn. pose proof (IZRn0 n Hn) as N0. set (c := cis (2 * PI * (IZR k * (o / IZR n)))%R).
  rewrite (sh1_ext n _ p _ (fun i => c * w n (k * i))); [|reflexivity|].
  2: { intros i _. unfold c. rewrite w_as by exact Hn. rewrite <- cis_plus. f_equal. field. exact N0. }
  unfold sh1. rewrite (dft_ext 1 n _ (fun i => if (i =? k mod n)%Z then c * RtoC (IZR n) * p i else 0)).
  2: { intros i Hi. rewrite dft_mode by auto. replace (- -1 * k)%Z with k by lia. destruct (i =? k mod n)%Z; ring. }
  unfold dft. rewrite (csum_ext n _ (fun i => if (i =? k mod n)%Z then c * RtoC (IZR n) * p i * w n (1 * (i * j)) else 0)) by (intros i _; destruct (i =? k mod n)%Z; ring).
  rewrite (csum_single n (k mod n) (fun i => c * RtoC (IZR n) * p i * w n (1 * (i * j)))) by (apply Z.mod_pos_bound, Hn).
  rewrite (w_eqm n Hn (1 * (k mod n * j)) (k * j)).
  2: { rewrite Z.mul_1_l. rewrite Z.mul_mod, Z.mod_mod, <- Z.mul_mod by lia. reflexivity. }
  replace (/ RtoC (IZR n) * (c * RtoC (IZR n) * p (k mod n)%Z * w n (k * j))) with (p (k mod n)%Z * (c * w n (k * j))) by (field; apply Cn0, Hn).
  f_equal. unfold c. rewrite w_as by exact Hn. rewrite <- cis_plus. f_equal. field. exact N0.
Qed.
Lemma filt_AXY_at py px a y x : nonempty a -> (0 <= y < f_ny a)%Z -> (0 <= x < f_nx a)%Z ->
  f_at (filt AXY py px a) y x = sh1 (f_ny a) py (fun j => sh1 (f_nx a) px (f_at a j) x) y.
Proof. intros H Hy Hx. exact (filt_at AXY py px a y x H Hy Hx). Qed.
Lemma filt_trig py px g ny nx oy ox ms : (0 < ny)%Z -> (0 < nx)%Z ->
  List.Forall (fun m => let '(_, ky, kx) := m in py (ky mod ny)%Z * px (kx mod nx)%Z = RtoC (g ky kx)) ms ->
  aeq (filt AXY py px (sampled ny nx oy ox (trig ms))) (sampled ny nx oy ox (trig (gained g ms))).
Proof.
  intros Hy Hx HF. split; [reflexivity|]. split; [reflexivity|]. cbn [filt scale amap f_ny f_nx]. rewrite dft_ax_ny, dft_ax_nx. cbn [mulp f_ny f_nx]. rewrite dft_ax_ny, dft_ax_nx. cbn [sampled f_ny f_nx].
  intros y x Jy Jx. rewrite filt_AXY_at by (assumption || (split; assumption)). cbn [sampled f_ny f_nx f_at].
  induction ms as [|[[c ky] kx] ms IH].
  - cbn [trig gained map fold_right]. rewrite (sh1_ext ny _ py _ (fun _ => RtoC 0)); [apply sh1_0|reflexivity|]. intros i _. apply sh1_0.
  - pose proof (Forall_inv HF) as HG. cbv beta iota in HG. apply Forall_inv_tail in HF. change (gained g ((c, ky, kx) :: ms)) with ((c * RtoC (g ky kx), ky, kx) :: gained g ms). rewrite trig_cons. rewrite <- IH by exact HF. clear IH.
    rewrite (sh1_ext ny _ py _ (fun j => (c * (px (kx mod nx)%Z * cis (2 * PI * (IZR kx * ((IZR x + ox) / IZR nx))))) * cis (2 * PI * (IZR ky * ((IZR j + oy) / IZR ny))) + sh1 nx px (fun i => trig ms ((IZR j + oy) / IZR ny) ((IZR i + ox) / IZR nx)) x)); [|reflexivity|].
    + rewrite sh1_plus, sh1_scal, sh1_wave by exact Hy. f_equal. rewrite cis_prod, <- HG. ring.
    + intros j _. rewrite (sh1_ext nx _ px _ (fun i => (c * cis (2 * PI * (IZR ky * ((IZR j + oy) / IZR ny)))) * cis (2 * PI * (IZR kx * ((IZR i + ox) / IZR nx))) + trig ms ((IZR j + oy) / IZR ny) ((IZR i + ox) / IZR nx))); [|reflexivity|].
      * rewrite sh1_plus, sh1_scal, sh1_wave by exact Hx. ring.
      * intros i _. rewrite trig_cons, cis_prod. ring.
Qed.
Lemma filt_total py px a : nonempty a -> total (filt AXY py px a) = total a * py 0%Z * px 0%Z.
Proof.
  intros H. assert (W0 : forall n, w n (-1 * 0) = 1).
  { intros n. change (-1 * 0)%Z with 0%Z. unfold w. replace (2 * PI * 0 / IZR n)%R with 0%R by (unfold Rdiv; ring). apply cis_0. }
  assert (T : forall b, total b = f_at (dft_ax (-1) AXY b) 0%Z 0%Z).
  { intros b. unfold total, csum2. cbn [dft_ax dft_y dft_x f_at f_ny f_nx]. unfold dft. apply csum_ext. intros y _.
    rewrite Z.mul_0_r, W0, Cmult_1_r. apply csum_ext. intros x _. rewrite Z.mul_0_r, W0. ring. }
  rewrite !T. pose proof (fft_filt AXY py px a H) as (E1 & E2 & E). rewrite dft_ax_ny in E. rewrite dft_ax_nx in E. rewrite filt_ny in E. rewrite filt_nx in E. destruct H.
  rewrite E by lia. reflexivity.
Qed.
Lemma filt_rolled py px oy ox a : nonempty a -> aeq (filt AXY py px (rolled oy ox a)) (rolled oy ox (filt AXY py px a)).
Proof.
  intros H. set (qy := phase (f_ny a) (IZR oy) false). set (qx := phase (f_nx a) (IZR ox) false).
  assert (R : forall b, nonempty b -> f_ny b = f_ny a -> f_nx b = f_nx a -> aeq (filt AXY qy qx b) (rolled oy ox b)).
  { intros b Hb By Bx. split; [reflexivity|]. split; [reflexivity|]. rewrite filt_ny, filt_nx. intros y x Hy Hx. rewrite filt_AXY_at by assumption.
    unfold qy, qx. rewrite <- By, <- Bx. rewrite sh1_int by apply Hb. rewrite sh1_int by apply Hb. reflexivity. }
  eapply aeq_trans; [apply filt_ext; [apply aeq_sym, R; [exact H|reflexivity|reflexivity]|reflexivity|reflexivity]|].
  eapply aeq_trans; [apply filt_filt, H|]. eapply aeq_trans; [|apply (R (filt AXY py px a)); [apply filt_ne, H|reflexivity|reflexivity]].
  apply aeq_sym. eapply aeq_trans; [apply filt_filt, H|]. apply filt_ext; [apply aeq_refl|intros; ring|intros; ring].
Qed.
(* power *)
Lemma Re_csum_le n f g : (forall j, (0 <= j < n)%Z -> Re (f j) <= Re (g j))%R -> (Re (csum n f) <= Re (csum n g))%R.
Proof.
  intros H. unfold csum. assert (K : forall m, (Z.of_nat m <= n \/ m = 0%nat)%Z -> (Re (csumn m f) <= Re (csumn m g))%R).
  { induction m as [|m IH]; intros Hm; [cbn; lra|]. cbn [csumn]. assert (A : (Re (csumn m f) <= Re (csumn m g))%R) by (apply IH; lia). assert (B := H (Z.of_nat m) ltac:(lia)).
    unfold Re in *. cbn [fst snd Cplus]. lra. }
  apply K. destruct (Z.leb_spec 0 n); [left; lia|right; lia].
Qed.
Lemma parseval a : nonempty a -> inner (dft_ax (-1) AXY a) (dft_ax (-1) AXY a) = inner a a * RtoC (IZR (nprod AXY a)).
Proof.
  intros H. rewrite dft_ax_dot by (assumption || reflexivity). change (- -1)%Z with 1%Z.
  pose proof (dft_ax_inv 1 AXY a (or_introl eq_refl) H) as K. change (- (1))%Z with (-1)%Z in K.
  rewrite (inner_ext a _ a (scale (RtoC (IZR (nprod AXY a))) a) (aeq_refl a) K) by reflexivity. apply inner_scale_r.
Qed.
Lemma conj_mul_norm z : Cconj z * z = RtoC (Re z ^ 2 + Im z ^ 2)%R.
Proof. destruct z as [u v]. apply C_eq; unfold Re, Im, Cconj, Cmult, RtoC; cbn [fst snd]; ring. Qed.
Lemma filt_power py px a : nonempty a -> (forall y, (0 <= y < f_ny a)%Z -> Im (py y) = 0%R /\ -1 <= Re (py y) <= 1)%R -> (forall x, (0 <= x < f_nx a)%Z -> Im (px x) = 0%R /\ -1 <= Re (px x) <= 1)%R ->
  (power (filt AXY py px a) <= power a)%R.
Proof.
  intros H Hy Hx. pose proof (filt_ne AXY py px a H) as H'. pose proof (nprod_pos AXY a H) as NP. apply IZR_lt in NP. change (0 < IZR (nprod AXY a))%R in NP.
  apply (Rmult_le_reg_r (IZR (nprod AXY a))); [exact NP|]. unfold power.
  assert (S : forall z, (Re z * IZR (nprod AXY a))%R = Re (z * RtoC (IZR (nprod AXY a)))) by (intros [u v]; unfold Re, Cmult, RtoC; cbn [fst snd]; ring). rewrite !S. rewrite <- parseval by exact H.
  rewrite <- (nprod_shape AXY (filt AXY py px a) a) by reflexivity. rewrite <- parseval by exact H'.
  pose proof (fft_filt AXY py px a H) as E. rewrite (inner_ext _ _ _ _ E E) by reflexivity.
  unfold inner, csum2. cbn [mulp f_ny f_nx f_at]. rewrite dft_ax_ny, dft_ax_nx. apply Re_csum_le. intros y Jy. apply Re_csum_le. intros x Jx.
  rewrite !conj_mul_norm. cbn [Re fst RtoC]. destruct (Hy y Jy) as [I1 B1]. destruct (Hx x Jx) as [I2 B2]. set (z := f_at (dft_ax (-1) AXY a) y x).
  destruct (py y) as [p1 p2], (px x) as [q1 q2]. cbn [Re Im fst snd] in *. subst p2 q2. destruct z as [u v]. cbn.
  match goal with |- (?l <= _)%R => replace l with ((u * u + v * v) * ((p1 * p1) * (q1 * q1)))%R by ring end.
  assert (0 <= p1 * p1 <= 1)%R by nra. assert (0 <= q1 * q1 <= 1)%R by nra. assert (0 <= (p1 * p1) * (q1 * q1) <= 1)%R by nra. assert (0 <= u * u + v * v)%R by nra. nra.
Qed.
Lemma fft_gfilt g a : nonempty a -> aeq (dft_ax (-1) AXY (gfilt g a)) (mulg g (dft_ax (-1) AXY a)).
Proof.
  intros H. assert (M : nonempty (mulg g (dft_ax (-1) AXY a))) by exact H. pose proof (fft_ifft AXY (mulg g (dft_ax (-1) AXY a)) M) as K.
  rewrite (nprod_shape AXY (mulg g (dft_ax (-1) AXY a)) a) in K by reflexivity. exact K.
Qed.
Lemma gfilt_power g a : nonempty a -> (forall y x, (0 <= y < f_ny a)%Z -> (0 <= x < f_nx a)%Z -> Im (g y x) = 0%R /\ -1 <= Re (g y x) <= 1)%R -> (power (gfilt g a) <= power a)%R.
Proof.
  intros H Hg. assert (H' : nonempty (gfilt g a)) by exact H. pose proof (nprod_pos AXY a H) as NP. apply IZR_lt in NP. change (0 < IZR (nprod AXY a))%R in NP.
  apply (Rmult_le_reg_r (IZR (nprod AXY a))); [exact NP|]. unfold power.
  assert (S : forall z, (Re z * IZR (nprod AXY a))%R = Re (z * RtoC (IZR (nprod AXY a)))) by (intros [u v]; unfold Re, Cmult, RtoC; cbn [fst snd]; ring). rewrite !S. rewrite <- parseval by exact H.
  rewrite <- (nprod_shape AXY (gfilt g a) a) by reflexivity. rewrite <- parseval by exact H'.
  pose proof (fft_gfilt g a H) as E. rewrite (inner_ext _ _ _ _ E E) by reflexivity.
  unfold inner, csum2. cbn [mulg f_ny f_nx f_at]. rewrite dft_ax_ny, dft_ax_nx. apply Re_csum_le. intros y Jy. apply Re_csum_le. intros x Jx.
  rewrite !conj_mul_norm. destruct (Hg y x Jy Jx) as [I1 B1]. set (z := f_at (dft_ax (-1) AXY a) y x).
  destruct (g y x) as [p1 p2]. unfold Re, Im in *. cbn [fst snd] in *. subst p2. destruct z as [u v]. cbn [Cmult RtoC fst snd].
  match goal with |- (?l <= ?r)%R => replace l with ((u * u + v * v) * (p1 * p1))%R by ring; replace r with (u * u + v * v)%R by ring end.
  assert (0 <= p1 * p1 <= 1)%R by nra. assert (0 <= u * u + v * v)%R by nra. nra.
Qed.
(* the real part of a filtered map *)
Lemma sh1_re n p a j : (0 < n)%Z -> psym n p -> RtoC (Re (sh1 n p a j)) = sh1 n p (fun i => RtoC (Re (a i))) j.
Proof.
  intros Hn HP. rewrite (sh1_ext n p p a (fun i => RtoC (Re (a i)) + Ci * RtoC (Im (a i)))); [|reflexivity|intros i _; apply C_eq; destruct (a i) as [u v]; unfold Re, Im, Ci, RtoC, Cmult, Cplus; cbn [fst snd]; ring].
  rewrite sh1_plus, sh1_scal. pose proof (sh1_real n p (fun i => RtoC (Re (a i))) j Hn HP (fun _ _ => eq_refl)) as E1. pose proof (sh1_real n p (fun i => RtoC (Im (a i))) j Hn HP (fun _ _ => eq_refl)) as E2.
  destruct (sh1 n p (fun i => RtoC (Re (a i))) j) as [u v], (sh1 n p (fun i => RtoC (Im (a i))) j) as [u' v']. unfold Im in *. cbn [snd] in *. subst v v'.
  apply C_eq; unfold Re, Im, Ci, RtoC, Cmult, Cplus; cbn [fst snd]; ring.
Qed.
Lemma filt_re py px a : nonempty a -> psym (f_ny a) py -> psym (f_nx a) px -> aeq (drop_im false (filt AXY py px a)) (filt AXY py px (drop_im false a)).
Proof.
  intros H Sy Sx. split; [reflexivity|]. split; [reflexivity|]. intros y x Hy Hx. cbn [drop_im amap f_at]. rewrite !filt_AXY_at by assumption.
  rewrite sh1_re by (assumption || apply H). cbn [drop_im amap f_ny f_nx f_at]. apply sh1_ext; [reflexivity|]. intros i _. apply sh1_re; [apply H|exact Sx].
Qed.
