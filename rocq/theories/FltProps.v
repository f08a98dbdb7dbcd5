(* C84: Gaussian smoothing. *)
From Coq Require Import Reals Lra Lia.
From Coquelicot Require Import Coquelicot.
From Verif Require Import Base ArrModel PixModel FftSpec FftModel FftLemmas FftLemmas2 FftLemmas3 FftLemmas4 FftLemmas5 FltSpec FltModel FltLemmas FltLemmas2.
Ltac Zify.zify_post_hook ::= idtac.
Open Scope R_scope.

Lemma smooth_zero sy sx a : smooth_gauss sy sx 0 a = Some a.
Proof. unfold smooth_gauss. destruct (Req_EM_T 0 0); [reflexivity|contradiction]. Qed.
Lemma laxis_mode n step k : (0 < n)%Z -> inside n k -> step <> 0 -> laxis n step (k mod n) = 2 * PI * IZR k / (IZR n * step).
Proof. intros Hn Hk Hs. unfold laxis, fftfreq. rewrite inside_freq by assumption. pose proof (IZRn0 n Hn). field. split; assumption. Qed.
Lemma gauss_wave ny nx sy sx s ky kx : (0 < ny)%Z -> (0 < nx)%Z -> sy <> 0 -> sx <> 0 -> inside ny ky -> inside nx kx ->
  Cmult (gauss ny sy s (ky mod ny)) (gauss nx sx s (kx mod nx)) = RtoC (gauss_gain ny nx sy sx s ky kx).
Proof.
  intros Hy Hx Sy Sx Iy Ix. unfold gauss, gauss_gain. rewrite <- RtoC_mult, <- exp_plus, !laxis_mode by assumption. f_equal. f_equal. replace (- 0.5) with (- (1 / 2)) by lra. field. pose proof (IZRn0 ny Hy). pose proof (IZRn0 nx Hx). auto.
Qed.

(* A map keeps being real, of any size, and every wave in it is damped as the Gaussian's transform says; with a negative
   sigma the complement is left. *)
Theorem C84_waves : forall ny nx sy sx sigma oy ox ms, (0 < ny)%Z -> (0 < nx)%Z -> sy <> 0 -> sx <> 0 -> band ny nx ms -> is_real (sampled ny nx oy ox (trig ms)) ->
  oaeq (smooth_gauss sy sx sigma (sampled ny nx oy ox (trig ms)))
       (sampled ny nx oy ox (trig (gained (fun ky kx => if Rle_dec 0 sigma then gauss_gain ny nx sy sx sigma ky kx else 1 - gauss_gain ny nx sy sx sigma ky kx) ms))).
Proof.
  intros ny nx sy sx s oy ox ms Hy Hx Sy Sx HB R. set (a := sampled ny nx oy ox (trig ms)) in *. assert (H : nonempty a) by (split; assumption).
  assert (G : forall t, aeq (gfil sy sx t a) (sampled ny nx oy ox (trig (gained (gauss_gain ny nx sy sx t) ms)))).
  { intros t. apply filt_trig; [assumption|assumption|]. revert HB. apply Forall_impl. intros [[c ky] kx] [I1 I2]. apply gauss_wave; assumption. }
  destruct (Rle_dec 0 s) as [P|P].
  - destruct (Req_EM_T s 0) as [->|N].
    + rewrite smooth_zero. cbn [oaeq]. split; [reflexivity|]. split; [reflexivity|]. intros y x _ _. cbn [a sampled f_at]. f_equal.
      clear. induction ms as [|[[c ky] kx] ms IH]; [reflexivity|]. change (gained ?g ((c, ky, kx) :: ms)) with ((Cmult c (RtoC (g ky kx)), ky, kx) :: gained g ms). rewrite <- IH. f_equal. f_equal. f_equal.
      unfold gauss_gain. replace (- (0 ^ 2 / 2) * _) with 0 by (unfold Rdiv; ring). rewrite exp_0. symmetry. apply Cmult_1_r.
    + destruct (smooth_real sy sx s a H R N) as (r & E & _ & A). rewrite E. cbn [oaeq]. destruct (Rlt_dec 0 s) as [_|Q]; [|lra]. eapply aeq_trans; [exact A|apply G].
  - destruct (smooth_real sy sx s a H R ltac:(lra)) as (r & E & _ & A). rewrite E. cbn [oaeq]. destruct (Rlt_dec 0 s) as [Q|_]; [lra|]. eapply aeq_trans; [exact A|].
    eapply aeq_trans; [apply sub_ext; [apply aeq_refl|apply G|reflexivity|reflexivity]|]. split; [reflexivity|]. split; [reflexivity|]. intros y x _ _. cbn [sub a sampled f_at].
    set (u := ((IZR y + oy) / IZR ny)%R). set (v := ((IZR x + ox) / IZR nx)%R). clear. induction ms as [|[[c ky] kx] ms IH]; [cbn [trig gained map fold_right]; ring|].
    change (gained ?g ((c, ky, kx) :: ms)) with ((Cmult c (RtoC (g ky kx)), ky, kx) :: gained g ms). rewrite !trig_cons. rewrite <- IH.
    replace (gauss_gain ny nx sy sx (- s) ky kx) with (gauss_gain ny nx sy sx s ky kx) by (unfold gauss_gain; f_equal; f_equal; unfold Rdiv; ring).
    rewrite RtoC_minus. ring.
Qed.

(* Smoothing twice is smoothing once with the widths added in quadrature; zero changes nothing. *)
Theorem C84_compose : forall sy sx s t a, nonempty a -> is_real a -> 0 <= s -> 0 <= t ->
  exists b c, smooth_gauss sy sx s a = Some b /\ smooth_gauss sy sx (sqrt (s ^ 2 + t ^ 2)) a = Some c /\ is_real b /\ oaeq (smooth_gauss sy sx t b) c.
Proof.
  intros sy sx s t a H R Hs Ht. destruct (Req_EM_T s 0) as [->|Ns].
  - rewrite smooth_zero. replace (sqrt (0 ^ 2 + t ^ 2)) with t by (replace (0 ^ 2 + t ^ 2) with (t * t) by ring; symmetry; apply sqrt_square, Ht).
    destruct (Req_EM_T t 0) as [->|Nt].
    + exists a, a. rewrite smooth_zero. cbn [oaeq]. repeat split; assumption || reflexivity.
    + destruct (smooth_real sy sx t a H R Nt) as (r & E & _ & A). exists a, r. rewrite E. cbn [oaeq]. repeat split; try assumption; reflexivity.
  - destruct (smooth_real sy sx s a H R Ns) as (b & Eb & Rb & Ab). destruct (Rlt_dec 0 s) as [Ps|]; [|lra].
    destruct (Req_EM_T t 0) as [->|Nt].
    + replace (sqrt (s ^ 2 + 0 ^ 2)) with s by (replace (s ^ 2 + 0 ^ 2) with (s * s) by ring; symmetry; apply sqrt_square, Hs).
      exists b, b. rewrite Eb, smooth_zero. cbn [oaeq]. repeat split; try assumption; reflexivity.
    + assert (Q : 0 < sqrt (s ^ 2 + t ^ 2)). { apply sqrt_lt_R0. assert (0 < s ^ 2) by (apply pow_lt; lra). assert (0 < t ^ 2) by (apply pow_lt; lra). lra. }
      destruct (smooth_real sy sx (sqrt (s ^ 2 + t ^ 2)) a H R ltac:(lra)) as (c & Ec & Rc & Ac). destruct (Rlt_dec 0 (sqrt (s ^ 2 + t ^ 2))) as [_|]; [|lra].
      exists b, c. do 2 (split; [assumption|]). split; [exact Rb|].
      assert (Hb : nonempty b) by (eapply nonempty_ext; [apply aeq_sym, Ab|exact H]). destruct (smooth_real sy sx t b Hb Rb Nt) as (d & Ed & _ & Ad). destruct (Rlt_dec 0 t) as [_|]; [|lra].
      rewrite Ed. cbn [oaeq]. eapply aeq_trans; [exact Ad|]. eapply aeq_trans; [apply gfil_ext, Ab|]. apply aeq_sym. eapply aeq_trans; [exact Ac|]. apply aeq_sym.
      unfold gfil at 1. cbn [gfil f_ny f_nx]. eapply aeq_trans; [apply filt_filt, H|]. unfold gfil. apply filt_ext; [apply aeq_refl|intros; apply gauss_mul|intros; apply gauss_mul].
Qed.

(* the two filters of the same width share the map between them *)
Theorem C84_complement : forall sy sx s a, nonempty a -> is_real a -> 0 < s ->
  exists lo hi, smooth_gauss sy sx s a = Some lo /\ smooth_gauss sy sx (- s) a = Some hi /\ aeq (aplus lo hi) a.
Proof.
  intros sy sx s a H R Hs. destruct (smooth_real sy sx s a H R ltac:(lra)) as (lo & E1 & _ & A1). destruct (smooth_real sy sx (- s) a H R ltac:(lra)) as (hi & E2 & _ & A2).
  exists lo, hi. do 2 (split; [assumption|]). destruct (Rlt_dec 0 s); [|lra]. destruct (Rlt_dec 0 (- s)); [lra|]. rewrite Ropp_involutive in A2.
  destruct A1 as (Y1 & X1 & V1), A2 as (Y2 & X2 & V2). split; [exact Y1|]. split; [exact X1|]. cbn [aplus f_at f_ny f_nx]. intros y x Hy Hx. rewrite V1 by assumption. rewrite Y1 in Hy. rewrite X1 in Hx.
  rewrite V2 by (rewrite ?Y2, ?X2; assumption). cbn [sub f_at]. ring.
Qed.

(* the sum over the map is kept, or removed *)
Lemma total_ext a b : aeq a b -> total a = total b.
Proof. intros (E1 & E2 & E). unfold total, csum2. rewrite <- E1, <- E2. apply csum_ext. intros y Hy. apply csum_ext. intros x Hx. apply E; assumption. Qed.
Lemma total_sub a b : f_ny a = f_ny b -> f_nx a = f_nx b -> total (sub a b) = Cminus (total a) (total b).
Proof.
  intros Sy Sx. unfold total, csum2. cbn [sub f_ny f_nx f_at]. rewrite <- Sy, <- Sx.
  transitivity (Cplus (csum (f_ny a) (fun y => csum (f_nx a) (f_at a y))) (Cmult (Copp (RtoC 1)) (csum (f_ny a) (fun y => csum (f_nx a) (f_at b y))))); [|ring].
  rewrite <- csum_scal_l, <- csum_plus. apply csum_ext. intros y _. rewrite <- csum_scal_l, <- csum_plus. apply csum_ext. intros x _. ring.
Qed.
Theorem C84_mean : forall sy sx s a r, nonempty a -> is_real a -> smooth_gauss sy sx s a = Some r -> total r = if Rle_dec 0 s then total a else RtoC 0.
Proof.
  intros sy sx s a r H R E. assert (G : forall t, total (gfil sy sx t a) = total a).
  { intros t. unfold gfil. rewrite filt_total by exact H. rewrite !gauss_0 by apply H. ring. }
  destruct (Req_EM_T s 0) as [->|N].
  - rewrite smooth_zero in E. apply Some_inj in E. subst r. destruct (Rle_dec 0 0); [reflexivity|lra].
  - destruct (smooth_real sy sx s a H R N) as (r' & E' & _ & A). rewrite E in E'. apply Some_inj in E'. subst r'. rewrite (total_ext _ _ A). destruct (Rlt_dec 0 s), (Rle_dec 0 s); try lra.
    + apply G.
    + rewrite total_sub by reflexivity. rewrite G. ring.
Qed.

(* it does not matter where on the map a feature is *)
Theorem C84_roll : forall sy sx s oy ox a r, nonempty a -> is_real a -> smooth_gauss sy sx s a = Some r -> oaeq (smooth_gauss sy sx s (rolled oy ox a)) (rolled oy ox r).
Proof.
  intros sy sx s oy ox a r H R E. assert (RR : is_real (rolled oy ox a)).
  { intros y x Hy Hx. cbn [rolled f_at f_ny f_nx] in *. apply R; apply Z.mod_pos_bound; apply H. }
  assert (RE : forall b c : farr C, aeq b c -> nonempty b -> aeq (rolled oy ox b) (rolled oy ox c)).
  { intros b c (E1 & E2 & EE) [Py Px]. split; [exact E1|]. split; [exact E2|]. cbn [rolled f_at f_ny f_nx]. intros y x Hy Hx. rewrite <- E1, <- E2. apply EE; apply Z.mod_pos_bound; assumption. }
  destruct (Req_EM_T s 0) as [->|N].
  - rewrite smooth_zero in E |- *. apply Some_inj in E. subst r. apply aeq_refl.
  - destruct (smooth_real sy sx s a H R N) as (r' & E' & _ & A). rewrite E in E'. apply Some_inj in E'. subst r'.
    destruct (smooth_real sy sx s (rolled oy ox a) H RR N) as (q & Eq & _ & Aq). rewrite Eq. cbn [oaeq]. eapply aeq_trans; [exact Aq|]. clear Aq.
    apply aeq_sym. eapply aeq_trans; [apply (RE _ _ A); eapply nonempty_ext; [apply aeq_sym, A|destruct (Rlt_dec 0 s); exact H]|]. apply aeq_sym.
    assert (G : forall t, aeq (gfil sy sx t (rolled oy ox a)) (rolled oy ox (gfil sy sx t a))) by (intros t; apply filt_rolled, H).
    destruct (Rlt_dec 0 s); [apply G|]. eapply aeq_trans; [apply sub_ext; [apply aeq_refl|apply G|reflexivity|reflexivity]|]. split; [reflexivity|]. split; reflexivity.
Qed.

(* smoothing never adds power *)
Theorem C84_power : forall sy sx s a r, nonempty a -> is_real a -> smooth_gauss sy sx s a = Some r -> power r <= power a.
Proof.
  intros sy sx s a r H R E. destruct (Req_EM_T s 0) as [->|N]; [rewrite smooth_zero in E; apply Some_inj in E; subst r; lra|].
  destruct (smooth_real sy sx s a H R N) as (r' & E' & _ & A). rewrite E in E'. apply Some_inj in E'. subst r'. unfold power at 1. rewrite (inner_ext _ _ _ _ A A) by reflexivity.
  destruct (Rlt_dec 0 s).
  - apply filt_power; [exact H|intros; apply gauss_bound|intros; apply gauss_bound].
  - set (g := fun y x => Cmult (gauss (f_ny a) sy (- s) y) (gauss (f_nx a) sx (- s) x)).
    assert (B : aeq (sub a (gfil sy sx (- s) a)) (gfilt (fun y x => Cminus (RtoC 1) (g y x)) a)).
    { apply aeq_sym. eapply aeq_trans; [apply gfilt_compl, H|]. apply sub_ext; [apply aeq_refl|apply gfilt_sep; reflexivity|reflexivity|reflexivity]. }
    rewrite (inner_ext _ _ _ _ B B) by reflexivity. apply gfilt_power; [exact H|]. intros y x _ _. unfold g, gauss. rewrite <- RtoC_mult, <- exp_plus, <- RtoC_minus. split; [reflexivity|].
    assert (K : forall n st k, 0 <= laxis n st k ^ 2 * (- s) ^ 2) by (intros; apply Rmult_le_pos; apply pow2_ge_0).
    pose proof (exp_le1 (- 0.5 * (laxis (f_ny a) sy y ^ 2 * (- s) ^ 2) + - 0.5 * (laxis (f_nx a) sx x ^ 2 * (- s) ^ 2))) as P. pose proof (K (f_ny a) sy y). pose proof (K (f_nx a) sx x).
    unfold Re, RtoC. cbn [fst]. lra.
Qed.

(* of a complex map only the real part is smoothed and returned, unless the width is zero *)
Theorem C84_complex : forall sy sx s a, nonempty a -> s <> 0 -> exists r, smooth_gauss sy sx s (amap (fun z => RtoC (Re z)) a) = Some r /\ oaeq (smooth_gauss sy sx s a) r /\ smooth_gauss sy sx 0 a = Some a.
Proof.
  intros sy sx s a H N. set (b := amap (fun z => RtoC (Re z)) a). assert (R : is_real b) by (intros y x _ _; reflexivity). assert (Hb : nonempty b) by exact H.
  destruct (smooth_real sy sx s b Hb R N) as (r & E & _ & A). exists r. split; [exact E|]. split; [|apply smooth_zero].
  assert (F : forall t, aeq (drop_im false (gfil sy sx t a)) (gfil sy sx t b)) by (intros t; apply filt_re; [exact H|apply gauss_sym, H|apply gauss_sym, H]).
  destruct (Rlt_dec 0 s) as [P|P].
  - pose proof (smooth_pos sy sx s a H P) as K. destruct (smooth_gauss sy sx s a) as [q|]; [|contradiction]. cbn [oaeq] in *. eapply aeq_trans; [exact K|]. eapply aeq_trans; [apply F|apply aeq_sym, A].
  - pose proof (smooth_neg sy sx s a H ltac:(lra)) as K. destruct (smooth_gauss sy sx s a) as [q|]; [|contradiction]. cbn [oaeq] in *. eapply aeq_trans; [exact K|]. apply aeq_sym. eapply aeq_trans; [exact A|]. apply aeq_sym.
    destruct (F (- s)) as (_ & _ & V). split; [reflexivity|]. split; [reflexivity|]. cbn [drop_im amap sub f_at f_ny f_nx]. intros y x Hy Hx. rewrite <- V by assumption. cbn [drop_im amap f_at b].
    apply C_eq; unfold Re, Im, RtoC, Cminus, Cplus, Copp; cbn [fst snd]; ring.
Qed.

Example C84_ex : let ms := [(RtoC 1, 1%Z, 0%Z); (RtoC 1, (-1)%Z, 0%Z)] in band 4 5 ms /\ is_real (sampled 4 5 0 0 (trig ms)) /\ nonempty (sampled 4 5 0 0 (trig ms)) /\ 0 < gauss_gain 4 5 1 1 1 1 0 < 1.
Proof.
  cbv zeta. split; [|split; [|split]].
  - repeat constructor; unfold inside; lia.
  - intros y x _ _. cbn [sampled f_at]. rewrite !trig_cons. set (u := ((IZR y + 0) / 4)%R). set (v := ((IZR x + 0) / 5)%R). cbn [trig fold_right].
    replace (2 * PI * (-1 * u + 0 * v)) with (- (2 * PI * (1 * u + 0 * v))) by ring. rewrite cis_opp. unfold cis, Cconj, Im, RtoC, Cmult, Cplus. cbn [fst snd]. ring.
  - split; reflexivity.
  - unfold gauss_gain. split; [apply exp_pos|]. apply (Rlt_le_trans _ (exp 0)); [apply exp_increasing|rewrite exp_0; lra]. assert (0 < (2 * PI * 1 / (4 * 1)) ^ 2) by (apply pow_lt; pose proof PI_RGT_0; lra).
    replace (2 * PI * 0 / (5 * 1)) with 0 by field. set (X := (2 * PI * 1 / (4 * 1)) ^ 2) in *. replace (- (1 ^ 2 / 2) * (X + 0 ^ 2)) with (- (X / 2)) by field. lra.
Qed.

Print Assumptions C84_waves.
Print Assumptions C84_compose.
Print Assumptions C84_complement.
Print Assumptions C84_mean.
Print Assumptions C84_roll.
Print Assumptions C84_power.
Print Assumptions C84_complex.
