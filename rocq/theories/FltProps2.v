(* C85: pixel windows. *)
From Coq Require Import Reals Lra Lia.
From Coquelicot Require Import Coquelicot.
From Verif Require Import Base ArrModel PixModel FftSpec FftModel FftLemmas FftLemmas2 FftLemmas3 FftLemmas4 FftLemmas5 FltSpec FltModel FltLemmas FltLemmas2 FltLemmas3 FltProps.
Ltac Zify.zify_post_hook ::= idtac.
Open Scope R_scope.

(* powers add up, and unapply_window undoes apply_window *)
Theorem C85_powers : forall order scale p q a, order = None \/ order = Some 0%Z \/ order = Some 1%Z -> 1 / 2 < scale -> nonempty a -> is_real a ->
  exists b c, apply_window p order scale false a = Some b /\ apply_window (p + q) order scale false a = Some c /\ is_real b /\ oaeq (apply_window q order scale false b) c.
Proof.
  intros order scale p q a HO Hs H R. destruct (apply_real order scale p a HO Hs H R) as (b & Eb & Rb & Ab). destruct (apply_real order scale (p + q) a HO Hs H R) as (c & Ec & _ & Ac).
  exists b, c. do 3 (split; [assumption|]). assert (Hb : nonempty b) by (eapply nonempty_ext; [apply aeq_sym, Ab|exact H]).
  destruct (apply_real order scale q b HO Hs Hb Rb) as (d & Ed & _ & Ad). rewrite Ed. cbn [oaeq]. eapply aeq_trans; [exact Ad|]. eapply aeq_trans; [apply wfil_ext, Ab|]. eapply aeq_trans; [apply wfil_wfil, H|apply aeq_sym, Ac].
Qed.
Theorem C85_inverse : forall order scale p a, order = None \/ order = Some 0%Z \/ order = Some 1%Z -> 1 / 2 < scale -> nonempty a -> is_real a ->
  exists b, apply_window p order scale false a = Some b /\ oaeq (unapply_window p order scale false b) a.
Proof.
  intros order scale p a HO Hs H R. destruct (C85_powers order scale p (- p) a HO Hs H R) as (b & c & Eb & Ec & _ & D). exists b. split; [exact Eb|]. unfold unapply_window.
  rewrite Rplus_opp_r in Ec. destruct (apply_real order scale 0 a HO Hs H R) as (c' & Ec' & _ & Ac). rewrite Ec in Ec'. apply Some_inj in Ec'. subst c'.
  destruct (apply_window (- p) order scale false b) as [d|]; [|contradiction]. cbn [oaeq] in *. eapply aeq_trans; [exact D|]. eapply aeq_trans; [exact Ac|apply wfil_0; assumption].
Qed.
(* the sum over the map is kept *)
Theorem C85_mean : forall order scale p a r, order = None \/ order = Some 0%Z \/ order = Some 1%Z -> 1 / 2 < scale -> nonempty a -> is_real a ->
  apply_window p order scale false a = Some r -> total r = total a.
Proof.
  intros order scale p a r HO Hs H R E. destruct (apply_real order scale p a HO Hs H R) as (r' & E' & _ & A). rewrite E in E'. apply Some_inj in E'. subst r'.
  rewrite (total_ext _ _ A). unfold wfil. rewrite filt_total by exact H.
  assert (W : forall n, (0 < n)%Z -> wv order n scale p 0 = RtoC 1).
  { intros n Hn. unfold wv. assert (F : fftfreq n 0 = 0) by (unfold fftfreq; pose proof (Z.div_pos (n - 1) 2 ltac:(lia) ltac:(lia)); replace (0 <? (n - 1) / 2 + 1)%Z with true by lia; unfold Rdiv; ring).
    rewrite F. replace (0 / scale) with 0 by (unfold Rdiv; ring). rewrite pw_0 by exact HO. unfold Rpower. rewrite ln_1, Rmult_0_r, exp_0. reflexivity. }
  rewrite !W by apply H. ring.
Qed.
(* nofft=True takes and gives Fourier coefficients *)
Theorem C85_nofft : forall order scale p a, order = None \/ order = Some 0%Z \/ order = Some 1%Z -> 1 / 2 < scale -> nonempty a ->
  exists r, apply_window p order scale false a = Some r /\
  bind (emap_fft Pix false 1 a) (fun f => bind (apply_window p order scale true f) (fun g => bind (emap_ifft Pix false 1 g) (fun o => Some (drop_im false o)))) = Some r.
Proof.
  intros order scale p a HO Hs H. pose proof (apply_eq order scale p a HO Hs H) as K. destruct (apply_window p order scale false a) as [r|] eqn:E; [|contradiction]. exists r. split; [reflexivity|].
  rewrite <- E. unfold apply_window. destruct (window_some order (f_ny a) scale p HO (proj1 H) Hs) as (vy & Ey & _). destruct (window_some order (f_nx a) scale p HO (proj2 H) Hs) as (vx & Ex & _).
  assert (F : exists f, emap_fft Pix false 1 a = Some f /\ f_ny f = f_ny a /\ f_nx f = f_nx a) by (unfold emap_fft; rewrite fft_some by exact H; cbn [bind]; eexists; split; [reflexivity|split; reflexivity]).
  destruct F as (f & Ef & N1 & N2). rewrite Ef. cbn [bind]. rewrite N1, N2, Ey, Ex. cbn [bind]. reflexivity.
Qed.

(* trigonometric patterns, averaged and weighted *)
Lemma gained_cons g c ky kx ms : gained g ((c, ky, kx) :: ms) = (Cmult c (RtoC (g ky kx)), ky, kx) :: gained g ms.
Proof. reflexivity. Qed.
Lemma wave_split ky kx U V p q s t : cis (2 * PI * (IZR ky * (U + s * p) + IZR kx * (V + t * q))) = Cmult (cis (2 * PI * (IZR ky * U) + 2 * PI * IZR ky * p * s)) (cis (2 * PI * (IZR kx * V) + 2 * PI * IZR kx * q * t)).
Proof. rewrite <- cis_plus. f_equal. ring. Qed.
Lemma trig_avg p q U V ms : cint2 (fun s t => trig ms (U + s * p) (V + t * q)) (- (1 / 2)) (1 / 2) (- (1 / 2)) (1 / 2) (trig (gained (fun ky kx => sinc (IZR ky * p) * sinc (IZR kx * q)) ms) U V).
Proof.
  pose proof PI_RGT_0 as P. induction ms as [|[[c ky] kx] ms IH]; [apply cint2_0|]. rewrite gained_cons, trig_cons.
  apply (cint2_ext (fun s t => Cplus (Cmult (Cmult c (cis (2 * PI * (IZR ky * U) + 2 * PI * IZR ky * p * s))) (cis (2 * PI * (IZR kx * V) + 2 * PI * IZR kx * q * t))) (trig ms (U + s * p) (V + t * q)))).
  { intros s t. rewrite trig_cons, wave_split. f_equal. symmetry. apply Cmult_assoc. }
  apply cint2_plus; [|exact IH]. rewrite cis_prod, RtoC_mult.
  pose proof (cint2_prod _ _ _ _ _ _ _ _ (cint_scal c _ _ _ _ (cint_cis (2 * PI * (IZR ky * U)) (2 * PI * IZR ky * p))) (cint_cis (2 * PI * (IZR kx * V)) (2 * PI * IZR kx * q))) as K.
  replace (2 * PI * IZR ky * p / (2 * PI)) with (IZR ky * p) in K by (field; lra). replace (2 * PI * IZR kx * q / (2 * PI)) with (IZR kx * q) in K by (field; lra).
  match goal with |- cint2 _ _ _ _ _ ?v => match type of K with cint2 _ _ _ _ _ ?v' => replace v with v' by ring end end. exact K.
Qed.
Lemma trig_hat p q U V ms : cint2 (fun s t => Cmult (RtoC (hat s * hat t)) (trig ms (U + s * p) (V + t * q))) (-1) 1 (-1) 1 (trig (gained (fun ky kx => sinc (IZR ky * p) ^ 2 * sinc (IZR kx * q) ^ 2) ms) U V).
Proof.
  pose proof PI_RGT_0 as P. induction ms as [|[[c ky] kx] ms IH].
  { apply (cint2_ext (fun _ _ => RtoC 0)); [intros s t; cbn [trig fold_right]; ring|apply cint2_0]. }
  rewrite gained_cons, trig_cons.
  apply (cint2_ext (fun s t => Cplus (Cmult (Cmult c (Cmult (RtoC (hat s)) (cis (2 * PI * (IZR ky * U) + 2 * PI * IZR ky * p * s)))) (Cmult (RtoC (hat t)) (cis (2 * PI * (IZR kx * V) + 2 * PI * IZR kx * q * t)))) (Cmult (RtoC (hat s * hat t)) (trig ms (U + s * p) (V + t * q))))).
  { intros s t. rewrite trig_cons, wave_split, RtoC_mult. ring. }
  apply cint2_plus; [|exact IH]. rewrite cis_prod, RtoC_mult.
  pose proof (cint2_prod _ _ _ _ _ _ _ _ (cint_scal c _ _ _ _ (hat_cis (2 * PI * (IZR ky * U)) (2 * PI * IZR ky * p))) (hat_cis (2 * PI * (IZR kx * V)) (2 * PI * IZR kx * q))) as K.
  replace (2 * PI * IZR ky * p / (2 * PI)) with (IZR ky * p) in K by (field; lra). replace (2 * PI * IZR kx * q / (2 * PI)) with (IZR kx * q) in K by (field; lra).
  match goal with |- cint2 _ _ _ _ _ ?v => match type of K with cint2 _ _ _ _ _ ?v' => replace v with v' by ring end end. exact K.
Qed.
Lemma three th b : csum 3 (fun i => Cmult (RtoC (overlap i)) (cis (th + b * IZR (i - 1)))) = Cmult (RtoC (1 / 3 * (2 + cos b))) (cis th).
Proof. rewrite csum_3. cbn [overlap Z.eqb Pos.eqb]. exact (hat_three th b). Qed.
Lemma trig_three p q U V ms : csum2 3 3 (fun i j => Cmult (RtoC (overlap i * overlap j)) (trig ms (U + IZR (i - 1) * p) (V + IZR (j - 1) * q))) =
  trig (gained (fun ky kx => 1 / 3 * (2 + cos (2 * PI * IZR ky * p)) * (1 / 3 * (2 + cos (2 * PI * IZR kx * q)))) ms) U V.
Proof.
  unfold csum2. induction ms as [|[[c ky] kx] ms IH].
  { cbn [trig gained map fold_right]. rewrite (csum_ext 3 _ (fun _ => RtoC 0)); [apply csum_0|]. intros i _. rewrite (csum_ext 3 _ (fun _ => RtoC 0)); [apply csum_0|]. intros j _. ring. }
  rewrite gained_cons, trig_cons, <- IH. clear IH.
  rewrite (csum_ext 3 _ (fun i => Cplus (Cmult (Cmult c (Cmult (RtoC (overlap i)) (cis (2 * PI * (IZR ky * U) + 2 * PI * IZR ky * p * IZR (i - 1))))) (Cmult (RtoC (1 / 3 * (2 + cos (2 * PI * IZR kx * q)))) (cis (2 * PI * (IZR kx * V)))))
     (csum 3 (fun j => Cmult (RtoC (overlap i * overlap j)) (trig ms (U + IZR (i - 1) * p) (V + IZR (j - 1) * q)))))).
  - rewrite csum_plus. f_equal. rewrite csum_scal_r, csum_scal_l, three. rewrite cis_prod, !RtoC_mult. ring.
  - intros i _. rewrite <- three, <- csum_scal_l, <- csum_plus. apply csum_ext. intros j _. rewrite trig_cons, wave_split, RtoC_mult. ring.
Qed.
Lemma trig_per ms U V a b : trig ms (U + IZR a) (V + IZR b) = trig ms U V.
Proof.
  induction ms as [|[[c ky] kx] ms IH]; [reflexivity|]. rewrite !trig_cons, IH. f_equal. f_equal.
  replace (2 * PI * (IZR ky * (U + IZR a) + IZR kx * (V + IZR b))) with (2 * PI * (IZR ky * U + IZR kx * V) + 2 * PI * IZR (ky * a + kx * b)) by (rewrite plus_IZR, !mult_IZR; ring). apply cis_period.
Qed.
Lemma trig_gained_ext g h ms U V : (forall ky kx, g ky kx = h ky kx) -> trig (gained g ms) U V = trig (gained h ms) U V.
Proof. intros E. induction ms as [|[[c ky] kx] ms IH]; [reflexivity|]. rewrite !gained_cons, !trig_cons, IH, E. reflexivity. Qed.
Lemma trig_gained_gained g h ms U V : trig (gained g (gained h ms)) U V = trig (gained (fun ky kx => h ky kx * g ky kx) ms) U V.
Proof. induction ms as [|[[c ky] kx] ms IH]; [reflexivity|]. rewrite !gained_cons, !trig_cons, IH, RtoC_mult. ring. Qed.
Lemma apply_trig order scale ny nx oy ox ms : known order -> 1 / 2 < scale -> (0 < ny)%Z -> (0 < nx)%Z -> band ny nx ms -> is_real (sampled ny nx oy ox (trig ms)) ->
  oaeq (apply_window 1 order scale false (sampled ny nx oy ox (trig ms))) (sampled ny nx oy ox (trig (gained (fun ky kx => pw order (IZR ky / IZR ny / scale) * pw order (IZR kx / IZR nx / scale)) ms))).
Proof.
  intros HO Hs Hy Hx HB R. destruct (apply_real order scale 1 (sampled ny nx oy ox (trig ms)) HO Hs (conj Hy Hx) R) as (r & E & _ & A). rewrite E. cbn [oaeq]. eapply aeq_trans; [exact A|].
  apply filt_trig; [assumption|assumption|]. revert HB. apply Forall_impl. intros [[c ky] kx] [I1 I2]. cbn [sampled f_ny f_nx]. rewrite !wv_wave by assumption. symmetry. apply RtoC_mult.
Qed.

(* The window of nearest neighbour map-making: every pixel gets the average of the sky over its area. With scale the area is
   that of a pixel scale times smaller. *)
Theorem C85_average : forall scale ny nx oy ox ms, 1 / 2 < scale -> (0 < ny)%Z -> (0 < nx)%Z -> band ny nx ms -> is_real (sampled ny nx oy ox (trig ms)) ->
  exists r, apply_window 1 (Some 0%Z) scale false (sampled ny nx oy ox (trig ms)) = Some r /\ f_ny r = ny /\ f_nx r = nx /\
  forall y x, (0 <= y < ny)%Z -> (0 <= x < nx)%Z ->
    cint2 (fun s t => trig ms ((IZR y + oy + s / scale) / IZR ny) ((IZR x + ox + t / scale) / IZR nx)) (- (1 / 2)) (1 / 2) (- (1 / 2)) (1 / 2) (f_at r y x).
Proof.
  intros scale ny nx oy ox ms Hs Hy Hx HB R. pose proof (apply_trig (Some 0%Z) scale ny nx oy ox ms (or_intror (or_introl eq_refl)) Hs Hy Hx HB R) as K.
  destruct (apply_window 1 (Some 0%Z) scale false (sampled ny nx oy ox (trig ms))) as [r|]; [|contradiction]. exists r. split; [reflexivity|]. cbn [oaeq] in K. destruct K as (Ny & Nx & V). split; [exact Ny|]. split; [exact Nx|].
  intros y x Jy Jx. rewrite V by (rewrite ?Ny, ?Nx; assumption). cbn [sampled f_at]. pose proof (IZRn0 ny Hy). pose proof (IZRn0 nx Hx).
  pose proof (trig_avg (/ (IZR ny * scale)) (/ (IZR nx * scale)) ((IZR y + oy) / IZR ny) ((IZR x + ox) / IZR nx) ms) as K.
  rewrite (trig_gained_ext _ (fun ky kx => pw (Some 0%Z) (IZR ky / IZR ny / scale) * pw (Some 0%Z) (IZR kx / IZR nx / scale))) in K.
  - eapply cint2_ext; [|exact K]. intros s t. cbv beta. f_equal; field; split; (assumption || lra).
  - intros ky kx. unfold pw. cbn [pixwin_1d]. f_equal; f_equal; field; split; (assumption || lra).
Qed.
(* The window of bilinear map-making: the interpolated map and the sky have the same overlap with the hat of every pixel, which
   is the condition for the least-squares solution. *)
Theorem C85_bilinear : forall ny nx oy ox ms, (0 < ny)%Z -> (0 < nx)%Z -> band ny nx ms -> is_real (sampled ny nx oy ox (trig ms)) ->
  exists r, apply_window 1 (Some 1%Z) 1 false (sampled ny nx oy ox (trig ms)) = Some r /\ f_ny r = ny /\ f_nx r = nx /\
  forall y x, (0 <= y < ny)%Z -> (0 <= x < nx)%Z ->
    cint2 (fun s t => Cmult (RtoC (hat s * hat t)) (trig ms ((IZR y + oy + s) / IZR ny) ((IZR x + ox + t) / IZR nx))) (-1) 1 (-1) 1 (overlaps r y x).
Proof.
  intros ny nx oy ox ms Hy Hx HB R. pose proof (apply_trig (Some 1%Z) 1 ny nx oy ox ms (or_intror (or_intror eq_refl)) ltac:(lra) Hy Hx HB R) as K.
  destruct (apply_window 1 (Some 1%Z) 1 false (sampled ny nx oy ox (trig ms))) as [r|]; [|contradiction]. exists r. split; [reflexivity|]. cbn [oaeq] in K. destruct K as (Ny & Nx & V). split; [exact Ny|]. split; [exact Nx|].
  intros y x Jy Jx. pose proof (IZRn0 ny Hy). pose proof (IZRn0 nx Hx).
  set (G := gained (fun ky kx => pw (Some 1%Z) (IZR ky / IZR ny / 1) * pw (Some 1%Z) (IZR kx / IZR nx / 1)) ms) in *.
  assert (E : overlaps r y x = csum2 3 3 (fun i j => Cmult (RtoC (overlap i * overlap j)) (trig G ((IZR y + oy) / IZR ny + IZR (i - 1) * / IZR ny) ((IZR x + ox) / IZR nx + IZR (j - 1) * / IZR nx)))).
  { unfold overlaps, csum2. apply csum_ext. intros i _. apply csum_ext. intros j _. f_equal. cbn [sampled f_ny f_nx] in Ny, Nx. rewrite Ny, Nx. rewrite V by (rewrite ?Ny, ?Nx; apply Z.mod_pos_bound; assumption). cbn [sampled f_at].
    rewrite <- (trig_per G _ _ ((y + (i - 1)) / ny) ((x + (j - 1)) / nx)).
    assert (D : forall n k o, (0 < n)%Z -> (IZR (k mod n) + o) / IZR n + IZR (k / n) = (IZR k + o) / IZR n).
    { intros n k o Hn. rewrite (Z.div_mod k n) at 3 by lia. rewrite plus_IZR, mult_IZR. field. apply IZRn0, Hn. }
    rewrite !D by assumption. rewrite !plus_IZR. f_equal; field; assumption. }
  rewrite E, trig_three. unfold G. rewrite trig_gained_gained.
  pose proof (trig_hat (/ IZR ny) (/ IZR nx) ((IZR y + oy) / IZR ny) ((IZR x + ox) / IZR nx) ms) as K.
  match goal with |- cint2 _ _ _ _ _ (trig (gained ?g ms) _ _) => rewrite (trig_gained_ext _ g) in K end.
  - eapply cint2_ext; [|exact K]. intros s t. cbv beta. f_equal. f_equal; field; assumption.
  - intros ky kx. unfold pw. cbn [pixwin_1d]. replace (IZR ky / IZR ny / 1) with (IZR ky * / IZR ny) by (field; assumption). replace (IZR kx / IZR nx / 1) with (IZR kx * / IZR nx) by (field; assumption).
    replace (2 * PI * (IZR ky * / IZR ny)) with (2 * PI * IZR ky * / IZR ny) by ring. replace (2 * PI * (IZR kx * / IZR nx)) with (2 * PI * IZR kx * / IZR nx) by ring.
    pose proof (COS_bound (2 * PI * IZR ky * / IZR ny)). pose proof (COS_bound (2 * PI * IZR kx * / IZR nx)). field. split; lra.
Qed.

Example C85_ex : (exists r, apply_window 2 (Some 1%Z) 1 false (FA 2 3 (fun y x => RtoC (IZR (y + x)))) = Some r) /\ pixwin_1d (Some 2%Z) 0 = None /\ sinc (1 / 2) < 1.
Proof.
  split; [|split; [reflexivity|]].
  - destruct (C85_inverse (Some 1%Z) 1 2 (FA 2 3 (fun y x => RtoC (IZR (y + x))))) as (b & E & _); [auto|lra|split; reflexivity|intros y x _ _; reflexivity|]. exists b. exact E.
  - unfold sinc. destruct (Req_EM_T (1 / 2) 0); [lra|]. replace (PI * (1 / 2)) with (PI / 2) by field. rewrite sin_PI2. pose proof PI_RGT_0. pose proof PI2_1. apply (Rmult_lt_reg_r (PI / 2)); [lra|]. unfold Rdiv at 1. rewrite Rmult_assoc, Rinv_l by lra. lra.
Qed.
Print Assumptions C85_powers.
Print Assumptions C85_inverse.
Print Assumptions C85_mean.
Print Assumptions C85_nofft.
Print Assumptions C85_average.
Print Assumptions C85_bilinear.
