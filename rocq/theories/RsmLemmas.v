(* Lemmas about the model of resample.py. *)
From Coq Require Import Reals Qround Lra Lia.
From Coq Require Lqa.
From Coquelicot Require Import Complex.
From Verif Require Import Base SliceSpec ArrModel PixModel BlockModel DownModel FresModel FresLemmas DctSpec DctLemmas FftSpec FftModel FftLemmas FftLemmas2 FftLemmas3 FftLemmas4 FftLemmas5 RsmSpec RsmModel.
Ltac Zify.zify_post_hook ::= idtac.
Open Scope R_scope. Open Scope C_scope.

Definition src (n m : Z) (f : Z -> C) (k : Z) : C := match fsrc n m k with Some i => f i | None => 0 end.
Lemma splice_src n m f k : (0 < n)%Z -> (0 < m)%Z -> (0 <= k < m)%Z -> splice n m f k = src n m f k.
Proof.
  intros Hn Hm Hk. unfold splice, src, fsrc. cbv zeta. pose proof (half n Hn). pose proof (half m Hm). destruct (0 <? m - n)%Z eqn:E1.
  - rewrite Z.min_l by lia. replace (0 <=? k)%Z with true by lia. cbn [andb]. destruct (k <? n / 2)%Z eqn:E2; [reflexivity|]. destruct (k <? n / 2 + (m - n))%Z eqn:E3.
    + replace (m - (n - n / 2) <=? k)%Z with false by lia. reflexivity.
    + replace (m - (n - n / 2) <=? k)%Z with true by lia. replace (k <? m)%Z with true by lia. cbn [andb]. f_equal. lia.
  - rewrite Z.min_r by lia. replace (0 <=? k)%Z with true by lia. cbn [andb]. replace (m - (m - m / 2) <=? k)%Z with (negb (k <? m / 2)%Z) by lia. replace (k <? m)%Z with true by lia. rewrite andb_true_r.
    destruct (m - n <? 0)%Z eqn:E2; destruct (k <? m / 2)%Z eqn:E3; cbn [negb]; try reflexivity; f_equal; lia.
Qed.
Lemma src_rs1 n m a j : (0 < n)%Z -> (0 < m)%Z -> dft 1 m (src n m (dft (-1) n a)) j * / RtoC (IZR n) = rs1 n m one a j.
Proof.
  intros Hn Hm. rewrite <- dft_scal_r. apply dft_ext. intros k _. unfold src. destruct (fsrc n m k); unfold one; ring.
Qed.
Lemma rs1_id n a j : (0 < n)%Z -> (0 <= j < n)%Z -> rs1 n n one a j = a j.
Proof.
  intros Hn Hj. rewrite <- src_rs1 by assumption. rewrite (dft_ext 1 n _ (dft (- (1)) n a)).
  - rewrite dft_inv by (auto; lia). field. apply Cn0, Hn.
  - intros k Hk. rewrite <- splice_src by assumption. unfold splice. rewrite Z.sub_diag. reflexivity.
Qed.
Lemma nm_inv n m z : (0 < n)%Z -> (0 < m)%Z -> z * / RtoC (IZR m) * RtoC (1 * (IZR m / IZR n))%R = z * / RtoC (IZR n).
Proof.
  intros Hn Hm. pose proof (Cn0 _ Hn). pose proof (Cn0 _ Hm). rewrite Rmult_1_l. unfold Rdiv. rewrite RtoC_mult, RtoC_inv by (apply IZRn0, Hn). field. auto.
Qed.
Lemma drop_scale c r a : aeq (scale (RtoC r) (drop_im c a)) (drop_im c (scale (RtoC r) a)).
Proof. destruct c; [apply aeq_refl|]. repeat split. cbn [scale drop_im amap f_at f_ny f_nx]. intros. apply C_eq; unfold Re, Im, RtoC, Cmult; cbn [fst snd]; ring. Qed.

Lemma along_x m d : nonempty d -> (0 < m)%Z -> aeq (scale (RtoC (1 * (IZR m / IZR (f_nx d)))%R) (scale (/ RtoC (IZR m)) (dft_ax 1 AX (splice_x (f_nx d) m (dft_ax (-1) AX d))))) (rs2 one one (f_ny d) m d).
Proof.
  intros [Py Px] Hm. repeat split. cbn [scale amap dft_ax dft_x splice_x f_at f_ny f_nx rs2]. intros y x Hy Hx. rewrite nm_inv by assumption. rewrite rs1_id by assumption.
  rewrite (dft_ext 1 m _ (src (f_nx d) m (dft (-1) (f_nx d) (f_at d y)))) by (intros; apply splice_src; assumption). apply src_rs1; assumption.
Qed.
Lemma along_y m d : nonempty d -> (0 < m)%Z -> aeq (scale (RtoC (1 * (IZR m / IZR (f_ny d)))%R) (scale (/ RtoC (IZR m)) (dft_ax 1 AY (splice_y (f_ny d) m (dft_ax (-1) AY d))))) (rs2 one one m (f_nx d) d).
Proof.
  intros [Py Px] Hm. repeat split. cbn [scale amap dft_ax dft_y splice_y f_at f_ny f_nx rs2]. intros y x Hy Hx. rewrite nm_inv by assumption.
  rewrite (dft_ext 1 m _ (src (f_ny d) m (dft (-1) (f_ny d) (fun j => f_at d j x)))) by (intros; apply splice_src; assumption). rewrite src_rs1 by assumption.
  apply rs1_ext. intros j _. symmetry. apply rs1_id; assumption.
Qed.
Lemma src_ext n m f g k : (forall i, f i = g i) -> src n m f k = src n m g k.
Proof. intros H. unfold src. destruct (fsrc n m k); auto. Qed.
Lemma dft_0 s n k : dft s n (fun _ => RtoC 0) k = 0.
Proof. rewrite (dft_ext s n _ (fun j => RtoC 0 * one j)) by (intros; symmetry; apply Cmult_0_l). rewrite dft_scal. apply Cmult_0_l. Qed.
Lemma both_at ny nx my mx (a : Z -> Z -> C) Y X : (0 < ny)%Z -> (0 < nx)%Z -> (0 < my)%Z -> (0 < mx)%Z ->
  dft 1 my (fun y => dft 1 mx (fun x => src nx mx (fun i => src ny my (fun j => dft (-1) ny (fun jj => dft (-1) nx (a jj) i) j) y) x) X) Y * (/ RtoC (IZR ny) * / RtoC (IZR nx)) =
  rs1 ny my one (fun j => rs1 nx mx one (a j) X) Y.
Proof.
  intros Py Px Hy Hx. rewrite <- src_rs1 by assumption.
  rewrite (dft_ext 1 my _ (src ny my (dft (-1) ny (fun jj => dft 1 mx (src nx mx (dft (-1) nx (a jj))) X)))).
  - rewrite Cmult_assoc. rewrite (Cmult_comm _ (/ RtoC (IZR nx))), Cmult_assoc. rewrite <- dft_scal. apply (f_equal (fun z => z * _)). apply dft_ext. intros k _. unfold src at 1 3.
    destruct (fsrc ny my k); [|ring]. rewrite <- dft_scal. apply dft_ext. intros j _. rewrite <- src_rs1 by assumption. ring.
  - intros y _. unfold src at 2. unfold src at 2. destruct (fsrc ny my y) as [i|].
    + rewrite <- dft_swap. apply dft_ext. intros x _. unfold src. destruct (fsrc nx mx x); [reflexivity|]. symmetry. apply dft_0.
    + rewrite (dft_ext 1 mx _ (fun _ => RtoC 0)); [apply dft_0|]. intros x _. unfold src. destruct (fsrc nx mx x); reflexivity.
Qed.
Lemma nm_inv2 ny nx my mx z : (0 < ny)%Z -> (0 < nx)%Z -> (0 < my)%Z -> (0 < mx)%Z ->
  z * / RtoC (IZR (my * mx)) * RtoC (1 * (IZR my / IZR ny) * (IZR mx / IZR nx))%R = z * (/ RtoC (IZR ny) * / RtoC (IZR nx)).
Proof.
  intros H1 H2 H3 H4. pose proof (Cn0 _ H1). pose proof (Cn0 _ H2). pose proof (Cn0 _ H3). pose proof (Cn0 _ H4). unfold Rdiv. rewrite mult_IZR, !RtoC_mult, !RtoC_inv by (apply IZRn0; assumption). field. auto.
Qed.
Lemma nm_inv2' ny nx my mx z : (0 < ny)%Z -> (0 < nx)%Z -> (0 < my)%Z -> (0 < mx)%Z ->
  z * / RtoC (IZR (my * mx)) * RtoC (1 * (IZR mx / IZR nx) * (IZR my / IZR ny))%R = z * (/ RtoC (IZR ny) * / RtoC (IZR nx)).
Proof. intros H1 H2 H3 H4. rewrite <- (nm_inv2 ny nx my mx) by assumption. apply (f_equal (Cmult _)), f_equal. ring. Qed.
Lemma along_yx my mx d : nonempty d -> (0 < my)%Z -> (0 < mx)%Z ->
  aeq (scale (RtoC (1 * (IZR my / IZR (f_ny d)) * (IZR mx / IZR (f_nx d)))%R) (scale (/ RtoC (IZR (my * mx))) (dft_ax 1 AXY (splice_x (f_nx d) mx (splice_y (f_ny d) my (dft_ax (-1) AXY d)))))) (rs2 one one my mx d).
Proof.
  intros [Py Px] Hy Hx. repeat split. cbn [scale amap dft_ax dft_x dft_y splice_x splice_y f_at f_ny f_nx rs2]. intros Y X HY HX. rewrite nm_inv2 by assumption. rewrite <- both_at by assumption.
  apply (f_equal (fun z => z * _)). apply dft_ext. intros y Ky. apply dft_ext. intros x Kx. rewrite splice_src by assumption. apply src_ext. intros i. apply splice_src; assumption.
Qed.
Lemma src_comm ny nx my mx (F : Z -> Z -> C) y x : src ny my (fun j => src nx mx (F j) x) y = src nx mx (fun i => src ny my (fun j => F j i) y) x.
Proof. unfold src. destruct (fsrc ny my y), (fsrc nx mx x); reflexivity. Qed.
Lemma along_xy my mx d : nonempty d -> (0 < my)%Z -> (0 < mx)%Z ->
  aeq (scale (RtoC (1 * (IZR mx / IZR (f_nx d)) * (IZR my / IZR (f_ny d)))%R) (scale (/ RtoC (IZR (my * mx))) (dft_ax 1 AXY (splice_y (f_ny d) my (splice_x (f_nx d) mx (dft_ax (-1) AXY d)))))) (rs2 one one my mx d).
Proof.
  intros [Py Px] Hy Hx. repeat split. cbn [scale amap dft_ax dft_x dft_y splice_x splice_y f_at f_ny f_nx rs2]. intros Y X HY HX. rewrite nm_inv2' by assumption. rewrite <- both_at by assumption.
  apply (f_equal (fun z => z * _)). apply dft_ext. intros y Ky. apply dft_ext. intros x Kx. rewrite splice_src by assumption. rewrite <- src_comm. apply src_ext. intros j. apply splice_src; assumption.
Qed.
Lemma rs2_id d : nonempty d -> aeq (rs2 one one (f_ny d) (f_nx d) d) d.
Proof.
  intros [Py Px]. repeat split. cbn [rs2 f_ny f_nx f_at]. intros y x Hy Hx. rewrite rs1_id by assumption. apply rs1_id; assumption.
Qed.
Lemma same_eq cplx d : nonempty d -> (cplx = false -> is_real d) -> oaeq (Some d) (drop_im cplx (rs2 one one (f_ny d) (f_nx d) d)).
Proof.
  intros H R. cbn [oaeq]. apply aeq_sym. eapply aeq_trans; [apply drop_im_ext, rs2_id, H|]. destruct cplx; [apply aeq_refl|]. apply drop_im_real. auto.
Qed.
Lemma simple_eq m d : nonempty d -> (0 < m)%Z -> m <> f_nx d -> oaeq (resample_fft_simple m d) (drop_im false (rs2 one one (f_ny d) m d)).
Proof.
  intros H Hm Hne. unfold resample_fft_simple. cbv zeta. replace (m =? f_nx d)%Z with false by lia. rewrite fft_some by exact H. cbn [bind].
  rewrite ifft_some by (split; [apply H|exact Hm]). cbn [bind oaeq]. eapply aeq_trans; [|apply drop_im_ext, (along_x m d H Hm)].
  rewrite Rmult_1_l. apply drop_scale.
Qed.
Lemma simple_eq' cplx m d : nonempty d -> (0 < m)%Z -> cplx = false -> is_real d -> oaeq (resample_fft_simple m d) (drop_im cplx (rs2 one one (f_ny d) m d)).
Proof.
  intros H Hm -> R. destruct (Z.eq_dec m (f_nx d)) as [->|N]; [|apply simple_eq; assumption].
  unfold resample_fft_simple. rewrite Z.eqb_refl. apply same_eq; auto.
Qed.
Lemma y_eq cplx m d : nonempty d -> (0 < m)%Z ->
  oaeq (bind (fft AY d) (fun fd => bind (ifft true AY (splice_y (f_ny d) m fd)) (fun r => Some (drop_im cplx (scale (RtoC (1 * (IZR m / IZR (f_ny d)))%R) r))))) (drop_im cplx (rs2 one one m (f_nx d) d)).
Proof.
  intros H Hm. rewrite fft_some by exact H. cbn [bind]. rewrite ifft_some by (split; [exact Hm|apply H]). cbn [bind oaeq].
  apply drop_im_ext. apply (along_y m d H Hm).
Qed.
Lemma yx_eq cplx my mx d : nonempty d -> (0 < my)%Z -> (0 < mx)%Z ->
  oaeq (bind (fft AXY d) (fun fd => bind (ifft true AXY (splice_x (f_nx d) mx (splice_y (f_ny d) my fd))) (fun r => Some (drop_im cplx (scale (RtoC (1 * (IZR my / IZR (f_ny d)) * (IZR mx / IZR (f_nx d)))%R) r))))) (drop_im cplx (rs2 one one my mx d)).
Proof.
  intros H Hy Hx. rewrite fft_some by exact H. cbn [bind]. rewrite ifft_some by (split; assumption). cbn [bind oaeq]. apply drop_im_ext. apply (along_yx my mx d H Hy Hx).
Qed.
Lemma xy_eq cplx my mx d : nonempty d -> (0 < my)%Z -> (0 < mx)%Z ->
  oaeq (bind (fft AXY d) (fun fd => bind (ifft true AXY (splice_y (f_ny d) my (splice_x (f_nx d) mx fd))) (fun r => Some (drop_im cplx (scale (RtoC (1 * (IZR mx / IZR (f_nx d)) * (IZR my / IZR (f_ny d)))%R) r))))) (drop_im cplx (rs2 one one my mx d)).
Proof.
  intros H Hy Hx. rewrite fft_some by exact H. cbn [bind]. rewrite ifft_some by (split; assumption). cbn [bind oaeq]. apply drop_im_ext. apply (along_xy my mx d H Hy Hx).
Qed.
Lemma two_yx cplx axes a b u v d : nonempty d -> (0 < u)%Z -> (0 < v)%Z -> is_y a -> is_x b -> (axes = Some [a; b] \/ axes = None /\ a = (-2)%Z /\ b = (-1)%Z) -> (cplx = false -> is_real d) ->
  oaeq (resample_fft cplx axes [u; v] d) (drop_im cplx (rs2 one one u v d)).
Proof.
  intros H Hu Hv Ha Hb Hax R.
  assert (E : resample_fft cplx axes [u; v] d = if ((f_ny d =? u) && (f_nx d =? v))%Z then Some d else
    bind (fft AXY d) (fun fd => bind (ifft true AXY (splice_x (f_nx d) v (splice_y (f_ny d) u fd))) (fun r => Some (drop_im cplx (scale (RtoC (1 * (IZR u / IZR (f_ny d)) * (IZR v / IZR (f_nx d)))%R) r))))).
  { destruct Hax as [->|(-> & -> & ->)]; [|reflexivity]. destruct Ha as [->| ->], Hb as [->| ->]; reflexivity. }
  rewrite E. destruct ((f_ny d =? u) && (f_nx d =? v))%Z eqn:D; [|apply yx_eq; assumption].
  apply andb_true_iff in D. destruct D as [D1 D2]. apply Z.eqb_eq in D1, D2. rewrite <- D1, <- D2. apply same_eq; assumption.
Qed.
Lemma two_xy cplx a b u v d : nonempty d -> (0 < u)%Z -> (0 < v)%Z -> is_x a -> is_y b -> (f_ny d = u -> f_nx d = v -> u = v) -> (cplx = false -> is_real d) ->
  oaeq (resample_fft cplx (Some [a; b]) [u; v] d) (drop_im cplx (rs2 one one v u d)).
Proof.
  intros H Hu Hv Ha Hb Hg R.
  assert (E : resample_fft cplx (Some [a; b]) [u; v] d = if ((f_ny d =? u) && (f_nx d =? v))%Z then Some d else
    bind (fft AXY d) (fun fd => bind (ifft true AXY (splice_y (f_ny d) v (splice_x (f_nx d) u fd))) (fun r => Some (drop_im cplx (scale (RtoC (1 * (IZR u / IZR (f_nx d)) * (IZR v / IZR (f_ny d)))%R) r))))).
  { destruct Ha as [->| ->], Hb as [->| ->]; reflexivity. }
  rewrite E. destruct ((f_ny d =? u) && (f_nx d =? v))%Z eqn:D; [|apply xy_eq; assumption].
  apply andb_true_iff in D. destruct D as [D1 D2]. apply Z.eqb_eq in D1, D2. specialize (Hg D1 D2). subst v. pose proof (same_eq cplx d H R) as K. rewrite D1, D2 in K. exact K.
Qed.
Lemma one_two cplx a b m d : resample_fft cplx (Some [a; b]) [m] d = resample_fft cplx (Some [a; b]) [m; m] d.
Proof. reflexivity. Qed.
Lemma one_x cplx axes n d : only_x axes n -> length n = 1%nat -> exists m, n = [m] /\ resample_fft cplx axes n d = if (f_nx d =? m)%Z then Some d else resample_fft_simple m d.
Proof.
  intros H L. destruct n as [|m [|? ?]]; try discriminate. exists m. split; [reflexivity|]. destruct axes as [[|a [|? ?]]|]; cbn in H; try contradiction; [|reflexivity]. destruct H as [->| ->]; reflexivity.
Qed.
Lemma one_y cplx a m d : is_y a -> resample_fft cplx (Some [a]) [m] d = if (f_nx d =? m)%Z then Some d else
  bind (fft AY d) (fun fd => bind (ifft true AY (splice_y (f_ny d) m fd)) (fun r => Some (drop_im cplx (scale (RtoC (1 * (IZR m / IZR (f_ny d)))%R) r)))).
Proof. intros [->| ->]; reflexivity. Qed.

Lemma rf_eq cplx axes n d my mx : nonempty d -> (0 < my)%Z -> (0 < mx)%Z -> asks (f_ny d) (f_nx d) axes n my mx ->
  (looks_done (f_ny d) (f_nx d) axes n -> my = f_ny d /\ mx = f_nx d) -> (cplx = false -> is_real d) -> (cplx = true -> only_x axes n -> mx = f_nx d) ->
  oaeq (resample_fft cplx axes n d) (drop_im cplx (rs2 one one my mx d)).
Proof.
  intros H Hy Hx HA G R Cx.
  assert (X1 : forall axes m, only_x axes [m] -> (0 < m)%Z -> (cplx = true -> m = f_nx d) -> oaeq (resample_fft cplx axes [m] d) (drop_im cplx (rs2 one one (f_ny d) m d))).
  { intros ax m O Hm K. destruct (one_x cplx ax [m] d O eq_refl) as (m' & E & ->). injection E as <-. destruct (f_nx d =? m)%Z eqn:D.
    - apply Z.eqb_eq in D. rewrite <- D. apply same_eq; assumption.
    - destruct cplx; [specialize (K eq_refl); exfalso; lia|]. apply simple_eq'; auto. }
  destruct HA as [axes n my mx P|a b m Ha Hb|a b m Ha Hb].
  - destruct P.
    + apply X1; auto. exact I. intros E. apply Cx; auto. exact I.
    + eapply two_yx; eauto; [right; reflexivity|right; reflexivity].
    + rewrite one_y by assumption. destruct (f_nx d =? v)%Z eqn:D; [|apply y_eq; assumption]. apply Z.eqb_eq in D. destruct (G D) as [-> _]. apply same_eq; assumption.
    + apply X1; auto.
    + eapply two_yx; eauto.
    + apply two_xy; auto. intros E1 E2. destruct (G (conj E1 E2)). congruence.
  - rewrite one_two. eapply two_yx; eauto.
  - rewrite one_two. apply two_xy; auto.
Qed.

(* ----- bins ----- *)
Close Scope C_scope.
Lemma down_steps axes steps sy sx : picks 1%Z 1%Z axes steps sy sx -> fullsteps (match axes with None => zrange (- zlen steps) 0 | Some l => l end) steps = Some (sy, sx).
Proof. intros P. destruct P; try reflexivity; repeat match goal with H : is_y _ |- _ => destruct H as [->| ->] | H : is_x _ |- _ => destruct H as [->| ->] end; reflexivity. Qed.
Lemma up_steps axes steps sy sx : picks 1%Z 1%Z axes steps sy sx -> (axes = None -> length steps = 1%nat) ->
  fullsteps (match axes with None => map Z.opp (zrange 1 (zlen steps + 1)) | Some l => l end) steps = Some (sy, sx).
Proof.
  intros P L. destruct axes as [l|]; [exact (down_steps (Some l) _ _ _ P)|]. specialize (L eq_refl). inversion P; subst; [reflexivity|discriminate L].
Qed.
Lemma div_mul_div n s : (0 < s)%Z -> (n / s * s / s = n / s)%Z.
Proof. intros H. apply Z.div_mul. lia. Qed.
Lemma down_eq axes steps sy sx d : picks 1%Z 1%Z axes steps sy sx -> (0 < sy)%Z -> (0 < sx)%Z ->
  oaeq (downsample_bin axes steps d) (FA (f_ny d / sy) (f_nx d / sx) (fun y x => mean2 sy sx (fun i j => f_at d (y * sy + i)%Z (x * sx + j)%Z))).
Proof.
  intros P Hy Hx. unfold downsample_bin. cbv zeta. rewrite (down_steps _ _ _ _ P). cbn [bind]. replace ((sy <? 1) || (sx <? 1))%Z with false by lia. cbn [oaeq f_ny f_nx f_at].
  split; [apply div_mul_div, Hy|]. split; [apply div_mul_div, Hx|]. intros y x _ _. cbn [f_at]. unfold mean2. rewrite mult_IZR. reflexivity.
Qed.
Lemma up_eq {A} axes steps sy sx (d : farr A) : picks 1%Z 1%Z axes steps sy sx -> (axes = None -> length steps = 1%nat) -> (0 < sy)%Z -> (0 < sx)%Z ->
  upsample_bin axes steps d = Some (FA (f_ny d * sy) (f_nx d * sx) (fun y x => f_at d (y / sy)%Z (x / sx)%Z)).
Proof.
  intros P L Hy Hx. unfold upsample_bin. cbv zeta. rewrite (up_steps _ _ _ _ P L). cbn [bind]. replace ((sy <? 1) || (sx <? 1))%Z with false by lia. reflexivity.
Qed.
Lemma rsum_blocks k s f : (0 <= k)%Z -> (0 <= s)%Z -> rsum (k * s) f = rsum k (fun y => rsum s (fun i => f (y * s + i)%Z)).
Proof.
  intros Hk Hs. revert k Hk. apply natlike_ind; [reflexivity|]. intros k Hk IH. replace (Z.succ k) with (k + 1)%Z by lia. rewrite rsum_succ by exact Hk. rewrite <- IH.
  replace ((k + 1) * s)%Z with (k * s + s)%Z by lia. apply rsum_split; lia.
Qed.
Lemma rsum_const n (c : R) : (0 <= n)%Z -> rsum n (fun _ => c) = (IZR n * c)%R.
Proof.
  intros H. revert n H. apply natlike_ind; [cbn; ring|]. intros n H IH. replace (Z.succ n) with (n + 1)%Z by lia. rewrite rsum_succ by exact H. rewrite IH, plus_IZR. ring.
Qed.
Lemma mean2_const sy sx (c : R) : (0 < sy)%Z -> (0 < sx)%Z -> mean2 sy sx (fun _ _ => c) = c.
Proof.
  intros Hy Hx. unfold mean2. rewrite (rsum_const sy (rsum sx (fun _ => c))), rsum_const by lia. field. split; apply IZRn0; assumption.
Qed.
Lemma mean2_ext sy sx f g : (forall i j, (0 <= i < sy)%Z -> (0 <= j < sx)%Z -> f i j = g i j) -> mean2 sy sx f = mean2 sy sx g.
Proof. intros H. unfold mean2. f_equal. apply rsum_ext. intros i Hi. apply rsum_ext. intros j Hj. apply H; assumption. Qed.
Lemma down_total d sy sx : (0 < sy)%Z -> (0 < sx)%Z -> nonempty d -> (sy | f_ny d)%Z -> (sx | f_nx d)%Z ->
  total (FA (f_ny d / sy) (f_nx d / sx) (fun y x => mean2 sy sx (fun i j => f_at d (y * sy + i)%Z (x * sx + j)%Z))) * (IZR sy * IZR sx) = total d.
Proof.
  intros Hy Hx [Py Px] [ky Ey] [kx Ex]. unfold total. cbn [f_ny f_nx f_at]. rewrite Ey, Ex in *. rewrite !Z.div_mul by lia. assert (0 <= ky)%Z by nia. assert (0 <= kx)%Z by nia.
  rewrite rsum_blocks by lia. rewrite <- rsum_scal_r. apply rsum_ext. intros y _. rewrite (rsum_ext sy _ (fun i => rsum kx (fun x => rsum sx (fun j => f_at d (y * sy + i)%Z (x * sx + j)%Z)))) by (intros; apply rsum_blocks; lia).
  rewrite rsum_swap. rewrite <- rsum_scal_r. apply rsum_ext. intros x _. unfold mean2. field. split; apply IZRn0; assumption.
Qed.

(* factors *)
Lemma pyround_comp p q : (p == q)%Q -> pyround p = pyround q.
Proof. intros E. unfold pyround. cbv zeta. rewrite (Qfloor_comp _ _ E). assert (E2 : (p - inject_Z (Qfloor q) == q - inject_Z (Qfloor q))%Q) by (rewrite E; reflexivity). rewrite (Qleb_comp _ _ (Qeq_refl _) _ _ E2), (Qeqb_comp _ _ E2 _ _ (Qeq_refl _)). reflexivity. Qed.
Lemma pyround_Z k : pyround (inject_Z k) = k.
Proof.
  unfold pyround. cbv zeta. rewrite Qfloor_Z. assert (E : (inject_Z k - inject_Z k == 0)%Q) by ring. rewrite (Qleb_comp _ _ (Qeq_refl _) _ _ E). reflexivity.
Qed.
Lemma pyround_inv k : (0 < k)%Z -> Z.max 1 (pyround (1 / inject_Z k)%Q) = 1%Z.
Proof.
  intros Hk. destruct (Z.eq_dec k 1) as [->|N]; [reflexivity|]. assert (E : (1 / inject_Z k == 1 # (Z.to_pos k))%Q).
  { destruct k; try lia. unfold Qdiv. rewrite Qmult_1_l. reflexivity. }
  rewrite (pyround_comp _ _ E). unfold pyround, Qfloor. cbv zeta. rewrite Z2Pos.id by exact Hk. rewrite (Z.div_small 1 k) by lia.
  destruct (negb _); [reflexivity|]. destruct (Qeq_bool _ _); reflexivity.
Qed.
Lemma up_of us : simple us -> Z.max 1 (pyround (frac us)) = fst us.
Proof.
  destruct us as [u s]. unfold simple, frac. cbn [fst snd]. intros (H1 & H2 & [->| ->]).
  - apply pyround_inv, H2.
  - rewrite (pyround_comp _ (inject_Z u)) by field. rewrite pyround_Z. lia.
Qed.
Lemma inj0 k : (0 < k)%Z -> ~ (inject_Z k == 0)%Q.
Proof. unfold Qeq. cbn. lia. Qed.
Lemma down_of us : simple us -> Z.max 1 (pyround (/ frac us)) = snd us.
Proof.
  destruct us as [u s]. unfold simple, frac. cbn [fst snd]. intros (H1 & H2 & [->| ->]).
  - rewrite (pyround_comp _ (inject_Z s)) by (change (inject_Z 1) with 1%Q; field; apply inj0, H2). rewrite pyround_Z. lia.
  - rewrite (pyround_comp _ (1 / inject_Z u)) by (change (inject_Z 1) with 1%Q; field; apply inj0, H1). apply pyround_inv, H1.
Qed.
Lemma frac_ne0 us : simple us -> Qeq_bool (frac us) 0 = false.
Proof.
  intros (H1 & H2 & _). apply not_true_is_false. intros E. apply Qeq_bool_iff in E. unfold frac in E. apply (inj0 _ H1).
  setoid_replace (inject_Z (fst us)) with (inject_Z (fst us) / inject_Z (snd us) * inject_Z (snd us))%Q by (field; apply inj0, H2). rewrite E. ring.
Qed.
Lemma close_one us : simple us -> Qle_bool (Qabs' (frac us - 1)) ((1 # 100000000) + (1 # 100000)) = true -> us = (1, 1)%Z.
Proof.
  destruct us as [u s]. unfold simple, frac. cbn [fst snd]. intros (H1 & H2 & H3) E. apply Qle_bool_iff in E.
  assert (B : (- ((1 # 100000000) + (1 # 100000)) <= inject_Z u / inject_Z s - 1 <= (1 # 100000000) + (1 # 100000))%Q).
  { unfold Qabs' in E. destruct (Qle_bool 0 _) eqn:S; [apply Qle_bool_iff in S|assert (S' : ~ (0 <= inject_Z u / inject_Z s - 1)%Q) by (intros K; apply Qle_bool_iff in K; congruence); apply Qnot_le_lt in S'].
    - split; [|exact E]. apply Qle_trans with 0%Q; [discriminate|exact S].
    - split; [|apply Qlt_le_weak; apply Qlt_trans with 0%Q; [exact S'|reflexivity]]. apply Qopp_le_compat in E. rewrite Qopp_involutive in E. exact E. }
  destruct B as [B1 B2]. destruct H3 as [->| ->].
  - assert (s = 1%Z); [|congruence]. destruct (Z_le_dec s 1) as [L|L]; [lia|exfalso]. assert (K : (inject_Z 1 / inject_Z s <= 1 # 2)%Q) by (apply Qle_shift_div_r; [unfold Qlt; cbn; lia|unfold Qle, inject_Z, Qmult; cbn [Qnum Qden]; lia]). revert B1 K. generalize (inject_Z 1 / inject_Z s)%Q. intros q B1 K. Lqa.lra.
  - assert (u = 1%Z); [|congruence]. destruct (Z_le_dec u 1) as [L|L]; [lia|exfalso]. assert (K : (2 <= inject_Z u / inject_Z 1)%Q) by (apply Qle_shift_div_l; [reflexivity|unfold Qle, inject_Z, Qmult; cbn [Qnum Qden]; lia]). revert B2 K. generalize (inject_Z u / inject_Z 1)%Q. intros q B2 K. Lqa.lra.
Qed.
