(* Spectra in two dimensions, and one scale of the transform. *)
From Coq Require Import Reals Lra Lia.
From Coquelicot Require Import Complex.
From Verif Require Import Base SliceSpec ArrModel PixModel BlockModel FresSpec FresModel FresLemmas FftSpec FftModel FftLemmas FftLemmas2 FftLemmas3 FftLemmas4 FftLemmas5 WflSpec WflModel WflLemmas.
Ltac Zify.zify_post_hook ::= idtac.
Open Scope R_scope. Open Scope C_scope.

(* spectra of real arrays *)
Definition hermitian (a : farr C) : Prop := forall y x, (0 <= y < f_ny a)%Z -> (0 <= x < f_nx a)%Z -> f_at a ((- y) mod f_ny a)%Z ((- x) mod f_nx a)%Z = Cconj (f_at a y x).
Lemma dft_neg s n a k : (0 < n)%Z -> dft s n a ((- k) mod n)%Z = dft (- s) n a k.
Proof.
  intros Hn. rewrite dft_mod by exact Hn. unfold dft. apply csum_ext. intros j _. do 2 f_equal. ring.
Qed.
Lemma dft_negmod s n a k : (0 < n)%Z -> dft (- s) n (fun j => a ((- j) mod n)%Z) k = dft s n a k.
Proof.
  intros Hn. rewrite (dft_ext s n a (fun j => a (j mod n)%Z)) by (intros; rewrite Z.mod_small by lia; reflexivity). unfold dft.
  rewrite <- (csum_neg n (fun j => a (j mod n)%Z * w n (s * (j * k)))).
  2: exact Hn.
  2: { intros j. f_equal; [f_equal; replace (j + n)%Z with (j + 1 * n)%Z by lia; apply Z.mod_add; lia|]. apply w_eqm; [exact Hn|]. replace (s * ((j + n) * k))%Z with (s * (j * k) + (s * k) * n)%Z by ring. apply Z.mod_add. lia. }
  apply csum_ext. intros j _. do 2 f_equal. ring.
Qed.
Lemma dft2_at s a y x : f_at (dft_ax s AXY a) y x = dft s (f_ny a) (fun j => dft s (f_nx a) (f_at a j) x) y.
Proof. reflexivity. Qed.
Lemma dft2_herm a : nonempty a -> is_real a -> hermitian (dft_ax (-1) AXY a).
Proof.
  intros [Hy Hx] Ha y x. rewrite dft_ax_ny, dft_ax_nx. intros Iy Ix. rewrite !dft2_at. rewrite dft_neg by exact Hy. rewrite dft_conj by exact Hy. apply dft_ext. intros j Hj.
  rewrite dft_neg by exact Hx. rewrite dft_conj by exact Hx. apply dft_ext. intros i Hi. symmetry. apply conj_real, Ha; assumption.
Qed.
Lemma herm_real a : nonempty a -> hermitian a -> is_real (dft_ax 1 AXY a).
Proof.
  intros [Hy Hx] Ha y x. rewrite dft_ax_ny, dft_ax_nx. intros Iy Ix. apply real_conj. rewrite dft2_at. rewrite dft_conj by exact Hy.
  rewrite <- (dft_negmod 1 (f_ny a)) by exact Hy. apply dft_ext. intros j Hj. rewrite dft_conj by exact Hx. rewrite <- (dft_negmod 1 (f_nx a)) by exact Hx.
  apply dft_ext. intros i Hi. symmetry. apply Ha; assumption.
Qed.

(* adding into a given array *)
Lemma transfers_spec fi out : nonempty fi -> nonempty out ->
  oaeq (resample_add fi out) (FA (f_ny out) (f_nx out) (fun y x =>
    (f_at out y x + match fsrc (f_ny fi) (f_ny out) y, fsrc (f_nx fi) (f_nx out) x with Some i, Some j => f_at fi i j | _, _ => 0 end)
    * cph (f_ny fi) (f_ny out) y * cph (f_nx fi) (f_nx out) x)).
Proof.
  intros [H1 H2] [H3 H4]. unfold resample_add. cbv zeta. set (oy := f_ny out) in *. set (ox := f_nx out) in *. set (cy := Z.min (f_ny fi) oy). set (cx := Z.min (f_nx fi) ox).
  pose proof (half cy ltac:(lia)). pose proof (half cx ltac:(lia)).
  pose proof (ends_lo (cy / 2) (f_ny fi) oy ltac:(lia) ltac:(lia)) as Y1. pose proof (ends_hi (cy - cy / 2) (f_ny fi) oy ltac:(lia) ltac:(lia)) as Y2.
  pose proof (ends_lo (cx / 2) (f_nx fi) ox ltac:(lia) ltac:(lia)) as X1. pose proof (ends_hi (cx - cx / 2) (f_nx fi) ox ltac:(lia) ltac:(lia)) as X2.
  destruct (transfer_spec (fun z => z) Cplus fi out _ _ _ _ Y1 X1) as (o1 & -> & N1 & M1 & V1). cbn [bind]. fold oy in N1. fold ox in M1.
  rewrite <- N1 in Y1, Y2. rewrite <- M1 in X1, X2.
  destruct (transfer_spec (fun z => z) Cplus fi o1 _ _ _ _ Y1 X2) as (o2 & -> & N2 & M2 & V2). cbn [bind]. rewrite <- N2 in Y1, Y2. rewrite <- M2 in X1, X2.
  destruct (transfer_spec (fun z => z) Cplus fi o2 _ _ _ _ Y2 X1) as (o3 & -> & N3 & M3 & V3). cbn [bind]. rewrite <- N3 in Y1, Y2. rewrite <- M3 in X1, X2.
  destruct (transfer_spec (fun z => z) Cplus fi o3 _ _ _ _ Y2 X2) as (o4 & -> & N4 & M4 & V4). cbn [bind]. rewrite shift_nofft.
  split; [cbn [f_ny]; lia|]. split; [cbn [f_nx]; lia|]. cbn [f_at f_ny f_nx].
  intros y x _ _. rewrite N4, M4, N3, M3, N2, M2, N1, M1. unfold cph, offs. f_equal. f_equal.
  rewrite V4, V3, V2, V1. rewrite N3, N2, N1, M3, M2, M1. unfold fsrc. fold cy cx.
  destruct ((0 <=? y)%Z && (y <? cy / 2)%Z) eqn:E1; destruct ((oy - (cy - cy / 2) <=? y)%Z && (y <? oy)%Z) eqn:E2; try lia;
  destruct ((0 <=? x)%Z && (x <? cx / 2)%Z) eqn:E3; destruct ((ox - (cx - cx / 2) <=? x)%Z && (x <? ox)%Z) eqn:E4; try lia; ring.
Qed.

Section level.
Context (ny nx : Z) (m : farr C) (Ey : f_ny m = ny) (Ex : f_nx m = nx) (Hm : nonempty m) (F : farr R) (HF : fits ny nx F).
Notation my := (f_ny F). Notation mx := (f_nx F).
Notation M := (dft_ax (-1) AXY m).
(* the spectrum of a wavelet map, unnormalised *)
Definition spec (c : R) : farr C := FA my mx (fun y x => f_at M (src ny my y) (src nx mx x) * cph ny my y * cph nx mx x * RtoC (f_at F y x * c)).
Lemma Hpos : (0 < ny)%Z /\ (0 < nx)%Z.
Proof. destruct Hm. lia. Qed.
Lemma wave_of_spec c : oaeq (wave_of (scale 1 M) (Level F c)) (drop_im false (dft_ax 1 AXY (spec (/ (c * IZR (ny * nx)))))).
Proof.
  destruct HF as [Fy Fx]. pose proof Hpos as [Py Px]. unfold wave_of. cbn [lv_filt lv_norm]. unfold emap_resample_fft.
  destruct (resample_fft_spec (RtoC 0) (fun z => z * 1) (fun _ b => b) (scale 1 M) my mx) as (o & Eo & No & Mo & Vo); try lia.
  1,2: cbn [scale amap f_ny f_nx]; rewrite ?dft_ax_ny, ?dft_ax_nx; lia.
  rewrite Eo. cbn [bind]. rewrite shift_nofft. cbn [bind]. unfold times. cbn [f_ny f_nx]. rewrite No, Mo, !Z.eqb_refl. cbn [andb bind]. unfold emap_ifft.
  rewrite ifft_some by (split; cbn [f_ny f_nx]; lia). cbn [bind oaeq]. apply drop_im_ext. eapply aeq_trans.
  { unfold enorm. apply (scale_1 (dft_ax 1 AXY _)). }
  apply dft_ax_ext. split; [cbn [f_ny spec]; reflexivity|]. split; [cbn [f_nx spec]; reflexivity|]. cbn [f_ny f_nx]. intros y x Iy Ix. cbn [f_at spec].
  replace (asize (scale 1 M)) with (ny * nx)%Z by (unfold asize; cbn [scale amap f_ny f_nx]; rewrite dft_ax_ny, dft_ax_nx; congruence).
  f_equal. cbn [scale amap f_ny f_nx f_at] in Vo |- *. rewrite Vo. rewrite dft_ax_ny, dft_ax_nx, Ey, Ex, !fsrc_down by lia. unfold cph, offs.
  rewrite !Cmult_1_r. reflexivity.
Qed.
Context (HS : supported ny nx F) (HE : even_filter F) (HR : is_real m).
Lemma spec_herm c : hermitian (spec c).
Proof.
  destruct HF as [Fy Fx]. pose proof Hpos as [Py Px]. intros y x. cbn [spec f_ny f_nx f_at]. intros Iy Ix. rewrite HE by assumption. destruct (Req_dec (f_at F y x) 0) as [Z|Nz].
  - rewrite Z. replace (RtoC (0 * c)) with (RtoC 0) by (f_equal; ring). rewrite !Cmult_0_r. symmetry. apply Cconj_RtoC.
  - destruct (HS y x Iy Ix Nz) as [Gy Gx]. rewrite !Cmult_conj, Cconj_RtoC. rewrite !src_neg, !cph_neg by assumption. do 3 f_equal.
    pose proof (dft2_herm m Hm HR (src ny my y) (src nx mx x)) as K. rewrite dft_ax_ny, dft_ax_nx, Ey, Ex in K. apply K; apply src_range; assumption.
Qed.
Lemma wave_of_real c : oaeq (wave_of (scale 1 M) (Level F c)) (dft_ax 1 AXY (spec (/ (c * IZR (ny * nx))))).
Proof.
  pose proof (wave_of_spec c) as E. destruct (wave_of _ _) as [w|]; [|exact E]. cbn [oaeq] in *. eapply aeq_trans; [exact E|]. apply drop_im_real, herm_real, spec_herm.
  destruct HF. split; cbn; lia.
Qed.

(* what a filter does to a frequency of the map *)
Definition fv (Y X : Z) : R := match fsrc my ny Y, fsrc mx nx X with Some i, Some j => f_at F i j | _, _ => 0 end.
Lemma fv_value Y X : (0 <= Y < ny)%Z -> (0 <= X < nx)%Z -> fv Y X = freq_value F (sfreq ny Y) (sfreq nx X).
Proof.
  intros IY IX. destruct HF as [Fy Fx]. unfold fv, freq_value.
  destruct (axis_agree ny my Y Fy IY) as [(j & Hj & -> & -> & ->)|[A1 A2]]; [destruct (axis_agree nx mx X Fx IX) as [(i & Hi & -> & -> & ->)|[B1 B2]]; [reflexivity|]|].
  - cbn [andb]. assert (K : forall i, (0 <= i < mx)%Z -> ~ holds_freq nx mx i -> f_at F j i = 0%R).
    { intros i Hi Ni. destruct (Req_dec (f_at F j i) 0) as [Z|Nz]; [exact Z|]. destruct (HS j i Hj Hi Nz). contradiction. }
    replace (match fsrc mx nx X with Some i => f_at F j i | None => 0 end)%R with 0%R.
    + destruct (freq_at mx (sfreq nx X)) eqn:E; [|reflexivity]. symmetry. apply K; [apply (sfreq_fidx _ _ E)|apply B2; reflexivity].
    + destruct (fsrc mx nx X) as [i|] eqn:E; [|reflexivity]. symmetry. apply K; [apply (fsrc_up nx mx X i Fx IX E)|apply B1; reflexivity].
  - assert (K : forall j i, (0 <= j < my)%Z -> (0 <= i < mx)%Z -> ~ holds_freq ny my j -> f_at F j i = 0%R).
    { intros j i Hj Hi Ni. destruct (Req_dec (f_at F j i) 0) as [Z|Nz]; [exact Z|]. destruct (HS j i Hj Hi Nz). contradiction. }
    replace (match fsrc my ny Y with Some i => match fsrc mx nx X with Some j => f_at F i j | None => 0 end | None => 0 end)%R with 0%R.
    + destruct (freq_at my (sfreq ny Y)) eqn:E; [|reflexivity]. cbn [andb]. destruct (freq_at mx (sfreq nx X)) eqn:E'; [|reflexivity]. symmetry. apply K; [apply (sfreq_fidx _ _ E)|apply (sfreq_fidx _ _ E')|apply A2; reflexivity].
    + destruct (fsrc my ny Y) as [j|] eqn:E; [|reflexivity]. destruct (fsrc mx nx X) as [i|] eqn:E'; [|reflexivity]. symmetry. apply K; [apply (fsrc_up ny my Y j Fy IY E)|apply (fsrc_up nx mx X i Fx IX E')|apply A1; reflexivity].
Qed.

(* adding the wavelet map of this scale to a spectrum *)
Lemma add_wave_spec c wv out : c <> 0%R -> aeq wv (dft_ax 1 AXY (spec (/ (c * IZR (ny * nx))))) -> f_ny out = ny -> f_nx out = nx ->
  oaeq (add_wave (Level F c) wv out) (FA ny nx (fun Y X => f_at out Y X * cph my ny Y * cph mx nx X + f_at M Y X * RtoC (fv Y X ^ 2 / IZR (ny * nx)))).
Proof.
  intros Hc Ew Oy Ox. destruct HF as [Fy Fx]. pose proof Hpos as [Py Px]. set (S := spec (/ (c * IZR (ny * nx)))) in *.
  assert (NS : nonempty S) by (split; cbn [S spec f_ny f_nx]; lia). pose proof Ew as (Wy & Wx & _). rewrite dft_ax_ny in Wy. rewrite dft_ax_nx in Wx. change (f_ny S) with my in Wy. change (f_nx S) with mx in Wx.
  assert (NW : nonempty wv) by (split; lia). unfold add_wave, emap_fft. rewrite fft_some by exact NW. cbn [bind enorm lv_filt lv_norm]. unfold times.
  cbn [scale amap f_ny f_nx f_at]. rewrite dft_ax_ny, dft_ax_nx, Wy, Wx, !Z.eqb_refl. cbn [andb bind].
  match goal with |- oaeq (resample_add ?f _) _ => set (fs := f) end.
  assert (Vfs : forall j i, (0 <= j < my)%Z -> (0 <= i < mx)%Z -> f_at fs j i = f_at S j i * RtoC (f_at F j i * c)).
  { intros j i Hj Hi. unfold fs. cbn [f_at]. pose proof (dft_ax_ext (-1) AXY _ _ Ew) as (_ & _ & E1). rewrite dft_ax_ny, dft_ax_nx, Wy, Wx in E1. rewrite E1 by assumption.
    pose proof (dft_ax_inv (-1) AXY S ltac:(auto) NS) as (_ & _ & E2). rewrite !dft_ax_ny, !dft_ax_nx in E2. rewrite E2 by assumption. cbn [amap f_at nprod]. change (f_ny S) with my. change (f_nx S) with mx.
    unfold asize. cbn [amap scale f_ny f_nx]. rewrite dft_ax_ny, dft_ax_nx, Wy, Wx.
    replace (f_at S j i * RtoC (IZR (my * mx)) * RtoC 1 * RtoC (f_at F j i * (c / IZR (my * mx)))) with (f_at S j i * (RtoC (IZR (my * mx)) * RtoC (f_at F j i * (c / IZR (my * mx))))) by ring.
    f_equal. rewrite <- RtoC_mult. f_equal. field. apply IZRn0. nia. }
  assert (NF : nonempty fs) by (split; cbn [fs f_ny f_nx]; lia). assert (NO : nonempty out) by (split; lia).
  pose proof (transfers_spec fs out NF NO) as T. destruct (resample_add fs out) as [o|]; [|exact T]. cbn [oaeq] in *. eapply aeq_trans; [exact T|].
  split; [exact Oy|]. split; [exact Ox|]. cbn [f_ny f_nx f_at]. rewrite Oy, Ox. intros Y X IY IX. change (f_ny fs) with my. change (f_nx fs) with mx.
  transitivity (f_at out Y X * cph my ny Y * cph mx nx X + match fsrc my ny Y, fsrc mx nx X with Some i, Some j => f_at fs i j * cph my ny Y * cph mx nx X | _, _ => 0 end).
  { destruct (fsrc my ny Y); [destruct (fsrc mx nx X)|]; ring. }
  f_equal. unfold fv. destruct (fsrc my ny Y) as [j|] eqn:E1; [destruct (fsrc mx nx X) as [i|] eqn:E2|].
  - destruct (fsrc_up ny my Y j Fy IY E1) as [Hj <-]. destruct (fsrc_up nx mx X i Fx IX E2) as [Hi <-]. rewrite Vfs by assumption. cbn [S spec f_at].
    destruct (Req_dec (f_at F j i) 0) as [Z|Nz].
    + rewrite Z. replace (RtoC (0 * c)) with (RtoC 0) by (f_equal; ring). replace (RtoC (0 ^ 2 / IZR (ny * nx))) with (RtoC 0) by (f_equal; field; apply IZRn0; nia). rewrite !Cmult_0_r, !Cmult_0_l. reflexivity.
    + destruct (HS j i Hj Hi Nz) as [Gy Gx].
      transitivity (f_at M (src ny my j) (src nx mx i) * (cph ny my j * cph my ny (src ny my j)) * (cph nx mx i * cph mx nx (src nx mx i)) * (RtoC (f_at F j i * / (c * IZR (ny * nx))) * RtoC (f_at F j i * c))); [ring|].
      rewrite !cph_back by assumption. rewrite <- RtoC_mult. rewrite !Cmult_1_r. f_equal. f_equal. field. split; [apply IZRn0; nia|exact Hc].
  - replace (RtoC (0 ^ 2 / IZR (ny * nx))) with (RtoC 0) by (f_equal; field; apply IZRn0; nia). symmetry. apply Cmult_0_r.
  - replace (RtoC (0 ^ 2 / IZR (ny * nx))) with (RtoC 0) by (f_equal; field; apply IZRn0; nia). symmetry. apply Cmult_0_r.
Qed.
End level.
