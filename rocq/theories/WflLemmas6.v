(* The power of wavelet maps. *)
From Coq Require Import Reals Lra Lia.
From Coquelicot Require Import Complex.
From Verif Require Import Base SliceSpec ArrModel PixModel BlockModel FresSpec FresModel FresLemmas FftSpec FftModel FftLemmas FftLemmas2 FftLemmas3 FftLemmas4 FftLemmas5 WflSpec WflModel WflLemmas WflLemmas2 WflLemmas3 WflLemmas4 WflLemmas5.
Ltac Zify.zify_post_hook ::= idtac.
Open Scope R_scope. Open Scope C_scope.

Lemma cph_abs n m i : Cconj (cph n m i) * cph n m i = 1.
Proof. unfold cph, phase. apply cis_conj_mul. Qed.
Lemma parseval a : nonempty a -> inner (dft_ax 1 AXY a) (dft_ax 1 AXY a) = RtoC (IZR (f_ny a * f_nx a)) * inner a a.
Proof.
  intros H. rewrite (dft_ax_dot 1 AXY a (dft_ax 1 AXY a)) by (first [exact H|rewrite dft_ax_ny; reflexivity|rewrite dft_ax_nx; reflexivity]).
  pose proof (dft_ax_inv (-1) AXY a ltac:(auto) H) as E.
  rewrite (inner_ext a (dft_ax (- (1)) AXY (dft_ax 1 AXY a)) a (scale (RtoC (IZR (nprod AXY a))) a) (aeq_refl a) E) by (rewrite ?dft_ax_ny, ?dft_ax_nx; reflexivity).
  rewrite inner_scale_r. cbn [nprod]. ring.
Qed.
Lemma csum2_ext ny nx f g : (forall y x, (0 <= y < ny)%Z -> (0 <= x < nx)%Z -> f y x = g y x) -> csum2 ny nx f = csum2 ny nx g.
Proof. intros H. apply csum_ext. intros y Hy. apply csum_ext. intros x Hx. apply H; assumption. Qed.
Lemma csum2_scal ny nx c f : csum2 ny nx (fun y x => c * f y x) = c * csum2 ny nx f.
Proof. unfold csum2. rewrite <- csum_scal_l. apply csum_ext. intros y _. apply csum_scal_l. Qed.
Lemma csum_im n f : (forall j, Im (f j) = 0%R) -> Im (csum n f) = 0%R.
Proof. intros H. unfold csum. induction (Z.to_nat n) as [|k IH]; [reflexivity|]. cbn [csumn Cplus Im snd]. change (Im (csumn k f) + Im (f (Z.of_nat k)) = 0)%R. rewrite IH, H. ring. Qed.
Lemma asum_C a : RtoC (asum a) = csum2 (f_ny a) (f_nx a) (fun y x => RtoC (f_at a y x)).
Proof. unfold asum. apply real_re. unfold csum2. apply csum_im. intros y. apply csum_im. reflexivity. Qed.

Lemma power ny nx m F c area P : f_ny m = ny -> f_nx m = nx -> nonempty m -> is_real m -> good_filter ny nx F -> (0 < area)%R -> c <> 0%R ->
  (c ^ 2 = asum (amap (fun v => v ^ 2 / area) F))%R ->
  (forall Y X, (0 <= Y < ny)%Z -> (0 <= X < nx)%Z -> Cconj (f_at (dft_ax (-1) AXY m) Y X) * f_at (dft_ax (-1) AXY m) Y X = RtoC (P * IZR (ny * nx) ^ 2 / area)) ->
  exists w, map2wave [Level F c] m = Some [w] /\ f_ny w = f_ny F /\ f_nx w = f_nx F /\ inner w w = RtoC (P * IZR (f_ny F * f_nx F)).
Proof.
  intros Ey Ex Hm HR (H1 & H2 & H3) Ha Hc EN HP. destruct (map2wave_some ny nx m Ey Ex Hm HR [Level F c]) as (ws & E & W).
  { constructor; [|constructor]. split; [split; [exact H1|split; assumption]|exact Hc]. }
  inversion W as [|? w ? ? Hw W']; subst. inversion W'; subst. unfold wave_is in Hw. cbn [lv_filt lv_norm] in Hw. set (ny := f_ny m) in *. set (nx := f_nx m) in *. exists w. split; [exact E|].
  pose proof Hw as (W1 & W2 & _). rewrite dft_ax_ny in W1. rewrite dft_ax_nx in W2. cbn [spec f_ny f_nx] in W1, W2. split; [exact W1|]. split; [exact W2|].
  rewrite (inner_ext w w _ _ Hw Hw) by reflexivity. rewrite parseval by (destruct H1; split; cbn; lia). change (f_ny (spec ny nx m F (/ (c * IZR (ny * nx))))) with (f_ny F). change (f_nx (spec ny nx m F (/ (c * IZR (ny * nx))))) with (f_nx F).
  rewrite (Rmult_comm P), RtoC_mult. f_equal. unfold inner. change (f_ny (spec ny nx m F (/ (c * IZR (ny * nx))))) with (f_ny F). change (f_nx (spec ny nx m F (/ (c * IZR (ny * nx))))) with (f_nx F).
  assert (N0 : IZR (ny * nx) <> 0%R) by (apply IZRn0; destruct Hm; unfold ny, nx; nia).
  rewrite (csum2_ext _ _ _ (fun y x => RtoC (P / c ^ 2) * RtoC (f_at F y x ^ 2 / area))).
  - rewrite csum2_scal. pose proof (asum_C (amap (fun v => v ^ 2 / area)%R F)) as A. cbn [amap f_ny f_nx f_at] in A. rewrite <- A. rewrite <- EN. rewrite <- RtoC_mult. f_equal. field. exact Hc.
  - intros y x Iy Ix. cbn [spec f_at]. rewrite !Cmult_conj, Cconj_RtoC. destruct H1 as [Fy Fx].
    transitivity ((Cconj (f_at (dft_ax (-1) AXY m) (src ny (f_ny F) y) (src nx (f_nx F) x)) * f_at (dft_ax (-1) AXY m) (src ny (f_ny F) y) (src nx (f_nx F) x)) *
      (Cconj (cph ny (f_ny F) y) * cph ny (f_ny F) y) * (Cconj (cph nx (f_nx F) x) * cph nx (f_nx F) x) * (RtoC (f_at F y x * / (c * IZR (ny * nx))) * RtoC (f_at F y x * / (c * IZR (ny * nx))))); [ring|].
    rewrite HP by (apply src_range; assumption). rewrite !cph_abs, !Cmult_1_r. rewrite <- !RtoC_mult. f_equal. field. repeat split; try assumption. lra.
Qed.
