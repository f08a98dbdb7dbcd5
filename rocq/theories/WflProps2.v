(* Claim C113, continued: the size of wavelet coefficients. *)
From Coq Require Import Reals Lra Lia.
From Coquelicot Require Import Complex.
From Verif Require Import Base ArrModel PixModel FftSpec FftModel FftLemmas FftLemmas2 FftLemmas3 WflSpec WflModel WflLemmas WflLemmas2 WflLemmas3 WflLemmas5 WflLemmas6 WflProps.
Ltac Zify.zify_post_hook ::= idtac.
Open Scope R_scope.

(* a map with the same power P per Fourier mode everywhere gives wavelet maps whose mean square is P, with the norms of the prepared
   filters: area is that of the map, and the power is in the units of enmap.fft(normalize="phys") *)
Theorem C113_power : forall ny nx l basis oy ox area lv m P, prepare_filter l (basis, (oy, ox), area) = Some lv -> good_filter ny nx (lv_filt lv) ->
  lv_norm lv <> 0 -> 0 < area -> f_ny m = ny -> f_nx m = nx -> nonempty m -> is_real m ->
  (forall fm Y X, emap_fft Phys false (area / IZR (ny * nx)) m = Some fm -> (0 <= Y < ny)%Z -> (0 <= X < nx)%Z -> Cmult (Cconj (f_at fm Y X)) (f_at fm Y X) = RtoC P) ->
  exists w, map2wave [lv] m = Some [w] /\ f_ny w = f_ny (lv_filt lv) /\ f_nx w = f_nx (lv_filt lv) /\ inner w w = RtoC (P * IZR (f_ny w * f_nx w)).
Proof.
  intros ny nx l basis oy ox area lv m P E HG Hn Ha Ey Ex Hm HR HP. destruct lv as [F c]. cbn [lv_filt lv_norm] in *.
  assert (EN : c ^ 2 = asum (amap (fun v => v ^ 2 / area) F)).
  { unfold prepare_filter in E. destruct (get_ls l oy ox) as [ls|]; [|discriminate]. cbn [bind] in E. injection E as E1 E2. rewrite <- E2, <- E1. set (s := asum _). fold s in E2.
    destruct (Rle_or_lt s 0) as [L|L]; [|apply pow2_sqrt; lra]. elim Hn. rewrite <- E2. apply sqrt_neg_0. exact L. }
  assert (Np : 0 < IZR (ny * nx)) by (apply IZR_lt; destruct Hm; nia).
  destruct (power ny nx m F c area P Ey Ex Hm HR HG Ha Hn EN) as (w & E1 & E2 & E3 & E4).
  - intros Y X IY IX. unfold emap_fft in HP. rewrite fft_some in HP by exact Hm. cbn [bind enorm] in HP. specialize (HP _ Y X eq_refl IY IX). cbn [scale amap f_at nprod] in HP. rewrite Ey, Ex in HP.
    rewrite Cmult_conj, Cconj_RtoC in HP. set (z := f_at (dft_ax (-1) AXY m) Y X) in *. set (k := / sqrt (IZR (ny * nx)) * sqrt (area / IZR (ny * nx))) in *.
    assert (K : k * k = area / IZR (ny * nx) ^ 2).
    { unfold k. transitivity ((sqrt (area / IZR (ny * nx)) * sqrt (area / IZR (ny * nx))) / (sqrt (IZR (ny * nx)) * sqrt (IZR (ny * nx)))); [field; apply Rgt_not_eq, sqrt_lt_R0, Np|].
      rewrite !sqrt_sqrt; [field; lra|lra|]. apply Rmult_le_pos; [lra|]. left. apply Rinv_0_lt_compat, Np. }
    transitivity (Cmult (Cmult (Cmult (Cconj z) (RtoC k)) (Cmult z (RtoC k))) (RtoC (/ (k * k)))).
    + assert (K0 : k * k <> 0) by (rewrite K; apply Rmult_integral_contrapositive; split; [lra|apply Rinv_neq_0_compat, pow_nonzero; lra]).
      transitivity (Cmult (Cmult (Cconj z) z) (RtoC (k * k * / (k * k)))); [rewrite Rinv_r by exact K0; ring|]. rewrite !RtoC_mult. ring.
    + rewrite HP, K, <- RtoC_mult. f_equal. field. split; [lra|]. lra.
  - exists w. split; [exact E1|]. split; [exact E2|]. split; [exact E3|]. rewrite E2, E3. exact E4.
Qed.
Print Assumptions C113_power.

(* a single bright pixel has such a spectrum; the filter is one of a prepared pair on a 2 x 8 map *)
Definition spike : farr C := FA 2 8 (fun y x => if (y =? 0)%Z && (x =? 0)%Z then RtoC 4 else RtoC 0).
Example C113_ex_power : nonempty spike /\ is_real spike /\
  (forall fm Y X, emap_fft Phys false (16 / IZR (2 * 8)) spike = Some fm -> (0 <= Y < 2)%Z -> (0 <= X < 8)%Z -> Cmult (Cconj (f_at fm Y X)) (f_at fm Y X) = RtoC 1) /\
  exists lv, prepare_filter (modlmap 2 8 1 1) (fun l => / (1 + l), (2%Z, 8%Z), 16) = Some lv /\ good_filter 2 8 (lv_filt lv) /\ lv_norm lv <> 0.
Proof.
  split; [split; cbn; lia|]. split; [intros y x _ _; cbn [spike f_at]; destruct (_ && _); reflexivity|]. split.
  - intros fm Y X E IY IX. unfold emap_fft in E. rewrite fft_some in E by (split; cbn; lia). cbn [bind enorm] in E. injection E as <-. cbn [scale amap f_at]. change (f_at (dft_y (-1) (dft_x (-1) spike)) Y X) with (f_at (dft_ax (-1) AXY spike) Y X). rewrite dft2_at. cbn [spike f_ny f_nx f_at].
    assert (D : dft (-1) 2 (fun j => dft (-1) 8 (fun x => if (j =? 0)%Z && (x =? 0)%Z then RtoC 4 else RtoC 0) X) Y = RtoC 4).
    { rewrite (dft_ext (-1) 2 _ (fun j => if (j =? 0)%Z then RtoC 4 else RtoC 0)).
      - unfold dft. rewrite (csum_ext 2 _ (fun j => if (j =? 0)%Z then Cmult (RtoC 4) (w 2 (-1 * (j * Y))) else RtoC 0)) by (intros j _; destruct (j =? 0)%Z; [reflexivity|apply Cmult_0_l]).
        rewrite (csum_single 2 0 (fun j => Cmult (RtoC 4) (w 2 (-1 * (j * Y))))) by lia. rewrite Z.mul_0_l, Z.mul_0_r, w_0 by lia. apply Cmult_1_r.
      - intros j _. unfold dft. destruct (j =? 0)%Z eqn:J; cbn [andb].
        + rewrite (csum_ext 8 _ (fun i => if (i =? 0)%Z then Cmult (RtoC 4) (w 8 (-1 * (i * X))) else RtoC 0)) by (intros i _; destruct (i =? 0)%Z; [reflexivity|apply Cmult_0_l]).
          rewrite (csum_single 8 0 (fun i => Cmult (RtoC 4) (w 8 (-1 * (i * X))))) by lia. rewrite Z.mul_0_l, Z.mul_0_r, w_0 by lia. apply Cmult_1_r.
        + rewrite (csum_ext 8 _ (fun _ => RtoC 0)) by (intros; apply Cmult_0_l). apply csum_0. }
    rewrite D. rewrite Cmult_conj, !Cconj_RtoC. rewrite <- !RtoC_mult. f_equal. replace (16 / 16) with 1 by field. replace 16 with (4 * 4) by lra. rewrite sqrt_square by lra. rewrite sqrt_1. field.
  - assert (Le : forall y x, (0 <= y < 2)%Z -> (0 <= x < 8)%Z -> f_at (modlmap 2 8 1 1) ((- y) mod 2)%Z ((- x) mod 8)%Z = f_at (modlmap 2 8 1 1) y x) by (intros; apply modlmap_even; lia).
    destruct (prepare_one 2 8 ltac:(lia) ltac:(lia) (modlmap 2 8 1 1) eq_refl eq_refl Le (fun l => / (1 + l), (2%Z, 8%Z), 16)) as (lv & E & ((G & N) & _)).
    + split; [reflexivity|]. split; [cbn; lra|]. exists 0%Z, 0%Z. split; [lia|]. split; [lia|]. cbn [fst]. apply Rinv_neq_0_compat. pose proof (sqrt_pos ((2 * PI * fftfreq 2 0 / 1) ^ 2 + (2 * PI * fftfreq 8 0 / 1) ^ 2)). cbn [modlmap f_at]. lra.
    + exists lv. split; [exact E|]. split; [exact G|exact N].
Qed.
