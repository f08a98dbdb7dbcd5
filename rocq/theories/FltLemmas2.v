(* Gaussian and window factors. *)
From Coq Require Import Reals Lra Lia.
From Coquelicot Require Import Coquelicot.
From Verif Require Import Base ArrModel PixModel FftSpec FftModel FftLemmas FftLemmas2 FftLemmas3 FftLemmas4 FftLemmas5 FltSpec FltModel FltLemmas.
Ltac Zify.zify_post_hook ::= idtac.
Open Scope R_scope.

Definition gauss (n : Z) (step sigma : R) (k : Z) : C := RtoC (exp (- 0.5 * (laxis n step k ^ 2 * sigma ^ 2))).

(* frequencies are odd in k, except at the highest one of an even axis *)
Lemma fftfreq_neg n k : (0 < n)%Z -> (0 <= k < n)%Z -> fftfreq n ((- k) mod n) = - fftfreq n k \/ fftfreq n ((- k) mod n) = fftfreq n k.
Proof.
  intros Hn Hk. rewrite neg_mod by assumption. unfold fftfreq. pose proof (Z.div_mod (n - 1) 2 ltac:(lia)) as D. pose proof (Z.mod_pos_bound (n - 1) 2 ltac:(lia)) as M.
  pose proof (IZRn0 n Hn) as N0. destruct (Z.eqb_spec k 0) as [->|K].
  - left. replace (0 <? (n - 1) / 2 + 1)%Z with true by lia. unfold Rdiv. ring.
  - destruct (Z.ltb_spec k ((n - 1) / 2 + 1)) as [A|A], (Z.ltb_spec (n - k) ((n - 1) / 2 + 1)) as [B|B].
    + exfalso. lia.
    + left. replace (n - k - n)%Z with (- k)%Z by lia. rewrite opp_IZR. unfold Rdiv. ring.
    + left. rewrite !minus_IZR. unfold Rdiv. ring.
    + right. replace (n - k)%Z with k by lia. reflexivity.
Qed.
Lemma even_fun_sym n (q : R -> R) : (0 < n)%Z -> (forall f, q (- f) = q f) -> psym n (fun k => RtoC (q (fftfreq n k))).
Proof. intros Hn Hq k Hk. rewrite Cconj_RtoC. f_equal. destruct (fftfreq_neg n k Hn Hk) as [E|E]; rewrite E; auto. Qed.
Lemma gauss_sym n step sigma : (0 < n)%Z -> psym n (gauss n step sigma).
Proof.
  intros Hn. apply (even_fun_sym n (fun f => exp (- 0.5 * ((f / step * 2 * PI) ^ 2 * sigma ^ 2))) Hn). intros f. f_equal. unfold Rdiv. ring.
Qed.
Lemma gauss_0 n step sigma : (0 < n)%Z -> gauss n step sigma 0 = RtoC 1.
Proof.
  intros Hn. unfold gauss, laxis, fftfreq. pose proof (Z.div_pos (n - 1) 2 ltac:(lia) ltac:(lia)). replace (0 <? (n - 1) / 2 + 1)%Z with true by lia. f_equal.
  replace (- 0.5 * _) with 0 by (unfold Rdiv; ring). apply exp_0.
Qed.
Lemma gauss_mul n step s t k : Cmult (gauss n step s k) (gauss n step t k) = gauss n step (sqrt (s ^ 2 + t ^ 2)) k.
Proof.
  unfold gauss. rewrite <- RtoC_mult, <- exp_plus. f_equal. f_equal. assert (Q : sqrt (s ^ 2 + t ^ 2) ^ 2 = s ^ 2 + t ^ 2).
  { rewrite <- Rsqr_pow2. apply Rsqr_sqrt. pose proof (pow2_ge_0 s). pose proof (pow2_ge_0 t). lra. }
  rewrite Q. ring.
Qed.
Lemma exp_le1 x : x <= 0 -> 0 < exp x <= 1.
Proof. intros H. split; [apply exp_pos|]. rewrite <- exp_0. destruct H as [H|H]; [left; apply exp_increasing, H|right; rewrite H; reflexivity]. Qed.
Lemma gauss_bound n step s k : Im (gauss n step s k) = 0 /\ -1 <= Re (gauss n step s k) <= 1.
Proof.
  split; [reflexivity|]. cbn [gauss RtoC Re fst]. assert (H : - 0.5 * (laxis n step k ^ 2 * s ^ 2) <= 0).
  { pose proof (pow2_ge_0 (laxis n step k)). pose proof (pow2_ge_0 s). assert (0 <= laxis n step k ^ 2 * s ^ 2) by (apply Rmult_le_pos; assumption). lra. }
  apply exp_le1 in H. change (-1 <= exp (- 0.5 * (laxis n step k ^ 2 * s ^ 2)) <= 1). lra.
Qed.
Definition gfil (sy sx sigma : R) (a : farr C) : farr C := filt AXY (gauss (f_ny a) sy sigma) (gauss (f_nx a) sx sigma) a.
Lemma gfil_real sy sx sigma a : nonempty a -> is_real a -> is_real (gfil sy sx sigma a).
Proof. intros H R. apply (filt_real AXY); [exact H|apply gauss_sym, H|apply gauss_sym, H|exact R]. Qed.
Lemma smooth_pos sy sx sigma a : nonempty a -> 0 < sigma -> oaeq (smooth_gauss sy sx sigma a) (drop_im false (gfil sy sx sigma a)).
Proof.
  intros H S. unfold smooth_gauss. destruct (Req_EM_T sigma 0) as [E|_]; [lra|]. destruct (Rle_dec 0 sigma) as [_|N]; [|lra].
  pose proof (efilt_re (fun y x => RtoC (exp (- 0.5 * (laxis (f_ny a) sy y ^ 2 * sigma ^ 2 + laxis (f_nx a) sx x ^ 2 * sigma ^ 2)))) a H) as K.
  destruct (bind (emap_fft Pix false 1 a) _) as [r|]; [|contradiction]. cbn [oaeq] in *. eapply aeq_trans; [exact K|]. apply drop_im_ext, gfilt_sep. intros y x _ _.
  unfold gauss. rewrite <- RtoC_mult, <- exp_plus. f_equal. f_equal. ring.
Qed.
Lemma smooth_neg sy sx sigma a : nonempty a -> sigma < 0 -> oaeq (smooth_gauss sy sx sigma a) (drop_im false (sub a (gfil sy sx (- sigma) a))).
Proof.
  intros H S. unfold smooth_gauss. destruct (Req_EM_T sigma 0) as [E|_]; [lra|]. destruct (Rle_dec 0 sigma) as [N|_]; [lra|].
  pose proof (efilt_re (fun y x => RtoC (1 - exp (- 0.5 * (laxis (f_ny a) sy y ^ 2 * sigma ^ 2 + laxis (f_nx a) sx x ^ 2 * sigma ^ 2)))) a H) as K.
  destruct (bind (emap_fft Pix false 1 a) _) as [r|]; [|contradiction]. cbn [oaeq] in *. eapply aeq_trans; [exact K|]. apply drop_im_ext.
  set (g := fun y x => Cmult (gauss (f_ny a) sy (- sigma) y) (gauss (f_nx a) sx (- sigma) x)).
  eapply aeq_trans; [apply (gfilt_ext _ (fun y x => Cminus (RtoC 1) (g y x)) a a); [apply aeq_refl|]|].
  - intros y x _ _. unfold g, gauss. rewrite <- RtoC_mult, <- exp_plus, <- RtoC_minus. f_equal. f_equal. f_equal. ring.
  - eapply aeq_trans; [apply gfilt_compl, H|]. apply sub_ext; [apply aeq_refl|apply gfilt_sep; reflexivity|reflexivity|reflexivity].
Qed.
Lemma sub_real a b : is_real a -> is_real b -> f_ny a = f_ny b -> f_nx a = f_nx b -> is_real (sub a b).
Proof. intros A B Sy Sx y x Hy Hx. cbn [sub f_at f_ny f_nx] in *. specialize (A y x Hy Hx). rewrite Sy in Hy. rewrite Sx in Hx. specialize (B y x Hy Hx). unfold Im in *. cbn [Cminus Cplus Copp snd fst]. lra. Qed.
(* on real maps *)
Lemma smooth_real sy sx sigma a : nonempty a -> is_real a -> sigma <> 0 -> exists r, smooth_gauss sy sx sigma a = Some r /\ is_real r /\
  aeq r (if Rlt_dec 0 sigma then gfil sy sx sigma a else sub a (gfil sy sx (- sigma) a)).
Proof.
  intros H R S. destruct (Rlt_dec 0 sigma) as [P|P].
  - pose proof (smooth_pos sy sx sigma a H P) as K. destruct (smooth_gauss sy sx sigma a) as [r|]; [|contradiction]. exists r. split; [reflexivity|]. cbn [oaeq] in K.
    assert (A : aeq r (gfil sy sx sigma a)) by (eapply aeq_trans; [exact K|]; apply drop_im_real, gfil_real; assumption). split; [|exact A].
    eapply is_real_ext; [apply aeq_sym, A|]. apply gfil_real; assumption.
  - pose proof (smooth_neg sy sx sigma a H ltac:(lra)) as K. destruct (smooth_gauss sy sx sigma a) as [r|]; [|contradiction]. exists r. split; [reflexivity|]. cbn [oaeq] in K.
    assert (SR : is_real (sub a (gfil sy sx (- sigma) a))) by (apply sub_real; [exact R|apply gfil_real; assumption|reflexivity|reflexivity]).
    assert (A : aeq r (sub a (gfil sy sx (- sigma) a))) by (eapply aeq_trans; [exact K|]; apply drop_im_real, SR). split; [|exact A]. eapply is_real_ext; [apply aeq_sym, A|exact SR].
Qed.
Lemma gfil_ext sy sx s a b : aeq a b -> aeq (gfil sy sx s a) (gfil sy sx s b).
Proof. intros E. unfold gfil. destruct E as (E1 & E2 & E). rewrite <- E1, <- E2. apply filt_ext; [split; [exact E1|]; split; [exact E2|exact E]|reflexivity|reflexivity]. Qed.
Lemma nonempty_ext {A} (a b : farr A) : aeq a b -> nonempty a -> nonempty b.
Proof. intros (E1 & E2 & _) [P Q]. split; congruence. Qed.
