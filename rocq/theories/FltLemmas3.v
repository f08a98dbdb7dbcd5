(* Pixel windows and integrals of waves. *)
From Coq Require Import Reals Lra Lia.
From Coquelicot Require Import Coquelicot.
From Verif Require Import Base ArrModel PixModel FftSpec FftModel FftLemmas FftLemmas2 FftLemmas3 FftLemmas4 FftLemmas5 FltSpec FltModel FltLemmas FltLemmas2.
Ltac Zify.zify_post_hook ::= idtac.
Open Scope R_scope.

Definition known (order : option Z) : Prop := order = None \/ order = Some 0%Z \/ order = Some 1%Z.
Definition pw (order : option Z) (f : R) : R := match pixwin_1d order f with Some v => v | None => 0 end.
Lemma pw_some order f : known order -> pixwin_1d order f = Some (pw order f).
Proof. intros [->|[->| ->]]; reflexivity. Qed.
Lemma fftfreq_bound n k : (0 < n)%Z -> (0 <= k < n)%Z -> Rabs (fftfreq n k) <= 1 / 2.
Proof.
  intros Hn Hk. unfold fftfreq. pose proof (Z.div_mod (n - 1) 2 ltac:(lia)) as D. pose proof (Z.mod_pos_bound (n - 1) 2 ltac:(lia)) as M. apply IZR_lt in Hn as N0.
  set (i := (if (k <? (n - 1) / 2 + 1)%Z then k else k - n)%Z). assert (B : (- n <= 2 * i <= n)%Z) by (unfold i; destruct (Z.ltb_spec k ((n - 1) / 2 + 1)); lia).
  destruct B as [B1 B2]. apply IZR_le in B1, B2. rewrite opp_IZR in B1. rewrite mult_IZR in B1, B2. apply Rabs_le. split.
  - apply (Rmult_le_reg_r (IZR n)); [exact N0|]. unfold Rdiv. rewrite Rmult_assoc, Rinv_l by lra. lra.
  - apply (Rmult_le_reg_r (IZR n)); [exact N0|]. unfold Rdiv. rewrite Rmult_assoc, Rinv_l by lra. lra.
Qed.
Lemma sinc_pos f : Rabs f < 1 -> 0 < sinc f.
Proof.
  intros H. unfold sinc. destruct (Req_EM_T f 0) as [|N]; [lra|]. pose proof PI_RGT_0 as P.
  assert (K : forall g, 0 < g < 1 -> 0 < sin (PI * g) / (PI * g)).
  { intros g G. apply Rdiv_lt_0_compat; [apply sin_gt_0|]; [apply Rmult_lt_0_compat; lra| |apply Rmult_lt_0_compat; lra]. rewrite <- (Rmult_1_r PI) at 2. apply Rmult_lt_compat_l; lra. }
  destruct (Rlt_dec 0 f) as [F|F].
  - apply K. apply Rabs_def2 in H. lra.
  - replace (sin (PI * f) / (PI * f)) with (sin (PI * - f) / (PI * - f)); [apply K; apply Rabs_def2 in H; lra|].
    replace (PI * - f) with (- (PI * f)) by ring. rewrite sin_neg. field. split; lra.
Qed.
Lemma sinc_even f : sinc (- f) = sinc f.
Proof.
  unfold sinc. destruct (Req_EM_T f 0) as [E|N], (Req_EM_T (- f) 0) as [M|M]; try reflexivity; try (exfalso; lra).
  replace (PI * - f) with (- (PI * f)) by ring. rewrite sin_neg. pose proof PI_RGT_0. field. split; lra.
Qed.
Lemma pw_even order f : known order -> pw order (- f) = pw order f.
Proof.
  intros [->|[->| ->]]; unfold pw; cbn [pixwin_1d]; [ring|apply sinc_even|]. rewrite sinc_even. replace (2 * PI * - f) with (- (2 * PI * f)) by ring. rewrite cos_neg. reflexivity.
Qed.
Lemma pw_pos order f : known order -> Rabs f < 1 -> 0 < pw order f.
Proof.
  intros [->|[->| ->]] H; unfold pw; cbn [pixwin_1d]; [lra|apply sinc_pos, H|]. apply Rdiv_lt_0_compat; [apply pow_lt, sinc_pos, H|]. pose proof (COS_bound (2 * PI * f)). lra.
Qed.
Lemma pw_0 order : known order -> pw order 0 = 1.
Proof. intros [->|[->| ->]]; unfold pw; cbn [pixwin_1d]; [ring| |]; unfold sinc; destruct (Req_EM_T 0 0); try contradiction; [reflexivity|]. rewrite Rmult_0_r, cos_0. field. Qed.
Lemma freq_lt1 n k scale : (0 < n)%Z -> (0 <= k < n)%Z -> 1 / 2 < scale -> Rabs (fftfreq n k / scale) < 1.
Proof.
  intros Hn Hk Hs. pose proof (fftfreq_bound n k Hn Hk). unfold Rdiv. rewrite Rabs_mult, Rabs_inv by lra. rewrite (Rabs_right scale) by lra.
  apply (Rmult_lt_reg_r scale); [lra|]. rewrite Rmult_assoc, Rinv_l by lra. lra.
Qed.
Definition wv order n scale pow (k : Z) : C := RtoC (Rpower (pw order (fftfreq n k / scale)) pow).
Lemma window_some order n scale pow : known order -> (0 < n)%Z -> 1 / 2 < scale -> exists v, window n order scale pow = Some v /\ forall k, (0 <= k < n)%Z -> RtoC (v k) = wv order n scale pow k.
Proof.
  intros HO Hn Hs. assert (V : forall k, (0 <= k < n)%Z -> bind (pixwin_1d order (fftfreq n k / scale)) (fun v => rpow v pow) = Some (Rpower (pw order (fftfreq n k / scale)) pow)).
  { intros k Hk. rewrite pw_some by exact HO. cbn [bind]. unfold rpow. destruct (Rlt_dec 0 (pw order (fftfreq n k / scale))) as [_|N]; [reflexivity|]. exfalso. apply N, pw_pos, freq_lt1; assumption. }
  unfold window. match goal with |- context [forallb ?p ?l] => assert (F : forallb p l = true) end.
  { apply forallb_forall. intros k Hk. apply zrange_In in Hk. rewrite V by exact Hk. reflexivity. }
  rewrite F. eexists. split; [reflexivity|]. intros k Hk. unfold wv. cbv beta. rewrite V by exact Hk. reflexivity.
Qed.
Lemma wv_sym order n scale pow : known order -> (0 < n)%Z -> psym n (wv order n scale pow).
Proof.
  intros HO Hn. apply (even_fun_sym n (fun f => Rpower (pw order (f / scale)) pow) Hn). intros f. f_equal. replace (- f / scale) with (- (f / scale)) by (unfold Rdiv; ring). apply pw_even, HO.
Qed.
Definition wfil order scale pow (a : farr C) : farr C := filt AXY (wv order (f_ny a) scale pow) (wv order (f_nx a) scale pow) a.
Lemma apply_eq order scale pow a : known order -> 1 / 2 < scale -> nonempty a -> oaeq (apply_window pow order scale false a) (drop_im false (wfil order scale pow a)).
Proof.
  intros HO Hs H. destruct (window_some order (f_ny a) scale pow HO (proj1 H) Hs) as (vy & Ey & Vy). destruct (window_some order (f_nx a) scale pow HO (proj2 H) Hs) as (vx & Ex & Vx).
  unfold apply_window. rewrite Ey, Ex. cbn [bind]. pose proof (efilt_re (fun y x => Cmult (RtoC (vy y)) (RtoC (vx x))) a H) as K. destruct (emap_fft Pix false 1 a) as [f|]; [|contradiction]. cbn [bind] in *. cbn [f_ny f_nx f_at].
  assert (E : (fun y x => Cmult (Cmult (f_at f y x) (RtoC (vy y))) (RtoC (vx x))) = (fun y x => Cmult (f_at f y x) (Cmult (RtoC (vy y)) (RtoC (vx x))))).
  { apply FunctionalExtensionality.functional_extensionality. intros y. apply FunctionalExtensionality.functional_extensionality. intros x. symmetry. apply Cmult_assoc. }
  rewrite E. destruct (bind (emap_ifft Pix false 1 _) _) as [r|]; [|contradiction]. cbn [oaeq] in *. eapply aeq_trans; [exact K|]. apply drop_im_ext, gfilt_sep.
  intros y x Hy Hx. rewrite Vy, Vx by assumption. reflexivity.
Qed.
Lemma wfil_real order scale pow a : known order -> nonempty a -> is_real a -> is_real (wfil order scale pow a).
Proof. intros HO H R. apply (filt_real AXY); [exact H|apply wv_sym; [exact HO|apply H]|apply wv_sym; [exact HO|apply H]|exact R]. Qed.
Lemma apply_real order scale pow a : known order -> 1 / 2 < scale -> nonempty a -> is_real a -> exists r, apply_window pow order scale false a = Some r /\ is_real r /\ aeq r (wfil order scale pow a).
Proof.
  intros HO Hs H R. pose proof (apply_eq order scale pow a HO Hs H) as K. destruct (apply_window pow order scale false a) as [r|]; [|contradiction]. exists r. split; [reflexivity|]. cbn [oaeq] in K.
  assert (A : aeq r (wfil order scale pow a)) by (eapply aeq_trans; [exact K|]; apply drop_im_real, wfil_real; assumption). split; [|exact A].
  eapply is_real_ext; [apply aeq_sym, A|]. apply wfil_real; assumption.
Qed.
Lemma wfil_ext order scale pow a b : aeq a b -> aeq (wfil order scale pow a) (wfil order scale pow b).
Proof. intros E. unfold wfil. destruct E as (E1 & E2 & E). rewrite <- E1, <- E2. apply filt_ext; [split; [exact E1|]; split; [exact E2|exact E]|reflexivity|reflexivity]. Qed.
Lemma wfil_wfil order scale p q a : nonempty a -> aeq (wfil order scale q (wfil order scale p a)) (wfil order scale (p + q) a).
Proof.
  intros H. unfold wfil at 1. cbn [wfil f_ny f_nx]. eapply aeq_trans; [apply filt_filt, H|]. unfold wfil. apply filt_ext; [apply aeq_refl| |]; intros k _; unfold wv; rewrite Rpower_plus, RtoC_mult; reflexivity.
Qed.
Lemma wfil_0 order scale a : known order -> 1 / 2 < scale -> nonempty a -> aeq (wfil order scale 0 a) a.
Proof.
  intros HO Hs H. unfold wfil. eapply aeq_trans; [|apply (filt_one AXY), H]. apply filt_ext; [apply aeq_refl| |]; intros k Hk; unfold wv, one; rewrite Rpower_O; try reflexivity; apply pw_pos, freq_lt1; try assumption; apply H.
Qed.
(* a wave *)
Lemma wv_wave order n scale k : known order -> (0 < n)%Z -> inside n k -> 1 / 2 < scale -> wv order n scale 1 (k mod n) = RtoC (pw order (IZR k / IZR n / scale)).
Proof.
  intros HO Hn Hk Hs. assert (E : fftfreq n (k mod n) = IZR k / IZR n) by (unfold fftfreq; rewrite inside_freq by assumption; reflexivity).
  unfold wv. rewrite Rpower_1; [rewrite E; reflexivity|]. apply pw_pos, freq_lt1; try assumption. apply Z.mod_pos_bound, Hn.
Qed.

(* integrals *)
Lemma cint_ext f g a b v : (forall t, f t = g t) -> cint f a b v -> cint g a b v.
Proof. intros E [H1 H2]. split; (eapply is_RInt_ext; [|eassumption]); intros t _; cbv beta; rewrite E; reflexivity. Qed.
Lemma cint_plus f g a b u v : cint f a b u -> cint g a b v -> cint (fun t => Cplus (f t) (g t)) a b (Cplus u v).
Proof. intros [F1 F2] [G1 G2]. split; [exact (is_RInt_plus _ _ a b _ _ F1 G1)|exact (is_RInt_plus _ _ a b _ _ F2 G2)]. Qed.
Lemma cint_scal c f a b v : cint f a b v -> cint (fun t => Cmult c (f t)) a b (Cmult c v).
Proof.
  intros [F1 F2]. split; cbn [Cmult Re Im fst snd].
  - exact (is_RInt_minus _ _ a b _ _ (is_RInt_scal _ a b (fst c) _ F1) (is_RInt_scal _ a b (snd c) _ F2)).
  - exact (is_RInt_plus _ _ a b _ _ (is_RInt_scal _ a b (fst c) _ F2) (is_RInt_scal _ a b (snd c) _ F1)).
Qed.
Lemma cint_0 a b : cint (fun _ => RtoC 0) a b (RtoC 0).
Proof.
  assert (Z0 : is_RInt (fun _ : R => 0) a b 0).
  { pose proof (@is_RInt_const R_NormedModule a b 0) as K. unfold scal in K. cbn in K. unfold mult in K. cbn in K. rewrite Rmult_0_r in K. exact K. }
  split; exact Z0.
Qed.
Lemma cint2_plus f g a b c d u v : cint2 f a b c d u -> cint2 g a b c d v -> cint2 (fun s t => Cplus (f s t) (g s t)) a b c d (Cplus u v).
Proof. intros (F & F1 & F2) (G & G1 & G2). exists (fun s => Cplus (F s) (G s)). split; [intros s; apply cint_plus; auto|apply cint_plus; assumption]. Qed.
Lemma cint2_0 a b c d : cint2 (fun _ _ => RtoC 0) a b c d (RtoC 0).
Proof. exists (fun _ => RtoC 0). split; [intros _; apply cint_0|apply cint_0]. Qed.
Lemma cint2_prod f g a b c d u v : cint f a b u -> cint g c d v -> cint2 (fun s t => Cmult (f s) (g t)) a b c d (Cmult u v).
Proof.
  intros F G. exists (fun s => Cmult (f s) v). split; [intros s; apply cint_scal, G|]. apply (cint_ext (fun s => Cmult v (f s))); [intros t; apply Cmult_comm|]. rewrite (Cmult_comm u v). apply cint_scal, F.
Qed.
Lemma cint2_ext f g a b c d v : (forall s t, f s t = g s t) -> cint2 f a b c d v -> cint2 g a b c d v.
Proof. intros E (F & F1 & F2). exists F. split; [|exact F2]. intros s. apply (cint_ext (f s)); auto. Qed.
Lemma is_RInt_prim (F f : R -> R) a b : (forall t, is_derive F t (f t)) -> (forall t, continuous f t) -> is_RInt f a b (F b - F a).
Proof. intros HD HC. apply (is_RInt_derive F f); intros t _; [apply HD|apply HC]. Qed.
Lemma cont_of_derive (f : R -> R) t l : is_derive f t l -> continuous f t.
Proof. intros H. apply (ex_derive_continuous (V := R_NormedModule)). exists l. exact H. Qed.

(* the average of a wave over an interval of width 1 *)
Lemma cint_cis th b : cint (fun t => cis (th + b * t)) (- (1 / 2)) (1 / 2) (Cmult (RtoC (sinc (b / (2 * PI)))) (cis th)).
Proof.
  pose proof PI_RGT_0 as P. destruct (Req_EM_T b 0) as [->|N].
  - assert (S : sinc (0 / (2 * PI)) = 1) by (unfold sinc; destruct (Req_EM_T (0 / (2 * PI)) 0) as [|X]; [reflexivity|exfalso; apply X; field; lra]). rewrite S.
    assert (K : forall c : R, is_RInt (fun _ => c) (- (1 / 2)) (1 / 2) c).
    { intros c. pose proof (@is_RInt_const R_NormedModule (- (1 / 2)) (1 / 2) c) as K. unfold scal in K. cbn in K. unfold mult in K. cbn in K. replace ((1 / 2 - - (1 / 2)) * c) with c in K by field. exact K. }
    split; unfold Re, Im, RtoC, Cmult, cis; cbn [fst snd].
    + replace (1 * cos th - 0 * sin th) with (cos th) by ring. apply (is_RInt_ext (fun _ => cos th)); [|apply K]. intros t _. f_equal. ring.
    + replace (1 * sin th + 0 * cos th) with (sin th) by ring. apply (is_RInt_ext (fun _ => sin th)); [|apply K]. intros t _. f_equal. ring.
  - assert (S : sinc (b / (2 * PI)) = 2 * sin (b / 2) / b).
    { unfold sinc. destruct (Req_EM_T (b / (2 * PI)) 0) as [X|X]; [exfalso; apply N; apply (f_equal (fun z => z * (2 * PI))) in X; field_simplify in X; [lra|lra]|].
      replace (PI * (b / (2 * PI))) with (b / 2) by (field; lra). field. exact N. }
    rewrite S. split; unfold Re, Im, RtoC, Cmult, cis; cbn [fst snd].
    + replace (2 * sin (b / 2) / b * cos th - 0 * sin th) with (sin (th + b * (1 / 2)) / b - sin (th + b * - (1 / 2)) / b).
      * apply (is_RInt_prim (fun t => sin (th + b * t) / b) (fun t => cos (th + b * t))).
        -- intros t. auto_derive; [exact Logic.I|]. field. exact N.
        -- intros t. apply (cont_of_derive _ t (- sin (th + b * t) * b)). auto_derive; [exact Logic.I|]. ring.
      * replace (th + b * (1 / 2)) with (th + b / 2) by field. replace (th + b * - (1 / 2)) with (th - b / 2) by field. rewrite sin_plus, sin_minus. field. exact N.
    + replace (2 * sin (b / 2) / b * sin th + 0 * cos th) with (- cos (th + b * (1 / 2)) / b - - cos (th + b * - (1 / 2)) / b).
      * apply (is_RInt_prim (fun t => - cos (th + b * t) / b) (fun t => sin (th + b * t))).
        -- intros t. auto_derive; [exact Logic.I|]. field. exact N.
        -- intros t. apply (cont_of_derive _ t (cos (th + b * t) * b)). auto_derive; [exact Logic.I|]. ring.
      * replace (th + b * (1 / 2)) with (th + b / 2) by field. replace (th + b * - (1 / 2)) with (th - b / 2) by field. rewrite cos_plus, cos_minus. field. exact N.
Qed.
(* the hat function against a wave *)
Lemma hat_cos th b : is_RInt (fun t => hat t * cos (th + b * t)) (-1) 1 (sinc (b / (2 * PI)) ^ 2 * cos th).
Proof.
  pose proof PI_RGT_0 as P. unfold hat.
  assert (J : forall l r, is_RInt (fun t => (1 + t) * cos (th + b * t)) (-1) 0 l -> is_RInt (fun t => (1 - t) * cos (th + b * t)) 0 1 r -> is_RInt (fun t => (1 - Rabs t) * cos (th + b * t)) (-1) 1 (l + r)).
  { intros l r HL HR. apply (is_RInt_Chasles (V := R_NormedModule) _ (-1) 0 1 l r).
    - eapply is_RInt_ext; [|exact HL]. intros t Ht. rewrite Rmin_left, Rmax_right in Ht by lra. cbv beta. rewrite Rabs_left by lra. f_equal. ring.
    - eapply is_RInt_ext; [|exact HR]. intros t Ht. rewrite Rmin_left, Rmax_right in Ht by lra. cbv beta. rewrite Rabs_right by lra. reflexivity. }
  destruct (Req_EM_T b 0) as [->|N].
  - assert (S : sinc (0 / (2 * PI)) = 1) by (unfold sinc; destruct (Req_EM_T (0 / (2 * PI)) 0) as [|X]; [reflexivity|exfalso; apply X; field; lra]). rewrite S.
    replace (1 ^ 2 * cos th) with (1 / 2 * cos th + 1 / 2 * cos th) by field. apply J.
    + replace (1 / 2 * cos th) with ((0 + 0 ^ 2 / 2) * cos th - (-1 + (-1) ^ 2 / 2) * cos th) by field.
      apply (is_RInt_prim (fun t => (t + t ^ 2 / 2) * cos th) (fun t => (1 + t) * cos (th + 0 * t))); intros t.
      * replace (th + 0 * t) with th by ring. auto_derive; [exact Logic.I|]. field.
      * apply (cont_of_derive _ t (cos th)). auto_derive; [exact Logic.I|]. replace (th + 0 * t) with th by ring. ring.
    + replace (1 / 2 * cos th) with ((1 - 1 ^ 2 / 2) * cos th - (0 - 0 ^ 2 / 2) * cos th) by field.
      apply (is_RInt_prim (fun t => (t - t ^ 2 / 2) * cos th) (fun t => (1 - t) * cos (th + 0 * t))); intros t.
      * replace (th + 0 * t) with th by ring. auto_derive; [exact Logic.I|]. field.
      * apply (cont_of_derive _ t (- cos th)). auto_derive; [exact Logic.I|]. replace (th + 0 * t) with th by ring. ring.
  - assert (S : sinc (b / (2 * PI)) ^ 2 = 2 * (1 - cos b) / b ^ 2).
    { assert (S1 : sinc (b / (2 * PI)) = 2 * sin (b / 2) / b).
      { unfold sinc. destruct (Req_EM_T (b / (2 * PI)) 0) as [X|X]; [exfalso; apply N; apply (f_equal (fun z => z * (2 * PI))) in X; field_simplify in X; [lra|lra]|].
        replace (PI * (b / (2 * PI))) with (b / 2) by (field; lra). field. exact N. }
      rewrite S1. replace (cos b) with (cos (2 * (b / 2))) by (f_equal; field). rewrite cos_2a_sin. field. exact N. }
    rewrite S.
    set (l := (1 + 0) * sin (th + b * 0) / b + cos (th + b * 0) / b ^ 2 - ((1 + -1) * sin (th + b * -1) / b + cos (th + b * -1) / b ^ 2)).
    set (r := (1 - 1) * sin (th + b * 1) / b - cos (th + b * 1) / b ^ 2 - ((1 - 0) * sin (th + b * 0) / b - cos (th + b * 0) / b ^ 2)).
    replace (2 * (1 - cos b) / b ^ 2 * cos th) with (l + r).
    + apply J.
      * apply (is_RInt_prim (fun t => (1 + t) * sin (th + b * t) / b + cos (th + b * t) / b ^ 2) (fun t => (1 + t) * cos (th + b * t))); intros t.
        -- auto_derive; [exact Logic.I|]. field. exact N.
        -- apply (cont_of_derive _ t (cos (th + b * t) - (1 + t) * sin (th + b * t) * b)). auto_derive; [exact Logic.I|]. ring.
      * apply (is_RInt_prim (fun t => (1 - t) * sin (th + b * t) / b - cos (th + b * t) / b ^ 2) (fun t => (1 - t) * cos (th + b * t))); intros t.
        -- auto_derive; [exact Logic.I|]. field. exact N.
        -- apply (cont_of_derive _ t (- cos (th + b * t) - (1 - t) * sin (th + b * t) * b)). auto_derive; [exact Logic.I|]. ring.
    + unfold l, r. replace (th + b * 0) with th by ring. replace (th + b * 1) with (th + b) by ring. replace (th + b * -1) with (th - b) by ring. rewrite cos_plus, cos_minus. field. exact N.
Qed.
Lemma hat_cis th b : cint (fun t => Cmult (RtoC (hat t)) (cis (th + b * t))) (-1) 1 (Cmult (RtoC (sinc (b / (2 * PI)) ^ 2)) (cis th)).
Proof.
  split; unfold Re, Im, RtoC, Cmult, cis; cbn [fst snd].
  - match goal with |- is_RInt _ _ _ (?u * ?v - 0 * ?w) => replace (u * v - 0 * w) with (u * v) by ring end.
    eapply is_RInt_ext; [|apply hat_cos]. intros t _. match goal with |- ?a = ?b => change (@eq R a b) end. cbv beta. ring.
  - match goal with |- is_RInt _ _ _ (?u * ?v + 0 * ?w) => replace (u * v + 0 * w) with (u * cos (th - PI / 2)) by (rewrite cos_minus, cos_PI2, sin_PI2; ring) end.
    eapply is_RInt_ext; [|apply hat_cos]. intros t _. match goal with |- ?a = ?b => change (@eq R a b) end. cbv beta. replace (th - PI / 2 + b * t) with (th + b * t - PI / 2) by ring. rewrite cos_minus, cos_PI2, sin_PI2. ring.
Qed.
(* a wave seen by a linear interpolator: its weights on three neighbours *)
Lemma hat_three th b : Cplus (Cplus (Cmult (RtoC (1 / 6)) (cis (th + b * -1))) (Cmult (RtoC (4 / 6)) (cis (th + b * 0)))) (Cmult (RtoC (1 / 6)) (cis (th + b * 1))) =
  Cmult (RtoC (1 / 3 * (2 + cos b))) (cis th).
Proof.
  replace (th + b * 0) with th by ring. replace (th + b * 1) with (th + b) by ring. replace (th + b * -1) with (th - b) by ring.
  apply C_eq; unfold Re, Im, RtoC, Cmult, Cplus, cis; cbn [fst snd].
  - rewrite cos_plus, cos_minus. field.
  - rewrite sin_plus, sin_minus. field.
Qed.
