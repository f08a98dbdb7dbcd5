(* C87: resample.py: changing the number of samples along the axes of an array. *)
From Coq Require Import Reals Qround Lra Lia.
From Coquelicot Require Import Complex.
From Verif Require Import Base SliceSpec ArrModel PixModel BlockModel DownModel FresModel FresLemmas DctSpec DctLemmas FftSpec FftModel FftLemmas FftLemmas2 FftLemmas3 FftLemmas4 FftLemmas5 FftProps3 RsmSpec RsmModel RsmLemmas.
Ltac Zify.zify_post_hook ::= idtac.
Open Scope R_scope. Open Scope C_scope.

(* resample_fft gives the shape asked for and the values fft.resample gives. Left out: lengths that happen to be those of the last
   axes, and complex arrays resampled along the second axis only (refuted below). *)
Theorem C87_fft_partial : forall cplx axes n d my mx, nonempty d -> (0 < my)%Z -> (0 < mx)%Z -> asks (f_ny d) (f_nx d) axes n my mx ->
  (looks_done (f_ny d) (f_nx d) axes n -> my = f_ny d /\ mx = f_nx d) -> (cplx = false -> is_real d) -> (cplx = true -> only_x axes n -> mx = f_nx d) ->
  exists b, FftModel.resample cplx my mx d = Some b /\ oaeq (resample_fft cplx axes n d) b /\ f_ny b = my /\ f_nx b = mx.
Proof.
  intros cplx axes n d my mx H Hy Hx HA G R Cx. pose proof (rf_eq cplx axes n d my mx H Hy Hx HA G R Cx) as K. pose proof (resample_eq cplx my mx d H Hy Hx) as L.
  destruct (FftModel.resample cplx my mx d) as [b|] eqn:E; [|contradiction]. exists b. split; [reflexivity|]. destruct (rs2_at cplx my mx d b H Hy Hx E) as (S1 & S2 & _). split; [|auto].
  destruct (resample_fft cplx axes n d) as [r|]; [|contradiction]. cbn [oaeq] in *. eapply aeq_trans; [exact K|]. apply aeq_sym, L.
Qed.
(* so a band-limited pattern comes out as the same pattern sampled more or less densely *)
Theorem C87_trig_partial : forall cplx axes n ms ny nx my mx oy ox, (0 < ny)%Z -> (0 < nx)%Z -> (0 < my)%Z -> (0 < mx)%Z -> asks ny nx axes n my mx ->
  (looks_done ny nx axes n -> my = ny /\ mx = nx) -> (cplx = true -> only_x axes n -> mx = nx) -> (cplx = false -> forall u v, Im (trig ms u v) = 0%R) ->
  band (Z.min ny my) (Z.min nx mx) ms ->
  oaeq (resample_fft cplx axes n (sampled ny nx oy ox (trig ms))) (sampled my mx (oy * (IZR my / IZR ny)) (ox * (IZR mx / IZR nx)) (trig ms)).
Proof.
  intros cplx axes n ms ny nx my mx oy ox Py Px Hy Hx HA G Cx R B. destruct (C87_fft_partial cplx axes n (sampled ny nx oy ox (trig ms)) my mx) as (b & E & K & _); auto.
  - split; assumption.
  - intros E y x _ _. apply R, E.
  - pose proof (C83_trig cplx ms ny nx my mx oy ox Py Px Hy Hx B) as T. rewrite E in T. destruct (resample_fft _ _ _ _) as [r|]; [|contradiction]. cbn [oaeq] in *.
    eapply aeq_trans; [exact K|]. eapply aeq_trans; [exact T|]. repeat split. cbn [sampled f_ny f_nx f_at]. intros. destruct cplx; [reflexivity|]. apply real_re, R. reflexivity.
Qed.
(* with a whole number of times more samples the old ones are among the new ones *)
Theorem C87_keep_partial : forall cplx axes n d ry rx b, nonempty d -> (0 < ry)%Z -> (0 < rx)%Z -> asks (f_ny d) (f_nx d) axes n (ry * f_ny d) (rx * f_nx d) ->
  (looks_done (f_ny d) (f_nx d) axes n -> ry = 1 /\ rx = 1)%Z -> (cplx = false -> is_real d) -> (cplx = true -> only_x axes n -> rx = 1%Z) ->
  resample_fft cplx axes n d = Some b -> forall y x, (0 <= y < f_ny d)%Z -> (0 <= x < f_nx d)%Z -> f_at b (ry * y)%Z (rx * x)%Z = f_at d y x.
Proof.
  intros cplx axes n d ry rx b H Hy Hx HA G R Cx E y x Iy Ix. destruct H as [Py Px].
  destruct (C87_fft_partial cplx axes n d (ry * f_ny d) (rx * f_nx d)) as (c & E' & K & S1 & S2); auto.
  - split; assumption.
  - apply Z.mul_pos_pos; assumption.
  - apply Z.mul_pos_pos; assumption.
  - intros L. destruct (G L) as [-> ->]. split; ring.
  - intros C O. rewrite (Cx C O). ring.
  - rewrite E in K. cbn [oaeq] in K. destruct K as (K1 & K2 & K3). rewrite K3.
    + apply (C83_keep cplx ry rx d c); auto. split; assumption.
    + rewrite K1, S1. split; [apply Z.mul_nonneg_nonneg; lia|apply Zmult_lt_compat_l; lia].
    + rewrite K2, S2. split; [apply Z.mul_nonneg_nonneg; lia|apply Zmult_lt_compat_l; lia].
Qed.
(* the same lengths: the same array *)
Theorem C87_same : forall cplx axes n d, nonempty d -> asks (f_ny d) (f_nx d) axes n (f_ny d) (f_nx d) -> (cplx = false -> is_real d) -> oaeq (resample_fft cplx axes n d) d.
Proof.
  intros cplx axes n d H HA R. pose proof H as [Py Px]. pose proof (rf_eq cplx axes n d _ _ H Py Px HA (fun _ => conj eq_refl eq_refl) R (fun _ _ => eq_refl)) as K.
  destruct (resample_fft cplx axes n d) as [r|]; [|contradiction]. cbn [oaeq] in *. eapply aeq_trans; [exact K|]. apply aeq_sym. exact (same_eq cplx d H R).
Qed.
(* axes=[0] and a length equal to that of the OTHER axis: nothing is done; likewise axes=[1,0] *)
Theorem C87_looks_done_refuted : forall cplx ny nx f, (0 < ny)%Z -> (0 < nx)%Z -> ny <> nx ->
  resample_fft cplx (Some [0%Z]) [nx] (FA ny nx f) = Some (FA ny nx f) /\ asks ny nx (Some [0%Z]) [nx] nx nx /\
  resample_fft cplx (Some [1%Z; 0%Z]) [ny; nx] (FA ny nx f) = Some (FA ny nx f) /\ asks ny nx (Some [1%Z; 0%Z]) [ny; nx] nx ny.
Proof.
  intros cplx ny nx f Hy Hx N. split; [|split; [|split]].
  - rewrite one_y by (left; reflexivity). cbn [f_nx]. rewrite Z.eqb_refl. reflexivity.
  - apply asks_each, picks_y. left. reflexivity.
  - cbv [resample_fft]. cbn [zlen length forallb f_ny f_nx]. rewrite !Z.eqb_refl. reflexivity.
  - apply asks_each, picks_xy; left; reflexivity.
Qed.
(* a complex array resampled along its second axis only: the result is the real part *)
Theorem C87_complex_refuted : forall cplx axes n d my mx, nonempty d -> (0 < mx)%Z -> asks (f_ny d) (f_nx d) axes n my mx -> only_x axes n -> mx <> f_nx d ->
  exists b, resample_fft cplx axes n d = Some b /\ f_ny b = f_ny d /\ f_nx b = mx /\ is_real b.
Proof.
  intros cplx axes n d my mx H Hx HA O N. assert (L : n = [mx]).
  { destruct HA as [axes n my mx P|a b m Ha Hb|a b m Ha Hb]; try contradiction O. destruct P; try contradiction O; try reflexivity.
    destruct O as [->| ->]; match goal with K : is_y _ |- _ => destruct K; discriminate end. }
  subst n. destruct (one_x cplx axes [mx] d O eq_refl) as (m & E & ->). injection E as <-. replace (f_nx d =? mx)%Z with false by lia.
  pose proof (simple_eq mx d H Hx N) as K. destruct (resample_fft_simple mx d) as [b|]; [|contradiction]. exists b. split; [reflexivity|]. destruct K as (K1 & K2 & K3). cbn [drop_im amap rs2 f_ny f_nx] in K1, K2.
  split; [exact K1|]. split; [exact K2|]. intros y x Iy Ix. rewrite K3 by assumption. reflexivity.
Qed.
(* factors: the length of an axis is multiplied and rounded to the nearest whole number *)
Lemma pyint_near n f : (0 < n)%Z -> (0 < f)%Q -> near (pyint (inject_Z n * f + (1 # 2))) (inject_Z n * f).
Proof.
  intros Hn Hf. assert (P : (0 < inject_Z n * f)%Q) by (apply Qmult_lt_0_compat; [unfold Qlt; cbn; lia|exact Hf]). unfold pyint. replace (Qle_bool 0 (inject_Z n * f + (1 # 2))) with true by (symmetry; apply Qle_bool_iff; Lqa.lra).
  pose proof (Qfloor_le (inject_Z n * f + (1 # 2))) as A. pose proof (Qlt_floor (inject_Z n * f + (1 # 2))) as B. rewrite inject_Z_plus in B. unfold near. change (inject_Z 1) with 1%Q in B. split; Lqa.lra.
Qed.
Lemma differs_close fs : Exists differs fs -> allclose1 fs = false.
Proof.
  intros H. apply not_true_is_false. intros E. unfold allclose1 in E. rewrite forallb_forall in E. apply Exists_exists in H. destruct H as (f & I & D). specialize (E f I). apply Qle_bool_iff in E.
  unfold Qabs' in E. destruct (Qle_bool 0 (f - 1)) eqn:S; [apply Qle_bool_iff in S|assert (S' : ~ (0 <= f - 1)%Q) by (intros K; apply Qle_bool_iff in K; congruence); apply Qnot_le_lt in S']; destruct D as [D|D]; Lqa.lra.
Qed.
Lemma near_self n : near n (inject_Z n * 1).
Proof. unfold near. split; Lqa.lra. Qed.
Theorem C87_factors : forall cplx axes fs fy fx d, nonempty d -> picks 1%Q 1%Q axes fs fy fx -> (0 < fy)%Q -> (0 < fx)%Q -> Exists differs fs ->
  exists axes' n my mx, resample cplx fs axes d = resample_fft cplx axes' n d /\ asks (f_ny d) (f_nx d) axes' n my mx /\
  near my (inject_Z (f_ny d) * fy) /\ near mx (inject_Z (f_nx d) * fx).
Proof.
  intros cplx axes fs fy fx d [Py Px] P Hy Hx D. unfold resample. rewrite (differs_close fs D). cbv zeta. destruct P;
  repeat match goal with H : is_y _ |- _ => destruct H as [->| ->] | H : is_x _ |- _ => destruct H as [->| ->] end; cbn [zlen length zrange combine fold_right bind pick2 fst snd];
  (eexists; eexists; eexists; eexists; split; [reflexivity|]; split; [apply asks_each; constructor; (left; reflexivity) || (right; reflexivity)|]);
  split; (apply near_self || (apply pyint_near; assumption)).
Qed.
(* factors that do not differ from 1 by more than 0.00001: the same array *)
Theorem C87_factors_one : forall cplx axes fs d, Forall (fun f => ~ differs f) fs -> resample cplx fs axes d = Some d.
Proof.
  intros cplx axes fs d H. unfold resample. replace (allclose1 fs) with true; [reflexivity|]. symmetry. unfold allclose1. apply forallb_forall. intros f I. rewrite Forall_forall in H. specialize (H f I).
  apply Qle_bool_iff. unfold Qabs', differs in *. apply Decidable.not_or in H. destruct H as [H1 H2]. apply Qnot_lt_le in H1, H2. destruct (Qle_bool 0 (f - 1)); Lqa.lra.
Qed.

Example C87_ex : asks 4 6 (Some [1%Z; -2]%Z) [9%Z; 8%Z] 8 9 /\ ~ looks_done 4 6 (Some [1%Z; -2]%Z) [9%Z; 8%Z] /\ ~ only_x (Some [1%Z; -2]%Z) [9%Z; 8%Z] /\ band (Z.min 4 8) (Z.min 6 9) [(RtoC 2, 1%Z, (-2)%Z)] /\
  picks 1%Q 1%Q None [1 # 3]%Q 1%Q (1 # 3)%Q /\ Exists differs [1 # 3]%Q.
Proof.
  split; [apply asks_each, picks_xy; [left|right]; reflexivity|]. split; [cbn; lia|]. split; [cbn; tauto|]. split; [repeat constructor; cbn; lia|]. split; [constructor|]. constructor. left. reflexivity.
Qed.
Print Assumptions C87_fft_partial. Print Assumptions C87_trig_partial. Print Assumptions C87_factors.
