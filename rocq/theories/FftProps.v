(* C80: forward and inverse Fourier transforms undo each other, have the right values, norms and adjoints. *)
From Coq Require Import Reals Lra Lia.
From Coquelicot Require Import Complex.
From Verif Require Import Base SliceSpec ArrModel PixModel FftSpec FftModel FftLemmas FftLemmas2 FftLemmas3 FftLemmas4.
Ltac Zify.zify_post_hook ::= idtac.
Open Scope R_scope. Open Scope C_scope.

(* the number of samples along the transformed axes *)
Definition nsamples (ax : axes) (a : farr C) : Z := ((if has_y ax then f_ny a else 1) * (if has_x ax then f_nx a else 1))%Z.
Lemma nsamples_nprod ax a : nsamples ax a = nprod ax a.
Proof. destruct ax; unfold nsamples; cbn [has_y has_x nprod]; ring. Qed.

(* fft then ifft gives the array back, over one axis or both, and without normalize the array times the number of samples *)
Theorem C80_inverse : forall ax a, nonempty a -> exists f, fft ax a = Some f /\ f_ny f = f_ny a /\ f_nx f = f_nx a /\
  oaeq (ifft true ax f) a /\ oaeq (ifft false ax f) (amap (fun z => z * RtoC (IZR (nsamples ax a))) a).
Proof.
  intros ax a H. exists (dft_ax (-1) ax a). rewrite fft_some by exact H. rewrite !ifft_some by (apply dft_ax_ne, H). cbn [oaeq].
  rewrite (nprod_shape ax (dft_ax (-1) ax a) a) by (rewrite ?dft_ax_ny, ?dft_ax_nx; reflexivity). rewrite dft_ax_ny, dft_ax_nx, nsamples_nprod.
  repeat (split; [reflexivity|]). split; [apply ifft_fft, H|]. apply (dft_ax_inv 1); auto.
Qed.
(* and the other way round *)
Theorem C80_backward : forall ax f, nonempty f -> exists a, ifft true ax f = Some a /\ oaeq (fft ax a) f.
Proof.
  intros ax a H. rewrite ifft_some by exact H. eexists. split; [reflexivity|]. rewrite fft_some by (apply scale_ne, dft_ax_ne, H). apply fft_ifft, H.
Qed.

(* the transform of a wave exp(2 pi i (ky y/ny + kx x/nx)) is zero except at the index of its frequency, counted modulo the size *)
Theorem C80_modes : forall ny nx c ky kx, (0 < ny)%Z -> (0 < nx)%Z ->
  oaeq (fft AXY (sampled ny nx 0 0 (trig [(c, ky, kx)])))
       (FA ny nx (fun i j => if ((i =? ky mod ny) && (j =? kx mod nx))%Z then c * RtoC (IZR (ny * nx)) else 0)).
Proof.
  intros ny nx c ky kx Hy Hx. rewrite fft_some by (split; assumption). cbn [oaeq]. split; [reflexivity|]. split; [reflexivity|].
  cbn [f_ny f_nx f_at dft_ax dft_y dft_x sampled]. intros i j Hi Hj.
  rewrite (dft_ext (-1) ny _ (fun y => (if (j =? kx mod nx)%Z then c * RtoC (IZR nx) else 0) * w ny (ky * y))).
  - rewrite dft_mode by auto. replace (- -1 * ky)%Z with ky by lia. rewrite mult_IZR, RtoC_mult. destruct (i =? _)%Z, (j =? _)%Z; cbn [andb]; ring.
  - intros y Hj'. rewrite (dft_ext (-1) nx _ (fun x => c * w ny (ky * y) * w nx (kx * x))).
    + rewrite dft_mode by auto. replace (- -1 * kx)%Z with kx by lia. destruct (j =? _)%Z; ring.
    + intros x _. rewrite trig_cons, cis_prod. cbn [trig fold_right]. rewrite !w_as by assumption. rewrite !Rplus_0_r. ring.
Qed.

(* the spectrum of a real array is conjugate symmetric *)
Theorem C80_hermitian : forall a f, nonempty a -> is_real a -> fft AXY a = Some f -> forall y x, (0 <= y < f_ny a)%Z -> (0 <= x < f_nx a)%Z ->
  f_at f ((- y) mod f_ny a)%Z ((- x) mod f_nx a)%Z = Cconj (f_at f y x).
Proof.
  intros a f H R E y x Hy Hx. rewrite fft_some in E by exact H. injection E as <-. cbn [dft_ax dft_y dft_x f_at f_ny f_nx]. destruct H as [Py Px].
  rewrite dft_mod by exact Py. rewrite dft_conj by exact Py. unfold dft at 1 3. apply csum_ext. intros j Hj. rewrite dft_mod by exact Px.
  rewrite dft_real_neg by (try exact Px; intros; apply R; assumption). f_equal. f_equal. lia.
Qed.

(* real transforms: rfft holds the first nx//2+1 columns of the full transform, and irfft with the length given undoes it *)
Theorem C80_real : forall a, nonempty a -> is_real a -> exists h f, rfft a = Some h /\ fft AX a = Some f /\ f_ny h = f_ny a /\ f_nx h = (f_nx a / 2 + 1)%Z /\
  (forall y x, (0 <= y < f_ny h)%Z -> (0 <= x < f_nx h)%Z -> f_at h y x = f_at f y x) /\ oaeq (irfft (f_nx a) true h) a.
Proof.
  intros a H R. unfold rfft. rewrite asize_pos by exact H. rewrite fft_some by exact H. do 2 eexists. do 2 (split; [reflexivity|]). do 3 (split; [reflexivity|]).
  unfold irfft. destruct H as [Py Px]. replace (f_nx a =? 0)%Z with false by lia. rewrite asize_pos by (split; cbn [f_ny f_nx]; [exact Py|pose proof (Z.div_pos (f_nx a) 2); lia]).
  cbn [oaeq]. split; [reflexivity|]. split; [reflexivity|]. cbn [scale amap f_at f_ny f_nx dft_x]. intros y x Hy Hx.
  rewrite c2r_rfft by (auto; intros; apply R; assumption). field. apply Cn0, Px.
Qed.
(* without the length, the result has it only if it was even *)
Theorem C80_real_length_partial : forall a h, nonempty a -> is_real a -> rfft a = Some h ->
  (Z.even (f_nx a) = true -> (1 < f_nx a)%Z -> oaeq (irfft 0 true h) a) /\ (Z.even (f_nx a) = false -> exists b, irfft 0 true h = Some b /\ f_nx b = (f_nx a - 1)%Z).
Proof.
  intros a h H R E. destruct (C80_real a H R) as (h' & f & E' & _ & Ny & Nx & _ & I). rewrite E in E'. apply Some_inj in E'. subst h'.
  pose proof (Z.div_mod (f_nx a) 2 ltac:(lia)) as D. split; intros P.
  - intros L. rewrite <- Z.negb_odd in P. pose proof (Zmod_odd (f_nx a)) as O. destruct (Z.odd (f_nx a)); [discriminate|].
    unfold irfft in *. cbn [Z.eqb]. replace ((f_nx h - 1) * 2)%Z with (f_nx a) by lia. replace (f_nx a =? 0)%Z with false in I by lia. exact I.
  - pose proof (Zmod_odd (f_nx a)) as O. rewrite <- Z.negb_odd in P. destruct (Z.odd (f_nx a)); [|discriminate]. destruct H as [Py Px].
    unfold irfft. rewrite asize_pos by (split; lia). eexists. split; [reflexivity|]. cbn [Z.eqb scale amap f_nx]. lia.
Qed.

(* fft and ifft of maps: inverses with normalize=True and "phys", a factor of the number of pixels without *)
Theorem C80_map_inverse : forall nrm p a, nonempty a -> (0 < p)%R ->
  oaeq (bind (emap_fft nrm false p a) (emap_ifft nrm false p)) (match nrm with NoNorm => amap (fun z => z * RtoC (IZR (f_ny a * f_nx a))) a | _ => a end) /\
  oaeq (bind (emap_ifft nrm false p a) (emap_fft nrm false p)) (match nrm with NoNorm => amap (fun z => z * RtoC (IZR (f_ny a * f_nx a))) a | _ => a end).
Proof.
  intros nrm p a H Hp. pose proof (nprod_pos AXY a H) as NP. apply IZR_lt in NP. change (0 < IZR (nprod AXY a))%R in NP.
  pose proof (sqrt_lt_R0 _ NP) as SN. pose proof (sqrt_lt_R0 _ Hp) as SP.
  assert (K : forall c d : R, (c * d * IZR (nprod AXY a) = match nrm with NoNorm => IZR (f_ny a * f_nx a) | _ => 1 end)%R -> forall s, (s = 1 \/ s = -1)%Z ->
     aeq (scale (RtoC d) (dft_ax s AXY (scale (RtoC c) (dft_ax (- s) AXY a)))) (match nrm with NoNorm => amap (fun z => z * RtoC (IZR (f_ny a * f_nx a))) a | _ => a end)).
  { intros c d E s Hs. eapply aeq_trans; [apply scale_ext, dft_ax_scale|]. eapply aeq_trans; [apply scale_ext, scale_ext, dft_ax_inv; [exact Hs|exact H]|].
    eapply aeq_trans; [apply scale_scale|]. eapply aeq_trans; [apply scale_scale|].
    assert (E' : RtoC (IZR (nprod AXY a)) * (RtoC c * RtoC d) = RtoC (match nrm with NoNorm => IZR (f_ny a * f_nx a) | _ => 1 end)) by (rewrite <- E, !RtoC_mult; ring). rewrite E'.
    destruct nrm; [apply aeq_refl|apply scale_1|apply scale_1]. }
  unfold emap_fft, emap_ifft. rewrite fft_some, ifft_some by exact H. cbn [bind]. rewrite ifft_some, fft_some by (apply scale_ne, dft_ax_ne, H). cbn [bind oaeq].
  rewrite !(nprod_shape AXY (scale _ _) a) by reflexivity.
  assert (Q : forall f g : R, (f * g = 1)%R -> (enorm nrm (nprod AXY a) f * enorm nrm (nprod AXY a) g * IZR (nprod AXY a) = match nrm with NoNorm => IZR (f_ny a * f_nx a) | _ => 1 end)%R).
  { intros f g FG. pose proof (sqrt_sqrt (IZR (nprod AXY a)) ltac:(lra)) as SS. destruct nrm; cbn [enorm].
    - cbn [nprod]. lra.
    - set (q := sqrt _) in *. rewrite <- SS. field. lra.
    - set (q := sqrt (IZR _)) in *. rewrite <- SS. transitivity (f * g)%R; [field; lra|exact FG]. }
  split; [apply (K _ _ (Q (sqrt p) (/ sqrt p)%R ltac:(field; lra)) 1%Z); auto|apply (K _ _ (Q (/ sqrt p)%R (sqrt p) ltac:(field; lra)) (-1)%Z); auto].
Qed.
(* with normalize=True the transform keeps inner products, so also the total power *)
Theorem C80_unitary : forall p a b fa fb, nonempty a -> f_ny b = f_ny a -> f_nx b = f_nx a ->
  emap_fft Pix false p a = Some fa -> emap_fft Pix false p b = Some fb -> inner fa fb = inner a b.
Proof.
  intros p a b fa fb H By Bx Ea Eb. assert (Hb : nonempty b) by (split; [rewrite By|rewrite Bx]; apply H).
  unfold emap_fft in *. rewrite fft_some in Ea, Eb by assumption. cbn [bind enorm] in *. apply Some_inj in Ea. apply Some_inj in Eb. subst fa fb.
  pose proof (nprod_pos AXY a H) as NP. apply IZR_lt in NP. change (0 < IZR (nprod AXY a))%R in NP. pose proof (sqrt_lt_R0 _ NP) as SN.
  rewrite inner_scale_r, inner_scale_l. rewrite dft_ax_dot by (assumption || (cbn; congruence)). rewrite (nprod_shape AXY b a) by assumption.
  pose proof (dft_ax_inv 1 AXY b (or_introl eq_refl) Hb) as K. change (- (1))%Z with (-1)%Z in K. change (- -1)%Z with 1%Z.
  rewrite (inner_ext a _ a (scale (RtoC (IZR (nprod AXY b))) b) (aeq_refl a) K) by (cbn; congruence).
  rewrite inner_scale_r. rewrite (nprod_shape AXY b a) by assumption.
  transitivity (inner a b * (RtoC (IZR (nprod AXY a)) * RtoC (/ sqrt (IZR (nprod AXY a))) * RtoC (/ sqrt (IZR (nprod AXY a))))); [ring|].
  rewrite <- !RtoC_mult. replace (IZR (nprod AXY a) * / sqrt (IZR (nprod AXY a)) * / sqrt (IZR (nprod AXY a)))%R with 1%R; [ring|].
  pose proof (sqrt_sqrt (IZR (nprod AXY a)) ltac:(lra)) as SS. set (q := sqrt _) in *. rewrite <- SS. field. lra.
Qed.
(* fft_adjoint and ifft_adjoint are the adjoints, in every normalization *)
Theorem C80_adjoint : forall nrm p a b, nonempty a -> f_ny b = f_ny a -> f_nx b = f_nx a ->
  (exists fa gb, emap_fft nrm false p a = Some fa /\ emap_ifft nrm true p b = Some gb /\ inner fa b = inner a gb) /\
  (exists fa gb, emap_ifft nrm false p a = Some fa /\ emap_fft nrm true p b = Some gb /\ inner fa b = inner a gb).
Proof.
  intros nrm p a b H By Bx. assert (Hb : nonempty b) by (split; [rewrite By|rewrite Bx]; apply H).
  unfold emap_fft, emap_ifft. rewrite !fft_some, !ifft_some by assumption. cbn [bind]. rewrite (nprod_shape AXY b a) by assumption.
  split; do 2 eexists; (split; [reflexivity|]); (split; [reflexivity|]); rewrite inner_scale_l, inner_scale_r; f_equal; apply dft_ax_dot; (assumption || (cbn; congruence)).
Qed.
(* an empty array has no transform: the functions return None *)
Theorem C80_empty : forall ax nz a, asize a = 0%Z -> fft ax a = None /\ ifft nz ax a = None /\ rfft a = None.
Proof. intros ax nz a E. unfold fft, ifft, rfft. rewrite E. auto. Qed.

Definition ar13 : farr C := FA 1 3 (fun _ x => RtoC (IZR x)).
Example C80_ex : nonempty ar13 /\ is_real ar13 /\ Z.even (f_nx ar13) = false /\ (exists f, emap_fft Phys false 2 ar13 = Some f) /\
  (exists f, fft AXY ar13 = Some f /\ f_at f 0%Z 0%Z = RtoC 3) /\ inner ar13 ar13 = RtoC 5.
Proof.
  split; [split; cbn; lia|]. split; [intros y x _ _; reflexivity|]. split; [reflexivity|]. split; [eexists; reflexivity|]. split.
  - eexists. split; [reflexivity|]. cbn [dft_ax dft_y dft_x f_at f_ny f_nx ar13]. unfold dft. rewrite csum_1, csum_3, w_1.
    change (w 3 (-1 * (1 * 0))) with (w 3 0). change (w 3 (-1 * (2 * 0))) with (w 3 0). change (w 3 (-1 * (0 * 0))) with (w 3 0). rewrite w_0 by lia. apply injective_projections; cbn; ring.
  - unfold inner, csum2. cbn [f_ny f_nx ar13]. rewrite csum_1, csum_3. apply injective_projections; cbn; ring.
Qed.
Print Assumptions C80_inverse. Print Assumptions C80_unitary. Print Assumptions C80_adjoint.
