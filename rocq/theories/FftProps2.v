(* C82: shifting by whole and fractional pixels. *)
From Coq Require Import Reals Qreals Lra Lia.
From Coquelicot Require Import Coquelicot.
From Verif Require Import Base SliceSpec ArrModel PixModel FftSpec FftModel FftLemmas FftLemmas2 FftLemmas3 FftLemmas4 FftLemmas5.
Ltac Zify.zify_post_hook ::= idtac.
Open Scope R_scope. Open Scope C_scope.

Lemma shift_at cplx ax sy sx dy dx a : nonempty a -> exists b, shift cplx ax sy sx dy dx false a = Some b /\ f_ny b = f_ny a /\ f_nx b = f_nx a /\
  forall y x, (0 <= y < f_ny a)%Z -> (0 <= x < f_nx a)%Z ->
  f_at b y x = let v := sh1 (f_ny a) (py_of ax (f_ny a) sy dy) (fun j => sh1 (f_nx a) (px_of ax (f_nx a) sx dx) (f_at a j) x) y in if cplx then v else RtoC (Re v).
Proof.
  intros H. destruct (shift_cases cplx ax sy sx dy dx a H) as (b & E & E'). exists (drop_im cplx b). split; [exact E'|].
  pose proof (shift_spec ax sy sx dy dx a H) as K. rewrite E in K. cbn [oaeq] in K. destruct K as (Ny & Nx & V). rewrite filt_ny in Ny. rewrite filt_nx in Nx.
  split; [destruct cplx; exact Ny|]. split; [destruct cplx; exact Nx|]. intros y x Hy Hx. rewrite <- Ny in Hy. rewrite <- Nx in Hx. specialize (V y x Hy Hx). rewrite Ny in Hy. rewrite Nx in Hx.
  unfold py_of, px_of in *. rewrite filt_at in V by assumption. cbv zeta. destruct cplx; cbn [drop_im amap f_at]; rewrite V; reflexivity.
Qed.
Lemma sh1_pick_int b n s a j : (0 < n)%Z -> (0 <= j < n)%Z -> sh1 n (pick b (phase n (IZR s) false)) a j = a ((j - (if b then s else 0)) mod n)%Z.
Proof. intros Hn Hj. destruct b; cbn [pick]; [apply sh1_int, Hn|]. rewrite sh1_one by assumption. rewrite Z.sub_0_r, Z.mod_small by exact Hj. reflexivity. Qed.

(* a whole number of pixels: elements are moved, those that leave come back on the other side *)
Theorem C82_integer : forall cplx ax sy sx a, nonempty a -> (cplx = false -> is_real a) ->
  oaeq (shift cplx ax (IZR sy) (IZR sx) false false false a) (rolled (if has_y ax then sy else 0%Z) (if has_x ax then sx else 0%Z) a).
Proof.
  intros cplx ax sy sx a H R. destruct (shift_at cplx ax (IZR sy) (IZR sx) false false a H) as (b & E & Ny & Nx & V). rewrite E. cbn [oaeq].
  split; [exact Ny|]. split; [exact Nx|]. rewrite Ny, Nx. intros y x Hy Hx. rewrite V by assumption. cbv zeta. destruct H as [Py Px].
  unfold py_of, px_of. rewrite sh1_pick_int by assumption. rewrite sh1_pick_int by assumption. cbn [rolled f_at]. destruct cplx; [reflexivity|]. apply real_re. apply R; [reflexivity| |]; apply Z.mod_pos_bound; assumption.
Qed.

(* any amount: a band-limited pattern is sampled where the pixels were before they moved. Real arrays give real results. *)
Theorem C82_trig : forall cplx ms ny nx oy ox sy sx, (0 < ny)%Z -> (0 < nx)%Z -> band ny nx ms ->
  oaeq (shift cplx AXY sy sx false false false (sampled ny nx oy ox (trig ms)))
       (sampled ny nx (oy - sy) (ox - sx) (fun u v => if cplx then trig ms u v else RtoC (Re (trig ms u v)))).
Proof.
  intros cplx ms ny nx oy ox sy sx Hy Hx HB.
  destruct (shift_at cplx AXY sy sx false false (sampled ny nx oy ox (trig ms)) (conj Hy Hx)) as (b & E & Ny & Nx & V). rewrite E. cbn [oaeq].
  split; [exact Ny|]. split; [exact Nx|]. rewrite Ny, Nx. cbn [sampled f_ny f_nx] in *. intros y x Iy Ix. rewrite V by assumption. cbv zeta. cbn [sampled f_at py_of px_of has_y has_x pick].
  rewrite sh1_trig by assumption. unfold Rminus. rewrite <- !Rplus_assoc. reflexivity.
Qed.

(* shifts add up: for complex arrays, and for real ones along axes of odd size *)
Theorem C82_add_partial : forall cplx ax sy sx ty tx a, nonempty a ->
  (cplx = false -> is_real a /\ (has_y ax = true -> Z.odd (f_ny a) = true) /\ (has_x ax = true -> Z.odd (f_nx a) = true)) ->
  exists b c, shift cplx ax sy sx false false false a = Some b /\ shift cplx ax (sy + ty) (sx + tx) false false false a = Some c /\
  oaeq (shift cplx ax ty tx false false false b) c.
Proof.
  intros cplx ax sy sx ty tx a H R. destruct (shift_cases cplx ax sy sx false false a H) as (b & Eb & Eb'). destruct (shift_cases cplx ax (sy + ty) (sx + tx) false false a H) as (c & Ec & Ec').
  rewrite Eb', Ec'. do 2 eexists. split; [reflexivity|]. split; [reflexivity|].
  pose proof (shift_spec ax sy sx false false a H) as Kb. rewrite Eb in Kb. pose proof (shift_spec ax (sy + ty) (sx + tx) false false a H) as Kc. rewrite Ec in Kc. cbn [oaeq] in Kb, Kc.
  assert (B : aeq (drop_im cplx b) b).
  { destruct cplx; [apply aeq_refl|]. apply drop_im_real. apply (is_real_ext _ _ (aeq_sym _ _ Kb)). destruct (R eq_refl) as (Ra & Oy & Ox). destruct H as [Py Px]. apply filt_real; [split; assumption| | |exact Ra].
    - destruct (has_y ax) eqn:Ey; [apply psym_phase; auto|apply psym_one].
    - destruct (has_x ax) eqn:Ex; [apply psym_phase; auto|apply psym_one]. }
  assert (Hb : nonempty (drop_im cplx b)) by (destruct B as (B1 & B2 & _), Kb as (K1 & K2 & _); rewrite filt_ny in K1; rewrite filt_nx in K2; split; [rewrite B1, K1|rewrite B2, K2]; apply H).
  destruct (shift_cases cplx ax ty tx false false _ Hb) as (d & Ed & Ed'). rewrite Ed'. cbn [oaeq]. apply drop_im_ext.
  pose proof (shift_spec ax ty tx false false _ Hb) as Kd. rewrite Ed in Kd. cbn [oaeq] in Kd.
  eapply aeq_trans; [exact Kd|]. eapply aeq_trans; [|apply aeq_sym, Kc].
  assert (B' : aeq (drop_im cplx b) (filt ax (py_of ax (f_ny a) sy false) (px_of ax (f_nx a) sx false) a)) by (eapply aeq_trans; [exact B|exact Kb]).
  assert (Sy : f_ny (drop_im cplx b) = f_ny a) by (rewrite (proj1 B'); apply filt_ny). assert (Sx : f_nx (drop_im cplx b) = f_nx a) by (rewrite (proj1 (proj2 B')); apply filt_nx). rewrite Sy, Sx.
  eapply aeq_trans; [eapply filt_ext; [exact B'|intros; reflexivity|intros; reflexivity]|]. eapply aeq_trans; [apply filt_filt, H|]. apply filt_ext; [apply aeq_refl| |].
  - intros y _. unfold py_of. destruct (has_y ax); cbn [pick]; [symmetry; apply phase_plus|unfold one; ring].
  - intros x _. unfold px_of. destruct (has_x ax); cbn [pick]; [symmetry; apply phase_plus|unfold one; ring].
Qed.
(* real arrays of even size lose their highest frequency: two half-pixel shifts of [1,-1] give [0,0], one whole pixel gives [-1,1] *)
Definition alt2 : farr C := FA 1 2 (fun _ x => if (x =? 0)%Z then RtoC 1 else RtoC (-1)).
Theorem C82_add_refuted : is_real alt2 /\ exists b c d, shift false AX 0 (1 / 2) false false false alt2 = Some b /\ shift false AX 0 (1 / 2) false false false b = Some c /\
  shift false AX 0 (1 / 2 + 1 / 2) false false false alt2 = Some d /\ f_at c 0%Z 0%Z = RtoC 0 /\ f_at d 0%Z 0%Z = RtoC (-1).
Proof.
  assert (Ra : is_real alt2) by (intros y x _ _; cbn; destruct (x =? 0)%Z; reflexivity). split; [exact Ra|].
  assert (H : nonempty alt2) by (split; cbn; lia). destruct (shift_at false AX 0 (1 / 2) false false alt2 H) as (b & E & Ny & Nx & V).
  assert (Vb : forall x, (0 <= x < 2)%Z -> f_at b 0%Z x = RtoC 0).
  { intros x Hx. rewrite V by (cbn; lia). cbv zeta. cbn [py_of px_of has_y has_x pick f_ny f_nx alt2]. rewrite sh1_one by lia. cbn [f_at].
    unfold sh1. rewrite (dft_ext 1 2 _ (fun k => Ci * (if (k =? 1)%Z then RtoC 2 else 0))).
    - unfold dft. rewrite csum_2, !w_2. change (0 =? 1)%Z with false. change (1 =? 1)%Z with true. cbv iota.
      apply injective_projections; [|reflexivity]. destruct (Z.even (1 * (0 * x))), (Z.even (1 * (1 * x))); cbn; field.
    - intros k Hk. assert (E2 : (k = 0 \/ k = 1)%Z) by lia. unfold dft. rewrite csum_2, !w_2. unfold phase, fftfreq. cbv zeta.
      destruct E2 as [-> | ->].
      + change (Z.even (-1 * (0 * 0))) with true. change (Z.even (-1 * (1 * 0))) with true. cbn [f_at alt2 Z.eqb]. apply injective_projections; cbn; ring.
      + change (1 <? (2 - 1) / 2 + 1)%Z with false. change (Z.even (-1 * (0 * 1))) with true. change (Z.even (-1 * (1 * 1))) with false. change (1 - 2)%Z with (-1)%Z. cbv iota. cbn [f_at alt2 Z.eqb].
        replace (-2 * PI * (-1 / 2) * (1 / 2))%R with (PI / 2)%R by field. unfold cis. rewrite cos_PI2, sin_PI2. apply injective_projections; cbn; ring. }
  assert (Hb : nonempty b) by (split; [rewrite Ny|rewrite Nx]; cbn; lia).
  destruct (shift_at false AX 0 (1 / 2) false false b Hb) as (c & E1 & Ny1 & Nx1 & V1).
  pose proof (C82_integer false AX 0 1 alt2 H (fun _ => Ra)) as K.
  replace (1 / 2 + 1 / 2)%R with (IZR 1) by (cbn; field). destruct (shift false AX 0 (IZR 1) false false false alt2) as [d|] eqn:Ed; [|contradiction].
  exists b, c, d. split; [exact E|]. split; [exact E1|]. split; [reflexivity|]. split.
  - rewrite V1 by (rewrite ?Ny, ?Nx; cbn; lia). cbv zeta. rewrite Ny, Nx. cbn [py_of px_of has_y has_x pick f_ny f_nx alt2]. rewrite sh1_one by lia.
    rewrite (sh1_ext 2 _ (phase 2 (1 / 2) false) (f_at b 0%Z) (fun _ => RtoC 0)) by (auto; intros; apply Vb; assumption). rewrite sh1_0. reflexivity.
  - destruct K as (K1 & K2 & K3). rewrite K3 by (rewrite ?K1, ?K2; cbn; lia). reflexivity.
Qed.

(* deriv gives the derivative of the shifted array with respect to the shift of that axis *)
Definition shifted_at cplx ax sy sx a y x : C := match shift cplx ax sy sx false false false a with Some b => f_at b y x | None => 0 end.
Lemma has_deriv_of f s l : cderive f s l -> has_derivative f s l.
Proof. intros [A B]. split; apply is_derive_Reals; assumption. Qed.
Lemma cderive_re f s l : cderive f s l -> cderive (fun t => RtoC (Re (f t))) s (RtoC (Re l)).
Proof. intros [A B]. split; cbn; [exact A|apply @is_derive_const]. Qed.
Theorem C82_derivative : forall cplx ax s sy sx a y x, nonempty a -> (0 <= y < f_ny a)%Z -> (0 <= x < f_nx a)%Z ->
  (has_x ax = true -> exists b, shift cplx ax sy s false true false a = Some b /\ has_derivative (fun t => shifted_at cplx ax sy t a y x) s (f_at b y x)) /\
  (has_y ax = true -> exists b, shift cplx ax s sx true false false a = Some b /\ has_derivative (fun t => shifted_at cplx ax t sx a y x) s (f_at b y x)).
Proof.
  intros cplx ax s sy sx a y x H Hy Hx. split; intros A.
  - destruct (shift_at cplx ax sy s false true a H) as (b & E & Ny & Nx & V). exists b. split; [exact E|]. apply has_deriv_of. rewrite V by assumption. cbv zeta.
    apply (cderive_ext (fun t => let v := sh1 (f_ny a) (py_of ax (f_ny a) sy false) (fun j => sh1 (f_nx a) (px_of ax (f_nx a) t false) (f_at a j) x) y in if cplx then v else RtoC (Re v))).
    + intros t. unfold shifted_at. destruct (shift_at cplx ax sy t false false a H) as (c & E' & _ & _ & V'). rewrite E'. rewrite V' by assumption. reflexivity.
    + cbv zeta. unfold px_of. rewrite A. cbn [pick].
      assert (D : cderive (fun t => sh1 (f_ny a) (py_of ax (f_ny a) sy false) (fun j => sh1 (f_nx a) (phase (f_nx a) t false) (f_at a j) x) y) s (sh1 (f_ny a) (py_of ax (f_ny a) sy false) (fun j => sh1 (f_nx a) (phase (f_nx a) s true) (f_at a j) x) y)).
      { apply (cderive_sh1_arg (f_ny a) _ (fun t j => sh1 (f_nx a) (phase (f_nx a) t false) (f_at a j) x)). intros i. apply cderive_sh1. intros k. apply cderive_phase. }
      destruct cplx; [exact D|apply cderive_re, D].
  - destruct (shift_at cplx ax s sx true false a H) as (b & E & Ny & Nx & V). exists b. split; [exact E|]. apply has_deriv_of. rewrite V by assumption. cbv zeta.
    apply (cderive_ext (fun t => let v := sh1 (f_ny a) (py_of ax (f_ny a) t false) (fun j => sh1 (f_nx a) (px_of ax (f_nx a) sx false) (f_at a j) x) y in if cplx then v else RtoC (Re v))).
    + intros t. unfold shifted_at. destruct (shift_at cplx ax t sx false false a H) as (c & E' & _ & _ & V'). rewrite E'. rewrite V' by assumption. reflexivity.
    + cbv zeta. unfold py_of. rewrite A. cbn [pick].
      assert (D : cderive (fun t => sh1 (f_ny a) (phase (f_ny a) t false) (fun j => sh1 (f_nx a) (px_of ax (f_nx a) sx false) (f_at a j) x) y) s (sh1 (f_ny a) (phase (f_ny a) s true) (fun j => sh1 (f_nx a) (px_of ax (f_nx a) sx false) (f_at a j) x) y)).
      { apply cderive_sh1. intros k. apply cderive_phase. }
      destruct cplx; [exact D|apply cderive_re, D].
Qed.

(* enmap.shift with two offsets: pixels are moved, and every pixel that does not wrap around keeps its place on the sky *)
Theorem C82_map_shift : forall (A : Type) (m : fmap A) oy ox keepwcs, nonempty (fm_arr m) -> exists o, map_shift keepwcs [oy; ox] m = Some o /\
  aeq (fm_arr o) (rolled oy ox (fm_arr m)) /\ (keepwcs = true -> fm_wcs o = fm_wcs m) /\
  (keepwcs = false -> forall p, (sky_y (fm_wcs o) (p + inject_Z oy) == sky_y (fm_wcs m) p)%Q /\ (sky_x (fm_wcs o) (p + inject_Z ox) == sky_x (fm_wcs m) p)%Q).
Proof.
  intros A m oy ox kw [Py Px]. eexists. split; [reflexivity|]. cbn [fm_arr fm_wcs]. split.
  - split; [destruct (ox =? 0)%Z, (oy =? 0)%Z; reflexivity|]. split; [destruct (ox =? 0)%Z, (oy =? 0)%Z; reflexivity|].
    intros y x Hy Hx. assert (Hy' : (0 <= y < f_ny (fm_arr m))%Z) by (destruct (ox =? 0)%Z, (oy =? 0)%Z; exact Hy). assert (Hx' : (0 <= x < f_nx (fm_arr m))%Z) by (destruct (ox =? 0)%Z, (oy =? 0)%Z; exact Hx). clear Hy Hx.
    cbn [rolled f_at]. destruct (ox =? 0)%Z eqn:Ex, (oy =? 0)%Z eqn:Ey; cbn [roll_x roll_y f_at f_ny f_nx];
      try (apply Z.eqb_eq in Ex; subst ox; rewrite (Z.sub_0_r x), (Z.mod_small x) by exact Hx'); try (apply Z.eqb_eq in Ey; subst oy; rewrite (Z.sub_0_r y), (Z.mod_small y) by exact Hy'); reflexivity.
  - split; [intros ->; reflexivity|]. intros -> p. unfold sky_y, sky_x, sky_at, add_crpix. cbn. split; ring.
Qed.
(* a single offset moves the pixels along the last axis, but the whole wcs along both *)
Theorem C82_map_shift_scalar_refuted : exists (m o : fmap Z), map_shift false [1%Z] m = Some o /\
  (forall y x, (0 <= y < 2)%Z -> (0 <= x < 2)%Z -> f_at (fm_arr o) y x = f_at (rolled 0 1 (fm_arr m)) y x) /\ ~ (sky_y (fm_wcs o) 0 == sky_y (fm_wcs m) 0)%Q.
Proof.
  exists (FM (FA 2 2 (fun y x => (2 * y + x)%Z)) (Wcs 0 1 1 0 1 1)). eexists. split; [reflexivity|]. split.
  - intros y x Hy Hx. cbn. rewrite Z.sub_0_r, (Z.mod_small y) by exact Hy. reflexivity.
  - cbn. unfold Qeq. cbn. lia.
Qed.
(* fractional_shift of a band-limited pattern: the value at a pixel is the pattern's at the place the pixel has on the sky *)
Theorem C82_map_fractional : forall ms ny nx gy gx oy ox v, (0 < ny)%Z -> (0 < nx)%Z -> band ny nx ms ->
  exists o, map_fshift false false oy ox (FM (sampled ny nx gy gx (trig ms)) v) = Some o /\ f_ny (fm_arr o) = ny /\ f_nx (fm_arr o) = nx /\
  forall y x, (0 <= y < ny)%Z -> (0 <= x < nx)%Z ->
    let py := (inject_Z y - oy)%Q in let px := (inject_Z x - ox)%Q in
    f_at (fm_arr o) y x = RtoC (Re (trig ms ((Q2R py + gy) / IZR ny) ((Q2R px + gx) / IZR nx))) /\
    (sky_y (fm_wcs o) (inject_Z y) == sky_y v py)%Q /\ (sky_x (fm_wcs o) (inject_Z x) == sky_x v px)%Q.
Proof.
  intros ms ny nx gy gx oy ox v Hy Hx HB. pose proof (C82_trig false ms ny nx gy gx (Q2R oy) (Q2R ox) Hy Hx HB) as K. unfold map_fshift. cbn [fm_arr fm_wcs].
  destruct (shift _ _ _ _ _ _ _ _) as [b|]; [|contradiction]. cbn [bind]. eexists. split; [reflexivity|]. cbn [fm_arr fm_wcs]. destruct K as (K1 & K2 & K3). split; [exact K1|]. split; [exact K2|].
  intros y x Iy Ix. cbv zeta. split.
  - cbn [sampled f_ny f_nx] in K1, K2. rewrite K3 by (rewrite ?K1, ?K2; assumption). cbn [sampled f_at]. rewrite !Q2R_minus.
    assert (I : forall z, Q2R (inject_Z z) = IZR z) by (intros z; unfold Q2R; cbn; field). rewrite !I. do 2 f_equal; f_equal; f_equal; ring.
  - unfold sky_y, sky_x, sky_at, add_crpix. cbn. split; ring.
Qed.

Example C82_ex : band 4 5 [(RtoC 2, 1%Z, (-1)%Z); (Ci, 0%Z, 1%Z)] /\ nonempty (sampled 4 5 0 0 (trig [(RtoC 2, 1%Z, (-1)%Z)])) /\ is_real (FA 3 3 (fun y x => RtoC (IZR (y * x)))) /\ Z.odd 3 = true.
Proof. split; [repeat constructor; cbn; lia|]. split; [split; cbn; lia|]. split; [intros y x _ _; reflexivity|reflexivity]. Qed.
Print Assumptions C82_trig. Print Assumptions C82_derivative. Print Assumptions C82_add_partial.
