(* C102: gradients, divergences and laplacians of maps. *)
From Coq Require Import Reals Lra Lia.
From Coquelicot Require Import Coquelicot.
From Verif Require Import Base ArrModel PixModel FftSpec FftModel FftLemmas FftLemmas2 FftLemmas3 FftLemmas4 FftLemmas5 FltSpec FltModel FltLemmas FltLemmas2 GrdSpec GrdModel GrdLemmas GrdLemmas2.
Ltac Zify.zify_post_hook ::= idtac.
Open Scope R_scope. Open Scope C_scope.

(* the gradient of a map that samples a pattern below the Nyquist frequency holds its partial derivatives at every pixel *)
Theorem C102_grad : forall ny nx sy sx oy ox ms, (0 < ny)%Z -> (0 < nx)%Z -> sy <> 0%R -> sx <> 0%R -> below_all ny nx ms ->
  exists gy gx, grad sy sx (seen ny nx sy sx oy ox (field ny nx sy sx ms)) = Some (gy, gx) /\
    f_ny gy = ny /\ f_nx gy = nx /\ f_ny gx = ny /\ f_nx gx = nx /\
    forall y x, (0 <= y < ny)%Z -> (0 <= x < nx)%Z ->
      Im (f_at gy y x) = 0%R /\ derivable_pt_lim (fun p => field ny nx sy sx ms p (place sx ox x)) (place sy oy y) (Re (f_at gy y x)) /\
      Im (f_at gx y x) = 0%R /\ derivable_pt_lim (fun q => field ny nx sy sx ms (place sy oy y) q) (place sx ox x) (Re (f_at gx y x)).
Proof.
  intros ny nx sy sx oy ox ms Hy Hx Sy Sx B. set (a := seen ny nx sy sx oy ox (field ny nx sy sx ms)).
  destruct (grad_filt sy sx a) as (gy & gx & E & Ay & Ax); [split; assumption|]. exists gy, gx. split; [exact E|].
  change (f_ny a) with ny in Ay. change (f_nx a) with nx in Ax.
  pose proof (gfilt_seen (iy ny sy) (dY ny sy) ny nx sy sx oy ox ms Hy Hx Sy Sx B) as Fy.
  pose proof (gfilt_seen (ix nx sx) (dX nx sx) ny nx sy sx oy ox ms Hy Hx Sy Sx B) as Fx.
  apply drop_im_ext with (c := false) in Fy; [|intros ky kx B1 B2; unfold iy, dY; rewrite laxis_below by assumption; reflexivity|apply dY_sym].
  apply drop_im_ext with (c := false) in Fx; [|intros ky kx B1 B2; unfold ix, dX; rewrite laxis_below by assumption; reflexivity|apply dX_sym].
  pose proof (aeq_trans _ _ _ Ay Fy) as (Y1 & Y2 & Y). pose proof (aeq_trans _ _ _ Ax Fx) as (X1 & X2 & X).
  cbn [drop_im amap seen f_ny f_nx f_at] in *. rewrite Y1, Y2, X1, X2. repeat split; try reflexivity.
  - rewrite Y by congruence. reflexivity.
  - rewrite Y by congruence. apply derive_y.
  - rewrite X by congruence. reflexivity.
  - rewrite X by congruence. apply derive_x.
Qed.
Print Assumptions C102_grad.

(* the divergence of two such patterns is the sum of their partial derivatives *)
Theorem C102_div : forall ny nx sy sx oy ox ms ns, (0 < ny)%Z -> (0 < nx)%Z -> sy <> 0%R -> sx <> 0%R -> below_all ny nx ms -> below_all ny nx ns ->
  exists d, div sy sx (seen ny nx sy sx oy ox (field ny nx sy sx ms)) (seen ny nx sy sx oy ox (field ny nx sy sx ns)) = Some d /\ f_ny d = ny /\ f_nx d = nx /\
    forall y x, (0 <= y < ny)%Z -> (0 <= x < nx)%Z -> exists dy dx,
      derivable_pt_lim (fun p => field ny nx sy sx ms p (place sx ox x)) (place sy oy y) dy /\
      derivable_pt_lim (fun q => field ny nx sy sx ns (place sy oy y) q) (place sx ox x) dx /\ f_at d y x = RtoC (dy + dx).
Proof.
  intros ny nx sy sx oy ox ms ns Hy Hx Sy Sx B B'. set (a := seen ny nx sy sx oy ox (field ny nx sy sx ms)). set (b := seen ny nx sy sx oy ox (field ny nx sy sx ns)).
  destruct (div_filt sy sx a b) as (d & E & (D1 & D2 & D)); [split; assumption|reflexivity|reflexivity|]. exists d. split; [exact E|].
  change (f_ny a) with ny in *. change (f_nx a) with nx in *. cbn [drop_im amap aplus f_ny f_nx f_at] in *. rewrite D1, D2. split; [reflexivity|]. split; [reflexivity|]. intros y x Jy Jx.
  pose proof (gfilt_seen (iy ny sy) (dY ny sy) ny nx sy sx oy ox ms Hy Hx Sy Sx B) as Fy.
  pose proof (gfilt_seen (ix nx sx) (dX nx sx) ny nx sy sx oy ox ns Hy Hx Sy Sx B') as Fx.
  destruct Fy as (_ & _ & Fy); [intros ky kx B1 B2; unfold iy, dY; rewrite laxis_below by assumption; reflexivity|apply dY_sym|].
  destruct Fx as (_ & _ & Fx); [intros ky kx B1 B2; unfold ix, dX; rewrite laxis_below by assumption; reflexivity|apply dX_sym|].
  exists (field ny nx sy sx (gainedc (dY ny sy) ms) (place sy oy y) (place sx ox x)), (field ny nx sy sx (gainedc (dX nx sx) ns) (place sy oy y) (place sx ox x)).
  split; [apply derive_y|]. split; [apply derive_x|]. rewrite D by (rewrite ?D1, ?D2; assumption). fold a in Fy. fold b in Fx. rewrite Fy by assumption. rewrite Fx by assumption. reflexivity.
Qed.
Print Assumptions C102_div.

(* the laplacian is the sum of the second derivatives *)
Theorem C102_laplace : forall ny nx sy sx oy ox ms, (0 < ny)%Z -> (0 < nx)%Z -> sy <> 0%R -> sx <> 0%R -> below_all ny nx ms ->
  exists l, laplace sy sx (seen ny nx sy sx oy ox (field ny nx sy sx ms)) = Some l /\ f_ny l = ny /\ f_nx l = nx /\
    forall y x, (0 <= y < ny)%Z -> (0 <= x < nx)%Z -> exists dy dx,
      second_derivative (fun p => field ny nx sy sx ms p (place sx ox x)) (place sy oy y) dy /\
      second_derivative (fun q => field ny nx sy sx ms (place sy oy y) q) (place sx ox x) dx /\ f_at l y x = RtoC (dy + dx).
Proof.
  intros ny nx sy sx oy ox ms Hy Hx Sy Sx B. set (a := seen ny nx sy sx oy ox (field ny nx sy sx ms)).
  destruct (laplace_filt sy sx a) as (l & E & (L1 & L2 & L)); [split; assumption|]. exists l. split; [exact E|].
  change (f_ny a) with ny in *. change (f_nx a) with nx in *. cbn [drop_im amap f_ny f_nx f_at] in L1, L2, L. rewrite L1, L2. split; [reflexivity|]. split; [reflexivity|]. intros y x Jy Jx.
  set (g := fun y x => - RtoC (laxis ny sy y ^ 2 + laxis nx sx x ^ 2)) in *.
  set (G := fun ky kx => dY ny sy ky kx * dY ny sy ky kx + dX nx sx ky kx * dX nx sx ky kx).
  destruct (gfilt_seen g G ny nx sy sx oy ox ms Hy Hx Sy Sx B) as (_ & _ & F).
  { intros ky kx B1 B2. unfold g, G, dY, dX. rewrite !laxis_below by assumption. apply C_eq; unfold Re, Im, RtoC, Cplus, Cmult, Copp, Ci; cbn [fst snd]; ring. }
  { intros ky kx. unfold G. rewrite dY_sym, dX_sym, <- !Cmult_conj. destruct (dY ny sy ky kx * _), (dX nx sx ky kx * _). apply C_eq; unfold Re, Im, Cplus, Cconj; cbn [fst snd]; ring. }
  exists (field ny nx sy sx (gainedc (dY ny sy) (gainedc (dY ny sy) ms)) (place sy oy y) (place sx ox x)), (field ny nx sy sx (gainedc (dX nx sx) (gainedc (dX nx sx) ms)) (place sy oy y) (place sx ox x)).
  split; [exists (fun p => field ny nx sy sx (gainedc (dY ny sy) ms) p (place sx ox x)); split; [intros u; apply derive_y|apply derive_y]|].
  split; [exists (fun q => field ny nx sy sx (gainedc (dX nx sx) ms) (place sy oy y) q); split; [intros u; apply derive_x|apply derive_x]|].
  rewrite L by (rewrite ?L1, ?L2; assumption). fold a in F. rewrite F by assumption. unfold G. cbn [seen f_at]. rewrite field_gplus, !gainedc_comp. reflexivity.
Qed.
Print Assumptions C102_laplace.

(* summation by parts, for every real map and every real pair of maps *)
Theorem C102_adjoint : forall sy sx m vy vx gy gx d, nonempty m -> is_real m -> is_real vy -> is_real vx ->
  f_ny vy = f_ny m -> f_nx vy = f_nx m -> f_ny vx = f_ny m -> f_nx vx = f_nx m ->
  grad sy sx m = Some (gy, gx) -> div sy sx vy vx = Some d -> inner gy vy + inner gx vx = - inner m d.
Proof.
  intros sy sx m vy vx gy gx d H Rm Ry Rx Vy1 Vy2 Vx1 Vx2 EG ED.
  assert (Hy : nonempty vy) by (destruct H; split; congruence).
  destruct (grad_filt sy sx m H) as (gy' & gx' & EG' & Ay & Ax). rewrite EG in EG'. assert (gy' = gy) by congruence. assert (gx' = gx) by congruence. subst gy' gx'.
  destruct (div_filt sy sx vy vx Hy ltac:(congruence) ltac:(congruence)) as (d' & ED' & AD). assert (d' = d) by congruence. subst d'.
  rewrite (inner_ext _ _ _ _ Ay (aeq_refl vy)) by (rewrite ?(proj1 Ay), ?(proj1 (proj2 Ay)); cbn; congruence).
  rewrite (inner_ext _ _ _ _ Ax (aeq_refl vx)) by (rewrite ?(proj1 Ax), ?(proj1 (proj2 Ax)); cbn; congruence).
  rewrite (inner_ext _ _ _ _ (aeq_refl m) AD) by (rewrite ?(proj1 AD), ?(proj1 (proj2 AD)); cbn; congruence).
  rewrite inner_re_l by (assumption || (cbn; congruence)). rewrite inner_re_l by (assumption || (cbn; congruence)).
  rewrite inner_re_r by (assumption || (cbn; congruence)). rewrite !gfilt_dot by (assumption || congruence).
  rewrite inner_plus_r by (cbn; congruence). rewrite Vy1, Vy2.
  assert (Ey : inner m (gfilt (fun y x => Cconj (iy (f_ny m) sy y x)) vy) = - inner m (gfilt (iy (f_ny m) sy) vy)).
  { rewrite (inner_ext m _ m (scale (- RtoC 1) (gfilt (iy (f_ny m) sy) vy)) (aeq_refl m)); [rewrite inner_scale_r; ring| |cbn; congruence|cbn; congruence].
    eapply aeq_trans; [apply (gfilt_ext _ (fun y x => - iy (f_ny m) sy y x) _ _ (aeq_refl vy))|apply gfilt_opp, Hy]. intros; apply iy_conj. }
  assert (Ex : inner m (gfilt (fun y x => Cconj (ix (f_nx m) sx y x)) vx) = - inner m (gfilt (ix (f_nx m) sx) vx)).
  { rewrite (inner_ext m _ m (scale (- RtoC 1) (gfilt (ix (f_nx m) sx) vx)) (aeq_refl m)); [rewrite inner_scale_r; ring| |cbn; congruence|cbn; congruence].
    eapply aeq_trans; [apply (gfilt_ext _ (fun y x => - ix (f_nx m) sx y x) _ _ (aeq_refl vx))|apply gfilt_opp; destruct H; split; congruence]. intros; apply ix_conj. }
  rewrite Ey, Ex. destruct (inner m _), (inner m _). apply C_eq; unfold Re, Im, RtoC, Cplus, Copp; cbn [fst snd]; ring.
Qed.
Print Assumptions C102_adjoint.

(* gradients and laplacians sum to zero *)
Theorem C102_total : forall sy sx m, nonempty m ->
  exists gy gx l, grad sy sx m = Some (gy, gx) /\ laplace sy sx m = Some l /\ total gy = 0 /\ total gx = 0 /\ total l = 0.
Proof.
  intros sy sx m H. assert (TE : forall a b, aeq a b -> total a = total b).
  { intros a b (E1 & E2 & E). unfold total, csum2. rewrite <- E1, <- E2. apply csum_ext. intros y Jy. apply csum_ext. intros x Jx. apply E; assumption. }
  destruct (grad_filt sy sx m H) as (gy & gx & EG & Ay & Ax). destruct (laplace_filt sy sx m H) as (l & EL & AL).
  exists gy, gx, l. split; [exact EG|]. split; [exact EL|]. rewrite (TE _ _ Ay), (TE _ _ Ax), (TE _ _ AL), !total_re, !gfilt_total by exact H.
  unfold iy, ix. rewrite !laxis_0 by apply H. destruct (total m). repeat split; apply C_eq; unfold Re, Im, RtoC, Cplus, Cmult, Copp, Ci; cbn [fst snd]; ring.
Qed.
Print Assumptions C102_total.

(* the laplacian is negative: a map is never in phase with its laplacian *)
Theorem C102_energy : forall sy sx m l, nonempty m -> is_real m -> laplace sy sx m = Some l -> (Re (inner m l) <= 0)%R.
Proof.
  intros sy sx m l H R EL. destruct (laplace_filt sy sx m H) as (l' & EL' & AL). assert (l' = l) by congruence. subst l'.
  rewrite (inner_ext _ _ _ _ (aeq_refl m) AL) by (rewrite ?(proj1 AL), ?(proj1 (proj2 AL)); reflexivity). rewrite inner_re_r by (assumption || reflexivity).
  set (h := fun y x => RtoC (sqrt (laxis (f_ny m) sy y ^ 2 + laxis (f_nx m) sx x ^ 2))).
  assert (S : aeq (gfilt (fun y x => - RtoC (laxis (f_ny m) sy y ^ 2 + laxis (f_nx m) sx x ^ 2)) m) (scale (- RtoC 1) (gfilt (fun y x => Cconj (h y x)) (gfilt h m)))).
  { eapply aeq_trans; [apply (gfilt_opp (fun y x => RtoC (laxis (f_ny m) sy y ^ 2 + laxis (f_nx m) sx x ^ 2)) m H)|]. apply scale_ext.
    eapply aeq_trans; [|apply aeq_sym, gfilt_comp, H]. apply (gfilt_ext _ _ _ _ (aeq_refl m)). intros y x _ _. unfold h. rewrite Cconj_RtoC, <- RtoC_mult. f_equal.
    symmetry. apply sqrt_sqrt. apply Rplus_le_le_0_compat; apply pow2_ge_0. }
  rewrite (inner_ext _ _ _ _ (aeq_refl m) S) by reflexivity. rewrite inner_scale_r, <- gfilt_dot by (assumption || reflexivity).
  assert (P : forall b, (0 <= Re (inner b b))%R).
  { intros b. unfold inner, csum2. apply Re_csum_pos. intros y Jy. apply Re_csum_pos. intros x Jx.
    destruct (f_at b y x) as [u v]. unfold Re, RtoC, Cmult, Cconj. cbn [fst snd]. nra. }
  pose proof (P (gfilt h m)) as Q. destruct (inner (gfilt h m) (gfilt h m)) as [u v]. unfold Re, RtoC, Cmult, Copp in *. cbn [fst snd] in *. lra.
Qed.
Print Assumptions C102_energy.

(* on a grid with odd sides the divergence of the gradient is the laplacian, for every real map *)
Theorem C102_odd : forall sy sx m, nonempty m -> is_real m -> Z.odd (f_ny m) = true -> Z.odd (f_nx m) = true ->
  exists gy gx d l, grad sy sx m = Some (gy, gx) /\ div sy sx gy gx = Some d /\ laplace sy sx m = Some l /\ aeq d l.
Proof.
  intros sy sx m H R Oy Ox. destruct (grad_filt sy sx m H) as (gy & gx & EG & Ay & Ax). destruct (laplace_filt sy sx m H) as (l & EL & AL).
  assert (Ay' := aeq_trans _ _ _ Ay (drop_im_real false _ (gfilt_iy_real sy m H Oy R))). assert (Ax' := aeq_trans _ _ _ Ax (drop_im_real false _ (gfilt_ix_real sx m H Ox R))).
  assert (Y1 : f_ny gy = f_ny m) by apply Ay. assert (Y2 : f_nx gy = f_nx m) by apply Ay. assert (X1 : f_ny gx = f_ny m) by apply Ax. assert (X2 : f_nx gx = f_nx m) by apply Ax.
  destruct (div_filt sy sx gy gx) as (d & ED & AD); [destruct H; split; congruence|congruence|congruence|].
  exists gy, gx, d, l. split; [exact EG|]. split; [exact ED|]. split; [exact EL|]. eapply aeq_trans; [exact AD|]. eapply aeq_trans; [|apply aeq_sym, AL]. apply drop_im_ext.
  rewrite Y1, Y2.
  assert (Gy := aeq_trans _ _ _ (gfilt_ext (iy (f_ny m) sy) _ _ _ Ay' (fun _ _ _ _ => eq_refl)) (gfilt_comp _ _ m H)).
  assert (Gx := aeq_trans _ _ _ (gfilt_ext (ix (f_nx m) sx) _ _ _ Ax' (fun _ _ _ _ => eq_refl)) (gfilt_comp _ _ m H)).
  eapply aeq_trans with (b := aplus (gfilt (fun y x => iy (f_ny m) sy y x * iy (f_ny m) sy y x) m) (gfilt (fun y x => ix (f_nx m) sx y x * ix (f_nx m) sx y x) m)).
  { destruct Gy as (P1 & P2 & P), Gx as (Q1 & Q2 & Q). split; [exact P1|]. split; [exact P2|]. cbn [aplus f_ny f_nx f_at gfilt scale amap dft_ax dft_y dft_x mulg] in *. intros y x Jy Jx. rewrite P by assumption. rewrite Q by congruence. reflexivity. }
  eapply aeq_trans; [apply aeq_sym, gfilt_gplus, H|]. apply (gfilt_ext _ _ _ _ (aeq_refl m)). intros y x _ _. unfold iy, ix.
  apply C_eq; unfold Re, Im, RtoC, Cplus, Cmult, Copp, Ci; cbn [fst snd]; ring.
Qed.
Print Assumptions C102_odd.

(* in units of pixels: each component over the pixel size, whatever the direction of the axes *)
Theorem C102_pix : forall sy sx m gy gx, nonempty m -> sy <> 0%R -> sx <> 0%R -> grad sy sx m = Some (gy, gx) ->
  exists py px, grad_pix sy sx m = Some (py, px) /\ aeq py (amap (fun z => z / RtoC sy) gy) /\ aeq px (amap (fun z => z / RtoC sx) gx).
Proof.
  intros sy sx m gy gx [Hy Hx] Sy Sx E. unfold grad_pix. rewrite E. cbn [bind fst snd]. eexists. eexists. split; [reflexivity|].
  pose proof (IZRn0 _ Hy). pose proof (IZRn0 _ Hx).
  split; (split; [reflexivity|]; split; [reflexivity|]); intros y x _ _; cbn [amap f_at]; unfold Cdiv; rewrite <- RtoC_inv by assumption; f_equal; f_equal; field; split; assumption.
Qed.
Print Assumptions C102_pix.
Theorem C102_pix_sign : forall ey ex sy sx m, nonempty m -> sy <> 0%R -> sx <> 0%R -> (ey = 1 \/ ey = -1)%R -> (ex = 1 \/ ex = -1)%R ->
  exists py px py' px', grad_pix sy sx m = Some (py, px) /\ grad_pix (ey * sy) (ex * sx) m = Some (py', px') /\ aeq py py' /\ aeq px px'.
Proof.
  intros ey ex sy sx m H Sy Sx Ey Ex. assert (Ey0 : ey <> 0%R) by lra. assert (Ex0 : ex <> 0%R) by lra.
  destruct (grad_filt sy sx m H) as (gy & gx & EG & Ay & Ax). destruct (grad_filt (ey * sy) (ex * sx) m H) as (gy' & gx' & EG' & Ay' & Ax').
  destruct (C102_pix sy sx m gy gx H Sy Sx EG) as (py & px & EP & Py & Px).
  destruct (C102_pix (ey * sy) (ex * sx) m gy' gx' H) as (py' & px' & EP' & Py' & Px'); [apply Rmult_integral_contrapositive; split; assumption|apply Rmult_integral_contrapositive; split; assumption|exact EG'|].
  exists py, px, py', px'. split; [exact EP|]. split; [exact EP'|].
  assert (L : forall e n s k, (e = 1 \/ e = -1)%R -> s <> 0%R -> laxis n (e * s) k = (e * laxis n s k)%R) by (intros e n s k He Hs; unfold laxis; destruct He; subst e; field; lra).
  assert (K : forall e s (g g' g2 g2' p p' : farr C), (e = 1 \/ e = -1)%R -> s <> 0%R -> aeq g2 (drop_im false g) -> aeq g2' (drop_im false g') -> aeq p (amap (fun z => z / RtoC s) g2) -> aeq p' (amap (fun z => z / RtoC (e * s)) g2') ->
     aeq g' (scale (RtoC e) g) -> aeq p p').
  { intros e s g g' g2 g2' p p' He Hs A A' P P' G. eapply aeq_trans; [exact P|]. eapply aeq_trans; [|apply aeq_sym, P'].
    eapply aeq_trans; [apply amap_ext, A|]. eapply aeq_trans; [|apply aeq_sym, amap_ext; eapply aeq_trans; [exact A'|apply drop_im_ext, G]].
    split; [reflexivity|]. split; [reflexivity|]. intros y x _ _. cbn [drop_im amap scale f_at]. unfold Cdiv. assert (e * s <> 0)%R by (destruct He; subst e; lra).
    rewrite <- !RtoC_inv by assumption. destruct (f_at g y x) as [u v]. destruct He; subst e; apply C_eq; unfold Re, Im, RtoC, Cmult; cbn [fst snd]; field; lra. }
  assert (GS : forall e g g', (forall y x, g' y x = RtoC e * g y x) -> aeq (gfilt g' m) (scale (RtoC e) (gfilt g m))).
  { intros e g g' Hg. split; [reflexivity|]. split; [reflexivity|]. intros y x _ _. unfold gfilt, scale, amap. cbn [f_at dft_ax dft_y dft_x mulg f_ny f_nx].
    match goal with |- _ = ?u * ?v * ?k => transitivity ((k * u) * v); [|ring] end. f_equal.
    rewrite <- dft_scal. apply dft_ext. intros j Hj. rewrite <- dft_scal. apply dft_ext. intros i Hi. rewrite Hg. ring. }
  split.
  - apply (K ey sy _ _ _ _ _ _ Ey Sy Ay Ay' Py Py'). apply GS. intros y x. unfold iy. rewrite L by assumption. rewrite RtoC_mult. ring.
  - apply (K ex sx _ _ _ _ _ _ Ex Sx Ax Ax' Px Px'). apply GS. intros y x. unfold ix. rewrite L by assumption. rewrite RtoC_mult. ring.
Qed.
Print Assumptions C102_pix_sign.

(* outside the claim: the wave at the Nyquist frequency has no gradient, but it has a laplacian *)
Definition zigzag : farr C := FA 2 1 (fun y _ => if (y =? 0)%Z then RtoC 1 else - RtoC 1).
Lemma zigzag_wave : aeq zigzag (wave 2 1 0 0 1 1 0).
Proof.
  split; [reflexivity|]. split; [reflexivity|]. cbn [zigzag wave f_ny f_nx f_at]. intros y x Hy Hx. assert (x = 0)%Z by lia. subst x. assert (C0 : y = 0%Z \/ y = 1%Z) by lia. destruct C0; subst y; cbn [Z.eqb].
  - replace (2 * PI * (1 * ((0 + 0) / 2) + 0 * ((0 + 0) / 1)))%R with 0%R by field. rewrite cis_0. ring.
  - replace (2 * PI * (1 * ((1 + 0) / 2) + 0 * ((0 + 0) / 1)))%R with PI by field. unfold cis. rewrite cos_PI, sin_PI. apply C_eq; unfold Re, Im, RtoC, Cmult, Copp; cbn [fst snd]; ring.
Qed.
Theorem C102_nyquist : exists gy gx l, grad 1 1 zigzag = Some (gy, gx) /\ laplace 1 1 zigzag = Some l /\
  aeq gy (FA 2 1 (fun _ _ => RtoC 0)) /\ aeq gx (FA 2 1 (fun _ _ => RtoC 0)) /\ f_at l 0%Z 0%Z = RtoC (- PI ^ 2).
Proof.
  assert (H : nonempty zigzag) by (split; cbn; lia).
  destruct (grad_filt 1 1 zigzag H) as (gy & gx & EG & Ay & Ax). destruct (laplace_filt 1 1 zigzag H) as (l & EL & AL). exists gy, gx, l. split; [exact EG|]. split; [exact EL|].
  assert (W : forall g, aeq (gfilt g zigzag) (wave 2 1 0 0 (1 * g 1%Z 0%Z) 1 0)).
  { intros g. eapply aeq_trans; [apply (gfilt_ext g g _ _ zigzag_wave); reflexivity|]. apply gfilt_wave; lia. }
  assert (L1 : laxis 2 1 1 = (- PI)%R) by (unfold laxis, fftfreq; change (1 <? (2 - 1) / 2 + 1)%Z with false; cbv iota; rewrite minus_IZR; field).
  assert (L0 : laxis 1 1 0 = 0%R) by (apply laxis_0; lia).
  assert (V : forall y x k, (0 <= y < 2)%Z -> (0 <= x < 1)%Z -> f_at (wave 2 1 0 0 k 1 0) y x = k * f_at zigzag y x).
  { intros y x k Jy Jx. destruct zigzag_wave as (_ & _ & Z). rewrite Z by assumption. cbn [wave f_at]. ring. }
  assert (Zr : forall y, exists r, f_at zigzag y 0%Z = RtoC r) by (intros y; unfold zigzag; cbn [f_at]; destruct (y =? 0)%Z; [exists 1%R; reflexivity|exists (-1)%R; apply C_eq; unfold Re, Im, RtoC, Copp; cbn [fst snd]; ring]).
  split; [|split].
  - pose proof (aeq_trans _ _ _ Ay (drop_im_ext false _ _ (W _))) as (E1 & E2 & E). split; [exact E1|]. split; [exact E2|]. intros y x Jy Jx. rewrite E by assumption.
    cbn [drop_im amap f_at]. rewrite E1 in Jy. rewrite E2 in Jx. cbn [drop_im amap wave f_ny f_nx] in Jy, Jx. rewrite V by assumption. assert (x = 0%Z) by lia. subst x. destruct (Zr y) as [r ->].
    unfold iy. apply C_eq; unfold Re, Im, RtoC, Cmult, Ci; cbn [fst snd]; ring.
  - pose proof (aeq_trans _ _ _ Ax (drop_im_ext false _ _ (W _))) as (E1 & E2 & E). split; [exact E1|]. split; [exact E2|]. intros y x Jy Jx. rewrite E by assumption.
    cbn [drop_im amap f_at]. rewrite E1 in Jy. rewrite E2 in Jx. cbn [drop_im amap wave f_ny f_nx] in Jy, Jx. rewrite V by assumption. assert (x = 0%Z) by lia. subst x. destruct (Zr y) as [r ->].
    unfold ix. apply C_eq; unfold Re, Im, RtoC, Cmult, Ci; cbn [fst snd]; ring.
  - pose proof (aeq_trans _ _ _ AL (drop_im_ext false _ _ (W _))) as (E1 & E2 & E). rewrite E by (rewrite ?E1, ?E2; cbn; lia). cbn [drop_im amap f_at]. rewrite V by lia.
    change (f_ny zigzag) with 2%Z. change (f_nx zigzag) with 1%Z. rewrite L1, L0. cbn [zigzag f_at Z.eqb]. apply C_eq; unfold Re, Im, RtoC, Cmult, Copp; cbn [fst snd]; ring.
Qed.
Print Assumptions C102_nyquist.

(* a pattern of two waves on a grid with rows in steps of -1/10 meets the hypotheses *)
Example C102_ex : below_all 5 6 ((RtoC 3, 2%Z, 0%Z) :: (Ci, 1%Z, (-2)%Z) :: nil) /\
  exists gy gx, grad (- / 10) 2 (seen 5 6 (- / 10) 2 0 (1 / 2) (field 5 6 (- / 10) 2 ((RtoC 3, 2%Z, 0%Z) :: (Ci, 1%Z, (-2)%Z) :: nil))) = Some (gy, gx) /\ f_ny gy = 5%Z.
Proof.
  assert (B : below_all 5 6 ((RtoC 3, 2%Z, 0%Z) :: (Ci, 1%Z, (-2)%Z) :: nil)) by (unfold below_all, below; repeat constructor; cbn; lia).
  split; [exact B|]. destruct (C102_grad 5 6 (- / 10) 2 0 (1 / 2) _ ltac:(lia) ltac:(lia) ltac:(lra) ltac:(lra) B) as (gy & gx & E & N & _). exists gy, gx. split; [exact E|exact N].
Qed.
