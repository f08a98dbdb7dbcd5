From Coq Require Import Reals ZArith Bool Lia Lra Psatz.
From Verif Require Import BldSpec BldModel BldLemmas.
Open Scope R_scope.
Ltac Zify.zify_post_hook ::= idtac.

Definition aref (s : system) (ref : refarg) : option (R * R) :=
  match ref with NoRef => None | RefAt d r => Some (d, r) | Standard => match s with Plain => None | _ => Some (0, 0) end end.
Lemma aref_aligned s deg force ref :
  aref s (match ref with RefAt d r => RefAt (d * unit_of deg) (r * unit_of deg) | NoRef => if force : bool then NoRef else Standard | Standard => Standard end)
  = aligned_with s deg force ref.
Proof. destruct ref, s, force; reflexivity. Qed.

Lemma Rabs_bounds x a : Rabs x <= a -> - a <= x <= a.
Proof. unfold Rabs. destruct (Rcase_abs x); lra. Qed.

(* C123: two corners and a resolution *)
Theorem C123_box : forall (s : system) (deg force : bool) (ref : refarg) (y0 x0 y1 x1 : R) (res : resarg) (shape : option (Z * Z)),
  0 < res_y res -> 0 < res_x res ->
  shown s (y0 * unit_of deg) -> shown s (y1 * unit_of deg) ->
  (s <> Plain -> Rabs ((x1 - x0) * unit_of deg) <= 360) ->
  exists (ny nx : Z) (w : rwcs) (ey ex fy fx : R),
    geometry s deg force ref (Box y0 x0 y1 x1) (Some res) shape = Some ((ny, nx), w) /\
    rsys w = s /\
    rdy w = signR (y1 - y0) * res_y res * unit_of deg /\ rdx w = signR (x1 - x0) * res_x res * unit_of deg /\
    lies w (- (1/2) + ey) (- (1/2) + ex) (y0 * unit_of deg) (x0 * unit_of deg) /\
    Rabs ey <= 1/2 /\ Rabs ex <= 1/2 /\ (aligned_with s deg force ref = None -> ey = 0 /\ ex = 0) /\
    (forall n, shape = Some n -> (ny, nx) = n) /\
    (shape = None ->
       (0 <= ny)%Z /\ (0 <= nx)%Z /\
       lies w (IZR ny - 1/2 + fy) (IZR nx - 1/2 + fx) (y1 * unit_of deg) (x1 * unit_of deg) /\
       Rabs (fy - ey) <= 1/2 /\ Rabs (fx - ex) <= 1/2).
Proof.
  intros s deg force ref y0 x0 y1 x1 res shape Ry Rx L0 L1 W. pose proof (unit_pos deg) as U.
  unfold geometry. rewrite unit_scale. cbv zeta. set (k := unit_of deg) in *.
  rewrite <- aref_aligned. fold k.
  set (rf := match ref with RefAt d r => RefAt (d * k) (r * k) | NoRef => if force then NoRef else Standard | Standard => Standard end).
  cbn [scale_pos].
  assert (E : expand (Box (y0 * k) (x0 * k) (y1 * k) (x1 * k)) (scale_res k res) 1 (match s with Plain => 1 | _ => -1 end) = (res_y res * k, res_x res * k))
    by (destruct res; reflexivity).
  unfold build. cbn [mid]. rewrite E. clear E.
  set (lam := match s with Cea => Rsqr (cos ((y0 * k + y1 * k) / 2 * rdeg)) | _ => 1 end).
  assert (LO : lam_ok s lam).
  { subst lam. destruct s; cbn; try exact I. cbn in L0, L1. pose proof rdeg_pos. pose proof rdeg_90. apply Rsqr_pos_lt. apply Rgt_not_eq. apply cos_gt_0; nra. }
  set (vy := match s with Plain => (y0 * k + y1 * k) / 2 | _ => 0 end).
  change (match rf with NoRef => None | Standard => match s with Plain => None | _ => Some (0, 0) end | RefAt d r => Some (d, r) end) with (aref s rf).
  unfold finalize. cbn [final_cdelt].
  set (w1 := set_cdelt _ _ _).
  assert (Dy : rdy w1 = signR (y1 - y0) * res_y res * k).
  { subst w1. cbn [set_cdelt set_crpix rdy rdx]. unfold signR. destruct (Rlt_dec (y1 * k) (y0 * k)) as [A|A], (Rlt_dec (y1 - y0) 0) as [B|B]; try ring; exfalso.
    - apply B. apply Rmult_lt_reg_r in A; lra.
    - apply A. apply Rmult_lt_compat_r; lra. }
  assert (Dx : rdx w1 = signR (x1 - x0) * res_x res * k).
  { subst w1. cbn [set_cdelt set_crpix rdy rdx]. unfold signR. destruct (Rlt_dec (x1 * k) (x0 * k)) as [A|A], (Rlt_dec (x1 - x0) 0) as [B|B]; try ring; exfalso.
    - apply B. apply Rmult_lt_reg_r in A; lra.
    - apply A. apply Rmult_lt_compat_r; lra. }
  assert (S : forall z, signR z = 1 \/ signR z = -1) by (intros z; unfold signR; destruct (Rlt_dec z 0); auto).
  assert (Ky : 0 < res_y res * k) by (apply Rmult_lt_0_compat; lra). assert (Kx : 0 < res_x res * k) by (apply Rmult_lt_0_compat; lra).
  assert (Ny : rdy w1 <> 0) by (rewrite Dy; destruct (S (y1 - y0)) as [->| ->]; lra).
  assert (Nx : rdx w1 <> 0) by (rewrite Dx; destruct (S (x1 - x0)) as [->| ->]; lra).
  assert (F1 : rsys w1 = s /\ rlam w1 = lam /\ rvx w1 = (x0 * k + x1 * k) / 2 /\ rvy w1 = vy /\ rpy w1 = 1 /\ rpx w1 = 1) by (repeat split).
  clearbody w1. destruct F1 as (F1 & F2 & F3 & F4 & F5 & F6).
  destruct (Req_EM_T (rdy w1) 0) as [C|_]; [contradiction|]. destruct (Req_EM_T (rdx w1) 0) as [C|_]; [contradiction|].
  cbn [final_crpix]. set (w2 := set_crpix w1 _ _).
  destruct (final_ref_spec w2 (aref s rf)) as (ey & ex & By & Bx & Z & FR & _); [exact Ny|exact Nx|].
  set (w3 := final_ref w2 (aref s rf)) in *.
  assert (P3y : forall t, w2p_y w3 0 t = w2p_y w1 0 t - w2p_y w1 0 (y0 * k) - 1/2 + ey).
  { intros t. rewrite FR, w2p_y_set. unfold w2. rewrite w2p_y_set. cbn. lra. }
  assert (P3x : forall u, w2p_x w3 0 u = w2p_x w1 0 u - w2p_x w1 0 (x0 * k) - 1/2 + ex).
  { intros u. rewrite FR, w2p_x_set. unfold w2. rewrite w2p_x_set. cbn. lra. }
  assert (D3 : rdy w3 = rdy w1 /\ rdx w3 = rdx w1 /\ rsys w3 = s /\ rlam w3 = lam /\ rvx w3 = rvx w1) by (rewrite FR; repeat split; assumption).
  destruct D3 as (D3y & D3x & S3 & M3 & V3).
  assert (Hx : forall u, Rabs (u - rvx w1) <= 180 \/ s = Plain -> u = rvx w3 + (w2p_x w3 0 u + 1 - rpx w3) * rdx w3).
  { intros u H. apply w2p_x_lies; [rewrite D3x; exact Nx|]. rewrite S3, V3. destruct H; tauto. }
  assert (H0 : Rabs (x0 * k - rvx w1) <= 180 \/ s = Plain).
  { destruct s; try (right; reflexivity); left; rewrite F3; assert (W' := W ltac:(discriminate)); apply Rabs_bounds in W'; apply Rabs_le; lra. }
  assert (H1 : Rabs (x1 * k - rvx w1) <= 180 \/ s = Plain).
  { destruct s; try (right; reflexivity); left; rewrite F3; assert (W' := W ltac:(discriminate)); apply Rabs_bounds in W'; apply Rabs_le; lra. }
  assert (Lie0 : lies w3 (- (1/2) + ey) (- (1/2) + ex) (y0 * k) (x0 * k)).
  { split.
    - rewrite (w2p_y_lies w3) by (rewrite D3y; exact Ny). rewrite P3y. f_equal. f_equal. lra.
    - rewrite (Hx _ H0) at 1. rewrite P3x. f_equal. f_equal. lra. }
  destruct shape as [[my mx]|].
  - exists my, mx, w3, ey, ex, 0, 0. rewrite D3y, D3x. repeat split; try assumption; try tauto; try (apply Lie0); try (intros; now apply Z); try congruence; try discriminate.
  - set (Qy := w2p_y w3 0 (y1 * k) - w2p_y w3 0 (y0 * k)). set (Qx := w2p_x w3 0 (x1 * k) - w2p_x w3 0 (x0 * k)).
    assert (Py : 0 <= Qy).
    { unfold Qy. rewrite !P3y. unfold w2p_y. rewrite F1, F2.
      replace (_ - _) with ((height s lam (y1 * k) - height s lam (y0 * k)) / rdy w1) by (field; exact Ny).
      rewrite Dy. unfold signR. destruct (Rlt_dec (y1 - y0) 0) as [A|A].
      - assert (height s lam (y1 * k) < height s lam (y0 * k)) by (apply height_lt; [exact LO|exact L1|exact L0|]; apply Rmult_lt_compat_r; lra).
        replace (_ / _) with ((height s lam (y0 * k) - height s lam (y1 * k)) / (res_y res * k)) by (field; lra).
        apply Rlt_le, Rdiv_lt_0_compat; lra.
      - assert (height s lam (y0 * k) <= height s lam (y1 * k)) by (apply height_le; [exact LO|exact L0|exact L1|]; apply Rmult_le_compat_r; lra).
        apply Rmult_le_pos; [lra|]. apply Rlt_le, Rinv_0_lt_compat. lra. }
    assert (Px : 0 <= Qx).
    { assert (Q : Qx = (x1 * k - x0 * k) / rdx w1).
      { pose proof (Hx _ H0) as A. pose proof (Hx _ H1) as B. unfold Qx.
        assert (x1 * k - x0 * k = (w2p_x w3 0 (x1 * k) - w2p_x w3 0 (x0 * k)) * rdx w3) as -> by (rewrite A at 1; rewrite B at 1; ring).
        rewrite D3x. field. exact Nx. }
      rewrite Q, Dx. unfold signR. destruct (Rlt_dec (x1 - x0) 0) as [A|A].
      - replace (_ / _) with ((x0 - x1) / res_x res) by (field; lra). apply Rlt_le, Rdiv_lt_0_compat; lra.
      - replace (_ / _) with ((x1 - x0) / res_x res) by (field; lra). apply Rmult_le_pos; [lra|]. apply Rlt_le, Rinv_0_lt_compat. lra. }
    rewrite (Rabs_right Qy), (Rabs_right Qx) by lra.
    pose proof (roundR_spec Qy) as RQy. pose proof (roundR_spec Qx) as RQx.
    exists (roundR Qy), (roundR Qx), w3, ey, ex, (ey + Qy - IZR (roundR Qy)), (ex + Qx - IZR (roundR Qx)).
    rewrite D3y, D3x.
    split; [reflexivity|]. split; [exact S3|]. split; [exact Dy|]. split; [exact Dx|]. split; [exact Lie0|].
    split; [exact By|]. split; [exact Bx|]. split; [exact Z|]. split; [discriminate|]. intros _.
    split; [now apply roundR_nonneg|]. split; [now apply roundR_nonneg|]. split; [split|split].
    + rewrite (w2p_y_lies w3) by (rewrite D3y; exact Ny). f_equal. f_equal. unfold Qy. rewrite !P3y. lra.
    + rewrite (Hx _ H1) at 1. f_equal. f_equal. unfold Qx. rewrite !P3x. lra.
    + rewrite <- Rabs_Ropp. replace (- _) with (IZR (roundR Qy) - Qy) by ring. exact RQy.
    + rewrite <- Rabs_Ropp. replace (- _) with (IZR (roundR Qx) - Qx) by ring. exact RQx.
Qed.
Print Assumptions C123_box.

(* two corners and a shape: both corners are where they should be, up to one shift of less than a pixel *)
Theorem C123_box_shape : forall (s : system) (deg force : bool) (ref : refarg) (y0 x0 y1 x1 : R) (ny nx : Z),
  (0 < ny)%Z -> (0 < nx)%Z -> y0 <> y1 -> x0 <> x1 ->
  shown s (y0 * unit_of deg) -> shown s (y1 * unit_of deg) ->
  (s <> Plain -> Rabs ((x1 - x0) * unit_of deg) <= 360) ->
  exists (w : rwcs) (ey ex : R),
    geometry s deg force ref (Box y0 x0 y1 x1) None (Some (ny, nx)) = Some ((ny, nx), w) /\
    rsys w = s /\
    lies w (- (1/2) + ey) (- (1/2) + ex) (y0 * unit_of deg) (x0 * unit_of deg) /\
    lies w (IZR ny - 1/2 + ey) (IZR nx - 1/2 + ex) (y1 * unit_of deg) (x1 * unit_of deg) /\
    Rabs ey <= 1/2 /\ Rabs ex <= 1/2 /\ (aligned_with s deg force ref = None -> ey = 0 /\ ex = 0).
Proof.
  intros s deg force ref y0 x0 y1 x1 ny nx Hy Hx Ey Ex L0 L1 W. pose proof (unit_pos deg) as U.
  unfold geometry. rewrite unit_scale. cbv zeta. set (k := unit_of deg) in *.
  rewrite <- aref_aligned. fold k.
  set (rf := match ref with RefAt d r => RefAt (d * k) (r * k) | NoRef => if force then NoRef else Standard | Standard => Standard end).
  cbn [scale_pos]. unfold build. cbn [mid].
  set (lam := match s with Cea => Rsqr (cos ((y0 * k + y1 * k) / 2 * rdeg)) | _ => 1 end).
  assert (LO : lam_ok s lam).
  { subst lam. destruct s; cbn; try exact I. cbn in L0, L1. pose proof rdeg_pos. pose proof rdeg_90. apply Rsqr_pos_lt. apply Rgt_not_eq. apply cos_gt_0; nra. }
  set (vy := match s with Plain => (y0 * k + y1 * k) / 2 | _ => 0 end).
  change (match rf with NoRef => None | Standard => match s with Plain => None | _ => Some (0, 0) end | RefAt d r => Some (d, r) end) with (aref s rf).
  unfold finalize. cbn [final_cdelt].
  replace ((ny =? 0)%Z || (nx =? 0)%Z) with false by (symmetry; apply orb_false_intro; apply Z.eqb_neq; lia).
  set (w0 := set_cdelt _ 1 1).
  assert (Ny' : IZR ny <> 0) by (apply not_0_IZR; lia). assert (Nx' : IZR nx <> 0) by (apply not_0_IZR; lia).
  assert (X : forall u, (s <> Plain -> Rabs (u - (x0 * k + x1 * k) / 2) <= 180) -> w2p_x w0 1 u = u - (x0 * k + x1 * k) / 2 + 1).
  { intros u H. unfold w2p_x, w0. cbn. destruct s; try (rewrite wrap180_id by (apply H; discriminate)); field. }
  assert (H0 : s <> Plain -> Rabs (x0 * k - (x0 * k + x1 * k) / 2) <= 180).
  { intros N. assert (W' := W N). apply Rabs_bounds in W'. apply Rabs_le. lra. }
  assert (H1 : s <> Plain -> Rabs (x1 * k - (x0 * k + x1 * k) / 2) <= 180).
  { intros N. assert (W' := W N). apply Rabs_bounds in W'. apply Rabs_le. lra. }
  assert (Hn : height s lam (y1 * k) <> height s lam (y0 * k)).
  { destruct (Rtotal_order y0 y1) as [A|[A|A]]; [|contradiction|].
    - apply Rgt_not_eq. apply height_lt; [exact LO|exact L0|exact L1|]. apply Rmult_lt_compat_r; lra.
    - apply Rlt_not_eq. apply height_lt; [exact LO|exact L1|exact L0|]. apply Rmult_lt_compat_r; lra. }
  set (w1 := set_cdelt w0 _ _).
  assert (Dy : rdy w1 = (height s lam (y1 * k) - height s lam (y0 * k)) / IZR ny).
  { subst w1. cbn [set_cdelt rdy]. unfold w2p_y, w0. cbn. field. exact Ny'. }
  assert (Dx : rdx w1 = (x1 * k - x0 * k) / IZR nx).
  { subst w1. cbn [set_cdelt rdx]. rewrite (X _ H0), (X _ H1). field. exact Nx'. }
  assert (Kx : x1 * k - x0 * k <> 0).
  { intros C. assert ((x1 - x0) * k = 0) as C' by lra. apply Rmult_integral in C'. lra. }
  assert (Ny : rdy w1 <> 0) by (rewrite Dy; apply Rmult_integral_contrapositive_currified; [lra|now apply Rinv_neq_0_compat]).
  assert (Nx : rdx w1 <> 0) by (rewrite Dx; apply Rmult_integral_contrapositive_currified; [lra|now apply Rinv_neq_0_compat]).
  assert (F1 : rsys w1 = s /\ rlam w1 = lam /\ rvx w1 = (x0 * k + x1 * k) / 2 /\ rvy w1 = vy /\ rpy w1 = 1 /\ rpx w1 = 1) by (repeat split).
  clearbody w1. destruct F1 as (F1 & F2 & F3 & F4 & F5 & F6).
  destruct (Req_EM_T (rdy w1) 0) as [C|_]; [contradiction|]. destruct (Req_EM_T (rdx w1) 0) as [C|_]; [contradiction|].
  cbn [final_crpix]. set (w2 := set_crpix w1 _ _).
  destruct (final_ref_spec w2 (aref s rf)) as (ey & ex & By & Bx & Z & FR & _); [exact Ny|exact Nx|].
  set (w3 := final_ref w2 (aref s rf)) in *.
  assert (P3y : forall t, w2p_y w3 0 t = w2p_y w1 0 t - w2p_y w1 0 (y0 * k) - 1/2 + ey).
  { intros t. rewrite FR, w2p_y_set. unfold w2. rewrite w2p_y_set. cbn. lra. }
  assert (P3x : forall u, w2p_x w3 0 u = w2p_x w1 0 u - w2p_x w1 0 (x0 * k) - 1/2 + ex).
  { intros u. rewrite FR, w2p_x_set. unfold w2. rewrite w2p_x_set. cbn. lra. }
  assert (D3 : rdy w3 = rdy w1 /\ rdx w3 = rdx w1 /\ rsys w3 = s /\ rlam w3 = lam /\ rvx w3 = rvx w1) by (rewrite FR; repeat split; assumption).
  destruct D3 as (D3y & D3x & S3 & M3 & V3).
  assert (Hx' : forall u, (s <> Plain -> Rabs (u - (x0 * k + x1 * k) / 2) <= 180) -> u = rvx w3 + (w2p_x w3 0 u + 1 - rpx w3) * rdx w3).
  { intros u H. apply w2p_x_lies; [rewrite D3x; exact Nx|]. rewrite S3, V3, F3. exact H. }
  exists w3, ey, ex. split; [reflexivity|]. split; [exact S3|]. split; [split|split; [split|repeat split; try assumption; intros; now apply Z]].
  - rewrite (w2p_y_lies w3) by (rewrite D3y; exact Ny). rewrite P3y. f_equal. f_equal. lra.
  - rewrite (Hx' _ H0) at 1. rewrite P3x. f_equal. f_equal. lra.
  - rewrite (w2p_y_lies w3) by (rewrite D3y; exact Ny). f_equal. f_equal. rewrite !P3y.
    assert (w2p_y w1 0 (y1 * k) - w2p_y w1 0 (y0 * k) = IZR ny); [|lra].
    unfold w2p_y. rewrite F1, F2, Dy. field. split; [exact Ny'|lra].
  - rewrite (Hx' _ H1) at 1. f_equal. f_equal. rewrite !P3x.
    assert (w2p_x w1 0 (x1 * k) - w2p_x w1 0 (x0 * k) = IZR nx); [|lra].
    assert (E : w2p_x w3 0 (x1 * k) - w2p_x w3 0 (x0 * k) = IZR nx); [|rewrite !P3x in E; lra].
    pose proof (Hx' _ H0) as A. pose proof (Hx' _ H1) as B.
    apply Rmult_eq_reg_r with (rdx w3); [|rewrite D3x; exact Nx].
    transitivity (x1 * k - x0 * k); [|rewrite D3x, Dx; field; exact Nx']. set (p1 := w2p_x w3 0 (x1 * k)) in *. set (p0 := w2p_x w3 0 (x0 * k)) in *. clearbody p1 p0. lra.
Qed.
Print Assumptions C123_box_shape.

(* a centre, a resolution and a shape *)
Theorem C123_centre : forall (s : system) (deg force : bool) (ref : refarg) (y x : R) (res : resarg) (ny nx : Z),
  res_y res <> 0 -> res_x res <> 0 ->
  exists (w : rwcs) (ey ex : R),
    geometry s deg force ref (Centre y x) (Some res) (Some (ny, nx)) = Some ((ny, nx), w) /\
    rsys w = s /\
    lies w ((IZR ny - 1) / 2 + ey) ((IZR nx - 1) / 2 + ex) (y * unit_of deg) (x * unit_of deg) /\
    Rabs ey <= 1/2 /\ Rabs ex <= 1/2 /\ (aligned_with s deg force ref = None -> ey = 0 /\ ex = 0) /\
    rdy w = res_y res * unit_of deg /\
    rdx w = (match res, s with Res1 _, Car | Res1 _, Cea | Res1 _, Mer => -1 | _, _ => 1 end) * res_x res * unit_of deg.
Proof.
  intros s deg force ref y x res ny nx Ry Rx. pose proof (unit_pos deg) as U.
  unfold geometry. rewrite unit_scale. cbv zeta. set (k := unit_of deg) in *.
  rewrite <- aref_aligned. fold k.
  set (rf := match ref with RefAt d r => RefAt (d * k) (r * k) | NoRef => if force then NoRef else Standard | Standard => Standard end).
  cbn [scale_pos]. unfold build. cbn [mid].
  set (lam := match s with Cea => Rsqr (cos (y * k * rdeg)) | _ => 1 end).
  set (vy := match s with Plain => y * k | _ => 0 end).
  change (match rf with NoRef => None | Standard => match s with Plain => None | _ => Some (0, 0) end | RefAt d r => Some (d, r) end) with (aref s rf).
  set (sx := match res, s with Res1 _, Car | Res1 _, Cea | Res1 _, Mer => -1 | _, _ => 1 end).
  assert (E : expand (Centre (y * k) (x * k)) (scale_res k res) 1 (match s with Plain => 1 | _ => -1 end) = (res_y res * k, sx * res_x res * k)).
  { destruct res; cbn; subst sx; destruct s; f_equal; ring. }
  rewrite E. unfold finalize. cbn [final_cdelt].
  set (w1 := set_cdelt _ _ _).
  assert (Sx : sx <> 0) by (subst sx; destruct res, s; lra).
  assert (Ny : rdy w1 <> 0) by (cbn; apply Rmult_integral_contrapositive_currified; lra).
  assert (Nx : rdx w1 <> 0) by (cbn; apply Rmult_integral_contrapositive_currified; [apply Rmult_integral_contrapositive_currified; assumption|lra]).
  assert (F1 : rsys w1 = s /\ rlam w1 = lam /\ rvx w1 = x * k /\ rvy w1 = vy /\ rpy w1 = 1 /\ rpx w1 = 1 /\ rdy w1 = res_y res * k /\ rdx w1 = sx * res_x res * k) by (repeat split).
  clearbody w1. destruct F1 as (F1 & F2 & F3 & F4 & F5 & F6 & F7 & F8).
  destruct (Req_EM_T (rdy w1) 0) as [C|_]; [contradiction|]. destruct (Req_EM_T (rdx w1) 0) as [C|_]; [contradiction|].
  cbn [final_crpix]. set (w2 := set_crpix w1 _ _).
  destruct (final_ref_spec w2 (aref s rf)) as (ey & ex & By & Bx & Z & FR & _); [exact Ny|exact Nx|].
  set (w3 := final_ref w2 (aref s rf)) in *.
  assert (P3y : w2p_y w3 0 (y * k) = (IZR ny - 1) / 2 + ey).
  { rewrite FR, w2p_y_set. unfold w2. rewrite w2p_y_set. cbn. lra. }
  assert (P3x : w2p_x w3 0 (x * k) = (IZR nx - 1) / 2 + ex).
  { rewrite FR, w2p_x_set. unfold w2. rewrite w2p_x_set. cbn. lra. }
  assert (D3 : rdy w3 = rdy w1 /\ rdx w3 = rdx w1 /\ rsys w3 = s /\ rlam w3 = lam /\ rvx w3 = rvx w1) by (rewrite FR; repeat split; assumption).
  destruct D3 as (D3y & D3x & S3 & M3 & V3).
  exists w3, ey, ex. split; [reflexivity|]. split; [exact S3|]. split; [split|repeat split; try assumption; try (intros; now apply Z); congruence].
  - rewrite (w2p_y_lies w3) by (rewrite D3y; exact Ny). now rewrite P3y.
  - rewrite <- P3x. apply w2p_x_lies; [rewrite D3x; exact Nx|]. intros _. rewrite V3, F3, Rminus_diag_eq, Rabs_R0; [lra|reflexivity].
Qed.
Print Assumptions C123_centre.

(* the reference point is in the middle of a pixel of the grid *)
Lemma final_crpix_steps w pos shape : rdy (final_crpix w pos shape) = rdy w /\ rdx (final_crpix w pos shape) = rdx w /\ rsys (final_crpix w pos shape) = rsys w.
Proof. destruct pos, shape as [[]|]; repeat split. Qed.
Theorem C123_reference : forall (s : system) (deg force : bool) (ref : refarg) (pos : posarg) (res : option resarg) (shape : option (Z * Z)) sh w d r,
  geometry s deg force ref pos res shape = Some (sh, w) ->
  aligned_with s deg force ref = Some (d, r) ->
  exists y x, whole y /\ whole x /\ at_pixel w y x d r.
Proof.
  intros s deg force ref pos res shape sh w d r G A. unfold geometry in G. rewrite unit_scale in G. cbv zeta in G.
  set (rf := match ref with RefAt d r => RefAt (d * unit_of deg) (r * unit_of deg) | NoRef => if force then NoRef else Standard | Standard => Standard end) in G.
  rewrite <- aref_aligned in A. change (aref s rf = Some (d, r)) in A.
  set (pos' := scale_pos _ _) in G. set (res' := match res with None => None | Some r => Some (scale_res (unit_of deg) r) end) in G.
  assert (B : exists w1, w = final_ref w1 (Some (d, r)) /\ rdy w1 <> 0 /\ rdx w1 <> 0).
  { assert (B : build s pos' res' shape rf = Some w).
    { destruct (build s pos' res' shape rf) as [v|]; [|discriminate]. destruct shape; [congruence|]. destruct pos'; [discriminate|congruence]. }
    unfold build in B. change (match rf with NoRef => None | Standard => match s with Plain => None | _ => Some (0, 0) end | RefAt d r => Some (d, r) end) with (aref s rf) in B.
    rewrite A in B. destruct (mid pos') as [my mx].
    assert (exists w0 res2, finalize w0 pos' res2 shape (Some (d, r)) = Some w) as (w0 & res2 & F) by (destruct res', shape; try discriminate; eauto).
    unfold finalize in F. destruct (final_cdelt _ _ _ _) as [w1|]; [|discriminate].
    destruct (Req_EM_T _ _); [discriminate|]. destruct (Req_EM_T _ _); [discriminate|]. injection F as <-.
    destruct (final_crpix_steps w1 pos' shape) as (S1 & S2 & _). eexists. split; [reflexivity|]. rewrite S1, S2. auto. }
  destruct B as (w1 & -> & Ny & Nx).
  destruct (final_ref_spec w1 (Some (d, r)) Ny Nx) as (ey & ex & _ & _ & _ & FR & WH). destruct (WH d r eq_refl) as [Wy Wx].
  eexists _, _. split; [exact Wy|]. split; [exact Wx|]. split.
  - apply w2p_y_lies. rewrite FR. exact Ny.
  - apply w2p_x_turn. rewrite FR. exact Nx.
Qed.
Print Assumptions C123_reference.

(* so maps with the same reference point and resolution have common pixels *)
Theorem C123_compatible : forall (s : system) deg1 deg2 force1 force2 ref1 ref2 pos1 pos2 res1 res2 shape1 shape2 sh1 sh2 w1 w2 d r,
  geometry s deg1 force1 ref1 pos1 res1 shape1 = Some (sh1, w1) ->
  geometry s deg2 force2 ref2 pos2 res2 shape2 = Some (sh2, w2) ->
  aligned_with s deg1 force1 ref1 = Some (d, r) -> aligned_with s deg2 force2 ref2 = Some (d, r) ->
  rsys w1 = rsys w2 -> rlam w1 = rlam w2 -> Rabs (rdy w1) = Rabs (rdy w2) -> Rabs (rdx w1) = Rabs (rdx w2) ->
  forall y x t u, whole y -> whole x -> at_pixel w1 y x t u ->
  exists y' x', whole y' /\ whole x' /\ at_pixel w2 y' x' t u.
Proof.
  intros s deg1 deg2 force1 force2 ref1 ref2 pos1 pos2 res1 res2 shape1 shape2 sh1 sh2 w1 w2 d r G1 G2 A1 A2 Es El Ey Ex y x t u Wy Wx P.
  destruct (C123_reference _ _ _ _ _ _ _ _ _ _ _ G1 A1) as (j1 & i1 & J1 & I1 & Q1y & k1 & Q1 & K1).
  destruct (C123_reference _ _ _ _ _ _ _ _ _ _ _ G2 A2) as (j2 & i2 & J2 & I2 & Q2y & k2 & Q2 & K2).
  destruct P as [Py (k & P & K)].
  assert (S : forall a b, Rabs a = Rabs b -> a = b \/ a = - b).
  { intros a b E. unfold Rabs in E. destruct (Rcase_abs a), (Rcase_abs b); lra. }
  destruct Wy as [zy ->], Wx as [zx ->], J1 as [zj1 ->], I1 as [zi1 ->], J2 as [zj2 ->], I2 as [zi2 ->].
  assert (Hy : exists z : Z, height (rsys w2) (rlam w2) t = rvy w2 + (IZR z + 1 - rpy w2) * rdy w2).
  { rewrite Es, El in *. destruct (S _ _ Ey) as [E|E].
    - exists (zj2 + (zy - zj1))%Z. rewrite plus_IZR, minus_IZR. rewrite <- E in *. lra.
    - exists (zj2 - (zy - zj1))%Z. rewrite !minus_IZR. replace (rdy w2) with (- rdy w1) in * by lra. lra. }
  assert (Hx : exists z k', u + 360 * IZR k' = rvx w2 + (IZR z + 1 - rpx w2) * rdx w2 /\ (rsys w2 = Plain -> k' = 0%Z)).
  { assert (C : u - r = (IZR zx - IZR zi1) * rdx w1 + 360 * (IZR k1 - IZR k)) by lra.
    destruct (S _ _ Ex) as [E|E].
    - exists (zi2 + (zx - zi1))%Z, (k2 + (k - k1))%Z. split.
      + rewrite plus_IZR, minus_IZR, plus_IZR, minus_IZR. rewrite <- E in *. lra.
      + intros Z. rewrite K2 by exact Z. rewrite <- Es in Z. rewrite K, K1 by exact Z. reflexivity.
    - exists (zi2 - (zx - zi1))%Z, (k2 + (k - k1))%Z. split.
      + rewrite !minus_IZR, plus_IZR, minus_IZR. replace (rdx w2) with (- rdx w1) in * by lra. lra.
      + intros Z. rewrite K2 by exact Z. rewrite <- Es in Z. rewrite K, K1 by exact Z. reflexivity. }
  destruct Hy as [zy' Hy], Hx as (zx' & k' & Hx & Kk).
  exists (IZR zy'), (IZR zx'). split; [eexists; reflexivity|]. split; [eexists; reflexivity|]. split; [exact Hy|]. exists k'. split; assumption.
Qed.
Print Assumptions C123_compatible.

(* A resolution with a sign, next to corners that run the same way, turns the map round: none of it is between the corners *)
Theorem C123_signed_refuted :
  exists w, geometry Car true true NoRef (Box (-5) 10 5 (-10)) (Some (Res2 (1/2) (-(1/2)))) None = Some ((20, 40)%Z, w) /\
  forall y x t u, 0 <= x <= 39 -> lies w y x t u -> 10 < u.
Proof.
  unfold geometry, build, finalize. cbn [scale_pos scale_res mid expand aref final_cdelt final_crpix final_ref].
  set (w1 := set_cdelt _ _ _).
  assert (Dy : rdy w1 = 1/2) by (subst w1; cbn [set_cdelt set_crpix rdy]; match goal with |- (if Rlt_dec ?a ?b then _ else _) = _ => destruct (Rlt_dec a b) end; lra).
  assert (Dx : rdx w1 = 1/2) by (subst w1; cbn [set_cdelt set_crpix rdx]; match goal with |- (if Rlt_dec ?a ?b then _ else _) = _ => destruct (Rlt_dec a b) end; lra).
  assert (F : rsys w1 = Car /\ rlam w1 = 1 /\ rvx w1 = (10 * 1 + -10 * 1) / 2 /\ rvy w1 = 0 /\ rpy w1 = 1 /\ rpx w1 = 1) by (repeat split).
  clearbody w1. destruct F as (F1 & F2 & F3 & F4 & F5 & F6).
  destruct (Req_EM_T (rdy w1) 0) as [C|_]; [lra|]. destruct (Req_EM_T (rdx w1) 0) as [C|_]; [lra|].
  assert (Y : forall t, w2p_y w1 0 t = 2 * t) by (intros t; unfold w2p_y; rewrite F1, F2, F4, F5, Dy; cbn [height]; lra).
  assert (X : forall u, Rabs u <= 180 -> w2p_x w1 0 u = 2 * u).
  { intros u H. unfold w2p_x. rewrite F1, F3, F6, Dx. rewrite wrap180_id; [lra|]. replace (u - _) with u by lra. exact H. }
  rewrite !w2p_y_set, !w2p_x_set, !Y, !X by (apply Rabs_le; lra).
  exists (set_crpix w1 (rpy w1 - (2 * (-5 * 1) + 1/2)) (rpx w1 - (2 * (10 * 1) + 1/2))). split.
  - f_equal. f_equal. f_equal.
    + rewrite Rabs_right by lra. match goal with |- roundR ?e = _ => replace e with 20 by lra end.
      unfold roundR. rewrite (floorR_unique 20 20) by lra. destruct (Rlt_dec _ _); [reflexivity|lra].
    + rewrite Rabs_left by lra. match goal with |- roundR ?e = _ => replace e with 40 by lra end.
      unfold roundR. rewrite (floorR_unique 40 40) by lra. destruct (Rlt_dec _ _); [reflexivity|lra].
  - intros y x t u [H0 H1] [_ ->]. cbn. rewrite F3, F6, Dx. lra.
Qed.
Print Assumptions C123_signed_refuted.

(* force=True matches the first corner only: the other is up to half a pixel from the edge of the last pixel *)
Theorem C123_force_refuted :
  exists w ny nx, geometry Plain true true NoRef (Box 0 0 1 1) (Some (Res1 (2/5))) None = Some ((ny, nx), w) /\
  lies w (- (1/2)) (- (1/2)) 0 0 /\ lies w 2 2 1 1 /\ (ny = 2)%Z /\ (nx = 2)%Z /\ ~ lies w (IZR ny - 1/2) (IZR nx - 1/2) 1 1.
Proof.
  unfold geometry, build, finalize. cbn [scale_pos scale_res mid expand final_cdelt final_crpix final_ref].
  set (w1 := set_cdelt _ _ _).
  assert (Dy : rdy w1 = 2/5) by (subst w1; cbn [set_cdelt set_crpix rdy]; match goal with |- (if Rlt_dec ?a ?b then _ else _) = _ => destruct (Rlt_dec a b) end; lra).
  assert (Dx : rdx w1 = 2/5) by (subst w1; cbn [set_cdelt set_crpix rdx]; match goal with |- (if Rlt_dec ?a ?b then _ else _) = _ => destruct (Rlt_dec a b) end; lra).
  assert (F : rsys w1 = Plain /\ rlam w1 = 1 /\ rvx w1 = (0 * 1 + 1 * 1) / 2 /\ rvy w1 = (0 * 1 + 1 * 1) / 2 /\ rpy w1 = 1 /\ rpx w1 = 1) by (repeat split).
  clearbody w1. destruct F as (F1 & F2 & F3 & F4 & F5 & F6).
  destruct (Req_EM_T (rdy w1) 0) as [C|_]; [lra|]. destruct (Req_EM_T (rdx w1) 0) as [C|_]; [lra|].
  assert (Y : forall t, w2p_y w1 0 t = (t - 1/2) * (5/2)) by (intros t; unfold w2p_y; rewrite F1, F2, F4, F5, Dy; cbn [height]; lra).
  assert (X : forall u, w2p_x w1 0 u = (u - 1/2) * (5/2)) by (intros u; unfold w2p_x; rewrite F1, F3, F6, Dx; lra).
  rewrite !w2p_y_set, !w2p_x_set, !Y, !X.
  assert (R2 : forall e, e = 5/2 -> roundR (Rabs e) = 2%Z).
  { intros e ->. rewrite Rabs_right by lra. unfold roundR. rewrite (floorR_unique (5/2) 2) by lra.
    destruct (Rlt_dec _ _); [lra|]. destruct (Rlt_dec _ _); [lra|]. reflexivity. }
  eexists _, 2%Z, 2%Z. split; [f_equal; f_equal; f_equal; apply R2; lra|].
  unfold lies. cbn [set_crpix rvy rvx rpy rpx rdy rdx rsys rlam height]. rewrite F1, F3, F4, F5, F6, Dy, Dx. cbn [height]. repeat split; try lra.
Qed.
Print Assumptions C123_force_refuted.

(* A patch of 10 by 20 degrees across the date line, in radians, aligned with (0,0) *)
Example C123_ex : exists ny nx w, geometry Mer false false NoRef (Box (-5 * rdeg) (190 * rdeg) (5 * rdeg) (170 * rdeg)) (Some (Res1 (rdeg / 2))) None = Some ((ny, nx), w) /\
  rdx w = - (1/2) /\ rdy w = 1/2 /\ exists y x, whole y /\ whole x /\ at_pixel w y x 0 0.
Proof.
  pose proof rdeg_pos as P. assert (U : forall a, a * rdeg * unit_of false = a) by (intros a; unfold unit_of, rdeg; field; apply PI_neq0).
  destruct (C123_box Mer false false NoRef (-5 * rdeg) (190 * rdeg) (5 * rdeg) (170 * rdeg) (Res1 (rdeg / 2)) None) as (ny & nx & w & ey & ex & fy & fx & G & _ & Dy & Dx & _).
  - cbn. lra.
  - cbn. lra.
  - cbn [shown]. rewrite U. lra.
  - cbn [shown]. rewrite U. lra.
  - intros _. replace ((170 * rdeg - 190 * rdeg) * unit_of false) with (-20) by (rewrite <- (U (-20)); ring). rewrite Rabs_left; lra.
  - exists ny, nx, w. split; [exact G|]. cbn [res_y res_x] in Dy, Dx. unfold signR in Dy, Dx.
    destruct (Rlt_dec (5 * rdeg - -5 * rdeg) 0); [lra|]. destruct (Rlt_dec (170 * rdeg - 190 * rdeg) 0); [|lra].
    pose proof (U 1) as U1. split; [rewrite Dx; lra|]. split; [rewrite Dy; lra|].
    exact (C123_reference _ _ _ _ _ _ _ _ _ _ _ G eq_refl).
Qed.
