(* C83: changing the number of samples by Fourier resampling. *)
From Coq Require Import Reals Qreals Lra Lia.
From Coquelicot Require Import Complex.
From Verif Require Import Base SliceSpec ArrModel PixModel BlockModel DownModel FresModel FresLemmas FftSpec FftModel FftLemmas FftLemmas2 FftLemmas3 FftLemmas4 FftLemmas5.
Ltac Zify.zify_post_hook ::= idtac.
Open Scope R_scope. Open Scope C_scope.

Lemma rs1_p n m p q a j : (forall k, p k = q k) -> rs1 n m p a j = rs1 n m q a j.
Proof. intros H. apply dft_ext. intros k _. destruct (fsrc n m k); [rewrite H|]; reflexivity. Qed.
Lemma rs2_at cplx my mx a b : nonempty a -> (0 < my)%Z -> (0 < mx)%Z -> resample cplx my mx a = Some b -> f_ny b = my /\ f_nx b = mx /\
  forall y x, (0 <= y < my)%Z -> (0 <= x < mx)%Z -> f_at b y x = let v := rs1 (f_ny a) my one (fun j => rs1 (f_nx a) mx one (f_at a j) x) y in if cplx then v else RtoC (Re v).
Proof.
  intros H Hy Hx E. pose proof (resample_eq cplx my mx a H Hy Hx) as K. rewrite E in K. destruct K as (K1 & K2 & K3).
  assert (S1 : f_ny b = my) by (rewrite K1; destruct cplx; reflexivity). assert (S2 : f_nx b = mx) by (rewrite K2; destruct cplx; reflexivity).
  split; [exact S1|]. split; [exact S2|]. intros y x Iy Ix. rewrite K3 by congruence. destruct cplx; reflexivity.
Qed.

(* band-limited patterns: the same pattern, sampled at the same places of the axis, more or less densely *)
Theorem C83_trig : forall cplx ms ny nx my mx oy ox, (0 < ny)%Z -> (0 < nx)%Z -> (0 < my)%Z -> (0 < mx)%Z -> band (Z.min ny my) (Z.min nx mx) ms ->
  oaeq (resample cplx my mx (sampled ny nx oy ox (trig ms)))
       (sampled my mx (oy * (IZR my / IZR ny)) (ox * (IZR mx / IZR nx)) (fun u v => if cplx then trig ms u v else RtoC (Re (trig ms u v)))).
Proof.
  intros cplx ms ny nx my mx oy ox Py Px Hy Hx HB. pose proof (resample_eq cplx my mx (sampled ny nx oy ox (trig ms)) (conj Py Px) Hy Hx) as K.
  destruct (resample _ _ _ _) as [b|] eqn:E; [|contradiction]. clear K. destruct (rs2_at cplx my mx (sampled ny nx oy ox (trig ms)) b (conj Py Px) Hy Hx E) as (S1 & S2 & V). cbn [oaeq]. split; [exact S1|]. split; [exact S2|].
  rewrite S1, S2. intros y x Iy Ix. rewrite V by assumption. cbv zeta. cbn [sampled f_ny f_nx f_at].
  assert (E0 : rs1 ny my one (fun j => rs1 nx mx one (fun i => trig ms ((IZR j + oy) / IZR ny) ((IZR i + ox) / IZR nx)) x) y =
               trig ms ((IZR y + oy * (IZR my / IZR ny)) / IZR my) ((IZR x + ox * (IZR mx / IZR nx)) / IZR mx)).
  { rewrite (rs1_p ny my one (phase my 0 false)) by (intros; symmetry; apply phase_0).
    rewrite (rs1_ext ny my _ _ (fun j => rs1 nx mx (phase mx 0 false) (fun i => trig ms ((IZR j + oy) / IZR ny) ((IZR i + ox) / IZR nx)) x)) by (intros; apply rs1_p; intros; symmetry; apply phase_0).
    rewrite rs1_trig by assumption. rewrite !Rminus_0_r. reflexivity. }
  rewrite E0. reflexivity.
Qed.
(* a whole number of times more samples: the old ones are among the new ones *)
Theorem C83_keep : forall cplx ry rx a b, nonempty a -> (0 < ry)%Z -> (0 < rx)%Z -> (cplx = false -> is_real a) ->
  resample cplx (ry * f_ny a) (rx * f_nx a) a = Some b -> forall y x, (0 <= y < f_ny a)%Z -> (0 <= x < f_nx a)%Z -> f_at b (ry * y)%Z (rx * x)%Z = f_at a y x.
Proof.
  intros cplx ry rx a b [Py Px] Ry Rx R E y x Iy Ix. destruct (rs2_at cplx (ry * f_ny a) (rx * f_nx a) a b (conj Py Px) ltac:(apply Z.mul_pos_pos; assumption) ltac:(apply Z.mul_pos_pos; assumption) E) as (S1 & S2 & V). rewrite V by (split; [apply Z.mul_nonneg_nonneg; lia|apply Zmult_lt_compat_l; lia]). cbv zeta.
  rewrite (rs1_keep (f_ny a) ry) by assumption. rewrite (rs1_keep (f_nx a) rx) by assumption. destruct cplx; [reflexivity|]. apply real_re, R; auto.
Qed.
(* more samples and back: complex arrays are unchanged *)
Theorem C83_roundtrip_partial : forall my mx a, nonempty a -> (f_ny a <= my)%Z -> (f_nx a <= mx)%Z ->
  oaeq (bind (resample true my mx a) (resample true (f_ny a) (f_nx a))) a.
Proof.
  intros my mx a H Hy Hx. destruct H as [Py Px]. pose proof (resample_eq true my mx a (conj Py Px) ltac:(lia) ltac:(lia)) as K.
  destruct (resample true my mx a) as [b|]; [|contradiction]. cbn [bind oaeq drop_im] in *. assert (Hb : nonempty b) by (destruct K as (K1 & K2 & _); split; [rewrite K1|rewrite K2]; cbn; lia).
  pose proof (resample_eq true (f_ny a) (f_nx a) b Hb Py Px) as L. destruct (resample true (f_ny a) (f_nx a) b) as [c|]; [|contradiction]. cbn [oaeq drop_im] in *.
  eapply aeq_trans; [exact L|]. eapply aeq_trans; [|apply (rs2_back my mx a (conj Py Px) Hy Hx)]. destruct K as (K1 & K2 & K3). cbn [rs2 f_ny f_nx f_at] in K1, K2, K3.
  repeat split. cbn [rs2 f_ny f_nx f_at]. rewrite K1, K2. intros y x Iy Ix. apply rs1_ext. intros j Hj. apply rs1_ext. intros i Hi. rewrite K3 by congruence. reflexivity.
Qed.
(* real arrays lose half of their highest frequency: [1,-1] to 4 samples and back is [1/2,-1/2] *)
Definition alt : farr C := FA 1 2 (fun _ x => if (x =? 0)%Z then RtoC 1 else RtoC (-1)).
Lemma rs1_11 a j : rs1 1 1 one a j = a 0%Z.
Proof. unfold rs1, dft. rewrite !csum_1. change (fsrc 1 1 0) with (Some 0%Z). cbv iota. rewrite csum_1, !w_1. unfold one. apply injective_projections; cbn; field. Qed.
Theorem C83_roundtrip_refuted : is_real alt /\ exists b c, resample false 1 4 alt = Some b /\ resample false 1 2 b = Some c /\ f_at c 0%Z 0%Z = RtoC (1 / 2).
Proof.
  split; [intros y x _ _; cbn; destruct (x =? 0)%Z; reflexivity|].
  assert (H : nonempty alt) by (split; cbn; lia). pose proof (resample_eq false 1 4 alt H ltac:(lia) ltac:(lia)) as K. destruct (resample false 1 4 alt) as [b|] eqn:E; [|contradiction].
  destruct (rs2_at false 1 4 alt b H ltac:(lia) ltac:(lia) E) as (S1 & S2 & V). assert (Hb : nonempty b) by (split; lia).
  pose proof (resample_eq false 1 2 b Hb ltac:(lia) ltac:(lia)) as L. destruct (resample false 1 2 b) as [c|] eqn:E'; [|contradiction].
  destruct (rs2_at false 1 2 b c Hb ltac:(lia) ltac:(lia) E') as (S1' & S2' & V'). exists b, c. split; [reflexivity|]. split; [exact E'|].
  assert (Vb : forall x, (0 <= x < 4)%Z -> f_at b 0%Z x = RtoC (Re (w 4 (3 * x)))).
  { intros x Hx. rewrite V by lia. cbv zeta. f_equal. f_equal. cbn [alt f_ny f_nx]. rewrite rs1_11. unfold rs1. unfold dft at 1. rewrite csum_4.
    change (fsrc 2 4 0) with (Some 0%Z). change (fsrc 2 4 1) with (@None Z). change (fsrc 2 4 2) with (@None Z). change (fsrc 2 4 3) with (Some 1%Z). cbv iota. unfold dft, one. rewrite !csum_2. cbn [f_at Z.eqb].
    rewrite !w_2. change (Z.even (-1 * (0 * 0))) with true. change (Z.even (-1 * (1 * 0))) with true. change (Z.even (-1 * (0 * 1))) with true. change (Z.even (-1 * (1 * 1))) with false. cbv iota.
    replace (1 * (3 * x))%Z with (3 * x)%Z by lia. generalize (w 4 (1 * (0 * x))) (w 4 (1 * (1 * x))) (w 4 (1 * (2 * x))) (w 4 (3 * x)). intros u v s t. apply injective_projections; cbn; field. }
  rewrite V' by lia. cbv zeta. rewrite S1, S2. rewrite rs1_11. rewrite (rs1_ext 4 2 one _ (fun x => RtoC (Re (w 4 (3 * x))))) by (intros; apply Vb; assumption).
  unfold rs1. unfold dft at 1. rewrite csum_2. change (fsrc 4 2 0) with (Some 0%Z). change (fsrc 4 2 1) with (Some 3%Z). cbv iota. unfold dft, one. rewrite !csum_4.
  change (w 4 (3 * 0)) with (w 4 0). change (w 4 (3 * 1)) with (w 4 3). rewrite (w_eqm 4 ltac:(lia) (3 * 2) 2) by reflexivity. rewrite (w_eqm 4 ltac:(lia) (3 * 3) 1) by reflexivity.
  rewrite (w_eqm 4 ltac:(lia) (-1 * (1 * 3)) 1), (w_eqm 4 ltac:(lia) (-1 * (2 * 3)) 2), (w_eqm 4 ltac:(lia) (-1 * (3 * 3)) 3) by reflexivity.
  change (-1 * (0 * 0))%Z with 0%Z. change (-1 * (1 * 0))%Z with 0%Z. change (-1 * (2 * 0))%Z with 0%Z. change (-1 * (3 * 0))%Z with 0%Z. change (-1 * (0 * 3))%Z with 0%Z. change (1 * (0 * 0))%Z with 0%Z. change (1 * (1 * 0))%Z with 0%Z.
  rewrite w_4_1, w_4_2, w_4_3, !w_0 by lia. apply injective_projections; cbn; field.
Qed.
(* an odd number n = 2h+1 of samples to more: the highest frequency h comes out as -(h+1). So a single sample [v] becomes [v,-v,...] *)
Theorem C83_odd_refuted : forall h m, (0 <= h)%Z -> (2 * h + 1 < m)%Z ->
  oaeq (resample true 1 m (sampled 1 (2 * h + 1) 0 0 (trig [(RtoC 1, 0%Z, h)]))) (sampled 1 m 0 0 (trig [(RtoC 1, 0%Z, (- (h + 1))%Z)])).
Proof.
  intros h m Hh Hm. set (n := (2 * h + 1)%Z) in *. assert (Hn : (0 < n)%Z) by lia. assert (NE : nonempty (sampled 1 n 0 0 (trig [(RtoC 1, 0%Z, h)]))) by (split; [reflexivity|exact Hn]). pose proof (resample_eq true 1 m (sampled 1 n 0 0 (trig [(RtoC 1, 0%Z, h)])) NE ltac:(lia) ltac:(lia)) as K.
  destruct (resample _ _ _ _) as [b|] eqn:E; [|contradiction]. clear K. destruct (rs2_at true 1 m _ b NE ltac:(lia) ltac:(lia) E) as (S1 & S2 & V). cbn [oaeq]. split; [exact S1|]. split; [exact S2|].
  rewrite S1, S2. intros y x Iy Ix. rewrite V by assumption. cbv zeta. cbn [sampled f_ny f_nx f_at]. rewrite rs1_11. assert (y = 0%Z) by lia. subst y.
  assert (T : forall k l z, (0 < l)%Z -> trig [(RtoC 1, 0%Z, k)] ((IZR 0 + 0) / IZR 1) ((IZR z + 0) / IZR l) = w l (k * z)).
  { intros k l z Hl. rewrite trig_cons. cbn [trig fold_right]. rewrite w_as by exact Hl. replace (IZR 0 * ((IZR 0 + 0) / IZR 1) + IZR k * ((IZR z + 0) / IZR l))%R with (IZR k * (IZR z / IZR l))%R by (field; apply IZRn0, Hl). ring. }
  rewrite T by lia. rewrite (rs1_ext n m one _ (fun i => RtoC 1 * w n (h * i))) by (intros; rewrite T by lia; ring).
  unfold rs1. rewrite (dft_ext 1 m _ (fun k => if (k =? m - (h + 1))%Z then 1 else 0)).
  - unfold dft. rewrite (csum_ext m _ (fun k => if (k =? m - (h + 1))%Z then w m (1 * (k * x)) else 0)) by (intros k _; destruct (k =? _)%Z; ring).
    rewrite (csum_single m (m - (h + 1)) (fun k => w m (1 * (k * x)))) by lia. replace (1 * ((m - (h + 1)) * x))%Z with (m * x + - (h + 1) * x)%Z by lia. rewrite w_plus, w_n by lia. ring.
  - intros k Hk. pose proof (half n ltac:(lia)) as Hn2. assert (Eh : (n / 2 = h)%Z) by (unfold n; symmetry; apply Z.div_unique with 1%Z; lia).
    destruct (fsrc n m k) as [i|] eqn:F.
    + pose proof (fsrc_range n m k i ltac:(lia) ltac:(lia) F) as Ri. apply fsrc_some in F. rewrite Z.min_l in F by lia. rewrite Eh in F.
      rewrite dft_mode by (auto; lia). replace (- -1 * h)%Z with h by lia. rewrite (Z.mod_small h n) by (unfold n; lia). unfold one.
      destruct (i =? h)%Z eqn:E1, (k =? m - (h + 1))%Z eqn:E2; try (exfalso; lia).
      * field. apply Cn0. lia.
      * ring.
    + unfold fsrc in F. cbv zeta in F. rewrite Z.min_l in F by lia. rewrite Eh in F. destruct ((0 <=? k) && (k <? h))%Z; [discriminate|].
      destruct (k =? m - (h + 1))%Z eqn:E2; [|reflexivity]. replace ((m - (n - h) <=? k) && (k <? m))%Z with true in F by lia. discriminate.
Qed.

(* enmap.resample: corner=True scales the map from edge to edge and the values of a band-limited pattern are those at the pixels'
   places on the sky *)
Lemma Q2R_inject z : Q2R (inject_Z z) = IZR z.
Proof. unfold Q2R. cbn. field. Qed.
Theorem C83_map : forall ms ny nx my mx gy gx v, (0 < ny)%Z -> (0 < nx)%Z -> (0 < my)%Z -> (0 < mx)%Z -> band (Z.min ny my) (Z.min nx mx) ms ->
  exists o, map_resample true 0 0 my mx (FM (sampled ny nx gy gx (trig ms)) v) = Some o /\ f_ny (fm_arr o) = my /\ f_nx (fm_arr o) = mx /\
  forall y x, (0 <= y < my)%Z -> (0 <= x < mx)%Z ->
    let py := ((inject_Z y + (1 # 2)) * inject_Z ny / inject_Z my - (1 # 2))%Q in let px := ((inject_Z x + (1 # 2)) * inject_Z nx / inject_Z mx - (1 # 2))%Q in
    f_at (fm_arr o) y x = RtoC (Re (trig ms ((Q2R py + gy) / IZR ny) ((Q2R px + gx) / IZR nx))) /\
    (sky_y (fm_wcs o) (inject_Z y) == sky_y v py)%Q /\ (sky_x (fm_wcs o) (inject_Z x) == sky_x v px)%Q.
Proof.
  intros ms ny nx my mx gy gx v Py Px Hy Hx HB. unfold map_resample. cbn [fm_arr fm_wcs].
  pose proof (emap_resample_eq true 0 0 my mx (sampled ny nx gy gx (trig ms)) (conj Py Px) Hy Hx) as K. destruct (emap_resample _ _ _ _ _ _) as [b|]; [|contradiction]. cbn [bind oaeq] in *.
  eexists. split; [reflexivity|]. cbn [fm_arr fm_wcs]. destruct K as (K1 & K2 & K3). split; [exact K1|]. split; [exact K2|]. intros y x Iy Ix. cbv zeta.
  assert (Z0 : forall n, (0 < n)%Z -> ~ (inject_Z n == 0)%Q) by (intros n Hn; unfold Qeq; cbn; lia). split.
  - rewrite K3 by (rewrite ?K1, ?K2; cbn; assumption). cbn [drop_im amap f_at rs2 sampled f_ny f_nx]. rewrite rs1_trig by assumption.
    rewrite !Q2R_minus, !Q2R_div, !Q2R_mult, !Q2R_plus, !Q2R_inject by (apply Z0; assumption).
    replace (Q2R (1 # 2)) with (1 / 2)%R by (unfold Q2R; cbn; field). unfold offs. pose proof (IZRn0 _ Py). pose proof (IZRn0 _ Px). pose proof (IZRn0 _ Hy). pose proof (IZRn0 _ Hx).
    do 3 f_equal; field; auto.
  - unfold sky_y, sky_x, sky_at, wcs_scale. cbn. split; field; repeat split; apply Z0; assumption.
Qed.
(* corner=False: the first pixel is kept in place in the values, but not in the wcs, when the sizes differ *)
Theorem C83_map_corner_false_refuted : forall ms ny nx my mx gy gx v, (0 < ny)%Z -> (0 < nx)%Z -> (0 < my)%Z -> (0 < mx)%Z -> band (Z.min ny my) (Z.min nx mx) ms ->
  exists o, map_resample false 0 0 my mx (FM (sampled ny nx gy gx (trig ms)) v) = Some o /\
  f_at (fm_arr o) 0%Z 0%Z = RtoC (Re (f_at (sampled ny nx gy gx (trig ms)) 0%Z 0%Z)) /\
  ((sky_y (fm_wcs o) 0 == sky_y v 0)%Q <-> (cdelt_y v == 0)%Q \/ my = ny) /\ ((sky_x (fm_wcs o) 0 == sky_x v 0)%Q <-> (cdelt_x v == 0)%Q \/ mx = nx).
Proof.
  intros ms ny nx my mx gy gx v Py Px Hy Hx HB. unfold map_resample. cbn [fm_arr fm_wcs].
  pose proof (emap_resample_eq false 0 0 my mx (sampled ny nx gy gx (trig ms)) (conj Py Px) Hy Hx) as K. destruct (emap_resample _ _ _ _ _ _) as [b|]; [|contradiction]. cbn [bind oaeq] in *.
  eexists. split; [reflexivity|]. cbn [fm_arr fm_wcs]. destruct K as (K1 & K2 & K3). split.
  - rewrite K3 by (rewrite ?K1, ?K2; cbn; lia). cbn [drop_im amap f_at rs2 sampled f_ny f_nx]. rewrite rs1_trig by assumption. unfold offs. pose proof (IZRn0 _ Py). pose proof (IZRn0 _ Px). pose proof (IZRn0 _ Hy). pose proof (IZRn0 _ Hx).
    do 3 f_equal; field; auto.
  - assert (G : forall val pix d n m, (0 < n)%Z -> (0 < m)%Z -> (sky_at val ((pix - 0) * (inject_Z m / inject_Z n) + 0) (d / (inject_Z m / inject_Z n)) 0 == sky_at val pix d 0)%Q <-> (d == 0)%Q \/ m = n).
    { intros val pix d n m Hn Hm. assert (N0 : ~ (inject_Z n == 0)%Q) by (unfold Qeq; cbn; lia). assert (M0 : ~ (inject_Z m == 0)%Q) by (unfold Qeq; cbn; lia).
      assert (Df : (sky_at val ((pix - 0) * (inject_Z m / inject_Z n) + 0) (d / (inject_Z m / inject_Z n)) 0 - sky_at val pix d 0 == d * ((inject_Z n - inject_Z m) / inject_Z m))%Q) by (unfold sky_at; field; auto).
      split.
      - intros E. rewrite E in Df. assert (Dz : (d * ((inject_Z n - inject_Z m) / inject_Z m) == 0)%Q) by (rewrite <- Df; ring). apply Qmult_integral in Dz. destruct Dz as [Dz|Dz]; [left; exact Dz|right].
        assert (Q0 : (inject_Z n - inject_Z m == 0)%Q) by (setoid_replace (inject_Z n - inject_Z m)%Q with ((inject_Z n - inject_Z m) / inject_Z m * inject_Z m)%Q by (field; exact M0); rewrite Dz; ring).
        unfold Qeq in Q0. cbn in Q0. lia.
      - intros O. assert (Dz : (d * ((inject_Z n - inject_Z m) / inject_Z m) == 0)%Q) by (destruct O as [O | ->]; [rewrite O; ring|field; exact N0]). rewrite Dz in Df.
        apply (Qplus_inj_r _ _ (- sky_at val pix d 0)). unfold Qminus in Df. rewrite Df. ring. }
    split; apply G; assumption.
Qed.
(* off moves the pattern by that many output pixels; the result is real even if the map was not *)
Theorem C83_map_off : forall corner offy offx ms ny nx my mx gy gx, (0 < ny)%Z -> (0 < nx)%Z -> (0 < my)%Z -> (0 < mx)%Z -> band (Z.min ny my) (Z.min nx mx) ms ->
  oaeq (emap_resample corner offy offx my mx (sampled ny nx gy gx (trig ms)))
    (FA my mx (fun y x => RtoC (Re (trig ms (if corner then (IZR y + 1 / 2 - offy) / IZR my + (gy - 1 / 2) / IZR ny else (IZR y - offy) / IZR my + gy / IZR ny)
                                             (if corner then (IZR x + 1 / 2 - offx) / IZR mx + (gx - 1 / 2) / IZR nx else (IZR x - offx) / IZR mx + gx / IZR nx))))).
Proof.
  intros corner offy offx ms ny nx my mx gy gx Py Px Hy Hx HB. pose proof (emap_resample_eq corner offy offx my mx (sampled ny nx gy gx (trig ms)) (conj Py Px) Hy Hx) as K.
  destruct (emap_resample _ _ _ _ _ _) as [b|]; [|contradiction]. cbn [oaeq] in *. destruct K as (K1 & K2 & K3). split; [exact K1|]. split; [exact K2|]. intros y x Iy Ix. rewrite K3 by assumption. clear Iy Ix.
  cbn [drop_im amap f_at rs2 sampled f_ny f_nx]. rewrite rs1_trig by assumption. pose proof (IZRn0 _ Py). pose proof (IZRn0 _ Px). pose proof (IZRn0 _ Hy). pose proof (IZRn0 _ Hx).
  unfold offs. destruct corner; do 3 f_equal; field; auto.
Qed.
Theorem C83_map_complex_refuted : oaeq (emap_resample true 0 0 2 2 (FA 2 2 (fun _ _ => Ci))) (FA 2 2 (fun _ _ => RtoC 0)).
Proof.
  assert (B : band (Z.min 2 2) (Z.min 2 2) [(Ci, 0%Z, 0%Z)]) by (repeat constructor; cbn; lia).
  assert (T : forall u v, trig [(Ci, 0%Z, 0%Z)] u v = Ci).
  { intros u v. rewrite trig_cons. cbn [trig fold_right]. replace (2 * PI * (IZR 0 * u + IZR 0 * v))%R with 0%R by (cbn; ring). rewrite cis_0. ring. }
  pose proof (emap_resample_eq true 0 0 2 2 (FA 2 2 (fun _ _ => Ci)) ltac:(split; cbn; lia) ltac:(lia) ltac:(lia)) as K. destruct (emap_resample _ _ _ _ _ _) as [b|]; [|contradiction]. cbn [oaeq] in *.
  destruct K as (K1 & K2 & K3). split; [exact K1|]. split; [exact K2|]. intros y x Iy Ix. rewrite K3 by assumption. cbn [drop_im amap f_at rs2 f_ny f_nx].
  rewrite (rs1_ext 2 2 _ _ (fun j => rs1 2 2 (phase 2 (offs true 0 2 2) false) (fun i => trig [(Ci, 0%Z, 0%Z)] ((IZR j + 0) / IZR 2) ((IZR i + 0) / IZR 2)) x)) by (intros; apply rs1_ext; intros; symmetry; apply T).
  rewrite rs1_trig by (lia || exact B). rewrite T. reflexivity.
Qed.
(* resample_fft's three units: the spectrum it gives is, in the same unit, that of the resampled map.
   p is the area of an input pixel; an output pixel has the area of the map divided by the number of output pixels. *)
Theorem C83_units : forall (u : norm) corner offy offx my mx a p, nonempty a -> is_real a -> (0 < my)%Z -> (0 < mx)%Z -> (0 < p)%R ->
  exists fi fo b r, emap_fft u false p a = Some fi /\ emap_resample_fft corner offy offx (RtoC (unit_norm u (my * mx) (f_ny a * f_nx a))) my mx fi = Some fo /\
  emap_ifft u false (p * IZR (f_ny a * f_nx a) / IZR (my * mx)) fo = Some b /\ emap_resample corner offy offx my mx a = Some r /\
  forall y x, (0 <= y < my)%Z -> (0 <= x < mx)%Z -> Re (f_at b y x) = ((match u with NoNorm => IZR (my * mx) | _ => 1 end) * Re (f_at r y x))%R.
Proof.
  intros u corner offy offx my mx a p H R Hy Hx Hp. pose proof (units_eq u corner offy offx my mx a p H Hy Hx Hp) as K. change (nprod AXY a) with (f_ny a * f_nx a)%Z in K.
  destruct (emap_fft u false p a) as [fi|]; [|contradiction]. cbn [bind] in K. destruct (emap_resample_fft _ _ _ _ _ _ fi) as [fo|] eqn:Ef; [|contradiction]. cbn [bind] in K.
  destruct (emap_ifft _ _ _ fo) as [b|] eqn:Eb; [|contradiction]. pose proof (emap_resample_eq corner offy offx my mx a H Hy Hx) as L. destruct (emap_resample _ _ _ _ _ a) as [r|]; [|contradiction].
  exists fi, fo, b, r. split; [reflexivity|]. split; [exact Ef|]. split; [exact Eb|]. split; [reflexivity|]. cbn [oaeq] in *. destruct K as (K1 & K2 & K3), L as (L1 & L2 & L3). intros y x Iy Ix.
  cbn [scale amap drop_im rs2 f_ny f_nx] in K1, K2, L1, L2. rewrite K3, L3 by congruence. cbn [drop_im scale amap f_at]. set (z := f_at (rs2 _ _ _ _ _) y x). generalize (match u with NoNorm => IZR (my * mx) | _ => 1%R end); intros c; unfold Re, RtoC, Cmult; cbn [fst snd]; ring.
Qed.

Example C83_ex : band (Z.min 5 8) (Z.min 6 4) [(RtoC 2, 1%Z, (-1)%Z); (Ci, (-1)%Z, 1%Z)] /\ nonempty alt /\ ~ band 3 3 [(RtoC 1, 1%Z, 0%Z)] /\ exists b, resample false 2 4 alt = Some b.
Proof.
  split; [repeat constructor; cbn; lia|]. split; [split; cbn; lia|]. split; [intros B; apply Forall_inv in B; cbv in B; destruct B as [B _]; discriminate B|].
  pose proof (resample_eq false 2 4 alt ltac:(split; cbn; lia) ltac:(lia) ltac:(lia)) as K. destruct (resample false 2 4 alt) as [b|]; [|contradiction]. eauto.
Qed.
Print Assumptions C83_trig. Print Assumptions C83_map. Print Assumptions C83_units.
