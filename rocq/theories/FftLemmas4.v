(* Changing the number of samples. *)
From Coq Require Import Reals Lra Lia.
From Coquelicot Require Import Complex.
From Verif Require Import Base SliceSpec ArrModel PixModel BlockModel FresSpec FresModel FresLemmas FftSpec FftModel FftLemmas FftLemmas2 FftLemmas3.
Ltac Zify.zify_post_hook ::= idtac.
Open Scope R_scope. Open Scope C_scope.

(* one axis: from n to m samples, multiplying by p *)
Definition rs1 (n m : Z) (p a : Z -> C) (j : Z) : C :=
  dft 1 m (fun k => match fsrc n m k with Some i => / RtoC (IZR n) * dft (-1) n a i * p k | None => 0 end) j.
Lemma rs1_ext n m p a b j : (forall i, (0 <= i < n)%Z -> a i = b i) -> rs1 n m p a j = rs1 n m p b j.
Proof. intros H. apply dft_ext. intros k _. destruct (fsrc n m k); [|reflexivity]. do 2 f_equal. apply dft_ext, H. Qed.
Lemma rs1_plus n m p a b j : rs1 n m p (fun i => a i + b i) j = rs1 n m p a j + rs1 n m p b j.
Proof. unfold rs1. rewrite <- dft_plus. apply dft_ext. intros k _. destruct (fsrc n m k); [rewrite dft_plus|]; ring. Qed.
Lemma rs1_scal n m p c a j : rs1 n m p (fun i => c * a i) j = c * rs1 n m p a j.
Proof. unfold rs1. rewrite <- dft_scal. apply dft_ext. intros k _. destruct (fsrc n m k); [rewrite dft_scal|]; ring. Qed.
Lemma rs1_0 n m p j : rs1 n m p (fun _ => RtoC 0) j = 0.
Proof. transitivity (RtoC 0 * rs1 n m p one j); [|apply Cmult_0_l]. rewrite <- rs1_scal. apply rs1_ext. intros. symmetry. apply Cmult_0_l. Qed.

(* where a mode goes *)
Lemma fsrc_some n m i j : fsrc n m i = Some j ->
  (0 <= i < Z.min n m / 2 /\ j = i)%Z \/ (m - (Z.min n m - Z.min n m / 2) <= i < m /\ j = i - m + n)%Z.
Proof.
  unfold fsrc. cbv zeta. set (h := (Z.min n m / 2)%Z). destruct ((0 <=? i)%Z && (i <? h)%Z) eqn:E1; intros H.
  - apply Some_inj in H. left. lia.
  - destruct ((m - (Z.min n m - h) <=? i)%Z && (i <? m)%Z) eqn:E2; [|discriminate]. apply Some_inj in H. right. lia.
Qed.
Lemma fsrc_inj n m i i' j : (0 < n)%Z -> (0 < m)%Z -> fsrc n m i = Some j -> fsrc n m i' = Some j -> i = i'.
Proof.
  intros Hn Hm H1 H2. pose proof (half (Z.min n m) ltac:(lia)). apply fsrc_some in H1. apply fsrc_some in H2. lia.
Qed.
Lemma fsrc_range n m i j : (0 < n)%Z -> (0 < m)%Z -> fsrc n m i = Some j -> (0 <= j < n)%Z.
Proof. intros Hn Hm H. pose proof (half (Z.min n m) ltac:(lia)). apply fsrc_some in H. lia. Qed.
Lemma inside_fidx n k : (0 < n)%Z -> inside n k -> k mod n = fidx n k.
Proof.
  unfold inside, fidx. intros Hn Hk. destruct (0 <=? k)%Z eqn:E; [apply Z.mod_small; lia|].
  replace k with ((n + k) + (-1) * n)%Z at 1 by lia. rewrite Z.mod_add by lia. apply Z.mod_small. lia.
Qed.
Lemma inside_le n m k : (n <= m)%Z -> inside n k -> inside m k.
Proof. unfold inside. lia. Qed.
Lemma fsrc_mode n m k i : (0 < n)%Z -> (0 < m)%Z -> inside (Z.min n m) k -> (0 <= i < m)%Z ->
  match fsrc n m i with Some j => (j =? k mod n)%Z | None => false end = (i =? k mod m)%Z.
Proof.
  intros Hn Hm Hk Hi. assert (Hkn : inside n k) by (apply (inside_le (Z.min n m)); [lia|exact Hk]). assert (Hkm : inside m k) by (apply (inside_le (Z.min n m)); [lia|exact Hk]).
  assert (E : fsrc n m (k mod m) = Some (k mod n)%Z).
  { rewrite !inside_fidx by assumption. apply fsrc_freq_odd; try assumption; [unfold has_freq, inside in *; lia|].
    destruct (Z.even (Z.min n m)) eqn:Ev; [right; reflexivity|left]. pose proof (Z.odd_spec (Z.min n m)) as [Od _]. rewrite <- Z.negb_even, Ev in Od. destruct (Od eq_refl) as [q Eq].
    unfold has_freq, inside in *. lia. }
  destruct (i =? k mod m)%Z eqn:Ei.
  - apply Z.eqb_eq in Ei. subst i. rewrite E. apply Z.eqb_refl.
  - apply Z.eqb_neq in Ei. destruct (fsrc n m i) as [j|] eqn:F; [|reflexivity]. apply Z.eqb_neq. intros ->. apply Ei. apply (fsrc_inj n m i (k mod m) (k mod n)); assumption.
Qed.
Lemma rs1_mode n m s k o j : (0 < n)%Z -> (0 < m)%Z -> inside (Z.min n m) k ->
  rs1 n m (phase m s false) (fun i => cis (2 * PI * (IZR k * ((IZR i + o) / IZR n)))%R) j = cis (2 * PI * (IZR k * ((IZR j + (o * (IZR m / IZR n) - s)) / IZR m)))%R.
Proof.
  intros Hn Hm Hk. pose proof (IZRn0 n Hn) as N0. pose proof (IZRn0 m Hm) as M0. set (c := cis (2 * PI * (IZR k * (o / IZR n)))%R).
  assert (Hkm : inside m k) by (apply (inside_le (Z.min n m)); [lia|exact Hk]).
  rewrite (rs1_ext n m _ _ (fun i => c * w n (k * i))).
  2: { intros i _. unfold c. rewrite w_as by exact Hn. rewrite <- cis_plus. f_equal. field. exact N0. }
  unfold rs1. rewrite (dft_ext 1 m _ (fun i => if (i =? k mod m)%Z then c * phase m s false i else 0)).
  2: { intros i Hi. rewrite <- (fsrc_mode n m k i) by assumption. destruct (fsrc n m i) as [l|] eqn:F; [|reflexivity].
       pose proof (fsrc_range n m i l Hn Hm F) as Hl.
       rewrite dft_mode by auto. replace (- -1 * k)%Z with k by lia. destruct (l =? k mod n)%Z; [field; apply Cn0, Hn|ring]. }
  unfold dft. rewrite (csum_ext m _ (fun i => if (i =? k mod m)%Z then c * phase m s false i * w m (1 * (i * j)) else 0)) by (intros i _; destruct (i =? k mod m)%Z; ring).
  rewrite (csum_single m (k mod m) (fun i => c * phase m s false i * w m (1 * (i * j)))) by (apply Z.mod_pos_bound, Hm).
  rewrite phase_mode by assumption. rewrite (w_eqm m Hm (1 * (k mod m * j)) (k * j)).
  2: { rewrite Z.mul_1_l. rewrite Z.mul_mod, Z.mod_mod, <- Z.mul_mod by lia. reflexivity. }
  unfold c. rewrite w_as by exact Hm. rewrite <- !cis_plus. f_equal. field. split; assumption.
Qed.
Lemma rs1_trig ny nx my mx sy sx oy ox ms y x : (0 < ny)%Z -> (0 < nx)%Z -> (0 < my)%Z -> (0 < mx)%Z -> band (Z.min ny my) (Z.min nx mx) ms ->
  rs1 ny my (phase my sy false) (fun j => rs1 nx mx (phase mx sx false) (fun i => trig ms ((IZR j + oy) / IZR ny) ((IZR i + ox) / IZR nx)) x) y =
  trig ms ((IZR y + (oy * (IZR my / IZR ny) - sy)) / IZR my) ((IZR x + (ox * (IZR mx / IZR nx) - sx)) / IZR mx).
Proof.
  intros Py Px Qy Qx. induction ms as [|[[c ky] kx] ms IH]; intros HB.
  - cbn [trig fold_right]. rewrite (rs1_ext ny my _ _ (fun _ => RtoC 0)); [apply rs1_0|]. intros. apply rs1_0.
  - pose proof (Forall_inv HB) as [By Bx]. pose proof (Forall_inv_tail HB) as HB'. rewrite trig_cons, <- IH by exact HB'.
    rewrite (rs1_ext ny my _ _ (fun j => c * cis (2 * PI * (IZR kx * ((IZR x + (ox * (IZR mx / IZR nx) - sx)) / IZR mx))) * cis (2 * PI * (IZR ky * ((IZR j + oy) / IZR ny))) +
       rs1 nx mx (phase mx sx false) (fun i => trig ms ((IZR j + oy) / IZR ny) ((IZR i + ox) / IZR nx)) x)).
    + rewrite rs1_plus, rs1_scal. rewrite rs1_mode by assumption. f_equal. rewrite cis_prod. ring.
    + intros j _. change (fun i => trig ((c, ky, kx) :: ms) ((IZR j + oy) / IZR ny) ((IZR i + ox) / IZR nx)) with
        (fun i => c * cis (2 * PI * (IZR ky * ((IZR j + oy) / IZR ny) + IZR kx * ((IZR i + ox) / IZR nx)))%R + trig ms ((IZR j + oy) / IZR ny) ((IZR i + ox) / IZR nx)).
      rewrite rs1_plus. f_equal. rewrite <- rs1_mode by assumption.
      rewrite (rs1_ext nx mx _ _ (fun i => c * cis (2 * PI * (IZR ky * ((IZR j + oy) / IZR ny))) * cis (2 * PI * (IZR kx * ((IZR i + ox) / IZR nx))))).
      * rewrite rs1_scal. ring.
      * intros i _. rewrite cis_prod. ring.
Qed.

(* the whole array *)
Definition rs2 (py px : Z -> C) (my mx : Z) (a : farr C) : farr C :=
  FA my mx (fun y x => rs1 (f_ny a) my py (fun j => rs1 (f_nx a) mx px (f_at a j) x) y).
Lemma rs_spec py px my mx a fo : nonempty a -> (0 < my)%Z -> (0 < mx)%Z ->
  resample_fft (RtoC 0) (fun z => z * / RtoC (IZR (nprod AXY a))) (fun _ b => b) (dft_ax (-1) AXY a) my mx = Some fo ->
  f_ny fo = my /\ f_nx fo = mx /\ aeq (dft_ax 1 AXY (mulp py px fo)) (rs2 py px my mx a).
Proof.
  intros [Py Px] Hy Hx E. destruct (resample_fft_spec (RtoC 0) (fun z => z * / RtoC (IZR (nprod AXY a))) (fun _ b => b) (dft_ax (-1) AXY a) my mx Py Px Hy Hx) as (o & E' & Ny & Nx & V).
  rewrite E in E'. apply Some_inj in E'. subst o. split; [exact Ny|]. split; [exact Nx|]. split; [exact Ny|]. split; [exact Nx|].
  intros y x _ _. cbn [dft_ax dft_y dft_x f_at f_ny f_nx mulp rs2] in *. rewrite Ny, Nx. unfold rs1 at 1. apply dft_ext. intros ky Hky.
  destruct (fsrc (f_ny a) my ky) as [iy|] eqn:Fy.
  - rewrite (dft_ext 1 mx _ (fun kx => dft (-1) (f_ny a) (fun j => match fsrc (f_nx a) mx kx with Some l => / RtoC (IZR (f_nx a)) * dft (-1) (f_nx a) (f_at a j) l * px kx | None => 0 end) iy * (/ RtoC (IZR (f_ny a)) * py ky))).
    + rewrite dft_scal_r. rewrite dft_swap. fold (rs1 (f_nx a) mx px).
      change (fun j => dft 1 mx (fun kx => match fsrc (f_nx a) mx kx with Some l => / RtoC (IZR (f_nx a)) * dft (-1) (f_nx a) (f_at a j) l * px kx | None => 0 end) x) with (fun j => rs1 (f_nx a) mx px (f_at a j) x). ring.
    + intros kx Hkx. rewrite V, Fy. destruct (fsrc (f_nx a) mx kx) as [ix|].
      * cbn [nprod]. rewrite mult_IZR, RtoC_mult. rewrite dft_scal_r, dft_scal. field. split; apply Cn0; assumption.
      * rewrite (dft_ext (-1) (f_ny a) (fun _ => RtoC 0) (fun j => RtoC 0 * one j)) by (intros; symmetry; apply Cmult_0_l). rewrite dft_scal. ring.
  - rewrite (dft_ext 1 mx _ (fun j => RtoC 0 * one j)); [rewrite dft_scal; ring|]. intros kx Hkx. rewrite V, Fy. ring.
Qed.
Lemma resample_some {A} (z : A) f g a my mx : nonempty a -> (0 < my)%Z -> (0 < mx)%Z -> exists o, resample_fft z f g a my mx = Some o.
Proof. intros [H1 H2] H3 H4. destruct (resample_fft_spec z f g a my mx H1 H2 H3 H4) as (o & E & _). eauto. Qed.
Lemma mulp_one a : aeq (mulp one one a) a.
Proof. repeat split. cbn. intros. unfold one. ring. Qed.
Lemma drop_im_ext c a b : aeq a b -> aeq (drop_im c a) (drop_im c b).
Proof. intros H. destruct c; [exact H|]. apply amap_ext, H. Qed.
Lemma resample_eq cplx my mx a : nonempty a -> (0 < my)%Z -> (0 < mx)%Z -> oaeq (resample cplx my mx a) (drop_im cplx (rs2 one one my mx a)).
Proof.
  intros H Hy Hx. unfold resample. rewrite fft_some by exact H. cbn [bind]. cbv zeta.
  destruct (resample_some (RtoC 0) (fun z => z * / RtoC (IZR (nprod AXY a))) (fun _ b => b) (dft_ax (-1) AXY a) my mx (dft_ax_ne _ _ _ H) Hy Hx) as [fo E]. rewrite E. cbn [bind].
  destruct (rs_spec one one my mx a fo H Hy Hx E) as (Ny & Nx & V). rewrite ifft_some by (split; [rewrite Ny|rewrite Nx]; assumption). cbn [bind oaeq].
  apply drop_im_ext. eapply aeq_trans; [|exact V]. apply dft_ax_ext, aeq_sym, mulp_one.
Qed.
Lemma shift_nofft sy sx a : shift true AXY sy sx false false true a =
  Some (FA (f_ny a) (f_nx a) (fun y x => f_at a y x * phase (f_ny a) sy false y * phase (f_nx a) sx false x)).
Proof. reflexivity. Qed.
Definition offs (corner : bool) (off : R) (m n : Z) : R := if corner then (off - (1 / 2 - 1 / 2 * IZR m / IZR n))%R else off.
Lemma resample_core corner offy offx my mx a (c nrm d : C) : nonempty a -> (0 < my)%Z -> (0 < mx)%Z ->
  oaeq (bind (emap_resample_fft corner offy offx nrm my mx (scale c (dft_ax (-1) AXY a))) (fun fo => bind (ifft false AXY fo) (fun o => Some (scale d o))))
    (scale (c * nrm * d * RtoC (IZR (nprod AXY a))) (rs2 (phase my (offs corner offy my (f_ny a)) false) (phase mx (offs corner offx mx (f_nx a)) false) my mx a)).
Proof.
  intros H Hy Hx. unfold emap_resample_fft. cbv zeta. set (fi := scale c (dft_ax (-1) AXY a)). change (f_ny fi) with (f_ny a). change (f_nx fi) with (f_nx a).
  fold (offs corner offy my (f_ny a)). fold (offs corner offx mx (f_nx a)). set (sy := offs corner offy my (f_ny a)). set (sx := offs corner offx mx (f_nx a)).
  pose proof (Cn0 _ (nprod_pos AXY a H)) as N0. destruct H as [Py Px].
  destruct (resample_fft_spec (RtoC 0) (fun z => z * / RtoC (IZR (nprod AXY a))) (fun _ b => b) (dft_ax (-1) AXY a) my mx Py Px Hy Hx) as (fo & E & Ny & Nx & V).
  destruct (resample_fft_spec (RtoC 0) (fun z => z * nrm) (fun _ b => b) fi my mx Py Px Hy Hx) as (fo' & E' & Ny' & Nx' & V').
  rewrite E'. cbn [bind]. rewrite shift_nofft. cbn [bind]. rewrite ifft_some by (split; cbn [f_ny f_nx]; [rewrite Ny'|rewrite Nx']; assumption). cbn [bind oaeq].
  destruct (rs_spec (phase my sy false) (phase mx sx false) my mx a fo (conj Py Px) Hy Hx E) as (_ & _ & W).
  eapply aeq_trans; [|apply scale_ext; exact W]. eapply aeq_trans; [|apply dft_ax_scale].
  eapply aeq_trans; [apply aeq_sym, dft_ax_scale|].
  apply dft_ax_ext. split; [cbn; congruence|]. split; [cbn; congruence|]. cbn [f_ny f_nx f_at mulp scale amap]. intros y x _ _. rewrite V, V', Ny', Nx'. change (f_ny fi) with (f_ny a). change (f_nx fi) with (f_nx a).
  change (f_ny (dft_ax (-1) AXY a)) with (f_ny a). change (f_nx (dft_ax (-1) AXY a)) with (f_nx a). destruct (fsrc (f_ny a) my y) as [i|], (fsrc (f_nx a) mx x) as [j|]; try ring.
  change (f_at fi i j) with (f_at (dft_ax (-1) AXY a) i j * c). field. exact N0.
Qed.
Lemma emap_resample_eq corner offy offx my mx a : nonempty a -> (0 < my)%Z -> (0 < mx)%Z ->
  oaeq (emap_resample corner offy offx my mx a)
    (drop_im false (rs2 (phase my (offs corner offy my (f_ny a)) false) (phase mx (offs corner offx mx (f_nx a)) false) my mx a)).
Proof.
  intros H Hy Hx. pose proof (Cn0 _ (nprod_pos AXY a H)) as N0. unfold emap_resample, emap_fft. rewrite fft_some by exact H. cbn [bind enorm].
  pose proof (resample_core corner offy offx my mx a (RtoC 1) (/ RtoC (IZR (nprod AXY a))) (RtoC 1) H Hy Hx) as K.
  destruct (emap_resample_fft _ _ _ _ _ _ _) as [fo|]; [|exact K]. cbn [bind] in *. unfold emap_ifft. cbn [enorm].
  destruct (ifft false AXY fo) as [o|]; [|exact K]. cbn [bind oaeq] in *. apply drop_im_ext. eapply aeq_trans; [exact K|].
  replace (RtoC 1 * / RtoC (IZR (nprod AXY a)) * RtoC 1 * RtoC (IZR (nprod AXY a))) with (RtoC 1) by (field; exact N0). apply scale_1.
Qed.
Lemma units_eq (u : norm) corner offy offx my mx a p : nonempty a -> (0 < my)%Z -> (0 < mx)%Z -> (0 < p)%R ->
  oaeq (bind (emap_fft u false p a) (fun fi => bind (emap_resample_fft corner offy offx (RtoC (unit_norm u (my * mx) (nprod AXY a))) my mx fi) (fun fo => emap_ifft u false (p * IZR (nprod AXY a) / IZR (my * mx)) fo)))
    (scale (RtoC (match u with NoNorm => IZR (my * mx) | _ => 1 end)) (rs2 (phase my (offs corner offy my (f_ny a)) false) (phase mx (offs corner offx mx (f_nx a)) false) my mx a)).
Proof.
  intros H Hy Hx Hp. pose proof (nprod_pos AXY a H) as NP. pose proof (Cn0 _ NP) as N0. assert (MP : (0 < my * mx)%Z) by nia.
  set (N := nprod AXY a) in *. set (M := (my * mx)%Z) in *. apply IZR_lt in NP, MP. change (0 < IZR N)%R in NP. change (0 < IZR M)%R in MP.
  unfold emap_fft. rewrite fft_some by exact H. cbn [bind]. fold N.
  match goal with |- oaeq (bind (emap_resample_fft _ _ _ ?nrm _ _ (scale ?c _)) _) _ =>
    pose proof (resample_core corner offy offx my mx a c nrm (RtoC (enorm u M (/ sqrt (p * IZR N / IZR M)))) H Hy Hx) as K; fold N in K; set (c1 := c) in *; set (c2 := nrm) in * end.
  destruct (emap_resample_fft _ _ _ _ _ _ _) as [fo|] eqn:E; [|exact K]. cbn [bind] in *. unfold emap_ifft.
  assert (Sh : nprod AXY fo = M).
  { unfold emap_resample_fft in E. cbv zeta in E. destruct H as [Py Px].
    destruct (resample_fft_spec (RtoC 0) (fun z => z * c2) (fun _ b => b) (scale c1 (dft_ax (-1) AXY a)) my mx Py Px Hy Hx) as (fo' & E' & Ny' & Nx' & V'). rewrite E' in E. cbn [bind] in E. rewrite shift_nofft in E. injection E as E. subst fo. cbn [nprod f_ny f_nx]. rewrite Ny', Nx'. reflexivity. }
  rewrite Sh. destruct (ifft false AXY fo) as [o|]; [|exact K]. cbn [bind oaeq] in *. eapply aeq_trans; [exact K|].
  set (k := c1 * c2 * _ * _). assert (Ek : k = RtoC (match u with NoNorm => IZR M | _ => 1 end)).
  { unfold k, c1, c2. rewrite <- !RtoC_mult. f_equal. pose proof (sqrt_lt_R0 _ NP) as SN. pose proof (sqrt_lt_R0 _ MP) as SM. pose proof (sqrt_lt_R0 _ Hp) as SP. destruct u; cbn [enorm unit_norm].
    - field. lra.
    - rewrite sqrt_div_alt by exact NP. rewrite <- (sqrt_sqrt (IZR N)) at 3 by lra. field. lra.
    - rewrite sqrt_div_alt, sqrt_mult by lra. rewrite <- (sqrt_sqrt (IZR N)) at 3 by lra. field. repeat split; lra. }
  rewrite Ek. apply aeq_refl.
Qed.
