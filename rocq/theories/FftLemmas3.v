(* Multiplying a spectrum by phases. *)
From Coq Require Import Reals Lra Lia.
From Coquelicot Require Import Complex.
From Verif Require Import Base ArrModel PixModel FftSpec FftModel FftLemmas FftLemmas2.
Ltac Zify.zify_post_hook ::= idtac.
Open Scope R_scope. Open Scope C_scope.

Definition mulp (py px : Z -> C) (a : farr C) : farr C := FA (f_ny a) (f_nx a) (fun y x => f_at a y x * py y * px x).
Definition one (_ : Z) : C := 1.
Definition pick (b : bool) (p : Z -> C) : Z -> C := if b then p else one.
Definition filt ax (py px : Z -> C) (a : farr C) : farr C := scale (/ RtoC (IZR (nprod ax a))) (dft_ax 1 ax (mulp py px (dft_ax (-1) ax a))).

Lemma mulp_ext py px qy qx a b : aeq a b -> (forall y, (0 <= y < f_ny a)%Z -> py y = qy y) -> (forall x, (0 <= x < f_nx a)%Z -> px x = qx x) -> aeq (mulp py px a) (mulp qy qx b).
Proof.
  intros (H1 & H2 & H3) Hy Hx. split; [exact H1|]. split; [exact H2|]. cbn. intros y x Iy Ix. rewrite H3, Hy, Hx by assumption. reflexivity.
Qed.
Lemma filt_ext ax py px qy qx a b : aeq a b -> (forall y, (0 <= y < f_ny a)%Z -> py y = qy y) -> (forall x, (0 <= x < f_nx a)%Z -> px x = qx x) -> aeq (filt ax py px a) (filt ax qy qx b).
Proof.
  intros H Hy Hx. unfold filt. rewrite (nprod_shape ax b a) by (symmetry; apply H). apply scale_ext, dft_ax_ext, mulp_ext.
  - apply dft_ax_ext, H.
  - rewrite dft_ax_ny. exact Hy.
  - rewrite dft_ax_nx. exact Hx.
Qed.
Lemma filt_ny ax py px a : f_ny (filt ax py px a) = f_ny a.
Proof. cbn [filt scale amap f_ny]. rewrite dft_ax_ny. cbn [mulp f_ny]. apply dft_ax_ny. Qed.
Lemma filt_nx ax py px a : f_nx (filt ax py px a) = f_nx a.
Proof. cbn [filt scale amap f_nx]. rewrite dft_ax_nx. cbn [mulp f_nx]. apply dft_ax_nx. Qed.
Lemma filt_ne ax py px a : nonempty a -> nonempty (filt ax py px a).
Proof. intros [H1 H2]. split; [rewrite filt_ny|rewrite filt_nx]; assumption. Qed.

Lemma fft_filt ax py px a : nonempty a -> aeq (dft_ax (-1) ax (filt ax py px a)) (mulp py px (dft_ax (-1) ax a)).
Proof.
  intros H. unfold filt. rewrite (nprod_shape ax a (mulp py px (dft_ax (-1) ax a))) by (cbn [mulp f_ny f_nx]; rewrite ?dft_ax_ny, ?dft_ax_nx; reflexivity).
  apply fft_ifft. split; cbn [mulp f_ny f_nx]; rewrite ?dft_ax_ny, ?dft_ax_nx; apply H.
Qed.
Lemma filt_filt ax py px qy qx a : nonempty a ->
  aeq (filt ax py px (filt ax qy qx a)) (filt ax (fun y => qy y * py y) (fun x => qx x * px x) a).
Proof.
  intros H. unfold filt at 1. rewrite (nprod_shape ax (filt ax qy qx a) a) by (rewrite ?filt_ny, ?filt_nx; reflexivity).
  apply scale_ext, dft_ax_ext. eapply aeq_trans.
  - apply (mulp_ext py px py px _ _ (fft_filt ax qy qx a H)); reflexivity.
  - repeat split. cbn. intros. ring.
Qed.
Lemma filt_one ax a : nonempty a -> aeq (filt ax one one a) a.
Proof.
  intros H. unfold filt. eapply aeq_trans; [|apply (ifft_fft ax), H]. apply scale_ext, dft_ax_ext. repeat split. cbn. intros. unfold one. ring.
Qed.

Lemma shift_filt cplx ax sy sx dy dx a : nonempty a ->
  shift cplx ax sy sx dy dx false a =
  Some (drop_im cplx (scale (/ RtoC (IZR (nprod ax a))) (dft_ax 1 ax
     (let fa := dft_ax (-1) ax a in
      let fa := if has_y ax then FA (f_ny fa) (f_nx fa) (fun y x => f_at fa y x * phase (f_ny fa) sy dy y) else fa in
      if has_x ax then FA (f_ny fa) (f_nx fa) (fun y x => f_at fa y x * phase (f_nx fa) sx dx x) else fa)))).
Proof.
  intros H. unfold shift. rewrite fft_some by exact H. cbn [bind]. cbv zeta.
  set (b := if has_x ax then _ else _).
  assert (Eb : f_ny b = f_ny a /\ f_nx b = f_nx a) by (unfold b; destruct ax; cbn; auto).
  rewrite (ifft_some true) by (split; [rewrite (proj1 Eb)|rewrite (proj2 Eb)]; apply H). cbn [bind]. rewrite (nprod_shape ax b a) by apply Eb. reflexivity.
Qed.
Definition py_of ax n s d := pick (has_y ax) (phase n s d).
Definition px_of ax n s d := pick (has_x ax) (phase n s d).
Lemma shift_spec ax sy sx dy dx a : nonempty a ->
  oaeq (shift true ax sy sx dy dx false a) (filt ax (py_of ax (f_ny a) sy dy) (px_of ax (f_nx a) sx dx) a).
Proof.
  intros H. rewrite shift_filt by exact H. cbn [oaeq drop_im]. unfold filt. apply scale_ext, dft_ax_ext. cbv zeta.
  destruct ax; cbn [has_y has_x]; repeat split; cbn [mulp f_at f_ny f_nx dft_ax dft_x dft_y py_of px_of pick has_y has_x]; intros; unfold one; ring.
Qed.
Lemma shift_cases cplx ax sy sx dy dx a : nonempty a -> exists b, shift true ax sy sx dy dx false a = Some b /\ shift cplx ax sy sx dy dx false a = Some (drop_im cplx b).
Proof. intros H. rewrite !shift_filt by exact H. eexists. split; reflexivity. Qed.

(* one axis *)
Definition sh1 (n : Z) (p a : Z -> C) (j : Z) : C := / RtoC (IZR n) * dft 1 n (fun k => dft (-1) n a k * p k) j.
Lemma dft_swap s t n m B x l : dft s n (fun k => dft t m (fun j => B j k) l) x = dft t m (fun j => dft s n (B j) x) l.
Proof.
  unfold dft. rewrite (csum_ext n _ (fun k => csum m (fun j => B j k * w n (s * (k * x)) * w m (t * (j * l))))).
  - rewrite csum_swap. apply csum_ext. intros j _. rewrite <- csum_scal_r. reflexivity.
  - intros k _. rewrite <- csum_scal_r. apply csum_ext. intros j _. ring.
Qed.
Lemma sh1_one n a j : (0 < n)%Z -> (0 <= j < n)%Z -> sh1 n one a j = a j.
Proof.
  intros Hn Hj. unfold sh1. rewrite (dft_ext 1 n _ (dft (-1) n a)) by (intros; unfold one; ring). rewrite (dft_inv 1) by auto.
  rewrite Cmult_assoc, Cinv_l by (apply Cn0, Hn). ring.
Qed.
Lemma filt_at ax py px a y x : nonempty a -> (0 <= y < f_ny a)%Z -> (0 <= x < f_nx a)%Z ->
  f_at (filt ax (pick (has_y ax) py) (pick (has_x ax) px) a) y x =
  sh1 (f_ny a) (pick (has_y ax) py) (fun j => sh1 (f_nx a) (pick (has_x ax) px) (f_at a j) x) y.
Proof.
  intros [Py Px] Hy Hx. destruct ax; cbn [has_y has_x pick].
  - rewrite sh1_one by assumption. cbn [filt nprod scale amap f_at dft_ax dft_x mulp f_nx]. unfold sh1. rewrite Cmult_comm. f_equal.
    apply dft_ext. intros. unfold one. ring.
  - unfold sh1 at 1. rewrite (dft_ext 1 (f_ny a) _ (fun k => dft (-1) (f_ny a) (fun j => f_at a j x) k * py k)).
    + cbn [filt nprod scale amap f_at dft_ax dft_y mulp f_ny]. rewrite Cmult_comm. f_equal. apply dft_ext. intros. unfold one. ring.
    + intros k Hk. f_equal. apply dft_ext. intros j Hj. apply sh1_one; assumption.
  - cbn [filt nprod scale amap f_at dft_ax dft_x dft_y mulp f_nx f_ny]. rewrite Cmult_comm. unfold sh1. rewrite mult_IZR, RtoC_mult.
    rewrite (dft_ext 1 (f_ny a) (fun k => dft (-1) (f_ny a) _ k * py k) (fun k => / RtoC (IZR (f_nx a)) * (dft (-1) (f_ny a) (fun j => dft 1 (f_nx a) (fun i => dft (-1) (f_nx a) (f_at a j) i * px i) x) k * py k))).
    + rewrite dft_scal. rewrite (dft_ext 1 (f_ny a) _ (fun k => dft (-1) (f_ny a) (fun j => dft 1 (f_nx a) (fun i => dft (-1) (f_nx a) (f_at a j) i * px i) x) k * py k)).
      * field. split; apply Cn0; assumption.
      * intros k Hk. rewrite <- (dft_swap 1 (-1) (f_nx a) (f_ny a) (fun j i => dft (-1) (f_nx a) (f_at a j) i * px i) x k). rewrite <- dft_scal_r. apply dft_ext. intros i Hi.
        rewrite (dft_scal_r (-1) (f_ny a) (px i)). ring.
    + intros k Hk. rewrite dft_scal. ring.
Qed.
Lemma sh1_ext n p q a b j : (forall i, (0 <= i < n)%Z -> p i = q i) -> (forall i, (0 <= i < n)%Z -> a i = b i) -> sh1 n p a j = sh1 n q b j.
Proof. intros Hp Ha. unfold sh1. f_equal. apply dft_ext. intros k Hk. rewrite Hp by exact Hk. f_equal. apply dft_ext, Ha. Qed.
Lemma sh1_plus n p a b j : sh1 n p (fun i => a i + b i) j = sh1 n p a j + sh1 n p b j.
Proof.
  unfold sh1. rewrite (dft_ext 1 n _ (fun k => dft (-1) n a k * p k + dft (-1) n b k * p k)) by (intros; rewrite dft_plus; ring). rewrite dft_plus. ring.
Qed.
Lemma sh1_scal n p c a j : sh1 n p (fun i => c * a i) j = c * sh1 n p a j.
Proof. unfold sh1. rewrite (dft_ext 1 n _ (fun k => c * (dft (-1) n a k * p k))) by (intros; rewrite dft_scal; ring). rewrite dft_scal. ring. Qed.
Lemma sh1_0 n p j : sh1 n p (fun _ => RtoC 0) j = 0.
Proof.
  transitivity (RtoC 0 * sh1 n p one j); [|apply Cmult_0_l]. rewrite <- sh1_scal. apply sh1_ext; [reflexivity|]. intros. symmetry. apply Cmult_0_l.
Qed.

(* the frequencies and phases *)
Lemma freq_case n k : (0 < n)%Z -> (0 <= k < n)%Z -> exists q, (if (k <? (n - 1) / 2 + 1)%Z then k else k - n)%Z = (k + q * n)%Z.
Proof. intros. destruct (_ <? _)%Z; [exists 0%Z|exists (-1)%Z]; lia. Qed.
Lemma phase_int n s k : (0 < n)%Z -> (0 <= k < n)%Z -> phase n (IZR s) false k = w n (- s * k).
Proof.
  intros Hn Hk. unfold phase, fftfreq. destruct (freq_case n k Hn Hk) as [q ->]. unfold w. pose proof (IZRn0 n Hn).
  symmetry. rewrite <- (cis_period _ (- s * q)). f_equal. rewrite plus_IZR, !mult_IZR, opp_IZR. field. assumption.
Qed.
Lemma phase_plus n s t k : phase n (s + t) false k = phase n s false k * phase n t false k.
Proof. unfold phase. rewrite <- cis_plus. f_equal. ring. Qed.
Lemma phase_0 n k : phase n 0 false k = 1.
Proof. unfold phase. rewrite <- cis_0. f_equal. ring. Qed.
Lemma inside_freq n k : (0 < n)%Z -> inside n k -> (if (k mod n <? (n - 1) / 2 + 1)%Z then k mod n else k mod n - n)%Z = k.
Proof.
  unfold inside. intros Hn Hk. pose proof (Z.div_mod (n - 1) 2 ltac:(lia)). pose proof (Z.mod_pos_bound (n - 1) 2 ltac:(lia)).
  destruct (Z_le_dec 0 k) as [P|P].
  - rewrite Z.mod_small by lia. destruct (k <? _)%Z eqn:E; lia.
  - replace (k mod n)%Z with (k + n)%Z; [destruct (k + n <? _)%Z eqn:E; lia|].
    replace k with ((k + n) + (-1) * n)%Z at 2 by lia. rewrite Z.mod_add by lia. rewrite Z.mod_small by lia. reflexivity.
Qed.
Lemma phase_mode n s k : (0 < n)%Z -> inside n k -> phase n s false (k mod n) = cis (2 * PI * (IZR k * (- s / IZR n)))%R.
Proof. intros Hn Hk. unfold phase, fftfreq. rewrite inside_freq by assumption. f_equal. field. apply IZRn0, Hn. Qed.

Lemma sh1_int n s a j : (0 < n)%Z -> sh1 n (phase n (IZR s) false) a j = a ((j - s) mod n)%Z.
Proof.
  intros Hn. unfold sh1. transitivity (/ RtoC (IZR n) * dft 1 n (dft (-1) n a) (j - s)).
  - f_equal. unfold dft at 1 3. apply csum_ext. intros k Hk. rewrite phase_int by assumption. rewrite <- Cmult_assoc. f_equal. rewrite <- w_plus by exact Hn. f_equal. lia.
  - rewrite <- dft_mod by exact Hn. rewrite (dft_inv 1); [|auto|exact Hn|apply Z.mod_pos_bound, Hn]. rewrite Cmult_assoc, Cinv_l by (apply Cn0, Hn). ring.
Qed.
Lemma sh1_mode n s k o j : (0 < n)%Z -> inside n k ->
  sh1 n (phase n s false) (fun i => cis (2 * PI * (IZR k * ((IZR i + o) / IZR n)))%R) j = cis (2 * PI * (IZR k * ((IZR j + (o - s)) / IZR n)))%R.
Proof.
  intros Hn Hk. pose proof (IZRn0 n Hn) as N0. set (c := cis (2 * PI * (IZR k * (o / IZR n)))%R).
  rewrite (sh1_ext n _ (phase n s false) _ (fun i => c * w n (k * i))); [|reflexivity|].
  2: { intros i _. unfold c. rewrite w_as by exact Hn. rewrite <- cis_plus. f_equal. field. exact N0. }
  unfold sh1. rewrite (dft_ext 1 n _ (fun i => if (i =? k mod n)%Z then c * RtoC (IZR n) * phase n s false i else 0)).
  2: { intros i Hi. rewrite dft_mode by auto. replace (- -1 * k)%Z with k by lia. destruct (i =? k mod n)%Z; ring. }
  unfold dft. rewrite (csum_ext n _ (fun i => if (i =? k mod n)%Z then c * RtoC (IZR n) * phase n s false i * w n (1 * (i * j)) else 0)) by (intros i _; destruct (i =? k mod n)%Z; ring).
  rewrite (csum_single n (k mod n) (fun i => c * RtoC (IZR n) * phase n s false i * w n (1 * (i * j)))) by (apply Z.mod_pos_bound, Hn).
  rewrite phase_mode by assumption. rewrite (w_eqm n Hn (1 * (k mod n * j)) (k * j)).
  2: { rewrite Z.mul_1_l. rewrite Z.mul_mod, Z.mod_mod, <- Z.mul_mod by lia. reflexivity. }
  replace (/ RtoC (IZR n) * (c * RtoC (IZR n) * cis (2 * PI * (IZR k * (- s / IZR n))) * w n (k * j))) with (c * cis (2 * PI * (IZR k * (- s / IZR n))) * w n (k * j)) by (field; apply Cn0, Hn).
  unfold c. rewrite w_as by exact Hn. rewrite <- !cis_plus. f_equal. field. exact N0.
Qed.

(* sums of modes *)
Lemma cis_prod ky kx u v : cis (2 * PI * (IZR ky * u + IZR kx * v))%R = cis (2 * PI * (IZR ky * u))%R * cis (2 * PI * (IZR kx * v))%R.
Proof. rewrite <- cis_plus. f_equal. ring. Qed.
Lemma trig_cons c ky kx ms u v : trig ((c, ky, kx) :: ms) u v = c * cis (2 * PI * (IZR ky * u + IZR kx * v))%R + trig ms u v.
Proof. reflexivity. Qed.
Lemma sh1_trig ny nx sy sx oy ox ms y x : (0 < ny)%Z -> (0 < nx)%Z -> band ny nx ms ->
  sh1 ny (phase ny sy false) (fun j => sh1 nx (phase nx sx false) (fun i => trig ms ((IZR j + oy) / IZR ny) ((IZR i + ox) / IZR nx)) x) y =
  trig ms ((IZR y + (oy - sy)) / IZR ny) ((IZR x + (ox - sx)) / IZR nx).
Proof.
  intros Py Px. induction ms as [|[[c ky] kx] ms IH]; intros HB.
  - cbn [trig fold_right]. rewrite (sh1_ext ny _ (phase ny sy false) _ (fun _ => RtoC 0)); [apply sh1_0|reflexivity|]. intros. apply sh1_0.
  - pose proof (Forall_inv HB) as [By Bx]. pose proof (Forall_inv_tail HB) as HB'. rewrite trig_cons, <- IH by exact HB'.
    rewrite (sh1_ext ny _ (phase ny sy false) _ (fun j => c * cis (2 * PI * (IZR kx * ((IZR x + (ox - sx)) / IZR nx))) * cis (2 * PI * (IZR ky * ((IZR j + oy) / IZR ny))) +
       sh1 nx (phase nx sx false) (fun i => trig ms ((IZR j + oy) / IZR ny) ((IZR i + ox) / IZR nx)) x)); [|reflexivity|].
    + rewrite sh1_plus, sh1_scal. rewrite sh1_mode by assumption. f_equal. rewrite cis_prod. ring.
    + intros j _. change (fun i => trig ((c, ky, kx) :: ms) ((IZR j + oy) / IZR ny) ((IZR i + ox) / IZR nx)) with
        (fun i => c * cis (2 * PI * (IZR ky * ((IZR j + oy) / IZR ny) + IZR kx * ((IZR i + ox) / IZR nx)))%R + trig ms ((IZR j + oy) / IZR ny) ((IZR i + ox) / IZR nx)).
      rewrite sh1_plus. f_equal. rewrite <- sh1_mode by assumption.
      rewrite (sh1_ext nx _ (phase nx sx false) _ (fun i => c * cis (2 * PI * (IZR ky * ((IZR j + oy) / IZR ny))) * cis (2 * PI * (IZR kx * ((IZR i + ox) / IZR nx))))); [|reflexivity|].
      * rewrite sh1_scal. ring.
      * intros i _. rewrite cis_prod. ring.
Qed.
