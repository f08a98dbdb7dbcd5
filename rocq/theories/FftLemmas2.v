(* Transforms of arrays. *)
From Coq Require Import Reals Lra Lia.
From Coquelicot Require Import Complex.
From Verif Require Import Base ArrModel PixModel FftSpec FftModel FftLemmas.
Ltac Zify.zify_post_hook ::= idtac.
Open Scope R_scope. Open Scope C_scope.

Lemma IZRn0 n : (0 < n)%Z -> IZR n <> 0%R.
Proof. intros H E. apply eq_IZR in E. lia. Qed.
Lemma Cn0 n : (0 < n)%Z -> RtoC (IZR n) <> 0.
Proof. intros H E. apply RtoC_inj in E. apply eq_IZR in E. lia. Qed.
Lemma asize_pos {A} (a : farr A) : nonempty a -> (asize a =? 0)%Z = false.
Proof. intros [H1 H2]. apply Z.eqb_neq. unfold asize. nia. Qed.

Lemma aeq_refl {A} (a : farr A) : aeq a a.
Proof. repeat split. Qed.
Lemma aeq_sym {A} (a b : farr A) : aeq a b -> aeq b a.
Proof. intros (H1 & H2 & H3). split; [auto|]. split; [auto|]. intros y x Hy Hx. symmetry. apply H3; congruence. Qed.
Lemma aeq_trans {A} (a b c : farr A) : aeq a b -> aeq b c -> aeq a c.
Proof.
  intros (H1 & H2 & H3) (G1 & G2 & G3). split; [congruence|]. split; [congruence|]. intros y x Hy Hx. rewrite H3 by assumption. apply G3; congruence.
Qed.

Lemma dft_ax_shape s ax a : f_ny (dft_ax s ax a) = f_ny a /\ f_nx (dft_ax s ax a) = f_nx a.
Proof. destruct ax; split; reflexivity. Qed.
Lemma dft_ax_ny s ax a : f_ny (dft_ax s ax a) = f_ny a.
Proof. apply dft_ax_shape. Qed.
Lemma dft_ax_nx s ax a : f_nx (dft_ax s ax a) = f_nx a.
Proof. apply dft_ax_shape. Qed.
Lemma dft_x_ext s a b : aeq a b -> aeq (dft_x s a) (dft_x s b).
Proof.
  intros (H1 & H2 & H3). split; [exact H1|]. split; [exact H2|]. cbn [f_at dft_x]. intros y x Hy Hx. cbn in Hy, Hx. rewrite <- H2. apply dft_ext. intros j Hj. apply H3; assumption.
Qed.
Lemma dft_y_ext s a b : aeq a b -> aeq (dft_y s a) (dft_y s b).
Proof.
  intros (H1 & H2 & H3). split; [exact H1|]. split; [exact H2|]. cbn [f_at dft_y]. intros y x Hy Hx. cbn in Hy, Hx. rewrite <- H1. apply dft_ext. intros j Hj. apply H3; assumption.
Qed.
Lemma dft_ax_ext s ax a b : aeq a b -> aeq (dft_ax s ax a) (dft_ax s ax b).
Proof. intros H. destruct ax; cbn [dft_ax]; [apply dft_x_ext|apply dft_y_ext|apply dft_y_ext, dft_x_ext]; exact H. Qed.

Lemma nprod_pos {A} ax (a : farr A) : nonempty a -> (0 < nprod ax a)%Z.
Proof. intros [H1 H2]. destruct ax; cbn [nprod]; nia. Qed.
Lemma nprod_shape {A B} ax (a : farr A) (b : farr B) : f_ny a = f_ny b -> f_nx a = f_nx b -> nprod ax a = nprod ax b.
Proof. intros H1 H2. destruct ax; cbn [nprod]; rewrite ?H1, ?H2; reflexivity. Qed.

Lemma dft_ax_inv s ax a : (s = 1 \/ s = -1)%Z -> nonempty a -> aeq (dft_ax s ax (dft_ax (- s) ax a)) (amap (fun z => z * RtoC (IZR (nprod ax a))) a).
Proof.
  intros Hs [Py Px]. split; [rewrite !dft_ax_ny; reflexivity|]. split; [rewrite !dft_ax_nx; reflexivity|]. rewrite !dft_ax_ny, !dft_ax_nx.
  intros y x Hy Hx. cbn [amap f_at]. destruct ax; cbn [dft_ax nprod].
  - cbn [dft_x f_at f_nx]. rewrite dft_inv by assumption. ring.
  - cbn [dft_y f_at f_ny]. rewrite dft_inv by assumption. ring.
  - rewrite mult_IZR, RtoC_mult. change (f_at (dft_y s (dft_x s (dft_y (- s) (dft_x (- s) a)))) y x) with (dft s (f_ny a) (fun j => f_at (dft_x s (dft_y (- s) (dft_x (- s) a))) j x) y).
    rewrite (dft_ext s (f_ny a) _ (fun j => f_at (dft_y (- s) (dft_x s (dft_x (- s) a))) j x)) by (intros; symmetry; apply dft_xy).
    change (fun j => f_at (dft_y (- s) (dft_x s (dft_x (- s) a))) j x) with (dft (- s) (f_ny a) (fun i => dft s (f_nx a) (dft (- s) (f_nx a) (f_at a i)) x)).
    rewrite dft_inv by assumption. rewrite dft_inv by assumption. ring.
Qed.

Lemma scale_ext c a b : aeq a b -> aeq (scale c a) (scale c b).
Proof. intros (H1 & H2 & H3). split; [exact H1|]. split; [exact H2|]. cbn. intros y x Hy Hx. rewrite H3 by assumption. reflexivity. Qed.
Lemma amap_ext {A B} (g : A -> B) a b : aeq a b -> aeq (amap g a) (amap g b).
Proof. intros (H1 & H2 & H3). split; [exact H1|]. split; [exact H2|]. cbn. intros y x Hy Hx. rewrite H3 by assumption. reflexivity. Qed.
Lemma amap_id {A} (g : A -> A) a : (forall z, g z = z) -> aeq (amap g a) a.
Proof. intros H. repeat split. cbn. intros. apply H. Qed.
Lemma dft_x_scale s c a : aeq (dft_x s (scale c a)) (scale c (dft_x s a)).
Proof. repeat split. cbn. intros. rewrite <- dft_scal_r. reflexivity. Qed.
Lemma dft_y_scale s c a : aeq (dft_y s (scale c a)) (scale c (dft_y s a)).
Proof. repeat split. cbn. intros. rewrite <- dft_scal_r. reflexivity. Qed.
Lemma dft_ax_scale s ax c a : aeq (dft_ax s ax (scale c a)) (scale c (dft_ax s ax a)).
Proof.
  destruct ax; cbn [dft_ax]; [apply dft_x_scale|apply dft_y_scale|]. eapply aeq_trans; [apply dft_y_ext, dft_x_scale|apply dft_y_scale].
Qed.
Lemma scale_scale c d a : aeq (scale c (scale d a)) (scale (d * c) a).
Proof. repeat split. cbn. intros. ring. Qed.
Lemma scale_1 a : aeq (scale 1 a) a.
Proof. apply amap_id. intros. ring. Qed.
Lemma scale_ne c a : nonempty a -> nonempty (scale c a).
Proof. intros H. exact H. Qed.
Lemma dft_ax_ne s ax a : nonempty a -> nonempty (dft_ax s ax a).
Proof. intros [H1 H2]. split; [rewrite dft_ax_ny|rewrite dft_ax_nx]; assumption. Qed.

Lemma fft_some ax a : nonempty a -> fft ax a = Some (dft_ax (-1) ax a).
Proof. intros H. unfold fft. rewrite asize_pos by exact H. reflexivity. Qed.
Lemma ifft_some nz ax a : nonempty a -> ifft nz ax a = Some (if nz then scale (/ RtoC (IZR (nprod ax a))) (dft_ax 1 ax a) else dft_ax 1 ax a).
Proof.
  intros H. unfold ifft. rewrite asize_pos by exact H. cbv zeta. rewrite (nprod_shape ax (dft_ax 1 ax a) a); [reflexivity| |]; apply dft_ax_shape.
Qed.
Lemma inv_scale (c : C) a : c <> 0 -> aeq (scale (/ c) (scale c a)) a.
Proof. intros H. eapply aeq_trans; [apply scale_scale|]. rewrite Cinv_r by exact H. apply scale_1. Qed.

Lemma ifft_fft ax a : nonempty a -> aeq (scale (/ RtoC (IZR (nprod ax a))) (dft_ax 1 ax (dft_ax (-1) ax a))) a.
Proof.
  intros H. eapply aeq_trans; [apply scale_ext; apply (dft_ax_inv 1); [auto|exact H]|]. apply inv_scale. apply Cn0, nprod_pos, H.
Qed.
Lemma fft_ifft ax a : nonempty a -> aeq (dft_ax (-1) ax (scale (/ RtoC (IZR (nprod ax a))) (dft_ax 1 ax a))) a.
Proof.
  intros H. eapply aeq_trans; [apply dft_ax_scale|]. eapply aeq_trans; [apply scale_ext; apply (dft_ax_inv (-1)); [auto|exact H]|]. apply inv_scale. apply Cn0, nprod_pos, H.
Qed.

(* pure modes *)
Lemma w_as n k j : (0 < n)%Z -> w n (k * j) = cis (2 * PI * (IZR k * (IZR j / IZR n)))%R.
Proof. intros H. unfold w. f_equal. rewrite mult_IZR. field. apply IZRn0, H. Qed.
Lemma dft_mode s n k c i : (s = 1 \/ s = -1)%Z -> (0 < n)%Z -> (0 <= i < n)%Z ->
  dft s n (fun j => c * w n (k * j)) i = if (i =? (- s * k) mod n)%Z then c * RtoC (IZR n) else 0.
Proof.
  intros Hs Hn Hi. rewrite dft_scal. unfold dft. rewrite (csum_ext n _ (fun j => w n (j * (k + s * i)))).
  - rewrite orth by exact Hn. replace ((k + s * i) mod n =? 0)%Z with (i =? (- s * k) mod n)%Z; [destruct (_ =? _)%Z; ring|].
    destruct (i =? (- s * k) mod n)%Z eqn:E; symmetry.
    + apply Z.eqb_eq in E. apply Z.eqb_eq. rewrite E. rewrite Z.add_mod, Z.mul_mod, Z.mod_mod, <- Z.mul_mod, <- Z.add_mod by lia.
      replace (k + s * (- s * k))%Z with 0%Z by (destruct Hs; subst s; lia). apply Z.mod_0_l. lia.
    + apply Z.eqb_neq in E. apply Z.eqb_neq. intros F. apply E. apply Z.mod_divide in F; [|lia]. destruct F as [q F].
      replace (- s * k)%Z with (i + (- s * q) * n)%Z by (destruct Hs; subst s; nia). rewrite Z.mod_add by lia. rewrite Z.mod_small by exact Hi. reflexivity.
  - intros j _. rewrite <- w_plus by exact Hn. f_equal. lia.
Qed.

(* real arrays *)
Lemma conj_real z : Im z = 0%R -> Cconj z = z.
Proof. destruct z as [a b]. cbn. intros ->. apply C_eq; cbn; ring. Qed.
Lemma real_conj z : Cconj z = z -> Im z = 0%R.
Proof. destruct z as [a b]. intros H. apply (f_equal Im) in H. cbn in *. lra. Qed.
Lemma real_re z : Im z = 0%R -> RtoC (Re z) = z.
Proof. destruct z as [a b]. cbn. intros ->. reflexivity. Qed.
Lemma dft_real_neg s n a k : (0 < n)%Z -> (forall j, (0 <= j < n)%Z -> Im (a j) = 0%R) -> dft s n a (- k) = Cconj (dft s n a k).
Proof.
  intros Hn Hr. rewrite dft_conj by exact Hn. rewrite (dft_ext (- s) n (fun j => Cconj (a j)) a) by (intros j Hj; apply conj_real, Hr, Hj).
  apply csum_ext. intros j _. f_equal. f_equal. lia.
Qed.
Lemma herm_rfft n a k : (0 < n)%Z -> (forall j, (0 <= j < n)%Z -> Im (a j) = 0%R) -> (0 <= k < n)%Z ->
  herm n (dft (-1) n a) k = dft (-1) n a k.
Proof.
  intros Hn Hr Hk. unfold herm. destruct (2 * k <=? n)%Z; [reflexivity|]. rewrite <- dft_real_neg by assumption.
  rewrite <- (dft_per (-1) n a (- (n - k))) by exact Hn. f_equal. lia.
Qed.
Lemma herm_ext n h g k : (forall i, (0 <= i < n / 2 + 1)%Z -> h i = g i) -> (0 <= k < n)%Z -> herm n h k = herm n g k.
Proof.
  intros H Hk. unfold herm. pose proof (Z.div_mod n 2 ltac:(lia)). pose proof (Z.mod_pos_bound n 2 ltac:(lia)).
  destruct (2 * k <=? n)%Z eqn:E; [|f_equal]; apply H; lia.
Qed.
Lemma c2r_rfft n a j : (0 < n)%Z -> (forall j, (0 <= j < n)%Z -> Im (a j) = 0%R) -> (0 <= j < n)%Z -> c2r n (dft (-1) n a) j = RtoC (IZR n) * a j.
Proof.
  intros Hn Hr Hj. unfold c2r. rewrite (dft_ext 1 n _ (dft (-1) n a)) by (intros; apply herm_rfft; assumption).
  change (-1)%Z with (- (1))%Z. rewrite dft_inv by auto. destruct (a j) as [u v] eqn:E. pose proof (Hr j Hj) as V. rewrite E in V. cbn in V. subst v. apply C_eq; cbn; ring.
Qed.

(* inner products *)
Lemma dft_dot s n a b : (0 < n)%Z -> csum n (fun k => Cconj (dft s n a k) * b k) = csum n (fun j => Cconj (a j) * dft (- s) n b j).
Proof.
  intros Hn. rewrite (csum_ext n _ (fun k => csum n (fun j => Cconj (a j) * (b k * w n (- s * (k * j)))))).
  - rewrite csum_swap. apply csum_ext. intros j _. rewrite csum_scal_l. reflexivity.
  - intros k _. rewrite dft_conj by exact Hn. unfold dft. rewrite <- csum_scal_r. apply csum_ext. intros j _. replace (- s * (k * j))%Z with (- s * (j * k))%Z by lia. ring.
Qed.
Lemma dft_x_dot s a b : nonempty a -> f_ny a = f_ny b -> f_nx a = f_nx b -> inner (dft_x s a) b = inner a (dft_x (- s) b).
Proof.
  intros [Py Px] Ey Ex. unfold inner, csum2. cbn [dft_x f_ny f_nx f_at]. rewrite <- Ex. apply csum_ext. intros y _. apply dft_dot. exact Px.
Qed.
Lemma csum2_swap ny nx f : csum2 ny nx f = csum nx (fun x => csum ny (fun y => f y x)).
Proof. apply csum_swap. Qed.
Lemma dft_y_dot s a b : nonempty a -> f_ny a = f_ny b -> f_nx a = f_nx b -> inner (dft_y s a) b = inner a (dft_y (- s) b).
Proof.
  intros [Py Px] Ey Ex. unfold inner. rewrite !csum2_swap. cbn [dft_y f_ny f_nx f_at]. rewrite <- Ey. apply csum_ext. intros x _.
  apply (dft_dot s (f_ny a) (fun j => f_at a j x) (fun j => f_at b j x)). exact Py.
Qed.
Lemma inner_ext a b a' b' : aeq a a' -> aeq b b' -> f_ny a = f_ny b -> f_nx a = f_nx b -> inner a b = inner a' b'.
Proof.
  intros (H1 & H2 & H3) (G1 & G2 & G3) Ey Ex. unfold inner, csum2. rewrite <- H1. apply csum_ext. intros y Hy. rewrite <- H2. apply csum_ext. intros x Hx.
  rewrite H3, G3 by congruence. reflexivity.
Qed.
Lemma dft_ax_dot s ax a b : nonempty a -> f_ny a = f_ny b -> f_nx a = f_nx b -> inner (dft_ax s ax a) b = inner a (dft_ax (- s) ax b).
Proof.
  intros H Ey Ex. destruct ax; cbn [dft_ax]; [apply dft_x_dot; assumption|apply dft_y_dot; assumption|].
  rewrite dft_y_dot; [|exact H|exact Ey|exact Ex]. rewrite dft_x_dot; [|exact H|exact Ey|exact Ex].
  apply inner_ext; [apply aeq_refl| |exact Ey|exact Ex]. repeat split. intros y x _ _. symmetry. apply dft_xy.
Qed.
Lemma inner_scale_r c a b : inner a (scale c b) = inner a b * c.
Proof. unfold inner, csum2. rewrite <- csum_scal_r. apply csum_ext. intros y _. rewrite <- csum_scal_r. apply csum_ext. intros x _. cbn. ring. Qed.
Lemma inner_scale_l c a b : inner (scale (RtoC c) a) b = inner a b * RtoC c.
Proof.
  unfold inner, csum2. cbn [scale amap f_ny f_nx f_at]. rewrite <- csum_scal_r. apply csum_ext. intros y _. rewrite <- csum_scal_r. apply csum_ext. intros x _.
  rewrite Cmult_conj, Cconj_RtoC. ring.
Qed.

(* short sums *)
Lemma csum_1 f : csum 1 f = f 0%Z.
Proof. change (csum 1 f) with (RtoC 0 + f 0%Z). ring. Qed.
Lemma csum_2 f : csum 2 f = f 0%Z + f 1%Z.
Proof. change (csum 2 f) with (RtoC 0 + f 0%Z + f 1%Z). ring. Qed.
Lemma csum_3 f : csum 3 f = f 0%Z + f 1%Z + f 2%Z.
Proof. change (csum 3 f) with (RtoC 0 + f 0%Z + f 1%Z + f 2%Z). ring. Qed.
Lemma csum_4 f : csum 4 f = f 0%Z + f 1%Z + f 2%Z + f 3%Z.
Proof. change (csum 4 f) with (RtoC 0 + f 0%Z + f 1%Z + f 2%Z + f 3%Z). ring. Qed.
Lemma w_1 m : w 1 m = 1.
Proof. replace m with (1 * m)%Z by lia. apply w_n. lia. Qed.
Lemma w_2 m : w 2 m = if Z.even m then RtoC 1 else RtoC (-1).
Proof.
  rewrite <- w_mod by lia. rewrite Zmod_odd. rewrite <- Z.negb_odd. destruct (Z.odd m); cbn [negb].
  - unfold w, cis. replace (2 * PI * 1 / 2)%R with PI by field. rewrite cos_PI, sin_PI. reflexivity.
  - apply w_0. lia.
Qed.
Lemma w_4_1 : w 4 1 = Ci.
Proof. unfold w, cis. replace (2 * PI * 1 / 4)%R with (PI / 2)%R by field. rewrite cos_PI2, sin_PI2. reflexivity. Qed.
Lemma w_4_3 : w 4 3 = - Ci.
Proof. rewrite (w_eqm 4 ltac:(lia) 3 (- (1))) by reflexivity. rewrite (w_opp 4 ltac:(lia) 1), w_4_1. apply injective_projections; cbn; ring. Qed.
Lemma w_4_2 : w 4 2 = RtoC (-1).
Proof. unfold w, cis. replace (2 * PI * 2 / 4)%R with PI by field. rewrite cos_PI, sin_PI. reflexivity. Qed.
