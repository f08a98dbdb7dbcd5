(* Round trips, real results and derivatives. *)
From Coq Require Import Reals Lra Lia.
From Coquelicot Require Import Coquelicot.
From Verif Require Import Base SliceSpec ArrModel PixModel BlockModel FresSpec FresModel FresLemmas FftSpec FftModel FftLemmas FftLemmas2 FftLemmas3 FftLemmas4.
Ltac Zify.zify_post_hook ::= idtac.
Open Scope R_scope. Open Scope C_scope.

(* linear maps along one axis *)
Definition rsK (n m : Z) (p : Z -> C) (x i : Z) : C :=
  csum m (fun k => match fsrc n m k with Some l => / RtoC (IZR n) * w n (-1 * (i * l)) * p k | None => 0 end * w m (1 * (k * x))).
Lemma rs1_K n m p a x : rs1 n m p a x = csum n (fun i => a i * rsK n m p x i).
Proof.
  unfold rs1, rsK. unfold dft at 1. rewrite (csum_ext n _ (fun i => csum m (fun k => a i * (match fsrc n m k with Some l => / RtoC (IZR n) * w n (-1 * (i * l)) * p k | None => 0 end * w m (1 * (k * x)))))) by (intros; rewrite csum_scal_l; reflexivity).
  rewrite csum_swap. apply csum_ext. intros k _. destruct (fsrc n m k) as [l|].
  - rewrite (csum_ext n _ (fun i => a i * w n (-1 * (i * l)) * (/ RtoC (IZR n) * p k * w m (1 * (k * x))))) by (intros; ring). rewrite csum_scal_r. unfold dft. ring.
  - rewrite (csum_ext n _ (fun _ => RtoC 0)) by (intros; ring). rewrite csum_0. ring.
Qed.
Lemma rs1_swap n m p n' m' q B x l : rs1 n m p (fun i => rs1 n' m' q (fun j => B j i) l) x = rs1 n' m' q (fun j => rs1 n m p (B j) x) l.
Proof.
  rewrite (rs1_K n m). rewrite (csum_ext n _ (fun i => csum n' (fun j => B j i * rsK n' m' q l j * rsK n m p x i))) by (intros; rewrite rs1_K, <- csum_scal_r; reflexivity).
  rewrite csum_swap. rewrite (rs1_K n' m'). apply csum_ext. intros j _. rewrite rs1_K, <- csum_scal_r. apply csum_ext. intros. ring.
Qed.

(* up and down again *)
Lemma rs1_back n m a j : (0 < n <= m)%Z -> (0 <= j < n)%Z -> rs1 m n one (rs1 n m one a) j = a j.
Proof.
  intros Hn Hj. unfold rs1 at 1. rewrite (dft_ext 1 n _ (fun k => / RtoC (IZR n) * dft (-1) n a k)).
  - rewrite dft_scal, (dft_inv 1) by (auto; lia). field. apply Cn0. lia.
  - intros k Hk. destruct (fsrc_back n m k Hn Hk) as (i & F & G). rewrite F. unfold rs1.
    rewrite (dft_inv (-1)); [|auto|lia|apply (fsrc_range m n k i); [lia|lia|exact F]]. rewrite G. unfold one. field. split; apply Cn0; lia.
Qed.
Lemma rs2_back my mx a : nonempty a -> (f_ny a <= my)%Z -> (f_nx a <= mx)%Z -> aeq (rs2 one one (f_ny a) (f_nx a) (rs2 one one my mx a)) a.
Proof.
  intros [Py Px] Hy Hx. repeat split. cbn [rs2 f_ny f_nx f_at]. intros y x Iy Ix.
  rewrite (rs1_ext my (f_ny a) one _ (rs1 (f_ny a) my one (fun j => f_at a j x))).
  - apply (rs1_back (f_ny a) my (fun j => f_at a j x)); lia.
  - intros j _. rewrite (rs1_swap mx (f_nx a) one (f_ny a) my one (fun j' i => rs1 (f_nx a) mx one (f_at a j') i)). apply rs1_ext. intros i _. apply (rs1_back (f_nx a) mx (f_at a i)); lia.
Qed.

(* an integer factor keeps the samples *)
Lemma w_scale n r k : (0 < n)%Z -> (0 < r)%Z -> w (r * n) (r * k) = w n k.
Proof. intros Hn Hr. unfold w. f_equal. rewrite !mult_IZR. field. split; apply IZRn0; assumption. Qed.
Lemma rs1_keep n r a j : (0 < n)%Z -> (0 < r)%Z -> (0 <= j < n)%Z -> rs1 n (r * n) one a (r * j) = a j.
Proof.
  intros Hn Hr Hj. assert (M : (n <= r * n)%Z) by nia. pose proof (half n Hn) as Hh. set (h := (n / 2)%Z) in *.
  transitivity (/ RtoC (IZR n) * dft 1 n (dft (-1) n a) j); [|rewrite (dft_inv 1) by auto; field; apply Cn0, Hn].
  unfold rs1. unfold dft at 1. replace (r * n)%Z with (h + ((r * n - n) + (n - h)))%Z at 1 by lia. rewrite csum_split, csum_split by lia.
  rewrite (csum_ext (r * n - n) _ (fun _ => RtoC 0)).
  2: { intros k Hk. unfold fsrc. rewrite (Z.min_l n (r * n)) by lia. cbv zeta. fold h.
       replace ((0 <=? h + k) && (h + k <? h))%Z with false by lia. replace ((r * n - (n - h) <=? h + k) && (h + k <? r * n))%Z with false by lia. ring. }
  rewrite csum_0, Cplus_0_l.
  assert (Q : / RtoC (IZR n) * dft 1 n (dft (-1) n a) j = csum h (fun k => / RtoC (IZR n) * (dft (-1) n a k * w n (1 * (k * j)))) + csum (n - h) (fun k => / RtoC (IZR n) * (dft (-1) n a (h + k) * w n (1 * ((h + k) * j))))).
  { rewrite !csum_scal_l, <- Cmult_plus_distr_l. f_equal. unfold dft at 1. rewrite <- (csum_split h (n - h) (fun k => dft (-1) n a k * w n (1 * (k * j)))) by lia. f_equal. lia. }
  rewrite Q. f_equal.
  - apply csum_ext. intros k Hk. unfold fsrc. rewrite (Z.min_l n (r * n)) by lia. cbv zeta. fold h.
    replace ((0 <=? k) && (k <? h))%Z with true by lia. unfold one. replace (1 * (k * (r * j)))%Z with (r * (1 * (k * j)))%Z by lia. rewrite w_scale by assumption. ring.
  - apply csum_ext. intros k Hk. unfold fsrc. rewrite (Z.min_l n (r * n)) by lia. cbv zeta. fold h.
    replace ((0 <=? h + (r * n - n + k)) && (h + (r * n - n + k) <? h))%Z with false by lia. replace ((r * n - (n - h) <=? h + (r * n - n + k)) && (h + (r * n - n + k) <? r * n))%Z with true by lia.
    replace (h + (r * n - n + k) - r * n + n)%Z with (h + k)%Z by lia. unfold one.
    replace (1 * ((h + (r * n - n + k)) * (r * j)))%Z with (r * (1 * ((h + k) * j) + ((r - 1) * j) * n))%Z by lia. rewrite w_scale by assumption.
    rewrite (w_eqm n Hn (1 * ((h + k) * j) + ((r - 1) * j) * n) (1 * ((h + k) * j))) by (apply Z.mod_add; lia). ring.
Qed.

(* real results *)
Definition psym (n : Z) (p : Z -> C) : Prop := forall k, (0 <= k < n)%Z -> p ((- k) mod n)%Z = Cconj (p k).
Lemma sh1_real n p a j : (0 < n)%Z -> psym n p -> (forall i, (0 <= i < n)%Z -> Im (a i) = 0%R) -> Im (sh1 n p a j) = 0%R.
Proof.
  intros Hn Hp Ha. apply real_conj. unfold sh1. rewrite Cmult_conj. replace (Cconj (/ RtoC (IZR n))) with (/ RtoC (IZR n)).
  2: { rewrite <- RtoC_inv by (apply IZRn0, Hn). symmetry. apply Cconj_RtoC. }
  f_equal. rewrite dft_conj by exact Hn. unfold dft at 1 3.
  set (F := fun k => dft (-1) n a (k mod n) * p (k mod n)%Z * w n (1 * (k * j))).
  transitivity (csum n (fun k => F (- k)%Z)).
  - apply csum_ext. intros k Hk. unfold F. rewrite Hp by exact Hk. rewrite Cmult_conj. rewrite dft_mod, dft_real_neg by assumption. f_equal. f_equal. lia.
  - rewrite csum_neg; [|exact Hn|].
    + apply csum_ext. intros k Hk. unfold F. rewrite Z.mod_small by exact Hk. reflexivity.
    + intros k. unfold F. replace ((k + n) mod n)%Z with (k mod n)%Z by (rewrite <- (Z.mod_add k 1 n) by lia; f_equal; lia).
      f_equal. apply w_eqm; [exact Hn|]. replace (1 * ((k + n) * j))%Z with (1 * (k * j) + j * n)%Z by lia. apply Z.mod_add. lia.
Qed.
Lemma psym_one n : psym n one.
Proof. intros k _. unfold one. symmetry. apply Cconj_RtoC. Qed.
Lemma neg_mod n k : (0 < n)%Z -> (0 <= k < n)%Z -> ((- k) mod n = if (k =? 0) then 0 else n - k)%Z.
Proof.
  intros Hn Hk. destruct (k =? 0)%Z eqn:E.
  - apply Z.eqb_eq in E. subst k. apply Z.mod_0_l. lia.
  - replace (- k)%Z with ((n - k) + (-1) * n)%Z by lia. rewrite Z.mod_add by lia. apply Z.mod_small. lia.
Qed.
Lemma psym_phase n s d : (0 < n)%Z -> Z.odd n = true -> psym n (phase n s d).
Proof.
  intros Hn Ho k Hk. apply Z.odd_spec in Ho as [h Eh].
  assert (F : fftfreq n ((- k) mod n)%Z = (- fftfreq n k)%R).
  { unfold fftfreq. rewrite neg_mod by assumption. replace ((n - 1) / 2)%Z with h by (subst n; replace (2 * h + 1 - 1)%Z with (h * 2)%Z by lia; rewrite Z.div_mul; lia).
    pose proof (IZRn0 n Hn). destruct (k =? 0)%Z eqn:E.
    - apply Z.eqb_eq in E. subst k. destruct (0 <? h + 1)%Z eqn:E2; [|lia]. field. assumption.
    - destruct (n - k <? h + 1)%Z eqn:E1, (k <? h + 1)%Z eqn:E2; try lia; rewrite ?minus_IZR; field; assumption. }
  unfold phase. rewrite F. assert (Q : cis (-2 * PI * - fftfreq n k * s)%R = Cconj (cis (-2 * PI * fftfreq n k * s)%R)) by (rewrite <- cis_opp; f_equal; ring).
  destruct d; [|exact Q]. rewrite Cmult_conj, <- Q. f_equal. apply C_eq; cbn; ring.
Qed.
Lemma filt_real ax py px a : nonempty a -> psym (f_ny a) (pick (has_y ax) py) -> psym (f_nx a) (pick (has_x ax) px) -> is_real a ->
  is_real (filt ax (pick (has_y ax) py) (pick (has_x ax) px) a).
Proof.
  intros H Hy Hx Hr y x Iy Ix. rewrite filt_ny in Iy. rewrite filt_nx in Ix. rewrite filt_at by assumption. destruct H as [Py Px].
  apply sh1_real; [exact Py|exact Hy|]. intros i Hi. apply sh1_real; [exact Px|exact Hx|]. intros j Hj. apply Hr; assumption.
Qed.
Lemma drop_im_real c a : is_real a -> aeq (drop_im c a) a.
Proof. intros H. destruct c; [apply aeq_refl|]. repeat split. cbn. intros. apply real_re. apply H; assumption. Qed.
Lemma is_real_ext a b : aeq a b -> is_real a -> is_real b.
Proof. intros (H1 & H2 & H3) H y x Hy Hx. rewrite <- H3 by congruence. apply H; congruence. Qed.

(* derivatives of complex functions of one real variable *)
Definition cderive (f : R -> C) (s : R) (l : C) : Prop := is_derive (fun t => Re (f t)) s (Re l) /\ is_derive (fun t => Im (f t)) s (Im l).
Lemma cderive_ext f g s l : (forall t, f t = g t) -> cderive f s l -> cderive g s l.
Proof. intros H [A B]. split; eapply is_derive_ext; [|exact A| |exact B]; intros t; cbn; rewrite H; reflexivity. Qed.
Lemma cderive_val f s l l' : l = l' -> cderive f s l -> cderive f s l'.
Proof. intros ->. auto. Qed.
Lemma cderive_const c s : cderive (fun _ => c) s 0.
Proof. split; cbn; apply @is_derive_const. Qed.
Lemma cderive_plus f g s l m : cderive f s l -> cderive g s m -> cderive (fun t => f t + g t) s (l + m).
Proof. intros [A B] [A' B']. split; cbn; [apply (is_derive_plus (fun t => Re (f t)) (fun t => Re (g t)))|apply (is_derive_plus (fun t => Im (f t)) (fun t => Im (g t)))]; assumption. Qed.
Lemma cderive_scal c f s l : cderive f s l -> cderive (fun t => c * f t) s (c * l).
Proof.
  intros [A B]. destruct c as [u v]. split; cbn.
  - apply (is_derive_ext (fun t => (u * Re (f t) - v * Im (f t))%R)); [reflexivity|]. apply (is_derive_minus (fun t => (u * Re (f t))%R) (fun t => (v * Im (f t))%R)); apply is_derive_scal; assumption.
  - apply (is_derive_ext (fun t => (u * Im (f t) + v * Re (f t))%R)); [reflexivity|]. apply (is_derive_plus (fun t => (u * Im (f t))%R) (fun t => (v * Re (f t))%R)); apply is_derive_scal; assumption.
Qed.
Lemma cderive_csum n f s l : (forall j, (0 <= j < n)%Z -> cderive (fun t => f t j) s (l j)) -> cderive (fun t => csum n (f t)) s (csum n l).
Proof.
  unfold csum. intros H. assert (K : forall j, (0 <= j < Z.of_nat (Z.to_nat n))%Z -> cderive (fun t => f t j) s (l j)) by (intros; apply H; lia). clear H.
  induction (Z.to_nat n) as [|m IH]; cbn [csumn]; [apply cderive_const|]. apply cderive_plus; [apply IH; intros; apply K; lia|apply K; lia].
Qed.
Lemma cderive_phase n k s : cderive (fun t => phase n t false k) s (phase n s true k).
Proof.
  unfold phase. set (c := (-2 * PI * fftfreq n k)%R). apply (cderive_ext (fun t => cis (c * t))); [reflexivity|].
  split; cbn.
  - auto_derive; [exact Logic.I|]. fold c. cbn. unfold c. ring.
  - auto_derive; [exact Logic.I|]. fold c. cbn. unfold c. ring.
Qed.
Lemma cderive_sh1 n (p : R -> Z -> C) dp s a j : (forall k, cderive (fun t => p t k) s (dp k)) -> cderive (fun t => sh1 n (p t) a j) s (sh1 n dp a j).
Proof.
  intros H. unfold sh1. apply cderive_scal. unfold dft at 1 3. apply (cderive_csum n (fun t k => dft (-1) n a k * p t k * w n (1 * (k * j))) s (fun k => dft (-1) n a k * dp k * w n (1 * (k * j)))).
  intros k _. apply (cderive_ext (fun t => (dft (-1) n a k * w n (1 * (k * j))) * p t k)); [intros; ring|]. eapply cderive_val; [|apply cderive_scal, H]. ring.
Qed.
Lemma cderive_sh1_arg n p (a : R -> Z -> C) da s j : (forall i, cderive (fun t => a t i) s (da i)) -> cderive (fun t => sh1 n p (a t) j) s (sh1 n p da j).
Proof.
  intros H. unfold sh1. apply cderive_scal. unfold dft at 1 3.
  apply (cderive_csum n (fun t k => dft (-1) n (a t) k * p k * w n (1 * (k * j))) s (fun k => dft (-1) n da k * p k * w n (1 * (k * j)))).
  intros k _. apply (cderive_ext (fun t => (p k * w n (1 * (k * j))) * dft (-1) n (a t) k)); [intros; ring|].
  apply (cderive_val _ _ ((p k * w n (1 * (k * j))) * dft (-1) n da k)); [ring|]. apply cderive_scal. unfold dft.
  apply (cderive_csum n (fun t i => a t i * w n (-1 * (i * k))) s (fun i => da i * w n (-1 * (i * k)))). intros i _.
  apply (cderive_ext (fun t => w n (-1 * (i * k)) * a t i)); [intros; ring|]. eapply cderive_val; [|apply cderive_scal, H]. ring.
Qed.
