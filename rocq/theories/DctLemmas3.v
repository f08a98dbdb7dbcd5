From Coq Require Import Reals Lra Lia.
From Coquelicot Require Import Complex.
From Verif Require Import Base ArrModel PixModel FftSpec FftModel FftLemmas FftLemmas2 DctSpec DctModel DctLemmas DctLemmas2.
Ltac Zify.zify_post_hook ::= idtac.
Open Scope R_scope.

Definition ok_ax (t : kind) (ax : axes) (a : farr R) : Prop := (has_y ax = true -> long_enough t (f_ny a)) /\ (has_x ax = true -> long_enough t (f_nx a)).
Lemma ok_ok t ax a : nonempty a -> dct_ok t ax a = true <-> ok_ax t ax a.
Proof.
  intros [H1 H2]. unfold ok_ax. destruct t, ax; cbn [dct_ok long_enough has_y has_x negb orb andb]; rewrite ?andb_true_r, ?andb_true_iff, ?Z.ltb_lt;
    (split; [intros E; split; intros F; try discriminate F; lia|intros [A B]; try reflexivity; intuition]).
Qed.
Lemma r2r_ax_ny t ax a : f_ny (r2r_ax t ax a) = f_ny a.
Proof. destruct ax; reflexivity. Qed.
Lemma r2r_ax_nx t ax a : f_nx (r2r_ax t ax a) = f_nx a.
Proof. destruct ax; reflexivity. Qed.
Lemma idct_norm_shape off ax a b : f_ny a = f_ny b -> f_nx a = f_nx b -> idct_norm off ax a = idct_norm off ax b.
Proof. intros H1 H2. destruct ax; cbn [idct_norm]; rewrite ?H1, ?H2; reflexivity. Qed.
Lemma r2r_ax_inv t ax a : ok_ax t ax a -> aeq (r2r_ax (dct_inverses t) ax (r2r_ax t ax a)) (rscale (IZR (idct_norm (dct_sizes (dct_inverses t)) ax a)) a).
Proof.
  intros [Hy Hx]. set (u := dct_inverses t). split; [rewrite !r2r_ax_ny; reflexivity|]. split; [rewrite !r2r_ax_nx; reflexivity|]. rewrite !r2r_ax_ny, !r2r_ax_nx.
  intros y x Iy Ix. cbn [rscale amap f_at]. destruct ax; cbn [r2r_ax idct_norm] in *.
  - cbn [r2r_x f_at f_nx]. rewrite (r2r_inv t) by auto. fold u. ring.
  - cbn [r2r_y f_at f_ny]. rewrite (r2r_inv t (f_ny a) (fun j => f_at a j x)) by auto. fold u. ring.
  - cbn [r2r_y r2r_x f_at f_ny f_nx].
    rewrite (r2r_ext u (f_ny a) _ (r2r t (f_ny a) (fun j => IZR (2 * (f_nx a + dct_sizes u)) * f_at a j x))).
    2: { apply long_inv. auto. }
    2: { intros k Hk. rewrite (r2r_swap u t (f_nx a) (f_ny a) (fun j i => r2r t (f_nx a) (f_at a j) i)); [|apply long_inv; auto|auto].
         apply r2r_ext; [auto|]. intros j Hj. apply (r2r_inv t); auto. }
    rewrite (r2r_inv t) by auto. fold u. rewrite (mult_IZR (2 * (f_ny a + dct_sizes u))). ring.
Qed.
Lemma rscale_scale c d a : aeq (rscale c (rscale d a)) (rscale (d * c) a).
Proof. repeat split. cbn. intros. ring. Qed.
Lemma rscale_ext c a b : aeq a b -> aeq (rscale c a) (rscale c b).
Proof. apply amap_ext. Qed.
Lemma rscale_1 c a : c = 1 -> aeq (rscale c a) a.
Proof. intros ->. apply amap_id. intros. ring. Qed.
Lemma r2r_ax_scale t ax c a : ok_ax t ax a -> aeq (r2r_ax t ax (rscale c a)) (rscale c (r2r_ax t ax a)).
Proof.
  intros [Hy Hx]. split; [cbn [rscale amap f_ny]; rewrite !r2r_ax_ny; reflexivity|]. split; [cbn [rscale amap f_nx]; rewrite !r2r_ax_nx; reflexivity|].
  intros y x _ _. cbn [rscale amap f_at f_ny f_nx]. destruct ax; cbn [r2r_ax r2r_x r2r_y f_at f_ny f_nx amap rscale].
  - apply r2r_scal. auto.
  - apply (r2r_scal t (f_ny a) c (fun j => f_at a j x)). auto.
  - rewrite <- (r2r_scal t (f_ny a) c (fun j => r2r t (f_nx a) (f_at a j) x)) by auto. apply r2r_ext; [auto|]. intros i _. apply r2r_scal. auto.
Qed.
Lemma r2r_ax_ext t ax a b : ok_ax t ax a -> aeq a b -> aeq (r2r_ax t ax a) (r2r_ax t ax b).
Proof.
  intros [Hy Hx] (E1 & E2 & E3). split; [rewrite !r2r_ax_ny; exact E1|]. split; [rewrite !r2r_ax_nx; exact E2|]. rewrite r2r_ax_ny, r2r_ax_nx.
  intros y x Iy Ix. destruct ax; cbn [r2r_ax r2r_x r2r_y f_at f_ny f_nx]; rewrite <- ?E1, <- ?E2.
  - apply r2r_ext; [auto|]. intros i Hi. apply E3; assumption.
  - apply r2r_ext; [auto|]. intros i Hi. apply E3; assumption.
  - apply r2r_ext; [auto|]. intros j Hj. apply r2r_ext; [auto|]. intros i Hi. apply E3; assumption.
Qed.

(* redft00 is the cosine transform of type I *)
Lemma redft00_r2r n a k : (1 < n)%Z -> Re (dft (-1) (2 * (n - 1)) (fun j => RtoC (mirror n a j)) k) = r2r REDFT00 n a k.
Proof.
  intros Hn. set (N := (n - 1)%Z). assert (HN : (0 < N)%Z) by (unfold N; lia). pose proof (IZRn0 N HN) as N0. unfold dft. rewrite Re_csum.
  rewrite (rsum_ext (2 * N) _ (fun j => mirror n a j * cos (PI * IZR j * IZR k / IZR N))).
  2: { intros j _. unfold w, cis. cbn [Re Im fst snd RtoC Cmult]. rewrite Rmult_0_l, Rminus_0_r. f_equal.
       transitivity (cos (- (PI * IZR j * IZR k / IZR N))); [f_equal; rewrite !mult_IZR; field; exact N0|apply cos_neg]. }
  replace (2 * N)%Z with (n + (n - 2))%Z by (unfold N; lia). rewrite rsum_split by lia. rewrite r2r_mat by exact Hn.
  rewrite (rsum_last n (fun j => mat REDFT00 n k j * a j)), (rsum_head (n - 1) (fun j => mat REDFT00 n k j * a j)) by lia.
  rewrite (rsum_last n (fun j => mirror n a j * cos (PI * IZR j * IZR k / IZR N))), (rsum_head (n - 1) (fun j => mirror n a j * cos (PI * IZR j * IZR k / IZR N))) by lia.
  replace (n - 1 - 1)%Z with (n - 2)%Z by lia. unfold mat, wt00. replace ((0 =? 0) || (0 =? n - 1))%Z with true by reflexivity. replace ((n - 1 =? 0) || (n - 1 =? n - 1))%Z with true by lia. fold N.
  unfold mirror at 1 3. replace (0 <? n)%Z with true by lia. replace (N <? n)%Z with true by (unfold N; lia).
  assert (Q : rsum (n - 2) (fun j => mirror n a (n + j)%Z * cos (PI * IZR (n + j) * IZR k / IZR N)) = rsum (n - 2) (fun j => a (j + 1)%Z * cos (PI * IZR (j + 1) * IZR k / IZR N))).
  { rewrite <- rsum_rev. apply rsum_ext. intros j Hj. unfold mirror. replace (n + (n - 2 - 1 - j) <? n)%Z with false by lia. replace (n - 2 - (n + (n - 2 - 1 - j) - n))%Z with (j + 1)%Z by lia. f_equal.
    pose proof (f_equal Re (cis_period (- (PI * IZR (j + 1) * IZR k / IZR N)) k)) as P. cbn [Re cis fst] in P. rewrite cos_neg in P. rewrite <- P. f_equal.
    replace (n + (n - 2 - 1 - j))%Z with (2 * N - (j + 1))%Z by (unfold N; lia). rewrite minus_IZR, mult_IZR. field. exact N0. }
  rewrite Q. rewrite (rsum_ext (n - 2) (fun j => mirror n a (j + 1)%Z * cos (PI * IZR (j + 1) * IZR k / IZR N)) (fun j => a (j + 1)%Z * cos (PI * IZR (j + 1) * IZR k / IZR N))).
  2: { intros j Hj. unfold mirror. replace (j + 1 <? n)%Z with true by lia. reflexivity. }
  rewrite (rsum_ext (n - 2) (fun j => (if ((j + 1 =? 0) || (j + 1 =? N))%Z then 1 else 2) * cos (PI * IZR (j + 1) * IZR k / IZR N) * a (j + 1)%Z) (fun j => 2 * (a (j + 1)%Z * cos (PI * IZR (j + 1) * IZR k / IZR N)))).
  2: { intros j Hj. replace ((j + 1 =? 0) || (j + 1 =? N))%Z with false by (unfold N; lia). ring. }
  rewrite rsum_scal_l. ring.
Qed.

(* Chebyshev polynomials *)
Lemma cheb2_cos k t : cheb2 k (cos t) = (cos (INR k * t), cos (INR (S k) * t)).
Proof.
  induction k as [|k IH].
  - cbn [cheb2]. rewrite S_INR. cbn [INR]. f_equal; [symmetry; rewrite <- cos_0; f_equal; ring|f_equal; ring].
  - cbn [cheb2]. rewrite IH. f_equal. pose proof (cos_cos (INR (S k) * t) t) as H.
    replace (INR (S k) * t - t) with (INR k * t) in H by (rewrite S_INR; ring). replace (INR (S k) * t + t) with (INR (S (S k)) * t) in H by (rewrite (S_INR (S k)); ring). lra.
Qed.
Lemma cheb_cos k t : (0 <= k)%Z -> cheb (Z.to_nat k) (cos t) = cos (IZR k * t).
Proof. intros H. unfold cheb. rewrite cheb2_cos. cbn [fst]. rewrite INR_IZR_INZ, Z2Nat.id by exact H. reflexivity. Qed.

Lemma ichebt_eval n c j : (1 < n)%Z -> r2r REDFT00 n (fun k => c k * inner_mul n 0.5 k) j = cheb_eval n c (node n j).
Proof.
  intros Hn. rewrite r2r_mat by exact Hn. unfold cheb_eval. apply rsum_ext. intros k Hk. unfold node. rewrite cheb_cos by lia. cbn [mat]. unfold wt00, inner_mul.
  replace (IZR k * (PI * IZR j / IZR (n - 1))) with (PI * IZR k * IZR j / IZR (n - 1)) by (field; apply IZRn0; lia).
  destruct ((k =? 0) || (k =? n - 1))%Z eqn:E.
  - replace ((1 <=? k) && (k <? n - 1))%Z with false by lia. ring.
  - replace ((1 <=? k) && (k <? n - 1))%Z with true by lia. lra.
Qed.
Lemma chebt_val n a k : (1 < n)%Z -> (0 <= k < n)%Z ->
  r2r REDFT00 n a k / IZR (2 * (n - 1)) * inner_mul n 2 k * inner_mul n 0.5 k = r2r REDFT00 n a k / IZR (2 * (n - 1)).
Proof. intros Hn Hk. unfold inner_mul. destruct (_ && _)%Z; lra. Qed.
