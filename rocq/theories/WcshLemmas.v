From Coq Require Import Qabs Qround Lqa.
From Verif Require Import Base SliceSpec SplitModel WcshSpec WcshModel.

Lemma qltb_true a b : qltb a b = true <-> (a < b)%Q.
Proof. unfold qltb. destruct (Qle_bool b a) eqn:E; cbn; split; intros H; try discriminate; try reflexivity.
  - apply Qle_bool_iff in E. lra.
  - apply Qnot_le_lt. intros L. apply Qle_bool_iff in L. congruence.
Qed.
Lemma qltb_false a b : qltb a b = false <-> (b <= a)%Q.
Proof. unfold qltb. destruct (Qle_bool b a) eqn:E; cbn; split; intros H; try discriminate; try reflexivity.
  - apply Qle_bool_iff in E. exact E.
  - apply Qle_bool_iff in H. congruence.
Qed.
Lemma qeqb_false a b : Qeq_bool a b = false <-> ~ (a == b)%Q.
Proof. split; intros H; [apply Qeq_bool_neq; exact H|]. destruct (Qeq_bool a b) eqn:E; [|reflexivity]. apply Qeq_bool_eq in E. contradiction. Qed.

Lemma qtrunc_floor x : (0 <= x)%Q -> qtrunc x = Qfloor x.
Proof. intros H. unfold qtrunc. destruct x as [a b]. unfold Qfloor. cbn. apply Z.quot_div_nonneg; [|lia]. unfold Qle in H. cbn in H. lia. Qed.
Lemma qtrunc_spec x : (0 <= x)%Q -> (inject_Z (qtrunc x) <= x /\ x < inject_Z (qtrunc x) + 1)%Q /\ 0 <= qtrunc x.
Proof.
  intros H. rewrite qtrunc_floor by exact H. split; [split|].
  - apply Qfloor_le.
  - pose proof (Qlt_floor x) as L. rewrite inject_Z_plus in L. exact L.
  - change 0 with (Qfloor 0). apply Qfloor_resp_le. exact H.
Qed.
Lemma inject_lt a b : (inject_Z a < inject_Z b)%Q -> a < b. Proof. intros H. rewrite Zlt_Qlt. exact H. Qed.
Lemma inject_le a b : (inject_Z a <= inject_Z b)%Q -> a <= b. Proof. intros H. rewrite Zle_Qle. exact H. Qed.
Lemma qtrunc_int x m eps : 0 <= m -> (x == inject_Z m)%Q -> (0 <= eps)%Q -> (eps < 1)%Q -> qtrunc (x + eps) = m.
Proof.
  intros Hm E H1 H2. assert (P : (0 <= inject_Z m)%Q) by (change 0%Q with (inject_Z 0); rewrite <- Zle_Qle; exact Hm).
  destruct (qtrunc_spec (x + eps) ltac:(lra)) as ((A & B) & _). set (k := qtrunc (x + eps)) in *.
  assert (k < m + 1) by (apply inject_lt; rewrite inject_Z_plus; change (inject_Z 1) with 1%Q; lra).
  assert (m < k + 1) by (apply inject_lt; rewrite inject_Z_plus; change (inject_Z 1) with 1%Q; lra). lia.
Qed.

(* moving the reference point along the axis *)
Lemma sky_move v p d x q : ~ (d == 0)%Q -> (sky_at (v + (x - p) * d) x d q == sky_at v p d q)%Q.
Proof. intros H. unfold sky_at. ring. Qed.

Lemma fix_axis_sky n v p d q : ~ (d == 0)%Q ->
  (sky_at (fst (fix_axis n v p d)) (snd (fix_axis n v p d)) d q == sky_at v p d q)%Q \/
  (sky_at (fst (fix_axis n v p d)) (snd (fix_axis n v p d)) d q == sky_at v p d q + v)%Q.
Proof.
  intros H. unfold fix_axis. destruct (_ && _); cbn [fst snd]; [left; reflexivity|right]. unfold sky_at. field. exact H.
Qed.

Lemma allclose_eq a b : (a == b)%Q -> allclose a b = true.
Proof. intros H. unfold allclose. apply Qle_bool_iff. rewrite (Qabs_wd (a - b) 0) by lra. change (Qabs 0) with 0%Q. pose proof (Qabs_nonneg b). lra. Qed.
Lemma allclose_far a b : (0 <= a)%Q -> (a <= b)%Q -> ((1 # 100000000) + (1 # 100000) * b < b - a)%Q -> allclose a b = false.
Proof.
  intros H1 H2 H3. unfold allclose. apply not_true_is_false. intros H. apply Qle_bool_iff in H. rewrite (Qabs_pos b), Qabs_neg in H by lra. lra.
Qed.
