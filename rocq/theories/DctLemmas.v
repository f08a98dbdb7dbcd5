(* The cosine and sine transforms and their inverses. *)
From Coq Require Import Reals Lra Lia.
From Coquelicot Require Import Complex.
From Verif Require Import Base ArrModel PixModel FftSpec FftModel FftLemmas FftLemmas2 DctSpec DctModel.
Ltac Zify.zify_post_hook ::= idtac.
Open Scope R_scope.

Lemma rsumn_ext n f g : (forall j, (0 <= j < Z.of_nat n)%Z -> f j = g j) -> rsumn n f = rsumn n g.
Proof. induction n as [|n IH]; intros H; [reflexivity|]. cbn [rsumn]. rewrite IH, H by (intros; try apply H; lia). reflexivity. Qed.
Lemma rsum_ext n f g : (forall j, (0 <= j < n)%Z -> f j = g j) -> rsum n f = rsum n g.
Proof. intros H. apply rsumn_ext. intros j Hj. apply H. lia. Qed.
Lemma rsum_plus n f g : rsum n (fun j => f j + g j) = rsum n f + rsum n g.
Proof. unfold rsum. induction (Z.to_nat n) as [|m IH]; cbn [rsumn]; [ring|]. rewrite IH. ring. Qed.
Lemma rsum_minus n f g : rsum n (fun j => f j - g j) = rsum n f - rsum n g.
Proof. unfold rsum. induction (Z.to_nat n) as [|m IH]; cbn [rsumn]; [ring|]. rewrite IH. ring. Qed.
Lemma rsum_scal_l n c f : rsum n (fun j => c * f j) = c * rsum n f.
Proof. unfold rsum. induction (Z.to_nat n) as [|m IH]; cbn [rsumn]; [ring|]. rewrite IH. ring. Qed.
Lemma rsum_scal_r n c f : rsum n (fun j => f j * c) = rsum n f * c.
Proof. unfold rsum. induction (Z.to_nat n) as [|m IH]; cbn [rsumn]; [ring|]. rewrite IH. ring. Qed.
Lemma rsum_0 n : rsum n (fun _ => 0) = 0.
Proof. unfold rsum. induction (Z.to_nat n) as [|m IH]; cbn [rsumn]; [ring|]. rewrite IH. ring. Qed.
Lemma rsum_swap n m f : rsum n (fun i => rsum m (fun j => f i j)) = rsum m (fun j => rsum n (fun i => f i j)).
Proof.
  unfold rsum. induction (Z.to_nat n) as [|k IH]; cbn [rsumn].
  - symmetry. apply (rsum_0 m).
  - rewrite IH. symmetry. exact (rsum_plus m (fun j => rsumn k (fun i => f i j)) (fun j => f (Z.of_nat k) j)).
Qed.
Lemma rsum_single n i f : (0 <= i < n)%Z -> rsum n (fun j => if (j =? i)%Z then f j else 0) = f i.
Proof.
  unfold rsum. intros H. rewrite <- (Z2Nat.id n) in H by lia. revert H. induction (Z.to_nat n) as [|m IH]; intros H; [lia|]. cbn [rsumn].
  destruct (Z.of_nat m =? i)%Z eqn:E.
  - apply Z.eqb_eq in E. subst i. rewrite (rsumn_ext m _ (fun _ => 0)); [|intros j Hj; replace (j =? Z.of_nat m)%Z with false by lia; reflexivity].
    pose proof (rsum_0 (Z.of_nat m)) as Z0. unfold rsum in Z0. rewrite Nat2Z.id in Z0. rewrite Z0. ring.
  - rewrite IH by lia. ring.
Qed.
Lemma rsum_succ n f : (0 <= n)%Z -> rsum (n + 1) f = rsum n f + f n.
Proof. intros H. unfold rsum. replace (Z.to_nat (n + 1)) with (S (Z.to_nat n)) by lia. cbn [rsumn]. rewrite Z2Nat.id by lia. reflexivity. Qed.
Lemma rsum_split n m f : (0 <= n)%Z -> (0 <= m)%Z -> rsum (n + m) f = rsum n f + rsum m (fun j => f (n + j)%Z).
Proof.
  intros H1 H2. unfold rsum. replace (Z.to_nat (n + m)) with (Z.to_nat n + Z.to_nat m)%nat by lia. induction (Z.to_nat m) as [|k IH].
  - rewrite Nat.add_0_r. cbn. ring.
  - rewrite Nat.add_succ_r. cbn [rsumn]. rewrite IH. replace (Z.of_nat (Z.to_nat n + k)) with (n + Z.of_nat k)%Z by lia. ring.
Qed.
Lemma rsum_first n f : (0 <= n)%Z -> rsum (n + 1) f = f 0%Z + rsum n (fun j => f (j + 1)%Z).
Proof.
  intros H. replace (n + 1)%Z with (1 + n)%Z by lia. rewrite rsum_split by lia. f_equal; [change (rsum 1 f) with (0 + f 0%Z); ring|]. apply rsum_ext. intros. f_equal. lia.
Qed.
Lemma rsum_last n f : (0 < n)%Z -> rsum n f = rsum (n - 1) f + f (n - 1)%Z.
Proof. intros H. replace n with (n - 1 + 1)%Z at 1 by lia. apply rsum_succ. lia. Qed.
Lemma rsum_head n f : (0 < n)%Z -> rsum n f = f 0%Z + rsum (n - 1) (fun j => f (j + 1)%Z).
Proof. intros H. replace n with (n - 1 + 1)%Z at 1 by lia. apply rsum_first. lia. Qed.
Lemma Re_csum n f : Re (csum n f) = rsum n (fun j => Re (f j)).
Proof. unfold csum, rsum. induction (Z.to_nat n) as [|m IH]; [reflexivity|]. cbn [csumn rsumn]. rewrite <- IH. reflexivity. Qed.
Lemma rsum_C n f : RtoC (rsum n f) = csum n (fun j => RtoC (f j)).
Proof. unfold csum, rsum. induction (Z.to_nat n) as [|m IH]; [reflexivity|]. cbn [csumn rsumn]. rewrite RtoC_plus, IH. reflexivity. Qed.
Lemma rsum_rev n f : rsum n (fun j => f (n - 1 - j)%Z) = rsum n f.
Proof. apply RtoC_inj. rewrite !rsum_C. apply (csum_rev n (fun j => RtoC (f j))). Qed.

Lemma parity_sum k : parity k = cos (PI * IZR k).
Proof.
  unfold parity. destruct (Z.even k) eqn:E.
  - apply Z.even_spec in E as [m ->]. pose proof (f_equal Re (cis_int m)) as H. cbn in H. rewrite <- H. f_equal. rewrite mult_IZR. ring.
  - assert (O : Z.odd k = true) by (rewrite <- Z.negb_even, E; reflexivity). apply Z.odd_spec in O as [m ->].
    pose proof (f_equal Re (cis_period PI m)) as H. cbn in H. rewrite cos_PI in H. rewrite <- H. f_equal. rewrite plus_IZR, mult_IZR. ring.
Qed.
Lemma parity_diff i j : parity (i - j) = parity (i + j).
Proof. unfold parity. replace (i + j)%Z with (i - j + 2 * j)%Z by lia. rewrite Z.even_add_mul_2. reflexivity. Qed.
Lemma parity_succ i : parity (i + 1) = - parity i.
Proof. unfold parity. rewrite Z.even_add. cbn. destruct (Z.even i); cbn; ring. Qed.

(* the two basic sums *)
Section Sums.
Context (N : Z) (HN : (0 < N)%Z).
Local Lemma N0 : IZR N <> 0. Proof. apply IZRn0, HN. Qed.
Definition ind (m : Z) : R := if (m mod (2 * N) =? 0)%Z then 1 else 0.
Lemma full_sum m : rsum (2 * N) (fun k => cos (PI * IZR m * IZR k / IZR N)) = 2 * IZR N * ind m.
Proof.
  pose proof (f_equal Re (orth (2 * N) m ltac:(lia))) as H. rewrite Re_csum in H.
  transitivity (rsum (2 * N) (fun j => Re (w (2 * N) (j * m)))).
  - apply rsum_ext. intros k _. change (Re (w (2 * N) (k * m))) with (cos (2 * PI * IZR (k * m) / IZR (2 * N))). f_equal. rewrite !mult_IZR. field. exact N0.
  - rewrite H. unfold ind. destruct (_ =? _)%Z; cbn [Re fst RtoC]; rewrite ?mult_IZR; ring.
Qed.
Lemma S1 m : 2 * rsum (N - 1) (fun k => cos (PI * IZR m * IZR (k + 1) / IZR N)) = 2 * IZR N * ind m - 1 - parity m.
Proof.
  rewrite <- full_sum. replace (2 * N)%Z with ((N - 1 + 1) + (N - 1 + 1))%Z by lia. rewrite rsum_split by lia. rewrite !rsum_first by lia.
  replace (cos (PI * IZR m * 0 / IZR N)) with 1 by (symmetry; rewrite <- cos_0; f_equal; field; exact N0).
  replace (N - 1 + 1 + 0)%Z with N by lia. replace (cos (PI * IZR m * IZR N / IZR N)) with (parity m) by (rewrite parity_sum; f_equal; field; exact N0).
  rewrite <- (rsum_rev (N - 1) (fun j => cos (PI * IZR m * IZR (N - 1 + 1 + (j + 1)) / IZR N))).
  rewrite (rsum_ext (N - 1) (fun j => cos (PI * IZR m * IZR (N - 1 + 1 + (N - 1 - 1 - j + 1)) / IZR N)) (fun k => cos (PI * IZR m * IZR (k + 1) / IZR N))); [ring|].
  intros k _. pose proof (f_equal Re (cis_period (- (PI * IZR m * IZR (k + 1) / IZR N)) m)) as P. cbn in P. rewrite cos_neg in P. rewrite <- P. f_equal.
  replace (N - 1 + 1 + (N - 1 - 1 - k + 1))%Z with (2 * N - (k + 1))%Z by lia. rewrite minus_IZR, mult_IZR. field. exact N0.
Qed.
Lemma S2 m : rsum N (fun k => cos (PI * IZR m * h2 k / IZR N)) = IZR N * ind m * cos (PI * IZR m / (2 * IZR N)).
Proof.
  assert (D : 2 * rsum N (fun k => cos (PI * IZR m * h2 k / IZR N)) = rsum (2 * N) (fun k => cos (PI * IZR m * h2 k / IZR N))).
  { replace (2 * N)%Z with (N + N)%Z by lia. rewrite rsum_split by lia. rewrite <- (rsum_rev N (fun j => cos (PI * IZR m * h2 (N + j) / IZR N))).
    rewrite (rsum_ext N (fun j => cos (PI * IZR m * h2 (N + (N - 1 - j)) / IZR N)) (fun k => cos (PI * IZR m * h2 k / IZR N))); [ring|].
    intros k _. pose proof (f_equal Re (cis_period (- (PI * IZR m * h2 k / IZR N)) m)) as P. cbn in P. rewrite cos_neg in P. rewrite <- P. f_equal.
    unfold h2. replace (N + (N - 1 - k))%Z with (2 * N - 1 - k)%Z by lia. rewrite !minus_IZR, mult_IZR. field. exact N0. }
  assert (E : rsum (2 * N) (fun k => cos (PI * IZR m * h2 k / IZR N)) = 2 * IZR N * ind m * cos (PI * IZR m / (2 * IZR N))).
  { pose proof (orth (2 * N) m ltac:(lia)) as H. apply (f_equal (fun z => Re (cis (PI * IZR m / (2 * IZR N)) * z)%C)) in H. rewrite <- csum_scal_l in H. rewrite Re_csum in H.
    transitivity (rsum (2 * N) (fun j => Re (cis (PI * IZR m / (2 * IZR N)) * w (2 * N) (j * m))%C)).
    - apply rsum_ext. intros k _. unfold w. rewrite <- cis_plus. cbn [Re cis fst]. f_equal. unfold h2. rewrite !mult_IZR. field. exact N0.
    - rewrite H. unfold ind. destruct (_ =? _)%Z; cbn [Re Im fst snd RtoC Cmult cis]; rewrite ?mult_IZR; ring. }
  lra.
Qed.
Lemma ind_eq i j : (- (2 * N) < i - j < 2 * N)%Z -> ind (i - j) = if (i =? j)%Z then 1 else 0.
Proof.
  intros H. unfold ind. destruct (i =? j)%Z eqn:E.
  - apply Z.eqb_eq in E. subst j. rewrite Z.sub_diag, Z.mod_0_l by lia. reflexivity.
  - apply Z.eqb_neq in E. replace ((i - j) mod (2 * N) =? 0)%Z with false; [reflexivity|]. symmetry. apply Z.eqb_neq. intros F. apply Z.mod_divide in F; [|lia]. destruct F as [q F]. assert (q = 0%Z) by nia. subst q. lia.
Qed.
Lemma ind_small m : (0 < m < 2 * N)%Z -> ind m = 0.
Proof. intros H. unfold ind. rewrite Z.mod_small by lia. replace (m =? 0)%Z with false by lia. reflexivity. Qed.
Lemma ind_0 : ind 0 = 1.
Proof. unfold ind. rewrite Z.mod_0_l by lia. reflexivity. Qed.
Lemma ind_full : ind (2 * N) = 1.
Proof. unfold ind. rewrite Z.mod_same by lia. reflexivity. Qed.
End Sums.

Lemma cos_cos a b : 2 * (cos a * cos b) = cos (a - b) + cos (a + b).
Proof. rewrite cos_minus, cos_plus. ring. Qed.
Lemma sin_sin a b : 2 * (sin a * sin b) = cos (a - b) - cos (a + b).
Proof. rewrite cos_minus, cos_plus. ring. Qed.

(* every transform as a matrix *)
Definition wt00 (n j : Z) : R := if ((j =? 0) || (j =? n - 1))%Z then 1 else 2.
Definition wt0 (j : Z) : R := if (j =? 0)%Z then 1 else 2.
Definition wtl (n j : Z) : R := if (j =? n - 1)%Z then 1 else 2.
Definition mat (t : kind) (n k j : Z) : R :=
  match t with
  | REDFT00 => wt00 n j * cos (PI * IZR j * IZR k / IZR (n - 1))
  | REDFT10 => 2 * cos (PI * h2 j * IZR k / IZR n)
  | REDFT01 => wt0 j * cos (PI * IZR j * h2 k / IZR n)
  | REDFT11 => 2 * cos (PI * h2 j * h2 k / IZR n)
  | RODFT00 => 2 * sin (PI * IZR (j + 1) * IZR (k + 1) / IZR (n + 1))
  | RODFT10 => 2 * sin (PI * h2 j * IZR (k + 1) / IZR n)
  | RODFT01 => wtl n j * sin (PI * IZR (j + 1) * h2 k / IZR n)
  | RODFT11 => 2 * sin (PI * h2 j * h2 k / IZR n)
  end.
Definition long_enough (t : kind) (n : Z) : Prop := match t with REDFT00 => (1 < n)%Z | _ => (0 < n)%Z end.

Lemma sin_half k : sin (PI * h2 k) = parity k.
Proof.
  unfold h2. rewrite parity_sum. replace (PI * (IZR k + 1 / 2)) with (PI / 2 + PI * IZR k) by field. rewrite sin_plus, sin_PI2, cos_PI2. ring.
Qed.
Lemma r2r_mat t n a k : long_enough t n -> r2r t n a k = rsum n (fun j => mat t n k j * a j).
Proof.
  destruct t; cbn [long_enough r2r]; intros H.
  - rewrite (rsum_last n (fun j => mat REDFT00 n k j * a j)) by lia. rewrite (rsum_head (n - 1) (fun j => mat REDFT00 n k j * a j)) by lia. unfold mat, wt00.
    replace (n - 1 - 1)%Z with (n - 2)%Z by lia. replace ((0 =? 0) || (0 =? n - 1))%Z with true by reflexivity. replace ((n - 1 =? 0) || (n - 1 =? n - 1))%Z with true by lia.
    replace (cos (PI * 0 * IZR k / IZR (n - 1))) with 1 by (symmetry; rewrite <- cos_0; f_equal; field; apply IZRn0; lia).
    replace (cos (PI * IZR (n - 1) * IZR k / IZR (n - 1))) with (parity k) by (rewrite parity_sum; f_equal; field; apply IZRn0; lia).
    rewrite <- rsum_scal_l. rewrite (rsum_ext (n - 2) (fun j => _ * a (j + 1)%Z) (fun j => 2 * (a (j + 1)%Z * cos (PI * IZR (j + 1) * IZR k / IZR (n - 1))))); [ring|].
    intros j Hj. replace ((j + 1 =? 0) || (j + 1 =? n - 1))%Z with false by lia. ring.
  - rewrite <- rsum_scal_l. apply rsum_ext. intros j _. cbn [mat]. ring.
  - rewrite (rsum_head n (fun j => mat REDFT01 n k j * a j)) by lia. unfold mat, wt0. replace (0 =? 0)%Z with true by reflexivity.
    replace (cos (PI * 0 * h2 k / IZR n)) with 1 by (symmetry; rewrite <- cos_0; f_equal; field; apply IZRn0; lia).
    rewrite <- rsum_scal_l. rewrite (rsum_ext (n - 1) (fun j => _ * a (j + 1)%Z) (fun j => 2 * (a (j + 1)%Z * cos (PI * IZR (j + 1) * h2 k / IZR n)))); [ring|].
    intros j Hj. replace (j + 1 =? 0)%Z with false by lia. ring.
  - rewrite <- rsum_scal_l. apply rsum_ext. intros j _. cbn [mat]. ring.
  - rewrite <- rsum_scal_l. apply rsum_ext. intros j _. cbn [mat]. ring.
  - rewrite <- rsum_scal_l. apply rsum_ext. intros j _. cbn [mat]. ring.
  - rewrite (rsum_last n (fun j => mat RODFT01 n k j * a j)) by lia. unfold mat, wtl. replace (n - 1 =? n - 1)%Z with true by lia.
    replace (n - 1 + 1)%Z with n by lia. replace (sin (PI * IZR n * h2 k / IZR n)) with (parity k) by (rewrite <- sin_half; f_equal; field; apply IZRn0; lia).
    rewrite <- rsum_scal_l. rewrite (rsum_ext (n - 1) (fun j => _ * a j) (fun j => 2 * (a j * sin (PI * IZR (j + 1) * h2 k / IZR n)))); [ring|].
    intros j Hj. replace (j =? n - 1)%Z with false by lia. ring.
  - rewrite <- rsum_scal_l. apply rsum_ext. intros j _. cbn [mat]. ring.
Qed.
