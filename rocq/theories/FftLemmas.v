(* Sums of complex numbers and roots of unity. *)
From Coq Require Import Reals Lra Lia.
From Coquelicot Require Import Complex.
From Verif Require Import Base ArrModel FftSpec FftModel.
Ltac Zify.zify_post_hook ::= idtac.
Open Scope R_scope. Open Scope C_scope.

Lemma C_eq (a b : C) : Re a = Re b -> Im a = Im b -> a = b.
Proof. intros H1 H2. apply injective_projections; assumption. Qed.

Lemma Cmult_conj a b : Cconj (a * b) = Cconj a * Cconj b.
Proof. destruct a, b. apply C_eq; cbn; ring. Qed.
Lemma Cconj_conj a : Cconj (Cconj a) = a.
Proof. destruct a. apply C_eq; cbn; ring. Qed.
Lemma Cconj_RtoC r : Cconj (RtoC r) = RtoC r.
Proof. apply C_eq; cbn; ring. Qed.

Lemma cis_plus a b : cis (a + b)%R = cis a * cis b.
Proof. apply C_eq; cbn; [apply cos_plus|]. rewrite sin_plus. ring. Qed.
Lemma cis_0 : cis 0 = 1.
Proof. apply C_eq; cbn; [apply cos_0|apply sin_0]. Qed.
Lemma cis_opp a : cis (- a)%R = Cconj (cis a).
Proof. apply C_eq; cbn; [apply cos_neg|apply sin_neg]. Qed.
Lemma cis_period t k : cis (t + 2 * PI * IZR k)%R = cis t.
Proof.
  assert (P : forall t m, cis (t + 2 * PI * INR m)%R = cis t).
  { intros u m. apply C_eq; cbn.
    - replace (u + 2 * PI * INR m)%R with (u + 2 * INR m * PI)%R by ring. apply cos_period.
    - replace (u + 2 * PI * INR m)%R with (u + 2 * INR m * PI)%R by ring. apply sin_period. }
  destruct (Z_le_dec 0 k) as [H|H].
  - rewrite <- (Z2Nat.id k) by lia. rewrite <- INR_IZR_INZ. apply P.
  - rewrite <- (P (t + 2 * PI * IZR k)%R (Z.to_nat (- k))). f_equal. rewrite INR_IZR_INZ, Z2Nat.id by lia. rewrite opp_IZR. ring.
Qed.
Lemma cis_int k : cis (2 * PI * IZR k)%R = 1.
Proof. replace (2 * PI * IZR k)%R with (0 + 2 * PI * IZR k)%R by ring. rewrite cis_period. apply cis_0. Qed.
Lemma cis_conj_mul t : Cconj (cis t) * cis t = 1.
Proof. rewrite <- cis_opp, <- cis_plus. replace (- t + t)%R with 0%R by ring. apply cis_0. Qed.

Section W.
Context (n : Z) (Hn : (0 < n)%Z).
Local Lemma nR : IZR n <> 0%R. Proof. intros E. apply eq_IZR in E. lia. Qed.
Lemma w_plus a b : w n (a + b) = w n a * w n b.
Proof. unfold w. rewrite <- cis_plus. f_equal. rewrite plus_IZR. field. exact nR. Qed.
Lemma w_0 : w n 0 = 1.
Proof. unfold w. replace (2 * PI * 0 / IZR n)%R with 0%R by (field; exact nR). apply cis_0. Qed.
Lemma w_opp a : w n (- a) = Cconj (w n a).
Proof. unfold w. rewrite <- cis_opp. f_equal. rewrite opp_IZR. field. exact nR. Qed.
Lemma w_n k : w n (n * k) = 1.
Proof. unfold w. rewrite mult_IZR. replace (2 * PI * (IZR n * IZR k) / IZR n)%R with (2 * PI * IZR k)%R by (field; exact nR). apply cis_int. Qed.
Lemma w_mod a : w n (a mod n) = w n a.
Proof. rewrite (Z.div_mod a n) at 2 by lia. rewrite w_plus, w_n. ring. Qed.
Lemma w_eqm a b : (a mod n = b mod n)%Z -> w n a = w n b.
Proof. intros E. rewrite <- w_mod, E. apply w_mod. Qed.
Lemma w_neq1 m : (0 < m < n)%Z -> w n m <> 1.
Proof.
  intros H E. assert (E1 : cos (2 * PI * IZR m / IZR n) = 1%R) by (apply (f_equal Re) in E; exact E).
  assert (A : (0 < IZR m)%R) by (apply (IZR_lt 0); lia). assert (B : (IZR m < IZR n)%R) by (apply IZR_lt; lia). pose proof PI_RGT_0.
  set (h := (PI * (IZR m / IZR n))%R). assert (Hh : (0 < IZR m / IZR n < 1)%R).
  { split; [apply Rdiv_lt_0_compat; lra|]. apply (Rmult_lt_reg_r (IZR n)); [lra|]. unfold Rdiv. rewrite Rmult_assoc, Rinv_l by lra. lra. }
  replace (2 * PI * IZR m / IZR n)%R with (2 * h)%R in E1 by (unfold h; field; lra).
  rewrite cos_2a_sin in E1. assert (0 < sin h)%R.
  { apply sin_gt_0; unfold h; [apply Rmult_lt_0_compat; lra|]. rewrite <- (Rmult_1_r PI) at 2. apply Rmult_lt_compat_l; lra. }
  assert (0 < sin h * sin h)%R by (apply Rmult_lt_0_compat; assumption). lra.
Qed.
End W.

(* sums *)
Lemma csumn_ext n f g : (forall j, (0 <= j < Z.of_nat n)%Z -> f j = g j) -> csumn n f = csumn n g.
Proof. induction n as [|n IH]; intros H; [reflexivity|]. cbn [csumn]. rewrite IH, H by (intros; try apply H; lia). reflexivity. Qed.
Lemma csum_ext n f g : (forall j, (0 <= j < n)%Z -> f j = g j) -> csum n f = csum n g.
Proof. intros H. apply csumn_ext. intros j Hj. apply H. lia. Qed.
Lemma csum_plus n f g : csum n (fun j => f j + g j) = csum n f + csum n g.
Proof. unfold csum. induction (Z.to_nat n) as [|m IH]; cbn [csumn]; [ring|]. rewrite IH. ring. Qed.
Lemma csum_scal_l n c f : csum n (fun j => c * f j) = c * csum n f.
Proof. unfold csum. induction (Z.to_nat n) as [|m IH]; cbn [csumn]; [ring|]. rewrite IH. ring. Qed.
Lemma csum_scal_r n c f : csum n (fun j => f j * c) = csum n f * c.
Proof. unfold csum. induction (Z.to_nat n) as [|m IH]; cbn [csumn]; [ring|]. rewrite IH. ring. Qed.
Lemma csum_0 n : csum n (fun _ => RtoC 0) = 0.
Proof. unfold csum. induction (Z.to_nat n) as [|m IH]; cbn [csumn]; [ring|]. rewrite IH. ring. Qed.
Lemma csum_const n c : (0 <= n)%Z -> csum n (fun _ => c) = RtoC (IZR n) * c.
Proof.
  intros H. unfold csum. rewrite <- (Z2Nat.id n) at 2 by exact H. induction (Z.to_nat n) as [|m IH]; cbn [csumn]; [change (Z.of_nat 0) with 0%Z; ring|].
  rewrite IH, Nat2Z.inj_succ. unfold Z.succ. rewrite plus_IZR, RtoC_plus. ring.
Qed.
Lemma csum_swap n m f : csum n (fun i => csum m (fun j => f i j)) = csum m (fun j => csum n (fun i => f i j)).
Proof.
  unfold csum. induction (Z.to_nat n) as [|k IH]; cbn [csumn].
  - symmetry. apply (csum_0 m).
  - rewrite IH. symmetry. exact (csum_plus m (fun j => csumn k (fun i => f i j)) (fun j => f (Z.of_nat k) j)).
Qed.
Lemma csum_conj n f : Cconj (csum n f) = csum n (fun j => Cconj (f j)).
Proof.
  unfold csum. induction (Z.to_nat n) as [|m IH]; cbn [csumn]; [apply C_eq; cbn; ring|]. rewrite <- IH. apply C_eq; cbn; ring.
Qed.
Lemma csum_single n i f : (0 <= i < n)%Z -> csum n (fun j => if (j =? i)%Z then f j else 0) = f i.
Proof.
  unfold csum. intros H. rewrite <- (Z2Nat.id n) in H by lia. revert H. induction (Z.to_nat n) as [|m IH]; intros H; [lia|]. cbn [csumn].
  destruct (Z.of_nat m =? i)%Z eqn:E.
  - apply Z.eqb_eq in E. subst i. rewrite (csumn_ext m _ (fun _ => RtoC 0)); [|intros j Hj; replace (j =? Z.of_nat m)%Z with false by lia; reflexivity].
    pose proof (csum_0 (Z.of_nat m)) as Z0. unfold csum in Z0. rewrite Nat2Z.id in Z0. rewrite Z0. ring.
  - rewrite IH by lia. ring.
Qed.
Lemma csum_succ n f : (0 <= n)%Z -> csum (n + 1) f = csum n f + f n.
Proof. intros H. unfold csum. replace (Z.to_nat (n + 1)) with (S (Z.to_nat n)) by lia. cbn [csumn]. rewrite Z2Nat.id by lia. reflexivity. Qed.
Lemma csum_first n f : (0 <= n)%Z -> csum (n + 1) f = f 0%Z + csum n (fun j => f (j + 1)%Z).
Proof.
  intros H. unfold csum. replace (Z.to_nat (n + 1)) with (S (Z.to_nat n)) by lia. induction (Z.to_nat n) as [|m IH]; [cbn; ring|].
  cbn [csumn] in *. rewrite IH. replace (Z.of_nat (S m)) with (Z.of_nat m + 1)%Z by lia. ring.
Qed.
Lemma csum_split n m f : (0 <= n)%Z -> (0 <= m)%Z -> csum (n + m) f = csum n f + csum m (fun j => f (n + j)%Z).
Proof.
  intros H1 H2. unfold csum. replace (Z.to_nat (n + m)) with (Z.to_nat n + Z.to_nat m)%nat by lia. induction (Z.to_nat m) as [|k IH].
  - rewrite Nat.add_0_r. cbn. ring.
  - rewrite Nat.add_succ_r. cbn [csumn]. rewrite IH. replace (Z.of_nat (Z.to_nat n + k)) with (n + Z.of_nat k)%Z by lia. ring.
Qed.
(* sums of a periodic function over a period *)
Lemma csum_shift1 n f : (0 < n)%Z -> (forall j, f (j + n)%Z = f j) -> csum n (fun j => f (j + 1)%Z) = csum n f.
Proof.
  intros H P. assert (E : csum (n + 1) f = csum n f + f 0%Z) by (rewrite csum_succ by lia; rewrite <- (P 0%Z); f_equal; f_equal; lia).
  rewrite csum_first in E by lia. rewrite <- (Cplus_0_l (csum n (fun j => f (j + 1)%Z))).
  replace (RtoC 0) with (- f 0%Z + f 0%Z) by ring. rewrite <- Cplus_assoc, E. ring.
Qed.
Lemma csum_shift n f s : (0 < n)%Z -> (forall j, f (j + n)%Z = f j) -> csum n (fun j => f (j + s)%Z) = csum n f.
Proof.
  intros H P. assert (A : forall k g, (forall j, g (j + n)%Z = g j) -> csum n (fun j => g (j + Z.of_nat k)%Z) = csum n g).
  { induction k as [|k IH]; intros g Pg.
    - apply csum_ext. intros. f_equal. lia.
    - transitivity (csum n (fun j => (fun i => g (i + 1)%Z) (j + Z.of_nat k)%Z)); [apply csum_ext; intros; f_equal; lia|].
      rewrite (IH (fun i => g (i + 1)%Z)); [apply csum_shift1; assumption|]. intros j. rewrite <- (Pg (j + 1)%Z). f_equal. lia. }
  destruct (Z_le_dec 0 s) as [Hs|Hs].
  - rewrite <- (Z2Nat.id s) by lia. apply A. exact P.
  - symmetry. rewrite <- (A (Z.to_nat (- s)) (fun j => f (j + s)%Z)); [apply csum_ext; intros; f_equal; lia|]. intros j. rewrite <- (P (j + s)%Z). f_equal. lia.
Qed.
Lemma csum_rev n f : csum n (fun j => f (n - 1 - j)%Z) = csum n f.
Proof.
  destruct (Z_le_dec 0 n) as [H|H]; [|unfold csum; replace (Z.to_nat n) with O by lia; reflexivity].
  rewrite <- (Z2Nat.id n) by exact H. generalize (Z.to_nat n). clear. intros m. revert f. induction m as [|m IH]; intros f; [reflexivity|].
  replace (Z.of_nat (S m)) with (Z.of_nat m + 1)%Z by lia. rewrite csum_first by lia. rewrite csum_succ by lia.
  rewrite <- (IH f). replace (Z.of_nat m + 1 - 1 - 0)%Z with (Z.of_nat m) by lia.
  rewrite (csum_ext _ (fun j => f (Z.of_nat m + 1 - 1 - (j + 1))%Z) (fun j => f (Z.of_nat m - 1 - j)%Z)) by (intros; f_equal; lia). ring.
Qed.
Lemma csum_neg n f : (0 < n)%Z -> (forall j, f (j + n)%Z = f j) -> csum n (fun j => f (- j)%Z) = csum n f.
Proof.
  intros H P. rewrite <- (csum_rev n f). rewrite <- (csum_shift n (fun j => f (- j)%Z) (1 - n)).
  - apply csum_ext. intros. f_equal. lia.
  - exact H.
  - intros j. rewrite <- (P (- (j + n))%Z). f_equal. lia.
Qed.

(* the sum of all powers of a root of unity *)
Lemma orth n m : (0 < n)%Z -> csum n (fun k => w n (k * m)) = if (m mod n =? 0)%Z then RtoC (IZR n) else 0.
Proof.
  intros Hn. destruct (m mod n =? 0)%Z eqn:E.
  - apply Z.eqb_eq in E. rewrite (csum_ext n _ (fun _ => RtoC 1)); [rewrite csum_const by lia; ring|]. intros k _.
    rewrite <- w_mod by exact Hn. rewrite Z.mul_mod, E, Z.mul_0_r, Z.mod_0_l by lia. apply w_0. exact Hn.
  - apply Z.eqb_neq in E. pose proof (Z.mod_pos_bound m n Hn). set (s := csum n _).
    assert (Q : w n m * s = s).
    { unfold s. rewrite <- csum_scal_l. transitivity (csum n (fun k => (fun j => w n (j * m)) (k + 1)%Z)).
      - apply csum_ext. intros k _. cbv beta. rewrite <- w_plus by exact Hn. f_equal. lia.
      - apply (csum_shift1 n (fun j => w n (j * m))); [exact Hn|]. intros j. apply w_eqm; [exact Hn|]. replace ((j + n) * m)%Z with (j * m + m * n)%Z by lia. apply Z.mod_add. lia. }
    assert (N : w n m <> 1) by (rewrite <- w_mod by exact Hn; apply w_neq1; lia).
    assert (D : (w n m - 1) * s = 0) by (replace ((w n m - 1) * s) with (w n m * s - s) by ring; rewrite Q; ring).
    destruct (Ceq_dec s 0) as [?|S0]; [assumption|]. exfalso. apply (Cmult_neq_0 (w n m - 1) s); [|exact S0|exact D].
    intros Z0. apply N. replace (w n m) with ((w n m - 1) + 1) by ring. rewrite Z0. ring.
Qed.

(* the transform and its inverse along one axis *)
Lemma dft_ext s n a b k : (forall j, (0 <= j < n)%Z -> a j = b j) -> dft s n a k = dft s n b k.
Proof. intros H. apply csum_ext. intros j Hj. rewrite H by exact Hj. reflexivity. Qed.
Lemma dft_inv s n a j : (s = 1 \/ s = -1)%Z -> (0 < n)%Z -> (0 <= j < n)%Z -> dft s n (dft (- s) n a) j = RtoC (IZR n) * a j.
Proof.
  intros Hs Hn Hj. unfold dft. rewrite (csum_ext n _ (fun k => csum n (fun i => a i * w n (k * (s * (j - i)))))).
  - rewrite csum_swap. rewrite (csum_ext n _ (fun i => if (i =? j)%Z then RtoC (IZR n) * a i else 0)).
    + apply (csum_single n j (fun i => RtoC (IZR n) * a i)). exact Hj.
    + intros i Hi. rewrite csum_scal_l, orth by exact Hn. destruct (i =? j)%Z eqn:E.
      * apply Z.eqb_eq in E. subst i. replace ((s * (j - j)) mod n =? 0)%Z with true; [ring|]. rewrite Z.sub_diag, Z.mul_0_r, Z.mod_0_l by lia. reflexivity.
      * replace ((s * (j - i)) mod n =? 0)%Z with false; [ring|]. symmetry. apply Z.eqb_neq. apply Z.eqb_neq in E. intros F.
        apply Z.mod_divide in F; [|lia]. destruct F as [q F]. assert (q = 0%Z) by (destruct Hs; subst s; nia). subst q. destruct Hs; subst s; lia.
  - intros k Hk. rewrite <- csum_scal_r. apply csum_ext. intros i Hi. rewrite <- Cmult_assoc. f_equal. rewrite <- w_plus by exact Hn. f_equal. lia.
Qed.
Lemma dft_plus s n a b k : dft s n (fun j => a j + b j) k = dft s n a k + dft s n b k.
Proof. unfold dft. rewrite <- csum_plus. apply csum_ext. intros. ring. Qed.
Lemma dft_scal s n c a k : dft s n (fun j => c * a j) k = c * dft s n a k.
Proof. unfold dft. rewrite <- csum_scal_l. apply csum_ext. intros. ring. Qed.
Lemma dft_scal_r s n c a k : dft s n (fun j => a j * c) k = dft s n a k * c.
Proof. unfold dft. rewrite <- csum_scal_r. apply csum_ext. intros. ring. Qed.
Lemma dft_conj s n a k : (0 < n)%Z -> Cconj (dft s n a k) = dft (- s) n (fun j => Cconj (a j)) k.
Proof.
  intros Hn. unfold dft. rewrite csum_conj. apply csum_ext. intros j _. rewrite Cmult_conj. f_equal. rewrite <- w_opp by exact Hn. f_equal. lia.
Qed.
Lemma dft_per s n a k : (0 < n)%Z -> dft s n a (k + n) = dft s n a k.
Proof. intros Hn. apply csum_ext. intros j _. f_equal. apply w_eqm; [exact Hn|]. replace (s * (j * (k + n)))%Z with (s * (j * k) + s * j * n)%Z by lia. apply Z.mod_add. lia. Qed.
Lemma dft_mod s n a k : (0 < n)%Z -> dft s n a (k mod n) = dft s n a k.
Proof.
  intros Hn. apply csum_ext. intros j _. f_equal. apply w_eqm; [exact Hn|].
  rewrite (Z.mod_eq k n) by lia. replace (s * (j * (k - n * (k / n))))%Z with (s * (j * k) + (- (s * j * (k / n))) * n)%Z by lia. apply Z.mod_add. lia.
Qed.
Lemma dft_xy s t a y x : f_at (dft_y s (dft_x t a)) y x = f_at (dft_x t (dft_y s a)) y x.
Proof.
  unfold dft_x, dft_y, dft. cbn [f_at f_ny f_nx].
  rewrite (csum_ext (f_ny a) _ (fun j => csum (f_nx a) (fun i => f_at a j i * w (f_nx a) (t * (i * x)) * w (f_ny a) (s * (j * y))))) by (intros; rewrite <- csum_scal_r; reflexivity).
  rewrite csum_swap. apply csum_ext. intros i _. rewrite <- csum_scal_r. apply csum_ext. intros j _. ring.
Qed.
