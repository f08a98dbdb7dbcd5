From Coq Require Import Reals List Bool Lia Lra Psatz Permutation.
From Verif Require Import CndSpec CndModel.
Import ListNotations.
Open Scope R_scope.
Ltac Zify.zify_post_hook ::= idtac.

(* sums *)
Lemma lsum_cons x l f : lsum (x :: l) f = f x + lsum l f. Proof. reflexivity. Qed.
Lemma lsum_nil f : lsum [] f = 0. Proof. reflexivity. Qed.
Lemma lsum_ext l f g : (forall i, In i l -> f i = g i) -> lsum l f = lsum l g.
Proof. induction l as [|x l IH]; intros H; [reflexivity|]. rewrite !lsum_cons, (H x) by now left. f_equal. apply IH. intros i I. apply H. now right. Qed.
Lemma lsum_plus l f g : lsum l (fun i => f i + g i) = lsum l f + lsum l g.
Proof. induction l as [|x l IH]; [rewrite !lsum_nil|rewrite !lsum_cons, IH]; ring. Qed.
Lemma lsum_scal l c f : lsum l (fun i => c * f i) = c * lsum l f.
Proof. induction l as [|x l IH]; [rewrite !lsum_nil|rewrite !lsum_cons, IH]; ring. Qed.
Lemma lsum_0 l : lsum l (fun _ => 0) = 0.
Proof. induction l as [|x l IH]; [reflexivity|rewrite !lsum_cons, IH]; ring. Qed.
Lemma lsum_swap l m f : lsum l (fun i => lsum m (fun j => f i j)) = lsum m (fun j => lsum l (fun i => f i j)).
Proof. induction l as [|x l IH]; [symmetry; apply lsum_0|]. rewrite lsum_cons, IH, <- lsum_plus. apply lsum_ext. intros j _. reflexivity. Qed.
Lemma lsum_app l m f : lsum (l ++ m) f = lsum l f + lsum m f.
Proof. induction l as [|x l IH]; [rewrite lsum_nil; cbn [app]|cbn [app]; rewrite !lsum_cons, IH]; ring. Qed.
Lemma lsum_perm l m f : Permutation l m -> lsum l f = lsum m f.
Proof. induction 1; rewrite ?lsum_cons; lra. Qed.
Lemma lsum_map {g : nat -> nat} l f : lsum (map g l) f = lsum l (fun i => f (g i)).
Proof. induction l as [|x l IH]; [reflexivity|]. cbn [map]. now rewrite !lsum_cons, IH. Qed.
Lemma lsum_nth l f d : lsum (seq 0 (length l)) (fun p => f (nth p l d)) = lsum l f.
Proof.
  induction l as [|x l IH]; [reflexivity|]. cbn [length seq]. rewrite !lsum_cons. cbn [nth]. rewrite <- seq_shift, lsum_map. cbn [nth]. rewrite IH. reflexivity.
Qed.
Lemma lsum_delta l f i : NoDup l -> In i l -> lsum l (fun j => f j * delta j i) = f i.
Proof.
  intros N I. induction N as [|x l X N IH]; [contradiction|]. change (f x * delta x i + lsum l (fun j => f j * delta j i) = f i). destruct I as [->|I].
  - unfold delta at 1. rewrite Nat.eqb_refl. rewrite (lsum_ext l _ (fun _ => 0)), lsum_0; [ring|]. intros j J. unfold delta. destruct (Nat.eqb_spec j i); [subst; contradiction|ring].
  - rewrite (IH I). unfold delta. destruct (Nat.eqb_spec x i); [subst; contradiction|ring].
Qed.
Lemma delta_sym i j : delta i j = delta j i.
Proof. unfold delta. now rewrite Nat.eqb_sym. Qed.

(* covariances *)
Lemma covar_row n C a b : covar n C a b = lsum (seq 0 n) (fun j => lsum (seq 0 n) (fun i => a i * C i j) * b j).
Proof. unfold covar. rewrite lsum_swap. apply lsum_ext. intros j _. rewrite (Rmult_comm _ (b j)), <- lsum_scal. apply lsum_ext. intros i _. ring. Qed.
Lemma covar_sym n C a b : (forall i j, C i j = C j i) -> covar n C a b = covar n C b a.
Proof. intros S. unfold covar. rewrite lsum_swap. apply lsum_ext. intros j _. apply lsum_ext. intros i _. rewrite (S i j). ring. Qed.
Lemma covar_ext n C a a' b b' : (forall i, (i < n)%nat -> a i = a' i) -> (forall i, (i < n)%nat -> b i = b' i) -> covar n C a b = covar n C a' b'.
Proof. intros A B. unfold covar. apply lsum_ext. intros i I. apply lsum_ext. intros j J. apply in_seq in I, J. rewrite A, B by lia. reflexivity. Qed.
Lemma covar_plus_r n C a b c t : covar n C a (fun i => b i + t * c i) = covar n C a b + t * covar n C a c.
Proof.
  rewrite !covar_row. rewrite <- lsum_scal, <- lsum_plus. apply lsum_ext. intros i _. ring.
Qed.
Lemma covar_delta_r n C a j : (j < n)%nat -> covar n C a (fun i => delta i j) = lsum (seq 0 n) (fun i => a i * C i j).
Proof. intros J. rewrite covar_row. apply (lsum_delta (seq 0 n) (fun j => lsum (seq 0 n) (fun i => a i * C i j))); [apply seq_NoDup|apply in_seq; lia]. Qed.
Lemma square_zero x y z : 0 <= z -> x = 0 -> (forall t, 0 <= x + 2 * t * y + t * t * z) -> y = 0.
Proof.
  intros Z X H. subst x. destruct (Req_dec y 0) as [|N]; [assumption|exfalso].
  specialize (H (- y / (z + 1))). assert (0 < z + 1) by lra.
  replace (0 + 2 * (- y / (z + 1)) * y + - y / (z + 1) * (- y / (z + 1)) * z) with (- (y * y) * (z + 2) / ((z + 1) * (z + 1))) in H by (field; lra).
  assert (0 < y * y) by nra. assert (0 < / ((z + 1) * (z + 1))) by (apply Rinv_0_lt_compat; nra). unfold Rdiv in H. assert (0 < y * y * (z + 2)) by nra. nra.
Qed.
Lemma null_zero n C a : covariance n C -> covar n C a a = 0 -> forall i, (i < n)%nat -> a i = 0.
Proof.
  intros (S & P & B & I) Z. assert (O : forall b, covar n C a b = 0).
  { intros b. apply (square_zero (covar n C a a) _ (covar n C b b)); [apply P|exact Z|]. intros t. specialize (P (fun i => a i + t * b i)).
    rewrite covar_plus_r, (covar_sym n C _ a S), (covar_sym n C _ b S), !covar_plus_r, (covar_sym n C b a S) in P. lra. }
  intros i Hi. rewrite <- (lsum_delta (seq 0 n) a i) by (try apply seq_NoDup; apply in_seq; lia).
  rewrite (lsum_ext _ _ (fun j => lsum (seq 0 n) (fun k => a j * C j k * B k i))).
  - exact (O (fun k => B k i)).
  - intros j J. apply in_seq in J. destruct (I j i) as [E _]; try lia. rewrite <- E, <- lsum_scal. apply lsum_ext. intros k _. ring.
Qed.

(* known and unknown variables *)
Lemma filter_split {T : Type} (t : T -> bool) l : Permutation l (filter (fun i => negb (t i)) l ++ filter t l).
Proof.
  induction l as [|x l IH]; [constructor|]. cbn [filter]. destruct (t x); cbn [negb].
  - eapply perm_trans; [apply perm_skip, IH|]. apply Permutation_middle.
  - cbn [app]. now apply perm_skip.
Qed.
Section Sets.
Variables (n : nat) (inds : list nat).
Let U := others n inds.
Let K := chosen n inds.
Lemma sum_split f : lsum (seq 0 n) f = lsum U f + lsum K f.
Proof. rewrite <- lsum_app. apply lsum_perm. apply filter_split. Qed.
Lemma U_in p : (p < length U)%nat -> (nth p U n < n)%nat /\ ~ In (nth p U n) K.
Proof.
  intros P. pose proof (nth_In U n P) as I. apply (proj1 (filter_In _ _ _)) in I. destruct I as [I1 I2]. apply in_seq in I1. split; [lia|]. intros I. apply (proj1 (filter_In _ _ _)) in I. destruct I as [_ I]. rewrite I in I2. discriminate.
Qed.
Lemma K_in p : (p < length K)%nat -> (nth p K n < n)%nat.
Proof. intros P. pose proof (nth_In K n P) as I. apply (proj1 (filter_In _ _ _)) in I. destruct I as [I1 _]. apply in_seq in I1. lia. Qed.
Lemma U_nodup : NoDup U. Proof. apply NoDup_filter, seq_NoDup. Qed.
Lemma U_delta p q : (p < length U)%nat -> (q < length U)%nat -> delta (nth p U n) (nth q U n) = delta p q.
Proof.
  intros P Q. unfold delta. destruct (Nat.eqb_spec p q) as [->|N]; [now rewrite Nat.eqb_refl|]. destruct (Nat.eqb_spec (nth p U n) (nth q U n)) as [E|]; [|reflexivity].
  exfalso. apply N. exact (proj1 (NoDup_nth U n) U_nodup p q P Q E).
Qed.
Lemma UK_delta p q : (p < length U)%nat -> (q < length K)%nat -> delta (nth p U n) (nth q K n) = 0.
Proof. intros P Q. unfold delta. destruct (Nat.eqb_spec (nth p U n) (nth q K n)) as [E|]; [|reflexivity]. exfalso. apply (proj2 (U_in p P)). rewrite E. now apply nth_In. Qed.
Lemma split_pos f : lsum (seq 0 n) f = lsum (seq 0 (length U)) (fun p => f (nth p U n)) + lsum (seq 0 (length K)) (fun q => f (nth q K n)).
Proof. rewrite !lsum_nth. apply sum_split. Qed.

Variables (C Ci : mat).
Hypothesis Left : forall i j, (i < n)%nat -> (j < n)%nat -> lsum (seq 0 n) (fun k => Ci i k * C k j) = delta i j.
Let Ciuu : mat := fun p q => Ci (nth p U n) (nth q U n).
Let Ciuk : mat := fun p q => Ci (nth p U n) (nth q K n).

Lemma rows p v : (p < length U)%nat -> (v < n)%nat ->
  lsum (seq 0 (length U)) (fun q => Ciuu p q * C (nth q U n) v) = delta (nth p U n) v - lsum (seq 0 (length K)) (fun r => Ciuk p r * C (nth r K n) v).
Proof. intros P V. rewrite <- (Left (nth p U n) v) by (try apply U_in; assumption). rewrite split_pos. unfold Ciuu, Ciuk. ring. Qed.

(* the complement of the known block is an inverse of the unknown block of the inverse *)
Lemma schur M : (forall i j, (i < length K)%nat -> (j < length K)%nat -> lsum (seq 0 (length K)) (fun k => C (nth i K n) (nth k K n) * M k j) = delta i j) ->
  forall p v, (p < length U)%nat -> (v < length U)%nat ->
  lsum (seq 0 (length U)) (fun t => Ciuu p t * (C (nth t U n) (nth v U n) - lsum (seq 0 (length K)) (fun q => lsum (seq 0 (length K)) (fun r => C (nth t U n) (nth q K n) * M q r * C (nth r K n) (nth v U n))))) = delta p v.
Proof.
  intros HM p v P V. set (SU := seq 0 (length U)). set (SK := seq 0 (length K)).
  transitivity (lsum SU (fun t => Ciuu p t * C (nth t U n) (nth v U n)) + (-1) * lsum SK (fun q => lsum SK (fun r => lsum SU (fun t => Ciuu p t * C (nth t U n) (nth q K n)) * (M q r * C (nth r K n) (nth v U n))))).
  { rewrite (lsum_ext SK (fun q => lsum SK _) (fun q => lsum SU (fun t => lsum SK (fun r => Ciuu p t * (C (nth t U n) (nth q K n) * M q r * C (nth r K n) (nth v U n)))))).
    - rewrite (lsum_swap SK SU), <- lsum_scal, <- lsum_plus. apply lsum_ext. intros t _. 
      rewrite (lsum_ext SK (fun q => lsum SK (fun r => Ciuu p t * _)) (fun q => Ciuu p t * lsum SK (fun r => C (nth t U n) (nth q K n) * M q r * C (nth r K n) (nth v U n)))); [rewrite lsum_scal; ring|]. intros q _. apply lsum_scal.
    - intros q _. rewrite lsum_swap. apply lsum_ext. intros r _. rewrite (Rmult_comm (lsum _ _)), <- lsum_scal. apply lsum_ext. intros t _. ring. }
  unfold SU. rewrite (rows p (nth v U n) P) by now apply U_in. rewrite U_delta by assumption. fold SK.
  enough (E : lsum SK (fun q => lsum SK (fun r => lsum (seq 0 (length U)) (fun t => Ciuu p t * C (nth t U n) (nth q K n)) * (M q r * C (nth r K n) (nth v U n)))) = - lsum SK (fun r => Ciuk p r * C (nth r K n) (nth v U n))) by (rewrite E; ring).
  rewrite (lsum_ext SK _ (fun q => lsum SK (fun r => lsum SK (fun s => - 1 * (Ciuk p s * (C (nth s K n) (nth q K n) * M q r * C (nth r K n) (nth v U n))))))).
  - rewrite lsum_swap. rewrite (lsum_ext SK _ (fun r => lsum SK (fun s => -1 * (Ciuk p s * delta s r * C (nth r K n) (nth v U n))))).
    + rewrite lsum_swap. replace (- lsum SK (fun r => Ciuk p r * C (nth r K n) (nth v U n))) with (-1 * lsum SK (fun r => Ciuk p r * C (nth r K n) (nth v U n))) by ring. rewrite <- lsum_scal. apply lsum_ext. intros s Hs. rewrite lsum_scal. f_equal.
      rewrite (lsum_ext SK _ (fun r => (Ciuk p s * C (nth r K n) (nth v U n)) * delta r s)) by (intros r _; rewrite (delta_sym r s); ring). apply (lsum_delta SK (fun r => Ciuk p s * C (nth r K n) (nth v U n))); [apply seq_NoDup|exact Hs].
    + intros r Hr. rewrite lsum_swap. apply lsum_ext. intros s Hs. apply in_seq in Hr, Hs. rewrite lsum_scal. f_equal. rewrite (lsum_ext SK _ (fun q => (Ciuk p s * C (nth r K n) (nth v U n)) * (C (nth s K n) (nth q K n) * M q r))) by (intros; ring). rewrite lsum_scal. unfold SK. rewrite (HM s r) by lia. ring.
  - intros q Hq. apply lsum_ext. intros r _. apply in_seq in Hq. rewrite (rows p (nth q K n) P) by (apply K_in; lia). rewrite UK_delta by (try assumption; lia). fold SK.
    rewrite lsum_scal. replace ((0 - lsum SK (fun r0 => Ciuk p r0 * C (nth r0 K n) (nth q K n))) * (M q r * C (nth r K n) (nth v U n))) with (-1 * ((M q r * C (nth r K n) (nth v U n)) * lsum SK (fun r0 => Ciuk p r0 * C (nth r0 K n) (nth q K n)))) by ring. f_equal. rewrite <- lsum_scal. apply lsum_ext. intros s _. ring.
Qed.

(* solving for the rows of the unknown variables *)
Variable X : mat.
Hypothesis HX : forall i j, (i < length U)%nat -> (j < length U)%nat -> lsum (seq 0 (length U)) (fun k => X i k * Ciuu k j) = delta i j.
Let A : mat := fun i j => - matmul (length U) X Ciuk i j.
Lemma solved s v : (s < length U)%nat -> (v < n)%nat ->
  C (nth s U n) v - lsum (seq 0 (length K)) (fun r => A s r * C (nth r K n) v) = lsum (seq 0 (length U)) (fun p => X s p * delta (nth p U n) v).
Proof.
  intros Hs V. set (SU := seq 0 (length U)). set (SK := seq 0 (length K)).
  assert (E1 : C (nth s U n) v = lsum SU (fun p => X s p * lsum SU (fun q => Ciuu p q * C (nth q U n) v))).
  { rewrite (lsum_ext SU _ (fun p => lsum SU (fun q => C (nth q U n) v * (X s p * Ciuu p q)))) by (intros p _; rewrite <- lsum_scal; apply lsum_ext; intros q _; ring).
    rewrite lsum_swap. rewrite (lsum_ext SU _ (fun q => C (nth q U n) v * delta q s)).
    - symmetry. apply (lsum_delta SU (fun q => C (nth q U n) v)); [apply seq_NoDup|apply in_seq; lia].
    - intros q Hq. apply in_seq in Hq. rewrite lsum_scal. f_equal. rewrite delta_sym. apply HX; lia. }
  rewrite E1. rewrite (lsum_ext SU _ (fun p => X s p * delta (nth p U n) v + -1 * (X s p * lsum SK (fun r => Ciuk p r * C (nth r K n) v)))).
  - rewrite lsum_plus, lsum_scal.
    assert (E2 : lsum SK (fun r => A s r * C (nth r K n) v) = -1 * lsum SU (fun p => X s p * lsum SK (fun r => Ciuk p r * C (nth r K n) v))).
    { rewrite (lsum_ext SU _ (fun p => lsum SK (fun r => X s p * Ciuk p r * C (nth r K n) v))) by (intros p _; rewrite <- lsum_scal; apply lsum_ext; intros r _; ring).
      rewrite lsum_swap, <- lsum_scal. apply lsum_ext. intros r _. unfold A, matmul. fold SU. rewrite (lsum_ext SU (fun i => X s i * Ciuk i r * C (nth r K n) v) (fun i => C (nth r K n) v * (X s i * Ciuk i r))) by (intros; ring). rewrite lsum_scal. ring. }
    rewrite E2. ring.
  - intros p Hp. apply in_seq in Hp. unfold SU. rewrite rows by (assumption || lia). fold SK. ring.
Qed.
Lemma remainder_row s v : (s < length U)%nat -> (v < n)%nat ->
  lsum (seq 0 n) (fun i => remainder n inds A s i * C i v) = lsum (seq 0 (length U)) (fun p => X s p * delta (nth p U n) v).
Proof.
  intros Hs V. rewrite <- (solved s v Hs V). unfold remainder. fold U K.
  rewrite (lsum_ext (seq 0 n) _ (fun i => C i v * delta i (nth s U n) + -1 * lsum (seq 0 (length K)) (fun q => A s q * (C i v * delta i (nth q K n))))).
  - rewrite lsum_plus, lsum_scal, lsum_swap. rewrite (lsum_delta (seq 0 n) (fun i => C i v)) by (try apply seq_NoDup; apply in_seq; pose proof (proj1 (U_in s Hs)); lia).
    rewrite (lsum_ext (seq 0 (length K)) _ (fun q => A s q * C (nth q K n) v)); [ring|]. intros q Hq. apply in_seq in Hq. rewrite lsum_scal. f_equal. apply (lsum_delta (seq 0 n) (fun i => C i v)); [apply seq_NoDup|apply in_seq; pose proof (K_in q); lia].
  - intros i _. rewrite Rmult_minus_distr_r. rewrite (Rmult_comm (lsum _ _)), <- lsum_scal. rewrite (lsum_ext (seq 0 (length K)) (fun q => A s q * (C i v * delta i (nth q K n))) (fun q => C i v * (A s q * delta i (nth q K n)))) by (intros; ring). ring.
Qed.
Lemma remainder_known s q : (s < length U)%nat -> (q < length K)%nat -> covar n C (remainder n inds A s) (fun i => delta i (nth q K n)) = 0.
Proof.
  intros Hs Hq. rewrite covar_delta_r, remainder_row by (try apply K_in; assumption). rewrite (lsum_ext _ _ (fun _ => 0)); [apply lsum_0|]. intros p Hp. apply in_seq in Hp. rewrite UK_delta by (assumption || lia). ring.
Qed.
Lemma remainder_cov s t : (s < length U)%nat -> (t < length U)%nat -> covar n C (remainder n inds A s) (remainder n inds A t) = X s t.
Proof.
  intros Hs Ht. rewrite covar_row. set (rho := fun j => lsum (seq 0 n) (fun i => remainder n inds A s i * C i j)).
  rewrite (lsum_ext (seq 0 n) _ (fun j => rho j * delta j (nth t U n) + -1 * lsum (seq 0 (length K)) (fun q => A t q * (rho j * delta j (nth q K n))))).
  - rewrite lsum_plus, lsum_scal, lsum_swap. rewrite lsum_delta by (try apply seq_NoDup; apply in_seq; pose proof (proj1 (U_in t Ht)); lia).
    rewrite (lsum_ext (seq 0 (length K)) _ (fun _ => 0)), lsum_0.
    + unfold rho. rewrite remainder_row by (try apply U_in; assumption). rewrite (lsum_ext _ _ (fun p => X s p * delta p t)).
      * rewrite (lsum_delta _ (X s)); [ring|apply seq_NoDup|apply in_seq; lia].
      * intros p Hp. apply in_seq in Hp. rewrite U_delta by (assumption || lia). reflexivity.
    + intros q Hq. apply in_seq in Hq. rewrite lsum_scal, lsum_delta by (try apply seq_NoDup; apply in_seq; pose proof (K_in q); lia).
      unfold rho. rewrite <- covar_delta_r by (apply K_in; lia). rewrite remainder_known by (assumption || lia). ring.
  - intros j _. fold (rho j). unfold remainder at 1. fold U K. rewrite Rmult_minus_distr_l.
    rewrite (lsum_ext (seq 0 (length K)) (fun q => A t q * (rho j * delta j (nth q K n))) (fun q => rho j * (A t q * delta j (nth q K n)))) by (intros; ring). rewrite lsum_scal. ring.
Qed.
End Sets.

Lemma all_zero_spec l : all_zero l = true -> Forall (fun x => x = 0) l.
Proof. induction l as [|x l IH]; intros H; [constructor|]. cbn in H. destruct (Req_EM_T x 0); [|discriminate]. constructor; auto. Qed.
Lemma diag_zero n (A : mat) : all_zero (map (fun i => A i i) (seq 0 n)) = true -> forall i, (i < n)%nat -> A i i = 0.
Proof. intros H i I. apply all_zero_spec in H. rewrite Forall_forall in H. apply H. apply in_map_iff. exists i. split; [reflexivity|apply in_seq; lia]. Qed.
Lemma unit_nonzero n C i : covariance n C -> (i < n)%nat -> C i i <> 0.
Proof.
  intros H I E. assert (Z : covar n C (fun k => delta k i) (fun k => delta k i) = 0).
  { rewrite covar_delta_r by exact I. rewrite (lsum_ext _ _ (fun k => C k i * delta k i)) by (intros; ring). rewrite (lsum_delta _ (fun k => C k i)); [exact E|apply seq_NoDup|apply in_seq; lia]. }
  pose proof (null_zero n C _ H Z i I) as D. unfold delta in D. rewrite Nat.eqb_refl in D. lra.
Qed.
Lemma inverse_diag n C B i : covariance n C -> inverse n C B -> (i < n)%nat -> B i i <> 0.
Proof.
  intros H V I E. assert (R : forall j, (j < n)%nat -> lsum (seq 0 n) (fun k => B i k * C k j) = delta i j) by (intros j J; apply (V i j I J)).
  assert (Z : covar n C (B i) (B i) = 0).
  { rewrite covar_row. rewrite (lsum_ext _ _ (fun j => B i j * delta j i)) by (intros j J; apply in_seq in J; rewrite R, delta_sym by lia; ring). rewrite (lsum_delta _ (B i)); [exact E|apply seq_NoDup|apply in_seq; lia]. }
  pose proof (null_zero n C _ H Z) as D. specialize (R i I). rewrite (lsum_ext _ _ (fun _ => 0)), lsum_0 in R by (intros k Hk; apply in_seq in Hk; rewrite D by lia; ring). unfold delta in R. rewrite Nat.eqb_refl in R. lra.
Qed.
Lemma known_sets n inds : let known := map (fun i => existsb (Nat.eqb i) inds) (seq 0 n) in
  filter (fun i => nth i known false) (seq 0 n) = chosen n inds /\ filter (fun i => negb (nth i known false)) (seq 0 n) = others n inds.
Proof.
  intros known. assert (E : forall i, In i (seq 0 n) -> nth i known false = existsb (Nat.eqb i) inds).
  { intros i I. apply in_seq in I. unfold known. apply nth_error_nth. rewrite nth_error_map, nth_error_nth' with (d := O) by (rewrite seq_length; lia). rewrite seq_nth by lia. reflexivity. }
  unfold chosen, others. split; apply filter_ext_in; intros i I; now rewrite (E i I).
Qed.
Lemma inverse_ext n A A' B : (forall i j, (i < n)%nat -> (j < n)%nat -> A i j = A' i j) -> inverse n A B -> inverse n A' B.
Proof.
  intros E H i j I J. destruct (H i j I J) as [H1 H2]. split; [rewrite <- H1|rewrite <- H2]; apply lsum_ext; intros k Hk; apply in_seq in Hk; rewrite E by lia; reflexivity.
Qed.

Definition linv_sound (linv : nat -> mat -> option mat) : Prop := forall m A B, linv m A = Some B -> inverse m A B.
Definition linv_total (linv : nat -> mat -> option mat) : Prop := forall m A, (exists B, inverse m A B) -> linv m A <> None.

Lemma inv_cases linv n A B : linv_sound linv -> (forall i, (i < n)%nat -> A i i <> 0) -> inv linv n A = Some B -> inverse n A B.
Proof.
  intros S D H. unfold inv in H. destruct (all_zero _) eqn:Z; [|now apply S]. destruct n as [|n]; [intros i j I; lia|]. exfalso. apply (D O ltac:(lia)). apply (diag_zero _ _ Z); lia.
Qed.

(* C129 the known variables are uncorrelated with what A leaves of the unknown ones, and cov is the covariance of these remainders *)
Theorem C129_conditional linv n C inds A cov : linv_sound linv -> covariance n C ->
  build_conditional linv n C inds = Some (A, cov) ->
  (forall p q, (p < length (others n inds))%nat -> (q < length (chosen n inds))%nat ->
     covar n C (remainder n inds A p) (fun i => delta i (nth q (chosen n inds) n)) = 0) /\
  (forall p q, (p < length (others n inds))%nat -> (q < length (others n inds))%nat ->
     covar n C (remainder n inds A p) (remainder n inds A q) = cov p q).
Proof.
  intros S HC H. unfold build_conditional in H. destruct (negb _); [discriminate|]. destruct (known_sets n inds) as [EK EU]. cbn zeta in EK, EU. rewrite EK, EU in H.
  destruct (inv linv n C) as [Ci|] eqn:E1; [|discriminate]. pose proof (inv_cases linv n C Ci S (fun i I => unit_nonzero n C i HC I) E1) as V1.
  set (U := others n inds) in *. set (K := chosen n inds) in *.
  destruct (inv linv (length U) (sub Ci U U)) as [X|] eqn:E2; [|discriminate]. injection H as <- <-.
  assert (NU : forall p, (p < length U)%nat -> nth p U O = nth p U n) by (intros; now apply nth_indep). assert (NK : forall p, (p < length K)%nat -> nth p K O = nth p K n) by (intros; now apply nth_indep).
  assert (V2 : inverse (length U) (sub Ci U U) X).
  { apply (inv_cases linv _ _ _ S); [|exact E2]. intros i I. unfold sub. rewrite NU by exact I. apply (inverse_diag n C Ci _ HC V1). apply (U_in n inds i I). }
  assert (L : forall i j, (i < n)%nat -> (j < n)%nat -> lsum (seq 0 n) (fun k => Ci i k * C k j) = delta i j) by (intros i j I J; apply (V1 i j I J)).
  assert (HX : forall i j, (i < length U)%nat -> (j < length U)%nat -> lsum (seq 0 (length U)) (fun k => X i k * Ci (nth k U n) (nth j U n)) = delta i j).
  { intros i j I J. rewrite <- (proj2 (V2 i j I J)). apply lsum_ext. intros k Hk. apply in_seq in Hk. unfold sub. rewrite !NU by (assumption || lia). reflexivity. }
  assert (EA : forall p i, (p < length U)%nat -> remainder n inds (fun i j => - matmul (length U) X (sub Ci U K) i j) p i = remainder n inds (fun i j => - matmul (length U) X (fun p q => Ci (nth p U n) (nth q K n)) i j) p i).
  { intros p i P. unfold remainder. f_equal. apply lsum_ext. intros q Hq. apply in_seq in Hq. do 2 f_equal. unfold matmul. apply lsum_ext. intros k Hk. apply in_seq in Hk. unfold sub. rewrite NU, NK by (fold K in Hq; lia). reflexivity. }
  split; intros p q P Q.
  - erewrite covar_ext; [|intros i _; apply EA; exact P|intros i _; reflexivity]. exact (remainder_known n inds C Ci L X HX p q P Q).
  - erewrite covar_ext; [|intros i _; apply EA; exact P|intros i _; apply EA; exact Q]. exact (remainder_cov n inds C Ci L X HX p q P Q).
Qed.
Print Assumptions C129_conditional.
(* there is an answer if no known variable is a combination of the other known ones either *)
Theorem C129_total linv n C inds M : linv_sound linv -> linv_total linv -> covariance n C -> Forall (fun i => (i < n)%nat) inds ->
  inverse (length (chosen n inds)) (fun p q => C (nth p (chosen n inds) n) (nth q (chosen n inds) n)) M ->
  build_conditional linv n C inds <> None.
Proof.
  intros S T HC FI HM. unfold build_conditional. replace (forallb (fun i => Nat.ltb i n) inds) with true by (symmetry; apply forallb_forall; rewrite Forall_forall in FI; intros i I; apply Nat.ltb_lt; auto). cbn [negb].
  destruct (known_sets n inds) as [EK EU]. cbn zeta in EK, EU. rewrite EK, EU. set (U := others n inds) in *. set (K := chosen n inds) in *.
  destruct (inv linv n C) as [Ci|] eqn:E1.
  2:{ unfold inv in E1. destruct (all_zero _); [discriminate|]. destruct HC as (_ & _ & B). now apply (T n C) in B. }
  pose proof (inv_cases linv n C Ci S (fun i I => unit_nonzero n C i HC I) E1) as V1.
  destruct (inv linv (length U) (sub Ci U U)) as [X|] eqn:E2; [discriminate|]. exfalso. unfold inv in E2. destruct (all_zero _); [discriminate|]. revert E2. apply T.
  set (Sc := fun t v => C (nth t U n) (nth v U n) - lsum (seq 0 (length K)) (fun q => lsum (seq 0 (length K)) (fun r => C (nth t U n) (nth q K n) * M q r * C (nth r K n) (nth v U n)))). exists Sc.
  apply inverse_ext with (A := fun p q => Ci (nth p U n) (nth q U n)).
  { intros i j I J. unfold sub. rewrite !(nth_indep U O n) by assumption. reflexivity. }
  intros p v P V. split.
  - apply (schur n inds C Ci (fun i j I J => proj2 (V1 i j I J)) M (fun i j I J => proj1 (HM i j I J)) p v P V).
  - rewrite delta_sym. rewrite <- (schur n inds (fun i j => C j i) (fun i j => Ci j i)) with (M := fun i j => M j i); [| | |exact V|exact P].
    + apply lsum_ext. intros t _. unfold Sc. fold U K. rewrite Rmult_comm. f_equal. f_equal. rewrite lsum_swap. apply lsum_ext. intros r _. apply lsum_ext. intros q _. ring.
    + intros i j I J. rewrite delta_sym. rewrite <- (proj1 (V1 j i J I)). apply lsum_ext. intros k _. ring.
    + intros i j I J. rewrite delta_sym. rewrite <- (proj2 (HM j i J I)). apply lsum_ext. intros k _. cbv beta. fold K. ring.
Qed.
Print Assumptions C129_total.
(* entries that are zero in all of the matrices, as in masked maps, give zeros instead of raising *)
Theorem C129_masked linv n C inds : (forall i, (i < n)%nat -> C i i = 0) -> Forall (fun i => (i < n)%nat) inds ->
  exists A cov, build_conditional linv n C inds = Some (A, cov) /\ (forall p q, A p q = 0) /\ forall p q, cov p q = 0.
Proof.
  intros Z FI. unfold build_conditional. replace (forallb (fun i => Nat.ltb i n) inds) with true by (symmetry; apply forallb_forall; rewrite Forall_forall in FI; intros i I; apply Nat.ltb_lt; auto). cbn [negb].
  assert (AZ : forall l : list R, Forall (fun x => x = 0) l -> all_zero l = true) by (induction 1; cbn; [reflexivity|]; destruct (Req_EM_T x 0); [assumption|contradiction]).
  unfold inv. rewrite AZ by (apply Forall_forall; intros x X; apply in_map_iff in X; destruct X as (i & <- & I); apply in_seq in I; apply Z; lia).
  rewrite AZ by (apply Forall_forall; intros x X; apply in_map_iff in X; destruct X as (i & <- & I); reflexivity).
  eexists _, _. split; [reflexivity|]. split; [|reflexivity]. intros p q. unfold matmul. rewrite (lsum_ext _ _ (fun _ => 0)), lsum_0; [ring|]. intros; ring.
Qed.
Print Assumptions C129_masked.

(* variables with the covariance [[2,1],[1,2]], the second known: the first is half the second, give or take a variance of 3/2 *)
Definition ex_C : mat := fun i j => if Nat.eqb i j then 2 else 1.
Example C129_ex_hyps : covariance 2 ex_C.
Proof.
  split; [intros i j; unfold ex_C; now rewrite Nat.eqb_sym|]. split.
  - intros a. unfold covar, lsum, ex_C. cbn [seq fold_right Nat.eqb]. nra.
  - exists (fun i j => if Nat.eqb i j then 2 / 3 else - 1 / 3). intros i j I J. destruct i as [|[|i]]; [| |lia]; (destruct j as [|[|j]]; [| |lia]); unfold lsum, ex_C, delta; cbn [seq fold_right Nat.eqb]; split; field.
Qed.
Example C129_ex linv A cov : linv_sound linv -> build_conditional linv 2 ex_C [1%nat] = Some (A, cov) -> A 0%nat 0%nat = 1 / 2 /\ cov 0%nat 0%nat = 3 / 2.
Proof.
  intros S H. destruct (C129_conditional linv 2 ex_C [1%nat] A cov S C129_ex_hyps H) as [H1 H2]. specialize (H1 O O ltac:(cbn; lia) ltac:(cbn; lia)). specialize (H2 O O ltac:(cbn; lia) ltac:(cbn; lia)).
  unfold covar, remainder, lsum, ex_C, delta in H1, H2. cbn [chosen others filter existsb seq Nat.eqb orb negb length nth fold_right] in H1, H2. split; nra.
Qed.
