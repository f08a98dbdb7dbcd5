From Coq Require Import List Arith Reals ZArith Lia Lra.
From Verif Require Import BldModel BldLemmas CsnSpec CsnModel.
Import ListNotations.
Open Scope R_scope.
Ltac Zify.zify_post_hook ::= idtac.

Definition want (x : R) (i : nat) : R := if Nat.eqb (i mod 2) 0 then sin ((INR (i / 2) + 1) * x) else cos ((INR (i / 2) + 1) * x).
Lemma want_even x k : want x (2 * k) = sin ((INR k + 1) * x).
Proof. unfold want. rewrite Nat.mul_comm, Nat.mod_mul, Nat.div_mul by lia. reflexivity. Qed.
Lemma want_odd x k : want x (2 * k + 1) = cos ((INR k + 1) * x).
Proof. unfold want. rewrite Nat.add_comm, Nat.mul_comm, Nat.mod_add, Nat.div_add by lia. reflexivity. Qed.
Lemma par i : exists k, i = (2 * k)%nat /\ i mod 2 = 0%nat \/ i = (2 * k + 1)%nat /\ i mod 2 = 1%nat.
Proof. exists (i / 2)%nat. pose proof (Nat.div_mod i 2 ltac:(lia)). pose proof (Nat.mod_upper_bound i 2 ltac:(lia)). lia. Qed.
Lemma step_spec x a i : (3 <= i)%nat -> (forall k, (k < i)%nat -> a k = want x k) -> forall k, (k < S i)%nat -> cossin_step a i k = want x k.
Proof.
  intros I H k K. unfold cossin_step. assert (A0 : a 0%nat = sin x) by (rewrite H by lia; unfold want; cbn; f_equal; lra). assert (A1 : a 1%nat = cos x) by (rewrite H by lia; unfold want; cbn; f_equal; lra).
  destruct (par i) as [j [[E M]|[E M]]]; rewrite M; cbn [Nat.eqb]; unfold put; destruct (Nat.eqb_spec k i) as [->|N]; try (apply H; lia).
  - rewrite A0, A1, !H by lia. rewrite E. destruct j as [|j]; [lia|]. replace (2 * S j - 2)%nat with (2 * j)%nat by lia. replace (2 * S j - 1)%nat with (2 * j + 1)%nat by lia. rewrite !want_even, want_odd. rewrite S_INR. replace ((INR j + 1 + 1) * x) with ((INR j + 1) * x + x) by ring. now rewrite sin_plus.
  - rewrite A0, A1, !H by lia. rewrite E. destruct j as [|j]; [lia|]. replace (2 * S j + 1 - 2)%nat with (2 * j + 1)%nat by lia. replace (2 * S j + 1 - 3)%nat with (2 * j)%nat by lia. rewrite !want_odd, want_even. rewrite S_INR. replace ((INR j + 1 + 1) * x) with ((INR j + 1) * x + x) by ring. now rewrite cos_plus.
Qed.
Lemma steps_spec x : forall n i a, (3 <= i)%nat -> (forall k, (k < i)%nat -> a k = want x k) -> forall k, (k < i + n)%nat -> fold_left cossin_step (seq i n) a k = want x k.
Proof.
  induction n as [|n IH]; intros i a I H k K; cbn [seq fold_left]; [apply H; lia|]. apply (IH (S i)); [lia|apply step_spec; assumption|lia].
Qed.
(* C152 the entries are the sines and cosines of all multiples of x in turn *)
Theorem C152_cossin x nmax i : (i < nmax)%nat -> build_cossin x nmax i = if Nat.eqb (i mod 2) 0 then sin ((INR (i / 2) + 1) * x) else cos ((INR (i / 2) + 1) * x).
Proof.
  intros H. change (build_cossin x nmax i = want x i). assert (W0 : want x 0 = sin x) by (unfold want; cbn; f_equal; lra). assert (W1 : want x 1 = cos x) by (unfold want; cbn; f_equal; lra). assert (W2 : want x 2 = 2 * sin x * cos x) by (unfold want; cbn; rewrite <- sin_2a; f_equal; lra). unfold build_cossin.
  destruct nmax as [|[|[|[|n]]]]; [lia| | | |].
  - assert (i = 0)%nat as -> by lia. rewrite W0. reflexivity.
  - destruct i as [|[|i]]; [rewrite W0; reflexivity|rewrite W1; reflexivity|lia].
  - destruct i as [|[|[|i]]]; [rewrite W0; reflexivity|rewrite W1; reflexivity|rewrite W2; reflexivity|lia].
  - change (Nat.ltb 0 (S (S (S (S n))))) with true. change (Nat.ltb 1 (S (S (S (S n))))) with true. change (Nat.ltb 2 (S (S (S (S n))))) with true. change (Nat.ltb 3 (S (S (S (S n))))) with true. cbv beta iota zeta. apply steps_spec; [lia| |lia]. intros k K. destruct k as [|[|[|k]]]; [rewrite W0; reflexivity|rewrite W1; reflexivity|rewrite W2; reflexivity|lia].
Qed.
Print Assumptions C152_cossin.
Example C152_ex : build_cossin (PI / 4) 6 2 = 1.
Proof. rewrite C152_cossin by lia. cbn [Nat.modulo Nat.div Nat.divmod fst snd Nat.sub Nat.eqb INR]. replace ((1 + 1) * (PI / 4)) with (PI / 2) by field. apply sin_PI2. Qed.
Example C152_ex_hyps : (2 < 6)%nat. Proof. lia. Qed.

(* C153 *)
Lemma row_ended {A} (args : list (list A)) : snd (next_row args) = true <-> In [] args.
Proof.
  induction args as [|arg args IH]; cbn [next_row]; [split; [discriminate|intros []]|]. destruct (next_row args) as [[res rest] done]. cbn [snd] in IH. destruct arg as [|a arg]; cbn [snd]; [split; [now left|reflexivity]|]. rewrite IH. split; [now right|intros [H|H]; [discriminate|exact H]].
Qed.
Lemma row_rest {A} (args : list (list A)) : snd (fst (next_row args)) = map (@tl A) args.
Proof. induction args as [|arg args IH]; cbn [next_row map]; [reflexivity|]. destruct (next_row args) as [[res rest] done]. cbn [fst snd] in *. subst rest. destruct arg; reflexivity. Qed.
Lemma row_items {A} (args : list (list A)) : ~ In [] args -> map Some (fst (fst (next_row args))) = map (fun l => nth_error l 0) args.
Proof.
  induction args as [|arg args IH]; intros H; cbn [next_row map]; [reflexivity|]. destruct (next_row args) as [[res rest] done]. cbn [fst snd] in *. destruct arg as [|a arg]; [exfalso; apply H; now left|]. cbn [fst map nth_error]. rewrite IH; [reflexivity|]. intros I. apply H. now right.
Qed.
Definition shortest {A} (args : list (list A)) (k : nat) : Prop := (exists l, In l args /\ length l = k) /\ forall l, In l args -> (k <= length l)%nat.
Lemma skipn_tl {A} k (l : list A) : skipn k (tl l) = skipn (S k) l.
Proof. destruct l; [destruct k; reflexivity|reflexivity]. Qed.
(* the rows are those of zip; every iterator has been asked once more than there are rows, those before and those after the shortest alike *)
Theorem C153_zip2 {A} : forall k (args : list (list A)), shortest args k -> exists r, zip2 (S k) args = Some (r, map (skipn (S k)) args) /\ rows k args r.
Proof.
  induction k as [|k IH]; intros args [(l & I & L) M].
  - assert (E : In [] args) by (destruct l; [exact I|discriminate]). exists []. cbn [zip2]. pose proof (proj2 (row_ended args) E) as D. pose proof (row_rest args) as R. destruct (next_row args) as [[res rest] done]. cbn [fst snd] in *. subst done rest. split; [|split; [reflexivity|intros [|i] row H; discriminate]]. do 2 f_equal.
  - assert (NE : ~ In [] args) by (intros H; specialize (M [] H); cbn in M; lia).
    assert (S1 : shortest (map (@tl A) args) k). { split; [exists (tl l); split; [now apply in_map|destruct l; cbn in *; lia]|]. intros t T. apply in_map_iff in T. destruct T as (u & <- & U). specialize (M u U). destruct u; cbn in *; lia. }
    destruct (IH _ S1) as (r & Z & LR & RR). cbn [zip2]. pose proof (row_rest args) as R. pose proof (row_items args NE) as RI. assert (D : snd (next_row args) = false) by (destruct (snd (next_row args)) eqn:Q; [apply row_ended in Q; contradiction|reflexivity]). destruct (next_row args) as [[res rest] done]. cbn [fst snd] in *. subst done rest.
    exists (res :: r). split.
    + change (match zip2 (S k) (map (@tl A) args) with Some (l0, final) => Some (res :: l0, final) | None => None end = Some (res :: r, map (skipn (S (S k))) args)). rewrite Z. f_equal. f_equal. rewrite map_map. apply map_ext. intros u. apply skipn_tl.
    + split; [cbn; lia|]. intros [|i] row H.
      * cbn in H. injection H as <-. split; [apply (f_equal (@length _)) in RI; now rewrite !map_length in RI|]. intros j a J. assert (Q : nth_error (map Some res) j = Some (Some a)) by (rewrite nth_error_map, J; reflexivity). rewrite RI, nth_error_map in Q. destruct (nth_error args j) as [lj|]; [|discriminate]. cbn in Q. injection Q as Q. exists lj. split; [reflexivity|exact Q].
      * cbn in H. destruct (RR i row H) as [A1 A2]. rewrite map_length in A1. split; [exact A1|]. intros j a J. destruct (A2 j a J) as (t & T1 & T2). rewrite nth_error_map in T1. destruct (nth_error args j) as [lj|]; [|discriminate]. cbn in T1. injection T1 as <-. exists lj. split; [reflexivity|]. destruct lj; [destruct i; discriminate|exact T2].
Qed.
(* without any iterator it never ends *)
Theorem C153_none_refuted {A} fuel : @zip2 A fuel [] = None.
Proof. induction fuel as [|fuel IH]; [reflexivity|]. cbn. now rewrite IH. Qed.
Print Assumptions C153_zip2. Print Assumptions C153_none_refuted.
Example C153_ex : zip2 3 [[1; 2; 3; 4; 5]; [6; 7]; [8; 9; 10; 11]]%nat = Some ([[1; 6; 8]; [2; 7; 9]], [[4; 5]; []; [11]])%nat. Proof. reflexivity. Qed.
Example C153_ex_hyps : shortest [[1; 2; 3; 4; 5]; [6; 7]; [8; 9; 10; 11]]%nat 2.
Proof. split; [exists [6; 7]%nat; cbn; auto|]. intros l [<-|[<-|[<-|[]]]]; cbn; lia. Qed.

(* C154 *)
Lemma ln10 : 0 < ln 10.
Proof. rewrite <- ln_1. apply ln_increasing; lra. Qed.
Lemma log_pow d : log10 (INR (10 ^ d)) = INR d.
Proof. unfold log10. rewrite pow_INR. replace (INR 10) with 10 by (cbn; lra). pose proof ln10. rewrite <- Rpower_pow by lra. unfold Rpower. rewrite ln_exp. field. lra. Qed.
Lemma log_mono a b : (0 < a)%nat -> (a <= b)%nat -> log10 (INR a) <= log10 (INR b).
Proof.
  intros A B. unfold log10, Rdiv. apply Rmult_le_compat_r; [left; apply Rinv_0_lt_compat, ln10|]. destruct (Nat.eq_dec a b) as [->|N]; [lra|]. left. apply ln_increasing; [apply lt_0_INR; lia|apply lt_INR; lia].
Qed.
Lemma log_lt a b : (0 < a)%nat -> (a < b)%nat -> log10 (INR a) < log10 (INR b).
Proof. intros A B. unfold log10, Rdiv. apply Rmult_lt_compat_r; [apply Rinv_0_lt_compat, ln10|]. apply ln_increasing; [apply lt_0_INR; lia|apply lt_INR; lia]. Qed.
(* the number of digits, from 10 on *)
Theorem C154_digits_partial n d : (10 <= n)%nat -> digits n d -> ndigit n = Z.of_nat d.
Proof.
  intros H [[_ D]|[D [D1 D2]]]; [lia|]. unfold ndigit. destruct (Nat.eqb_spec n 0); [lia|]. assert (P : (0 < 10 ^ (d - 1))%nat) by (apply Nat.neq_0_lt_0, Nat.pow_nonzero; lia). pose proof (log_mono _ _ P D1) as L1. pose proof (log_lt n _ ltac:(lia) D2) as L2. rewrite log_pow in L1, L2.
  assert (1 <= log10 (INR n)) as L0. { change 1 with (INR 1). rewrite <- (log_pow 1). apply log_mono; [cbn; lia|cbn; lia]. }
  rewrite Rmax_right by exact L0. rewrite (floorR_unique _ (Z.of_nat (d - 1))); [lia|]. rewrite <- INR_IZR_INZ. rewrite minus_INR in * by lia. cbn [INR] in *. lra.
Qed.
(* below 10 it gives 2 instead of 1 *)
Theorem C154_small_refuted n : (n < 10)%nat -> digits n 1 /\ ndigit n = 2%Z.
Proof.
  intros H. split; [destruct n; [left; lia|right; cbn; lia]|]. unfold ndigit. destruct (Nat.eqb_spec n 0) as [|N]; [rewrite (floorR_unique 1 1) by lra; reflexivity|]. pose proof (log_lt n (10 ^ 1) ltac:(lia) ltac:(cbn; lia)) as L. rewrite log_pow in L. cbn [INR] in L. rewrite Rmax_left by lra. rewrite (floorR_unique 1 1) by lra. reflexivity.
Qed.
Print Assumptions C154_digits_partial. Print Assumptions C154_small_refuted.
Example C154_ex : ndigit 999 = 3%Z. Proof. apply (C154_digits_partial 999 3); [lia|]. right. cbn. lia. Qed.
Example C154_ex_hyps : (10 <= 999)%nat /\ digits 999 3. Proof. split; [lia|]. right. cbn. lia. Qed.
