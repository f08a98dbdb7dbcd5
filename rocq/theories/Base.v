(* Shared helper definitions and lemmas; models no code of /repo by itself. *)
From Coq Require Export List Arith ZArith Lia Bool QArith Qfield Permutation.
From Coq Require Export ZifyBool ZifyNat.
Export ListNotations.
Ltac Zify.zify_post_hook ::= Z.div_mod_to_equations.

Open Scope Z_scope.

(* list element at an integer position; no element outside the list *)
Definition zget {A} (l : list A) (k : Z) : option A :=
  if k <? 0 then None else nth_error l (Z.to_nat k).

(* length as an integer *)
Definition zlen {A} (l : list A) : Z := Z.of_nat (length l).

(* the integers a, a+1, ..., a+n-1 *)
Fixpoint zseq (a : Z) (n : nat) : list Z :=
  match n with O => [] | S n => a :: zseq (a + 1) n end.

(* the integers a <= k < b *)
Definition zrange (a b : Z) : list Z := zseq a (Z.to_nat (b - a)).

Fixpoint zsum (l : list Z) : Z := match l with [] => 0 | x :: l => x + zsum l end.

Fixpoint qsum (l : list Q) : Q := match l with [] => 0%Q | x :: l => (x + qsum l)%Q end.

Lemma zlen_nonneg {A} (l : list A) : 0 <= zlen l.
Proof. unfold zlen; lia. Qed.

Lemma zget_Some_range {A} (l : list A) k x : zget l k = Some x -> 0 <= k < zlen l.
Proof.
  unfold zget, zlen. destruct (k <? 0) eqn:E; [discriminate|]. intros H.
  assert (Z.to_nat k < length l)%nat by (apply nth_error_Some; congruence). lia.
Qed.

Lemma zget_in_range {A} (l : list A) k : 0 <= k < zlen l -> exists x, zget l k = Some x.
Proof.
  unfold zget, zlen. intros H. destruct (k <? 0) eqn:E; [lia|].
  destruct (nth_error l (Z.to_nat k)) eqn:N; [eauto|].
  apply nth_error_None in N. lia.
Qed.

Lemma zget_out {A} (l : list A) k : k < 0 \/ zlen l <= k -> zget l k = None.
Proof.
  unfold zget, zlen. intros H. destruct (k <? 0) eqn:E; [reflexivity|].
  apply nth_error_None. lia.
Qed.

Lemma zget_nth_error {A} (l : list A) (i : nat) : zget l (Z.of_nat i) = nth_error l i.
Proof. unfold zget. destruct (Z.of_nat i <? 0) eqn:E; [lia|]. now rewrite Nat2Z.id. Qed.

Lemma zget_app1 {A} (l m : list A) k : k < zlen l -> zget (l ++ m) k = zget l k.
Proof.
  unfold zget, zlen. intros H. destruct (k <? 0) eqn:E; [reflexivity|].
  apply nth_error_app1. lia.
Qed.

Lemma zget_app2 {A} (l m : list A) k : zlen l <= k -> zget (l ++ m) k = zget m (k - zlen l).
Proof.
  unfold zget, zlen. intros H. destruct (k <? 0) eqn:E; [lia|].
  destruct (k - Z.of_nat (length l) <? 0) eqn:E2; [lia|].
  rewrite nth_error_app2 by lia. f_equal. lia.
Qed.

Lemma zget_map {A B} (f : A -> B) l k : zget (map f l) k = option_map f (zget l k).
Proof.
  unfold zget. destruct (k <? 0); [reflexivity|]. apply nth_error_map.
Qed.

Lemma zlen_map {A B} (f : A -> B) l : zlen (map f l) = zlen l.
Proof. unfold zlen. now rewrite map_length. Qed.

Lemma zlen_app {A} (l m : list A) : zlen (l ++ m) = zlen l + zlen m.
Proof. unfold zlen. rewrite app_length. lia. Qed.

Lemma zlen_cons {A} (x : A) l : zlen (x :: l) = 1 + zlen l.
Proof. unfold zlen. cbn [length]. lia. Qed.

Lemma zlen_nil {A} : zlen (@nil A) = 0.
Proof. reflexivity. Qed.

Lemma nth_error_ext' {A} (l m : list A) : (forall n, nth_error l n = nth_error m n) -> l = m.
Proof.
  revert m; induction l as [|x l IH]; intros [|y m] H; [reflexivity| | |].
  - specialize (H O). discriminate.
  - specialize (H O). discriminate.
  - pose proof (H O) as H0. cbn in H0. injection H0 as ->. f_equal. apply IH.
    intros n. apply (H (S n)).
Qed.

Lemma zget_ext {A} (l m : list A) : (forall k, zget l k = zget m k) -> l = m.
Proof.
  intros H. apply nth_error_ext'. intros n. rewrite <- !zget_nth_error. apply H.
Qed.

Lemma zseq_length a n : length (zseq a n) = n.
Proof. revert a; induction n as [|n IH]; intros a; cbn [zseq length]; [reflexivity|]. now rewrite IH. Qed.

Lemma zseq_nth a n i : (i < n)%nat -> nth_error (zseq a n) i = Some (a + Z.of_nat i).
Proof.
  revert a i; induction n as [|n IH]; intros a i H; [lia|].
  destruct i as [|i]; cbn [zseq nth_error]; [f_equal; lia|].
  rewrite IH by lia. f_equal. lia.
Qed.

Lemma zseq_In a n k : In k (zseq a n) <-> a <= k < a + Z.of_nat n.
Proof.
  revert a; induction n as [|n IH]; intros a; cbn [zseq In]; [lia|].
  rewrite IH. lia.
Qed.

Lemma zrange_In a b k : In k (zrange a b) <-> a <= k < b.
Proof. unfold zrange. rewrite zseq_In. lia. Qed.

Lemma zseq_app a n m : zseq a (n + m) = zseq a n ++ zseq (a + Z.of_nat n) m.
Proof.
  revert a; induction n as [|n IH]; intros a; cbn [zseq plus app].
  - f_equal; cbn; lia.
  - rewrite IH. do 3 f_equal; lia.
Qed.

Lemma zseq_NoDup a n : NoDup (zseq a n).
Proof.
  revert a; induction n as [|n IH]; intros a; cbn [zseq]; constructor.
  - rewrite zseq_In. lia.
  - apply IH.
Qed.

Lemma zrange_NoDup a b : NoDup (zrange a b).
Proof. apply zseq_NoDup. Qed.

Lemma zrange_split a b c : a <= b <= c -> zrange a c = zrange a b ++ zrange b c.
Proof.
  intros H. unfold zrange.
  replace (Z.to_nat (c - a)) with (Z.to_nat (b - a) + Z.to_nat (c - b))%nat by lia.
  rewrite zseq_app. f_equal. f_equal. lia.
Qed.

Lemma zrange_empty a b : b <= a -> zrange a b = [].
Proof. intros H. unfold zrange. now replace (Z.to_nat (b - a)) with O by lia. Qed.

Lemma zrange_cons a b : a < b -> zrange a b = a :: zrange (a + 1) b.
Proof.
  intros H. unfold zrange.
  replace (Z.to_nat (b - a)) with (S (Z.to_nat (b - (a + 1)))) by lia. reflexivity.
Qed.

Lemma zrange_snoc a b : a <= b -> zrange a (b + 1) = zrange a b ++ [b].
Proof.
  intros H. rewrite (zrange_split a b (b + 1)) by lia. f_equal.
  rewrite zrange_cons by lia. now rewrite zrange_empty by lia.
Qed.

Lemma zrange_zlen a b : zlen (zrange a b) = Z.max 0 (b - a).
Proof. unfold zlen, zrange. rewrite zseq_length. lia. Qed.

Lemma zget_zseq a n k : 0 <= k < Z.of_nat n -> zget (zseq a n) k = Some (a + k).
Proof.
  intros H. unfold zget. destruct (k <? 0) eqn:E; [lia|].
  rewrite zseq_nth by lia. f_equal. lia.
Qed.

Lemma zget_zrange a b k : 0 <= k < b - a -> zget (zrange a b) k = Some (a + k).
Proof. intros H. unfold zrange. apply zget_zseq. lia. Qed.

Lemma zsum_app l m : zsum (l ++ m) = zsum l + zsum m.
Proof. induction l as [|x l IH]; cbn [zsum app]; lia. Qed.

Lemma zsum_perm l m : Permutation l m -> zsum l = zsum m.
Proof. induction 1; cbn [zsum]; lia. Qed.

Lemma qsum_app l m : (qsum (l ++ m) == qsum l + qsum m)%Q.
Proof. induction l as [|x l IH]; cbn [qsum app]; [ring|]. rewrite IH. ring. Qed.

Lemma Some_inj {A} (x y : A) : Some x = Some y -> x = y.
Proof. congruence. Qed.

(* split an equation between tuples into its components *)
Ltac pair_eq := repeat match goal with |- (_, _) = (_, _) => apply f_equal2 end.
