(* C120: prime factors; C121: all combinations. *)
From Coq Require Import ZArith List Lia Znumtheory Sorted.
From Verif Require Import Base PrmModel.
Import ListNotations.
Local Open Scope Z_scope.

Definition product (l : list Z) : Z := fold_right Z.mul 1 l.
Lemma product_snoc l x : product (l ++ [x]) = product l * x.
Proof. unfold product. induction l as [|y l IH]; cbn [app fold_right] in *; [ring|]. rewrite IH. ring. Qed.
Lemma sorted_snoc l x : Sorted Z.le l -> Forall (fun y => y <= x) l -> Sorted Z.le (l ++ [x]).
Proof.
  induction l as [|y l IH]; intros S F; cbn; [repeat constructor|]. inversion S; subst. inversion F; subst. constructor; [apply IH; assumption|].
  destruct l as [|z l]; cbn; constructor; [assumption|]. inversion H2; assumption.
Qed.
(* no divisor below i *)
Definition rough (i n : Z) : Prop := forall d, 2 <= d < i -> ~ (d | n).
Lemma rough_prime i : 2 <= i -> rough i i -> prime i.
Proof.
  intros Hi R. destruct (prime_dec i) as [P|N]; [exact P|]. exfalso. destruct (not_prime_divide i ltac:(lia) N) as (d & Hd & D). apply (R d ltac:(lia) D).
Qed.
Lemma rough_divide i n m : rough i n -> (m | n) -> rough i m.
Proof. intros R D d Hd H. apply (R d Hd). apply Z.divide_trans with m; assumption. Qed.
Lemma ploop_ok fuel : forall i n fs, 2 <= i -> 1 <= n -> (i <= n \/ i * i > n) -> 2 * n - Z.min i (2 * n) < Z.of_nat fuel -> rough i n ->
  Forall prime fs -> Sorted Z.le fs -> Forall (fun y => y <= i) fs ->
  exists fs' m, ploop fuel i n fs = Some (fs', m) /\ product fs' * m = product fs * n /\ 1 <= m /\ (m = 1 \/ prime m) /\ Forall prime fs' /\ Sorted Z.le fs' /\
    (m <> 1 -> Forall (fun y => y <= m) fs').
Proof.
  induction fuel as [|f IH]; intros i n fs Hi Hn Hin Hf R P S B; [lia|]. cbn [ploop]. destruct (Z.leb_spec (i * i) n) as [L|L].
  - assert (i < n) by nia. destruct (Z.eqb_spec (n mod i) 0) as [E|E].
    + assert (D : (i | n)) by (apply Z.mod_divide; [lia|exact E]). destruct D as (q & Hq). assert (Q : n / i = q) by (rewrite Hq; apply Z.div_mul; lia). rewrite Q.
      assert (i <= q) by nia. assert (Dq : (q | n)) by (exists i; lia). assert (Di : (i | n)) by (exists q; lia). destruct (IH i q (fs ++ [i])) as (fs' & m & A & B' & C).
      * exact Hi.
      * lia.
      * left. lia.
      * nia.
      * apply (rough_divide i n); assumption.
      * apply Forall_app. split; [exact P|]. constructor; [|constructor]. apply rough_prime; [exact Hi|]. apply (rough_divide i n); assumption.
      * apply sorted_snoc; assumption.
      * apply Forall_app. split; [exact B|]. constructor; [lia|constructor].
      * exists fs', m. split; [exact A|]. split; [|exact C]. rewrite B', product_snoc, Hq. ring.
    + destruct (IH (i + 1) n fs) as (fs' & m & A); try assumption; [lia|left; lia|lia| | |].
      * intros d Hd D. destruct (Z.eq_dec d i) as [->|Nd]; [|apply (R d ltac:(lia) D)]. apply E. apply Z.mod_divide; [lia|exact D].
      * revert B. apply Forall_impl. intros a Ha. lia.
      * exists fs', m. exact A.
  - exists fs, n. split; [reflexivity|]. split; [reflexivity|]. split; [exact Hn|]. split.
    + destruct (Z.eq_dec n 1) as [->|N1]; [left; reflexivity|right]. apply rough_prime; [lia|]. intros d Hd (q & Hq).
      assert (2 <= q) by nia. destruct (Z_lt_le_dec d i) as [C|C]; [apply (R d ltac:(lia)); exists q; exact Hq|]. assert (q < i) by nia. apply (R q ltac:(lia)). exists d. lia.
    + split; [exact P|]. split; [exact S|]. intros N1. destruct Hin as [Hin|Hin].
      * revert B. apply Forall_impl. intros a Ha. lia.
      * (* n < i * i, and n has no divisor below i, so that n >= i *)
        assert (i <= n). { destruct (Z_lt_le_dec n i) as [C|C]; [|exact C]. exfalso. apply (R n ltac:(lia)). apply Z.divide_refl. }
        revert B. apply Forall_impl. intros a Ha. lia.
Qed.
(* the factors are prime, in ascending order, and their product is the number *)
Theorem C120_primes n : 1 <= n -> exists fs, primes n = Some fs /\ Forall prime fs /\ Sorted Z.le fs /\ fold_right Z.mul 1 fs = n.
Proof.
  intros Hn. unfold primes. destruct (ploop_ok (S (Z.to_nat (2 * n))) 2 n []) as (fs & m & A & B & C & D & P & S & M).
  - lia.
  - exact Hn.
  - lia.
  - lia.
  - intros d Hd. lia.
  - constructor.
  - constructor.
  - constructor.
  - rewrite A. destruct (Z.ltb_spec 1 m) as [L|L].
    + destruct D as [D|D]; [lia|]. exists (fs ++ [m]). split; [reflexivity|]. split; [apply Forall_app; split; [exact P|constructor; [exact D|constructor]]|].
      split; [apply sorted_snoc; [exact S|apply M; lia]|]. fold (product (fs ++ [m])). rewrite product_snoc, B. unfold product. cbn [fold_right]. ring.
    + exists fs. split; [reflexivity|]. split; [exact P|]. split; [exact S|]. fold (product fs). unfold product at 2 in B. cbn [fold_right] in B. nia.
Qed.
(* so that numbers with the same factors are the same, and every list of primes in order is found *)
Lemma sorted_head x l : Sorted Z.le (x :: l) -> Forall (fun y => x <= y) l.
Proof. intros S. apply Sorted_StronglySorted in S; [|intros a b c; lia]. inversion S; assumption. Qed.
Lemma prime_in_product p l : prime p -> Forall prime l -> (p | product l) -> In p l.
Proof.
  intros Hp. induction l as [|x l IH]; intros F D; cbn in D.
  - exfalso. destruct Hp as [H _]. apply Z.divide_pos_le in D; lia.
  - inversion F as [|? ? Hx Fl]; subst. apply prime_mult in D; [|exact Hp]. destruct D as [D|D]; [left; symmetry; apply prime_div_prime; assumption|right; apply IH; assumption].
Qed.
Lemma product_pos l : Forall prime l -> 1 <= product l.
Proof. induction 1 as [|x l Hx _ IH]; cbn; [lia|]. destruct Hx as [Hx _]. fold (product l). nia. Qed.
Lemma factors_unique l : forall l', Forall prime l -> Forall prime l' -> Sorted Z.le l -> Sorted Z.le l' -> product l = product l' -> l = l'.
Proof.
  induction l as [|x l IH]; intros [|y l'] P P' S S' E.
  - reflexivity.
  - exfalso. inversion P' as [|? ? Hy Pl]; subst. cbn in E. fold (product l') in E. pose proof (product_pos l' Pl). destruct Hy as [Hy _]. nia.
  - exfalso. inversion P as [|? ? Hx Pl]; subst. cbn in E. fold (product l) in E. pose proof (product_pos l Pl). destruct Hx as [Hx _]. nia.
  - inversion P as [|? ? Hx Pl]; subst. inversion P' as [|? ? Hy Pl']; subst. assert (x = y).
    { assert (I : In x (y :: l')). { apply prime_in_product; [exact Hx|exact P'|]. rewrite <- E. exists (product l). cbn. fold (product l). ring. }
      assert (J : In y (x :: l)). { apply prime_in_product; [exact Hy|exact P|]. rewrite E. exists (product l'). cbn. fold (product l'). ring. }
      pose proof (sorted_head _ _ S) as A. pose proof (sorted_head _ _ S') as A'. rewrite Forall_forall in A, A'.
      destruct I as [I|I]; [congruence|]. destruct J as [J|J]; [congruence|]. specialize (A _ J). specialize (A' _ I). lia. }
    subst y. f_equal. apply IH; try assumption; [inversion S; assumption|inversion S'; assumption|]. cbn in E. fold (product l) in E. fold (product l') in E. destruct Hx as [Hx _]. nia.
Qed.
Theorem C120_complete (l : list Z) : Forall prime l -> Sorted Z.le l -> primes (fold_right Z.mul 1 l) = Some l.
Proof.
  intros P S. destruct (C120_primes (product l) (product_pos l P)) as (fs & E & P' & S' & Q). fold (product l). rewrite E. f_equal. apply factors_unique; assumption.
Qed.
(* numbers that are not positive have no factors *)
Theorem C120_nonpositive n : n <= 1 -> primes n = Some [].
Proof.
  intros H. unfold primes. cbn [ploop]. destruct (Z.leb_spec (2 * 2) n); [lia|]. destruct (Z.ltb_spec 1 n); [lia|]. reflexivity.
Qed.
Example C120_ex : primes 360 = Some [2; 2; 2; 3; 3; 5] /\ primes 97 = Some [97] /\ primes 1001 = Some [7; 11; 13].
Proof. vm_compute. repeat split. Qed.
Print Assumptions C120_primes.
Print Assumptions C120_complete.
