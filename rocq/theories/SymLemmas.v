From Verif Require Import Base RangeLemmas FindLemmas AlmModel AlmLemmas TilLemmas CatLemmas NdSpec NdModel NdLemmas SymSpec SymModel.
Local Open Scope Z_scope.
Ltac Zify.zify_post_hook ::= idtac.

Lemma zlen_nn {A} (l : list A) : 0 <= zlen l. Proof. unfold zlen. lia. Qed.
Lemma zlen_c {A} (a : A) l : zlen (a :: l) = 1 + zlen l. Proof. unfold zlen. cbn [length]. lia. Qed.
Lemma zlen_m {A B} (f : A -> B) l : zlen (map f l) = zlen l. Proof. unfold zlen. now rewrite map_length. Qed.
Lemma ncomp_spec n : 0 <= n -> smallest_size (ncomp_of n) n \/ n = 0 /\ ncomp_of n = 0.
Proof.
  intros H. unfold ncomp_of. destruct (Z.eq_dec n 0) as [-> | N]; [ right; split; reflexivity | left ].
  pose proof (Z.sqrt_up_spec (1 + 8 * n) ltac:(lia)) as [A B]. rewrite <- Z.sub_1_r in A. set (s := Z.sqrt_up (1 + 8 * n)) in *.
  assert (0 <= s) by apply Z.sqrt_up_nonneg. replace (s - 1 + 1) with s by lia.
  pose proof (Z.div_mod s 2 ltac:(lia)) as D. pose proof (Z.mod_pos_bound s 2 ltac:(lia)) as M. set (k := s / 2) in *. clearbody s k. unfold smallest_size.
  assert (s = 2 * k \/ s = 2 * k + 1) as [-> | ->] by lia; clear D M; split; [ lia | split; nia | lia | split; nia ].
Qed.
Lemma smallest_unique k k' n : smallest_size k n -> smallest_size k' n -> k = k'.
Proof. unfold smallest_size. intros [A [B C]] [A' [B' C']]. destruct (Z.lt_trichotomy k k') as [H | [H | H]]; [ nia | assumption | nia ]. Qed.
Lemma tri_even k : 2 * (k * (k + 1) / 2) = k * (k + 1).
Proof.
  destruct (Z.Even_or_Odd k) as [[q ->] | [q ->]].
  - replace (2 * q * (2 * q + 1)) with (q * (2 * q + 1) * 2) by ring. rewrite Z.div_mul by lia. ring.
  - replace ((2 * q + 1) * (2 * q + 1 + 1)) with ((2 * q + 1) * (q + 1) * 2) by ring. rewrite Z.div_mul by lia. ring.
Qed.
Lemma ncomp_full k : 0 <= k -> ncomp_of (k * (k + 1) / 2) = k.
Proof.
  intros H. pose proof (tri_even k) as E.
  set (t := k * (k + 1) / 2) in *. assert (0 <= t) by nia.
  destruct (Z.eq_dec k 0) as [-> | N]; [ assert (t = 0) by lia; subst t; replace (0 * (0 + 1) / 2) with 0 by reflexivity; reflexivity | ].
  destruct (ncomp_spec t ltac:(lia)) as [S | [S _]]; [ | nia ].
  apply (smallest_unique _ k t S). unfold smallest_size. nia.
Qed.
Lemma zlen_flat {A B} (f : A -> list B) l : zlen (flat_map f l) = zsum (map (fun x => zlen (f x)) l).
Proof. induction l as [ | a l IH ]; [ reflexivity | ]. cbn [flat_map map]. rewrite zlen_app, IH. reflexivity. Qed.
Lemma sum_down k : forall n a, Z.of_nat n = k - a -> 2 * zsum (map (fun i => k - i) (zrange a k)) = (k - a) * (k - a + 1).
Proof.
  induction n as [ | n IH ]; intros a H.
  - rewrite zrange_empty by lia. cbn [map]. change (zsum []) with 0. nia.
  - rewrite zrange_cons by lia. cbn [map]. change (zsum (k - a :: ?l)) with (k - a + zsum l).
    rewrite Z.mul_add_distr_l, (IH (a + 1)) by lia. nia.
Qed.

(* ---- the full lists ---- *)
Definition stable_full (C : Z) : list (Z * Z) := flat_map (fun c => (c, c) :: map (fun i => (i, c)) (zrange 0 c)) (zrange 0 C).
Definition row_full (C : Z) : list (Z * Z) := flat_map (fun i => map (fun j => (i, j)) (zrange i C)) (zrange 0 C).
Lemma stable_split c C : 0 <= c <= C -> exists r, stable_full C = stable_full c ++ r.
Proof. intros H. unfold stable_full. rewrite (zrange_split 0 c C) by lia. rewrite flat_map_app. eexists. reflexivity. Qed.
Lemma stable_succ c : 0 <= c -> stable_full (c + 1) = stable_full c ++ (c, c) :: map (fun i => (i, c)) (zrange 0 c).
Proof. intros H. unfold stable_full. rewrite zrange_snoc by lia. rewrite flat_map_app. cbn [flat_map]. now rewrite app_nil_r. Qed.
Lemma zlen_zr a b : a <= b -> zlen (zrange a b) = b - a.
Proof. intros. rewrite zrange_zlen. lia. Qed.
Lemma stable_len c : 0 <= c -> 2 * zlen (stable_full c) = c * (c + 1).
Proof.
  intros H. replace c with (Z.of_nat (Z.to_nat c)) by lia. induction (Z.to_nat c) as [ | n IH ]; [ reflexivity | ].
  rewrite Nat2Z.inj_succ, <- Z.add_1_r, stable_succ by lia. rewrite zlen_app, zlen_c, zlen_m, zlen_zr by lia. nia.
Qed.
Lemma stable_In C i j : In (i, j) (stable_full C) <-> 0 <= i <= j /\ j < C.
Proof.
  unfold stable_full. rewrite in_flat_map. split.
  - intros [c [Hc [E | I]]]; apply zrange_In in Hc; [ injection E as <- <-; lia | ]. apply in_map_iff in I. destruct I as [i' [E I]]. apply zrange_In in I. injection E as <- <-. lia.
  - intros H. exists j. split; [ apply zrange_In; lia | ]. destruct (Z.eq_dec i j) as [-> | N]; [ left; reflexivity | right ]. apply in_map_iff. exists i. split; [ reflexivity | apply zrange_In; lia ].
Qed.
Lemma stable_NoDup C : NoDup (stable_full C).
Proof.
  apply NoDup_flat_map; [ | | apply zrange_NoDup ].
  - intros c _. constructor.
    + intros I. apply in_map_iff in I. destruct I as [i [E I]]. apply zrange_In in I. injection E as E. lia.
    + apply NoDup_map_inj; [ | apply zrange_NoDup ]. intros ? ? _ _ E. congruence.
  - intros c c' [a b] _ _ H H'. assert (K : forall d, In (a, b) ((d, d) :: map (fun i => (i, d)) (zrange 0 d)) -> b = d).
    { intros d [E | I]; [ congruence | ]. apply in_map_iff in I. destruct I as [? [E _]]. congruence. }
    rewrite <- (K _ H). apply K. assumption.
Qed.
Lemma row_In C i j : In (i, j) (row_full C) <-> 0 <= i <= j /\ j < C.
Proof.
  unfold row_full. rewrite in_flat_map. split.
  - intros [a [Ha I]]. apply in_map_iff in I. destruct I as [b [E I]]. apply zrange_In in Ha, I. injection E as <- <-. lia.
  - intros H. exists i. split; [ apply zrange_In; lia | ]. apply in_map_iff. exists j. split; [ reflexivity | apply zrange_In; lia ].
Qed.
Lemma row_NoDup C : NoDup (row_full C).
Proof.
  apply NoDup_flat_map; [ | | apply zrange_NoDup ].
  - intros c _. apply NoDup_map_inj; [ | apply zrange_NoDup ]. intros ? ? _ _ E. congruence.
  - intros c c' [a b] _ _ H H'. apply in_map_iff in H, H'. destruct H as [? [E _]], H' as [? [E' _]]. congruence.
Qed.
Lemma map_ext_zsum {A} (f g : A -> Z) l : (forall x, In x l -> f x = g x) -> zsum (map f l) = zsum (map g l).
Proof. intros H. f_equal. apply map_ext_in. assumption. Qed.
Lemma row_len C : 0 <= C -> 2 * zlen (row_full C) = C * (C + 1).
Proof.
  intros H. unfold row_full. rewrite zlen_flat. rewrite (map_ext_zsum _ (fun i => C - i)).
  - rewrite (sum_down C (Z.to_nat C) 0) by lia. rewrite Z.sub_0_r. reflexivity.
  - intros i Hi. apply zrange_In in Hi. rewrite zlen_m, zlen_zr by lia. reflexivity.
Qed.
Lemma diag_In C i j : In (i, j) (diag_loop C) <-> 0 <= i <= j /\ j < C.
Proof.
  unfold diag_loop. rewrite in_flat_map. split.
  - intros [a [Ha I]]. apply in_map_iff in I. destruct I as [b [E I]]. apply zrange_In in Ha, I. injection E as <- <-. lia.
  - intros H. exists (j - i). split; [ apply zrange_In; lia | ]. apply in_map_iff. exists i. split; [ f_equal; lia | apply zrange_In; lia ].
Qed.
Lemma diag_NoDup C : NoDup (diag_loop C).
Proof.
  apply NoDup_flat_map; [ | | apply zrange_NoDup ].
  - intros c _. apply NoDup_map_inj; [ | apply zrange_NoDup ]. intros ? ? _ _ E. congruence.
  - intros c c' [a b] _ _ H H'. apply in_map_iff in H, H'. destruct H as [? [E _]], H' as [? [E' _]]. injection E as <- E. injection E' as <- E'. lia.
Qed.
Lemma diag_len C : 0 <= C -> 2 * zlen (diag_loop C) = C * (C + 1).
Proof.
  intros H. unfold diag_loop. rewrite zlen_flat. rewrite (map_ext_zsum _ (fun i => C - i)).
  - rewrite (sum_down C (Z.to_nat C) 0) by lia. rewrite Z.sub_0_r. reflexivity.
  - intros i Hi. apply zrange_In in Hi. rewrite zlen_m, zlen_zr by lia. lia.
Qed.

Lemma firstn_pre {A} n (a b : list A) : n <= zlen a -> firstn (Z.to_nat n) (a ++ b) = firstn (Z.to_nat n) a.
Proof. intros H. rewrite firstn_app. replace (Z.to_nat n - length a)%nat with O by (unfold zlen in H; lia). cbn [firstn]. apply app_nil_r. Qed.
Lemma firstn_whole {A} n (a : list A) : zlen a <= n -> firstn (Z.to_nat n) a = a.
Proof. intros H. apply firstn_all2. unfold zlen in H. lia. Qed.
Lemma zlen_firstn_ {A} n (a : list A) : 0 <= n <= zlen a -> zlen (firstn (Z.to_nat n) a) = n.
Proof. intros H. unfold zlen in *. rewrite firstn_length. lia. Qed.

Lemma stable_loop_spec n : forall fuel c, 0 <= c -> n - zlen (stable_full c) <= Z.of_nat fuel -> 
  exists w, stable_loop fuel n c (stable_full c) = Some w /\ (zlen (stable_full c) < n -> forall C, 0 <= C -> n <= zlen (stable_full C) -> w = firstn (Z.to_nat n) (stable_full C)) /\ (n <= zlen (stable_full c) -> w = stable_full c).
Proof.
  induction fuel as [ | fuel IH ]; intros c Hc HF; cbn [stable_loop].
  - rewrite (proj2 (Z.ltb_ge _ n)) by lia. eexists. split; [ reflexivity | ]. split; [ intros; lia | reflexivity ].
  - destruct (Z.ltb_spec (zlen (stable_full c)) n) as [L | L]; [ | eexists; split; [ reflexivity | ]; split; [ intros; lia | reflexivity ] ].
    cbv zeta. rewrite zlen_app. change (zlen [(c, c)]) with 1. rewrite <- app_assoc. cbn [app].
    assert (LS := stable_succ c Hc). assert (LL : zlen (stable_full (c + 1)) = zlen (stable_full c) + 1 + c) by (rewrite LS, zlen_app, zlen_c, zlen_m, zlen_zr by lia; lia).
    destruct (Z_le_dec c (n - (zlen (stable_full c) + 1))) as [K | K].
    + rewrite Z.min_l by lia. rewrite <- LS. destruct (IH (c + 1) ltac:(lia) ltac:(lia)) as [w [E [G1 G2]]]. exists w. split; [ assumption | ]. split; [ | intros; lia ].
      intros _ C HC HN. destruct (Z_lt_dec (zlen (stable_full (c + 1))) n) as [L' | L']; [ apply G1; assumption | ].
      rewrite (G2 ltac:(lia)). assert (c + 1 <= C). { pose proof (stable_len C HC). pose proof (stable_len c Hc). nia. }
      destruct (stable_split (c + 1) C ltac:(lia)) as [r ->]. rewrite firstn_pre by lia. rewrite firstn_whole by lia. reflexivity.
    + rewrite Z.min_r by lia. set (q := n - (zlen (stable_full c) + 1)) in *.
      assert (E : zlen (stable_full c ++ (c, c) :: map (fun i => (i, c)) (zrange 0 q)) = n) by (rewrite zlen_app, zlen_c, zlen_m, zlen_zr by lia; lia).
      set (w := stable_full c ++ (c, c) :: map (fun i => (i, c)) (zrange 0 q)) in *.
      exists w. split; [ destruct fuel; cbn [stable_loop]; rewrite (proj2 (Z.ltb_ge _ n)) by lia; reflexivity | ]. split; [ | intros; lia ].
      intros _ C HC HN. assert (c + 1 <= C). { pose proof (stable_len C HC). pose proof (stable_len c Hc). nia. }
      destruct (stable_split (c + 1) C ltac:(lia)) as [r ->]. rewrite firstn_pre by lia. rewrite LS. rewrite (zrange_split 0 q c) by lia. rewrite map_app.
      replace (stable_full c ++ (c, c) :: map (fun i => (i, c)) (zrange 0 q) ++ map (fun i => (i, c)) (zrange q c)) with (w ++ map (fun i => (i, c)) (zrange q c)) by (unfold w; rewrite <- app_assoc; reflexivity).
      rewrite firstn_pre by lia. rewrite firstn_whole by lia. reflexivity.
Qed.
Lemma stable_order n C : 0 <= n -> 0 <= C -> n <= zlen (stable_full C) -> compressed_order n Stable = Some (firstn (Z.to_nat n) (stable_full C)).
Proof.
  intros H HC HN. unfold compressed_order. destruct (stable_loop_spec n (Z.to_nat n) 0 ltac:(lia)) as [w [E [G1 G2]]]; [ cbn; lia | ].
  change (stable_full 0) with (@nil (Z * Z)) in *. change (zlen []) with 0 in *. rewrite E. cbn [option_map]. f_equal. destruct (Z_lt_dec 0 n) as [K | K].
  - rewrite (G1 K C HC HN). rewrite firstn_firstn. f_equal. lia.
  - replace n with 0 by lia. reflexivity.
Qed.

(* ---- rows ---- *)
Fixpoint row_sel (n m : Z) (l : list (Z * Z)) : list (Z * Z) :=
  match l with [] => [] | (i, j) :: l => if i =? j then (i, j) :: row_sel n m l else if n <=? m then row_sel n m l else (i, j) :: row_sel n (m + 1) l end.
Lemma row_fold n l : forall m acc, snd (fold_left (fun '(m, which) '(i, j) => if negb (i =? j) then if n <=? m then (m, which) else (m + 1, which ++ [(i, j)]) else (m, which ++ [(i, j)])) l (m, acc)) = acc ++ row_sel n m l.
Proof.
  induction l as [ | [i j] l IH ]; intros m acc; cbn [fold_left row_sel]; [ now rewrite app_nil_r | ].
  destruct (i =? j); cbn [negb]; [ rewrite IH, <- app_assoc; reflexivity | ]. destruct (n <=? m); rewrite IH; [ reflexivity | rewrite <- app_assoc; reflexivity ].
Qed.
Definition isdiag (p : Z * Z) : bool := fst p =? snd p.
Lemma row_sel_In n l : forall m p, In p (row_sel n m l) -> In p l.
Proof.
  induction l as [ | [i j] l IH ]; intros m p; cbn [row_sel]; [ tauto | ]. destruct (i =? j); [ | destruct (n <=? m) ]; cbn [In]; intros H; [ destruct H as [H | H]; [ tauto | ] | | destruct H as [H | H]; [ tauto | ] ]; right; eapply IH; eassumption.
Qed.
Lemma row_sel_diag n l : forall m p, In p l -> isdiag p = true -> In p (row_sel n m l).
Proof.
  induction l as [ | [i j] l IH ]; intros m p; cbn [row_sel]; [ intros [] | ]. intros [<- | H] D; cbn [In].
  - unfold isdiag in D. cbn [fst snd] in D. rewrite D. left. reflexivity.
  - destruct (i =? j); [ right; apply IH; assumption | ]. destruct (n <=? m); [ apply IH; assumption | right; apply IH; assumption ].
Qed.
Lemma row_sel_NoDup n l : forall m, NoDup l -> NoDup (row_sel n m l).
Proof.
  induction l as [ | [i j] l IH ]; intros m N; cbn [row_sel]; [ constructor | ]. inversion N; subst. destruct (i =? j); [ | destruct (n <=? m) ];
    try (constructor; [ intros I; apply row_sel_In in I; contradiction | ]); apply IH; assumption.
Qed.
Lemma row_sel_len n l : forall m, m <= n -> zlen (row_sel n m l) = zlen (filter isdiag l) + Z.min (zlen l - zlen (filter isdiag l)) (n - m).
Proof.
  induction l as [ | [i j] l IH ]; intros m H; cbn [row_sel filter]; [ change (zlen (@nil (Z * Z))) with 0; lia | ]. rewrite zlen_c. change (isdiag (i, j)) with (i =? j).
  assert (zlen (filter isdiag l) <= zlen l) by (unfold zlen; pose proof (filter_length_le' isdiag l); lia).
  destruct (i =? j); [ rewrite !zlen_c, IH by lia; lia | ]. destruct (Z.leb_spec n m); [ rewrite IH by lia; lia | rewrite zlen_c, IH by lia; lia ].
Qed.
Lemma filter_flat {A B} (p : B -> bool) (f : A -> list B) l : filter p (flat_map f l) = flat_map (fun x => filter p (f x)) l.
Proof. induction l as [ | a l IH ]; [ reflexivity | ]. cbn [flat_map]. now rewrite filter_app, IH. Qed.
Lemma row_diags C : 0 <= C -> zlen (filter isdiag (row_full C)) = C.
Proof.
  intros H. unfold row_full. rewrite filter_flat, zlen_flat. rewrite (map_ext_zsum _ (fun _ => 1)).
  - rewrite <- (Z2Nat.id C) at 2 by lia. replace C with (0 + Z.of_nat (Z.to_nat C)) at 1 by lia. generalize 0 at 1 2. induction (Z.to_nat C) as [ | n IH ]; intros a.
    + rewrite zrange_empty by lia. reflexivity.
    + rewrite zrange_cons by lia. cbn [map]. replace (a + Z.of_nat (S n)) with (a + 1 + Z.of_nat n) by lia. change (zsum (1 :: ?l)) with (1 + zsum l). rewrite IH. lia.
  - intros i Hi. apply zrange_In in Hi. rewrite zrange_cons by lia. cbn [map filter]. change (isdiag (i, i)) with (i =? i). rewrite Z.eqb_refl. rewrite zlen_c.
    assert (E : filter isdiag (map (fun j => (i, j)) (zrange (i + 1) C)) = []).
    { assert (G : forall l, (forall j, In j l -> i < j) -> filter isdiag (map (fun j => (i, j)) l) = []).
      { induction l as [ | j l IH ]; intros Hl; [ reflexivity | ]. cbn [map filter]. change (isdiag (i, j)) with (i =? j). destruct (Z.eqb_spec i j); [ specialize (Hl j (or_introl eq_refl)); lia | ].
        apply IH. intros k Hk. apply Hl. right. assumption. }
      apply G. intros j Hj. apply zrange_In in Hj. lia. }
    rewrite E. reflexivity.
Qed.
Lemma order_selection n s : 0 <= n -> exists which, compressed_order n s = Some which /\ selection (ncomp_of n) n which.
Proof.
  intros H. destruct (ncomp_spec n H) as [S | [-> E]].
  2: { rewrite E. exists []. split.
    - unfold compressed_order. destruct s; reflexivity.
    - split; [ reflexivity | ]. split; [ constructor | ]. split; [ intros i j [] | intros; lia ]. }
  set (k := ncomp_of n) in *. destruct S as [K0 [K1 K2]].
  assert (KN : k <= n). { clearbody k. destruct (Z_le_dec k 1) as [Q | Q]; [ assert (k = 0 \/ k = 1) as [-> | ->] by lia; lia | nia ]. }
  destruct s.
  - pose proof (stable_len k K0) as L. rewrite (stable_order n k) by lia. eexists. split; [ reflexivity | ]. split; [ apply zlen_firstn_; lia | ].
    assert (EF : exists r, stable_full k = firstn (Z.to_nat n) (stable_full k) ++ r) by (exists (skipn (Z.to_nat n) (stable_full k)); symmetry; apply firstn_skipn).
    destruct EF as [r EF]. set (w := firstn (Z.to_nat n) (stable_full k)) in *.
    split; [ | split ].
    + pose proof (stable_NoDup k) as N. rewrite EF in N. clear - N. induction w as [ | a w IH ]; [ constructor | ]. inversion N; subst. constructor; [ intros I; apply H1; apply in_or_app; tauto | apply IH; assumption ].
    + intros i j I. apply (stable_In k). rewrite EF. apply in_or_app. tauto.
    + intros c Hc. destruct (stable_split (c + 1) k ltac:(lia)) as [r' Er].
      pose proof (stable_len c ltac:(lia)) as Lc.
      assert (EW : w = firstn (Z.to_nat n) ((stable_full c ++ [(c, c)]) ++ map (fun i => (i, c)) (zrange 0 c) ++ r')).
      { unfold w. rewrite Er, stable_succ by lia. rewrite <- !app_assoc. reflexivity. }
      rewrite EW, firstn_app. apply in_or_app. left. rewrite firstn_all2; [ apply in_or_app; right; left; reflexivity | ].
      assert (zlen (stable_full c ++ [(c, c)]) <= n) by (rewrite zlen_app; change (zlen [(c, c)]) with 1; nia). unfold zlen in *. lia.
  - unfold compressed_order. fold k. cbn [option_map]. unfold row_loop. fold (row_full k). rewrite row_fold. cbn [app].
    pose proof (row_len k K0) as L. pose proof (row_diags k K0) as D. pose proof (row_sel_len n (row_full k) k KN) as LS. rewrite D in LS.
    assert (LW : zlen (row_sel n k (row_full k)) = n) by lia. rewrite firstn_whole by lia. eexists. split; [ reflexivity | ]. split; [ assumption | ]. split; [ apply row_sel_NoDup, row_NoDup | ]. split.
    + intros i j I. apply row_sel_In in I. apply row_In. assumption.
    + intros c Hc. apply row_sel_diag; [ apply row_In; lia | apply Z.eqb_refl ].
  - unfold compressed_order. fold k. cbn [option_map]. pose proof (diag_len k K0) as L. eexists. split; [ reflexivity | ]. split; [ apply zlen_firstn_; lia | ].
    assert (EF : exists r, diag_loop k = firstn (Z.to_nat n) (diag_loop k) ++ r) by (exists (skipn (Z.to_nat n) (diag_loop k)); symmetry; apply firstn_skipn).
    destruct EF as [r EF]. set (w := firstn (Z.to_nat n) (diag_loop k)) in *.
    split; [ | split ].
    + pose proof (diag_NoDup k) as N. rewrite EF in N. clear - N. induction w as [ | a w IH ]; [ constructor | ]. inversion N; subst. constructor; [ intros I; apply H1; apply in_or_app; tauto | apply IH; assumption ].
    + intros i j I. apply (diag_In k). rewrite EF. apply in_or_app. tauto.
    + intros c Hc. unfold w, diag_loop. rewrite (zrange_cons 0 k) by lia. cbn [flat_map]. rewrite firstn_app. apply in_or_app. left. rewrite firstn_all2.
      * apply in_map_iff. exists c. split; [ f_equal; lia | apply zrange_In; lia ].
      * assert (zlen (map (fun i => (i, i + 0)) (zrange 0 (k - 0))) <= n) by (rewrite zlen_m, zlen_zr by lia; lia). unfold zlen in *. lia.
Qed.
Lemma full_selection k which : 0 <= k -> selection k (k * (k + 1) / 2) which -> forall i j, 0 <= i <= j -> j < k -> In (i, j) which.
Proof.
  intros K [L [N [R D]]] i j Hij Hj. pose proof (row_len k K) as LR. pose proof (tri_even k) as T.
  apply (NoDup_length_incl (l' := row_full k) N); [ unfold zlen in *; lia | | apply row_In; lia ].
  intros [a b] I. apply row_In. apply R. assumption.
Qed.
Lemma stable_prefix n m : 0 <= n <= m -> exists wn wm, compressed_order n Stable = Some wn /\ compressed_order m Stable = Some wm /\ wn = firstn (Z.to_nat n) wm.
Proof.
  intros H. pose proof (stable_len m ltac:(lia)) as L. assert (m <= zlen (stable_full m)) by nia.
  rewrite (stable_order n m), (stable_order m m) by lia. do 2 eexists. split; [ reflexivity | ]. split; [ reflexivity | ]. rewrite firstn_firstn. f_equal. lia.
Qed.

(* ---- exchanging the first two axes ---- *)
Lemma filter_not1 n : 2 <= n -> filter (fun ax => negb (ax =? 1)) (zrange 0 n) = 0 :: zrange 2 n.
Proof.
  intros H. rewrite (zrange_cons 0), (zrange_cons (0 + 1)) by lia. cbn [filter]. change (0 + 1) with 1. cbn [negb Z.eqb Pos.eqb]. f_equal. change (1 + 1) with 2.
  apply filter_true. intros x Hx. apply zrange_In in Hx. destruct (Z.eqb_spec x 1); [ lia | reflexivity ].
Qed.
Lemma index_of_from n : forall a x, a <= x < n -> index_of x (zrange a n) = x - a.
Proof.
  intros a x H. replace a with (x - Z.of_nat (Z.to_nat (x - a))) by lia. assert (G : (Z.to_nat (x - a) <= Z.to_nat (x - a))%nat) by lia. revert G.
  generalize (Z.to_nat (x - a)) at 1 3 4 as d. induction d as [ | d IH ]; intros G.
  - rewrite zrange_cons by lia. cbn [index_of]. rewrite (proj2 (Z.eqb_eq x _)) by lia. lia.
  - rewrite zrange_cons by lia. cbn [index_of]. destruct (Z.eqb_spec x (x - Z.of_nat (S d))); [ lia | ]. replace (x - Z.of_nat (S d) + 1) with (x - Z.of_nat d) by lia. rewrite IH by lia. lia.
Qed.
Lemma roll1_shape {A} (m : nd A) a b rest : nd_shape m = a :: b :: rest -> nd_shape (rollaxis m 1 0) = b :: a :: rest.
Proof.
  intros E. unfold rollaxis. rewrite E. cbn [Z.ltb Z.compare Z.eqb]. pose proof (zlen_nn rest). rewrite filter_not1 by (rewrite !zlen_c; lia). unfold transpose. cbn [nd_shape]. rewrite E. unfold py_insert. cbn [Z.to_nat firstn skipn app map].
  f_equal. f_equal. transitivity (map (zat rest) (zrange 0 (zlen rest))); [ | apply map_zat ].
  replace (zrange 2 (zlen (a :: b :: rest))) with (map (fun x => x + 2) (zrange 0 (zlen rest))) by (rewrite zrange_shift; f_equal; rewrite !zlen_c; lia).
  rewrite map_map. apply map_ext_in. intros x Hx. apply zrange_In in Hx. unfold zat. rewrite !zget_cons. destruct (Z.eqb_spec (x + 2) 0); [ lia | ]. destruct (Z.eqb_spec (x + 2 - 1) 0); [ lia | ]. now replace (x + 2 - 1 - 1) with x by lia.
Qed.
Lemma roll1_at {A} (m : nd A) a b rest i j idx : nd_shape m = a :: b :: rest -> zlen idx = zlen rest -> nd_at (rollaxis m 1 0) (i :: j :: idx) = nd_at m (j :: i :: idx).
Proof.
  intros E L. unfold rollaxis. rewrite E. cbn [Z.ltb Z.compare Z.eqb]. pose proof (zlen_nn rest). rewrite filter_not1 by (rewrite !zlen_c; lia). unfold transpose. cbn [nd_at]. rewrite E. unfold py_insert. cbn [Z.to_nat firstn skipn app].
  f_equal. rewrite !zlen_c. rewrite (zrange_cons 0), (zrange_cons (0 + 1)) by lia. cbn [map]. change (0 + 1) with 1. change (1 + 1) with 2. f_equal. f_equal.
  transitivity (map (zat idx) (zrange 0 (zlen idx))); [ | apply map_zat ].
  replace (zrange 2 (1 + (1 + zlen rest))) with (map (fun x => x + 2) (zrange 0 (zlen idx))) by (rewrite zrange_shift; f_equal; lia).
  rewrite map_map. apply map_ext_in. intros x Hx. apply zrange_In in Hx. cbn [index_of].
  destruct (Z.eqb_spec (x + 2) 1); [ lia | ]. destruct (Z.eqb_spec (x + 2) 0); [ lia | ].
  assert (EI : index_of (x + 2) (map (fun x => x + 2) (zrange 0 (zlen idx))) = x). { rewrite zrange_shift, index_of_from by lia. lia. }
  rewrite EI. unfold zat. rewrite !zget_cons. destruct (Z.eqb_spec (1 + (1 + x)) 0); [ lia | ]. destruct (Z.eqb_spec (1 + (1 + x) - 1) 0); [ lia | ]. now replace (1 + (1 + x) - 1 - 1) with x by lia.
Qed.
Lemma roll0 {A} (m : nd A) : rollaxis m 0 0 = m. Proof. reflexivity. Qed.

(* ---- the writes of sym_expand ---- *)
Definition write2 {A} (m : nd A) (ncomp : Z) (f : Z -> Z -> list Z -> A) (e : Z * (Z * Z)) : option (Z -> Z -> list Z -> A) :=
  let '(i, w) := e in
  if negb ((0 <=? fst w) && (fst w <? ncomp) && (0 <=? snd w) && (snd w <? ncomp)) then None else
  let put a b f := fun y x rest => if (y =? a) && (x =? b) then nd_at m (i :: rest) else f y x rest in
  let f := put (fst w) (snd w) f in
  Some (if negb (fst w =? snd w) then put (snd w) (fst w) f else f).
Lemma write2_at {A} (m : nd A) ncomp f i a b : 0 <= a < ncomp -> 0 <= b < ncomp ->
  exists f', write2 m ncomp f (i, (a, b)) = Some f' /\ forall y x rest,
    f' y x rest = if ((y =? a) && (x =? b)) || ((y =? b) && (x =? a)) then nd_at m (i :: rest) else f y x rest.
Proof.
  intros Ha Hb. unfold write2. cbn [fst snd].
  rewrite (proj2 (Z.leb_le 0 a)), (proj2 (Z.ltb_lt a ncomp)), (proj2 (Z.leb_le 0 b)), (proj2 (Z.ltb_lt b ncomp)) by lia. cbn [andb negb].
  eexists. split; [ reflexivity | ]. intros y x rest. destruct (Z.eqb_spec a b) as [-> | N]; cbn [negb].
  - destruct ((y =? b) && (x =? b)); reflexivity.
  - destruct ((y =? a) && (x =? b)), ((y =? b) && (x =? a)); reflexivity.
Qed.
Lemma expand_fold {A} (m : nd A) ncomp which : (forall i j, In (i, j) which -> 0 <= i <= j /\ j < ncomp) -> NoDup which ->
  forall a f0, exists f, ofold (write2 m ncomp) (combine (zrange a (a + zlen which)) which) f0 = Some f /\
  forall y x rest, (forall q, zget which q = Some (Z.min y x, Z.max y x) -> f y x rest = nd_at m (a + q :: rest)) /\
                   (~ In (Z.min y x, Z.max y x) which -> f y x rest = f0 y x rest).
Proof.
  induction which as [ | [i j] which IH ]; intros R N a f0.
  - exists f0. rewrite combine_nil. split; [ reflexivity | ]. intros y x rest. split; [ intros q E; rewrite zget_nil in E; discriminate | reflexivity ].
  - inversion N as [ | ? ? N1 N2 ]; subst. pose proof (zlen_nn which). rewrite zlen_c, zrange_cons by lia. cbn [combine ofold].
    pose proof (R i j (or_introl eq_refl)) as Rij. destruct (write2_at m ncomp f0 a i j) as [f1 [E1 G1]]; [ lia | lia | ]. rewrite E1.
    destruct (IH (fun a b I => R a b (or_intror I)) N2 (a + 1) f1) as [f [E2 G2]]. replace (a + (1 + zlen which)) with (a + 1 + zlen which) by lia.
    exists f. split; [ assumption | ]. intros y x rest. destruct (G2 y x rest) as [P1 P2].
    assert (EQ : ((y =? i) && (x =? j)) || ((y =? j) && (x =? i)) = true <-> (Z.min y x, Z.max y x) = (i, j)).
    { rewrite Bool.orb_true_iff, !Bool.andb_true_iff, !Z.eqb_eq. split; [ intros H1; f_equal; lia | intros H1; injection H1 as H1 H2; lia ]. }
    split.
    + intros q Eq. rewrite zget_cons in Eq. destruct (Z.eqb_spec q 0) as [Q0 | Nq].
      * subst q. apply Some_inj in Eq. rewrite P2 by (rewrite <- Eq; assumption). rewrite G1. rewrite (proj2 EQ) by congruence. rewrite Z.add_0_r. reflexivity.
      * rewrite (P1 (q - 1) Eq). f_equal. f_equal. lia.
    + intros NI. rewrite P2 by (intros I; apply NI; right; assumption). rewrite G1.
      destruct (((y =? i) && (x =? j)) || ((y =? j) && (x =? i))) eqn:B; [ | reflexivity ]. exfalso. apply NI. left. symmetry. apply EQ. reflexivity.
Qed.
Lemma max_comp k n which : 0 < k -> selection k n which -> fold_right Z.max 0 (map fst which ++ map snd which) + 1 = k.
Proof.
  intros Hk [L [N [R D]]].
  assert (U : forall l, (forall x, In x l -> x <= k - 1) -> fold_right Z.max 0 l <= Z.max 0 (k - 1)).
  { induction l as [ | x l IH ]; intros Hl; cbn [fold_right]; [ lia | ]. pose proof (Hl x (or_introl eq_refl)). pose proof (IH (fun y Hy => Hl y (or_intror Hy))). lia. }
  assert (LB : forall l x, In x l -> x <= fold_right Z.max 0 l).
  { induction l as [ | y l IH ]; intros x I; [ destruct I | ]. cbn [fold_right]. destruct I as [-> | I]; [ lia | ]. pose proof (IH x I). lia. }
  assert (A : fold_right Z.max 0 (map fst which ++ map snd which) <= Z.max 0 (k - 1)).
  { apply U. intros x I. apply in_app_or in I. destruct I as [I | I]; apply in_map_iff in I; destruct I as [[a b] [E I]]; cbn [fst snd] in E; subst x; apply R in I; lia. }
  assert (B : k - 1 <= fold_right Z.max 0 (map fst which ++ map snd which)).
  { apply LB. apply in_or_app. left. apply in_map_iff. exists (k - 1, k - 1). split; [ reflexivity | apply D; lia ]. }
  lia.
Qed.
Lemma compress_spec {A} (add : A -> A -> A) (m : nd A) k k2 rest n s which : nd_shape m = k :: k :: rest -> 0 <= k -> 0 <= n ->
  compressed_order n s = Some which -> selection k2 n which -> k2 <= k ->
  exists c, sym_compress add m (Some n) s 0 1 false = Some c /\ nd_shape c = n :: rest /\
  forall q i j idx, zget which q = Some (i, j) -> zlen idx = zlen rest -> nd_at c (q :: idx) = nd_at m (j :: i :: idx).
Proof.
  intros E K N EW [L [ND0 [R D]]] K2. unfold sym_compress. rewrite EW. rewrite roll0. rewrite (roll1_shape m k k rest E).
  assert (FB : forallb (in_bounds (k :: k :: rest)) which = true).
  { apply forallb_forall. intros [i j] I. apply R in I. unfold in_bounds. cbn [fst snd]. rewrite (proj2 (Z.leb_le 0 i)), (proj2 (Z.ltb_lt i k)), (proj2 (Z.leb_le 0 j)), (proj2 (Z.ltb_lt j k)) by lia. reflexivity. }
  rewrite FB. cbn [andb negb]. eexists. split; [ reflexivity | ]. rewrite roll0. cbn [nd_shape skipn]. rewrite L. split; [ reflexivity | ].
  intros q i j idx Eq Li. cbn [nd_at]. unfold zat. rewrite zget_cons. cbn [Z.eqb skipn andb]. rewrite Eq. cbn [fst snd]. rewrite (roll1_at m k k rest i j idx E Li). reflexivity.
Qed.
Lemma expand_spec {A} (zero : A) (v : nd A) k n rest s which : nd_shape v = n :: rest -> 0 < k -> compressed_order n s = Some which -> selection k n which ->
  exists m, sym_expand zero v s 0 false = Some m /\ nd_shape m = k :: k :: rest /\
  forall y x idx, zlen idx = zlen rest -> (forall q, zget which q = Some (Z.min y x, Z.max y x) -> nd_at m (y :: x :: idx) = nd_at v (q :: idx)) /\
     (~ In (Z.min y x, Z.max y x) which -> nd_at m (y :: x :: idx) = zero).
Proof.
  intros E K EW SE. pose proof SE as [L [ND0 [R D]]]. unfold sym_expand. rewrite E.
  replace (zat (n :: rest) 0) with n by reflexivity. rewrite EW.
  destruct which as [ | w0 which' ] eqn:EWW; [ exfalso; apply (D 0 ltac:(lia)) | ]. rewrite <- EWW in *.
  rewrite (max_comp k n which K SE). rewrite roll0. rewrite E. change (skipn 1 (n :: rest)) with rest.
  destruct (expand_fold v k which R ND0 0 (fun _ _ _ => zero)) as [f [E1 G1]]. rewrite Z.add_0_l in E1. unfold write2 in E1. cbv zeta in E1 |- *. rewrite E1.
  set (res := ND (k :: k :: rest) (fun idx => f (zat idx 0) (zat idx 1) (skipn 2 idx))).
  assert (ES : nd_shape res = k :: k :: rest) by reflexivity.
  eexists. split; [ reflexivity | ]. rewrite roll0. split; [ apply (roll1_shape res k k rest ES) | ].
  intros y x idx Li. rewrite (roll1_at res k k rest y x idx ES Li). unfold res. cbn [nd_at]. unfold zat. rewrite !zget_cons. cbn [Z.eqb Z.sub Z.add Z.opp Z.pos_sub skipn Pos.eqb].
  destruct (G1 x y idx) as [P1 P2]. rewrite (Z.min_comm x y), (Z.max_comm x y) in P1, P2. split; [ exact P1 | exact P2 ].
Qed.
