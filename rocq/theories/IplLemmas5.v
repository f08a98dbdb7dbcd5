(* Lemmas for IplProps: the spline filter inverts sampling, along one line. *)
From Coq Require Import Reals Lra FunctionalExtensionality.
From Verif Require Import Base AlmModel AlmLemmas IplSpec IplModel IplLemmas IplLemmas2 IplLemmas3 IplLemmas4.
Ltac Zify.zify_post_hook ::= idtac.
Open Scope R_scope.

Lemma forwards_spec n p a : (1 <= n)%Z -> exists f, forwards n p a = Some f /\ f 1%Z = a 1%Z /\ (forall i, (2 <= i <= n)%Z -> f i = a i + p * f (i - 1)%Z).
Proof.
  intros Hn. unfold forwards.
  pose (st := fun (a : arr) i => setf a i (a i + p * a (i - 1)%Z)).
  rewrite (ofold_total _ st).
  2: { intros s i Hi. apply zrange_In in Hi. rewrite !rd_in by lia. cbn [bind]. rewrite wr_in by lia. reflexivity. }
  exists (fold_left st (zrange 2 (n + 1)) a). split; [reflexivity|].
  assert (G : forall k : nat, let f := fold_left st (zrange 2 (2 + Z.of_nat k)) a in
    f 1%Z = a 1%Z /\ (forall i, (2 <= i < 2 + Z.of_nat k)%Z -> f i = a i + p * f (i - 1)%Z) /\ (forall i, (2 + Z.of_nat k <= i)%Z -> f i = a i)).
  { induction k as [|k IH]; cbv zeta.
    - rewrite zrange_empty by lia. cbn [fold_left]. split; [reflexivity|]. split; [intros; lia|reflexivity].
    - cbv zeta in IH. destruct IH as (I1 & I2 & I3). set (f := fold_left st (zrange 2 (2 + Z.of_nat k)) a) in *.
      replace (2 + Z.of_nat (S k))%Z with (2 + Z.of_nat k + 1)%Z by lia. rewrite zrange_snoc by lia. rewrite fold_left_app. fold f. cbn [fold_left].
      set (K := (2 + Z.of_nat k)%Z) in *. change (st f K) with (setf f K (f K + p * f (K - 1)%Z)). split; [rewrite setf_other by lia; exact I1|]. split.
      + intros i Hi. destruct (Z.eq_dec i K) as [E|E].
        * subst i. rewrite setf_same, setf_other by lia. rewrite (I3 K) by lia. reflexivity.
        * rewrite !setf_other by lia. apply I2. lia.
      + intros i Hi. rewrite setf_other by lia. apply I3. lia. }
  specialize (G (Z.to_nat (n - 1))). cbv zeta in G. replace (2 + Z.of_nat (Z.to_nat (n - 1)))%Z with (n + 1)%Z in G by lia.
  destruct G as (G1 & G2 & _). split; [exact G1|]. intros i Hi. apply G2. lia.
Qed.

Lemma backwards_spec n p a : (1 <= n)%Z -> exists f, backwards n p a = Some f /\ f n = a n /\ (forall i, (1 <= i <= n - 1)%Z -> f i = p * (f (i + 1)%Z - a i)).
Proof.
  intros Hn. unfold backwards.
  pose (st := fun (a : arr) i => setf a i (p * (a (i + 1)%Z - a i))).
  rewrite (ofold_total _ st).
  2: { intros s i Hi. apply in_rev, zrange_In in Hi. rewrite !rd_in by lia. cbn [bind]. rewrite wr_in by lia. reflexivity. }
  exists (fold_left st (rev (zrange 1 n)) a). split; [reflexivity|].
  assert (G : forall k : nat, let f := fold_left st (rev (zrange (n - Z.of_nat k) n)) a in
    f n = a n /\ (forall i, (n - Z.of_nat k <= i <= n - 1)%Z -> f i = p * (f (i + 1)%Z - a i)) /\ (forall i, (i < n - Z.of_nat k)%Z -> f i = a i)).
  { induction k as [|k IH]; cbv zeta.
    - rewrite zrange_empty by lia. cbn [rev fold_left]. split; [reflexivity|]. split; [intros; lia|reflexivity].
    - cbv zeta in IH. destruct IH as (I1 & I2 & I3). set (f := fold_left st (rev (zrange (n - Z.of_nat k) n)) a) in *.
      rewrite (zrange_cons (n - Z.of_nat (S k)) n) by lia. replace (n - Z.of_nat (S k) + 1)%Z with (n - Z.of_nat k)%Z by lia.
      cbn [rev]. rewrite fold_left_app. fold f. cbn [fold_left].
      remember (n - Z.of_nat (S k))%Z as K eqn:EK. change (st f K) with (setf f K (p * (f (K + 1)%Z - f K))). split; [rewrite setf_other by lia; exact I1|]. split.
      + intros i Hi. destruct (Z.eq_dec i K) as [E|E].
        * subst i. rewrite setf_same, setf_other by lia. rewrite (I3 K) by lia. reflexivity.
        * rewrite !setf_other by lia. apply I2. lia.
      + intros i Hi. rewrite setf_other by lia. apply I3. lia. }
  specialize (G (Z.to_nat (n - 1))). cbv zeta in G. replace (n - Z.of_nat (Z.to_nat (n - 1)))%Z with 1%Z in G by lia.
  destruct G as (G1 & G2 & _). split; [exact G1|]. intros i Hi. apply G2. lia.
Qed.

(* what the four steps of one pole establish: c+ (cp) and c *)
Lemma pole_steps b n m p a : (2 <= n)%Z -> exists a0 cp a2 c,
  causal_init b n m p a = Some a0 /\ back_init b n m p cp = Some a2 /\ pole_fwd b n m p a = Some c /\
  cp 1%Z = a0 1%Z /\ (forall i, (2 <= i <= n)%Z -> cp i = a i + p * cp (i - 1)%Z) /\
  c n = a2 n /\ (forall i, (1 <= i <= n - 1)%Z -> c i = p * (c (i + 1)%Z - cp i)).
Proof.
  intros Hn.
  assert (A0 : exists a0, causal_init b n m p a = Some a0 /\ forall i, (2 <= i)%Z -> a0 i = a i).
  { unfold causal_init, div1. destruct b.
    - eauto.
    - rewrite rd_in by lia. cbn [bind]. rewrite wr_in by lia. eexists. split; [reflexivity|]. intros i Hi. apply setf_other. lia.
    - rewrite gather_spec; [|lia|intros i Hi; apply in_map_iff in Hi as (k & E & Hk); apply zrange_In in Hk; lia]. cbn [bind fst snd].
      destruct (m >=? n)%Z; [rewrite rd_in by lia; cbn [bind]; rewrite wr_in by lia|]; eexists; (split; [reflexivity|]); intros i Hi; rewrite ?setf_other by lia; reflexivity.
    - rewrite gather_spec; [|lia|intros i Hi; apply zrange_In in Hi; lia]. cbn [bind fst snd].
      destruct (m >=? n)%Z.
      + rewrite gather_spec; [|lia|intros i Hi; apply in_rev, zrange_In in Hi; lia]. cbn [bind fst snd]. rewrite rd_in by lia; cbn [bind]; rewrite wr_in by lia. eexists; (split; [reflexivity|]); intros i Hi; rewrite ?setf_other by lia; reflexivity.
      + eexists; (split; [reflexivity|]); intros i Hi; rewrite ?setf_other by lia; reflexivity. }
  destruct A0 as (a0 & E0 & O0). destruct (forwards_spec n p a0 ltac:(lia)) as (cp & E1 & F1 & F2).
  assert (A2 : exists a2, back_init b n m p cp = Some a2 /\ forall i, (i < n)%Z -> a2 i = cp i).
  { unfold back_init. rewrite rd_in by lia. cbn [bind]. destruct b.
    - rewrite wr_in by lia. eexists. split; [reflexivity|]. intros; apply setf_other; lia.
    - rewrite rd_in by lia. cbn [bind]. rewrite wr_in by lia. eexists. split; [reflexivity|]. intros; apply setf_other; lia.
    - rewrite accum_spec by (intros i Hi; apply zrange_In in Hi; lia). cbn [bind]. rewrite wr_in by lia. eexists. split; [reflexivity|]. intros; apply setf_other; lia.
    - rewrite rd_in by lia. cbn [bind]. rewrite wr_in by lia. eexists. split; [reflexivity|]. intros; apply setf_other; lia. }
  destruct A2 as (a2 & E2 & O2). destruct (backwards_spec n p a2 ltac:(lia)) as (c & E3 & B1 & B2).
  exists a0, cp, a2, c. split; [exact E0|]. split; [exact E2|]. split; [unfold pole_fwd; rewrite E0; cbn [bind]; rewrite E1; cbn [bind]; rewrite E2; cbn [bind]; exact E3|].
  split; [exact F1|]. split; [intros i Hi; rewrite F2 by lia; rewrite O0 by lia; reflexivity|]. split; [exact B1|]. intros i Hi. rewrite B2 by lia. rewrite O2 by lia. reflexivity.
Qed.

(* away from the ends *)
Lemma pole_interior b n m p a c i : (2 <= n)%Z -> p <> 0 -> pole_fwd b n m p a = Some c -> (2 <= i <= n - 1)%Z ->
  c (i - 1)%Z - (p + / p) * c i + c (i + 1)%Z = a i.
Proof.
  intros Hn Hp Hc Hi. destruct (pole_steps b n m p a Hn) as (a0 & cp & a2 & c' & _ & _ & E & _ & F & _ & B). rewrite E in Hc. apply Some_inj in Hc. subst c'.
  pose proof (B i ltac:(lia)) as B1. pose proof (B (i - 1)%Z ltac:(lia)) as B0. replace (i - 1 + 1)%Z with i in B0 by lia. pose proof (F i ltac:(lia)) as F1.
  assert (E1 : c (i + 1)%Z = c i / p + cp i) by (rewrite B1; field; exact Hp).
  rewrite E1, B0. replace (a i) with (cp i - p * cp (i - 1)%Z) by (rewrite F1; ring). field. exact Hp.
Qed.

(* weighted sums along a chain *)
Fixpoint wsum (p : R) (l : list Z) (pn : R) (a : arr) : R := match l with [] => 0 | i :: l => pn * a i + wsum p l (pn * p) a end.
Lemma dot1_coef n p l pn a : (forall i, In i l -> (1 <= i <= n)%Z) -> dot1 n (coef p l pn) a = wsum p l pn a.
Proof.
  revert pn; induction l as [|i l IH]; intros pn H; cbn [coef wsum]; [apply dot1_0|].
  rewrite (dot1_plus n (fun e => ind i e * pn)), IH by (intros; apply H; right; assumption). f_equal.
  transitivity (dot1 n (fun e => pn * ind i e) a); [unfold dot1; apply rsuml_ext; intros; ring|]. rewrite dot1_scal, dot1_ind by (apply H; left; reflexivity). reflexivity.
Qed.
Lemma wsum_chain p l pn a (u : nat -> R) : (forall k, (k < length l)%nat -> u k = a (nth k l 0%Z) + p * u (S k)) -> pn * u O = wsum p l pn a + pn * p ^ length l * u (length l).
Proof.
  revert pn u; induction l as [|i l IH]; intros pn u H; cbn [wsum length pow]; [ring|].
  rewrite (H O) by (cbn [length]; lia). cbn [nth]. pose proof (IH (pn * p) (fun k => u (S k))) as G. cbv beta in G.
  replace (pn * (p * p ^ length l) * u (S (length l))) with (pn * p * p ^ length l * u (S (length l))) by ring.
  rewrite Rplus_assoc, <- G; [ring|]. intros k Hk. rewrite (H (S k)) by (cbn [length]; lia). reflexivity.
Qed.
Lemma nth_zrange a b k : (k < Z.to_nat (b - a))%nat -> nth k (zrange a b) 0%Z = (a + Z.of_nat k)%Z.
Proof. intros H. apply nth_error_nth. unfold zrange. apply zseq_nth, H. Qed.
Lemma length_zrange a b : length (zrange a b) = Z.to_nat (b - a).
Proof. unfold zrange. apply zseq_length. Qed.
Lemma nth_rev_zrange a b k : (k < Z.to_nat (b - a))%nat -> nth k (rev (zrange a b)) 0%Z = (b - 1 - Z.of_nat k)%Z.
Proof. intros H. rewrite rev_nth by (rewrite length_zrange; lia). rewrite length_zrange, nth_zrange by lia. lia. Qed.

Lemma pow_abs_lt1 p k : Rabs p < 1 -> (1 <= k)%nat -> 1 - p ^ k <> 0.
Proof.
  intros Hp Hk E. assert (A : Rabs (p ^ k) = 1) by (replace (p ^ k) with 1 by lra; apply Rabs_R1).
  rewrite <- RPow_abs in A. assert (Rabs p ^ k < 1); [|lra]. apply pow_lt_1_compat; [split; [apply Rabs_pos|exact Hp]|lia].
Qed.

Section Exact.
Variables (n m : Z) (p : R).
Hypothesis Hn : (2 <= n)%Z.
Hypothesis Hm : (n <= m)%Z.
Hypothesis Hp0 : p <> 0.
Hypothesis Hp1 : Rabs p < 1.

Lemma p2 : 1 - p ^ 2 <> 0.
Proof. apply pow_abs_lt1; [exact Hp1|lia]. Qed.

Lemma cyclic_edges a c : pole_fwd ECyclic n m p a = Some c ->
  c n - (p + / p) * c 1%Z + c 2%Z = a 1%Z /\ c (n - 1)%Z - (p + / p) * c n + c 1%Z = a n.
Proof.
  intros Hc. destruct (pole_steps ECyclic n m p a Hn) as (a0 & cp & a2 & c' & E0 & E2 & E & F1 & F & B1 & B). rewrite E in Hc. apply Some_inj in Hc. subst c'.
  set (q := p ^ Z.to_nat n). assert (Hq : 1 - q <> 0) by (apply pow_abs_lt1; [exact Hp1|lia]).
  (* the causal filter closes *)
  assert (C1 : cp 1%Z = a 1%Z + p * cp n).
  { unfold causal_init in E0. set (l := map (fun i => n - i)%Z (zrange 0 (Z.min n m - 1))) in *.
    assert (Hl : forall i, In i l -> (2 <= i <= n)%Z) by (intros i Hi; apply in_map_iff in Hi as (k & Ek & Hk); apply zrange_In in Hk; lia).
    assert (Ll : length l = Z.to_nat (n - 1)) by (unfold l; rewrite map_length, length_zrange; lia).
    rewrite gather_spec in E0 by (lia || exact Hl). cbn [bind fst snd] in E0. replace (m >=? n)%Z with true in E0 by lia. unfold div1 in E0.
    rewrite rd_in in E0 by lia. cbn [bind] in E0. rewrite wr_in in E0 by lia. apply Some_inj in E0. rewrite setf_setf, setf_same in E0.
    assert (EV : a0 1%Z = (a 1%Z + wsum p l p a) / (1 - q)).
    { rewrite <- E0, setf_same, dot1_coef by (intros i Hi; apply Hl in Hi; lia). f_equal. f_equal. rewrite Ll. unfold q. replace (Z.to_nat n) with (S (Z.to_nat (n - 1))) by lia. reflexivity. }
    assert (W := wsum_chain p l p a (fun k => cp (n - Z.of_nat k)%Z)). cbv beta in W. rewrite Ll in W.
    replace (n - Z.of_nat 0)%Z with n in W by lia. replace (n - Z.of_nat (Z.to_nat (n - 1)))%Z with 1%Z in W by lia.
    rewrite W.
    - replace (p * p ^ Z.to_nat (n - 1)) with q by (unfold q; replace (Z.to_nat n) with (S (Z.to_nat (n - 1))) by lia; reflexivity).
      rewrite F1, EV. field. exact Hq.
    - intros k Hk. rewrite F by lia. f_equal; [f_equal|f_equal; f_equal; lia].
      unfold l. rewrite (nth_indep _ 0%Z (n - 0)%Z) by (rewrite map_length, length_zrange; lia). rewrite (map_nth (fun i => n - i)%Z), nth_zrange by lia. lia. }
  (* and so does the other one *)
  assert (C2 : c n = p * (c 1%Z - cp n)).
  { unfold back_init in E2. rewrite rd_in in E2 by lia. cbn [bind] in E2. set (l := zrange 1 (Z.min m n + 1)) in *.
    assert (Hl : forall i, In i l -> (1 <= i <= n)%Z) by (intros i Hi; apply zrange_In in Hi; lia).
    assert (Ll : length l = Z.to_nat n) by (unfold l; rewrite length_zrange; lia).
    rewrite accum_spec in E2 by exact Hl. cbn [bind fst snd] in E2. replace (m >=? n)%Z with true in E2 by lia. rewrite wr_in in E2 by lia. apply Some_inj in E2.
    rewrite dot1_coef, Ll, Rplus_0_l, Rmult_1_l in E2 by exact Hl. fold q in E2.
    set (v := wsum p l 1 cp / (1 - q)) in *.
    assert (EV : a2 n = - p * (cp n + p * v)) by (rewrite <- E2, setf_same; reflexivity).
    assert (EL : wsum p l 1 cp = wsum p (zrange 1 n) 1 cp + p ^ Z.to_nat (n - 1) * cp n).
    { unfold l. replace (Z.min m n + 1)%Z with (n + 1)%Z by lia. rewrite zrange_snoc by lia.
      assert (A : forall l1 l2 pn, wsum p (l1 ++ l2) pn cp = wsum p l1 pn cp + wsum p l2 (pn * p ^ length l1) cp).
      { induction l1 as [|i l1 IH]; intros l2 pn; cbn [app wsum length pow]; [rewrite Rmult_1_r; ring|]. rewrite IH. replace (pn * p * p ^ length l1) with (pn * (p * p ^ length l1)) by ring. ring. }
      rewrite A, length_zrange. cbn [wsum]. ring. }
    assert (W := wsum_chain p (zrange 1 n) 1 cp (fun k => - c (1 + Z.of_nat k)%Z / p)). cbv beta in W. rewrite length_zrange in W.
    replace (1 + Z.of_nat (Z.to_nat (n - 1)))%Z with n in W by lia. replace (1 + Z.of_nat 0)%Z with 1%Z in W by lia.
    assert (W' : 1 * (- c 1%Z / p) = wsum p (zrange 1 n) 1 cp + 1 * p ^ Z.to_nat (n - 1) * (- c n / p)).
    { apply W. intros k Hk. rewrite (B (1 + Z.of_nat k)%Z) by lia. rewrite nth_zrange by lia.
      replace (1 + Z.of_nat (S k))%Z with (1 + Z.of_nat k + 1)%Z by lia. field. exact Hp0. }
    rewrite B1, EV. rewrite B1, EV in W'.
    assert (Hv : v * (1 - q) = wsum p (zrange 1 n) 1 cp + p ^ Z.to_nat (n - 1) * cp n) by (unfold v; rewrite <- EL; field; exact Hq).
    assert (Eq : q = p * p ^ Z.to_nat (n - 1)) by (unfold q; replace (Z.to_nat n) with (S (Z.to_nat (n - 1))) by lia; reflexivity).
    assert (K : c 1%Z = - p * v); [|rewrite K; ring].
    apply (f_equal (fun z => - p * z)) in W'. replace (- p * (1 * (- c 1%Z / p))) with (c 1%Z) in W' by (field; exact Hp0).
    rewrite W'. replace (wsum p (zrange 1 n) 1 cp) with (v * (1 - q) - p ^ Z.to_nat (n - 1) * cp n) by lra. rewrite Eq. field. exact Hp0. }
  assert (G1 := B 1%Z ltac:(lia)). change (1 + 1)%Z with 2%Z in G1. assert (D1 : c 2%Z = c 1%Z / p + cp 1%Z) by (rewrite G1; field; exact Hp0).
  assert (G2 := B (n - 1)%Z ltac:(lia)). replace (n - 1 + 1)%Z with n in G2 by lia. assert (G3 := F n ltac:(lia)). split.
  - rewrite D1, C2, C1. field. exact Hp0.
  - rewrite G2. assert (D2 : c 1%Z = c n / p + cp n) by (rewrite C2; field; exact Hp0). rewrite D2, G3. field. exact Hp0.
Qed.

Lemma mirror_edges a c : pole_fwd EMirror n m p a = Some c ->
  c 2%Z - (p + / p) * c 1%Z + c 2%Z = a 1%Z /\ c (n - 1)%Z - (p + / p) * c n + c (n - 1)%Z = a n.
Proof.
  intros Hc. destruct (pole_steps EMirror n m p a Hn) as (a0 & cp & a2 & c' & E0 & E2 & E & F1 & F & B1 & B). rewrite E in Hc. apply Some_inj in Hc. subst c'.
  pose proof p2 as Hp2.
  set (q := p ^ Z.to_nat (2 * n - 2)). assert (Hq : 1 - q <> 0) by (apply pow_abs_lt1; [exact Hp1|lia]).
  unfold back_init in E2. rewrite rd_in in E2 by lia. cbn [bind] in E2. rewrite rd_in in E2 by lia. cbn [bind] in E2. rewrite wr_in in E2 by lia. apply Some_inj in E2.
  assert (EV : c n = - p / (1 - p ^ 2) * (cp n + p * cp (n - 1)%Z)) by (rewrite B1, <- E2, setf_same; reflexivity). clear E2.
  assert (Fn := F n ltac:(lia)).
  (* the causal filter on the way back *)
  pose (dn := fix dn (k : nat) : R := match k with O => cp n | S k => a (n - 1 - Z.of_nat k)%Z + p * dn k end).
  assert (C1 : cp 1%Z = a 1%Z + p * dn (Z.to_nat (n - 2))).
  { unfold causal_init in E0. set (l := zrange 2 (Z.min m n + 1)) in *. set (l2 := rev (zrange 2 n)) in *.
    assert (Hl : forall i, In i l -> (2 <= i <= n)%Z) by (intros i Hi; apply zrange_In in Hi; lia).
    assert (Hl2 : forall i, In i l2 -> (2 <= i <= n)%Z) by (intros i Hi; apply in_rev, zrange_In in Hi; lia).
    assert (Ll : length l = Z.to_nat (n - 1)) by (unfold l; rewrite length_zrange; lia).
    assert (Ll2 : length l2 = Z.to_nat (n - 2)) by (unfold l2; rewrite rev_length, length_zrange; lia).
    rewrite gather_spec in E0 by (lia || exact Hl). cbn [bind fst snd] in E0. replace (m >=? n)%Z with true in E0 by lia.
    rewrite gather_spec in E0 by (lia || exact Hl2). cbn [bind fst snd] in E0. unfold div1 in E0.
    rewrite rd_in in E0 by lia. cbn [bind] in E0. rewrite wr_in in E0 by lia. apply Some_inj in E0. rewrite !setf_setf, !setf_same in E0.
    assert (EW : forall v, dot1 n (coef p l2 (p * p ^ length l)) (setf a 1 v) = wsum p l2 (p * p ^ length l) a).
    { intros v. rewrite <- (dot1_coef n) by (intros i Hi; apply Hl2 in Hi; lia). unfold dot1. apply rsuml_ext. intros i Hi. unfold setf. destruct (Z.eqb_spec i 1); [|reflexivity]. subst i. rewrite coef_out by (intros G; apply Hl2 in G; lia). ring. }
    rewrite EW in E0. rewrite dot1_coef in E0 by (intros i Hi; apply Hl in Hi; lia).
    assert (Eq : p * p ^ length l * p ^ length l2 = q).
    { rewrite Ll, Ll2, Rmult_assoc, <- pow_add. change (p * p ^ ?k) with (p ^ S k). unfold q. f_equal. lia. }
    assert (EA : a0 1%Z = (a 1%Z + wsum p l p a + wsum p l2 (p * p ^ length l) a) / (1 - q)) by (rewrite <- E0, setf_same, Eq; reflexivity).
    assert (W1 := wsum_chain p l p a (fun k => if (k <? Z.to_nat (n - 1))%nat then dn (Z.to_nat (n - 2) - k)%nat else cp (n - 1)%Z)). cbv beta in W1. rewrite Ll in W1.
    replace (0 <? Z.to_nat (n - 1))%nat with true in W1 by (symmetry; apply Nat.ltb_lt; lia). rewrite Nat.sub_0_r, Nat.ltb_irrefl in W1.
    assert (W2 := wsum_chain p l2 (p * p ^ length l) a (fun k => cp (n - 1 - Z.of_nat k)%Z)). cbv beta in W2. rewrite Ll2 in W2.
    replace (n - 1 - Z.of_nat 0)%Z with (n - 1)%Z in W2 by lia. replace (n - 1 - Z.of_nat (Z.to_nat (n - 2)))%Z with 1%Z in W2 by lia.
    rewrite W1, <- Ll, W2, <- Ll2, Eq.
    - rewrite F1, EA. field. exact Hq.
    - intros k Hk. rewrite F by lia. f_equal; [f_equal; unfold l2; rewrite nth_rev_zrange by lia; lia|]. f_equal. f_equal. lia.
    - intros k Hk. replace (k <? Z.to_nat (n - 1))%nat with true by (symmetry; apply Nat.ltb_lt; lia). unfold l. rewrite nth_zrange by lia.
      destruct (Nat.ltb_spec (S k) (Z.to_nat (n - 1))) as [H|H].
      + replace (Z.to_nat (n - 2) - k)%nat with (S (Z.to_nat (n - 2) - S k)) by lia. cbn [dn]. fold dn. f_equal. f_equal. lia.
      + replace (Z.to_nat (n - 2) - k)%nat with O by lia. cbn [dn]. rewrite Fn. f_equal. f_equal. lia. }
  (* c is both filters together *)
  assert (P : forall k, (Z.of_nat k <= n - 1)%Z -> c (n - Z.of_nat k)%Z = - p / (1 - p ^ 2) * (cp (n - Z.of_nat k)%Z + dn k - a (n - Z.of_nat k)%Z) \/ k = Z.to_nat (n - 1)).
  { induction k as [|k IH]; intros Hk.
    - left. cbn [dn]. replace (n - Z.of_nat 0)%Z with n by lia. rewrite EV, Fn. field. exact Hp2.
    - destruct (IH ltac:(lia)) as [IH'|IH']; [|lia]. clear IH. left.
      assert (Bk := B (n - Z.of_nat (S k))%Z ltac:(lia)). replace (n - Z.of_nat (S k) + 1)%Z with (n - Z.of_nat k)%Z in Bk by lia.
      assert (Fk := F (n - Z.of_nat k)%Z ltac:(lia)). replace (n - Z.of_nat k - 1)%Z with (n - Z.of_nat (S k))%Z in Fk by lia.
      rewrite Bk, IH', Fk. cbn [dn]. fold dn. replace (n - 1 - Z.of_nat k)%Z with (n - Z.of_nat (S k))%Z by lia. field. exact Hp2. }
  assert (P1 : c 1%Z = - p / (1 - p ^ 2) * (2 * cp 1%Z - a 1%Z)).
  { destruct (P (Z.to_nat (n - 2)) ltac:(lia)) as [P2|P2]; [|lia].
    assert (Bk := B 1%Z ltac:(lia)). change (1 + 1)%Z with 2%Z in Bk. replace (n - Z.of_nat (Z.to_nat (n - 2)))%Z with 2%Z in P2 by lia.
    assert (Fk := F 2%Z ltac:(lia)). change (2 - 1)%Z with 1%Z in Fk. rewrite Bk, P2, Fk.
    replace (cp 1%Z) with (a 1%Z + p * dn (Z.to_nat (n - 2))) by (symmetry; exact C1). field. exact Hp2. }
  split.
  - assert (Bk := B 1%Z ltac:(lia)). change (1 + 1)%Z with 2%Z in Bk. assert (D1 : c 2%Z = c 1%Z / p + cp 1%Z) by (rewrite Bk; field; exact Hp0).
    rewrite D1, P1. field. split; [exact Hp2|exact Hp0].
  - assert (Bk := B (n - 1)%Z ltac:(lia)). replace (n - 1 + 1)%Z with n in Bk by lia. rewrite Bk, EV, Fn. field. split; [exact Hp2|exact Hp0].
Qed.
End Exact.

(* ---------------------------------------------------------------- the extended line *)
Definition ext (b : edge) (n : Z) (c : arr) (i : Z) : R := c (map_border b n i + 1)%Z.
Definition tri (s : R) (f : Z -> R) (i : Z) : R := f (i - 1)%Z - s * f i + f (i + 1)%Z.

Lemma mb_cyclic n i : (1 <= n)%Z -> map_border ECyclic n i = (i mod n)%Z.
Proof. intros H. unfold map_border. destruct ((i <? 0) || (i >=? n))%Z eqn:E; [reflexivity|]. symmetry. apply Z.mod_small. lia. Qed.
Lemma mb_mirror n i : (2 <= n)%Z -> map_border EMirror n i = let v := (i mod (2 * n - 2))%Z in if (v >=? n)%Z then (2 * n - 2 - v)%Z else v.
Proof.
  intros H. unfold map_border. destruct ((i <? 0) || (i >=? n))%Z eqn:E; [reflexivity|]. rewrite Z.mod_small by lia. cbv zeta.
  destruct (Z.geb_spec i n); [lia|reflexivity].
Qed.
Lemma mod_succ i N : (1 <= N)%Z -> ((i + 1) mod N = if (i mod N =? N - 1) then 0 else i mod N + 1)%Z.
Proof.
  intros H. pose proof (Z.mod_pos_bound i N ltac:(lia)). pose proof (Z.div_mod i N ltac:(lia)) as D.
  destruct (Z.eqb_spec (i mod N) (N - 1)) as [E|E]; symmetry.
  - apply (Z.mod_unique _ _ (i / N + 1)); [lia|]. rewrite E in D. nia.
  - apply (Z.mod_unique _ _ (i / N)); [lia|]. lia.
Qed.
Lemma mod_pred i N : (1 <= N)%Z -> ((i - 1) mod N = if (i mod N =? 0) then N - 1 else i mod N - 1)%Z.
Proof.
  intros H. pose proof (Z.mod_pos_bound i N ltac:(lia)). pose proof (Z.div_mod i N ltac:(lia)) as D.
  destruct (Z.eqb_spec (i mod N) 0) as [E|E]; symmetry.
  - apply (Z.mod_unique _ _ (i / N - 1)); [lia|]. rewrite E in D. nia.
  - apply (Z.mod_unique _ _ (i / N)); [lia|]. lia.
Qed.

Lemma pole_exact b n m p a c : (b = ECyclic \/ b = EMirror) -> (2 <= n)%Z -> (n <= m)%Z -> p <> 0 -> Rabs p < 1 -> pole_fwd b n m p a = Some c ->
  forall i, tri (p + / p) (ext b n c) i = ext b n a i.
Proof.
  intros Hb Hn Hm Hp0 Hp1 Hc i. unfold tri, ext.
  pose proof (fun j => pole_interior b n m p a c j Hn Hp0 Hc) as I.
  destruct Hb as [Hb|Hb]; subst b.
  - destruct (cyclic_edges n m p Hn Hm Hp0 Hp1 a c Hc) as [E1 E2]. rewrite !mb_cyclic by lia. rewrite mod_succ, mod_pred by lia.
    pose proof (Z.mod_pos_bound i n ltac:(lia)). set (r := (i mod n)%Z) in *.
    destruct (Z.eqb_spec r 0) as [E|E]; [|destruct (Z.eqb_spec r (n - 1)) as [E'|E']].
    + rewrite E. destruct (Z.eqb_spec 0 (n - 1)); [lia|]. replace (n - 1 + 1)%Z with n by lia. exact E1.
    + rewrite E'. replace (n - 1 - 1 + 1)%Z with (n - 1)%Z by lia. replace (n - 1 + 1)%Z with n by lia. exact E2.
    + replace (r - 1 + 1)%Z with (r + 1 - 1)%Z by lia. apply I. lia.
  - destruct (mirror_edges n m p Hn Hm Hp0 Hp1 a c Hc) as [E1 E2]. rewrite !mb_mirror by lia. cbv zeta. rewrite mod_succ, mod_pred by lia.
    pose proof (Z.mod_pos_bound i (2 * n - 2) ltac:(lia)). set (r := (i mod (2 * n - 2))%Z) in *.
    assert (G : forall x y z, c x - (p + / p) * c y + c z = c z - (p + / p) * c y + c x) by (intros; ring).
    destruct (Z.geb_spec r n) as [L|L].
    + (* on the way back *)
      replace (r =? 0)%Z with false by lia. destruct (Z.eqb_spec r (2 * n - 2 - 1)) as [E|E].
      * replace (0 >=? n)%Z with false by lia. rewrite G. destruct (Z.geb_spec (r - 1) n) as [L2|L2].
        -- replace (0 + 1)%Z with (2 * n - 2 - r + 1 - 1)%Z by lia. replace (2 * n - 2 - (r - 1) + 1)%Z with (2 * n - 2 - r + 1 + 1)%Z by lia. apply I. lia.
        -- replace (0 + 1)%Z with (2 * n - 2 - r + 1 - 1)%Z by lia. replace (r - 1 + 1)%Z with (2 * n - 2 - r + 1 + 1)%Z by lia. apply I. lia.
      * replace (r + 1 >=? n)%Z with true by lia. rewrite G. destruct (Z.geb_spec (r - 1) n) as [L2|L2].
        -- replace (2 * n - 2 - (r + 1) + 1)%Z with (2 * n - 2 - r + 1 - 1)%Z by lia. replace (2 * n - 2 - (r - 1) + 1)%Z with (2 * n - 2 - r + 1 + 1)%Z by lia. apply I. lia.
        -- replace (2 * n - 2 - (r + 1) + 1)%Z with (2 * n - 2 - r + 1 - 1)%Z by lia. replace (r - 1 + 1)%Z with (2 * n - 2 - r + 1 + 1)%Z by lia. apply I. lia.
    + destruct (Z.eqb_spec r 0) as [E|E].
      * rewrite E. destruct (Z.eqb_spec 0 (2 * n - 2 - 1)); [lia|]. destruct (Z.geb_spec (0 + 1) n); [lia|].
        destruct (Z.geb_spec (2 * n - 2 - 1) n) as [L2|L2]; [replace (2 * n - 2 - (2 * n - 2 - 1) + 1)%Z with 2%Z by lia|replace (2 * n - 2 - 1 + 1)%Z with 2%Z by lia]; exact E1.
      * replace (r - 1 >=? n)%Z with false by lia. destruct (Z.eqb_spec r (n - 1)) as [E'|E'].
        -- destruct (Z.eqb_spec r (2 * n - 2 - 1)) as [E3|E3].
           ++ (* n = 2 *) replace (0 >=? n)%Z with false by lia. replace (r - 1 + 1)%Z with (n - 1)%Z by lia. replace (r + 1)%Z with n by lia. replace (0 + 1)%Z with (n - 1)%Z by lia. exact E2.
           ++ replace (r + 1 >=? n)%Z with true by lia. replace (r - 1 + 1)%Z with (n - 1)%Z by lia. replace (2 * n - 2 - (r + 1) + 1)%Z with (n - 1)%Z by lia. replace (r + 1)%Z with n by lia. exact E2.
        -- replace (r =? 2 * n - 2 - 1)%Z with false by lia. replace (r + 1 >=? n)%Z with false by lia. replace (r - 1 + 1)%Z with (r + 1 - 1)%Z by lia. apply I. lia.
Qed.
