From Coq Require Import Qround Qabs Lqa.
From Verif Require Import Base RangeSpec RangeLemmas SplitModel SplitLemmas FindLemmas WindSpec WindModel.

Lemma qmod_range a p : (0 < p)%Q -> within 0 p (qmod a p).
Proof.
  intros Hp. unfold within, qmod. set (f := inject_Z (Qfloor (a / p))).
  assert (H1 : (f <= a / p)%Q) by apply Qfloor_le.
  assert (H2 : (a / p < f + 1)%Q).
  { pose proof (Qlt_floor (a / p)) as H. rewrite inject_Z_plus in H. exact H. }
  assert (E : (a == (a / p) * p)%Q) by (field; lra).
  assert (H3 : (f * p <= (a / p) * p)%Q) by (apply Qmult_le_compat_r; lra).
  assert (H4 : ((a / p) * p < (f + 1) * p)%Q) by (apply Qmult_lt_compat_r; lra).
  split; lra.
Qed.

Lemma qmod_same a p : same_angle p a (qmod a p).
Proof. exists (- Qfloor (a / p))%Z. unfold qmod. rewrite inject_Z_opp. ring. Qed.

Lemma rewind_spec ref p a : (0 < p)%Q ->
  same_angle p a (rewind ref p a) /\ within (ref - p / 2) (ref + p / 2) (rewind ref p a).
Proof.
  intros Hp. unfold rewind. split.
  - destruct (qmod_same (a - ref + p / 2) p) as [k E]. exists k. rewrite E. ring.
  - destruct (qmod_range (a - ref + p / 2) p Hp) as [H1 H2]. assert (E : (p / 2 + p / 2 == p)%Q) by field. split; lra.
Qed.

Lemma inject_lt_lower k : (inject_Z k < 1)%Q -> (inject_Z k > -1)%Q -> k = 0.
Proof.
  intros H1 H2. change 1%Q with (inject_Z 1) in H1. change (-1)%Q with (inject_Z (-1)) in H2.
  rewrite <- Zlt_Qlt in *. lia.
Qed.

Lemma same_angle_unique p lo x y : (0 < p)%Q -> same_angle p x y -> within lo (lo + p) x -> within lo (lo + p) y -> (x == y)%Q.
Proof.
  intros Hp [k E] [H1 H2] [H3 H4]. set (q := inject_Z k) in *.
  assert (Hk : k = 0).
  { destruct (Z.lt_trichotomy k 0) as [H|[H|H]]; [|exact H|]; exfalso.
    - assert (Hq : (q <= -1)%Q) by (unfold q; change (-1)%Q with (inject_Z (-1)); rewrite <- Zle_Qle; lia).
      assert ((q * p <= (-1) * p)%Q) by (apply Qmult_le_compat_r; lra). lra.
    - assert (Hq : (1 <= q)%Q) by (unfold q; change 1%Q with (inject_Z 1); rewrite <- Zle_Qle; lia).
      assert ((1 * p <= q * p)%Q) by (apply Qmult_le_compat_r; lra). lra. }
  subst k. unfold q in E. change (inject_Z 0) with 0%Q in E. lra.
Qed.

Lemma qround_close x : (Qabs (x - inject_Z (qround x)) <= 1 # 2)%Q.
Proof.
  unfold qround. set (f := Qfloor (x + (1 # 2))).
  assert (H1 : (inject_Z f <= x + (1 # 2))%Q) by apply Qfloor_le.
  assert (H2 : (x + (1 # 2) < inject_Z f + 1)%Q).
  { pose proof (Qlt_floor (x + (1 # 2))) as H. rewrite inject_Z_plus in H. exact H. }
  apply Qabs_Qle_condition.
  destruct (Qeq_bool (inject_Z f) (x + (1 # 2)) && Z.odd f) eqn:E.
  - apply andb_true_iff in E as [E _]. apply Qeq_bool_iff in E.
    replace (f - 1) with (f + -1) by lia. rewrite inject_Z_plus. change (inject_Z (-1)) with (-1)%Q. split; lra.
  - split; lra.
Qed.

Lemma step_close p d : (0 < p)%Q -> (Qabs (d - inject_Z (qround (d / p)) * p) <= p / 2)%Q.
Proof.
  intros Hp. pose proof (qround_close (d / p)) as H. apply Qabs_Qle_condition in H as [H1 H2].
  set (r := inject_Z (qround (d / p))) in *. assert (E : (d == (d / p) * p)%Q) by (field; lra).
  assert (H3 : ((d / p - r) * p <= (1 # 2) * p)%Q) by (apply Qmult_le_compat_r; lra).
  assert (H4 : (- (1 # 2) * p <= (d / p - r) * p)%Q) by (apply Qmult_le_compat_r; lra).
  assert (E2 : (p / 2 == (1 # 2) * p)%Q) by field.
  apply Qabs_Qle_condition. split; lra.
Qed.

(** cumulative sums *)
Lemma cumsum_from_nth l : forall a i, (i < length l)%nat -> nth_error (cumsum_from a l) i = Some (a + zsum (firstn (S i) l)).
Proof.
  induction l as [|x l IH]; intros a i H; [cbn in H; lia|]. cbn [cumsum_from]. destruct i as [|i]; cbn [nth_error].
  - cbn. f_equal. lia.
  - rewrite IH by (cbn in H; lia). cbn [firstn zsum]. f_equal. lia.
Qed.
Lemma cumsum_from_length l : forall a, length (cumsum_from a l) = length l.
Proof. induction l as [|x l IH]; intros a; cbn; auto. Qed.
Lemma cumsum_length l : length (cumsum l) = length l.
Proof. apply cumsum_from_length. Qed.
Lemma cumsum_nth l i : (i < length l)%nat -> nth_error (cumsum l) i = Some (zsum (firstn (S i) l)).
Proof. intros H. unfold cumsum. now rewrite cumsum_from_nth. Qed.

Lemma map2_nth {A B C} (f : A -> B -> C) l : forall m i, nth_error (map2 f l m) i =
  match nth_error l i, nth_error m i with Some x, Some y => Some (f x y) | _, _ => None end.
Proof.
  induction l as [|x l IH]; intros [|y m] [|i]; cbn [map2 nth_error]; try reflexivity.
  - now destruct (nth_error l i).
  - apply IH.
Qed.
Lemma map2_length {A B C} (f : A -> B -> C) l : forall m, length (map2 f l m) = Nat.min (length l) (length m).
Proof. induction l as [|x l IH]; intros [|y m]; cbn; auto. Qed.

Lemma steps_length p flat : length (steps p flat) = (length flat - 1)%nat.
Proof. induction flat as [|x [|y t] IH]; [reflexivity..|]. cbn [steps length] in *. rewrite IH. lia. Qed.

Lemma steps_nth p flat : forall i x y, nth_error flat i = Some x -> nth_error flat (S i) = Some y ->
  nth_error (steps p flat) i = Some (qround ((y - x) / p)).
Proof.
  induction flat as [|a [|b t] IH]; intros i x y Hi Hj.
  - destruct i; discriminate.
  - destruct i as [|i]; cbn in Hj; [discriminate|destruct i; discriminate].
  - cbn [steps]. destruct i as [|i]; cbn [nth_error] in *.
    + injection Hi as ->. injection Hj as ->. reflexivity.
    + now apply IH.
Qed.

Lemma zsum_rev l : zsum (rev l) = zsum l.
Proof. apply zsum_perm, Permutation_sym, Permutation_rev. Qed.

Lemma zsum_firstn_skipn (l : list Z) j : zsum l = zsum (firstn j l) + zsum (skipn j l).
Proof. rewrite <- zsum_app, firstn_skipn. reflexivity. Qed.

Lemma firstn_add {A} (l : list A) r m : firstn (r + m) l = firstn r l ++ firstn m (skipn r l).
Proof. revert l; induction r as [|r IH]; intros [|x l]; cbn; try reflexivity; [now rewrite firstn_nil|]. now rewrite IH. Qed.

Lemma zsum_firstn_S l i : forall s, nth_error l i = Some s -> zsum (firstn (S i) l) = zsum (firstn i l) + s.
Proof.
  intros s H. replace (S i) with (i + 1)%nat by lia. rewrite firstn_add, zsum_app. f_equal.
  revert i H; induction l as [|x l IH]; intros [|i] H; try discriminate; cbn in *; [injection H as ->; lia|now apply IH].
Qed.

Lemma nth_error_rev_check {A} (l : list A) i : (i < length l)%nat -> nth_error (rev l) i = nth_error l (length l - S i).
Proof.
  intros H. destruct (nth_error l (length l - S i)) as [x|] eqn:E.
  - assert (d := x). rewrite (nth_error_nth' _ d) by (rewrite rev_length; lia). rewrite rev_nth by lia.
    f_equal. now apply nth_error_nth.
  - apply nth_error_None in E. lia.
Qed.

Definition ref_index (mode : refmode) (n : nat) : nat := match mode with RLeft => 0 | RMiddle => Nat.div n 2 end.

(* both modes: out[i] = flat[i] - (P(i) - P(ref)) * p, where P sums the steps *)
Lemma nth_error_skipn' {A} n : forall (l : list A) i, nth_error (skipn n l) i = nth_error l (n + i).
Proof. induction n as [|n IH]; intros [|x l] i; cbn; try reflexivity; [now destruct i|apply IH]. Qed.
Lemma nth_error_firstn' {A} n : forall (l : list A) i, nth_error (firstn n l) i = if Nat.ltb i n then nth_error l i else None.
Proof.
  induction n as [|n IH]; intros [|x l] i; cbn [firstn].
  - destruct i; reflexivity.
  - destruct i; reflexivity.
  - destruct i; cbn [nth_error]; [reflexivity|]. now destruct (Nat.ltb (S i) (S n)).
  - destruct i as [|i]; cbn [nth_error]; [reflexivity|]. rewrite IH. reflexivity.
Qed.

Lemma unwind_flat_length mode p flat : length (unwind_flat mode p flat) = length flat.
Proof.
  destruct mode; unfold unwind_flat.
  - rewrite app_length, map2_length, cumsum_length, steps_length, firstn_length, skipn_length. lia.
  - rewrite !app_length, !map2_length, map_length, rev_length, !cumsum_length, rev_length, !firstn_length, !skipn_length, steps_length.
    pose proof (Nat.div_lt_upper_bound (length flat) 2 (length flat)). destruct (length flat) as [|[|n]] eqn:E; [reflexivity|reflexivity|].
    assert (Nat.div (S (S n)) 2 <= S n)%nat by (apply Nat.lt_succ_r, Nat.div_lt; lia). lia.
Qed.

Lemma unwind_flat_nth mode p flat i x : nth_error flat i = Some x ->
  let P k := zsum (firstn k (steps p flat)) in
  exists y, nth_error (unwind_flat mode p flat) i = Some y /\ (y == x - inject_Z (P i - P (ref_index mode (length flat))) * p)%Q.
Proof.
  intros Hi P. assert (Hlen : (i < length flat)%nat) by (apply nth_error_Some; congruence).
  pose proof (steps_length p flat) as Hsl.
  destruct mode; unfold unwind_flat, ref_index.
  - unfold P at 2. cbn [firstn zsum]. destruct i as [|i].
    + destruct flat as [|x0 t]; [discriminate|]. cbn in Hi. injection Hi as ->. exists x. split; [reflexivity|].
      unfold P. cbn [firstn zsum]. change (inject_Z (0 - 0)) with 0%Q. ring.
    + destruct flat as [|x0 t]; [discriminate|]. cbn [firstn skipn app nth_error]. rewrite map2_nth. cbn [nth_error] in Hi. rewrite Hi.
      cbn [length] in *. rewrite cumsum_nth by lia. eexists. split; [reflexivity|]. unfold P.
      replace (zsum (firstn (S i) (steps p (x0 :: t))) - 0) with (zsum (firstn (S i) (steps p (x0 :: t)))) by lia. reflexivity.
  - set (r := Nat.div (length flat) 2) in *.
    assert (Hr : (r < length flat)%nat) by (unfold r; apply Nat.div_lt; lia).
    set (L := steps p flat) in *.
    assert (HL1 : length (map2 (fun v c => (v - inject_Z c * p)%Q) (firstn r flat) (map Z.opp (rev (cumsum (rev (firstn r L)))))) = r).
    { rewrite map2_length, map_length, rev_length, cumsum_length, rev_length, !firstn_length. lia. }
    destruct (Nat.lt_ge_cases i r) as [H|H].
    + rewrite nth_error_app1 by lia. rewrite map2_nth, nth_error_firstn', nth_error_map.
      destruct (Nat.ltb_spec i r) as [_|]; [|lia]. rewrite Hi.
      assert (E : nth_error (rev (cumsum (rev (firstn r L)))) i = Some (P r - P i)).
      { rewrite nth_error_rev_check by (rewrite cumsum_length, rev_length, firstn_length; lia).
        rewrite cumsum_length, rev_length, firstn_length. replace (Nat.min r (length L)) with r by lia.
        rewrite cumsum_nth by (rewrite rev_length, firstn_length; lia).
        f_equal. rewrite firstn_rev, zsum_rev, firstn_length.
        replace (Nat.min r (length L) - S (r - S i))%nat with i by lia.
        unfold P. fold L. pose proof (zsum_firstn_skipn (firstn r L) i) as Hs. rewrite firstn_firstn in Hs.
        replace (Nat.min i r) with i in Hs by lia. lia. }
      rewrite E. cbn [option_map]. eexists. split; [reflexivity|]. cbn beta. replace (- (P r - P i)) with (P i - P r) by lia. reflexivity.
    + rewrite nth_error_app2 by lia. rewrite HL1.
      assert (HL2 : length (firstn 1 (skipn r flat)) = 1%nat) by (rewrite firstn_length, skipn_length; lia).
      destruct (Nat.eq_dec i r) as [->|Hne].
      * rewrite nth_error_app1 by lia. rewrite Nat.sub_diag, nth_error_firstn', nth_error_skipn'. cbn [Nat.ltb Nat.leb].
        rewrite Nat.add_0_r, Hi. exists x. split; [reflexivity|]. rewrite Z.sub_diag. change (inject_Z 0) with 0%Q. ring.
      * rewrite nth_error_app2 by lia. rewrite HL2, map2_nth, nth_error_skipn'.
        replace (S r + (i - r - 1))%nat with i by lia. rewrite Hi.
        rewrite cumsum_nth by (rewrite skipn_length; lia). eexists. split; [reflexivity|]. cbn beta.
        replace (zsum (firstn (S (i - r - 1)) (skipn r L))) with (P i - P r); [reflexivity|].
        unfold P. fold L. replace i with (r + S (i - r - 1))%nat at 1 by lia. rewrite firstn_add, zsum_app. lia.
Qed.

Lemma unwind_flat_spec mode p flat : (0 < p)%Q ->
  let out := unwind_flat mode p flat in
  length out = length flat /\
  (forall i x, nth_error flat i = Some x -> exists y, nth_error out i = Some y /\ same_angle p x y) /\
  no_jump (p / 2) out /\
  (forall x, nth_error flat (ref_index mode (length flat)) = Some x ->
     exists y, nth_error out (ref_index mode (length flat)) = Some y /\ (y == x)%Q).
Proof.
  intros Hp out. split; [apply unwind_flat_length|]. split; [|split].
  - intros i x Hx. destruct (unwind_flat_nth mode p flat i x Hx) as (y & Hy & E). exists y. split; [exact Hy|].
    match type of E with context [inject_Z ?z] => exists (- z)%Z; rewrite E, inject_Z_opp; ring end.
  - intros i a b Ha Hb. assert (Hib : (S i < length flat)%nat).
    { rewrite <- (unwind_flat_length mode p flat). apply nth_error_Some. unfold out in Hb. congruence. }
    destruct (nth_error flat i) as [x|] eqn:Ex; [|apply nth_error_None in Ex; lia].
    destruct (nth_error flat (S i)) as [y|] eqn:Ey; [|apply nth_error_None in Ey; lia].
    destruct (unwind_flat_nth mode p flat i x Ex) as (a' & Ha' & Ea). destruct (unwind_flat_nth mode p flat (S i) y Ey) as (b' & Hb' & Eb).
    unfold out in Ha, Hb. rewrite Ha in Ha'. injection Ha' as <-. rewrite Hb in Hb'. injection Hb' as <-.
    pose proof (steps_nth p flat i x y Ex Ey) as Hs. rewrite (zsum_firstn_S _ _ _ Hs) in Eb.
    rewrite Ea, Eb.
    set (P := zsum (firstn i (steps p flat))) in *. set (R := zsum (firstn (ref_index mode (length flat)) (steps p flat))) in *.
    set (s := qround ((y - x) / p)) in *.
    assert (E : (y - inject_Z (P + s - R) * p - (x - inject_Z (P - R) * p) == (y - x) - inject_Z s * p)%Q).
    { replace (P + s - R) with ((P - R) + s) by lia. rewrite inject_Z_plus. ring. }
    rewrite E. apply step_close. exact Hp.
  - intros x Hx. destruct (unwind_flat_nth mode p flat _ x Hx) as (y & Hy & E). exists y. split; [exact Hy|].
    rewrite E, Z.sub_diag. change (inject_Z 0) with 0%Q. ring.
Qed.

Lemma same_angle_trans p a b c : same_angle p a b -> same_angle p b c -> same_angle p a c.
Proof. intros [k E] [l F]. exists (k + l). rewrite F, E, inject_Z_plus. ring. Qed.

Lemma unwind_spec mode ref p a : (0 < p)%Q ->
  let out := unwind mode ref p a in
  length out = length a /\
  (forall i x, nth_error a i = Some x -> exists y, nth_error out i = Some y /\ same_angle p x y) /\
  no_jump (p / 2) out /\
  (forall i y, i = match mode with RLeft => 0%nat | RMiddle => Nat.div (length a) 2 end ->
     nth_error out i = Some y -> within (ref - p / 2) (ref + p / 2) y).
Proof.
  intros Hp out. unfold unwind in out. destruct (unwind_flat_spec mode p (map (rewind ref p) a) Hp) as (A & B & C & D).
  rewrite map_length in *. split; [exact A|]. split; [|split; [exact C|]].
  - intros i x Hx. destruct (B i (rewind ref p x)) as (y & Hy & E); [now rewrite nth_error_map, Hx|].
    exists y. split; [exact Hy|]. eapply same_angle_trans; [|exact E]. now apply rewind_spec.
  - intros i y -> Hy. assert (Hlt : (ref_index mode (length a) < length a)%nat).
    { enough (ref_index mode (length a) < length out)%nat by (unfold out in *; lia). apply nth_error_Some. unfold ref_index. congruence. }
    destruct (nth_error a (ref_index mode (length a))) as [x|] eqn:Ex; [|apply nth_error_None in Ex; lia].
    destruct (D (rewind ref p x)) as (y' & Hy' & E); [now rewrite nth_error_map, Ex|].
    unfold out in Hy. fold (ref_index mode (length a)) in Hy. rewrite Hy in Hy'. injection Hy' as <-.
    destruct (rewind_spec ref p x Hp) as [_ [G1 G2]]. split; lra.
Qed.

Lemma unwind_nan_spec mode ref p a : (0 < p)%Q ->
  let out := unwind_nan mode ref p a in
  length out = length a /\
  (forall i, nth_error a i = Some None -> nth_error out i = Some None) /\
  (forall i x, nth_error a i = Some (Some x) -> exists y, nth_error out i = Some (Some y) /\ same_angle p x y) /\
  (forall i x y, nth_error out i = Some (Some x) -> nth_error out (S i) = Some (Some y) -> (Qabs (y - x) <= p / 2)%Q).
Proof.
  intros Hp out. unfold out, unwind_nan. set (flat := map _ a).
  destruct (unwind_flat_spec mode p flat Hp) as (A & B & C & _).
  assert (Hfl : length flat = length a) by apply map_length.
  split; [rewrite map2_length; lia|]. split; [|split].
  - intros i Hi. rewrite map2_nth, Hi. destruct (nth_error (unwind_flat mode p flat) i) eqn:E; [reflexivity|].
    apply nth_error_None in E. assert (i < length a)%nat by (apply nth_error_Some; congruence). lia.
  - intros i x Hi. rewrite map2_nth, Hi. destruct (B i (rewind ref p x)) as (y & Hy & E); [unfold flat; now rewrite nth_error_map, Hi|].
    rewrite Hy. exists y. split; [reflexivity|]. eapply same_angle_trans; [|exact E]. now apply rewind_spec.
  - intros i x y Hx Hy. rewrite map2_nth in Hx, Hy.
    destruct (nth_error a i) as [[?|]|]; try discriminate; destruct (nth_error (unwind_flat mode p flat) i) eqn:E1; try discriminate.
    destruct (nth_error a (S i)) as [[?|]|]; try discriminate; destruct (nth_error (unwind_flat mode p flat) (S i)) eqn:E2; try discriminate.
    injection Hx as <-. injection Hy as <-. eapply C; eauto.
Qed.

(* an already continuous sequence that starts inside the reference period is returned unchanged *)
Lemma rewind_id ref p a : (0 < p)%Q -> within (ref - p / 2) (ref + p / 2) a -> (rewind ref p a == a)%Q.
Proof.
  intros Hp Ha. destruct (rewind_spec ref p a Hp) as [Hs Hw].
  symmetry. apply (same_angle_unique p (ref - p / 2)); auto.
  - assert (E : (ref - p / 2 + p == ref + p / 2)%Q) by field. destruct Ha. split; lra.
  - assert (E : (ref - p / 2 + p == ref + p / 2)%Q) by field. destruct Hw. split; lra.
Qed.

Lemma fast_rewind_spec ref p a : (0 < p)%Q -> within (ref - p) (ref + 2 * p) a ->
  same_angle p a (fast_rewind ref p a) /\ within ref (ref + p) (fast_rewind ref p a).
Proof.
  intros Hp [H1 H2]. unfold fast_rewind.
  destruct (Qle_bool p (a - ref)) eqn:E1.
  - apply Qle_bool_iff in E1. destruct (qltb_spec (a - ref) 0) as [E2|E2]; [lra|]. split.
    + exists (-1). change (inject_Z (-1)) with (-1)%Q. ring.
    + split; lra.
  - assert (E1' : (a - ref < p)%Q) by (apply Qnot_le_lt; intros H; apply Qle_bool_iff in H; congruence).
    destruct (qltb_spec (a - ref) 0) as [E2|E2]; split.
    + exists 1. change (inject_Z 1) with 1%Q. ring.
    + split; lra.
    + exists 0. change (inject_Z 0) with 0%Q. ring.
    + split; lra.
Qed.

(** repeat_filler *)
Lemma nth_error_concat_repeat {A} (d : list A) m : forall k, (k < m * length d)%nat -> nth_error (concat (repeat d m)) k = nth_error d (Nat.modulo k (length d)).
Proof.
  induction m as [|m IH]; intros k H; [lia|]. cbn [repeat concat]. destruct (Nat.lt_ge_cases k (length d)) as [Hk|Hk].
  - rewrite nth_error_app1 by exact Hk. now rewrite Nat.mod_small.
  - rewrite nth_error_app2 by exact Hk. rewrite IH by lia. f_equal.
    assert (E : k = (k - length d + 1 * length d)%nat) by lia. rewrite E at 2. rewrite Nat.mod_add by lia. reflexivity.
Qed.

Lemma repeat_filler_spec {A} (d : list A) n : d <> [] -> 0 < n ->
  exists r, repeat_filler d n = Some r /\ zlen r = n /\
    forall k, 0 <= k < n -> zget r k = let m := zlen d in let j := k mod (2 * m) in
      if j <? m then zget d j else zget d (2 * m - 1 - j).
Proof.
  intros Hd Hn. unfold repeat_filler. set (d2 := d ++ rev d).
  assert (Hlen : zlen d2 = 2 * zlen d) by (unfold d2, zlen; rewrite app_length, rev_length; lia).
  assert (Hpos : 0 < zlen d) by (destruct d; [congruence|rewrite zlen_cons; pose proof (zlen_nonneg d); lia]).
  destruct (zlen d2 =? 0) eqn:E0; [lia|]. set (nmul := (n + zlen d2 - 1) / zlen d2).
  assert (Hnm : 1 <= nmul) by (apply Z.div_le_lower_bound; lia).
  destruct (nmul <=? 0) eqn:E1; [lia|]. eexists. split; [reflexivity|].
  assert (Hbig : n <= nmul * zlen d2).
  { unfold nmul. pose proof (Z.div_mod (n + zlen d2 - 1) (zlen d2)). pose proof (Z.mod_pos_bound (n + zlen d2 - 1) (zlen d2)). lia. }
  assert (Hcl : length (concat (repeat d2 (Z.to_nat nmul))) = (Z.to_nat nmul * length d2)%nat).
  { clear. induction (Z.to_nat nmul) as [|m IH]; [reflexivity|]. cbn [repeat concat]. rewrite app_length, IH. lia. }
  split.
  - unfold zlen in *. rewrite firstn_length, Hcl. rewrite Nat.min_l; [lia|]. nia.
  - intros k Hk. cbv zeta. unfold zget at 1. destruct (k <? 0) eqn:Ek; [lia|].
    rewrite nth_error_firstn'. destruct (Nat.ltb_spec (Z.to_nat k) (Z.to_nat n)) as [_|]; [|lia].
    rewrite nth_error_concat_repeat by (unfold zlen in *; nia).
    rewrite <- zget_nth_error. replace (Z.of_nat (Nat.modulo (Z.to_nat k) (length d2))) with (k mod (2 * zlen d)).
    2:{ rewrite Nat2Z.inj_mod. rewrite <- Hlen. unfold zlen. f_equal. lia. }
    pose proof (Z.mod_pos_bound k (2 * zlen d)) as Hj. set (j := k mod (2 * zlen d)) in *.
    unfold d2. destruct (j <? zlen d) eqn:Ej.
    + rewrite zget_app1 by lia. reflexivity.
    + rewrite zget_app2 by lia. unfold zget. destruct (j - zlen d <? 0) eqn:E2; [lia|]. destruct (2 * zlen d - 1 - j <? 0) eqn:E3; [lia|].
      unfold zlen in *. rewrite nth_error_rev_check by lia. f_equal. lia.
Qed.

(** cumsplit *)
Lemma cumsum_from_sorted l : Forall (fun x => 0 <= x) l -> forall a, StronglySorted Z.le (cumsum_from a l) /\ Forall (fun x => a <= x) (cumsum_from a l).
Proof.
  induction 1 as [|x l Hx HF IH]; intros a; cbn [cumsum_from]; [split; constructor|].
  destruct (IH (a + x)) as [H1 H2]. split; constructor; auto; [lia|]. eapply Forall_impl; [|exact H2]. cbn. intros; lia.
Qed.

Lemma count_le_spec l c : StronglySorted Z.le l -> forall i x, nth_error l i = Some x ->
  (x <= c <-> Z.of_nat i < zlen (filter (fun s => s <=? c) l)).
Proof.
  induction 1 as [|y l HS IH HF]; intros i x Hi; [destruct i; discriminate|]. cbn [filter]. destruct (y <=? c) eqn:Ey.
  - rewrite zlen_cons. destruct i as [|i]; cbn [nth_error] in Hi.
    + injection Hi as <-. pose proof (zlen_nonneg (filter (fun s => s <=? c) l)). lia.
    + specialize (IH _ _ Hi). lia.
  - assert (E : filter (fun s => s <=? c) l = []).
    { clear -HF Ey. induction HF as [|z s Hz HF IH]; [reflexivity|]. cbn [filter]. destruct (z <=? c) eqn:E; [lia|]. exact IH. }
    rewrite E, zlen_nil. destruct i as [|i]; cbn [nth_error] in Hi.
    + injection Hi as <-. lia.
    + apply nth_error_In in Hi. rewrite Forall_forall in HF. specialize (HF _ Hi). lia.
Qed.

Lemma cumsplit_spec sizes caps : Forall (fun x => 0 <= x) sizes ->
  length (cumsplit sizes caps) = length caps /\
  forall i r, nth_error (cumsplit sizes caps) i = Some r ->
    0 <= r <= zlen sizes /\
    forall k, (k <= length sizes)%nat -> (zsum (firstn k sizes) <= zsum (firstn (S i) caps) \/ k = 0%nat <-> Z.of_nat k <= r).
Proof.
  intros HF. unfold cumsplit. split; [now rewrite map_length, cumsum_length|].
  intros i r Hi. rewrite nth_error_map in Hi. destruct (nth_error (cumsum caps) i) as [c|] eqn:Ec; [|discriminate].
  cbn in Hi. injection Hi as <-. assert (Hil : (i < length caps)%nat).
  { rewrite <- cumsum_length. apply nth_error_Some. congruence. }
  rewrite cumsum_nth in Ec by exact Hil. apply Some_inj in Ec. rewrite Ec.
  destruct (cumsum_from_sorted sizes HF 0) as [HS _]. fold (cumsum sizes) in HS.
  split.
  - pose proof (filter_length_le' (fun s => s <=? c) (cumsum sizes)). rewrite cumsum_length in H. unfold zlen. lia.
  - intros k Hk. destruct k as [|k].
    + pose proof (zlen_nonneg (filter (fun s => s <=? c) (cumsum sizes))). cbn. intuition lia.
    + pose proof (count_le_spec (cumsum sizes) c HS k (zsum (firstn (S k) sizes))) as G. rewrite cumsum_nth in G by lia.
      specialize (G eq_refl). intuition lia.
Qed.
