(* Chords and angles; the greedy choice of pairs. *)
From Coq Require Import Reals Lra Lia List Bool Arith Permutation Sorted.
From Verif Require Import RotSpec RotModel RotLemmas XmaSpec XmaModel.
Import ListNotations.
Open Scope R_scope.
Ltac Zify.zify_post_hook ::= idtac.

Lemma dist2_sumsq p q : dist2 p q = sumsq p q.
Proof. revert q. induction p as [|a p IH]; intros [|b q]; cbn [dist2 sumsq]; try rewrite IH; reflexivity. Qed.
Lemma sumsq_pos p q : 0 <= sumsq p q.
Proof. revert q. induction p as [|a p IH]; intros [|b q]; cbn [sumsq]; try lra. specialize (IH q). pose proof (pow2_ge_0 (a - b)). lra. Qed.

(* ---- chords ---- *)
Definition three (v : vec) : list R := let '((x, y), z) := v in [x; y; z].
Lemma three_sumsq u v : dot u u = 1 -> dot v v = 1 -> sumsq (three u) (three v) = 2 - 2 * dot u v.
Proof. destruct u as [[a b] c], v as [[d e] f]. unfold dot. cbn [three sumsq fst snd]. intros H K. nra. Qed.
Lemma dot_range u v : dot u u = 1 -> dot v v = 1 -> -1 <= dot u v <= 1.
Proof.
  intros H K. pose proof (three_sumsq u v H K) as A. pose proof (sumsq_pos (three u) (three v)) as P.
  assert (Q : 0 <= 2 + 2 * dot u v).
  { destruct u as [[a b] c], v as [[d e] f]. unfold dot in *. cbn [fst snd] in *. pose proof (Rle_0_sqr (a + d)). pose proof (Rle_0_sqr (b + e)). pose proof (Rle_0_sqr (c + f)). unfold Rsqr in *. nra. }
  lra.
Qed.
Lemma chord_le d e : 0 <= d <= PI -> 0 <= e <= PI -> (2 - 2 * cos d <= 2 - 2 * cos e <-> d <= e).
Proof.
  intros D E. split; intros H.
  - destruct (Rle_lt_dec d e) as [L|L]; [exact L|]. exfalso. pose proof (cos_decreasing_1 e d ltac:(lra) ltac:(lra) ltac:(lra) ltac:(lra) L). lra.
  - assert (cos e <= cos d); [|lra]. destruct H as [H|H]; [|subst; lra]. left. apply cos_decreasing_1; lra.
Qed.
Lemma chord_sq r : ang2chord r ^ 2 = 2 - 2 * cos r.
Proof. unfold ang2chord. replace (cos r) with (cos (2 * (r / 2))) by (f_equal; field). rewrite cos_2a_sin. ring. Qed.
Lemma chord_pos r : 0 <= r <= PI -> 0 <= ang2chord r.
Proof. intros H. unfold ang2chord. pose proof (sin_ge_0 (r / 2) ltac:(lra) ltac:(lra)). lra. Qed.
Lemma sqrt_le_sq a r : 0 <= a -> 0 <= r -> (sqrt a <= r <-> a <= r ^ 2).
Proof.
  intros A R. split; intros H.
  - rewrite <- (sqrt_sqrt a A). pose proof (sqrt_pos a). nra.
  - rewrite <- (sqrt_pow2 r R). apply sqrt_le_1_alt, H.
Qed.

(* ---- positions as the code reads them ---- *)
Definition zen (c : coords) : bool := match c with Phitheta => true | _ => false end.
Lemma trans_two c p : c = Radec \/ c = Phitheta -> length p = 2%nat -> exists a b, p = [a; b] /\ trans c p = Some (three (dir (zen c) (a, b))).
Proof.
  intros C L. destruct p as [|a [|b [|]]]; try discriminate. exists a, b. split; [reflexivity|]. destruct C; subst c; cbn [trans zen]; rewrite ang2rect_dir; destruct (dir _ _) as [[x y] z]; reflexivity.
Qed.
Lemma trans_all_spec c l n : (c = Cartesian \/ (c = Radec \/ c = Phitheta) /\ n = 2%nat) -> Forall (fun p => length p = n) l ->
  exists l', trans_all c l = Some l' /\ length l' = length l /\ forall i p, nth_error l i = Some p -> exists q, trans c p = Some q /\ nth_error l' i = Some q.
Proof.
  intros C. induction l as [|p l IH]; intros F.
  - exists []. split; [reflexivity|]. split; [reflexivity|]. intros [|i] p H; discriminate.
  - pose proof (Forall_inv F) as Lp. apply Forall_inv_tail in F. destruct (IH F) as (l' & E & L & N).
    assert (T : exists q, trans c p = Some q).
    { destruct C as [->|[C ->]]; [exists p; destruct p; reflexivity|]. destruct (trans_two c p C Lp) as (a & b & _ & T). eexists. exact T. }
    destruct T as [q T]. exists (q :: l'). cbn [trans_all]. rewrite T, E. split; [reflexivity|]. split; [cbn; congruence|].
    intros [|i] p' H; cbn [nth_error] in *.
    + exists q. split; [congruence|reflexivity].
    + apply N, H.
Qed.
Definition rd (c : coords) : reading := match c with Radec => Lonlat | Phitheta => Lonpol | _ => Space end.
Lemma trans_dist c p q p' q' : c <> Auto -> trans c p = Some p' -> trans c q = Some q' ->
  distance (rd c) p q = (match c with Cartesian => sqrt (sumsq p' q') | _ => acos (1 - sumsq p' q' / 2) end) /\ (c <> Cartesian -> 0 <= sumsq p' q' <= 4).
Proof.
  intros N P Q. destruct c; [congruence| | |].
  - destruct p as [|a [|b [|]]]; try discriminate. destruct q as [|c [|d [|]]]; try discriminate. cbn [trans] in P, Q. rewrite ang2rect_dir in P, Q.
    pose proof (dir_unit false (a, b)) as U. pose proof (dir_unit false (c, d)) as V. cbn [rd distance angle].
    assert (E : sumsq p' q' = 2 - 2 * dot (dir false (a, b)) (dir false (c, d))).
    { rewrite <- three_sumsq by assumption. destruct (dir false (a, b)) as [[x y] z], (dir false (c, d)) as [[x' y'] z']. injection P as <-. injection Q as <-. reflexivity. }
    split; [f_equal; rewrite E; field|]. intros _. rewrite E. pose proof (dot_range _ _ U V). lra.
  - destruct p as [|a [|b [|]]]; try discriminate. destruct q as [|c [|d [|]]]; try discriminate. cbn [trans] in P, Q. rewrite ang2rect_dir in P, Q.
    pose proof (dir_unit true (a, b)) as U. pose proof (dir_unit true (c, d)) as V. cbn [rd distance angle].
    assert (E : sumsq p' q' = 2 - 2 * dot (dir true (a, b)) (dir true (c, d))).
    { rewrite <- three_sumsq by assumption. destruct (dir true (a, b)) as [[x y] z], (dir true (c, d)) as [[x' y'] z']. injection P as <-. injection Q as <-. reflexivity. }
    split; [f_equal; rewrite E; field|]. intros _. rewrite E. pose proof (dot_range _ _ U V). lra.
  - assert (p' = p) by (destruct p; cbn in P; congruence). assert (q' = q) by (destruct q; cbn in Q; congruence). subst. split; [reflexivity|congruence].
Qed.
Lemma trans_within c p q p' q' rmax : c <> Auto -> trans c p = Some p' -> trans c q = Some q' -> 0 <= rmax -> (c <> Cartesian -> rmax <= PI) ->
  (eucl p' q' <= reff c rmax <-> distance (rd c) p q <= rmax).
Proof.
  intros N P Q R0 RP. destruct (trans_dist c p q p' q' N P Q) as [E B]. rewrite E. unfold eucl. assert (C : c = Cartesian \/ c <> Cartesian) by (destruct c; auto; right; discriminate).
  destruct C as [->|C]; [reflexivity|]. specialize (B C). specialize (RP C).
  assert (RE : reff c rmax = ang2chord rmax) by (destruct c; (reflexivity || congruence)). assert (ME : (match c with Cartesian => sqrt (sumsq p' q') | _ => acos (1 - sumsq p' q' / 2) end) = acos (1 - sumsq p' q' / 2)) by (destruct c; (reflexivity || congruence)).
  rewrite RE, ME. rewrite sqrt_le_sq by (apply sumsq_pos || (apply chord_pos; lra)). rewrite chord_sq. set (t := sumsq p' q') in *.
  replace t with (2 - 2 * cos (acos (1 - t / 2))) at 1 by (rewrite cos_acos by lra; field). apply chord_le; [apply acos_bound|lra].
Qed.
Lemma trans_order c p q p' q' u v u' v' : c <> Auto -> trans c p = Some p' -> trans c q = Some q' -> trans c u = Some u' -> trans c v = Some v' ->
  sumsq p' q' <= sumsq u' v' -> distance (rd c) p q <= distance (rd c) u v.
Proof.
  intros N P Q U V H. destruct (trans_dist c p q p' q' N P Q) as [E B]. destruct (trans_dist c u v u' v' N U V) as [E2 B2]. rewrite E, E2.
  assert (C : c = Cartesian \/ c <> Cartesian) by (destruct c; auto; right; discriminate). destruct C as [->|C]; [apply sqrt_le_1_alt, H|].
  specialize (B C). specialize (B2 C). assert (A : acos (1 - sumsq p' q' / 2) <= acos (1 - sumsq u' v' / 2)).
  { apply chord_le; [apply acos_bound|apply acos_bound|]. rewrite !cos_acos by lra. lra. }
  destruct c; try exact A; congruence.
Qed.
Lemma normalize_rd c n : normalize c n <> Auto /\ rd (normalize c n) = reading_of c n.
Proof. destruct c; cbn [normalize]; try (split; [discriminate|reflexivity]). destruct n as [|[|[|n]]]; cbn; split; (discriminate || reflexivity). Qed.

(* ---- the list of pairs ---- *)
Lemma enumerate_In k groups i j : In (i, j) (enumerate_from k groups) <-> exists g, nth_error groups (i - k) = Some g /\ (k <= i)%nat /\ In j g.
Proof.
  revert k. induction groups as [|g r IH]; intros k; cbn [enumerate_from].
  - split; [intros []|]. intros (g & H & _). destruct (i - k)%nat; discriminate.
  - rewrite in_app_iff, in_map_iff, IH. split.
    + intros [(j' & E & H)|(g' & H & L & J)].
      * assert (k = i) by congruence. assert (j' = j) by congruence. subst. exists g. rewrite Nat.sub_diag. auto.
      * exists g'. replace (i - k)%nat with (S (i - S k)) by lia. cbn [nth_error]. split; [exact H|]. split; [lia|exact J].
    + intros (g' & H & L & J). destruct (Nat.eq_dec i k) as [->|D].
      * left. rewrite Nat.sub_diag in H. cbn in H. exists j. split; [reflexivity|]. congruence.
      * right. exists g'. replace (i - k)%nat with (S (i - S k)) in H by lia. cbn [nth_error] in H. split; [exact H|]. split; [lia|exact J].
Qed.
Lemma NoDup_app2 {A} (a b : list A) : NoDup a -> NoDup b -> (forall x, In x a -> ~ In x b) -> NoDup (a ++ b).
Proof.
  intros HA HB D. induction HA as [|x l N HA IH]; cbn [app]; [exact HB|]. constructor.
  - rewrite in_app_iff. intros [H|H]; [apply N, H|]. apply (D x); [left; reflexivity|exact H].
  - apply IH. intros y H. apply D. right. exact H.
Qed.
Lemma enumerate_NoDup k groups : Forall (@NoDup nat) groups -> NoDup (enumerate_from k groups).
Proof.
  revert k. induction groups as [|g r IH]; intros k F; cbn [enumerate_from]; [constructor|].
  pose proof (Forall_inv F) as G. apply Forall_inv_tail in F. apply NoDup_app2.
  - apply FinFun.Injective_map_NoDup; [intros a b E; congruence|exact G].
  - apply IH, F.
  - intros [i j] H. apply in_map_iff in H as (j' & E & _). intros K. apply enumerate_In in K as (g' & _ & L & _). assert (k = i) by congruence. lia.
Qed.
Definition lexle (p q : nat * nat) : Prop := (fst p < fst q)%nat \/ fst p = fst q /\ (snd p <= snd q)%nat.
Lemma enumerate_first k groups : StronglySorted (fun p q => (fst p <= fst q)%nat) (enumerate_from k groups).
Proof.
  revert k. induction groups as [|g r IH]; intros k; cbn [enumerate_from]; [constructor|].
  induction g as [|a g IG]; cbn [map app]; [apply IH|]. constructor; [exact IG|]. apply Forall_app. split.
  - apply Forall_forall. intros q H. apply in_map_iff in H as (j & <- & _). cbn. lia.
  - apply Forall_forall. intros [i j] H. apply enumerate_In in H as (_ & _ & L & _). cbn. lia.
Qed.
Lemma enumerate_lex k groups : Forall (StronglySorted lt) groups -> StronglySorted lexle (enumerate_from k groups).
Proof.
  revert k. induction groups as [|g r IH]; intros k F; cbn [enumerate_from]; [constructor|].
  pose proof (Forall_inv F) as G. apply Forall_inv_tail in F.
  induction G as [|a g SG IG LG]; cbn [map app]; [apply IH, F|]. constructor; [exact IG|]. apply Forall_app. split.
  - apply Forall_forall. intros q H. apply in_map_iff in H as (j & <- & H). apply (proj1 (Forall_forall _ _) LG) in H. right. cbn. lia.
  - apply Forall_forall. intros [i j] H. apply enumerate_In in H as (_ & _ & L & _). left. cbn. lia.
Qed.

(* ---- the greedy choice ---- *)
Lemma set_true_length d i : length (set_true d i) = length d.
Proof. unfold set_true. rewrite <- (firstn_skipn i d) at 3. rewrite !app_length. f_equal. destruct (skipn i d); reflexivity. Qed.
Lemma set_true_nth d i j : (i < length d)%nat -> nth j (set_true d i) false = if Nat.eqb j i then true else nth j d false.
Proof.
  revert i j. induction d as [|b d IH]; intros i j H; cbn [length] in H; [lia|]. unfold set_true in *. destruct i as [|i].
  - cbn [firstn skipn app]. destruct j; reflexivity.
  - cbn [firstn skipn app]. destruct j as [|j]; [reflexivity|]. cbn [nth Nat.eqb]. apply IH. lia.
Qed.
Definition share (p q : nat * nat) : Prop := fst p = fst q \/ snd p = snd q.
Definition inb (n1 n2 : nat) (p : nat * nat) : Prop := (fst p < n1)%nat /\ (snd p < n2)%nat.
Lemma keep_spec l : forall d1 d2, Forall (inb (length d1) (length d2)) l ->
  (forall p, In p (keep d1 d2 l) -> In p l /\ nth (fst p) d1 false = false /\ nth (snd p) d2 false = false) /\
  NoDup (map fst (keep d1 d2 l)) /\ NoDup (map snd (keep d1 d2 l)) /\
  (forall a p b, l = a ++ p :: b -> nth (fst p) d1 false = true \/ nth (snd p) d2 false = true \/ exists q, In q (a ++ [p]) /\ In q (keep d1 d2 l) /\ share q p).
Proof.
  induction l as [|[i j] l IH]; intros d1 d2 F.
  - cbn [keep map]. split; [intros p []|]. split; [constructor|]. split; [constructor|]. intros [|x a] p b E; discriminate.
  - pose proof (Forall_inv F) as [I J]. cbn [fst snd] in I, J. apply Forall_inv_tail in F. cbn [keep].
    destruct (nth i d1 false || nth j d2 false) eqn:E.
    + destruct (IH d1 d2 F) as (A & B & C & D). split; [intros p H; destruct (A p H) as (A1 & A2); split; [right; exact A1|exact A2]|]. split; [exact B|]. split; [exact C|].
      intros [|x a] p b E'; cbn [app] in E'.
      * assert (p = (i, j)) by congruence. subst p. cbn [fst snd]. apply orb_true_iff in E. tauto.
      * assert (E2 : l = a ++ p :: b) by congruence. destruct (D a p b E2) as [H|[H|(q & Q1 & Q2 & Q3)]]; auto. right. right. exists q. split; [right; exact Q1|]. auto.
    + apply orb_false_iff in E as [E1 E2]. destruct (IH (set_true d1 i) (set_true d2 j)) as (A & B & C & D); [rewrite !set_true_length; exact F|].
      assert (A' : forall p, In p (keep (set_true d1 i) (set_true d2 j) l) -> In p l /\ fst p <> i /\ snd p <> j /\ nth (fst p) d1 false = false /\ nth (snd p) d2 false = false).
      { intros p H. destruct (A p H) as (A1 & A2 & A3). rewrite set_true_nth in A2, A3 by assumption. destruct (Nat.eqb (fst p) i) eqn:K1; [discriminate|]. destruct (Nat.eqb (snd p) j) eqn:K2; [discriminate|].
        apply Nat.eqb_neq in K1. apply Nat.eqb_neq in K2. auto. }
      split; [|split; [|split]].
      * intros p [<-|H]; [split; [left; reflexivity|auto]|]. destruct (A' p H) as (A1 & _ & _ & A2). split; [right; exact A1|exact A2].
      * cbn [map fst]. constructor; [|exact B]. intros H. apply in_map_iff in H as (p & P & H). destruct (A' p H) as (_ & N & _). congruence.
      * cbn [map snd]. constructor; [|exact C]. intros H. apply in_map_iff in H as (p & P & H). destruct (A' p H) as (_ & _ & N & _). congruence.
      * intros [|x a] p b E'; cbn [app] in E'.
        -- assert (p = (i, j)) by congruence. subst p. right. right. exists (i, j). split; [left; reflexivity|]. split; [left; reflexivity|left; reflexivity].
        -- assert (x = (i, j)) by congruence. assert (E3 : l = a ++ p :: b) by congruence. subst x.
           destruct (D a p b E3) as [H|[H|(q & Q1 & Q2 & Q3)]].
           ++ rewrite set_true_nth in H by assumption. destruct (Nat.eqb (fst p) i) eqn:K; [|left; exact H]. apply Nat.eqb_eq in K. right. right. exists (i, j). split; [left; reflexivity|]. split; [left; reflexivity|left; cbn; congruence].
           ++ rewrite set_true_nth in H by assumption. destruct (Nat.eqb (snd p) j) eqn:K; [|right; left; exact H]. apply Nat.eqb_eq in K. right. right. exists (i, j). split; [left; reflexivity|]. split; [left; reflexivity|right; cbn; congruence].
           ++ right. right. exists q. split; [right; exact Q1|]. split; [right; exact Q2|exact Q3].
Qed.
Lemma keep_greedy (Rk : nat * nat -> nat * nat -> Prop) n1 n2 l : (forall p, Rk p p) -> Forall (inb n1 n2) l -> StronglySorted Rk l ->
  let r := keep (repeat false n1) (repeat false n2) l in
  (forall p, In p r -> In p l) /\ NoDup (map fst r) /\ NoDup (map snd r) /\ (forall p, In p l -> exists q, In q r /\ share q p /\ Rk q p).
Proof.
  intros RR F SS r. destruct (keep_spec l (repeat false n1) (repeat false n2)) as (A & B & C & D); [rewrite !repeat_length; exact F|].
  split; [intros p H; apply (A p H)|]. split; [exact B|]. split; [exact C|]. intros p H. apply in_split in H as (a & b & E).
  assert (NF : forall n k, nth k (repeat false n) false = false) by (intros n k; clear; revert k; induction n as [|n IH]; intros [|k]; cbn; auto).
  destruct (D a p b E) as [H|[H|(q & Q1 & Q2 & Q3)]]; try (rewrite NF in H; discriminate). exists q. split; [exact Q2|]. split; [exact Q3|].
  clear - Q1 E SS RR. subst l. apply in_app_or in Q1 as [Q|[<-|[]]]; [|apply RR]. induction a as [|x a IH]; [destruct Q|]. cbn [app] in SS. apply StronglySorted_inv in SS as [S1 S2].
  destruct Q as [<-|Q]; [|apply IH; assumption]. apply (proj1 (Forall_forall _ _) S2). apply in_or_app. right. left. reflexivity.
Qed.
