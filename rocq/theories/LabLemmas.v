From Coq Require Import QArith Qabs Sorting.Sorted Lqa.
From Verif Require Import Base LabSpec LabModel SplitModel FindModel FindSpec FindLemmas BlockSpec WcshLemmas IterLemmas.
Open Scope nat_scope.

(* ---- distances ---- *)
Lemma sqn (x : Q) : (0 <= x * x)%Q.
Proof. nra. Qed.
Lemma dist2_nonneg r s : (0 <= dist2 r s)%Q.
Proof. unfold dist2. induction (combine r s) as [|[a b] l IH]; cbn [map qsum fst snd]; [lra|]. pose proof (sqn (a - b)). lra. Qed.
Lemma dist2_first r s : r <> [] -> s <> [] -> ((first_col r - first_col s) * (first_col r - first_col s) <= dist2 r s)%Q.
Proof.
  destruct r as [|a r], s as [|b s]; try congruence. intros _ _. unfold first_col, dist2. cbn [nth combine map qsum fst snd].
  pose proof (dist2_nonneg r s) as H. unfold dist2 in H. lra.
Qed.
Lemma dist2_zero r s : length r = length s -> ((dist2 r s <= 0)%Q <-> row_eq r s).
Proof.
  revert s. induction r as [|a r IH]; intros [|b s] H; cbn in H; try lia; [split; [constructor|unfold dist2; cbn; lra]|].
  pose proof (dist2_nonneg r s) as P. unfold dist2 in *. cbn [combine map qsum fst snd]. unfold row_eq. split.
  - intros L. assert (a == b)%Q by nra. constructor; [exact H0|]. apply IH; [lia|]. nra.
  - intros E. inversion E; subst. assert (L : (qsum (map (fun p => (fst p - snd p) * (fst p - snd p))%Q (combine r s)) <= 0)%Q) by (apply IH; [lia|assumption]). assert ((a - b) * (a - b) == 0)%Q by (rewrite H3; ring). lra.
Qed.
Lemma dist2_sym r s : (dist2 r s == dist2 s r)%Q.
Proof. unfold dist2. revert s. induction r as [|a r IH]; intros [|b s]; cbn [combine map qsum fst snd]; try reflexivity. rewrite IH. ring. Qed.

Lemma SS_nth' {A} (R : A -> A -> Prop) (l : list A) d : StronglySorted R l -> forall i j, i < j -> j < length l -> R (nth i l d) (nth j l d).
Proof.
  induction 1 as [|x l HS IH HF]; intros i j Hij Hj; [cbn in Hj; lia|]. destruct j as [|j]; [lia|]. destruct i as [|i]; cbn in *.
  - rewrite Forall_forall in HF. apply HF, nth_In. lia.
  - apply IH; lia.
Qed.
Lemma filter_nil {A} (f : A -> bool) l : (forall x, In x l -> f x = false) -> filter f l = [].
Proof. induction l as [|x l IH]; cbn; intros H; [reflexivity|]. rewrite (H x) by now left. apply IH. intros; apply H; now right. Qed.
Lemma filter_ext_in' {A} (f g : A -> bool) l : (forall x, In x l -> f x = g x) -> filter f l = filter g l.
Proof. induction l as [|x l IH]; cbn; intros H; [reflexivity|]. rewrite (H x) by now left. rewrite IH by (intros; apply H; now right). reflexivity. Qed.
Lemma filter_split_perm {A} (p q : A -> bool) l : Permutation (filter p l) (filter (fun x => p x && q x) l ++ filter (fun x => p x && negb (q x)) l).
Proof.
  induction l as [|x l IH]; cbn; [constructor|]. destruct (p x), (q x); cbn; try exact IH.
  - constructor. exact IH.
  - eapply perm_trans; [apply perm_skip; exact IH|]. apply Permutation_middle.
Qed.

Section G.
Variables (rows : list (list Q)) (tol : Q) (inds : list nat).
Hypothesis Htol : (0 <= tol)%Q.
Hypothesis Hrows : Forall (fun r => r <> []) rows.
Let n := length rows.
Hypothesis Hinds : is_argsort_q inds (map first_col rows).
Definition closeb (i j : nat) : bool := Qle_bool (dist2 (nth j rows []) (nth i rows [])) (tol * tol).
Definition at_ (p : nat) : nat := nth p inds 0.

Lemma inds_len : length inds = n.
Proof. destruct Hinds as [P _]. apply Permutation_length in P. rewrite seq_length, map_length in P. exact P. Qed.
Lemma inds_lt p : p < n -> at_ p < n.
Proof.
  intros H. destruct Hinds as [P _]. assert (In (at_ p) (seq 0 (length (map first_col rows)))) as I0. { eapply Permutation_in; [exact P|]. apply nth_In. rewrite inds_len. exact H. }
  apply in_seq in I0. rewrite map_length in I0. fold n in I0. lia.
Qed.
Lemma row_ne k : k < n -> nth k rows [] <> [].
Proof. intros H. rewrite Forall_forall in Hrows. apply Hrows, nth_In. exact H. Qed.
Lemma col_sorted p q : p < q -> q < n -> (first_col (nth (at_ p) rows []) <= first_col (nth (at_ q) rows []))%Q.
Proof.
  intros H1 H2. destruct Hinds as [_ S0].
  assert (E : forall k, k < n -> first_col (nth (at_ k) rows []) = nth k (map (fun i => nth i (map first_col rows) 0%Q) inds) 0%Q).
  { intros k Hk. rewrite (nth_indep _ 0%Q (nth 0 (map first_col rows) 0%Q)) by (rewrite map_length, inds_len; exact Hk).
    rewrite (map_nth (fun i => nth i (map first_col rows) 0%Q)). unfold at_. rewrite (nth_indep (map first_col rows) 0%Q (first_col [])) by (rewrite map_length; apply inds_lt; exact Hk). now rewrite map_nth. }
  rewrite !E by lia. apply (SS_nth' Qle _ 0%Q S0); [exact H1|]. rewrite map_length, inds_len. exact H2.
Qed.

Lemma far p q : p < n -> q < n -> (tol < first_col (nth (at_ q) rows []) - first_col (nth (at_ p) rows []))%Q -> closeb (at_ p) (at_ q) = false.
Proof.
  intros Hp Hq H. unfold closeb. destruct (Qle_bool _ _) eqn:E; [|reflexivity]. apply Qle_bool_iff in E. exfalso.
  pose proof (dist2_first (nth (at_ q) rows []) (nth (at_ p) rows []) (row_ne _ (inds_lt _ Hq)) (row_ne _ (inds_lt _ Hp))). nra.
Qed.


Lemma inner_spec i : i < n -> forall c j0 done acc, j0 = n - c -> c <= n -> i < j0 ->
  let '(done', g) := feg_inner rows tol inds (at_ i) (seq j0 c) done acc in
  g = acc ++ map at_ (filter (fun j => negb (done j) && closeb (at_ i) (at_ j)) (seq j0 c)) /\
  (forall k, done' k = done k || ((j0 <=? k) && (k <? n) && closeb (at_ i) (at_ k))).
Proof.
  intros Hi. induction c as [|c IH]; intros j0 done acc E Hc Hj.
  - cbn [feg_inner seq filter map]. rewrite app_nil_r. split; [reflexivity|]. intros k. destruct (Nat.leb_spec j0 k), (Nat.ltb_spec k n); cbn [andb]; rewrite ?orb_false_r; try reflexivity; lia.
  - cbn [seq feg_inner]. assert (Hn : j0 < n) by lia. destruct (done j0) eqn:D.
    + specialize (IH (S j0) done acc). destruct (feg_inner _ _ _ _ _ _ _) as [done' g]. destruct IH as [G1 G2]; [lia|lia|lia|]. cbn [filter]. rewrite D. cbn [negb andb]. split; [exact G1|]. intros k. rewrite G2.
      destruct (Nat.eq_dec k j0) as [->|Nk]; [rewrite D; reflexivity|]. f_equal. f_equal. f_equal. destruct (Nat.leb_spec (S j0) k), (Nat.leb_spec j0 k); try reflexivity; lia.
    + fold (at_ j0). destruct (qltb tol _) eqn:B.
      * apply qltb_true in B.
        assert (F : forall k, j0 <= k < n -> closeb (at_ i) (at_ k) = false).
        { intros k Hk. apply far; [lia|lia|]. destruct (Nat.eq_dec k j0) as [->|]; [exact B|]. pose proof (col_sorted j0 k). assert (first_col (nth (at_ j0) rows []) <= first_col (nth (at_ k) rows []))%Q by (apply H; lia). lra. }
        split.
        -- rewrite (filter_nil _ (j0 :: seq (S j0) c)); [cbn; rewrite app_nil_r; reflexivity|]. intros x Hx. assert (j0 <= x < n) by (destruct Hx as [<-|Hx]; [lia|apply in_seq in Hx; lia]). rewrite F by assumption. apply andb_false_r.
        -- intros k. destruct (Nat.leb_spec j0 k), (Nat.ltb_spec k n); cbn [andb]; rewrite ?orb_false_r; try reflexivity. rewrite F by lia. rewrite orb_false_r. reflexivity.
      * cbn [filter]. rewrite D. cbn [negb andb]. change (Qle_bool (dist2 (nth (at_ j0) rows []) (nth (at_ i) rows [])) (tol * tol)) with (closeb (at_ i) (at_ j0)).
        destruct (closeb (at_ i) (at_ j0)) eqn:C.
        -- specialize (IH (S j0) (fun k => if k =? j0 then true else done k) (acc ++ [at_ j0])). destruct (feg_inner _ _ _ _ _ _ _) as [done' g]. destruct IH as [G1 G2]; [lia|lia|lia|]. split.
           ++ rewrite G1, <- app_assoc. cbn. do 2 f_equal. f_equal. apply filter_ext_in'. intros x Hx. apply in_seq in Hx. destruct (Nat.eqb_spec x j0); [lia|reflexivity].
           ++ intros k. rewrite G2. destruct (Nat.eqb_spec k j0) as [->|Nk].
              ** symmetry. rewrite C. replace (j0 <=? j0) with true by (symmetry; apply Nat.leb_refl). replace (j0 <? n) with true by (symmetry; apply Nat.ltb_lt; exact Hn). cbn. apply orb_true_r.
              ** f_equal. f_equal. f_equal. destruct (Nat.leb_spec (S j0) k), (Nat.leb_spec j0 k); try reflexivity; lia.
        -- specialize (IH (S j0) done acc). destruct (feg_inner _ _ _ _ _ _ _) as [done' g]. destruct IH as [G1 G2]; [lia|lia|lia|]. split; [exact G1|]. intros k. rewrite G2.
           destruct (Nat.eq_dec k j0) as [->|Nk].
           ++ rewrite C. rewrite !andb_false_r. reflexivity.
           ++ f_equal. f_equal. f_equal. destruct (Nat.leb_spec (S j0) k), (Nat.leb_spec j0 k); try reflexivity; lia.
Qed.

Definition leader (g : list nat) : nat := nth 0 g 0.

Lemma outer_spec : forall c i0 done res, i0 = n - c -> c <= n ->
  exists gs, feg_outer rows tol inds (seq i0 c) done res = res ++ gs /\
    Permutation (concat gs) (map at_ (filter (fun k => negb (done k)) (seq i0 c))) /\
    Forall (fun g => g <> [] /\ forall x, In x g -> x = leader g \/ closeb (leader g) x = true) gs /\
    ForallOrdPairs (fun g h => closeb (leader g) (leader h) = false) gs.
Proof.
  induction c as [|c IH]; intros i0 done res E Hc.
  - exists []. cbn. rewrite app_nil_r. repeat split; constructor.
  - assert (Hi : i0 < n) by lia. cbn [seq feg_outer]. destruct (done i0) eqn:D.
    + destruct (IH (S i0) done res) as (gs & G1 & G2 & G3 & G4); [lia|lia|]. exists gs. cbn [filter]. rewrite D. cbn [negb]. repeat split; assumption.
    + fold (at_ i0). fold n. replace (i0 + 1) with (S i0) by lia. replace (n - S i0) with c by lia.
      pose proof (inner_spec i0 Hi c (S i0) (fun k => if k =? i0 then true else done k) [at_ i0]) as IS.
      destruct (feg_inner _ _ _ _ _ _ _) as [done' g]. destruct IS as [S1 S2]; [lia|lia|lia|].
      destruct (IH (S i0) done' (res ++ [g])) as (gs & G1 & G2 & G3 & G4); [lia|lia|].
      assert (F1 : filter (fun j => negb (if j =? i0 then true else done j) && closeb (at_ i0) (at_ j)) (seq (S i0) c) = filter (fun j => negb (done j) && closeb (at_ i0) (at_ j)) (seq (S i0) c)).
      { apply filter_ext_in'. intros x Hx. apply in_seq in Hx. destruct (Nat.eqb_spec x i0); [lia|reflexivity]. }
      assert (F2 : filter (fun k => negb (done' k)) (seq (S i0) c) = filter (fun j => negb (done j) && negb (closeb (at_ i0) (at_ j))) (seq (S i0) c)).
      { apply filter_ext_in'. intros x Hx. apply in_seq in Hx. rewrite S2. destruct (Nat.eqb_spec x i0); [lia|]. replace (S i0 <=? x) with true by (symmetry; apply Nat.leb_le; lia). replace (x <? n) with true by (symmetry; apply Nat.ltb_lt; lia). cbn. apply negb_orb. }
      rewrite F1 in S1. cbn [app] in S1.
      exists (g :: gs). rewrite G1, <- app_assoc. split; [reflexivity|]. split; [|split].
      * cbn [concat filter]. rewrite D. cbn [negb map]. rewrite S1 at 1. cbn [app]. constructor. rewrite G2, F2, <- map_app. apply Permutation_map. symmetry. apply filter_split_perm.
      * constructor; [|exact G3]. rewrite S1. split; [discriminate|]. intros x [<-|Hx]; [left; reflexivity|]. right. apply in_map_iff in Hx as (k & <- & Hk). apply filter_In in Hk as [_ Hk]. apply andb_prop in Hk as [_ Hk]. exact Hk.
      * constructor; [|exact G4]. rewrite Forall_forall in G3 |- *. intros h Hh. destruct (G3 h Hh) as [Hne _].
        assert (In (leader h) (concat gs)) as L1. { apply in_concat. exists h. split; [exact Hh|]. destruct h; [congruence|]. left. reflexivity. }
        rewrite G2, F2 in L1. apply in_map_iff in L1 as (k & Ek & Hk). apply filter_In in Hk as [_ Hk]. apply andb_prop in Hk as [_ Hk]. apply negb_true_iff in Hk. rewrite <- Ek, S1. exact Hk.
Qed.

Lemma map_at_all : map at_ (seq 0 n) = inds.
Proof.
  apply nth_error_ext'. intros k. destruct (Nat.lt_ge_cases k n) as [H|H].
  - rewrite (nth_error_nth' _ 0) by (rewrite map_length, seq_length; exact H). rewrite (nth_error_nth' inds 0) by (rewrite inds_len; exact H). f_equal.
    rewrite (nth_indep _ 0 (at_ 0)) by (rewrite map_length, seq_length; exact H). rewrite map_nth, seq_nth by exact H. reflexivity.
  - rewrite (proj2 (nth_error_None _ _)) by (rewrite map_length, seq_length; exact H). rewrite (proj2 (nth_error_None _ _)) by (rewrite inds_len; exact H). reflexivity.
Qed.

Lemma groups_spec : let gs := find_equal_groups rows tol inds in
  Permutation (concat gs) (seq 0 n) /\
  Forall (fun g => g <> [] /\ forall x, In x g -> x = leader g \/ closeb (leader g) x = true) gs /\
  ForallOrdPairs (fun g h => closeb (leader g) (leader h) = false) gs.
Proof.
  cbv zeta. unfold find_equal_groups. fold n. destruct (outer_spec n 0 (fun _ => false) []) as (gs & G1 & G2 & G3 & G4); [lia|lia|]. rewrite G1. cbn [app]. split; [|split; assumption].
  rewrite G2. assert (E : filter (fun k : nat => negb ((fun _ => false) k)) (seq 0 n) = seq 0 n). { generalize 0. clear. induction n as [|m IH]; intros a; cbn; [reflexivity|]. now rewrite IH. }
  rewrite E, map_at_all. destruct Hinds as [P _]. rewrite map_length in P. exact P.
Qed.
End G.

(* ---- label_unique ---- *)
Section L.
Variables (m : nat -> nat -> bool) (n : nat).
Hypothesis Mr : forall i, i < n -> m i i = true.

Lemma nth_map_seq (f : nat -> Z) k : k < n -> nth k (map f (seq 0 n)) (-1)%Z = f k.
Proof. intros H. rewrite (nth_indep _ _ (f 0)) by (rewrite map_length, seq_length; exact H). rewrite map_nth, seq_nth by exact H. reflexivity. Qed.

(* the general invariant: each label's entries are all matched by one entry *)
Definition linv (p : nat) (ids : list Z) (id : Z) : Prop :=
  length ids = n /\ (0 <= id)%Z /\
  (forall k, k < n -> nth k ids (-1)%Z = (-1)%Z \/ (0 <= nth k ids (-1)%Z < id)%Z) /\
  (forall k, k < p -> (0 <= nth k ids (-1))%Z) /\
  exists lead : Z -> nat, forall k, k < n -> (0 <= nth k ids (-1))%Z -> lead (nth k ids (-1)%Z) < n /\ m (lead (nth k ids (-1)%Z)) k = true.

Lemma label_gen : forall c p ids id, p = n - c -> c <= n -> linv p ids id -> exists id', linv n (label_loop m n (seq p c) ids id) id'.
Proof.
  induction c as [|c IH]; intros p ids id E Hc H; [cbn; exists id; replace n with p at 1 by lia; exact H|].
  cbn [seq label_loop]. destruct H as (H1 & H2 & H3 & H4 & lead & H5). destruct (Z.leb_spec 0%Z (nth p ids (-1)%Z)).
  - apply IH; [lia|lia|]. repeat split; auto; [|exists lead; exact H5]. intros k Hk. destruct (Nat.eq_dec k p) as [->|]; [exact H|apply H4; lia].
  - apply IH; [lia|lia|]. split; [rewrite map_length, seq_length; reflexivity|]. split; [lia|]. split; [|split].
    + intros k Hk. rewrite nth_map_seq by exact Hk. destruct (m p k); [right; lia|]. destruct (H3 k Hk); [left|right]; lia.
    + intros k Hk. rewrite nth_map_seq by lia. destruct (m p k) eqn:Em; [lia|]. destruct (Nat.eq_dec k p) as [->|]; [rewrite Mr in Em by lia; discriminate|]. apply H4. lia.
    + exists (fun l => if (l =? id)%Z then p else lead l). intros k Hk. rewrite nth_map_seq by exact Hk. destruct (m p k) eqn:Em.
      * intros _. rewrite Z.eqb_refl. split; [lia|exact Em].
      * intros Hl. destruct (H3 k Hk) as [X|X]; [lia|]. destruct (Z.eqb_spec (nth k ids (-1)%Z) id); [lia|]. apply H5; assumption.
Qed.

(* with an equivalence relation *)
Hypothesis Ms : forall i j, i < n -> j < n -> m i j = true -> m j i = true.
Hypothesis Mt : forall i j k, i < n -> j < n -> k < n -> m i j = true -> m j k = true -> m i k = true.
Definition einv (p : nat) (ids : list Z) (id : Z) : Prop :=
  length ids = n /\ (0 <= id)%Z /\
  (forall k, k < n -> (nth k ids (-1)%Z = (-1)%Z /\ forall i, i < p -> m i k = false) \/ ((0 <= nth k ids (-1)%Z < id)%Z /\ exists i, i < p /\ m i k = true)) /\
  (forall k l, k < n -> l < n -> (0 <= nth k ids (-1))%Z -> (0 <= nth l ids (-1))%Z -> (nth k ids (-1)%Z = nth l ids (-1)%Z <-> m k l = true)) /\
  (forall l, (0 <= l < id)%Z -> exists k, k < n /\ nth k ids (-1)%Z = l).

Lemma label_equiv : forall c p ids id, p = n - c -> c <= n -> einv p ids id -> exists id', einv n (label_loop m n (seq p c) ids id) id'.
Proof.
  induction c as [|c IH]; intros p ids id E Hc H; [cbn; exists id; replace n with p at 1 by lia; exact H|].
  cbn [seq label_loop]. destruct H as (H1 & H2 & H3 & H4 & H5). assert (Hp : p < n) by lia. destruct (Z.leb_spec 0%Z (nth p ids (-1)%Z)).
  - apply IH; [lia|lia|]. split; [exact H1|]. split; [exact H2|]. split; [|split; assumption].
    intros k Hk. destruct (H3 k Hk) as [[A B]|[A (i & B & C)]]; [|right; split; [exact A|]; exists i; split; [lia|exact C]].
    left. split; [exact A|]. intros i Hi. destruct (Nat.eq_dec i p) as [->|]; [|apply B; lia].
    destruct (H3 p Hp) as [[X _]|[_ (j & J1 & J2)]]; [lia|]. destruct (m p k) eqn:Em; [|reflexivity].
    exfalso. assert (m j k = true) by (apply (Mt j p k); (lia || assumption)). rewrite B in H0 by exact J1. discriminate.
  - destruct (H3 p Hp) as [[_ NP]|[X _]]; [|lia].
    assert (NEW : forall k, k < n -> m p k = true -> nth k ids (-1)%Z = (-1)%Z).
    { intros k Hk Em. destruct (H3 k Hk) as [[A _]|[_ (i & I1 & I2)]]; [exact A|]. exfalso. assert (m i p = true) by (apply (Mt i k p); [lia|exact Hk|exact Hp|exact I2|apply Ms; assumption]). rewrite NP in H0 by exact I1. discriminate. }
    apply IH; [lia|lia|]. split; [rewrite map_length, seq_length; reflexivity|]. split; [lia|]. split; [|split].
    + intros k Hk. rewrite nth_map_seq by exact Hk. destruct (m p k) eqn:Em; [right; split; [lia|]; exists p; split; [lia|exact Em]|].
      destruct (H3 k Hk) as [[A B]|[A (i & B & C)]]; [left; split; [exact A|]|right; split; [lia|]; exists i; split; [lia|exact C]].
      intros i Hi. destruct (Nat.eq_dec i p) as [->|]; [exact Em|apply B; lia].
    + intros k l Hk Hl. rewrite !nth_map_seq by assumption. destruct (m p k) eqn:Ek, (m p l) eqn:El; intros A B.
      * split; [intros _|reflexivity]. apply (Mt k p l); auto.
      * split.
        -- intros X. destruct (H3 l Hl) as [[Y _]|[Y _]]; lia.
        -- intros X. rewrite (Mt p k l) in El by assumption. discriminate.
      * split.
        -- intros X. destruct (H3 k Hk) as [[Y _]|[Y _]]; lia.
        -- intros X. assert (m p k = true) by (apply (Mt p l k); auto). congruence.
      * apply H4; assumption.
    + intros l Hl. destruct (Z.eq_dec l id) as [->|]; [exists p; split; [exact Hp|]; rewrite nth_map_seq, (Mr p) by exact Hp; reflexivity|].
      destruct (H5 l) as (k & K1 & K2); [lia|]. exists k. split; [exact K1|]. rewrite nth_map_seq by exact K1. destruct (m p k) eqn:Em; [|exact K2]. rewrite NEW in K2 by assumption. lia.
Qed.
End L.

Lemma nth_repeat' {A} (x : A) n k : nth k (repeat x n) x = x.
Proof. revert k. induction n as [|n IH]; intros [|k]; cbn; auto. Qed.

Lemma label_loop_gen m n : (forall i, i < n -> m i i = true) -> exists id, linv m n n (label_loop m n (seq 0 n) (repeat (-1)%Z n) 0) id.
Proof.
  intros Mr. apply (label_gen m n Mr n 0); [lia|lia|]. split; [apply repeat_length|]. split; [lia|]. split; [intros k _; left; apply nth_repeat'|]. split; [intros k Hk; lia|]. exists (fun _ => 0). intros k _ H. rewrite nth_repeat' in H. lia.
Qed.
Lemma label_loop_equiv m n : (forall i, i < n -> m i i = true) -> (forall i j, i < n -> j < n -> m i j = true -> m j i = true) -> (forall i j k, i < n -> j < n -> k < n -> m i j = true -> m j k = true -> m i k = true) ->
  exists id, einv m n n (label_loop m n (seq 0 n) (repeat (-1)%Z n) 0) id.
Proof.
  intros Mr Ms Mt. apply (label_equiv m n Mr Ms Mt n 0); [lia|lia|]. split; [apply repeat_length|]. split; [lia|]. split; [intros k _; left; split; [apply nth_repeat'|intros i Hi; lia]|]. split; [intros k l _ _ H; rewrite nth_repeat' in H; lia|]. intros l Hl. lia.
Qed.

Lemma row_close_refl rtol atol r : (0 <= rtol)%Q -> (0 <= atol)%Q -> row_close rtol atol r r = true.
Proof.
  intros H1 H2. unfold row_close. induction r as [|a r IH]; cbn; [reflexivity|]. rewrite IH, andb_true_r. unfold isclose. apply Qle_bool_iff. setoid_replace (a - a)%Q with 0%Q by ring. cbn. pose proof (Qabs_nonneg a). nra.
Qed.
Lemma row_close_exact r s : length r = length s -> (row_close 0 0 r s = true <-> row_eq r s).
Proof.
  revert s. induction r as [|a r IH]; intros [|b s] H; cbn in H; try lia; [split; [constructor|reflexivity]|]. unfold row_close in *. cbn [combine forallb fst snd]. rewrite andb_true_iff, IH by lia.
  unfold isclose. rewrite Qle_bool_iff. unfold row_eq. split.
  - intros [A B]. constructor; [|exact B]. assert (Qabs (a - b) <= 0)%Q by (eapply Qle_trans; [exact A|]; rewrite Qmult_0_l; lra). apply Qabs_Qle_condition in H0. lra.
  - intros X. inversion X; subst. split; [|assumption]. setoid_replace (a - b)%Q with 0%Q by (rewrite H3; ring). cbn. rewrite Qmult_0_l. lra.
Qed.
Lemma row_eq_equiv : Equivalence row_eq.
Proof.
  unfold row_eq. constructor.
  - intros r. induction r; constructor; [reflexivity|assumption].
  - intros r s H. induction H; constructor; [symmetry; assumption|assumption].
  - intros r s t H. revert t. induction H; intros t Ht; inversion Ht; subst; constructor; [etransitivity; eassumption|auto].
Qed.

(* ---- unique_inverse, label_multi ---- *)
Lemma index_of_In v l : In v l -> index_of v l < length l /\ nth (index_of v l) l 0%Z = v.
Proof.
  induction l as [|x l IH]; cbn; [intros []|]. destruct (Z.eqb_spec x v) as [->|N]; [intros _; split; [lia|reflexivity]|]. intros [?|H]; [congruence|]. destruct (IH H). split; [lia|assumption].
Qed.
Lemma np_unique_sorted l : StronglySorted Z.lt (np_unique l).
Proof. induction l as [|x l IH]; cbn [np_unique fold_right]; [constructor|]. now apply ins_uniq_sorted. Qed.
Lemma unique_inverse_spec vals : length (unique_inverse vals) = length vals /\
  (forall i j, i < length vals -> j < length vals -> (nth i (unique_inverse vals) (-1)%Z = nth j (unique_inverse vals) (-1)%Z <-> nth i vals 0%Z = nth j vals 0%Z)) /\
  (forall i, i < length vals -> (0 <= nth i (unique_inverse vals) (-1)%Z < zlen (np_unique vals))%Z).
Proof.
  unfold unique_inverse. set (f := fun v => Z.of_nat (index_of v (np_unique vals))).
  assert (N : forall i, i < length vals -> nth i (map f vals) (-1)%Z = f (nth i vals 0%Z)).
  { intros i Hi. rewrite (nth_indep _ _ (f 0%Z)) by (rewrite map_length; exact Hi). apply map_nth. }
  assert (J : forall i, i < length vals -> In (nth i vals 0%Z) (np_unique vals)) by (intros i Hi; apply np_unique_In, nth_In; exact Hi).
  split; [apply map_length|]. split.
  - intros i j Hi Hj. rewrite !N by assumption. unfold f. split; [|intros ->; reflexivity]. intros E. apply Nat2Z.inj in E.
    rewrite <- (proj2 (index_of_In _ _ (J i Hi))), <- (proj2 (index_of_In _ _ (J j Hj))), E. reflexivity.
  - intros i Hi. rewrite N by exact Hi. unfold f. destruct (index_of_In _ _ (J i Hi)). unfold zlen. lia.
Qed.

(* the inverse uses every label *)
Lemma np_unique_NoDup l : NoDup (np_unique l).
Proof. pose proof (np_unique_sorted l) as H. induction H as [|x m HS IH HF]; constructor; [|exact IH]. intros X. rewrite Forall_forall in HF. specialize (HF _ X). lia. Qed.
Lemma index_of_nth l k : NoDup l -> k < length l -> index_of (nth k l 0%Z) l = k.
Proof.
  intros Hnd. revert k. induction Hnd as [|x l Hx Hnd IH]; intros [|k] Hk; cbn in *; try lia; [now rewrite Z.eqb_refl|]. destruct (Z.eqb_spec x (nth k l 0%Z)) as [E|_]; [|f_equal; apply IH; lia]. exfalso. apply Hx. rewrite E. apply nth_In. lia.
Qed.
Lemma unique_inverse_contig vals : contiguous_labels (unique_inverse vals).
Proof.
  exists (zlen (np_unique vals)). intros l. unfold unique_inverse. rewrite in_map_iff. split.
  - intros (v & <- & Hv). apply np_unique_In in Hv. destruct (index_of_In _ _ Hv). unfold zlen. lia.
  - intros Hl. exists (nth (Z.to_nat l) (np_unique vals) 0%Z). split; [|apply np_unique_In, nth_In; unfold zlen in Hl; lia]. rewrite index_of_nth; [lia|apply np_unique_NoDup|unfold zlen in Hl; lia].
Qed.

Definition same_tuple (valss : list (list Z)) (i j : nat) : Prop := Forall (fun vals => nth i vals 0%Z = nth j vals 0%Z) valss.
Fixpoint shrinking (np : Z) (valss : list (list Z)) : Prop :=
  match valss with [] => True | vals :: rest => (zlen (np_unique vals) <= np)%Z /\ shrinking (zlen (np_unique vals)) rest end.
Definition fused (oinds : list Z) (nprev : Z) (vals : list Z) : list Z := map (fun p => fst p * nprev + snd p)%Z (combine oinds (unique_inverse vals)).
Lemma fused_nth oinds nprev vals k : length oinds = length vals -> k < length vals -> nth k (fused oinds nprev vals) (-1)%Z = (nth k oinds (-1) * nprev + nth k (unique_inverse vals) (-1))%Z.
Proof.
  intros H Hk. unfold fused. set (f := fun p : Z * Z => (fst p * nprev + snd p)%Z). rewrite (nth_indep _ _ (f (-1, -1)%Z)) by (rewrite map_length, combine_length, (proj1 (unique_inverse_spec vals)); lia).
  rewrite map_nth, combine_nth by (rewrite (proj1 (unique_inverse_spec vals)); exact H). reflexivity.
Qed.
Lemma fused_len oinds nprev vals : length oinds = length vals -> length (fused oinds nprev vals) = length vals.
Proof. intros H. unfold fused. rewrite map_length, combine_length, (proj1 (unique_inverse_spec vals)). lia. Qed.

Lemma multi_sound n : forall valss oinds nprev i j, length oinds = n -> Forall (fun v => length v = n) valss -> i < n -> j < n ->
  nth i oinds (-1)%Z = nth j oinds (-1)%Z -> same_tuple valss i j ->
  nth i (label_multi_loop valss oinds nprev) (-1)%Z = nth j (label_multi_loop valss oinds nprev) (-1)%Z /\ length (label_multi_loop valss oinds nprev) = n.
Proof.
  induction valss as [|vals rest IH]; intros oinds nprev i j L F Hi Hj E S0; cbn; [auto|]. inversion F as [|? ? F1 F2]; subst. inversion S0 as [|? ? S1 S2]; subst.
  destruct (unique_inverse_spec vals) as (U1 & U2 & U3). apply IH; auto; fold (fused oinds nprev vals); [rewrite fused_len; congruence|].
  rewrite !fused_nth by lia. rewrite E. f_equal. apply U2; [lia|lia|exact S1].
Qed.
Lemma multi_complete n : forall valss oinds nprev i j, length oinds = n -> Forall (fun v => length v = n) valss -> i < n -> j < n -> shrinking nprev valss ->
  nth i (label_multi_loop valss oinds nprev) (-1)%Z = nth j (label_multi_loop valss oinds nprev) (-1)%Z -> nth i oinds (-1)%Z = nth j oinds (-1)%Z /\ same_tuple valss i j.
Proof.
  induction valss as [|vals rest IH]; intros oinds nprev i j L F Hi Hj Sh E; cbn in *; [split; [exact E|constructor]|]. inversion F as [|? ? F1 F2]; subst. destruct Sh as [Sh1 Sh2].
  destruct (unique_inverse_spec vals) as (U1 & U2 & U3). fold (fused oinds nprev vals) in E. apply IH in E; [|rewrite fused_len; congruence|exact F2|exact Hi|exact Hj|exact Sh2].
  destruct E as [E S0]. rewrite !fused_nth in E by lia. pose proof (U3 i ltac:(lia)). pose proof (U3 j ltac:(lia)). 
  assert (nth i oinds (-1)%Z = nth j oinds (-1)%Z) by nia. split; [assumption|]. constructor; [|exact S0]. apply U2; [lia|lia|]. rewrite H1 in E. lia.
Qed.
Lemma multi_len n : forall valss oinds nprev, length oinds = n -> Forall (fun v => length v = n) valss -> length (label_multi_loop valss oinds nprev) = n.
Proof.
  induction valss as [|vals rest IH]; intros oinds nprev L F; cbn; [auto|]. inversion F as [|? ? F1 F2]; subst. apply IH; auto. fold (fused oinds nprev vals). rewrite fused_len; congruence.
Qed.

(* ---- find_equal_groups_fast ---- *)
Lemma filter_three (f : nat -> Z) (u : Z) (l : list nat) : StronglySorted (fun i j => (f i <= f j)%Z) l ->
  l = filter (fun i => (f i <? u)%Z) l ++ filter (fun i => (f i =? u)%Z) l ++ filter (fun i => (u <? f i)%Z) l.
Proof.
  induction 1 as [|x l HS IH HF]; [reflexivity|]. cbn [filter]. rewrite Forall_forall in HF.
  destruct (Z.ltb_spec (f x) u) as [A|A].
  - destruct (Z.eqb_spec (f x) u); [lia|]. destruct (Z.ltb_spec u (f x)); [lia|]. cbn. f_equal. exact IH.
  - assert (E : filter (fun i => (f i <? u)%Z) l = []) by (apply filter_nil; intros y Hy; apply Z.ltb_ge; specialize (HF y Hy); lia). rewrite E in *. cbn [app] in *.
    destruct (Z.eqb_spec (f x) u) as [B|B].
    + destruct (Z.ltb_spec u (f x)); [lia|]. cbn. f_equal. exact IH.
    + assert (E2 : filter (fun i => (f i =? u)%Z) l = []) by (apply filter_nil; intros y Hy; apply Z.eqb_neq; specialize (HF y Hy); lia). rewrite E2 in *. cbn [app] in *. destruct (Z.ltb_spec u (f x)); [|lia]. f_equal. exact IH.
Qed.
Lemma index_of_sorted (f : nat -> Z) u l : StronglySorted (fun i j => (f i <= f j)%Z) l -> In u (map f l) -> index_of u (map f l) = length (filter (fun i => (f i <? u)%Z) l).
Proof.
  induction 1 as [|x l HS IH HF]; [intros []|]. cbn [map index_of filter]. rewrite Forall_forall in HF. intros Hin. destruct (Z.eqb_spec (f x) u) as [E|N].
  - destruct (Z.ltb_spec (f x) u); [lia|]. rewrite filter_nil; [reflexivity|]. intros y Hy. apply Z.ltb_ge. specialize (HF y Hy). lia.
  - destruct Hin as [E|Hin]; [congruence|]. assert ((f x < u)%Z). { apply in_map_iff in Hin as (y & <- & Hy). specialize (HF y Hy). lia. }
    destruct (Z.ltb_spec (f x) u); [|lia]. cbn. f_equal. apply IH. exact Hin.
Qed.
Lemma SS_weaken {A} (R S' : A -> A -> Prop) l : (forall x y, R x y -> S' x y) -> StronglySorted R l -> StronglySorted S' l.
Proof. intros H. induction 1 as [|x l HS IH HF]; constructor; [exact IH|]. rewrite Forall_forall in *. auto. Qed.
Lemma SS_filter' {A} (R : A -> A -> Prop) p l : StronglySorted R l -> StronglySorted R (filter p l).
Proof. induction 1 as [|x l HS IH HF]; cbn; [constructor|]. destruct (p x); [|exact IH]. constructor; [exact IH|]. rewrite Forall_forall in *. intros y Hy. apply filter_In in Hy as [Hy _]. auto. Qed.
Lemma SS_in {A} (R S' : A -> A -> Prop) l : (forall x y, In x l -> In y l -> R x y -> S' x y) -> StronglySorted R l -> StronglySorted S' l.
Proof. intros H HS. induction HS as [|x l HS IH HF]; constructor; [apply IH; intros; apply H; try right; assumption|]. rewrite Forall_forall in *. intros y Hy. apply H; [now left|now right|auto]. Qed.

Lemma fast_spec vals order i u : is_stable_argsort order vals ->
  let '(uvals, ord, edges) := find_equal_groups_fast vals order in
  zget uvals i = Some u ->
  exists a b, zget edges i = Some a /\ zget edges (i + 1)%Z = Some b /\ sub ord a b = filter (fun k => (nth k vals 0%Z =? u)%Z) (seq 0 (length vals)).
Proof.
  intros [P S0]. unfold find_equal_groups_fast. set (f := fun k => nth k vals 0%Z). set (srt := map f order). intros Hu.
  assert (HL : zlen order = zlen vals) by (unfold zlen; rewrite (Permutation_length P), seq_length; reflexivity).
  assert (SL : StronglySorted (fun i j => (f i <= f j)%Z) order) by (eapply SS_weaken; [|exact S0]; intros x y; cbn; unfold f; lia).
  assert (Hin : In u srt) by (apply np_unique_In; eapply nth_error_In; unfold zget in Hu; destruct (i <? 0)%Z; [discriminate|exact Hu]).
  pose proof (zget_Some_range _ _ _ Hu) as Hr.
  set (E := fun u => Z.of_nat (index_of u srt)).
  assert (Ha : E u = Z.of_nat (length (filter (fun k => (f k <? u)%Z) order))) by (unfold E, srt; f_equal; apply index_of_sorted; [exact SL|exact Hin]).
  pose proof (filter_three f u order SL) as T3.
  set (A := filter (fun k => (f k <? u)%Z) order) in *. set (B := filter (fun k => (f k =? u)%Z) order) in *. set (C := filter (fun k => (u <? f k)%Z) order) in *.
  assert (SB : B = filter (fun k => (nth k vals 0%Z =? u)%Z) (seq 0 (length vals))).
  { apply sorted_unique.
    - unfold B. eapply SS_in; [|apply SS_filter'; exact S0]. intros x y Hx Hy. apply filter_In in Hx as [_ Hx]. apply filter_In in Hy as [_ Hy]. apply Z.eqb_eq in Hx, Hy. unfold f in *. cbn. lia.
    - apply SS_filter'. generalize 0, (length vals). intros a b. revert a. induction b as [|b IH]; intros a; cbn; constructor; [apply IH|]. apply Forall_forall. intros y Hy. apply in_seq in Hy. lia.
    - intros x. unfold B. rewrite !filter_In. unfold f. split; intros [X Y]; (split; [|exact Y]); [eapply Permutation_in; [exact P|exact X]|eapply Permutation_in; [symmetry; exact P|exact X]]. }
  assert (Hb : zget (map E (np_unique srt) ++ [zlen vals]) (i + 1)%Z = Some (Z.of_nat (length A + length B))).
  { destruct (Z.eq_dec (i + 1) (zlen (np_unique srt))) as [El|Nl].
    - rewrite zget_app2 by (rewrite zlen_map; lia). rewrite zlen_map, El, Z.sub_diag. cbn. f_equal. rewrite <- HL. unfold zlen. f_equal. rewrite T3, !app_length.
      assert (C = []) as ->. { unfold C. apply filter_nil. intros y Hy. apply Z.ltb_ge. assert (Hy2 : In (f y) (np_unique srt)) by (apply np_unique_In; unfold srt; apply in_map; exact Hy).
        apply In_nth_error in Hy2 as (q & Hq). pose proof (np_unique_sorted srt) as NS.
        assert (Hq' : zget (np_unique srt) (Z.of_nat q) = Some (f y)) by (rewrite zget_nth_error; exact Hq). pose proof (zget_Some_range _ _ _ Hq').
        destruct (Z.eq_dec (Z.of_nat q) i) as [Eq|Nq]; [rewrite Eq in Hq'; rewrite Hu in Hq'; apply Some_inj in Hq'; lia|].
        assert ((f y < u)%Z); [|lia]. pose proof (SS_nth' Z.lt (np_unique srt) 0%Z NS q (Z.to_nat i)) as Q. unfold zget in Hu. destruct (i <? 0)%Z eqn:Ei; [discriminate|]. rewrite (nth_error_nth _ _ _ Hq) in Q. rewrite (nth_error_nth _ _ _ Hu) in Q. apply Q; unfold zlen in *; lia. }
      cbn. lia.
    - rewrite zget_app1 by (rewrite zlen_map; lia). rewrite zget_map. destruct (zget_in_range (np_unique srt) (i + 1)) as (u' & Hu'); [lia|]. rewrite Hu'. cbn. f_equal. unfold E.
      assert (Hin' : In u' srt) by (apply np_unique_In; eapply nth_error_In; unfold zget in Hu'; destruct (i + 1 <? 0)%Z; [discriminate|exact Hu']).
      f_equal. unfold srt. rewrite index_of_sorted; [|exact SL|exact Hin'].
      assert (HU : (u < u')%Z).
      { pose proof (SS_nth' Z.lt (np_unique srt) 0%Z (np_unique_sorted srt) (Z.to_nat i) (Z.to_nat (i + 1))) as Q. unfold zget in Hu, Hu'. destruct (i <? 0)%Z; [discriminate|]. destruct (i + 1 <? 0)%Z; [discriminate|]. rewrite (nth_error_nth _ _ _ Hu), (nth_error_nth _ _ _ Hu') in Q. apply Q; unfold zlen in *; lia. }
      assert (NB : forall y, In y order -> (u < f y)%Z -> (u' <= f y)%Z).
      { intros y Hy Hlt. assert (Hy2 : In (f y) (np_unique srt)) by (apply np_unique_In; unfold srt; apply in_map; exact Hy). apply In_nth_error in Hy2 as (q & Hq).
        destruct (Z_le_gt_dec (Z.of_nat q) i) as [Hqi|Hqi].
        - exfalso. destruct (Z.eq_dec (Z.of_nat q) i) as [Eq|Nq]; [rewrite <- zget_nth_error, Eq, Hu in Hq; apply Some_inj in Hq; lia|].
          pose proof (SS_nth' Z.lt (np_unique srt) 0%Z (np_unique_sorted srt) q (Z.to_nat i)) as Q. unfold zget in Hu. destruct (i <? 0)%Z; [discriminate|]. rewrite (nth_error_nth _ _ _ Hq), (nth_error_nth _ _ _ Hu) in Q. specialize (Q ltac:(lia) ltac:(unfold zlen in *; lia)). lia.
        - destruct (Z.eq_dec (Z.of_nat q) (i + 1)) as [Eq|Nq]; [rewrite <- zget_nth_error, Eq, Hu' in Hq; apply Some_inj in Hq; lia|].
          pose proof (SS_nth' Z.lt (np_unique srt) 0%Z (np_unique_sorted srt) (Z.to_nat (i + 1)) q) as Q. unfold zget in Hu'. destruct (i + 1 <? 0)%Z; [discriminate|]. rewrite (nth_error_nth _ _ _ Hq), (nth_error_nth _ _ _ Hu') in Q. assert (q < length (np_unique srt)) by (apply nth_error_Some; rewrite Hq; discriminate). specialize (Q ltac:(lia) H). lia. }
      rewrite T3 at 1. rewrite !filter_app, !app_length. 
      assert (filter (fun k => (f k <? u')%Z) A = A) as -> by (rewrite <- (filter_ext_in' (fun _ => true)); [clear; induction A as [|x l IH]; cbn; [reflexivity|now rewrite IH]|intros x Hx; apply filter_In in Hx as [_ Hx]; apply Z.ltb_lt in Hx; symmetry; apply Z.ltb_lt; lia]).
      assert (filter (fun k => (f k <? u')%Z) B = B) as -> by (rewrite <- (filter_ext_in' (fun _ => true)); [clear; induction B as [|x l IH]; cbn; [reflexivity|now rewrite IH]|intros x Hx; apply filter_In in Hx as [_ Hx]; apply Z.eqb_eq in Hx; symmetry; apply Z.ltb_lt; lia]).
      assert (filter (fun k => (f k <? u')%Z) C = []) as -> by (apply filter_nil; intros x Hx; apply filter_In in Hx as [Ho Hx]; apply Z.ltb_lt in Hx; apply Z.ltb_ge; apply NB; assumption).
      cbn. lia. }
  exists (Z.of_nat (length A)), (Z.of_nat (length A + length B)). split; [|split; [exact Hb|]].
  - rewrite zget_app1 by (rewrite zlen_map; lia). rewrite zget_map. unfold srt in Hu |- *. rewrite Hu. cbn. f_equal. exact Ha.
  - rewrite <- SB. unfold sub. rewrite Nat2Z.id. replace (Z.to_nat (Z.of_nat (length A + length B) - Z.of_nat (length A))) with (length B) by lia. rewrite T3. rewrite skipn_app, skipn_all, Nat.sub_diag. cbn [app skipn]. rewrite firstn_app, firstn_all, Nat.sub_diag. cbn. apply app_nil_r.
Qed.
