From Verif Require Import Base SplitSpec RangeModel RangeLemmas SplitModel.
From Coq Require Import Lqa.

Lemma qltb_spec a b : reflect (a < b)%Q (qltb a b).
Proof.
  unfold qltb. destruct (Qle_bool b a) eqn:E; cbn; constructor.
  - apply Qle_bool_iff in E. now apply Qle_not_lt.
  - apply Qnot_le_lt. intros H. apply Qle_bool_iff in H. congruence.
Qed.

(** partition *)
Lemma push_length {A} (l : list (list A)) j x : length (push l j x) = length l.
Proof. apply upd_length. Qed.

Lemma push_concat {A} (l : list (list A)) j x : (j < length l)%nat -> Permutation (concat (push l j x)) (x :: concat l).
Proof.
  unfold push. revert j; induction l as [|g l IH]; intros [|j] H; cbn [length] in H; try lia; cbn [upd nth concat].
  - rewrite <- app_assoc. cbn. symmetry. apply Permutation_middle.
  - rewrite (IH j) by lia. symmetry. apply Permutation_middle.
Qed.

Lemma concat_repeat_nil {A} n : concat (repeat (@nil A) n) = [].
Proof. induction n; cbn; auto. Qed.

Definition gsum (w : list Q) (g : list nat) : Q := qsum (map (wt w) g).

(* sums tracks the weight of every group *)
Definition tracks (w : list Q) (bins : list (list nat)) (sums : list Q) : Prop :=
  length sums = length bins /\ forall j, (j < length bins)%nat -> (nth j sums 0 == gsum w (nth j bins []))%Q.

Lemma tracks_init w n : tracks w (repeat [] n) (repeat 0%Q n).
Proof.
  split; [now rewrite !repeat_length|]. intros j Hj. rewrite repeat_length in Hj. rewrite !nth_repeat. reflexivity.
Qed.

Lemma tracks_push w bins sums j i v : (j < length bins)%nat -> (v == nth j sums 0 + wt w i)%Q -> tracks w bins sums ->
  tracks w (push bins j i) (upd sums j v).
Proof.
  intros Hj Hv [Hl Ht]. split; [rewrite push_length, upd_length; exact Hl|].
  intros k Hk. rewrite push_length in Hk. unfold push. rewrite !upd_nth by lia. destruct (Nat.eqb j k) eqn:E.
  - apply Nat.eqb_eq in E. subst k. unfold gsum. rewrite map_app, qsum_app. cbn [map qsum].
    rewrite Hv, (Ht j Hj). unfold gsum. ring.
  - apply Ht. exact Hk.
Qed.

Definition balanced (W : Q) (sums : list Q) : Prop :=
  forall i k, (i < length sums)%nat -> (k < length sums)%nat -> (nth i sums 0 <= nth k sums 0 + W)%Q.

Lemma balanced_init W n : (0 <= W)%Q -> balanced W (repeat 0%Q n).
Proof. intros H i k Hi Hk. rewrite !nth_repeat. lra. Qed.

Definition lightest (sums : list Q) (j : nat) : Prop :=
  (j < length sums)%nat /\ forall i, (i < length sums)%nat -> (nth j sums 0 <= nth i sums 0)%Q.

Lemma balanced_step W sums j x v : balanced W sums -> lightest sums j -> (0 <= x)%Q -> (x <= W)%Q ->
  (v == nth j sums 0 + x)%Q -> balanced W (upd sums j v).
Proof.
  intros Hb [Hj Hm] H0 HW Hv i k Hi Hk. rewrite upd_length in Hi, Hk. rewrite !upd_nth by lia.
  pose proof (Hb i k Hi Hk). pose proof (Hb i j Hi Hj). pose proof (Hm k Hk). pose proof (Hm i Hi).
  destruct (Nat.eqb j i) eqn:E1, (Nat.eqb j k) eqn:E2; lra.
Qed.

(** argmin *)
Lemma argmin_from_spec l : forall k best bv, (best < k)%nat ->
  let r := argmin_from k best bv l in
  ((r = best /\ forall i, (i < length l)%nat -> (bv <= nth i l 0)%Q) \/
   (exists i, (i < length l)%nat /\ r = (k + i)%nat /\ (nth i l 0 < bv)%Q /\ forall i', (i' < length l)%nat -> (nth i l 0 <= nth i' l 0)%Q)).
Proof.
  induction l as [|x l IH]; intros k best bv Hk; cbn [argmin_from].
  - left. split; [reflexivity|]. cbn. lia.
  - destruct (qltb_spec x bv) as [H|H].
    + destruct (IH (S k) k x ltac:(lia)) as [[E Hmin]|(i & Hi & E & Hx & Hmin)].
      * right. exists O. cbn [length nth]. split; [lia|]. split; [lia|]. split; [exact H|].
        intros [|i'] Hi'; cbn [nth]; [lra|]. apply Hmin. cbn in Hi'. lia.
      * right. exists (S i). cbn [length nth]. split; [lia|]. split; [lia|]. split; [lra|].
        intros [|i'] Hi'; cbn [nth]; [lra|]. apply Hmin. cbn in Hi'. lia.
    + destruct (IH (S k) best bv ltac:(lia)) as [[E Hmin]|(i & Hi & E & Hx & Hmin)].
      * left. split; [exact E|]. intros [|i'] Hi'; cbn [nth]; [lra|]. apply Hmin. cbn in Hi'. lia.
      * right. exists (S i). cbn [length nth]. split; [lia|]. split; [lia|]. split; [lra|].
        intros [|i'] Hi'; cbn [nth]; [lra|]. apply Hmin. cbn in Hi'. lia.
Qed.

Lemma argmin_spec l j : argmin l = Some j -> lightest l j.
Proof.
  destruct l as [|x l]; [discriminate|]. cbn [argmin]. intros H. apply Some_inj in H. subst j.
  destruct (argmin_from_spec l 1 0 x ltac:(lia)) as [[E Hmin]|(i & Hi & E & Hx & Hmin)]; rewrite E; split; cbn [length nth]; try lia.
  - intros [|i] Hi; cbn [nth]; [lra|]. apply Hmin. lia.
  - cbn [plus nth]. intros [|i'] Hi'; cbn [nth]; [lra|]. apply Hmin. lia.
Qed.

Lemma argmin_some l : l <> [] -> exists j, argmin l = Some j.
Proof. destruct l; [congruence|]. cbn. eauto. Qed.

(** equal_split *)
Lemma equal_split_loop_spec w W inds : forall bins bw,
  Forall (fun i => (0 <= wt w i <= W)%Q) inds -> bins <> [] -> tracks w bins bw -> balanced W bw ->
  exists bins', equal_split_loop w inds bins bw = Some bins' /\ length bins' = length bins /\
    Permutation (concat bins') (inds ++ concat bins) /\
    exists bw', tracks w bins' bw' /\ balanced W bw'.
Proof.
  induction inds as [|i inds IH]; intros bins bw HF Hne Ht Hb; cbn [equal_split_loop].
  - exists bins. split; [reflexivity|]. split; [reflexivity|]. split; [reflexivity|]. eauto.
  - inversion HF as [|? ? [H0 HW] HF']; subst.
    destruct (argmin_some bw) as [j Hj].
    { destruct Ht as [Hl _]. intros ->. destruct bins; [congruence|discriminate]. }
    rewrite Hj. apply argmin_spec in Hj. pose proof Hj as [Hjl _].
    assert (Hjb : (j < length bins)%nat) by (destruct Ht; lia).
    destruct (IH (push bins j i) (upd bw j (nth j bw 0%Q + wt w i)%Q)) as (bins' & Hrun & Hlen & Hperm & Hex); auto.
    + intros E. assert (L : length (push bins j i) = O) by (rewrite E; reflexivity). rewrite push_length in L. lia.
    + apply tracks_push; auto. reflexivity.
    + eapply balanced_step; eauto. reflexivity.
    + exists bins'. split; [exact Hrun|]. split; [rewrite Hlen; apply push_length|]. split; [|exact Hex].
      rewrite Hperm. rewrite (push_concat bins j i Hjb). symmetry. apply Permutation_middle.
Qed.

(* summary shared by all variants *)
Definition good_split (w : list Q) (n : nat) (groups : list (list nat)) : Prop :=
  length groups = n /\ Permutation (concat groups) (seq 0 (length w)) /\
  (forall W, Forall (fun x => 0 <= x <= W)%Q w -> (0 <= W)%Q ->
     forall g g', In g groups -> In g' groups -> (gsum w g <= gsum w g' + W)%Q).

Lemma balanced_groups w W bins bw : tracks w bins bw -> balanced W bw ->
  forall g g', In g bins -> In g' bins -> (gsum w g <= gsum w g' + W)%Q.
Proof.
  intros [Hl Ht] Hb g g' Hg Hg'. apply (In_nth _ _ []) in Hg as (i & Hi & <-). apply (In_nth _ _ []) in Hg' as (k & Hk & <-).
  rewrite <- (Ht i Hi), <- (Ht k Hk). apply Hb; lia.
Qed.

Lemma wt_bound w W inds : Forall (fun x => 0 <= x <= W)%Q w -> (0 <= W)%Q -> Forall (fun i => (0 <= wt w i <= W)%Q) inds.
Proof.
  intros H HW. apply Forall_forall. intros i _. unfold wt. rewrite Forall_forall in H.
  destruct (Nat.lt_ge_cases i (length w)) as [Hi|Hi]; [apply H; now apply nth_In|].
  rewrite nth_overflow by lia. lra.
Qed.

Lemma equal_split_partition w inds : forall bins bw, bins <> [] -> length bw = length bins ->
  exists bins', equal_split_loop w inds bins bw = Some bins' /\ length bins' = length bins /\
    Permutation (concat bins') (inds ++ concat bins).
Proof.
  induction inds as [|i inds IH]; intros bins bw Hne Hl; cbn [equal_split_loop].
  - exists bins. auto.
  - destruct (argmin_some bw) as [j Hj]; [intros ->; destruct bins; [congruence|discriminate]|].
    rewrite Hj. apply argmin_spec in Hj as [Hjl _].
    destruct (IH (push bins j i) (upd bw j (nth j bw 0%Q + wt w i)%Q)) as (bins' & Hrun & Hlen & Hperm).
    + intros E. assert (L : length (push bins j i) = O) by (rewrite E; reflexivity). rewrite push_length in L. lia.
    + now rewrite upd_length, push_length.
    + exists bins'. split; [exact Hrun|]. split; [rewrite Hlen; apply push_length|].
      rewrite Hperm. rewrite (push_concat bins j i) by lia. symmetry. apply Permutation_middle.
Qed.

Lemma repeat_nonnil {A} (x : A) n : (0 < n)%nat -> repeat x n <> [].
Proof. destruct n; [lia|discriminate]. Qed.

Lemma equal_split_spec w n inds : (0 < n)%nat -> Permutation inds (seq 0 (length w)) ->
  exists groups, equal_split w n inds = Some groups /\ good_split w n groups.
Proof.
  intros Hn HP. unfold equal_split.
  destruct (equal_split_partition w inds (repeat [] n) (repeat 0%Q n)) as (groups & Hrun & Hlen & Hperm);
    [now apply repeat_nonnil|now rewrite !repeat_length|].
  exists groups. split; [exact Hrun|]. split; [now rewrite Hlen, repeat_length|].
  split; [rewrite Hperm, concat_repeat_nil, app_nil_r; exact HP|].
  intros W HF HW.
  destruct (equal_split_loop_spec w W inds (repeat [] n) (repeat 0%Q n)) as (groups' & Hrun' & _ & _ & bw & Ht & Hb);
    [now apply wt_bound|now apply repeat_nonnil|apply tracks_init|now apply balanced_init|].
  rewrite Hrun in Hrun'. apply Some_inj in Hrun'. subst groups'. eapply balanced_groups; eauto.
Qed.

(** greedy_split_simple *)
Lemma small_loop_spec sums js : forall small, (small < length sums)%nat -> Forall (fun j => (j < length sums)%nat) js ->
  let r := small_loop sums js small in (r < length sums)%nat /\
  (nth r sums 0 <= nth small sums 0)%Q /\ Forall (fun j => (nth r sums 0 <= nth j sums 0)%Q) js.
Proof.
  induction js as [|j js IH]; intros small Hs HF; cbn [small_loop].
  - split; [exact Hs|]. split; [lra|constructor].
  - inversion HF; subst. destruct (qltb_spec (nth j sums 0%Q) (nth small sums 0%Q)) as [H|H].
    + destruct (IH j) as (A & B & C); auto. split; [exact A|]. split; [lra|]. constructor; [lra|exact C].
    + destruct (IH small) as (A & B & C); auto. split; [exact A|]. split; [lra|]. constructor; [lra|exact C].
Qed.

Lemma small_lightest sums : sums <> [] -> lightest sums (small_loop sums (seq 0 (length sums)) 0).
Proof.
  intros H. destruct (small_loop_spec sums (seq 0 (length sums)) 0) as (A & _ & C).
  - destruct sums; [congruence|cbn; lia].
  - apply Forall_forall. intros j Hj. apply in_seq in Hj. lia.
  - split; [exact A|]. intros i Hi. rewrite Forall_forall in C. apply C. apply in_seq. lia.
Qed.

Lemma simple_loop_spec w n inds : (0 < n)%nat -> forall res sums,
  length res = n -> tracks w res sums ->
  exists res', simple_loop w n inds res sums = Some res' /\ length res' = n /\
    Permutation (concat res') (inds ++ concat res) /\
    (forall W, Forall (fun i => (0 <= wt w i <= W)%Q) inds -> balanced W sums ->
       exists sums', tracks w res' sums' /\ balanced W sums').
Proof.
  intros Hn. induction inds as [|i inds IH]; intros res sums Hlen Ht; cbn [simple_loop].
  - exists res. split; [reflexivity|]. split; [exact Hlen|]. split; [reflexivity|]. eauto.
  - destruct (Nat.eqb n 0) eqn:E; [apply Nat.eqb_eq in E; lia|].
    assert (Hsl : length sums = n) by (destruct Ht; lia).
    assert (Hl : lightest sums (small_loop sums (seq 0 n) 0)).
    { rewrite <- Hsl. apply small_lightest. intros ->. cbn in Hsl. lia. }
    set (j := small_loop sums (seq 0 n) 0) in *. pose proof Hl as [Hjl _].
    destruct (IH (push res j i) (upd sums j (nth j sums 0%Q + wt w i)%Q)) as (res' & Hrun & Hlen' & Hperm & Hbal).
    + now rewrite push_length.
    + apply tracks_push; [lia|reflexivity|exact Ht].
    + exists res'. split; [exact Hrun|]. split; [exact Hlen'|]. split.
      * rewrite Hperm. rewrite (push_concat res j i) by lia. symmetry. apply Permutation_middle.
      * intros W HF Hb. inversion HF as [|? ? [H0 HW] HF']; subst. apply Hbal; [exact HF'|].
        eapply balanced_step; eauto. reflexivity.
Qed.

Lemma greedy_split_simple_spec w n inds : (0 < n)%nat -> Permutation inds (seq 0 (length w)) ->
  exists groups, greedy_split_simple w n inds = Some groups /\ good_split w n groups.
Proof.
  intros Hn HP. unfold greedy_split_simple.
  destruct (simple_loop_spec w n inds Hn (repeat [] n) (repeat 0%Q n)) as (g & Hrun & Hlen & Hperm & Hbal);
    [apply repeat_length|apply tracks_init|].
  exists g. split; [exact Hrun|]. split; [exact Hlen|].
  split; [rewrite Hperm, concat_repeat_nil, app_nil_r; exact HP|].
  intros W HF HW. destruct (Hbal W) as (sums & Ht & Hb); [now apply wt_bound|now apply balanced_init|].
  eapply balanced_groups; eauto.
Qed.

(** greedy_split *)
Section GreedyP.
  Context {D W : Type} (costfun : list W -> option Q) (workfun : W -> D -> option W) (nowork : W).
  Notation tg := (try_groups costfun workfun nowork).

  (* the candidate for group i *)
  Definition cand (d : D) (work : list W) (i : nat) (iwork : W) (icost : Q) : Prop :=
    workfun (nth i work nowork) d = Some iwork /\ costfun (upd work i iwork) = Some icost.

  Lemma try_groups_spec d work is : forall best r, tg d work is best = Some r ->
    (forall i iw ic, best = Some (i, iw, ic) -> cand d work i iw ic /\ (i < length work)%nat) ->
    Forall (fun i => (i < length work)%nat) is ->
    (r = None -> is = [] /\ best = None) /\
    (forall i iw ic, r = Some (i, iw, ic) -> cand d work i iw ic /\ (i < length work)%nat /\
       (forall i' iw' ic', best = Some (i', iw', ic') -> (ic <= ic')%Q) /\
       Forall (fun i' => exists iw' ic', cand d work i' iw' ic' /\ (ic <= ic')%Q) is).
  Proof.
    induction is as [|i is IH]; intros best r Hr Hbest HF; cbn [try_groups] in Hr.
    - apply Some_inj in Hr. subst r. split; [auto|]. intros i iw ic E. destruct (Hbest _ _ _ E) as [Hc Hi].
      split; [exact Hc|]. split; [exact Hi|]. split; [|constructor]. intros i' iw' ic' E'. rewrite E in E'.
      apply Some_inj in E'. injection E' as <- <- <-. lra.
    - inversion HF as [|? ? Hi HF']; subst.
      destruct (workfun (nth i work nowork) d) as [iwork|] eqn:Ew; [|discriminate].
      destruct (costfun (upd work i iwork)) as [icost|] eqn:Ec; [|discriminate].
      set (better := match best with None => true | Some (_, _, c) => qltb icost c end) in *.
      destruct better eqn:Eb.
      + destruct (IH _ _ Hr) as [H1 H2]; [|exact HF'|].
        { intros i0 iw ic E. apply Some_inj in E. injection E as <- <- <-. split; [split; assumption|exact Hi]. }
        split; [intros E; destruct (H1 E); discriminate|].
        intros i0 iw ic E. destruct (H2 _ _ _ E) as (A & B & C & F).
        pose proof (C _ _ _ eq_refl) as Hle.
        split; [exact A|]. split; [exact B|]. split.
        * intros i' iw' ic' E'. subst best. unfold better in Eb. destruct (qltb_spec icost ic'); [lra|discriminate].
        * constructor; [|exact F]. exists iwork, icost. split; [split; assumption|exact Hle].
      + destruct best as [[[ib wb] cb]|]; [|discriminate]. unfold better in Eb.
        destruct (IH _ _ Hr Hbest HF') as [H1 H2].
        split; [intros E; destruct (H1 E); discriminate|].
        intros i0 iw ic E. destruct (H2 _ _ _ E) as (A & B & C & F).
        pose proof (C _ _ _ eq_refl) as Hle.
        split; [exact A|]. split; [exact B|]. split; [exact C|].
        constructor; [|exact F]. exists iwork, icost. split; [split; assumption|].
        destruct (qltb_spec icost cb); [discriminate|lra].
  Qed.

  (* work of a group: its members folded in order *)
  Notation fold_work := (work_of workfun).

  Lemma fold_work_snoc data g : forall w i, fold_work data w (g ++ [i]) =
    match fold_work data w g with None => None | Some w' =>
      match nth_error data i with None => None | Some d => workfun w' d end end.
  Proof.
    induction g as [|j g IH]; intros w i; cbn [app work_of].
    - destruct (nth_error data i); [|reflexivity]. destruct (workfun w d); reflexivity.
    - destruct (nth_error data j); [|reflexivity]. destruct (workfun w d); [|reflexivity]. apply IH.
  Qed.

  Definition gtracks (data : list D) (groups : list (list nat)) (work : list W) : Prop :=
    length work = length groups /\
    forall j, (j < length groups)%nat -> fold_work data nowork (nth j groups []) = Some (nth j work nowork).

  Lemma greedy_loop_partition data order : forall groups work cost r,
    greedy_loop costfun workfun nowork data order groups work cost = Some r ->
    gtracks data groups work -> costfun work = Some cost ->
    let '(groups', cost', work') := r in
    length groups' = length groups /\ Permutation (concat groups') (order ++ concat groups) /\
    gtracks data groups' work' /\ costfun work' = Some cost'.
  Proof.
    induction order as [|di order IH]; intros groups work cost r Hrun Ht Hcost; cbn [greedy_loop] in Hrun.
    - apply Some_inj in Hrun. subst r. auto.
    - destruct (nth_error data di) as [d|] eqn:Ed; [|discriminate].
      destruct (tg d work (seq 0 (length work)) None) as [[[[i iw] ic]|]|] eqn:Et; try discriminate.
      destruct (try_groups_spec _ _ _ _ _ Et) as [_ H2]; [discriminate| |].
      { apply Forall_forall. intros j Hj. apply in_seq in Hj. lia. }
      destruct (H2 _ _ _ eq_refl) as ([Hw Hc] & Hi & _ & _). destruct Ht as [Hl Ht].
      specialize (IH _ _ _ _ Hrun). destruct r as [[groups' cost'] work'].
      destruct IH as (A & B & C & E).
      + split; [rewrite upd_length, push_length; exact Hl|]. intros j Hj. rewrite push_length in Hj.
        unfold push. rewrite !upd_nth by lia. destruct (Nat.eqb i j) eqn:Eij; [|now apply Ht].
        apply Nat.eqb_eq in Eij. subst j. rewrite fold_work_snoc, (Ht i) by lia. rewrite Ed. exact Hw.
      + exact Hc.
      + rewrite push_length in A. split; [exact A|]. split; [|auto].
        rewrite B. rewrite (push_concat groups i di) by lia. symmetry. apply Permutation_middle.
  Qed.

  Lemma greedy_split_partition data n order r : Permutation order (seq 0 (length data)) ->
    greedy_split costfun workfun nowork data n order = Some r ->
    let '(groups, cost, work) := r in
    length groups = n /\ Permutation (concat groups) (seq 0 (length data)) /\
    length work = n /\ (forall j, (j < n)%nat -> fold_work data nowork (nth j groups []) = Some (nth j work nowork)) /\
    costfun work = Some cost.
  Proof.
    intros HP. unfold greedy_split. destruct (standalone _ _ _ n data); [|discriminate].
    destruct (costfun (repeat nowork n)) as [c|] eqn:Ec; [|discriminate]. intros Hrun.
    apply greedy_loop_partition in Hrun; [|split; [now rewrite !repeat_length|]|exact Ec].
    - destruct r as [[groups cost] work]. destruct Hrun as (A & B & (C1 & C2) & E).
      rewrite repeat_length in A. split; [exact A|].
      split; [rewrite B, concat_repeat_nil, app_nil_r; exact HP|].
      split; [lia|]. split; [|exact E]. intros j Hj. apply C2. lia.
    - intros j Hj. rewrite !nth_repeat. reflexivity.
  Qed.
End GreedyP.

(** costfun = max *)
Lemma qmax_from_spec l : forall m, (m <= qmax_from m l)%Q /\ Forall (fun x => (x <= qmax_from m l)%Q) l /\
  (qmax_from m l = m \/ In (qmax_from m l) l).
Proof.
  induction l as [|x l IH]; intros m; cbn [qmax_from].
  - split; [lra|]. split; [constructor|now left].
  - destruct (qltb_spec m x) as [H|H].
    + destruct (IH x) as (A & B & C). split; [lra|]. split; [constructor; [lra|exact B]|].
      right. destruct C as [C|C]; [left; auto|now right].
    + destruct (IH m) as (A & B & C). split; [lra|]. split; [constructor; [lra|exact B]|].
      destruct C as [C|C]; [left; auto|right; now right].
Qed.

Lemma pymax_spec l m : pymax l = Some m -> In m l /\ Forall (fun x => (x <= m)%Q) l.
Proof.
  destruct l as [|x l]; [discriminate|]. cbn [pymax]. intros H. apply Some_inj in H. subst m.
  destruct (qmax_from_spec l x) as (A & B & C). split; [|constructor; assumption].
  destruct C as [C|C]; [left; auto|now right].
Qed.

Lemma pymax_some l : l <> [] -> exists m, pymax l = Some m.
Proof. destruct l; [congruence|cbn; eauto]. Qed.

Lemma nth_In_upd (l : list Q) i v k : (i < length l)%nat -> (k < length l)%nat -> In (if Nat.eqb i k then v else nth k l 0%Q) (upd l i v).
Proof.
  intros Hi Hk. rewrite <- (upd_nth l i k v 0%Q Hi). apply nth_In. now rewrite upd_length.
Qed.

(* choosing the group with the smallest resulting maximum keeps the balance *)
Lemma balanced_max_step W work i x v ic m0 : balanced W work -> (i < length work)%nat -> (0 <= x)%Q -> (x <= W)%Q ->
  (v == x + nth i work 0)%Q -> pymax (upd work i v) = Some ic -> pymax work = Some m0 ->
  (forall k, (k < length work)%nat -> exists vk ck, (vk == x + nth k work 0)%Q /\ pymax (upd work k vk) = Some ck /\ (ic <= ck)%Q) ->
  balanced W (upd work i v).
Proof.
  intros Hb Hi H0 HW Hv Hic Hm0 Hall.
  apply pymax_spec in Hm0 as [Hin0 Hmax0]. rewrite Forall_forall in Hmax0.
  assert (Hle0 : forall k, (k < length work)%nat -> (nth k work 0 <= m0)%Q) by (intros; apply Hmax0; now apply nth_In).
  apply (In_nth _ _ 0%Q) in Hin0 as (l & Hl & El). subst m0.
  apply pymax_spec in Hic as [Hini Hmaxi]. rewrite Forall_forall in Hmaxi.
  assert (Hvi : (v <= ic)%Q).
  { apply Hmaxi. pose proof (nth_In_upd work i v i Hi Hi) as G. now rewrite Nat.eqb_refl in G. }
  destruct (Qlt_le_dec (nth l work 0%Q) v) as [Hgt|Hle].
  - (* lightest *)
    eapply balanced_step; [exact Hb| |exact H0|exact HW|lra].
    split; [exact Hi|]. intros k Hk. destruct (Hall k Hk) as (vk & ck & Evk & Hck & Hicck).
    apply pymax_spec in Hck as [Hink Hmaxk].
    apply (In_nth _ _ 0%Q) in Hink as (j & Hj & Ej). rewrite upd_length in Hj. rewrite upd_nth in Ej by exact Hk.
    destruct (Nat.eqb k j) eqn:Ekj; subst ck.
    + lra.
    + pose proof (Hle0 j Hj). lra.
  - intros a b Ha Hb'. rewrite upd_length in Ha, Hb'. rewrite !upd_nth by exact Hi.
    pose proof (Hb a b Ha Hb'). pose proof (Hb l b Hl Hb'). pose proof (Hb a i Ha Hi).
    destruct (Nat.eqb i a) eqn:E1, (Nat.eqb i b) eqn:E2; lra.
Qed.

Lemma greedy_max_balanced W data order : forall groups work cost r,
  Forall (fun x => 0 <= x <= W)%Q data ->
  greedy_loop pymax (fun w x => Some (x + w)%Q) 0%Q data order groups work cost = Some r ->
  length work = length groups -> balanced W work -> balanced W (snd r).
Proof.
  induction order as [|di order IH]; intros groups work cost r HF Hrun Hlen Hb; cbn [greedy_loop] in Hrun.
  - apply Some_inj in Hrun. subst r. exact Hb.
  - destruct (nth_error data di) as [d|] eqn:Ed; [|discriminate].
    destruct (try_groups _ _ _ d work (seq 0 (length work)) None) as [[[[i iw] ic]|]|] eqn:Et; try discriminate.
    destruct (try_groups_spec _ _ _ _ _ _ _ _ Et) as [_ H2]; [discriminate| |].
    { apply Forall_forall. intros j Hj. apply in_seq in Hj. lia. }
    destruct (H2 _ _ _ eq_refl) as ([Hw Hc] & Hi & _ & Hall). cbn beta in Hw. apply Some_inj in Hw.
    eapply IH; [exact HF|exact Hrun|rewrite upd_length, push_length; exact Hlen|].
    rewrite Forall_forall in HF. destruct (HF d) as [H0 HW]; [eapply nth_error_In; eauto|].
    destruct (pymax_some work) as [m0 Hm0]; [intros ->; cbn in Hi; lia|].
    eapply balanced_max_step; [exact Hb|exact Hi|exact H0|exact HW| |exact Hc|exact Hm0|].
    + rewrite <- Hw. reflexivity.
    + intros k Hk. rewrite Forall_forall in Hall. destruct (Hall k) as (iw' & ic' & [Hw' Hc'] & Hle); [apply in_seq; lia|].
      cbn beta in Hw'. apply Some_inj in Hw'. exists iw', ic'. split; [rewrite <- Hw'; reflexivity|]. auto.
Qed.

Lemma try_groups_max_some d work is : forall best, work <> [] ->
  exists r, try_groups pymax (fun w x => Some (x + w)%Q) 0%Q d work is best = Some r.
Proof.
  induction is as [|i is IH]; intros best Hne; cbn [try_groups]; [eauto|].
  destruct (pymax_some (upd work i (d + nth i work 0)%Q)) as [m Hm].
  { intros E. assert (L : length work = O) by (rewrite <- (upd_length work i (d + nth i work 0)%Q), E; reflexivity).
    destruct work; [congruence|discriminate]. }
  rewrite Hm. apply IH. exact Hne.
Qed.

Lemma greedy_max_total data order : forall groups work cost, Forall (fun i => (i < length data)%nat) order ->
  work <> [] -> exists r, greedy_loop pymax (fun w x => Some (x + w)%Q) 0%Q data order groups work cost = Some r.
Proof.
  induction order as [|di order IH]; intros groups work cost HF Hne; cbn [greedy_loop]; [eauto|].
  inversion HF as [|? ? Hdi HF']; subst.
  destruct (nth_error data di) as [d|] eqn:Ed; [|apply nth_error_None in Ed; lia].
  destruct (try_groups_max_some d work (seq 0 (length work)) None Hne) as [r Hr]. rewrite Hr.
  destruct r as [[[i iw] ic]|].
  - apply IH; [exact HF'|]. intros E. assert (L : length work = O) by (rewrite <- (upd_length work i iw), E; reflexivity).
    destruct work; [congruence|discriminate].
  - exfalso. destruct (try_groups_spec _ _ _ _ _ _ _ _ Hr) as [H1 _]; [discriminate| |].
    + apply Forall_forall. intros j Hj. apply in_seq in Hj. lia.
    + destruct (H1 eq_refl) as [H _]. destruct work; [congruence|discriminate].
Qed.

Lemma fold_work_sum data g : forall w s, work_of (fun w x => Some (x + w)%Q) data w g = Some s -> (s == w + gsum data g)%Q.
Proof.
  induction g as [|i g IH]; intros w s; cbn [work_of].
  - intros H. apply Some_inj in H. subst. unfold gsum. cbn. lra.
  - destruct (nth_error data i) as [d|] eqn:Ed; [|discriminate]. intros H. apply IH in H.
    unfold gsum in *. cbn [map qsum]. unfold wt at 1. rewrite (nth_error_nth _ _ 0%Q Ed). lra.
Qed.

Lemma standalone_max n data : exists cs, standalone pymax (fun w x => Some (x + w)%Q) 0%Q (S n) data = Some cs.
Proof.
  induction data as [|d data (cs & IH)]; cbn [standalone]; [eauto|].
  destruct (pymax_some ((d + 0)%Q :: repeat 0%Q n)) as [m Hm]; [discriminate|]. rewrite Hm, IH. eauto.
Qed.

Lemma greedy_split_max_spec data n order : (0 < n)%nat -> Permutation order (seq 0 (length data)) ->
  exists groups cost work, greedy_split_max data n order = Some (groups, cost, work) /\ good_split data n groups.
Proof.
  intros Hn HP. destruct n as [|n]; [lia|].
  assert (Hex : exists r, greedy_split_max data (S n) order = Some r).
  { unfold greedy_split_max, greedy_split. destruct (standalone_max n data) as [cs Hcs]. rewrite Hcs.
    destruct (pymax_some (repeat 0%Q (S n))) as [m Hm]; [discriminate|]. rewrite Hm.
    apply greedy_max_total; [|discriminate]. apply Forall_forall. intros i Hi. apply (Permutation_in _ HP) in Hi.
    apply in_seq in Hi. lia. }
  destruct Hex as [[[groups cost] work] Hrun]. exists groups, cost, work. split; [exact Hrun|].
  pose proof (greedy_split_partition _ _ _ _ _ _ _ HP Hrun) as (A & B & C & E & _).
  split; [exact A|]. split; [exact B|]. intros W HF HW g g' Hg Hg'.
  assert (Hb : balanced W work).
  { unfold greedy_split_max, greedy_split in Hrun. destruct (standalone_max n data) as [cs Hcs]. rewrite Hcs in Hrun.
    destruct (pymax_some (repeat 0%Q (S n))) as [m Hm]; [discriminate|]. rewrite Hm in Hrun.
    change work with (snd (groups, cost, work)).
    eapply greedy_max_balanced; [exact HF|exact Hrun|now rewrite !repeat_length|now apply balanced_init]. }
  eapply balanced_groups; [|exact Hb|exact Hg|exact Hg'].
  split; [lia|]. intros j Hj. specialize (E j ltac:(lia)). apply fold_work_sum in E. lra.
Qed.

Lemma greedy_default_fails data n order : (2 <= n)%nat -> greedy_split_default data n order = None.
Proof.
  intros Hn. destruct n as [|[|n]]; try lia. unfold greedy_split_default, greedy_split.
  destruct data as [|d data]; cbn [standalone]; reflexivity.
Qed.
