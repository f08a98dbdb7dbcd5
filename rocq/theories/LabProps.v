(* C30: grouping and labelling equal values. *)
From Coq Require Import QArith Qabs Lqa Sorting.Sorted.
From Verif Require Import Base LabSpec LabModel SplitModel FindModel FindSpec FindLemmas BlockSpec LabLemmas.
Open Scope nat_scope.

(* find_equal_groups, any tolerance: every index is in exactly one group, the members of a group are
   within tol of its first member, and the first members of different groups are further apart. *)
Theorem C30_groups : forall rows tol inds, (0 <= tol)%Q -> Forall (fun r => r <> []) rows -> is_argsort_q inds (map first_col rows) ->
  let gs := find_equal_groups rows tol inds in
  groups_partition gs (length rows) /\
  (forall g k, In g gs -> In k g -> (dist2 (nth k rows []) (nth (nth 0 g 0%nat) rows []) <= tol * tol)%Q) /\
  ForallOrdPairs (fun g h => tol * tol < dist2 (nth (nth 0 h 0%nat) rows []) (nth (nth 0 g 0%nat) rows []))%Q gs.
Proof.
  intros rows tol inds Ht Hr Hi gs. destruct (groups_spec rows tol inds Ht Hr Hi) as (G1 & G2 & G3). fold gs in G1, G2, G3. rewrite Forall_forall in G2. split; [split; [exact G1|]|split].
  - intros H. destruct (G2 [] H). congruence.
  - intros g k Hg Hk. destruct (G2 g Hg) as [_ H]. destruct (H k Hk) as [->|C]; [|apply Qle_bool_iff; exact C]. fold (leader g).
    assert (E : (dist2 (nth (leader g) rows []) (nth (leader g) rows []) <= 0)%Q) by (apply dist2_zero; [reflexivity|apply row_eq_equiv]). nra.
  - clear -G3. induction G3 as [|g l F P IH]; constructor; [|exact IH]. eapply Forall_impl; [|exact F]. cbn. intros h H. unfold closeb, leader in H. destruct (Qlt_le_dec (tol * tol) (dist2 (nth (nth 0 h 0) rows []) (nth (nth 0 g 0) rows []))) as [X|X]; [exact X|]. apply Qle_bool_iff in X. congruence.
Qed.
Print Assumptions C30_groups.

(* With no tolerance, two entries are put together exactly when their rows are equal *)
Theorem C30_groups_exact : forall rows inds ncol, 0 < ncol -> Forall (fun r => length r = ncol) rows -> is_argsort_q inds (map first_col rows) ->
  forall i j, i < length rows -> j < length rows ->
  (together (find_equal_groups rows 0 inds) i j <-> row_eq (nth i rows []) (nth j rows [])).
Proof.
  intros rows inds ncol Hc Hl Hi i j Hin Hjn.
  assert (Hr : Forall (fun r : list Q => r <> []) rows) by (eapply Forall_impl; [|exact Hl]; intros r E; destruct r; [cbn in E; lia|discriminate]).
  destruct (C30_groups rows 0%Q inds ltac:(lra) Hr Hi) as ([P NE] & M & D). set (gs := find_equal_groups rows 0 inds) in *.
  assert (L : forall k, k < length rows -> length (nth k rows []) = ncol) by (intros k Hk; rewrite Forall_forall in Hl; apply Hl, nth_In; exact Hk).
  assert (IN : forall g k, In g gs -> In k g -> k < length rows).
  { intros g k Hg Hk. assert (In k (concat gs)) as X by (apply in_concat; eauto). apply (Permutation_in _ P) in X. apply in_seq in X. lia. }
  assert (HD : forall g, In g gs -> In (nth 0 g 0) g) by (intros g Hg; destruct g; [contradiction|left; reflexivity]).
  assert (EQL : forall g k, In g gs -> In k g -> row_eq (nth k rows []) (nth (nth 0 g 0) rows [])).
  { intros g k Hg Hk. apply dist2_zero; [rewrite !L; [reflexivity|eapply IN; eauto|eapply IN; eauto]|]. specialize (M g k Hg Hk). lra. }
  pose proof row_eq_equiv as EQ. split.
  - intros (g & Hg & A & B). transitivity (nth (nth 0 g 0) rows []); [apply EQL; assumption|symmetry; apply EQL; assumption].
  - intros E.
    assert (FIND : forall k, k < length rows -> exists g, In g gs /\ In k g). { intros k Hk. apply in_concat. eapply Permutation_in; [symmetry; exact P|]. apply in_seq. lia. }
    destruct (FIND i Hin) as (g & Hg & A). destruct (FIND j Hjn) as (h & Hh & B). exists g. split; [exact Hg|]. split; [exact A|].
    assert (X : row_eq (nth (nth 0 g 0) rows []) (nth (nth 0 h 0) rows [])). { transitivity (nth i rows []); [symmetry; apply EQL; assumption|]. transitivity (nth j rows []); [exact E|apply EQL; assumption]. }
    assert (g = h) as ->; [|exact B].
    assert (FAR : forall a b, ForallOrdPairs (fun g h => 0 * 0 < dist2 (nth (nth 0 h 0%nat) rows []) (nth (nth 0 g 0%nat) rows []))%Q gs -> In a gs -> In b gs -> row_eq (nth (nth 0 a 0) rows []) (nth (nth 0 b 0) rows []) -> a = b).
    { intros a b FO Ha Hb R. assert (Z0 : (dist2 (nth (nth 0 b 0%nat) rows []) (nth (nth 0 a 0%nat) rows []) <= 0)%Q) by (apply dist2_zero; [rewrite (L (nth 0 b 0)), (L (nth 0 a 0)) by (eapply IN; [|apply HD]; eassumption); reflexivity|symmetry; exact R]).
      pose proof (dist2_sym (nth (nth 0 b 0) rows []) (nth (nth 0 a 0) rows [])) as Sy.
      destruct (ForallOrdPairs_In FO a b Ha Hb) as [E1|[E1|E1]]; [exact E1|exfalso; cbn beta in E1; rewrite Qmult_0_l in E1; lra|exfalso; cbn beta in E1; rewrite Qmult_0_l in E1; lra]. }
    apply FAR; assumption.
Qed.
Print Assumptions C30_groups_exact.

(* find_equal_groups_fast: group i is exactly the list of positions holding uvals[i], in order, and
   the uvals are exactly the values present, in increasing order *)
Theorem C30_groups_fast : forall vals order, is_stable_argsort order vals ->
  let '(uvals, ord, edges) := find_equal_groups_fast vals order in
  StronglySorted Z.lt uvals /\ (forall v, In v uvals <-> In v vals) /\ zlen edges = (zlen uvals + 1)%Z /\
  forall i u, zget uvals i = Some u ->
  exists a b, zget edges i = Some a /\ zget edges (i + 1)%Z = Some b /\ sub ord a b = filter (fun k => (nth k vals 0%Z =? u)%Z) (seq 0 (length vals)).
Proof.
  intros vals order H. pose proof (fast_spec vals order) as F. unfold find_equal_groups_fast in *. split; [apply np_unique_sorted|]. split; [|split; [|intros i u Hu; apply (F i u H Hu)]].
  - intros v. rewrite np_unique_In, in_map_iff. destruct H as [P _]. split.
    + intros (k & <- & Hk). apply (Permutation_in _ P) in Hk. apply in_seq in Hk. apply nth_In. lia.
    + intros Hv. destruct (In_nth _ _ 0%Z Hv) as (k & Hk & E). exists k. split; [exact E|]. apply (Permutation_in _ (Permutation_sym P)). apply in_seq. lia.
  - rewrite zlen_app, zlen_map. reflexivity.
Qed.
Print Assumptions C30_groups_fast.

(* label_unique without tolerances: equal labels exactly for equal rows, labels 0 .. L-1 *)
Theorem C30_label_unique : forall rows ncol, Forall (fun r => length r = ncol) rows ->
  labels_of (fun i j => row_eq (nth i rows []) (nth j rows [])) (length rows) (label_unique 0 0 rows) /\ contiguous_labels (label_unique 0 0 rows).
Proof.
  intros rows ncol Hl. unfold label_unique. set (n := length rows). set (m := fun i k => row_close 0 0 (nth i rows []) (nth k rows [])).
  assert (L : forall i j, i < n -> j < n -> length (nth i rows []) = length (nth j rows [])) by (intros i j A B; rewrite Forall_forall in Hl; rewrite !Hl by (apply nth_In; assumption); reflexivity).
  assert (ME : forall i j, i < n -> j < n -> (m i j = true <-> row_eq (nth i rows []) (nth j rows []))) by (intros i j A B; apply row_close_exact, L; assumption).
  pose proof row_eq_equiv as EQ.
  destruct (label_loop_equiv m n) as (id & I1 & I2 & I3 & I4 & I5).
  - intros i Hi. apply ME; auto. reflexivity.
  - intros i j A B C. apply ME; auto. symmetry. apply ME; auto.
  - intros i j k A B C D E. apply ME; auto. transitivity (nth j rows []); apply ME; auto.
  - set (ids := label_loop m n (seq 0 n) (repeat (-1)%Z n) 0) in *.
    assert (NN : forall k, k < n -> (0 <= nth k ids (-1) < id)%Z). { intros k Hk. destruct (I3 k Hk) as [[_ A]|[A _]]; [|exact A]. specialize (A k Hk). assert (m k k = true) by (apply ME; auto; reflexivity). congruence. }
    split; [split; [exact I1|]|].
    + intros i j Hi Hj. rewrite I4 by (auto; apply NN; auto). apply ME; auto.
    + exists id. intros l. split.
      * intros H. destruct (In_nth _ _ (-1)%Z H) as (k & Hk & <-). apply NN. lia.
      * intros H. destruct (I5 l H) as (k & Hk & <-). apply nth_In. lia.
Qed.
Print Assumptions C30_label_unique.

(* With tolerances, what holds is: everything is labelled, and entries with the same label are all
   close to one common entry. *)
Theorem C30_label_close_partial : forall rtol atol rows, (0 <= rtol)%Q -> (0 <= atol)%Q ->
  let ids := label_unique rtol atol rows in
  length ids = length rows /\
  forall l, In l ids -> (0 <= l)%Z /\ exists c, c < length rows /\ forall k, k < length rows -> nth k ids (-1)%Z = l ->
    Forall (fun p => Qabs (fst p - snd p) <= atol + rtol * Qabs (snd p))%Q (combine (nth c rows []) (nth k rows [])).
Proof.
  intros rtol atol rows H1 H2 ids. unfold label_unique in ids. destruct (label_loop_gen (fun i k => row_close rtol atol (nth i rows []) (nth k rows [])) (length rows)) as (id & I1 & I2 & I3 & I4 & lead & I5).
  - intros i _. apply row_close_refl; assumption.
  - fold ids in I1, I3, I4, I5. split; [exact I1|]. intros l Hl. destruct (In_nth _ _ (-1)%Z Hl) as (k & Hk & <-). rewrite I1 in Hk. split; [apply I4; exact Hk|].
    exists (lead (nth k ids (-1)%Z)). split; [apply I5; auto|]. intros k' Hk' E. destruct (I5 k' Hk' (I4 k' Hk')) as [_ R]. rewrite E in R. unfold row_close in R. rewrite forallb_forall in R. apply Forall_forall. intros p Hp. specialize (R p Hp). unfold isclose in R. apply Qle_bool_iff in R. exact R.
Qed.
Print Assumptions C30_label_close_partial.

(* The labels promised to count contiguously from 0 need not: with the default tolerances
   label_unique([100000,99999]) is [1,1] *)
Theorem C30_label_refuted : exists rows, label_unique (1 # 100000) (1 # 100000000) rows = [1; 1]%Z /\ ~ contiguous_labels (label_unique (1 # 100000) (1 # 100000000) rows).
Proof.
  exists [[100000]; [99999]]%Q. assert (E : label_unique (1 # 100000) (1 # 100000000) [[100000]; [99999]]%Q = [1; 1]%Z) by (vm_compute; reflexivity). split; [exact E|]. rewrite E.
  intros (L & H). assert (In 1%Z [1;1]%Z) as A by (left; reflexivity). apply H in A. assert (B : (0 <= 0 < L)%Z) by lia. apply H in B. cbn in B. lia.
Qed.
Print Assumptions C30_label_refuted.
(* ... and two entries with the same label need not be close to each other, only to a third *)
Theorem C30_label_chain_refuted : exists rows, label_unique 0 1 rows = [0; 0; 0]%Z /\ rows = [[0]; [1]; [-(1)]]%Q.
Proof. eexists. split; [|reflexivity]. vm_compute. reflexivity. Qed.
Print Assumptions C30_label_chain_refuted.

(* label_multi: equal tuples always get equal labels, and the labels are 0 .. L-1 *)
Theorem C30_label_multi_sound : forall n valss i j, Forall (fun v => length v = n) valss -> i < n -> j < n ->
  Forall (fun vals => nth i vals 0%Z = nth j vals 0%Z) valss ->
  nth i (label_multi n valss) (-1)%Z = nth j (label_multi n valss) (-1)%Z /\ contiguous_labels (label_multi n valss).
Proof.
  intros n valss i j F Hi Hj S0. unfold label_multi. split; [|apply unique_inverse_contig].
  destruct (multi_sound n valss (repeat 0%Z n) 1 i j) as [E L]; auto; [apply repeat_length| |].
  - assert (R : forall k, k < n -> nth k (repeat 0%Z n) (-1)%Z = 0%Z) by (intros k Hk; rewrite (nth_indep _ _ 0%Z) by (rewrite repeat_length; exact Hk); apply nth_repeat'). rewrite !R; auto.
  - destruct (unique_inverse_spec (label_multi_loop valss (repeat 0%Z n) 1)) as (_ & U2 & _). apply U2; [lia|lia|]. rewrite (nth_indep _ 0%Z (-1)%Z), E by lia. apply nth_indep. lia.
Qed.
Print Assumptions C30_label_multi_sound.

(* Equal labels imply equal tuples only when no column has more distinct values than the one before it *)
Theorem C30_label_multi_partial : forall n first rest i j, Forall (fun v => length v = n) (first :: rest) -> i < n -> j < n ->
  shrinking (zlen (np_unique first)) rest ->
  nth i (label_multi n (first :: rest)) (-1)%Z = nth j (label_multi n (first :: rest)) (-1)%Z ->
  Forall (fun vals => nth i vals 0%Z = nth j vals 0%Z) (first :: rest).
Proof.
  intros n first rest i j F Hi Hj Sh E. inversion F as [|? ? F1 F2]; subst. set (n := length first) in *. unfold label_multi in E.
  set (lab := label_multi_loop (first :: rest) (repeat 0%Z n) 1) in *.
  assert (Ll : length lab = n) by (apply multi_len; [apply repeat_length|exact F]).
  destruct (unique_inverse_spec lab) as (_ & U2 & _). apply U2 in E; [|lia|lia]. rewrite (nth_indep lab 0%Z (-1)%Z), (nth_indep lab 0%Z (-1)%Z) in E by lia.
  unfold lab in E. cbn [label_multi_loop] in E. fold (fused (repeat 0%Z n) 1 first) in E.
  assert (Lf : length (fused (repeat 0%Z n) 1 first) = n) by (apply fused_len; apply repeat_length).
  destruct (multi_complete n rest _ _ i j Lf F2 Hi Hj Sh E) as [E1 S1]. constructor; [|exact S1].
  rewrite !fused_nth in E1 by (rewrite ?repeat_length; auto). assert (R : forall k, k < n -> nth k (repeat 0%Z n) (-1)%Z = 0%Z) by (intros k Hk; rewrite (nth_indep _ _ 0%Z) by (rewrite repeat_length; exact Hk); apply nth_repeat').
  rewrite !R in E1 by auto. destruct (unique_inverse_spec first) as (_ & V2 & _). apply V2; [exact Hi|exact Hj|]. lia.
Qed.
Print Assumptions C30_label_multi_partial.

(* otherwise different tuples can get the same label: (0,2) and (1,0) here *)
Theorem C30_label_multi_refuted : label_multi 3 [[0; 1; 0]; [2; 0; 1]]%Z = [1; 1; 0]%Z.
Proof. vm_compute. reflexivity. Qed.
Print Assumptions C30_label_multi_refuted.

Example C30_example : find_equal_groups [[0; 1]; [1; 2]; [0; 1]; [0; 3]]%Q 0 [3; 0; 2; 1] = [[3]; [0; 2]; [1]] /\ is_argsort_q [3; 0; 2; 1] (map first_col [[0; 1]; [1; 2]; [0; 1]; [0; 3]]%Q).
Proof.
  split; [vm_compute; reflexivity|]. split.
  - cbn. apply NoDup_Permutation; [repeat constructor; cbn; lia|repeat constructor; cbn; lia|]. intros x. cbn. lia.
  - repeat constructor; unfold Qle; cbn; lia.
Qed.
Example C30_example_fast : find_equal_groups_fast [7; 5; 7; 5; 9]%Z [1; 3; 0; 2; 4] = ([5; 7; 9]%Z, [1; 3; 0; 2; 4], [0; 2; 4; 5]%Z) /\ is_stable_argsort [1; 3; 0; 2; 4] [7; 5; 7; 5; 9]%Z.
Proof.
  split; [vm_compute; reflexivity|]. split.
  - cbn. apply NoDup_Permutation; [repeat constructor; cbn; lia|repeat constructor; cbn; lia|]. intros x. cbn. lia.
  - repeat constructor; cbn; lia.
Qed.
(* the documented example of label_multi, with the strings a, b as 0, 1 *)
Example C30_example_multi : label_multi 5 [[0;0;1;1;2]; [0;1;1;1;1]]%Z = [0;1;2;2;3]%Z /\ shrinking (zlen (np_unique [0;0;1;1;2]%Z)) [[0;1;1;1;1]%Z].
Proof. split; [vm_compute; reflexivity|]. cbn. split; [discriminate|exact Logic.I]. Qed.
Example C30_example_label : label_unique 0 0 [[3; 1]; [2; 2]; [3; 1]]%Q = [0; 1; 0]%Z.
Proof. vm_compute. reflexivity. Qed.
