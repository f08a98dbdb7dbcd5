(* One axis: where the frequencies of a smaller grid are in a larger one, and the phases there. *)
From Coq Require Import Reals Lra Lia.
From Coquelicot Require Import Complex.
From Verif Require Import Base SliceSpec ArrModel PixModel BlockModel FresSpec FresModel FresLemmas FftSpec FftModel FftLemmas FftLemmas2 FftLemmas3 FftLemmas4 FftLemmas5 WflSpec WflModel.
Ltac Zify.zify_post_hook ::= idtac.
Open Scope R_scope. Open Scope C_scope.

Definition src (n m i : Z) : Z := if (i <? m / 2)%Z then i else (i - m + n)%Z.
Lemma fsrc_down n m i : (0 < m <= n)%Z -> (0 <= i < m)%Z -> fsrc n m i = Some (src n m i).
Proof.
  intros H Hi. unfold fsrc, src. cbv zeta. rewrite (Z.min_r n m) by lia. replace (0 <=? i)%Z with true by lia. cbn [andb].
  destruct (i <? m / 2)%Z eqn:E; [reflexivity|]. replace ((m - (m - m / 2) <=? i)%Z && (i <? m)%Z) with true by lia. reflexivity.
Qed.
Lemma src_range n m i : (0 < m <= n)%Z -> (0 <= i < m)%Z -> (0 <= src n m i < n)%Z.
Proof. intros H Hi. apply (fsrc_range n m i); [lia|lia|]. apply fsrc_down; assumption. Qed.
Lemma fsrc_up n m Y j : (0 < m <= n)%Z -> (0 <= Y < n)%Z -> fsrc m n Y = Some j -> (0 <= j < m)%Z /\ src n m j = Y.
Proof.
  intros H HY E. pose proof (half m ltac:(lia)). apply fsrc_some in E. rewrite (Z.min_l m n) in E by lia. unfold src. destruct (j <? m / 2)%Z eqn:F; lia.
Qed.
Lemma fsrc_up_src n m j : (0 < m <= n)%Z -> (0 <= j < m)%Z -> fsrc m n (src n m j) = Some j.
Proof.
  intros H Hj. pose proof (half m ltac:(lia)). unfold fsrc, src. cbv zeta. rewrite (Z.min_l m n) by lia. destruct (j <? m / 2)%Z eqn:E.
  - replace ((0 <=? j)%Z && (j <? m / 2)%Z) with true by lia. reflexivity.
  - replace ((0 <=? j - m + n)%Z && (j - m + n <? m / 2)%Z) with false by lia. replace ((n - (m - m / 2) <=? j - m + n)%Z && (j - m + n <? n)%Z) with true by lia. f_equal. lia.
Qed.
Lemma src_same n i : src n n i = i.
Proof. unfold src. destruct (_ <? _)%Z; lia. Qed.

(* signed frequencies *)
Lemma sfreq_mod n i : (0 < n)%Z -> (0 <= i < n)%Z -> sfreq n i mod n = i.
Proof.
  intros Hn Hi. unfold sfreq. destruct (2 * i <? n)%Z; [apply Z.mod_small; lia|]. replace (i - n)%Z with (i + (-1) * n)%Z by lia. rewrite Z.mod_add by lia. apply Z.mod_small. lia.
Qed.
Lemma sfreq_of n k : (0 < n)%Z -> inside n k -> sfreq n (k mod n) = k.
Proof.
  intros Hn Hk. rewrite inside_fidx by assumption. unfold sfreq, fidx, inside in *. destruct (0 <=? k)%Z eqn:E; [|]; match goal with |- (if ?b then _ else _) = _ => destruct b eqn:F end; lia.
Qed.
Lemma sfreq_fidx n k : freq_at n k = true -> sfreq n (fidx n k) = k /\ (0 <= fidx n k < n)%Z.
Proof.
  unfold freq_at, sfreq, fidx. intros H. destruct (0 <=? k)%Z eqn:E; match goal with |- (if ?b then _ else _) = _ /\ _ => destruct b eqn:F end; lia.
Qed.
Lemma fidx_sfreq n i : (0 < n)%Z -> (0 <= i < n)%Z -> freq_at n (sfreq n i) = true /\ fidx n (sfreq n i) = i.
Proof.
  unfold freq_at, sfreq, fidx. intros Hn Hi. destruct (2 * i <? n)%Z eqn:E; (destruct (0 <=? _)%Z eqn:F in |- *); lia.
Qed.
Lemma freq_inside n k : inside n k -> freq_at n k = true.
Proof. unfold inside, freq_at. lia. Qed.
Lemma inside_opp n k : inside n k -> inside n (- k).
Proof. unfold inside. lia. Qed.
Lemma opp_mod n k : (0 < n)%Z -> ((- (k mod n)) mod n = (- k) mod n)%Z.
Proof.
  intros Hn. pose proof (Z.div_mod k n ltac:(lia)) as E. replace (- (k mod n))%Z with (- k + (k / n) * n)%Z by lia. apply Z.mod_add. lia.
Qed.
Lemma src_mode n m k : (0 < m <= n)%Z -> inside m k -> src n m (k mod m) = k mod n.
Proof.
  intros H Hk. assert (Hi : (0 <= k mod m < m)%Z) by (apply Z.mod_pos_bound; lia).
  pose proof (fsrc_mode n m k (k mod m) ltac:(lia) ltac:(lia) ltac:(rewrite Z.min_r by lia; exact Hk) Hi) as E. rewrite fsrc_down in E by assumption. rewrite Z.eqb_refl in E. apply Z.eqb_eq in E. exact E.
Qed.

(* the axis agrees with the description by signed frequencies *)
Lemma axis_agree n m Y : (0 < m <= n)%Z -> (0 <= Y < n)%Z ->
  (exists j, (0 <= j < m)%Z /\ fsrc m n Y = Some j /\ freq_at m (sfreq n Y) = true /\ fidx m (sfreq n Y) = j) \/
  ((forall j, fsrc m n Y = Some j -> ~ holds_freq n m j) /\ (freq_at m (sfreq n Y) = true -> ~ holds_freq n m (fidx m (sfreq n Y)))).
Proof.
  intros H HY. destruct (Z.eq_dec n m) as [->|Ne].
  - left. exists Y. destruct (fidx_sfreq m Y ltac:(lia) HY) as [A B]. split; [exact HY|]. split; [|split; assumption]. rewrite fsrc_down by lia. rewrite src_same. reflexivity.
  - destruct (Z_lt_dec (2 * Z.abs (sfreq n Y) + 1) m) as [I|I].
    + left. set (k := sfreq n Y) in *. assert (Ik : inside m k) by exact I. exists (k mod m)%Z. split; [apply Z.mod_pos_bound; lia|]. split; [|split].
      * replace Y with (src n m (k mod m)) by (rewrite src_mode by assumption; apply sfreq_mod; lia). apply fsrc_up_src; [exact H|]. apply Z.mod_pos_bound. lia.
      * apply freq_inside, Ik.
      * symmetry. apply inside_fidx; [lia|exact Ik].
    + right. split.
      * intros j F [E|G]; [contradiction|]. destruct (fsrc_up n m Y j H HY F) as [Hj E]. apply I. set (k := sfreq m j) in *.
        assert (Y = k mod n)%Z as -> by (rewrite <- E, <- (sfreq_mod m j) by lia; fold k; apply src_mode; assumption).
        rewrite sfreq_of; [exact G|lia|]. apply (inside_le m); [lia|exact G].
      * intros F [E|G]; [contradiction|]. apply I. rewrite (proj1 (sfreq_fidx _ _ F)) in G. exact G.
Qed.

(* the phases that move between the pixel centres of the two grids *)
Definition cph (n m : Z) (i : Z) : C := phase m (offs true 0 m n) false i.
Lemma cph_same n i : (0 < n)%Z -> cph n n i = 1.
Proof.
  intros Hn. unfold cph. replace (offs true 0 n n) with 0%R; [apply phase_0|]. cbn. field. apply IZRn0, Hn.
Qed.
Lemma holds_dec n m i : (0 < m)%Z -> (0 <= i < m)%Z -> holds_freq n m i -> n = m \/ exists k, inside m k /\ i = (k mod m)%Z.
Proof. intros Hm Hi [E|E]; [left; exact E|right]. exists (sfreq m i). split; [exact E|]. symmetry. apply sfreq_mod; assumption. Qed.
Lemma src_neg n m i : (0 < m <= n)%Z -> (0 <= i < m)%Z -> holds_freq n m i -> src n m ((- i) mod m) = ((- src n m i) mod n)%Z.
Proof.
  intros H Hi G. destruct (holds_dec n m i ltac:(lia) Hi G) as [->|(k & Ik & ->)].
  - rewrite !src_same. reflexivity.
  - rewrite opp_mod by lia. rewrite !src_mode by (try assumption; apply inside_opp; assumption). rewrite opp_mod by lia. reflexivity.
Qed.
Lemma cph_neg n m i : (0 < m <= n)%Z -> (0 <= i < m)%Z -> holds_freq n m i -> cph n m ((- i) mod m) = Cconj (cph n m i).
Proof.
  intros H Hi G. destruct (holds_dec n m i ltac:(lia) Hi G) as [->|(k & Ik & ->)].
  - rewrite !cph_same by lia. symmetry. apply Cconj_RtoC.
  - rewrite opp_mod by lia. unfold cph. rewrite !phase_mode by (try lia; try assumption; apply inside_opp; assumption). rewrite <- cis_opp. f_equal. rewrite opp_IZR. ring.
Qed.
Lemma cph_back n m i : (0 < m <= n)%Z -> (0 <= i < m)%Z -> holds_freq n m i -> cph n m i * cph m n (src n m i) = 1.
Proof.
  intros H Hi G. destruct (holds_dec n m i ltac:(lia) Hi G) as [->|(k & Ik & ->)].
  - rewrite !cph_same by lia. apply Cmult_1_l.
  - rewrite src_mode by assumption. unfold cph. rewrite !phase_mode by (first [lia|assumption|apply (inside_le m); [lia|assumption]]).
    rewrite <- cis_plus, <- cis_0. f_equal. unfold offs. field. split; apply IZRn0; lia.
Qed.
