From Coq Require Import List Arith Reals Lia Lra.
From Verif Require Import RgbSpec RgbModel.
Import ListNotations.
Open Scope R_scope.
Ltac Zify.zify_post_hook ::= idtac.

Lemma npmax_spec : forall l m, largest (m :: l) (npmax m l).
Proof.
  induction l as [|a l IH]; intros m; cbn [npmax]; [split; [now left|intros b [<-|[]]; lra]|]. destruct (IH (Rmax m a)) as [I U]. split.
  - destruct I as [I|I]; [|right; now right]. revert I. generalize (npmax (Rmax m a) l). intros y <-. unfold Rmax. destruct (Rle_dec m a); [right; now left|now left].
  - pose proof (U (Rmax m a) (or_introl eq_refl)). pose proof (Rmax_l m a). pose proof (Rmax_r m a). intros b [<-|[<-|B]]; [lra|lra|apply U; now right].
Qed.
Lemma largest_unique beam m m' : largest beam m -> largest beam m' -> m = m'.
Proof. intros [A B] [C D]. specialize (B m' C). specialize (D m A). lra. Qed.
Lemma false_spec v beam : match first_false (map (isabove v) beam) with Some c => first_low beam v c | None => forall b, In b beam -> v < b end.
Proof.
  induction beam as [|b beam IH]; cbn [map first_false]; [intros b []|]. unfold isabove at 1. destruct (Rlt_dec v b) as [L|L].
  - destruct (first_false _) as [c|]; cbn [option_map].
    + destruct IH as (A & B & C). split; [cbn; lia|]. split; [exact B|]. intros [|k] K; [exact L|]. apply C. lia.
    + intros b' [<-|I]; [exact L|now apply IH].
  - split; [cbn; lia|]. split; [cbn; lra|]. intros k K. lia.
Qed.
Lemma low_unique beam v c c' : first_low beam v c -> first_low beam v c' -> c = c'.
Proof. intros (A & B & C) (A' & B' & C'). destruct (lt_eq_lt_dec c c') as [[L|E]|L]; [specialize (C' c L); lra|exact E|specialize (C c' L); lra]. Qed.
(* the general case: the beam starts above the cut and falls below it at c *)
Lemma general beam cutoff nl m c : largest beam m -> first_low beam (m * cutoff) c -> (0 < c)%nat -> forall n, n = match nl with Some n => n | None => length beam end ->
  regularize_beam beam cutoff nl = if Nat.ltb n c then Some (firstn n beam) else if Nat.leb n c then None else Some (map (fun l => if Nat.ltb l c then nth l beam 0 else m * cutoff * Rpower (INR (Nat.max 1 l) / INR c) (2 * ln cutoff)) (seq 0 n)).
Proof.
  intros M F C n ->. destruct beam as [|b0 rest]; [destruct M as [[] _]|]. unfold regularize_beam. rewrite (largest_unique _ _ m (npmax_spec rest b0) M). unfold argmin. pose proof (false_spec (m * cutoff) (b0 :: rest)) as S. destruct (first_false _) as [c'|].
  - rewrite (low_unique _ _ c' c S F). cbv zeta. destruct (Nat.eqb_spec c 0); [lia|]. reflexivity.
  - exfalso. destruct F as (A & B & _). specialize (S _ (nth_In (b0 :: rest) 0 A)). lra.
Qed.
Lemma general_nth beam cutoff nl m c out l : largest beam m -> first_low beam (m * cutoff) c -> (0 < c)%nat -> regularize_beam beam cutoff nl = Some out -> (l < length out)%nat ->
  nth l out 0 = if Nat.ltb l c then nth l beam 0 else m * cutoff * Rpower (INR l / INR c) (2 * ln cutoff).
Proof.
  intros M F C R L. rewrite (general beam cutoff nl m c M F C _ eq_refl) in R. set (n := match nl with Some n => n | None => length beam end) in *. clearbody n. destruct (Nat.ltb_spec n c) as [H|H].
  - injection R as <-. rewrite firstn_length in L. destruct (Nat.ltb_spec l c); [|lia]. rewrite <- (firstn_skipn n beam) at 2. rewrite app_nth1 by (rewrite firstn_length; lia). reflexivity.
  - destruct (Nat.leb_spec n c) as [|H1]; [discriminate|]. injection R as <-. rewrite map_length, seq_length in L. set (f := fun l => _). rewrite (nth_indep _ 0 (f 0%nat)) by (rewrite map_length, seq_length; exact L). rewrite map_nth, seq_nth by exact L. unfold f. cbn [Nat.add]. destruct (Nat.ltb_spec l c); [reflexivity|]. destruct l; [lia|reflexivity].
Qed.
(* C155 the length is as asked for *)
Theorem C155_length beam cutoff nl m c out : largest beam m -> first_low beam (m * cutoff) c -> (0 < c)%nat -> regularize_beam beam cutoff nl = Some out -> length out = match nl with Some n => n | None => length beam end.
Proof.
  intros M F C R. rewrite (general beam cutoff nl m c M F C _ eq_refl) in R. set (n := match nl with Some n => n | None => length beam end) in *. clearbody n. destruct F as (FL & _). destruct (Nat.ltb_spec n c) as [H|H].
  - injection R as <-. rewrite firstn_length. lia.
  - destruct (Nat.leb_spec n c); [discriminate|]. injection R as <-. now rewrite map_length, seq_length.
Qed.
(* up to the place where the beam falls below the cut it is kept *)
Theorem C155_keep beam cutoff nl m c out l : largest beam m -> first_low beam (m * cutoff) c -> (0 < c)%nat -> regularize_beam beam cutoff nl = Some out -> (l < length out)%nat -> (l < c)%nat -> nth l out 0 = nth l beam 0 /\ m * cutoff < nth l out 0.
Proof.
  intros M F C R L K. rewrite (general_nth beam cutoff nl m c out l M F C R L). destruct (Nat.ltb_spec l c); [|lia]. split; [reflexivity|]. now apply F.
Qed.
Lemma rpower_le a b p : 0 < a -> a <= b -> p <= 0 -> Rpower b p <= Rpower a p.
Proof.
  intros A B P. unfold Rpower. assert (ln a <= ln b) as L by (destruct (Req_dec a b) as [->|N]; [lra|left; apply ln_increasing; lra]). pose proof (Rmult_le_compat_neg_l p _ _ P L) as Q. destruct (Req_dec (p * ln b) (p * ln a)) as [->|N]; [lra|]. left. apply exp_increasing. lra.
Qed.
(* from there on it is positive, starts at the cut and falls *)
Theorem C155_tail beam cutoff nl m c out l k : largest beam m -> 0 < m -> 0 < cutoff < 1 -> first_low beam (m * cutoff) c -> (0 < c)%nat -> regularize_beam beam cutoff nl = Some out -> (c <= l <= k)%nat -> (k < length out)%nat ->
  0 < nth k out 0 <= nth l out 0 /\ nth l out 0 <= m * cutoff /\ nth c out 0 = m * cutoff.
Proof.
  intros M PM CU F C R L K. rewrite !(general_nth beam cutoff nl m c out _ M F C R) by lia. destruct (Nat.ltb_spec l c); [lia|]. destruct (Nat.ltb_spec k c); [lia|]. destruct (Nat.ltb_spec c c); [lia|]. assert (V : 0 < m * cutoff) by (apply Rmult_lt_0_compat; lra). assert (C0 : 0 < INR c) by (apply lt_0_INR; lia). assert (P : 2 * ln cutoff <= 0) by (pose proof (ln_increasing cutoff 1 ltac:(lra) ltac:(lra)); rewrite ln_1 in *; lra).
  assert (Q : forall a b, (c <= a <= b)%nat -> Rpower (INR b / INR c) (2 * ln cutoff) <= Rpower (INR a / INR c) (2 * ln cutoff)).
  { intros a b AB. apply rpower_le; [apply Rdiv_lt_0_compat; [apply lt_0_INR; lia|exact C0]| |exact P]. apply Rmult_le_compat_r; [left; now apply Rinv_0_lt_compat|apply le_INR; lia]. }
  assert (ONE : Rpower (INR c / INR c) (2 * ln cutoff) = 1) by (unfold Rdiv; rewrite Rinv_r by lra; unfold Rpower; rewrite ln_1, Rmult_0_r, exp_0; reflexivity).
  pose proof (Q l k ltac:(lia)) as Q1. pose proof (Q c l ltac:(lia)) as Q2. rewrite ONE in *. split; [split; [apply Rmult_lt_0_compat; [exact V|apply exp_pos]|apply Rmult_le_compat_l; lra]|]. split; [|ring]. rewrite <- (Rmult_1_r (m * cutoff)) at 2. apply Rmult_le_compat_l; lra.
Qed.
(* the ratio of two such beams is constant where both are replaced *)
Theorem C155_ratio beam beam' cutoff nl nl' m m' c c' out out' l k : largest beam m -> largest beam' m' -> first_low beam (m * cutoff) c -> first_low beam' (m' * cutoff) c' -> (0 < c)%nat -> (0 < c')%nat ->
  regularize_beam beam cutoff nl = Some out -> regularize_beam beam' cutoff nl' = Some out' -> (c <= l)%nat -> (c' <= l)%nat -> (c <= k)%nat -> (c' <= k)%nat -> (l < length out)%nat -> (l < length out')%nat -> (k < length out)%nat -> (k < length out')%nat ->
  nth l out 0 * nth k out' 0 = nth k out 0 * nth l out' 0.
Proof.
  intros M M' F F' C C' R R' L1 L2 K1 K2 L3 L4 K3 K4. rewrite !(general_nth beam cutoff nl m c out _ M F C R) by lia. rewrite !(general_nth beam' cutoff nl' m' c' out' _ M' F' C' R') by lia. destruct (Nat.ltb_spec l c); [lia|]. destruct (Nat.ltb_spec k c); [lia|]. destruct (Nat.ltb_spec l c'); [lia|]. destruct (Nat.ltb_spec k c'); [lia|].
  assert (P : forall a d, (0 < a)%nat -> (0 < d)%nat -> Rpower (INR a / INR d) (2 * ln cutoff) = Rpower (INR a) (2 * ln cutoff) * Rpower (/ INR d) (2 * ln cutoff)). { intros a d A D. unfold Rdiv. rewrite Rpower_mult_distr; [reflexivity|apply lt_0_INR; lia|apply Rinv_0_lt_compat, lt_0_INR; lia]. }
  rewrite !P by lia. ring.
Qed.
(* the replacement exists whenever more than c values are wanted, or fewer *)
Theorem C155_total_partial beam cutoff nl m c : largest beam m -> first_low beam (m * cutoff) c -> (0 < c)%nat -> match nl with Some n => n | None => length beam end <> c -> exists out, regularize_beam beam cutoff nl = Some out.
Proof.
  intros M F C N. rewrite (general beam cutoff nl m c M F C _ eq_refl). set (n := match nl with Some n => n | None => length beam end) in *. clearbody n. destruct (Nat.ltb_spec n c); [eexists; reflexivity|]. destruct (Nat.leb_spec n c); [lia|]. eexists. reflexivity.
Qed.
(* just c values are an error *)
Theorem C155_total_refuted beam cutoff m c : largest beam m -> first_low beam (m * cutoff) c -> (0 < c)%nat -> regularize_beam beam cutoff (Some c) = None.
Proof. intros M F C. rewrite (general beam cutoff (Some c) m c M F C c eq_refl). rewrite Nat.ltb_irrefl, Nat.leb_refl. reflexivity. Qed.
(* a beam that never falls below the cut still has its last value replaced by the cut *)
Theorem C155_last beam cutoff m : largest beam m -> (2 <= length beam)%nat -> (forall b, In b beam -> m * cutoff < b) -> exists out, regularize_beam beam cutoff None = Some out /\ nth (length beam - 1) out 0 = m * cutoff /\ m * cutoff < nth (length beam - 1) beam 0.
Proof.
  intros M L H. destruct beam as [|b0 rest]; [cbn in L; lia|]. unfold regularize_beam. rewrite (largest_unique _ _ m (npmax_spec rest b0) M). unfold argmin. pose proof (false_spec (m * cutoff) (b0 :: rest)) as S. destruct (first_false _) as [c|].
  - exfalso. destruct S as (A & B & _). specialize (H _ (nth_In (b0 :: rest) 0 A)). lra.
  - cbn [Nat.eqb]. rewrite map_length. set (n := length (b0 :: rest)) in *. assert (NV : (n - 1 < n)%nat) by lia. destruct (Nat.ltb_spec n (n - 1)); [lia|]. destruct (Nat.leb_spec n (n - 1)); [lia|]. eexists. split; [reflexivity|]. split; [|apply H, nth_In; exact NV]. set (f := fun l => _). rewrite (nth_indep _ 0 (f 0%nat)) by (rewrite map_length, seq_length; exact NV). rewrite map_nth, seq_nth by exact NV. unfold f. cbn [Nat.add]. destruct (Nat.ltb_spec (n - 1) (n - 1)); [lia|]. rewrite Nat.max_r by lia. unfold Rdiv. rewrite Rinv_r by (apply not_0_INR; lia). unfold Rpower. rewrite ln_1, Rmult_0_r, exp_0. ring.
Qed.
Print Assumptions C155_length. Print Assumptions C155_keep. Print Assumptions C155_tail. Print Assumptions C155_ratio. Print Assumptions C155_total_partial. Print Assumptions C155_total_refuted. Print Assumptions C155_last.
Example C155_ex_hyps : largest [2; 1; 1 / 100; 0] 2 /\ first_low [2; 1; 1 / 100; 0] (2 * (1 / 10)) 2.
Proof.
  split; [split; [now left|intros b [<-|[<-|[<-|[<-|[]]]]]; lra]|]. split; [cbn; lia|]. cbn [nth]. split; [lra|]. intros [|[|k]] K; cbn [nth]; [lra|lra|lia].
Qed.
Example C155_ex : exists out, regularize_beam [2; 1; 1 / 100; 0] (1 / 10) None = Some out /\ nth 1 out 0 = 1 /\ nth 2 out 0 = 2 * (1 / 10).
Proof.
  destruct C155_ex_hyps as [M F]. destruct (C155_total_partial _ (1 / 10) None 2 2 M F ltac:(lia) ltac:(cbn; lia)) as [out R]. exists out. pose proof (C155_length _ _ _ _ _ _ M F ltac:(lia) R) as L. cbn in L. split; [exact R|]. split.
  - rewrite (proj1 (C155_keep _ _ _ _ _ _ 1%nat M F ltac:(lia) R ltac:(lia) ltac:(lia))). reflexivity.
  - apply (C155_tail _ (1 / 10) None 2 2%nat out 2%nat 2%nat M ltac:(lra) ltac:(lra) F ltac:(lia) R ltac:(lia) ltac:(lia)).
Qed.
