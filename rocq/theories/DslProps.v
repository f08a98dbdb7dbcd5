From Coq Require Import List Arith Reals Lia Lra.
From Verif Require Import DslSpec DslModel.
Import ListNotations.
Open Scope R_scope.
Ltac Zify.zify_post_hook ::= idtac.

Lemma subline_length k s o l : length (subline k s o l) = length l.
Proof. revert k. induction l as [|x l IH]; intros k; cbn [subline length]; [reflexivity|now rewrite IH]. Qed.
Lemma subline_firstn w : forall k s o l, firstn w (subline k s o l) = subline k s o (firstn w l).
Proof. induction w as [|w IH]; intros k s o [|x l]; cbn [subline firstn]; try reflexivity. now rewrite IH. Qed.
Lemma subline_skipn m : forall k s o l, skipn m (subline k s o l) = subline (k + m) s o (skipn m l).
Proof.
  induction m as [|m IH]; intros k s o l; [rewrite Nat.add_0_r; reflexivity|]. destruct l as [|x l]; cbn [subline skipn]; [reflexivity|]. rewrite IH. f_equal. lia.
Qed.
Lemma subline_total l : forall k s o, total (subline k s o l) = total l - (INR (length l) * (INR k * s + o) + s * (INR (length l) * (INR (length l) - 1) / 2)).
Proof.
  induction l as [|x l IH]; intros k s o; cbn [subline total length]; [cbn [INR]; lra|]. rewrite IH, !S_INR. field.
Qed.
Lemma subline_nth l : forall k s o i, (i < length l)%nat -> nth i (subline k s o l) 0 = nth i l 0 - (INR (k + i) * s + o).
Proof.
  induction l as [|x l IH]; intros k s o i I; cbn [length] in I; [lia|]. destruct i as [|i]; cbn [subline nth]; [now rewrite Nat.add_0_r|]. rewrite IH by lia. do 4 f_equal. lia.
Qed.
Lemma avg_mean l : avg l = mean l.
Proof. unfold avg, mean. f_equal. Qed.
Lemma last_tail w l : (w <= length l)%nat -> last_of w l = tailw w l.
Proof. intros W. unfold last_of, tailw. rewrite firstn_rev, rev_involutive. reflexivity. Qed.
Lemma subline_mean l k s o : l <> [] -> mean (subline k s o l) = mean l - (INR k * s + o + s * (INR (length l) - 1) / 2).
Proof.
  intros N. unfold mean. rewrite subline_length, subline_total. assert (INR (length l) <> 0) by (apply not_0_INR; destruct l; [congruence|cbn; lia]). field. assumption.
Qed.
(* C161 what is removed is a straight line *)
Theorem C161_line w d out : (1 <= w <= length d)%nat -> deslope w d = Some out -> length out = length d /\ exists s o, forall i, (i < length d)%nat -> nth i out 0 = nth i d 0 - (o + s * INR i).
Proof.
  intros W. unfold deslope. destruct (_ || _)%bool; [discriminate|]. intros E. injection E as <-. rewrite subline_length. split; [reflexivity|]. match goal with |- context [subline 0 ?s ?o d] => exists s, o end. intros i I. rewrite subline_nth by exact I. rewrite Nat.add_0_l. ring.
Qed.
Lemma ends w d out : (1 <= w <= length d)%nat -> deslope w d = Some out -> let s := (mean (last_of w d) - mean (first_of w d)) / (INR (length d) - 1) in
  mean (first_of w out) = - (s * (INR w - 1) / 2) /\ mean (last_of w out) = s * (INR w - 1) / 2.
Proof.
  intros W. unfold deslope. destruct (Nat.eqb_spec w 0); [lia|]. destruct (Nat.leb_spec (length d) 1); [discriminate|]. cbn [orb]. intros E. injection E as <-. cbv zeta. rewrite !last_tail by (rewrite ?subline_length; lia). rewrite (avg_mean (firstn w d)), (avg_mean (tailw w d)). unfold first_of. set (a := mean (firstn w d)). set (b := mean (tailw w d)). set (s := (b - a) / (INR (length d) - 1)). assert (N : INR (length d) - 1 <> 0) by (assert (1 < INR (length d)) by (change 1 with (INR 1); apply lt_INR; lia); lra). split.
  - rewrite subline_firstn, subline_mean by (intros Z; apply (f_equal (@length R)) in Z; rewrite firstn_length in Z; cbn in Z; lia). rewrite firstn_length, Nat.min_l by lia. fold a. cbn [INR]. lra.
  - unfold tailw. rewrite subline_length, subline_skipn, subline_mean by (intros Z; apply (f_equal (@length R)) in Z; rewrite skipn_length in Z; cbn in Z; lia). rewrite skipn_length. replace (length d - (length d - w))%nat with w by lia. fold (tailw w d). fold b. rewrite Nat.add_0_l, minus_INR by lia. assert (B : b = a + s * (INR (length d) - 1)) by (unfold s; field; exact N). rewrite B. field.
Qed.
Lemma skip_last (d : list R) : d <> [] -> skipn (length d - 1) d = [nth (length d - 1) d 0].
Proof.
  induction d as [|x [|y q] IH]; intros N; [congruence|reflexivity|]. replace (length (x :: y :: q) - 1)%nat with (S (length (y :: q) - 1)) by (cbn [length]; lia). cbn [skipn nth]. apply IH. discriminate.
Qed.
(* with one sample at each end both ends become zero *)
Theorem C161_ends_partial d : (2 <= length d)%nat -> exists out, deslope 1 d = Some out /\ nth 0 out 0 = 0 /\ nth (length d - 1) out 0 = 0.
Proof.
  intros L. destruct (deslope 1 d) as [out|] eqn:E; [|unfold deslope in E; cbn [Nat.eqb orb] in E; destruct (Nat.leb_spec (length d) 1); [lia|discriminate]]. exists out. split; [reflexivity|]. unfold deslope in E. cbn [Nat.eqb orb] in E. destruct (Nat.leb_spec (length d) 1); [lia|]. assert (EO : forall a b : list R, Some a = Some b -> a = b) by congruence. apply EO in E. subst out. rewrite !subline_nth by lia. assert (A : avg (firstn 1 d) = nth 0 d 0) by (destruct d as [|x d]; [cbn in L; lia|]; unfold avg; cbn; field). rewrite A. split; [cbn; lra|].
  assert (B : avg (tailw 1 d) = nth (length d - 1) d 0). { unfold tailw. rewrite skip_last by (destruct d; [cbn in L; lia|discriminate]). unfold avg. cbn. field. }
  rewrite B, Nat.add_0_l, minus_INR by lia. assert (N : INR (length d) - 1 <> 0) by (assert (1 < INR (length d)) by (change 1 with (INR 1); apply lt_INR; lia); lra). cbn [INR]. field. exact N.
Qed.
(* with more samples the averages at the ends still differ, unless they were equal *)
Theorem C161_ends_refuted w d out : (2 <= w <= length d)%nat -> deslope w d = Some out -> mean (first_of w d) <> mean (last_of w d) -> mean (first_of w out) <> mean (last_of w out).
Proof.
  intros W E D H. destruct (ends w d out ltac:(lia) E) as [A B]. rewrite A, B in H. apply D. set (a := mean (first_of w d)) in *. set (b := mean (last_of w d)) in *. assert (N : 1 < INR (length d)) by (change 1 with (INR 1); apply lt_INR; lia). assert (NW : 1 < INR w) by (change 1 with (INR 1); apply lt_INR; lia). set (s := (b - a) / (INR (length d) - 1)) in *. assert (S : s * (INR w - 1) = 0) by lra. apply Rmult_integral in S. destruct S as [S|S]; [|lra]. assert (P : b - a = s * (INR (length d) - 1)) by (unfold s; field; lra). rewrite S in P. lra.
Qed.

Lemma npmin_spec : forall l m, smallest (m :: l) (npmin m l).
Proof.
  induction l as [|a l IH]; intros m; cbn [npmin]; [split; [now left|intros b [<-|[]]; lra]|]. destruct (IH (Rmin m a)) as [I U]. split.
  - destruct I as [I|I]; [|right; now right]. revert I. generalize (npmin (Rmin m a) l). intros y <-. unfold Rmin. destruct (Rle_dec m a); [now left|right; now left].
  - pose proof (U (Rmin m a) (or_introl eq_refl)). pose proof (Rmin_l m a). pose proof (Rmin_r m a). intros b [<-|[<-|B]]; [lra|lra|apply U; now right].
Qed.
Lemma npmax_spec : forall l m, greatest (m :: l) (npmax m l).
Proof.
  induction l as [|a l IH]; intros m; cbn [npmax]; [split; [now left|intros b [<-|[]]; lra]|]. destruct (IH (Rmax m a)) as [I U]. split.
  - destruct I as [I|I]; [|right; now right]. revert I. generalize (npmax (Rmax m a) l). intros y <-. unfold Rmax. destruct (Rle_dec m a); [right; now left|now left].
  - pose proof (U (Rmax m a) (or_introl eq_refl)). pose proof (Rmax_l m a). pose proof (Rmax_r m a). intros b [<-|[<-|B]]; [lra|lra|apply U; now right].
Qed.
Lemma min_unique l m m' : smallest l m -> smallest l m' -> m = m'.
Proof. intros [A B] [C D]. specialize (B m' C). specialize (D m A). lra. Qed.
Lemma max_unique l m m' : greatest l m -> greatest l m' -> m = m'.
Proof. intros [A B] [C D]. specialize (B m' C). specialize (D m A). lra. Qed.
Lemma rescale_map a lo hi mi ma : smallest a mi -> greatest a ma -> mi < ma -> rescale a lo hi = Some (map (fun v => (v - mi) / (ma - mi) * (hi - lo) + lo) a).
Proof.
  intros A B L. destruct a as [|x l]; [destruct A as [[] _]|]. unfold rescale. rewrite (min_unique _ _ mi (npmin_spec l x) A), (max_unique _ _ ma (npmax_spec l x) B). destruct (Req_EM_T ma mi); [lra|]. reflexivity.
Qed.
(* C162 the smallest and largest values become the ends of the range *)
Theorem C162_range_partial a lo hi mi ma : smallest a mi -> greatest a ma -> mi < ma -> lo <= hi -> exists out, rescale a lo hi = Some out /\ length out = length a /\ smallest out lo /\ greatest out hi.
Proof.
  intros A B L R. rewrite (rescale_map a lo hi mi ma A B L). eexists. split; [reflexivity|]. split; [apply map_length|]. set (f := fun v => (v - mi) / (ma - mi) * (hi - lo) + lo).
  assert (F1 : f mi = lo) by (unfold f; field; lra). assert (F2 : f ma = hi) by (unfold f; field; lra). assert (M : forall x y, x <= y -> f x <= f y). { intros x y XY. unfold f. apply Rplus_le_compat_r, Rmult_le_compat_r; [lra|]. unfold Rdiv. apply Rmult_le_compat_r; [left; apply Rinv_0_lt_compat; lra|lra]. }
  destruct A as [A1 A2]. destruct B as [B1 B2]. split; split.
  - rewrite <- F1. now apply in_map.
  - intros y Y. apply in_map_iff in Y. destruct Y as (x & <- & X). rewrite <- F1 at 1. apply M, A2, X.
  - rewrite <- F2. now apply in_map.
  - intros y Y. apply in_map_iff in Y. destruct Y as (x & <- & X). rewrite <- F2. apply M, B2, X.
Qed.
(* ratios of differences are kept *)
Theorem C162_linear a lo hi mi ma out i j : smallest a mi -> greatest a ma -> mi < ma -> rescale a lo hi = Some out -> (i < length a)%nat -> (j < length a)%nat -> (nth j out 0 - nth i out 0) * (ma - mi) = (nth j a 0 - nth i a 0) * (hi - lo).
Proof.
  intros A B L R I J. rewrite (rescale_map a lo hi mi ma A B L) in R. injection R as <-. set (f := fun v => (v - mi) / (ma - mi) * (hi - lo) + lo). rewrite (nth_indep _ 0 (f 0)) by (rewrite map_length; exact J). rewrite (nth_indep (map f a) 0 (f 0)) by (rewrite map_length; exact I). rewrite !map_nth. unfold f. field. lra.
Qed.
(* equal values cannot be rescaled *)
Theorem C162_constant_refuted a lo hi m : smallest a m -> greatest a m -> rescale a lo hi = None.
Proof.
  intros A B. destruct a as [|x l]; [destruct A as [[] _]|]. unfold rescale. rewrite (min_unique _ _ m (npmin_spec l x) A), (max_unique _ _ m (npmax_spec l x) B). destruct (Req_EM_T m m); [reflexivity|congruence].
Qed.
(* C163 even spacing between the ends of the box *)
Theorem C163_grid_partial lo hi n (endpoint : bool) : (if endpoint then 2 <= n else 1 <= n)%nat -> exists step, (forall i, grid lo hi n endpoint i = Some (lo + INR i * step)) /\ lo + INR (if endpoint then n - 1 else n)%nat * step = hi.
Proof.
  intros N. exists ((hi - lo) / (INR n + (if endpoint then -1 else 0))). assert (NZ : INR n + (if endpoint then -1 else 0) <> 0). { destruct endpoint; [assert (1 < INR n) by (change 1 with (INR 1); apply lt_INR; lia); lra|assert (0 < INR n) by (apply lt_0_INR; lia); lra]. } split.
  - intros i. unfold grid. destruct (Req_EM_T _ 0); [contradiction|]. f_equal. field. exact NZ.
  - destruct endpoint; [rewrite minus_INR by lia; cbn [INR]; field; lra|field; lra].
Qed.
(* a single sample with its end point is not a number *)
Theorem C163_single_refuted lo hi i : grid lo hi 1 true i = None.
Proof. unfold grid. destruct (Req_EM_T (INR 1 + -1) 0) as [E|E]; [reflexivity|]. exfalso. apply E. cbn. lra. Qed.
Print Assumptions C161_line. Print Assumptions C161_ends_partial. Print Assumptions C161_ends_refuted. Print Assumptions C162_range_partial. Print Assumptions C162_linear. Print Assumptions C162_constant_refuted. Print Assumptions C163_grid_partial. Print Assumptions C163_single_refuted.
Example C161_ex_hyps : exists out, deslope 2 [1; 2; 6; 9] = Some out /\ mean (first_of 2 [1; 2; 6; 9]) <> mean (last_of 2 [1; 2; 6; 9]).
Proof. eexists. split; [reflexivity|]. unfold mean, first_of, last_of. cbn. lra. Qed.
Example C162_ex_hyps : smallest [2; 1; 4] 1 /\ greatest [2; 1; 4] 4.
Proof. split; (split; [cbn; tauto|intros x [<-|[<-|[<-|[]]]]; lra]). Qed.
Example C163_ex : exists v, grid 0 6 4 true 2 = Some v /\ v = 4.
Proof. destruct (C163_grid_partial 0 6 4 true ltac:(cbn; lia)) as (s & G & E). exists (0 + INR 2 * s). split; [apply G|]. cbn in E |- *. lra. Qed.
