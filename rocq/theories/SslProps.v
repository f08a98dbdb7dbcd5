From Coq Require Import List Arith ZArith Bool Lia.
From Verif Require Import SslSpec SslModel.
Import ListNotations.
Ltac Zify.zify_post_hook ::= idtac.

Definition count (sel : list index) : nat := total (map notNone sel).
Definition pos (c acc : nat) (sel : list index) : nat := length (filter (fun x => x <=? c) (cumsum acc (map notNone sel))).

Lemma total_app a b : total (a ++ b) = total a + total b.
Proof. apply list_sum_app. Qed.
Lemma count_app a b : count (a ++ b) = count a + count b.
Proof. unfold count. now rewrite map_app, total_app. Qed.
Lemma count_full n : count (repeat full n) = n.
Proof. induction n as [|n IH]; [reflexivity|]. unfold count in *. cbn [repeat map total list_sum fold_right]. unfold total, list_sum in *. cbn [fold_right]. rewrite IH. reflexivity. Qed.
Lemma count_cons e l : count (e :: l) = notNone e + count l. Proof. reflexivity. Qed.
Lemma above c l : forall acc, c < acc -> filter (fun x => x <=? c) (cumsum acc l) = [].
Proof. induction l as [|x l IH]; intros acc H; [reflexivity|]. cbn. destruct (Nat.leb_spec (acc + x) c); [lia|]. apply IH. lia. Qed.
Lemma pos_count c sel : forall acc, acc <= c -> acc + count (firstn (pos c acc sel) sel) = Nat.min c (acc + count sel).
Proof.
  induction sel as [|e l IH]; intros acc H; [cbn; lia|]. unfold pos. cbn [map cumsum filter].
  assert (N : notNone e <= 1) by (destruct e; cbn; lia). destruct (Nat.leb_spec (acc + notNone e) c) as [L|L].
  - cbn [length firstn]. fold (pos c (acc + notNone e) l). rewrite !count_cons. specialize (IH (acc + notNone e) L). lia.
  - rewrite above by lia. cbn [length firstn]. change (count []) with 0. rewrite count_cons. lia.
Qed.
Lemma pos_le c sel : forall acc, pos c acc sel <= length sel.
Proof. intros acc. unfold pos. transitivity (length (cumsum acc (map notNone sel))); [generalize (cumsum acc (map notNone sel)); intros q; induction q as [|x q IHq]; cbn; [lia|destruct (x <=? c); cbn; lia]|]. revert acc. induction sel as [|e l IH]; intros acc; cbn; [lia|]. specialize (IH (acc + notNone e)). lia. Qed.
Lemma pos_mono c d sel acc : c <= d -> pos c acc sel <= pos d acc sel.
Proof. intros H. unfold pos. generalize (cumsum acc (map notNone sel)) as l. induction l as [|x l IH]; cbn; [lia|]. destruct (Nat.leb_spec x c); destruct (Nat.leb_spec x d); cbn; lia. Qed.
Lemma pos_all c sel : forall acc, acc + count sel <= c -> pos c acc sel = length sel.
Proof.
  induction sel as [|e l IH]; intros acc H; [reflexivity|]. rewrite count_cons in H. unfold pos. cbn [map cumsum filter]. destruct (Nat.leb_spec (acc + notNone e) c); [|lia].
  cbn [length]. f_equal. apply IH. lia.
Qed.
Lemma pos_short c sel : forall acc, acc <= c -> c < acc + count sel -> pos c acc sel < length sel.
Proof.
  intros acc A H. destruct (Nat.lt_ge_cases (pos c acc sel) (length sel)) as [|L]; [assumption|]. exfalso.
  pose proof (pos_count c sel acc A) as E. rewrite firstn_all2 in E by exact L. lia.
Qed.

(* pieces between increasing positions *)
Lemma pieces_concat sel : forall subs a, (forall i j, i <= j -> j <= length subs -> nth i (a :: subs) 0 <= nth j (a :: subs) 0) ->
  forall i, i <= length subs -> firstn a sel ++ concat (firstn i (pieces sel (a :: subs))) = firstn (nth i (a :: subs) 0) sel.
Proof.
  induction subs as [|b subs IH]; intros a M i I.
  - assert (i = 0) as -> by (cbn in I; lia). cbn. apply app_nil_r.
  - destruct i as [|i]; [cbn; apply app_nil_r|]. change (pieces sel (a :: b :: subs)) with (cut sel a b :: pieces sel (b :: subs)). cbn [firstn concat]. rewrite app_assoc.
    assert (AB : a <= b) by (specialize (M 0 1); cbn in M; apply M; lia).
    replace (firstn a sel ++ cut sel a b) with (firstn b sel).
    + cbn [nth]. apply IH; [|cbn in I; lia]. intros p q P Q. apply (M (S p) (S q)); cbn [length]; lia.
    + unfold cut. replace b with (a + (b - a)) at 1 by lia. generalize (b - a) as m. clear. intros m. revert sel. induction a as [|a IHa]; intros sel; cbn [Nat.add]; [reflexivity|]. destruct sel as [|e sel]; [cbn; rewrite firstn_nil; reflexivity|]. cbn [firstn skipn app]. f_equal. apply IHa.
Qed.
Lemma pieces_length sel : forall subs a, length (pieces sel (a :: subs)) = length subs.
Proof. induction subs as [|b subs IH]; intros a; [reflexivity|]. change (pieces sel (a :: b :: subs)) with (cut sel a b :: pieces sel (b :: subs)). cbn [length]. now rewrite IH. Qed.
Lemma cumsum_length l : forall acc, length (cumsum acc l) = length l.
Proof. induction l; intros; cbn; [reflexivity|now rewrite IHl]. Qed.
Lemma cumsum_nth l : forall acc i, i < length l -> nth i (cumsum acc l) 0 = acc + total (firstn (S i) l).
Proof. induction l as [|x l IH]; intros acc i I; [cbn in I; lia|]. destruct i as [|i]; [cbn; lia|]. cbn [cumsum nth]. rewrite IH by (cbn in I; lia). unfold total, list_sum. cbn [firstn fold_right]. lia. Qed.
Lemma total_firstn_mono l : forall i j, i <= j -> total (firstn i l) <= total (firstn j l).
Proof. induction l as [|x l IH]; intros i j H; [rewrite !firstn_nil; lia|]. destruct i as [|i]; [cbn; lia|]. destruct j as [|j]; [lia|]. specialize (IH i j ltac:(lia)). unfold total, list_sum in *. cbn [firstn fold_right]. lia. Qed.

Lemma simple_spec sel ndims : ndims <> [] ->
  (count sel <= total ndims -> exists parts, split_slice_simple sel ndims = Some parts /\ length parts = length ndims /\ concat parts = sel /\
     forall i, i <= length ndims -> count (concat (firstn i parts)) = Nat.min (total (firstn i ndims)) (count sel)) /\
  (total ndims < count sel -> split_slice_simple sel ndims = None).
Proof.
  intros NE. unfold split_slice_simple. set (cs := cumsplit (map notNone sel) ndims).
  assert (CL : length cs = length ndims) by (unfold cs, cumsplit; rewrite map_length; apply cumsum_length).
  assert (CN : forall i, i <= length ndims -> nth i (0 :: cs) 0 = if i =? 0 then 0 else pos (total (firstn i ndims)) 0 sel).
  { intros [|i] I; [reflexivity|]. cbn [nth Nat.eqb]. unfold cs, cumsplit.
    set (f := fun c => length (filter (fun x => x <=? c) (cumsum 0 (map notNone sel)))). rewrite (nth_indep _ 0 (f 0)) by (rewrite map_length, cumsum_length; lia).
    rewrite (map_nth f), cumsum_nth by lia. reflexivity. }
  assert (LA : last (0 :: cs) 0 = pos (total ndims) 0 sel).
  { assert (P : 0 < length ndims) by (destruct ndims; [congruence|cbn; lia]). transitivity (nth (length ndims) (0 :: cs) 0).
    - rewrite <- CL. assert (G : forall l d, last (d :: l) 0 = nth (length l) (d :: l) 0); [|apply G]. clear. induction l as [|x l IH]; intros d; [reflexivity|]. change (last (d :: x :: l) 0) with (last (x :: l) 0). rewrite IH. reflexivity.
    - rewrite CN by lia. destruct (Nat.eqb_spec (length ndims) 0); [lia|]. now rewrite firstn_all. }
  split; intros H; destruct ndims as [|d ds] eqn:EN; try congruence; rewrite <- EN in *; rewrite LA.
  - rewrite pos_all, Nat.ltb_irrefl by lia. eexists. split; [reflexivity|]. split; [rewrite pieces_length; exact CL|].
    assert (PC : forall i, i <= length ndims -> concat (firstn i (pieces sel (0 :: cs))) = firstn (nth i (0 :: cs) 0) sel).
    { intros i I. rewrite <- (pieces_concat sel cs 0); [reflexivity| |lia]. intros p q P Q. rewrite !CN by lia. destruct (Nat.eqb_spec p 0); [lia|]. destruct (Nat.eqb_spec q 0); [lia|]. apply pos_mono, total_firstn_mono. exact P. }
    split.
    + rewrite <- (firstn_all (pieces sel (0 :: cs))), pieces_length, CL, PC, CN by lia. destruct (Nat.eqb_spec (length ndims) 0) as [Z|_]; [rewrite EN in Z; discriminate Z|].
      rewrite firstn_all, pos_all by lia. apply firstn_all.
    + intros i I. rewrite PC, CN by exact I. destruct (Nat.eqb_spec i 0) as [->|_]; [reflexivity|]. apply (pos_count (total (firstn i ndims)) sel 0). lia.
  - destruct (Nat.ltb_spec (pos (total ndims) 0 sel) (length sel)) as [_|L]; [reflexivity|]. pose proof (pos_short (total ndims) sel 0). lia.
Qed.

(* expanding the ellipsis *)
Lemma split_free sel : ellipses sel = 0 -> Forall single sel -> listsplit sel = [sel].
Proof.
  intros E S. induction S as [|e l Se Sl IH]; [reflexivity|]. unfold ellipses in *. cbn [filter] in E. cbn [listsplit].
  destruct e; try discriminate E; cbn [iseq]; try (rewrite IH by exact E; reflexivity). destruct l0; [now cbn in Se|]. rewrite IH by exact E. reflexivity.
Qed.
Lemma split_one sel : ellipses sel = 1 -> Forall single sel -> exists a b, sel = a ++ Ellipsis :: b /\ listsplit sel = [a; b] /\ ellipses a = 0 /\ ellipses b = 0.
Proof.
  intros E S. induction S as [|e l Se Sl IH]; [discriminate E|]. unfold ellipses in E. cbn [filter] in E.
  destruct (match e with Ellipsis => true | _ => false end) eqn:B.
  - destruct e; try discriminate B. cbn in E. injection E as E. exists [], l. cbn [listsplit iseq]. rewrite (split_free l E Sl). repeat split; assumption.
  - destruct (IH E) as (a & b & -> & L & A & Bb). exists (e :: a), b. split; [reflexivity|]. cbn [listsplit]. rewrite L.
    replace (iseq e) with false by (destruct e; try discriminate B; try reflexivity; destruct l; [now cbn in Se|reflexivity]).
    repeat split; [|exact Bb]. unfold ellipses. cbn [filter]. rewrite B. exact A.
Qed.
Lemma single_count sel : Forall single sel -> ellipses sel = 0 -> count sel = consumed sel.
Proof.
  intros S E. induction S as [|e l Se Sl IH]; [reflexivity|]. unfold ellipses in *. cbn [filter] in E. rewrite count_cons. unfold consumed, total, list_sum in *. cbn [map fold_right].
  destruct e; try discriminate E; cbn [notNone axes]; rewrite IH by exact E; try reflexivity. cbn in Se. now subst.
Qed.
Lemma meaning_free m sel : ellipses sel = 0 -> meaning_from m sel = sel.
Proof. induction sel as [|e l IH]; intros E; [reflexivity|]. unfold ellipses in *. cbn [filter] in E. destruct e; try discriminate E; cbn [meaning_from]; f_equal; now apply IH. Qed.
Lemma meaning_one m a b : ellipses a = 0 -> meaning_from m (a ++ Ellipsis :: b) = a ++ repeat full m ++ b.
Proof. induction a as [|e l IH]; intros E; [reflexivity|]. unfold ellipses in *. cbn [filter] in E. destruct e; try discriminate E; cbn [meaning_from app]; f_equal; now apply IH. Qed.
Lemma consumed_app a b : consumed (a ++ b) = consumed a + consumed b.
Proof. unfold consumed. now rewrite map_app, total_app. Qed.
Lemma ellipses_app a b : ellipses (a ++ b) = ellipses a + ellipses b.
Proof. unfold ellipses. now rewrite filter_app, app_length. Qed.
Lemma ellipses_full n : ellipses (repeat full n) = 0.
Proof. induction n; [reflexivity|assumption]. Qed.
Lemma single_full n : Forall single (repeat full n).
Proof. induction n; constructor; [exact I|assumption]. Qed.

Lemma split_meaning sel ndims : Forall single sel -> ellipses sel <= 1 -> split_slice sel ndims = split_slice_simple (meaning (total ndims) sel) ndims /\
  Forall single (meaning (total ndims) sel) /\ ellipses (meaning (total ndims) sel) = 0 /\ (consumed sel <= total ndims -> consumed (meaning (total ndims) sel) <= total ndims) /\ consumed sel <= consumed (meaning (total ndims) sel).
Proof.
  intros S E. unfold split_slice, meaning. destruct (ellipses sel) as [|[|?]] eqn:N; [| |lia].
  - rewrite (split_free sel N S), (meaning_free _ sel N). cbn [length Nat.ltb Nat.leb]. repeat split; auto.
  - destruct (split_one sel N S) as (a & b & -> & L & A & B). rewrite L. cbn [length Nat.ltb Nat.leb removelast last concat]. rewrite app_nil_r, (meaning_one _ a b A).
    apply Forall_app in S. destruct S as [Sa Sb]. apply Forall_cons_iff in Sb. destruct Sb as [_ Sb].
    assert (C : consumed (a ++ Ellipsis :: b) = consumed a + consumed b) by (rewrite consumed_app; reflexivity). rewrite C.
    assert (T : total (map notNone (a ++ b)) = consumed a + consumed b) by (change (total (map notNone (a ++ b))) with (count (a ++ b)); rewrite count_app, !single_count by assumption; reflexivity). rewrite T.
    split; [reflexivity|]. split; [repeat (apply Forall_app; split); try assumption; apply single_full|]. split; [rewrite !ellipses_app, ellipses_full, A, B; reflexivity|].
    assert (F : consumed (repeat full (total ndims - (consumed a + consumed b))) = total ndims - (consumed a + consumed b)) by (rewrite <- single_count, count_full; auto using single_full, ellipses_full).
    rewrite !consumed_app, F. split; lia.
Qed.
Lemma single_sub sel sub : (exists r, sub ++ r = sel) -> Forall single sel -> ellipses sel = 0 -> count sub = consumed sub.
Proof. intros (r & <-) S E. apply Forall_app in S. rewrite ellipses_app in E. apply single_count; [tauto|lia]. Qed.

(* C128 the parts are the selection with the ellipsis spelled out, cut so that part i has the entries for the axes that belong to it *)
Theorem C128_split sel ndims : ndims <> [] -> Forall single sel -> ellipses sel <= 1 -> consumed sel <= total ndims ->
  exists parts, split_slice sel ndims = Some parts /\ length parts = length ndims /\ concat parts = meaning (total ndims) sel /\
    forall i, i <= length ndims -> consumed (concat (firstn i parts)) = Nat.min (total (firstn i ndims)) (consumed (meaning (total ndims) sel)).
Proof.
  intros NE S E C. destruct (split_meaning sel ndims S E) as (-> & SM & EM & CM & _). specialize (CM C). set (m := meaning (total ndims) sel) in *.
  destruct (simple_spec m ndims NE) as [H _]. rewrite (single_count m SM EM) in H. destruct (H CM) as (parts & P & L & K & I). exists parts. repeat split; try assumption.
  intros i Hi. rewrite <- (I i Hi). symmetry. apply (single_sub m); try assumption. exists (concat (skipn i parts)). rewrite <- concat_app, firstn_skipn. exact K.
Qed.
Print Assumptions C128_split.
(* with an ellipsis every part is complete *)
Theorem C128_complete sel ndims parts i : Forall single sel -> ellipses sel = 1 -> consumed sel <= total ndims -> split_slice sel ndims = Some parts -> i <= length ndims ->
  consumed (concat (firstn i parts)) = total (firstn i ndims).
Proof.
  intros S E C P I. destruct ndims as [|d ds] eqn:EN; [cbn in I; assert (i = 0) as -> by lia; reflexivity|]. rewrite <- EN in *.
  destruct (C128_split sel ndims) as (q & Q & _ & _ & H); try assumption; [congruence|lia|]. rewrite P in Q. injection Q as <-. rewrite (H i I). apply Nat.min_l.
  assert (consumed (meaning (total ndims) sel) = total ndims) as ->.
  { destruct (split_one sel E S) as (a & b & -> & _ & A & _). unfold meaning. assert (CC : consumed (a ++ Ellipsis :: b) = consumed a + consumed b) by (rewrite consumed_app; reflexivity). rewrite CC, (meaning_one _ a b A), !consumed_app. rewrite CC in C.
    assert (F : forall n, consumed (repeat full n) = n) by (intros n; rewrite <- single_count, count_full; auto using single_full, ellipses_full). rewrite F. lia. }
  rewrite <- (firstn_all ndims) at 2. now apply total_firstn_mono.
Qed.
Print Assumptions C128_complete.
Theorem C128_too_many sel ndims : Forall single sel -> ellipses sel <= 1 -> total ndims < consumed sel -> split_slice sel ndims = None.
Proof.
  intros S E C. destruct (split_meaning sel ndims S E) as (-> & SM & EM & _ & CM). destruct ndims as [|d ds] eqn:EN; [reflexivity|]. rewrite <- EN in *.
  apply simple_spec; [congruence|]. rewrite single_count by assumption. lia.
Qed.
Print Assumptions C128_too_many.
(* an array of indices without elements is taken for an ellipsis: selecting no row of a map is split like selecting all rows *)
Theorem C128_empty_refuted : exists sel ndims parts, ndims <> [] /\ ellipses sel <= 1 /\ consumed sel <= total ndims /\
  split_slice sel ndims = Some parts /\ concat parts <> meaning (total ndims) sel.
Proof. exists [Integer 0; Indices []], [1; 2], [[Integer 0]; [full; full]]. repeat split; try discriminate; try (cbn; lia). Qed.
Print Assumptions C128_empty_refuted.
(* a mask over all axes counts as one entry: the last two axes get none of it *)
Theorem C128_mask_refuted : exists sel ndims parts, ndims <> [] /\ ellipses sel <= 1 /\ consumed sel <= total ndims /\
  split_slice sel ndims = Some parts /\ exists i, i <= length ndims /\ consumed (concat (firstn i parts)) <> Nat.min (total (firstn i ndims)) (consumed (meaning (total ndims) sel)).
Proof. exists [Mask 3], [1; 2], [[Mask 3]; []]. repeat split; try discriminate; try (cbn; lia). exists 1. cbn. lia. Qed.
Print Assumptions C128_mask_refuted.
Example C128_ex : split_slice [Integer 2; Newaxis; Ellipsis; Slice (Some 1%Z) None None] [2; 2] = Some [[Integer 2; Newaxis; full]; [full; Slice (Some 1%Z) None None]].
Proof. reflexivity. Qed.
Example C128_ex_hyps : Forall single [Integer 2; Newaxis; Ellipsis; Slice (Some 1%Z) None None] /\ consumed [Integer 2; Newaxis; Ellipsis; Slice (Some 1%Z) None None] <= total [2; 2].
Proof. split; [repeat constructor|cbn; lia]. Qed.
