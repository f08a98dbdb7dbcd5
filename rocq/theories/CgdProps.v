From Coq Require Import List Arith ZArith Reals Bool Lia Lra.
From Verif Require Import CgdSpec CgdModel.
Import ListNotations.
Ltac Zify.zify_post_hook ::= idtac.

Lemma masked_sub {A} : forall (m : list bool) (l : list A), length m = length l -> subsequence (masked m l) l.
Proof. induction m as [|b m IH]; intros [|x l] L; cbn in L; try lia; cbn [masked]; [constructor|]. destruct b; constructor; apply IH; lia. Qed.
Lemma sub_trans {A} (a b c : list A) : subsequence a b -> subsequence b c -> subsequence a c.
Proof.
  intros H1 H2. revert a H1. induction H2 as [|x k l H IH|x k l H IH]; intros a H1; [exact H1| |constructor; now apply IH]. inversion H1; subst; [constructor; now apply IH|apply Sub_drop; now apply IH].
Qed.
Lemma or2_length a b : length a = length b -> length (or2 a b) = length a.
Proof. intros L. unfold or2. rewrite map_length, combine_length. lia. Qed.
Lemma or2_nth a b i : length a = length b -> (i < length a)%nat -> nth i (or2 a b) false = nth i a false || nth i b false.
Proof.
  intros L I. unfold or2. set (f := fun p : bool * bool => _). change false with (f (false, false)) at 1. rewrite map_nth, combine_nth by exact L. reflexivity.
Qed.
Lemma removelast_length {A} (l : list A) : length (removelast l) = (length l - 1)%nat.
Proof. induction l as [|x [|y l] IH]; try reflexivity. cbn [removelast length] in *. lia. Qed.
Lemma removelast_nth (l : list bool) : forall i, (S i < length l)%nat -> nth i (removelast l) false = nth i l false.
Proof. induction l as [|x [|y l] IH]; intros i I; cbn [length] in I; try lia. destruct i as [|i]; [reflexivity|]. change (removelast (x :: y :: l)) with (x :: removelast (y :: l)). cbn [nth]. apply IH. cbn [length]. lia. Qed.
Definition good {A} (inside : A -> bool) (seg : list A) : list bool := let ins := map inside seg in or2 (or2 ins (false :: removelast ins)) (skipn 1 ins ++ [false]).
Lemma lens {A} (inside : A -> bool) (seg : list A) : seg <> [] -> let ins := map inside seg in length (false :: removelast ins) = length ins /\ length (skipn 1 ins ++ [false]) = length ins.
Proof.
  intros N. cbv zeta. assert (L : (0 < length (map inside seg))%nat) by (rewrite map_length; destruct seg; [congruence|cbn; lia]). split; [cbn [length]; rewrite removelast_length; lia|]. rewrite app_length, skipn_length. cbn [length]. lia.
Qed.
Lemma good_nth {A} (inside : A -> bool) (seg : list A) i d : (i < length seg)%nat -> nth i (good inside seg) false = inside (nth i seg d) || (match i with O => false | S j => inside (nth j seg d) end) || (if Nat.ltb (S i) (length seg) then inside (nth (S i) seg d) else false).
Proof.
  intros I. assert (N : seg <> []) by (intros ->; cbn in I; lia). destruct (lens inside seg N) as [L1 L2]. unfold good. set (ins := map inside seg) in *. assert (LI : length ins = length seg) by apply map_length. assert (G : forall k, (k < length seg)%nat -> nth k ins false = inside (nth k seg d)). { intros k K. rewrite (nth_indep ins false (inside d)) by lia. unfold ins. apply map_nth. }
  rewrite or2_nth by (rewrite ?or2_length; lia). rewrite or2_nth by lia. rewrite (G i I). f_equal; [f_equal|].
  - destruct i as [|j]; [reflexivity|]. cbn [nth]. rewrite removelast_nth by lia. apply G. lia.
  - destruct (Nat.ltb_spec (S i) (length seg)) as [H|H].
    + rewrite app_nth1 by (rewrite skipn_length; lia). rewrite <- (G (S i) H). destruct ins as [|x ins]; [cbn in LI; lia|reflexivity].
    + rewrite app_nth2 by (rewrite skipn_length; lia). rewrite skipn_length. replace (i - (length ins - 1))%nat with 0%nat by lia. reflexivity.
Qed.
Lemma good_length {A} (inside : A -> bool) (seg : list A) : length (good inside seg) = length seg.
Proof.
  destruct seg as [|x seg]; [reflexivity|]. destruct (lens inside (x :: seg) ltac:(discriminate)) as [L1 L2]. unfold good. rewrite !or2_length by (rewrite ?or2_length; congruence). apply map_length.
Qed.
Lemma masked_in {A} : forall (m : list bool) (l : list A) x, length m = length l -> In x (masked m l) <-> exists i, (i < length l)%nat /\ nth i m false = true /\ nth_error l i = Some x.
Proof.
  induction m as [|b m IH]; intros [|y l] x L; cbn in L; try lia.
  - cbn. split; [tauto|intros (i & I & _); lia].
  - cbn [masked]. assert (L' : length m = length l) by lia. specialize (IH l x L'). split.
    + intros H. destruct b; [destruct H as [->|H]; [exists 0%nat; cbn; repeat split; lia|]|]; apply IH in H; destruct H as (i & I & H1 & H2); exists (S i); cbn; repeat split; try assumption; lia.
    + intros ([|i] & I & H1 & H2); cbn [nth nth_error length] in *; [injection H2 as ->; subst b; now left|]. assert (In x (masked m l)) by (apply IH; exists i; repeat split; try assumption; lia). destruct b; [now right|assumption].
Qed.
Lemma masked_all {A} (f : A -> bool) l : (forall x, In x l -> f x = true) -> masked (map f l) l = l.
Proof. induction l as [|x l IH]; intros H; [reflexivity|]. cbn [map masked]. rewrite (H x) by now left. f_equal. apply IH. intros y Y. apply H. now right. Qed.
Lemma masked_fin {A} (f : A -> bool) (l : list A) x : In x (masked (map f l) l) -> f x = true /\ In x l.
Proof.
  intros H. apply masked_in in H; [|apply map_length]. destruct H as (i & I & H1 & H2). split; [|eapply nth_error_In; exact H2]. rewrite (nth_indep _ false (f x)) in H1 by (rewrite map_length; exact I). rewrite map_nth, (nth_error_nth _ _ _ H2) in H1. exact H1.
Qed.
Lemma masked_filter {A} (f : A -> bool) l : masked (map f l) l = filter f l.
Proof. induction l as [|x l IH]; [reflexivity|]. cbn [map masked filter]. rewrite IH. reflexivity. Qed.
Lemma adjacent_nth {A} (l : list A) : forall i d, (S i < length l)%nat -> adjacent l (nth i l d) (nth (S i) l d).
Proof.
  induction l as [|x l IH]; intros i d H; [cbn in H; lia|]. destruct i as [|i].
  - destruct l as [|y l]; [cbn in H; lia|]. exists [], l. reflexivity.
  - destruct (IH i d ltac:(cbn in H; lia)) as (p & q & E). exists (x :: p), q. change (nth (S i) (x :: l) d) with (nth i l d). change (nth (S (S i)) (x :: l) d) with (nth (S i) l d). cbn [app]. now rewrite <- E.
Qed.
(* C175 a pruned segment is made of finite points of the old one in their order, has at least two, and each point or a neighbour (among the finite) is inside *)
Theorem C175_points {A} (finite inside : A -> bool) segs o : In o (prune_bad_segs finite inside segs) -> exists s, In s segs /\ subsequence o s /\ (2 <= length o)%nat /\ forall x, In x o -> finite x = true /\ (inside x = true \/ exists y, inside y = true /\ (adjacent (filter finite s) x y \/ adjacent (filter finite s) y x)).
Proof.
  unfold prune_bad_segs. rewrite in_flat_map. intros (s & IS & H). exists s. split; [exact IS|]. unfold prune_seg in H. destruct (Nat.leb_spec (length s) 1) as [|L]; [destruct H|]. fold (good inside (masked (map finite s) s)) in H. set (f := masked (map finite s) s) in *. destruct (Nat.ltb_spec 1 (length (masked (good inside f) f))) as [L1|L1]; [|destruct H]. destruct H as [<-|[]]. assert (SF : subsequence f s) by (apply masked_sub, map_length). split; [apply (sub_trans _ f); [apply masked_sub, good_length|exact SF]|]. split; [lia|]. intros x X. apply masked_in in X; [|apply good_length]. destruct X as (i & I & G & E). assert (FI : forall y, In y f -> finite y = true /\ In y s) by (intros y Y; now apply masked_fin). split; [apply FI; eapply nth_error_In; exact E|]. rewrite (good_nth inside f i x I) in G. apply orb_true_iff in G. destruct G as [G|G]; [apply orb_true_iff in G; destruct G as [G|G]|].
  - left. now rewrite (nth_error_nth _ _ x E) in G.
  - right. destruct i as [|j]; [discriminate|]. exists (nth j f x). split; [exact G|right]. rewrite <- (masked_filter finite s). fold f. pose proof (adjacent_nth f j x I) as AD. now rewrite (nth_error_nth _ _ x E) in AD.
  - right. destruct (Nat.ltb_spec (S i) (length f)) as [LI|]; [|discriminate]. exists (nth (S i) f x). split; [exact G|left]. rewrite <- (masked_filter finite s). fold f. pose proof (adjacent_nth f i x LI) as AD. now rewrite (nth_error_nth _ _ x E) in AD.
Qed.
Lemma steps_kept_fin {A} (finite inside : A -> bool) segs s p a b q : In s segs -> (forall x, In x s -> finite x = true) -> s = p ++ a :: b :: q -> inside a = true \/ inside b = true -> exists o, In o (prune_bad_segs finite inside segs) /\ adjacent o a b.
Proof.
  intros IS F E H. assert (PS : exists o, prune_seg finite inside s = Some o /\ adjacent o a b).
  { unfold prune_seg. assert (LS : length s = (length p + (2 + length q))%nat) by (rewrite E, app_length; reflexivity). destruct (Nat.leb_spec (length s) 1); [lia|]. rewrite (masked_all finite s F). fold (good inside s). assert (GL : length (good inside s) = length s) by apply good_length.
    assert (Ga : nth (length p) (good inside s) false = true /\ nth (S (length p)) (good inside s) false = true).
    { assert (NA : nth (length p) s a = a) by (rewrite E, app_nth2, Nat.sub_diag by lia; reflexivity). assert (NB : nth (S (length p)) s a = b) by (rewrite E, app_nth2 by lia; replace (S (length p) - length p)%nat with 1%nat by lia; reflexivity). rewrite !(good_nth inside s _ a) by lia. cbn [Nat.ltb]. rewrite NA, NB. destruct (Nat.ltb_spec (S (length p)) (length s)); [|lia]. destruct H as [H|H]; rewrite H; rewrite ?orb_true_r; cbn [orb]; split; reflexivity. }
    destruct Ga as [Ga Gb]. set (g := good inside s) in *. clearbody g. assert (M : exists u v, masked g s = u ++ a :: b :: v). { clear IS F H LS H0. revert g GL Ga Gb. subst s. induction p as [|y p IH]; intros g GL Ga Gb.
      - destruct g as [|g1 [|g2 g]]; cbn in GL; try lia. cbn [nth length] in Ga, Gb. subst g1 g2. cbn [app masked]. exists [], (masked g q). reflexivity.
      - destruct g as [|g1 g]; cbn in GL; try lia. cbn [length nth] in Ga, Gb. destruct (IH g ltac:(lia) Ga Gb) as (u & v & M). cbn [app masked]. rewrite M. destruct g1; [exists (y :: u), v; reflexivity|exists u, v; reflexivity]. }
    destruct M as (u & v & M). rewrite M. destruct (Nat.ltb_spec 1 (length (u ++ a :: b :: v))) as [_|L]; [|rewrite app_length in L; cbn in L; lia]. eexists. split; [reflexivity|]. exists u, v. reflexivity. }
  destruct PS as (o & PO & AD). exists o. split; [|exact AD]. unfold prune_bad_segs. apply in_flat_map. exists s. split; [exact IS|]. rewrite PO. now left.
Qed.
(* every step between finite points to or from an inside point is kept *)
Theorem C175_steps_kept {A} (finite inside : A -> bool) segs s p a b q : In s segs -> finite a = true -> finite b = true -> s = p ++ a :: b :: q -> inside a = true \/ inside b = true -> exists o, In o (prune_bad_segs finite inside segs) /\ adjacent o a b.
Proof.
  intros IS FA FB E H. assert (EF : filter finite s = filter finite p ++ a :: b :: filter finite q). { rewrite E, filter_app. cbn [filter]. now rewrite FA, FB. }
  assert (FF : forall x, In x (filter finite s) -> finite x = true) by (intros x X; now apply filter_In in X).
  destruct (steps_kept_fin finite inside [filter finite s] _ _ a b _ (or_introl eq_refl) FF EF H) as (o & O & AD). exists o. split; [|exact AD].
  unfold prune_bad_segs in *. cbn [flat_map] in O. rewrite app_nil_r in O. apply in_flat_map. exists s. split; [exact IS|]. revert O. unfold prune_seg. rewrite (masked_all finite (filter finite s) FF), (masked_filter finite s).
  assert (L1 : (2 <= length (filter finite s))%nat) by (rewrite EF, app_length; cbn [length]; lia). assert (L2 : (2 <= length s)%nat) by (rewrite E, app_length; cbn [length]; lia).
  destruct (Nat.leb_spec (length (filter finite s)) 1); [lia|]. destruct (Nat.leb_spec (length s) 1); [lia|]. exact (fun h => h).
Qed.
(* but leaving out the points between two visits joins points that did not follow each other *)
Theorem C175_joined_refuted : exists (s : list nat) o, In o (prune_bad_segs (fun _ => true) (fun x => Nat.ltb x 10) [s]) /\ exists a b, adjacent o a b /\ ~ adjacent s a b.
Proof.
  exists [1; 11; 12; 13; 2]%nat, [1; 11; 13; 2]%nat. split; [now left|]. exists 11%nat, 13%nat. split; [exists [1%nat], [2%nat]; reflexivity|]. intros (p & q & E). destruct p as [|p1 [|p2 [|p3 [|p4 [|p5 p]]]]]; cbn in E; try discriminate. all: injection E; intros; try discriminate; try (destruct p; discriminate).
Qed.
Open Scope Z_scope.
Lemma fold_min l : forall a, (fold_left Z.min l a <= a /\ (forall x, In x l -> fold_left Z.min l a <= x)) /\ (fold_left Z.min l a = a \/ In (fold_left Z.min l a) l).
Proof.
  induction l as [|y l IH]; intros a; cbn [fold_left]; [split; [split; [lia|intros x []]|now left]|]. destruct (IH (Z.min a y)) as [[A B] C]. split; [split; [lia|intros x [<-|X]; [lia|now apply B]]|]. destruct C as [C|C]; [|right; now right]. rewrite C. destruct (Z.min_spec a y) as [[_ ->]|[_ ->]]; [now left|right; now left].
Qed.
Lemma fold_max l : forall a, (a <= fold_left Z.max l a /\ (forall x, In x l -> x <= fold_left Z.max l a)) /\ (fold_left Z.max l a = a \/ In (fold_left Z.max l a) l).
Proof.
  induction l as [|y l IH]; intros a; cbn [fold_left]; [split; [split; [lia|intros x []]|now left]|]. destruct (IH (Z.max a y)) as [[A B] C]. split; [split; [lia|intros x [<-|X]; [lia|now apply B]]|]. destruct C as [C|C]; [|right; now right]. rewrite C. destruct (Z.max_spec a y) as [[_ ->]|[_ ->]]; [right; now left|now left].
Qed.
(* C176 the bounds hold the image and all boxes, and are the smallest that do *)
Theorem C176_bounds_partial boxes size : boxes <> [] -> exists lo hi, calc_bounds boxes size = Some (lo, hi) /\ holds lo hi 0 size /\ (forall a b, In (a, b) boxes -> holds lo hi a b) /\
  forall lo' hi', holds lo' hi' 0 size -> (forall a b, In (a, b) boxes -> holds lo' hi' a b) -> holds lo' hi' lo hi.
Proof.
  intros N. destruct boxes as [|[a b] rest]; [congruence|]. unfold calc_bounds. eexists. eexists. split; [reflexivity|]. destruct (fold_min (map fst rest) a) as [[A1 A2] A3]. destruct (fold_max (map snd rest) b) as [[B1 B2] B3]. split; [split; lia|]. split.
  - intros x y [E|I]; [injection E as -> ->; split; lia|]. pose proof (A2 x (in_map fst _ _ I)). pose proof (B2 y (in_map snd _ _ I)). split; lia.
  - intros lo' hi' [H1 H2] H3. split.
    + apply Z.min_glb; [exact H1|]. destruct A3 as [->|A3]; [apply (H3 a b); now left|]. apply in_map_iff in A3. destruct A3 as ([x y] & <- & I). apply (H3 x y). now right.
    + apply Z.max_lub; [exact H2|]. destruct B3 as [->|B3]; [apply (H3 a b); now left|]. apply in_map_iff in B3. destruct B3 as ([x y] & <- & I). apply (H3 x y). now right.
Qed.
(* without boxes there are no bounds *)
Theorem C176_none_refuted size : calc_bounds [] size = None.
Proof. reflexivity. Qed.
Open Scope R_scope.
Lemma factor_nonzero e l : factor e l <> 0.
Proof. unfold factor. pose proof PI_RGT_0. assert (0 < Rpower (INR l * (INR l + 1)) (1 + e)) by apply exp_pos. apply Rgt_not_eq. apply Rdiv_lt_0_compat; lra. Qed.
Lemma scale_nth a up e out l : scale_spectrum a up e = Some out -> length out = length a /\ ((1 <= l < length a)%nat -> nth l out 0 = nth l a 0 * (if up then factor e l else / factor e l)).
Proof.
  intros H. destruct a as [|a0 rest]; [discriminate|]. unfold scale_spectrum in H. assert (SI : forall u v : list R, Some u = Some v -> u = v) by congruence. apply SI in H. subst out. split; [cbn [length]; now rewrite map_length, combine_length, seq_length, Nat.min_id|]. intros [L1 L2]. destruct l as [|l]; [lia|]. cbn [nth length] in *. set (f := fun p : nat * R => _). rewrite (nth_indep _ 0 (f (0%nat, 0))) by (rewrite map_length, combine_length, seq_length; lia). rewrite map_nth, combine_nth by apply seq_length. unfold f. cbn [fst snd]. rewrite seq_nth by lia. reflexivity.
Qed.
(* C177 from powers to spectra *)
Theorem C177_scale a out l : scale_spectrum a true 0 = Some out -> (1 <= l < length a)%nat -> nth l out 0 * (INR l * (INR l + 1)) = 2 * PI * nth l a 0 /\ nth 0 out 0 = 0.
Proof.
  intros H L. destruct (scale_nth a true 0 out l H) as [_ N]. rewrite (N L). assert (P : 0 < INR l) by (apply lt_0_INR; lia). assert (Q : 0 < INR l * (INR l + 1)) by (apply Rmult_lt_0_compat; lra). unfold factor. rewrite Rplus_0_r, Rpower_1 by exact Q. split; [field; lra|]. destruct a as [|a0 rest]; [discriminate|]. unfold scale_spectrum in H. assert (SI : forall u v : list R, Some u = Some v -> u = v) by congruence. apply SI in H. subst out. reflexivity.
Qed.
(* scaling back gives the old values, but for the monopole *)
Theorem C177_back_partial a up e b c l : scale_spectrum a up e = Some b -> scale_spectrum b (negb up) e = Some c -> (1 <= l < length a)%nat -> nth l c 0 = nth l a 0.
Proof.
  intros H1 H2 L. destruct (scale_nth a up e b l H1) as [L1 N1]. destruct (scale_nth b (negb up) e c l H2) as [_ N2]. rewrite (N2 ltac:(lia)), (N1 L). pose proof (factor_nonzero e l). destruct up; cbn [negb]; field; assumption.
Qed.
(* the monopole is lost *)
Theorem C177_monopole_refuted a0 rest up e : exists b, scale_spectrum (a0 :: rest) up e = Some b /\ forall c, scale_spectrum b (negb up) e = Some c -> nth 0 c 0 = 0.
Proof.
  eexists. split; [reflexivity|]. intros c H. unfold scale_spectrum in H. assert (SI : forall u v : list R, Some u = Some v -> u = v) by congruence. apply SI in H. subst c. reflexivity.
Qed.
Print Assumptions C175_points. Print Assumptions C175_steps_kept. Print Assumptions C175_joined_refuted. Print Assumptions C176_bounds_partial. Print Assumptions C176_none_refuted. Print Assumptions C177_scale. Print Assumptions C177_back_partial. Print Assumptions C177_monopole_refuted.
Example C175_ex : prune_bad_segs (fun x => negb (Nat.eqb x 99)) (fun x => Nat.ltb x 10) [[1]; [20; 21]; [20; 1; 99; 2; 30; 31]]%nat = [[20; 1; 2; 30]]%nat.
Proof. reflexivity. Qed.
Example C176_ex : calc_bounds [(-5, 10); (3, 40)]%Z 30 = Some (-5, 40)%Z.
Proof. reflexivity. Qed.
Example C177_ex : exists b, scale_spectrum [5; 6; 7] true 0 = Some b /\ nth 1 b 0 * 2 = 2 * PI * 6.
Proof. eexists. split; [reflexivity|]. destruct (C177_scale [5; 6; 7] _ 1 eq_refl ltac:(cbn; lia)) as [E _]. cbn [INR] in E. replace (1 * (1 + 1)) with 2 in E by lra. exact E. Qed.
