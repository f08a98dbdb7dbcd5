(* C103: crossmatching two catalogues. *)
From Coq Require Import Reals Lra Lia List Bool Arith Permutation Sorted.
From Verif Require Import RotSpec RotModel RotLemmas XmaSpec XmaModel XmaLemmas.
Import ListNotations.
Open Scope R_scope.
Ltac Zify.zify_post_hook ::= idtac.

Lemma setup ball pos1 pos2 rmax c : query_spec ball -> proper c pos1 pos2 rmax ->
  let c' := normalize c (ndim pos1) in let r := reading_of c (ndim pos1) in
  exists p1 p2, trans_all c' (rows pos1) = Some p1 /\ trans_all c' (rows pos2) = Some p2 /\
    let pairs := enumerate_from 0 (ball p1 p2 (reff c' rmax)) in
    NoDup pairs /\ (forall i j, In (i, j) pairs <-> close r (rows pos1) (rows pos2) rmax i j) /\
    Forall (inb (length (rows pos1)) (length (rows pos2))) pairs /\
    (forall p q, In p pairs -> In q pairs -> dist2 (nth (fst p) p1 []) (nth (snd p) p2 []) <= dist2 (nth (fst q) p1 []) (nth (snd q) p2 []) ->
       apart r (rows pos1) (rows pos2) p <= apart r (rows pos1) (rows pos2) q).
Proof.
  intros QS (ND & F1 & F2 & A2 & R0 & RP) c' r. destruct (normalize_rd c (ndim pos1)) as [NA RD]. fold c' in NA, RD. fold r in RD, A2, RP.
  assert (C : c' = Cartesian \/ (c' = Radec \/ c' = Phitheta) /\ ndim pos1 = 2%nat).
  { clear - NA RD A2. destruct c'; [congruence| | |]; [right|right|left; reflexivity]; split; auto; apply A2; rewrite <- RD; discriminate. }
  assert (CP : c' <> Cartesian -> rmax <= PI) by (intros K; apply RP; rewrite <- RD; destruct c'; congruence || discriminate).
  destruct (trans_all_spec c' (rows pos1) (ndim pos1) C F1) as (p1 & E1 & L1 & N1). rewrite <- ND in F2. destruct (trans_all_spec c' (rows pos2) (ndim pos1) C F2) as (p2 & E2 & L2 & N2).
  exists p1, p2. split; [exact E1|]. split; [exact E2|].
  assert (RE : 0 <= reff c' rmax) by (clear - R0 CP; destruct c'; cbn [reff]; try (apply chord_pos; split; [exact R0|apply CP; discriminate]); exact R0).
  destruct (QS p1 p2 (reff c' rmax) RE) as [QL QN].
  assert (GET : forall i g, nth_error (ball p1 p2 (reff c' rmax)) i = Some g -> exists p p', nth_error (rows pos1) i = Some p /\ trans c' p = Some p' /\ nth_error p1 i = Some p' /\ NoDup g /\ forall j, In j g <-> exists q, nth_error p2 j = Some q /\ eucl p' q <= reff c' rmax).
  { intros i g G. assert (I : (i < length (rows pos1))%nat) by (rewrite <- L1, <- QL; apply nth_error_Some; congruence).
    destruct (nth_error (rows pos1) i) as [p|] eqn:P; [|apply nth_error_None in P; lia]. destruct (N1 i p P) as (p' & T & P'). exists p, p'. split; [reflexivity|]. split; [exact T|]. split; [exact P'|]. apply (QN i p' g P' G). }
  assert (IFF : forall i j, In (i, j) (enumerate_from 0 (ball p1 p2 (reff c' rmax))) <-> close r (rows pos1) (rows pos2) rmax i j).
  { intros i j. rewrite enumerate_In, Nat.sub_0_r. split.
    - intros (g & G & _ & J). destruct (GET i g G) as (p & p' & P & T & P' & _ & GI). apply GI in J as (q' & Q' & D).
      assert (J2 : (j < length (rows pos2))%nat) by (rewrite <- L2; apply nth_error_Some; congruence). destruct (nth_error (rows pos2) j) as [q|] eqn:Q; [|apply nth_error_None in Q; lia].
      destruct (N2 j q Q) as (q2 & T2 & Q2). assert (q2 = q') by congruence. subst q2. exists p, q. split; [exact P|]. split; [exact Q|]. rewrite <- RD. apply (trans_within c' p q p' q' rmax NA T T2 R0 CP). exact D.
    - intros (p & q & P & Q & D). destruct (N1 i p P) as (p' & T & P'). destruct (N2 j q Q) as (q' & T2 & Q').
      assert (I : (i < length (ball p1 p2 (reff c' rmax)))%nat) by (rewrite QL; apply nth_error_Some; congruence).
      destruct (nth_error (ball p1 p2 (reff c' rmax)) i) as [g|] eqn:G; [|apply nth_error_None in G; lia]. exists g. split; [reflexivity|]. split; [lia|].
      destruct (QN i p' g P' G) as [_ GI]. apply GI. exists q'. split; [exact Q'|]. apply (trans_within c' p q p' q' rmax NA T T2 R0 CP). rewrite RD. exact D. }
  cbv zeta. split; [|split; [exact IFF|split]].
  - apply enumerate_NoDup. apply Forall_forall. intros g G. apply In_nth_error in G as [i G]. destruct (GET i g G) as (_ & _ & _ & _ & _ & H & _). exact H.
  - apply Forall_forall. intros [i j] H. apply IFF in H as (p & q & P & Q & _). split; cbn; apply nth_error_Some; congruence.
  - intros [i j] [k l] H K LE. apply IFF in H as (p & q & P & Q & _). apply IFF in K as (u & v & U & V & _). cbn [fst snd] in LE. rewrite !dist2_sumsq in LE.
    destruct (N1 i p P) as (p' & TP & P'). destruct (N2 j q Q) as (q' & TQ & Q'). destruct (N1 k u U) as (u' & TU & U'). destruct (N2 l v V) as (v' & TV & V').
    unfold apart. cbn [fst snd]. rewrite (nth_error_nth _ _ [] P), (nth_error_nth _ _ [] Q), (nth_error_nth _ _ [] U), (nth_error_nth _ _ [] V).
    rewrite (nth_error_nth _ _ [] P'), (nth_error_nth _ _ [] Q'), (nth_error_nth _ _ [] U'), (nth_error_nth _ _ [] V') in LE. rewrite <- RD. apply (trans_order c' p q p' q' u v u' v' NA TP TQ TU TV LE).
Qed.
Lemma start c pos1 pos2 rmax : proper c pos1 pos2 rmax -> Nat.eqb (ndim pos1) (ndim pos2) = true.
Proof. intros (E & _). apply Nat.eqb_eq, E. Qed.

(* "all" gives exactly the pairs at most rmax apart, each once *)
Theorem C103_all : forall ball argsort pos1 pos2 rmax c, query_spec ball -> proper c pos1 pos2 rmax ->
  exists l, crossmatch ball argsort pos1 pos2 rmax All c = Some l /\ NoDup l /\
    forall i j, In (i, j) l <-> close (reading_of c (ndim pos1)) (rows pos1) (rows pos2) rmax i j.
Proof.
  intros ball argsort pos1 pos2 rmax c QS PR. destruct (setup ball pos1 pos2 rmax c QS PR) as (p1 & p2 & E1 & E2 & ND & IFF & _).
  unfold crossmatch. rewrite (start _ _ _ _ PR). cbn [negb]. cbv zeta. rewrite E1, E2. eexists. split; [reflexivity|]. split; [exact ND|exact IFF].
Qed.
Print Assumptions C103_all.

Lemma SS_map {A B} (f : A -> B) (P : B -> B -> Prop) l : StronglySorted P (map f l) <-> StronglySorted (fun x y => P (f x) (f y)) l.
Proof.
  induction l as [|a l IH]; cbn [map]; [split; constructor|]. split; intros H; apply StronglySorted_inv in H as [S F]; constructor; try (apply IH; exact S).
  - apply Forall_forall. intros x X. apply (proj1 (Forall_forall _ _) F). apply in_map, X.
  - apply Forall_forall. intros y Y. apply in_map_iff in Y as (x & <- & X). apply (proj1 (Forall_forall _ _) F), X.
Qed.
Lemma SS_impl {A} (P Q : A -> A -> Prop) (D : A -> Prop) l : (forall x y, D x -> D y -> P x y -> Q x y) -> Forall D l -> StronglySorted P l -> StronglySorted Q l.
Proof.
  intros H F S. induction S as [|a l S IH G]; constructor.
  - apply IH. apply Forall_inv_tail in F. exact F.
  - apply Forall_forall. intros x X. apply H; [apply (Forall_inv F)|apply Forall_inv_tail in F; apply (proj1 (Forall_forall _ _) F), X|apply (proj1 (Forall_forall _ _) G), X].
Qed.

Lemma seq_nth_all {A} (d : A) l : map (fun i => nth i l d) (seq 0 (length l)) = l.
Proof. induction l as [|x l IH]; [reflexivity|]. cbn [length seq map]. f_equal. rewrite <- seq_shift, map_map. exact IH. Qed.

(* "closest" gives close pairs, every object in at most one of them; whenever two objects are close, one of them is
   in a pair that is no further apart *)
Theorem C103_closest : forall ball argsort pos1 pos2 rmax c, query_spec ball -> argsort_spec argsort -> proper c pos1 pos2 rmax ->
  let r := reading_of c (ndim pos1) in let near := close r (rows pos1) (rows pos2) rmax in let d := apart r (rows pos1) (rows pos2) in
  exists l, crossmatch ball argsort pos1 pos2 rmax Closest c = Some l /\
    (forall i j, In (i, j) l -> near i j) /\ NoDup (map fst l) /\ NoDup (map snd l) /\
    (forall i j, near i j -> exists i' j', In (i', j') l /\ (i' = i \/ j' = j) /\ d (i', j') <= d (i, j)).
Proof.
  intros ball argsort pos1 pos2 rmax c QS AS PR r near d. destruct (setup ball pos1 pos2 rmax c QS PR) as (p1 & p2 & E1 & E2 & ND & IFF & INB & ORD). fold r in IFF, ORD. fold near in IFF. fold d in ORD.
  unfold crossmatch. rewrite (start _ _ _ _ PR). cbn [negb]. cbv zeta. rewrite E1, E2. set (pairs := enumerate_from 0 _) in *. set (d2 := map _ pairs). eexists. split; [reflexivity|].
  destruct (AS d2) as [AP ASo]. set (sorted := map (fun i => nth i pairs (0, 0)%nat) (argsort d2)).
  assert (LD : length d2 = length pairs) by apply map_length.
  assert (PM : Permutation sorted pairs).
  { unfold sorted. eapply Permutation_trans; [apply Permutation_map, AP|]. rewrite LD. rewrite seq_nth_all. apply Permutation_refl. }
  assert (SS : StronglySorted (fun p q => d p <= d q) sorted).
  { unfold sorted. apply (proj2 (SS_map _ _ _)). apply (proj1 (SS_map _ _ _)) in ASo. apply (SS_impl _ _ (fun i => (i < length pairs)%nat) _) with (3 := ASo).
    - intros x y X Y H. apply ORD; [apply nth_In, X|apply nth_In, Y|].
      assert (DN : forall k, (k < length pairs)%nat -> nth k d2 0 = dist2 (nth (fst (nth k pairs (0, 0)%nat)) p1 []) (nth (snd (nth k pairs (0, 0)%nat)) p2 [])).
      { intros k K. unfold d2. erewrite nth_indep by (rewrite map_length; exact K). rewrite (map_nth (fun ij => dist2 (nth (fst ij) p1 []) (nth (snd ij) p2 [])) pairs (0, 0)%nat k). reflexivity. }
      rewrite <- !DN by assumption. exact H.
    - apply Forall_forall. intros x X. apply (Permutation_in _ AP) in X. apply in_seq in X. lia. }
  assert (INB' : Forall (inb (length (rows pos1)) (length (rows pos2))) sorted).
  { apply Forall_forall. intros p P. apply (proj1 (Forall_forall _ _) INB). apply (Permutation_in _ PM), P. }
  destruct (keep_greedy (fun p q => d p <= d q) _ _ sorted (fun p => Rle_refl _) INB' SS) as (A & B & C & G).
  split; [intros i j H; apply IFF, (Permutation_in _ PM), A, H|]. split; [exact B|]. split; [exact C|]. intros i j N. apply IFF in N. apply (Permutation_in _ (Permutation_sym PM)) in N.
  destruct (G (i, j) N) as ([i' j'] & Q1 & Q2 & Q3). exists i', j'. split; [exact Q1|]. split; [exact Q2|exact Q3].
Qed.
Print Assumptions C103_closest.

(* so two objects that are closer to each other than to any other object are matched *)
Theorem C103_mutual : forall ball argsort pos1 pos2 rmax c i j l, query_spec ball -> argsort_spec argsort -> proper c pos1 pos2 rmax ->
  let r := reading_of c (ndim pos1) in let near := close r (rows pos1) (rows pos2) rmax in let d := apart r (rows pos1) (rows pos2) in
  near i j -> (forall i', i' <> i -> near i' j -> d (i, j) < d (i', j)) -> (forall j', j' <> j -> near i j' -> d (i, j) < d (i, j')) ->
  crossmatch ball argsort pos1 pos2 rmax Closest c = Some l -> In (i, j) l.
Proof.
  intros ball argsort pos1 pos2 rmax c i j l QS AS PR r near d N U1 U2 E. destruct (C103_closest ball argsort pos1 pos2 rmax c QS AS PR) as (l' & E' & A & _ & _ & G). fold r near d in A, G.
  assert (l' = l) by congruence. subst l'. destruct (G i j N) as (i' & j' & Q1 & Q2 & Q3). pose proof (A i' j' Q1) as N'.
  destruct Q2 as [->| ->].
  - destruct (Nat.eq_dec j' j) as [->|D]; [exact Q1|]. specialize (U2 j' D N'). lra.
  - destruct (Nat.eq_dec i' i) as [->|D]; [exact Q1|]. specialize (U1 i' D N'). lra.
Qed.
Print Assumptions C103_mutual.

(* "first" gives close pairs, every object in at most one of them; whenever two objects are close, one of them is in a pair
   that does not come later in the first catalogue, nor, if the tree lists neighbours in order, in the second *)
Theorem C103_first : forall ball argsort pos1 pos2 rmax c, query_spec ball -> proper c pos1 pos2 rmax ->
  let r := reading_of c (ndim pos1) in let near := close r (rows pos1) (rows pos2) rmax in
  exists l, crossmatch ball argsort pos1 pos2 rmax First c = Some l /\
    (forall i j, In (i, j) l -> near i j) /\ NoDup (map fst l) /\ NoDup (map snd l) /\
    (forall i j, near i j -> exists i' j', In (i', j') l /\ (i' = i \/ j' = j) /\ (i' <= i)%nat) /\
    (query_sorted ball -> forall i j, near i j -> exists i' j', In (i', j') l /\ (i' = i /\ (j' <= j)%nat \/ j' = j /\ (i' <= i)%nat)).
Proof.
  intros ball argsort pos1 pos2 rmax c QS PR r near. destruct (setup ball pos1 pos2 rmax c QS PR) as (p1 & p2 & E1 & E2 & ND & IFF & INB & _). fold r in IFF. fold near in IFF.
  unfold crossmatch. rewrite (start _ _ _ _ PR). cbn [negb]. cbv zeta. rewrite E1, E2. set (pairs := enumerate_from 0 _) in *. eexists. split; [reflexivity|].
  destruct (keep_greedy (fun p q => (fst p <= fst q)%nat) _ _ pairs (fun p => Nat.le_refl _) INB (enumerate_first 0 _)) as (A & B & C & G).
  split; [intros i j H; apply IFF, A, H|]. split; [exact B|]. split; [exact C|]. split.
  - intros i j N. apply IFF in N. destruct (G (i, j) N) as ([i' j'] & Q1 & Q2 & Q3). exists i', j'. split; [exact Q1|]. split; [exact Q2|exact Q3].
  - intros SQ i j N. apply IFF in N. assert (SL : StronglySorted lexle pairs) by (apply enumerate_lex, Forall_forall; intros g H; apply (SQ _ _ _ _ H)).
    destruct (keep_greedy lexle _ _ pairs ltac:(intros p; right; auto) INB SL) as (_ & _ & _ & G'). destruct (G' (i, j) N) as ([i' j'] & Q1 & Q2 & Q3). exists i', j'. split; [exact Q1|].
    unfold share, lexle in *. cbn [fst snd] in *. lia.
Qed.
Print Assumptions C103_first.

(* there are such trees and sorting routines *)
Definition ball0 (l1 l2 : list (list R)) (radius : R) : list (list nat) :=
  map (fun p => filter (fun j => if Rle_dec (eucl p (nth j l2 [])) radius then true else false) (seq 0 (length l2))) l1.
Fixpoint insert (l : list R) (i : nat) (s : list nat) : list nat := match s with [] => [i] | j :: r => if Rle_dec (nth i l 0) (nth j l 0) then i :: s else j :: insert l i r end.
Definition argsort0 (l : list R) : list nat := fold_right (insert l) [] (seq 0 (length l)).
Lemma ball0_ok : query_spec ball0 /\ query_sorted ball0.
Proof.
  split.
  - intros l1 l2 radius _. split; [apply map_length|]. intros i p g P G. unfold ball0 in G. rewrite nth_error_map, P in G. cbn in G. injection G as <-. split; [apply NoDup_filter, seq_NoDup|].
    intros j. rewrite filter_In, in_seq. destruct (Rle_dec (eucl p (nth j l2 [])) radius) as [L|L].
    + split; [|intros (q & Q & _); split; [assert (j < length l2)%nat by (apply nth_error_Some; congruence); lia|reflexivity]].
      intros [H _]. destruct (nth_error l2 j) as [q|] eqn:Q; [|apply nth_error_None in Q; lia]. exists q. rewrite (nth_error_nth _ _ [] Q) in L. split; [reflexivity|exact L].
    + split; [intros [_ H]; discriminate|]. intros (q & Q & D). rewrite (nth_error_nth _ _ [] Q) in L. contradiction.
  - intros l1 l2 radius g G. unfold ball0 in G. apply in_map_iff in G as (p & <- & _). generalize 0%nat (length l2). intros k n. revert k. induction n as [|n IH]; intros k; cbn [seq filter]; [constructor|].
    destruct (Rle_dec _ _); [|apply IH]. constructor; [apply IH|]. apply Forall_forall. intros x X. apply filter_In in X as [X _]. apply in_seq in X. lia.
Qed.
Lemma argsort0_ok : argsort_spec argsort0.
Proof.
  intros l. unfold argsort0. generalize (seq 0 (length l)). intros s.
  assert (PI : forall i t, Permutation (insert l i t) (i :: t)).
  { intros i t. induction t as [|j t IH]; cbn [insert]; [apply Permutation_refl|]. destruct (Rle_dec _ _); [apply Permutation_refl|]. eapply perm_trans; [apply perm_skip, IH|]. apply perm_swap. }
  split.
  - induction s as [|i s IH]; cbn [fold_right]; [constructor|]. eapply perm_trans; [apply PI|]. apply perm_skip, IH.
  - induction s as [|i s IH]; cbn [fold_right]; [constructor|]. set (t := fold_right _ _ _) in *. clearbody t. clear s. apply (proj2 (SS_map _ _ _)). apply (proj1 (SS_map _ _ _)) in IH.
    induction t as [|j t IT]; cbn [insert]; [repeat constructor|]. apply StronglySorted_inv in IH as [S F]. destruct (Rle_dec _ _) as [L|L].
    + constructor; [constructor; assumption|]. constructor; [exact L|]. apply Forall_forall. intros x X. apply (proj1 (Forall_forall _ _) F) in X. cbv beta in X |- *. lra.
    + constructor; [apply IT, S|]. apply Forall_forall. intros x X. apply (Permutation_in _ (PI i t)) in X. destruct X as [<-|X]; [lra|]. apply (proj1 (Forall_forall _ _) F), X.
Qed.
(* three points on a line and one next to the second of them *)
Example C103_ex : let a := {| ndim := 1; rows := [[0]; [1]; [5]] |} in let b := {| ndim := 1; rows := [[1]; [3]] |} in
  query_spec ball0 /\ argsort_spec argsort0 /\ proper Auto a b 2 /\ exists l, crossmatch ball0 argsort0 a b 2 Closest Auto = Some l /\ In (1, 0)%nat l.
Proof.
  intros a b. pose proof (proj1 ball0_ok) as Q. pose proof argsort0_ok as S. assert (P : proper Auto a b 2) by (unfold proper; split; [reflexivity|]; split; [repeat (apply Forall_cons; [reflexivity|]); apply Forall_nil|]; split; [repeat (apply Forall_cons; [reflexivity|]); apply Forall_nil|]; cbn; split; [intros H; contradiction|]; split; [lra|intros H; contradiction]).
  split; [exact Q|]. split; [exact S|]. split; [exact P|]. destruct (C103_closest ball0 argsort0 a b 2 Auto Q S P) as (l & E & _). exists l. split; [exact E|].
  assert (EU : forall x y, eucl [x] [y] = Rabs (x - y)) by (intros x y; unfold eucl; cbn [sumsq]; rewrite <- sqrt_Rsqr_abs; f_equal; unfold Rsqr; ring).
  apply (C103_mutual ball0 argsort0 a b 2 Auto 1 0 l Q S P); [| | |exact E].
  - exists [1], [1]. split; [reflexivity|]. split; [reflexivity|]. cbn [reading_of ndim a distance]. rewrite EU, Rabs_pos_eq; lra.
  - intros i' N (p & q & P' & Q' & _). assert (i' = 0 \/ i' = 2 \/ 3 <= i')%nat as [->|[->|H]] by lia; unfold apart; cbn [reading_of ndim a b distance rows nth fst snd]; rewrite ?EU.
    + rewrite Rabs_pos_eq, Rabs_left by lra. lra.
    + rewrite !Rabs_pos_eq by lra. lra.
    + destruct i' as [|[|[|i']]]; try lia. destruct i'; discriminate.
  - intros j' N (p & q & P' & Q' & _). assert (j' = 1 \/ 2 <= j')%nat as [->|H] by lia; unfold apart; cbn [reading_of ndim a b distance rows nth fst snd]; rewrite ?EU.
    + rewrite Rabs_pos_eq, Rabs_left by lra. lra.
    + destruct j' as [|[|j']]; try lia. destruct j'; discriminate.
Qed.

(* outside the claim: with radii of more than half a turn nearer objects are missed, *)
Theorem C103_wide : forall argsort, let a := {| ndim := 2; rows := [[0; 0]] |} in let b := {| ndim := 2; rows := [[PI; 0]] |} in
  close Lonlat (rows a) (rows b) (2 * PI) 0 0 /\ forall ball, query_spec ball -> crossmatch ball argsort a b (2 * PI) All Auto = Some [].
Proof.
  intros argsort a b. split.
  - exists [0; 0], [PI; 0]. split; [reflexivity|]. split; [reflexivity|]. cbn [distance angle]. pose proof (acos_bound (dot (dir false (0, 0)) (dir false (PI, 0)))). pose proof PI_RGT_0. lra.
  - intros ball QS. unfold crossmatch, a, b. cbn [ndim rows Nat.eqb negb normalize trans_all trans ang2rect]. cbv zeta iota.
    set (p := [cos 0 * cos 0; cos 0 * sin 0; sin 0]). set (q := [cos 0 * cos PI; cos 0 * sin PI; sin 0]).
    assert (RE : reff Radec (2 * PI) = 0) by (unfold reff, ang2chord; replace (2 * PI / 2) with PI by field; rewrite sin_PI; ring). rewrite RE.
    destruct (QS [p] [q] 0 (Rle_refl 0)) as [L N]. destruct (ball [p] [q] 0) as [|g [|]]; try discriminate. destruct (N 0%nat p g eq_refl eq_refl) as [_ G].
    destruct g as [|j g]; [reflexivity|]. exfalso. destruct (proj1 (G j) (or_introl eq_refl)) as (q' & Q & D). destruct j as [|[|j]]; try discriminate. injection Q as <-.
    unfold eucl, p, q in D. cbn [sumsq] in D. rewrite cos_0, sin_0, cos_PI, sin_PI in D.
    assert (H : sqrt ((1 * 1 - 1 * -1) ^ 2 + ((1 * 0 - 1 * 0) ^ 2 + ((0 - 0) ^ 2 + 0))) = 2) by (replace ((1 * 1 - 1 * -1) ^ 2 + ((1 * 0 - 1 * 0) ^ 2 + ((0 - 0) ^ 2 + 0))) with (2 ^ 2) by ring; apply sqrt_pow2; lra). lra.
Qed.
Print Assumptions C103_wide.
(* and when the tree lists neighbours in another order, "first" does not prefer the first object of the second catalogue *)
Theorem C103_first_order : exists ball a b, query_spec ball /\ proper Cartesian a b 1 /\ close Space (rows a) (rows b) 1 0 0 /\
  forall argsort, crossmatch ball argsort a b 1 First Cartesian = Some [(0, 1)]%nat.
Proof.
  exists (fun l1 l2 r => map (@rev nat) (ball0 l1 l2 r)), {| ndim := 1; rows := [[0]] |}, {| ndim := 1; rows := [[0]; [0]] |}.
  assert (E0 : eucl [0] [0] = 0) by (unfold eucl; cbn [sumsq]; replace ((0 - 0) ^ 2 + 0) with 0 by ring; apply sqrt_0).
  split; [|split; [|split]].
  - intros l1 l2 radius R0. destruct (proj1 ball0_ok l1 l2 radius R0) as [L N]. split; [rewrite map_length; exact L|]. intros i p g P G. rewrite nth_error_map in G.
    destruct (nth_error (ball0 l1 l2 radius) i) as [h|] eqn:H; [|discriminate]. cbn in G. injection G as <-. destruct (N i p h P H) as [ND I]. split; [apply NoDup_rev, ND|]. intros j. rewrite <- in_rev. apply I.
  - unfold proper. split; [reflexivity|]. split; [repeat (apply Forall_cons; [reflexivity|]); apply Forall_nil|]. split; [repeat (apply Forall_cons; [reflexivity|]); apply Forall_nil|]. cbn. split; [intros K; contradiction|]. split; [lra|intros K; contradiction].
  - exists [0], [0]. split; [reflexivity|]. split; [reflexivity|]. cbn [distance]. rewrite E0. lra.
  - intros argsort. unfold crossmatch. cbn [ndim rows Nat.eqb negb normalize trans_all trans reff]. cbv zeta iota. unfold ball0. cbn [map length seq filter nth].
    rewrite E0. destruct (Rle_dec 0 1) as [_|K]; [reflexivity|lra].
Qed.
Print Assumptions C103_first_order.
