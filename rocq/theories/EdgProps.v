From Coq Require Import Reals List Lia Lra Bool.
From Verif Require Import EdgSpec EdgModel.
Import ListNotations.
Open Scope R_scope.
Ltac Zify.zify_post_hook ::= idtac.

Lemma total_app a b : total (a ++ b) = total a + total b.
Proof. unfold total. induction a; cbn; [lra|]. rewrite IHa. lra. Qed.
Lemma total_ext {A} (f g : A -> R) l : (forall x, In x l -> f x = g x) -> total (map f l) = total (map g l).
Proof. intros H. unfold total. induction l; cbn; [reflexivity|]. rewrite H by (left; reflexivity). rewrite IHl; [reflexivity|]. intros x X. apply H. now right. Qed.
Lemma total_plus {A} (f g : A -> R) l : total (map (fun x => f x + g x) l) = total (map f l) + total (map g l).
Proof. unfold total. induction l; cbn; [lra|]. rewrite IHl. lra. Qed.
Lemma total_minus {A} (f g : A -> R) l : total (map (fun x => f x - g x) l) = total (map f l) - total (map g l).
Proof. unfold total. induction l; cbn; [lra|]. rewrite IHl. lra. Qed.
Lemma total_scal {A} c (f : A -> R) l : total (map (fun x => c * f x) l) = c * total (map f l).
Proof. unfold total. induction l; cbn; [lra|]. rewrite IHl. lra. Qed.
Lemma total_zero {A} (l : list A) : total (map (fun _ => 0) l) = 0.
Proof. unfold total. induction l; cbn; lra. Qed.
Lemma total_swap {A B} (f : A -> B -> R) l m : total (map (fun x => total (map (f x) m)) l) = total (map (fun y => total (map (fun x => f x y) l)) m).
Proof.
  induction l as [|x l IH].
  - cbn. symmetry. apply total_zero.
  - transitivity (total (map (f x) m) + total (map (fun x => total (map (f x) m)) l)); [reflexivity|]. rewrite IH, <- total_plus. reflexivity.
Qed.
Lemma total_pick (f : nat -> R) n i : (i < n)%nat -> total (map (fun k => if Nat.eqb k i then f k else 0) (seq 0 n)) = f i.
Proof.
  induction n; intros H; [lia|]. rewrite seq_S, map_app, total_app. cbn [map total fold_right plus].
  destruct (Nat.eq_dec i n) as [->|N].
  - rewrite Nat.eqb_refl. rewrite (total_ext _ (fun _ => 0)); [rewrite total_zero; lra|].
    intros x X. apply in_seq in X. replace (Nat.eqb x n) with false by (symmetry; apply Nat.eqb_neq; lia). reflexivity.
  - rewrite IHn by lia. replace (Nat.eqb n i) with false by (symmetry; apply Nat.eqb_neq; lia). lra.
Qed.
Lemma total_none (f : nat -> R) n i : (n <= i)%nat -> total (map (fun k => if Nat.eqb k i then f k else 0) (seq 0 n)) = 0.
Proof.
  intros H. rewrite (total_ext _ (fun _ => 0)); [apply total_zero|].
  intros x X. apply in_seq in X. replace (Nat.eqb x i) with false by (symmetry; apply Nat.eqb_neq; lia). reflexivity.
Qed.

(* rows and columns of the system *)
Definition pick (b : bool) (x : R) := if b then x else 0.
Lemma dense_split n ref i j :
  dense (edge_system n ref) i j =
  pick (Nat.ltb i n && Nat.eqb j i) (1/2) + pick (Nat.ltb i n && Nat.eqb j (S i)) (1/2) + pick (Nat.eqb i n && Nat.eqb j ref) (-1) + pick (Nat.eqb i n && Nat.eqb j (S ref)) 1.
Proof.
  unfold dense, edge_system. rewrite !map_app, !total_app, !map_map. cbn [map total fold_right].
  assert (A : forall g : nat -> nat, total (map (fun x => if Nat.eqb x i && Nat.eqb (g x) j then 1/2 else 0) (seq 0 n)) = pick (Nat.ltb i n && Nat.eqb j (g i)) (1/2)).
  { intros g. rewrite (total_ext _ (fun x => if Nat.eqb x i then pick (Nat.eqb j (g x)) (1/2) else 0)).
    - destruct (Nat.ltb_spec i n); [rewrite (total_pick (fun x => pick (Nat.eqb j (g x)) (1/2))) by assumption; reflexivity|]. cbn. now apply total_none.
    - intros x _. rewrite (Nat.eqb_sym (g x) j). destruct (Nat.eqb x i); reflexivity. }
  rewrite (A (fun x => x)), (A S). rewrite (Nat.eqb_sym n i), (Nat.eqb_sym ref j), (Nat.eqb_sym (S ref) j).
  unfold pick. destruct (Nat.eqb i n && Nat.eqb j ref), (Nat.eqb i n && Nat.eqb j (S ref)); lra.
Qed.
Lemma pick_mul b v x : pick b v * x = pick b (v * x).
Proof. destruct b; cbn; lra. Qed.
Lemma total_pick' (b : bool) (f : nat -> R) m c : (c < m)%nat -> total (map (fun j => pick (b && Nat.eqb j c) (f j)) (seq 0 m)) = pick b (f c).
Proof.
  intros H. destruct b; cbn [andb].
  - rewrite (total_ext _ (fun j => if Nat.eqb j c then f j else 0)) by reflexivity. now rewrite total_pick.
  - cbn. apply total_zero.
Qed.
Lemma row n ref x k : (k <= n)%nat -> (S ref <= n)%nat ->
  total (map (fun j => dense (edge_system n ref) k j * x j) (seq 0 (S n))) = if Nat.ltb k n then (x k + x (S k)) / 2 else x (S ref) - x ref.
Proof.
  intros K Rr. rewrite (total_ext _ (fun j => pick (Nat.ltb k n && Nat.eqb j k) (1/2 * x j) + (pick (Nat.ltb k n && Nat.eqb j (S k)) (1/2 * x j) + (pick (Nat.eqb k n && Nat.eqb j ref) (-1 * x j) + pick (Nat.eqb k n && Nat.eqb j (S ref)) (1 * x j))))).
  - rewrite !total_plus. rewrite (total_pick' _ (fun j => 1/2 * x j)), (total_pick' _ (fun j => -1 * x j)), (total_pick' _ (fun j => 1 * x j)) by lia.
    destruct (Nat.ltb_spec k n) as [L|L].
    + rewrite (total_pick' _ (fun j => 1/2 * x j)) by lia. replace (Nat.eqb k n) with false by (symmetry; apply Nat.eqb_neq; lia). cbn [pick]. lra.
    + cbn [andb pick]. rewrite total_zero. replace (Nat.eqb k n) with true by (symmetry; apply Nat.eqb_eq; lia). cbn [pick]. lra.
  - intros j _. rewrite dense_split, !Rmult_plus_distr_r, !pick_mul. lra.
Qed.
Lemma column n ref y j : (j <= n)%nat ->
  total (map (fun k => dense (edge_system n ref) k j * y k) (seq 0 (S n))) =
  pick (Nat.ltb j n) (y j / 2) + pick (Nat.ltb 0 j) (y (pred j) / 2) + pick (Nat.eqb j ref) (- y n) + pick (Nat.eqb j (S ref)) (y n).
Proof.
  intros K. rewrite (total_ext _ (fun k => pick (Nat.ltb j n && Nat.eqb k j) (1/2 * y k) + (pick (Nat.ltb 0 j && Nat.eqb k (pred j)) (1/2 * y k) + (pick (Nat.eqb j ref && Nat.eqb k n) (-1 * y k) + pick (Nat.eqb j (S ref) && Nat.eqb k n) (1 * y k))))).
  - rewrite !total_plus. rewrite !(total_pick' _ (fun j => 1/2 * y j)), (total_pick' _ (fun j => -1 * y j)), (total_pick' _ (fun j => 1 * y j)) by lia.
    replace (1/2 * y j) with (y j / 2) by lra. replace (1/2 * y (pred j)) with (y (pred j) / 2) by lra. replace (-1 * y n) with (- y n) by lra. replace (1 * y n) with (y n) by lra. lra.
  - intros k Hk. apply in_seq in Hk. rewrite dense_split, !Rmult_plus_distr_r, !pick_mul. rewrite !Rplus_assoc. f_equal; [|f_equal; [|f_equal]].
    + f_equal. rewrite (Nat.eqb_sym j k). destruct (Nat.eqb_spec k j) as [->|]; [reflexivity|]. now rewrite !andb_false_r.
    + f_equal. destruct (Nat.eqb_spec j (S k)) as [->|A].
      * cbn [pred]. rewrite Nat.eqb_refl. destruct (Nat.ltb_spec k n); [|lia]. destruct (Nat.ltb_spec 0 (S k)); [reflexivity|lia].
      * rewrite andb_false_r. symmetry. apply andb_false_iff. destruct (Nat.ltb_spec 0 j); [right|now left]. apply Nat.eqb_neq. lia.
    + f_equal. apply andb_comm.
    + f_equal. apply andb_comm.
Qed.

(* the transposed system has no other solution than zero *)
Lemma kernel n ref y : (S ref < n)%nat ->
  (forall j, (j <= n)%nat -> total (map (fun k => dense (edge_system n ref) k j * y k) (seq 0 (S n))) = 0) ->
  forall k, (k <= n)%nat -> y k = 0.
Proof.
  intros Rr H. assert (C : forall j, (j <= n)%nat -> pick (Nat.ltb j n) (y j / 2) + pick (Nat.ltb 0 j) (y (pred j) / 2) + pick (Nat.eqb j ref) (- y n) + pick (Nat.eqb j (S ref)) (y n) = 0).
  { intros j J. rewrite <- column by exact J. now apply H. }
  assert (A : forall j, (j < ref)%nat -> y j = 0).
  { induction j as [|j IH]; intros J.
    - pose proof (C 0%nat ltac:(lia)) as D. destruct (Nat.ltb_spec 0 n); [|lia]. destruct (Nat.eqb_spec 0 ref); [lia|]. cbn in D. lra.
    - pose proof (C (S j) ltac:(lia)) as D. destruct (Nat.ltb_spec (S j) n); [|lia]. destruct (Nat.eqb_spec (S j) ref); [lia|]. destruct (Nat.eqb_spec (S j) (S ref)); [lia|].
      destruct (Nat.ltb_spec 0 (S j)); [|lia]. cbn in D. rewrite IH in D by lia. lra. }
  assert (B0 : y ref = 2 * y n).
  { pose proof (C ref ltac:(lia)) as D. destruct (Nat.ltb_spec ref n); [|lia]. rewrite Nat.eqb_refl in D. destruct (Nat.eqb_spec ref (S ref)); [lia|].
    destruct (Nat.ltb_spec 0 ref); cbn [pick] in D; [rewrite (A (pred ref)) in D by lia; lra|lra]. }
  assert (B : forall d, (S ref + d < n)%nat -> y (S ref + d)%nat * y (S ref + d)%nat = 16 * (y n * y n)).
  { induction d as [|d IH]; intros L.
    - rewrite Nat.add_0_r in *. pose proof (C (S ref) ltac:(lia)) as D. destruct (Nat.ltb_spec (S ref) n); [|lia]. destruct (Nat.eqb_spec (S ref) ref); [lia|]. rewrite Nat.eqb_refl in D.
      destruct (Nat.ltb_spec 0 (S ref)); [|lia]. cbn [pick pred] in D. assert (y (S ref) = - 4 * y n) as -> by lra. lra.
    - pose proof (C (S ref + S d)%nat ltac:(lia)) as D. destruct (Nat.ltb_spec (S ref + S d) n); [|lia]. destruct (Nat.eqb_spec (S ref + S d) ref); [lia|]. destruct (Nat.eqb_spec (S ref + S d) (S ref)); [lia|].
      destruct (Nat.ltb_spec 0 (S ref + S d)); [|lia]. replace (pred (S ref + S d)) with (S ref + d)%nat in D by lia. cbn [pick] in D.
      assert (y (S ref + S d)%nat = - y (S ref + d)%nat) as -> by lra. rewrite <- IH by lia. lra. }
  assert (Z : y n = 0).
  { pose proof (C n ltac:(lia)) as D. rewrite Nat.ltb_irrefl in D. destruct (Nat.eqb_spec n ref); [lia|]. destruct (Nat.eqb_spec n (S ref)); [lia|].
    destruct (Nat.ltb_spec 0 n); [|lia]. cbn [pick] in D. pose proof (B (pred n - S ref)%nat ltac:(lia)) as E. replace (S ref + (pred n - S ref))%nat with (pred n) in E by lia.
    assert (Y : y (pred n) = 0) by lra. rewrite Y in E. apply Rsqr_0_uniq. unfold Rsqr. lra. }
  assert (T : forall k, (k < n)%nat -> y k = 0).
  { induction k as [|k IH]; intros L.
    - pose proof (C 0%nat ltac:(lia)) as D. rewrite Z in D. destruct (Nat.ltb_spec 0 n); [|lia]. unfold pick in D. destruct (Nat.eqb 0 ref), (Nat.eqb 0 (S ref)); cbn in D; lra.
    - pose proof (C (S k) ltac:(lia)) as D. rewrite Z in D. destruct (Nat.ltb_spec (S k) n); [|lia]. destruct (Nat.ltb_spec 0 (S k)); [|lia]. cbn [pred] in D. rewrite IH in D by lia. unfold pick in D.
      destruct (Nat.eqb (S k) ref), (Nat.eqb (S k) (S ref)); lra. }
  intros k K. destruct (Nat.eq_dec k n) as [->|]; [exact Z|apply T; lia].
Qed.

(* C124: the edges are the ones with the given centers, with two bins of equal width *)
Theorem C124_edges : forall centers ref edges, (S ref < length centers)%nat ->
  (infer_bin_edges centers ref edges <-> edges_of centers ref edges).
Proof.
  intros centers ref edges Rr. unfold infer_bin_edges, edge_rhs.
  rewrite (nth_error_nth' centers 0 Rr), (nth_error_nth' centers 0 (ltac:(lia) : (ref < length centers)%nat)).
  set (n := length centers) in *. set (cc := nth (S ref) centers 0 - nth ref centers 0).
  assert (RH : forall k, nth k (centers ++ [cc]) 0 = if Nat.ltb k n then nth k centers 0 else if Nat.eqb k n then cc else 0).
  { intros k. destruct (Nat.ltb_spec k n); [now apply app_nth1|]. rewrite app_nth2 by assumption. fold n. destruct (Nat.eqb_spec k n) as [->|]; [now rewrite Nat.sub_diag|].
    rewrite nth_overflow; [reflexivity|]. cbn. lia. }
  assert (NE : forall i, (i <= n)%nat ->
     total (map (fun j => total (map (fun k => dense (edge_system n ref) k i * dense (edge_system n ref) k j) (seq 0 (S n))) * nth j edges 0) (seq 0 (S n))) -
     total (map (fun k => dense (edge_system n ref) k i * nth k (centers ++ [cc]) 0) (seq 0 (S n))) =
     total (map (fun k => dense (edge_system n ref) k i * ((if Nat.ltb k n then (nth k edges 0 + nth (S k) edges 0) / 2 else nth (S ref) edges 0 - nth ref edges 0) - nth k (centers ++ [cc]) 0)) (seq 0 (S n)))).
  { intros i I. set (P := dense (edge_system n ref)).
    rewrite (total_ext _ (fun j => total (map (fun k => P k i * (P k j * nth j edges 0)) (seq 0 (S n))))).
    - rewrite total_swap, <- total_minus. apply total_ext. intros k K. apply in_seq in K. rewrite total_scal. unfold P at 2. rewrite (row n ref (fun j => nth j edges 0)) by lia. ring.
    - intros j _. rewrite Rmult_comm, <- total_scal. apply total_ext. intros; ring. }
  split.
  - intros (rhs & E & L & H). injection E as <-. cbv zeta in H.
    assert (K : forall k, (k <= n)%nat -> (if Nat.ltb k n then (nth k edges 0 + nth (S k) edges 0) / 2 else nth (S ref) edges 0 - nth ref edges 0) - nth k (centers ++ [cc]) 0 = 0).
    { apply (kernel n ref _ Rr). intros j J. rewrite <- NE by exact J. rewrite H by lia. lra. }
    split; [exact L|]. assert (C1 : forall k, (k < n)%nat -> nth k centers 0 = (nth k edges 0 + nth (S k) edges 0) / 2).
    { intros k Hk. specialize (K k ltac:(lia)). rewrite RH in K. destruct (Nat.ltb_spec k n); [|lia]. lra. }
    split; [exact C1|]. specialize (K n ltac:(lia)). rewrite RH, Nat.ltb_irrefl, Nat.eqb_refl in K. unfold cc in K.
    rewrite (C1 ref), (C1 (S ref)) in K by lia. lra.
  - intros (L & C1 & C2). exists (centers ++ [cc]). split; [reflexivity|]. cbv zeta. split; [exact L|]. intros i I.
    apply Rminus_diag_uniq. rewrite NE by lia. rewrite (total_ext _ (fun _ => 0)); [apply total_zero|].
    intros k K. apply in_seq in K. rewrite RH. destruct (Nat.ltb_spec k n) as [A|A].
    + rewrite C1 by exact A. lra.
    + replace (Nat.eqb k n) with true by (symmetry; apply Nat.eqb_eq; lia). unfold cc. rewrite (C1 ref), (C1 (S ref)) by lia.
      match goal with |- _ * ?e = 0 => replace e with 0 by lra end. ring.
Qed.
Print Assumptions C124_edges.

(* there is exactly one such list *)
Fixpoint walk (e : R) (centers : list R) : list R := match centers with [] => [e] | c :: cs => e :: walk (2 * c - e) cs end.
Lemma walk_length e cs : length (walk e cs) = S (length cs).
Proof. revert e. induction cs; intros; cbn; [reflexivity|]. now rewrite IHcs. Qed.
Lemma walk_mean cs : forall e k, (k < length cs)%nat -> nth k cs 0 = (nth k (walk e cs) 0 + nth (S k) (walk e cs) 0) / 2.
Proof.
  induction cs as [|c cs IH]; intros e k K; cbn in K; [lia|]. destruct k as [|k].
  - cbn. destruct cs; cbn; lra.
  - cbn [nth walk]. apply IH. lia.
Qed.
Lemma walk_shift cs : forall e d k, (k <= length cs)%nat -> nth k (walk (e + d) cs) 0 = nth k (walk e cs) 0 + (if Nat.even k then d else - d).
Proof.
  induction cs as [|c cs IH]; intros e d k K; cbn in K.
  - destruct k; [cbn; lra|lia].
  - destruct k as [|k]; [cbn; lra|]. cbn [nth walk]. replace (2 * c - (e + d)) with (2 * c - e + - d) by ring. rewrite IH by lia.
    rewrite Nat.even_succ, <- Nat.negb_even. destruct (Nat.even k); cbn; lra.
Qed.
Lemma walk_unique cs : forall e edges, length edges = S (length cs) -> nth 0 edges 0 = e ->
  (forall k, (k < length cs)%nat -> nth k cs 0 = (nth k edges 0 + nth (S k) edges 0) / 2) -> edges = walk e cs.
Proof.
  induction cs as [|c cs IH]; intros e edges L E H.
  - destruct edges as [|a [|b l]]; cbn in L; try lia. cbn in E. now subst.
  - destruct edges as [|a edges]; cbn in L; [lia|]. cbn in E. subst a. cbn [walk]. f_equal. apply IH.
    + lia.
    + pose proof (H 0%nat ltac:(cbn; lia)) as D. cbn [nth] in D. lra.
    + intros k K. exact (H (S k) ltac:(cbn; lia)).
Qed.

Theorem C124_unique : forall centers ref, (S ref < length centers)%nat ->
  exists edges, infer_bin_edges centers ref edges /\ forall edges', infer_bin_edges centers ref edges' -> edges' = edges.
Proof.
  intros centers ref Rr. set (g := fun e => nth (S ref) (walk e centers) 0 - nth ref (walk e centers) 0 - (nth (S (S ref)) (walk e centers) 0 - nth (S ref) (walk e centers) 0)).
  assert (G : forall e, g e = g 0 - (if Nat.even ref then 4 else -4) * e).
  { intros e. unfold g. replace e with (0 + e) at 1 2 3 4 by ring. rewrite !walk_shift by lia. rewrite !Nat.even_succ, !Nat.odd_succ, <- Nat.negb_even. destruct (Nat.even ref); cbn [negb]; lra. }
  set (e0 := g 0 / (if Nat.even ref then 4 else -4)).
  assert (Z : forall e, g e = 0 <-> e = e0).
  { intros e. rewrite G. unfold e0. destruct (Nat.even ref); split; intros; try lra; subst; lra. }
  exists (walk e0 centers). split.
  - apply C124_edges; [exact Rr|]. split; [apply walk_length|]. split; [intros; now apply walk_mean|]. pose proof (proj2 (Z e0) eq_refl) as Q. unfold g in Q. lra.
  - intros edges' H. apply C124_edges in H; [|exact Rr]. destruct H as (L & C1 & C2).
    pose proof (walk_unique centers (nth 0 edges' 0) edges' L eq_refl C1) as E. rewrite E. f_equal. apply Z. unfold g. rewrite <- E. lra.
Qed.
Print Assumptions C124_unique.

(* equidistant centers have equidistant edges *)
Theorem C124_uniform : forall centers ref c d edges, (S ref < length centers)%nat ->
  (forall k, (k < length centers)%nat -> nth k centers 0 = c + INR k * d) ->
  infer_bin_edges centers ref edges -> forall k, (k <= length centers)%nat -> nth k edges 0 = c - d / 2 + INR k * d.
Proof.
  intros centers ref c d edges Rr U H.
  set (e := map (fun k => c - d / 2 + INR k * d) (seq 0 (S (length centers)))).
  assert (N : forall k, (k <= length centers)%nat -> nth k e 0 = c - d / 2 + INR k * d).
  { intros k K. unfold e. apply nth_error_nth. rewrite nth_error_map, nth_error_nth' with (d := O) by (rewrite seq_length; lia). rewrite seq_nth by lia. reflexivity. }
  assert (I : infer_bin_edges centers ref e).
  { apply C124_edges; [exact Rr|]. split; [unfold e; now rewrite map_length, seq_length|]. split.
    - intros k K. rewrite U, !N by lia. rewrite S_INR. lra.
    - rewrite !N by lia. rewrite !S_INR. lra. }
  destruct (C124_unique centers ref Rr) as (x & _ & Q). intros k K. rewrite (Q _ H), <- (Q _ I). now apply N.
Qed.
Print Assumptions C124_uniform.

(* too few centers for the reference bins: an IndexError. The default is ref=1 *)
Theorem C124_short : forall centers ref edges, (length centers <= S ref)%nat -> ~ infer_bin_edges centers ref edges.
Proof.
  intros centers ref edges L (rhs & E & _). unfold edge_rhs in E. rewrite (proj2 (nth_error_None _ _) L) in E. discriminate.
Qed.
Print Assumptions C124_short.

Example C124_ex : infer_bin_edges [2; 10; 20; 40] 1 [-1; 5; 15; 25; 55].
Proof.
  apply C124_edges; [cbn; lia|]. split; [reflexivity|]. split; [|cbn; lra].
  intros k K. cbn in K. destruct k as [|[|[|[|k]]]]; cbn; try lra; lia.
Qed.
