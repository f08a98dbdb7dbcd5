(* C18, C19: masks and range sets. *)
From Verif Require Import Base RangeSpec RangeModel RangeLemmas.

Theorem C18_mask2range : forall mask, exists r, mask2range mask = Some r /\
  (forall k, covers r k <-> zget mask k = Some true) /\ separated r /\ Forall nonempty r.
Proof. exact mask2range_spec. Qed.
Print Assumptions C18_mask2range.

Example C18_ex : mask2range [true; true; false; true; false; true] = Some [(0, 2); (3, 4); (5, 6)].
Proof. reflexivity. Qed.

(* range_sub, for non-empty ranges in a; b may contain empty ranges, but not one that sits at the
   start of a non-empty one. ainds/binds: any result np.argsort may return. *)
Theorem C19_range_sub_partial : forall a b ainds binds,
  is_argsort ainds (map fst a) -> is_argsort binds (map fst b) ->
  a <> [] -> Forall nonempty a -> disjoint_ranges a ->
  Forall (fun r => fst r <= snd r) b -> disjoint_ranges b ->
  (forall i j r s, nth_error b i = Some r -> nth_error b j = Some s -> fst r = fst s -> snd r = snd s) ->
  exists c rmap abmap, range_sub a b ainds binds = Some (c, rmap, abmap) /\
    (forall k, covers c k <-> covers a k /\ ~ covers b k) /\
    Forall nonempty c /\ in_order c /\
    length rmap = length c /\
    (forall i r, nth_error c i = Some r -> exists j q, nth_error rmap i = Some (Z.of_nat j) /\
       nth_error a j = Some q /\ fst q <= fst r /\ snd r <= snd q) /\
    filter (fun x => 0 <=? x) abmap = zrange 0 (zlen c) /\
    Forall (fun q => (forall r, In r b -> snd q <= fst r \/ snd r <= fst q) /\
      (In (fst q) (map fst a) \/ In (fst q) (map snd b)) /\
      (In (snd q) (map snd a) \/ In (snd q) (map fst b))) c.
Proof. exact range_sub_spec. Qed.
Print Assumptions C19_range_sub_partial.

Ltac argsort_tac :=
  split; [cbn; repeat (first [apply Permutation_refl | apply perm_skip | (eapply perm_trans; [apply perm_swap|])])
         | repeat constructor; cbn; lia].

(* decidable version, used only to discharge the hypotheses of examples *)
Fixpoint disjointb (l : list rng) : bool :=
  match l with [] => true | r :: l => forallb (fun s => (snd r <=? fst s) || (snd s <=? fst r)) l && disjointb l end.
Lemma disjointb_ok l : disjointb l = true -> disjoint_ranges l.
Proof.
  induction l as [|r l IH]; intros H i j x y Hij Hi Hj; [destruct i; discriminate|].
  cbn [disjointb] in H. apply andb_true_iff in H as [H1 H2].
  assert (G : forall s, In s l -> snd r <= fst s \/ snd s <= fst r).
  { intros s Hs. rewrite forallb_forall in H1. specialize (H1 s Hs). lia. }
  destruct i as [|i], j as [|j]; cbn [nth_error] in Hi, Hj; try congruence.
  - injection Hi as <-. apply G. eapply nth_error_In; eauto.
  - injection Hj as <-. destruct (G x); [eapply nth_error_In; eauto|now right|now left].
  - apply (IH H2 i j); auto.
Qed.
Definition same_startb (b : list rng) : bool :=
  forallb (fun r => forallb (fun s => negb (fst r =? fst s) || (snd r =? snd s)) b) b.
Lemma same_startb_ok b : same_startb b = true -> forall i j r s, nth_error b i = Some r -> nth_error b j = Some s -> fst r = fst s -> snd r = snd s.
Proof.
  intros H i j r s Hi Hj E. unfold same_startb in H. rewrite forallb_forall in H.
  specialize (H r (nth_error_In _ _ Hi)). rewrite forallb_forall in H. specialize (H s (nth_error_In _ _ Hj)). lia.
Qed.

(* the example of the docstring, with a given in the other order *)
Example C19_sub_ex : let a := [(200, 1000); (0, 100)] in let b := [(1, 2); (3, 4); (8, 999)] in
  is_argsort [1; 0]%nat (map fst a) /\ is_argsort [0; 1; 2]%nat (map fst b) /\
  Forall nonempty a /\ disjoint_ranges a /\ Forall (fun r => fst r <= snd r) b /\ disjoint_ranges b /\
  (forall i j r s, nth_error b i = Some r -> nth_error b j = Some s -> fst r = fst s -> snd r = snd s) /\
  range_sub a b [1; 0]%nat [0; 1; 2]%nat =
    Some ([(0, 1); (2, 3); (4, 8); (999, 1000)], [1; 1; 1; 0], [0; -1; 1; -2; 2; -3; 3]).
Proof.
  cbv zeta. split; [argsort_tac|]. split; [argsort_tac|].
  split; [repeat constructor|]. split; [now apply disjointb_ok|].
  split; [repeat constructor; cbn; lia|]. split; [now apply disjointb_ok|].
  split; [now apply same_startb_ok|]. reflexivity.
Qed.

(* An empty range in a makes the result wrong, although no documented precondition is violated:
   a = {1..9}, b = {2,4}, and the point 2 survives. *)
Theorem C19_range_sub_refuted : exists a b ainds binds c rmap abmap,
  is_argsort ainds (map fst a) /\ is_argsort binds (map fst b) /\
  Forall (fun r => fst r <= snd r) a /\ disjoint_ranges a /\ Forall nonempty b /\ disjoint_ranges b /\
  range_sub a b ainds binds = Some (c, rmap, abmap) /\ exists k, covers c k /\ covers b k.
Proof.
  exists [(0, 0); (1, 10)], [(2, 3); (4, 5)], [0; 1]%nat, [0; 1]%nat.
  eexists. eexists. eexists.
  split; [argsort_tac|]. split; [argsort_tac|]. split; [repeat constructor; cbn; lia|].
  split; [now apply disjointb_ok|]. split; [repeat constructor|]. split; [now apply disjointb_ok|].
  split; [reflexivity|]. exists 2. split.
  - eexists. split; [left; reflexivity|]. unfold inside; cbn; lia.
  - exists (2, 3). split; [now left|]. unfold inside; cbn; lia.
Qed.
Print Assumptions C19_range_sub_refuted.

(* An empty a, which the code prepares for explicitly, raises an error. *)
Theorem C19_range_sub_empty_refuted : forall b binds, range_sub [] b [] binds = None.
Proof. reflexivity. Qed.
Print Assumptions C19_range_sub_empty_refuted.

Theorem C19_range_union : forall a inds,
  is_argsort inds (map fst a) -> Forall (fun r => fst r <= snd r) a ->
  let '(b, rmap) := range_union a inds in
  (forall k, covers b k <-> covers a k) /\ separated b /\ Forall (fun r => fst r <= snd r) b /\
  length rmap = length a /\
  (forall j q, nth_error a j = Some q -> exists t r, nth_error rmap j = Some t /\ zget b t = Some r /\
     fst r <= fst q /\ snd q <= snd r).
Proof. exact range_union_spec. Qed.
Print Assumptions C19_range_union.

Example C19_union_ex : let a := [(7, 9); (0, 3); (2, 5); (9, 12)] in
  is_argsort [1; 2; 0; 3]%nat (map fst a) /\ Forall (fun r => fst r <= snd r) a /\
  range_union a [1; 2; 0; 3]%nat = ([(0, 5); (7, 12)], [1; 0; 0; 1]).
Proof.
  cbv zeta. split; [split; [|repeat constructor; cbn; lia]|].
  - cbn. apply Permutation_sym. eapply perm_trans; [apply perm_swap|]. apply perm_skip.
    eapply perm_trans; [apply perm_swap|]. apply Permutation_refl.
  - split; [repeat constructor; cbn; lia|reflexivity].
Qed.

Theorem C19_range_normalize : forall a, let o := range_normalize a in
  (forall k, covers o k <-> covers a k) /\ Forall nonempty o /\
  (disjoint_ranges a -> disjoint_ranges o).
Proof. exact range_normalize_spec. Qed.
Print Assumptions C19_range_normalize.

Example C19_normalize_ex : range_normalize [(3, 3); (5, 2); (1, 4)] = [(1, 4)].
Proof. reflexivity. Qed.

(* range_cut: same points, no piece has a cut position inside it, and nothing is split elsewhere *)
Theorem C19_range_cut_partial : forall a c ainds binds,
  is_argsort ainds (map fst a) -> is_argsort binds c ->
  a <> [] -> Forall nonempty a -> disjoint_ranges a ->
  exists o, range_cut a c ainds binds = Some o /\
    (forall k, covers o k <-> covers a k) /\ Forall nonempty o /\ in_order o /\
    Forall (fun r => forall p, In p c -> ~ (fst r < p < snd r)) o /\
    Forall (fun r => (In (fst r) (map fst a) \/ In (fst r) c) /\ (In (snd r) (map snd a) \/ In (snd r) c)) o.
Proof. exact range_cut_spec. Qed.
Print Assumptions C19_range_cut_partial.

Example C19_cut_ex : let a := [(0, 10); (20, 100)] in let c := [0; 2; 7; 30; 200] in
  is_argsort [0; 1]%nat (map fst a) /\ is_argsort [0; 1; 2; 3; 4]%nat c /\ Forall nonempty a /\ disjoint_ranges a /\
  range_cut a c [0; 1]%nat [0; 1; 2; 3; 4]%nat = Some [(0, 2); (2, 7); (7, 10); (20, 30); (30, 100)].
Proof.
  cbv zeta. split; [argsort_tac|]. split; [argsort_tac|]. split; [repeat constructor|].
  split; [now apply disjointb_ok|reflexivity].
Qed.
