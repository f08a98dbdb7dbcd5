From Verif Require Import Base MemSpec MemModel MemLemmas.
From Coq Require Import Sorting.Sorted.
Local Open Scope Z_scope.
Ltac Zify.zify_post_hook ::= idtac.

(* ================= C40 ================= *)
(* The underlying allocator is honest along a history if each block it returns is disjoint from the blocks the pool holds
   at that moment; requests are non-negative byte counts.  *)
Lemma honest_app k h1 : forall s h2, honest k s (h1 ++ h2) <-> honest k s h1 /\ honest k (fold_left (step k) h1 s) h2.
Proof. induction h1 as [|o h1 IH]; intros s h2; cbn; [tauto|]. rewrite IH. tauto. Qed.
Definition honest_history (k : Z) (h : list op) : Prop :=
  forall h1 o h2, h = h1 ++ o :: h2 ->
    let st := fst (fst (run k h1)) in
    match o with
    | OAlloc n p => 0 <= n /\ forall a, snd (alloc k st n p) = Some a -> forall b, In b (p_arenas st) -> disjoint (ar_raw a) (ar_raw b)
    | OReset p => forall a, snd (reset k st p) = Some a -> forall b, In b (p_arenas st) -> disjoint (ar_raw a) (ar_raw b)
    | OFree => True
    end.
Lemma honest_history_ok k h : honest_history k h -> honest k (fresh, [], 0) h.
Proof.
  induction h as [|o h IH] using rev_ind; intros HH; [exact Logic.I|]. apply honest_app. split.
  - apply IH. intros h1 o' h2 E. apply (HH h1 o' (h2 ++ [o])). rewrite E, <- app_assoc. reflexivity.
  - cbn [honest]. split; [|exact Logic.I]. specialize (HH h o [] eq_refl). change (fold_left (step k) h (fresh, [], 0)) with (run k h). cbn zeta in HH. destruct o as [n p|p|]; cbn; [|destruct (snd (reset k (fst (fst (run k h))) p)); auto|exact Logic.I].
    destruct HH as (N & H). split; [exact N|]. destruct (snd (alloc k (fst (fst (run k h))) n p)); auto.
Qed.
(* after every history: the buffers handed out since the last reset are pairwise disjoint, aligned, and inside blocks the pool holds *)
Theorem C40_disjoint k h : 1 <= k -> honest_history k h ->
  let '(st, live, _) := run k h in
  ForallOrdPairs disjoint live /\
  forall b, In b live -> aligned k b /\ 0 <= snd b /\ exists a, In a (p_arenas st) /\ inside b (ar_raw a).
Proof.
  intros Hk HH. pose proof (run_inv k h Hk (fresh, [], 0) (inv_fresh k Hk) (honest_history_ok k h HH)) as X. unfold run. destruct (fold_left (step k) h (fresh, [], 0)) as ((st, live), c). destruct X as [_ _ IA _ IL _ ID]. split; [exact ID|].
  intros b Hb. rewrite Forall_forall in *. destruct (IL b Hb) as (B0 & B1 & a & B2 & B3). split; [exact B1|]. split; [exact B0|]. exists a. split; [exact B2|]. destruct (IA a B2) as (_ & _ & I1). unfold inside in *. cbn in *. lia.
Qed.
(* every request gets as many bytes as asked for *)
Theorem C40_size k h n p : 1 <= k -> honest_history k (h ++ [OAlloc n p]) -> exists st' b rest c, run k (h ++ [OAlloc n p]) = (st', b :: rest, c) /\ snd b = n /\ rest = snd (fst (run k h)).
Proof.
  intros Hk HH. apply honest_history_ok, honest_app in HH as (H1 & H2). pose proof (run_inv k h Hk (fresh, [], 0) (inv_fresh k Hk) H1) as X. unfold run. rewrite fold_left_app. destruct (fold_left (step k) h (fresh, [], 0)) as ((st, live), c). cbn [honest fst] in H2. destruct H2 as (H2 & _).
  pose proof (alloc_inv k st live n p Hk X H2) as Y. cbn [fold_left step]. destruct (alloc k st n p) as ((b, st'), o). destruct Y as (Y & _). do 4 eexists. split; [reflexivity|]. split; [exact Y|reflexivity].
Qed.
(* after a reset, requests whose rounded sizes add up to at most the capacity are all served from the memory the pool already holds *)
Theorem C40_reuse k h p ns : 1 <= k -> honest_history k (h ++ [OReset p]) -> Forall (fun e => 0 <= fst e) ns ->
  need k (map fst ns) <= p_cap (fst (fst (run k (h ++ [OReset p])))) -> 0 < p_cap (fst (fst (run k (h ++ [OReset p])))) ->
  snd (run k (h ++ [OReset p] ++ allocs ns)) = snd (run k (h ++ [OReset p])).
Proof.
  intros Hk HH F L C. pose proof (run_inv k _ Hk (fresh, [], 0) (inv_fresh k Hk) (honest_history_ok _ _ HH)) as X. unfold run in *. rewrite app_assoc, fold_left_app, (fold_left_app _ h) in *.
  destruct (fold_left (step k) h (fresh, [], 0)) as ((st, live), c). cbn [fold_left step] in *. unfold reset in *. destruct (Z.eqb_spec (p_cap st) 0) as [E|E]; [cbn in C; lia|].
  destruct (p_arenas st) as [|a [|a2 rest]] eqn:EA; cbn [negb orb] in *.
  - destruct (aligned_alloc_spec k p (p_cap st) Hk) as (_ & A2 & _); [destruct X as [_ [_ X] _ _ _ _ _]; exact X|]. destruct (fit_run k (aligned_alloc k p (p_cap st)) (p_cap st) ns Hk F 0 0 [] (c + 1)) as (l & E2); [lia|cbn in C; lia|cbn in L; lia|]. rewrite E2. reflexivity.
  - destruct (Z.eqb_spec (ar_size a) (p_cap st)) as [E3|E3]; cbn [negb] in *.
    + destruct (fit_run k a (p_cap st) ns Hk F 0 0 [] c) as (l & E2); [lia|cbn in C; lia|cbn in L; lia|]. rewrite E2. reflexivity.
    + destruct (aligned_alloc_spec k p (p_cap st) Hk) as (_ & A2 & _); [destruct X as [_ [_ X] _ _ _ _ _]; exact X|]. destruct (fit_run k (aligned_alloc k p (p_cap st)) (p_cap st) ns Hk F 0 0 [] (c + 1)) as (l & E2); [lia|cbn in C; lia|cbn in L; lia|]. rewrite E2. reflexivity.
  - destruct (aligned_alloc_spec k p (p_cap st) Hk) as (_ & A2 & _); [destruct X as [_ [_ X] _ _ _ _ _]; exact X|]. destruct (fit_run k (aligned_alloc k p (p_cap st)) (p_cap st) ns Hk F 0 0 [] (c + 1)) as (l & E2); [lia|cbn in C; lia|cbn in L; lia|]. rewrite E2. reflexivity.
Qed.
(* repeating one cycle of requests, not all empty, from a fresh pool: after the first reset nothing more is asked of the allocator *)
Definition cycle (ns : list (Z * Z)) (p : Z) : list op := allocs ns ++ [OReset p].
Lemma need_pos k ns : 1 <= k -> Forall (fun e : Z * Z => 0 <= fst e) ns -> (exists e, In e ns /\ 0 < fst e) -> 0 < need k (map fst ns).
Proof.
  intros Hk F (e & He & P). induction F as [|(n, q) ns N0 F IH]; [destruct He|]. cbn [fst] in N0. destruct (round_up_spec n k Hk N0) as (R1 & _ & R3). change (need k (map fst ((n, q) :: ns))) with (round_up n k + need k (map fst ns)).
  pose proof (need_nonneg k (map fst ns) Hk (proj2 (Forall_map fst _ _) F)). destruct He as [<-|He]; [cbn in P; lia|]. specialize (IH He). lia.
Qed.
Theorem C40_steady_partial k ns ps p : 1 <= k -> Forall (fun e => 0 <= fst e) ns -> (exists e, In e ns /\ 0 < fst e) ->
  snd (run k (cycle ns p ++ flat_map (cycle ns) ps)) = snd (run k (cycle ns p)).
Proof.
  intros Hk F NZ. unfold run. rewrite fold_left_app. destruct (first_run k ns Hk F fresh [] 0) as (st & live & c & E1 & (M1 & M2) & E3); [repeat split|cbn; lia|]. cbn [fresh p_size] in E3.
  pose proof (need_pos k ns Hk F NZ) as N0.
  assert (E2 : exists a c', fold_left (step k) (cycle ns p) (fresh, [], 0) = (MP [a] (p_cap st) 0 0, [], c') /\ ar_size a = p_cap st).
  { unfold cycle. rewrite fold_left_app, E1. cbn [fold_left step]. unfold reset. destruct (Z.eqb_spec (p_cap st) 0) as [|_]; [lia|].
    assert (C0 : 0 <= p_cap st) by lia. destruct (aligned_alloc_spec k p (p_cap st) Hk C0) as (_ & A2 & _).
    destruct (p_arenas st) as [|a [|a2 rest]] eqn:EA; cbn [negb orb]; try (do 2 eexists; split; [reflexivity|exact A2]).
    destruct (Z.eqb_spec (ar_size a) (p_cap st)) as [E4|E4]; cbn [negb]; do 2 eexists; (split; [reflexivity|assumption]). }
  destruct E2 as (a & c' & E2 & SZ). rewrite E2. cbn [snd]. clear E1 E2. induction ps as [|p' ps IH]; [reflexivity|]. cbn [flat_map]. rewrite fold_left_app. unfold cycle at 2. rewrite fold_left_app.
  destruct (fit_run k a (p_cap st) ns Hk F 0 0 [] c') as (l & E4); [lia|lia|lia|]. rewrite E4. cbn [fold_left]. unfold step at 2. unfold reset. cbn [p_cap p_arenas]. replace (p_cap st =? 0) with false by lia. rewrite SZ, Z.eqb_refl. cbn [negb orb]. exact IH.
Qed.
Lemma step_room k a rest cap size pos live c n p : pos + n <= ar_size a -> step k (MP (a :: rest) cap size pos, live, c) (OAlloc n p) = (MP (a :: rest) (Z.max cap size) size (pos + round_up n k), cut a pos (pos + n) :: live, c).
Proof. intros H. cbn [step]. unfold alloc. cbn [p_arenas p_pos p_cap p_size]. replace (ar_size a <? pos + n) with false by lia. reflexivity. Qed.
Lemma step_new k ars cap size pos live c n p : (forall a rest, ars = a :: rest -> ar_size a < pos + n) -> step k (MP ars cap size pos, live, c) (OAlloc n p) =
  (MP (aligned_alloc k p n :: ars) (Z.max cap (size + round_up n k)) (size + round_up n k) (round_up n k), cut (aligned_alloc k p n) 0 n :: live, c + 1).
Proof. intros H. cbn [step]. unfold alloc. cbn [p_arenas p_pos p_cap p_size]. destruct ars as [|a rest]; [reflexivity|]. specialize (H a rest eq_refl). replace (ar_size a <? pos + n) with true by lia. reflexivity. Qed.
(* but not from every state: once a cycle outgrows the capacity, every repetition asks the allocator for two new blocks, for ever,
   because space parcelled out of the arena is not counted in the capacity *)
Theorem C40_steady_refuted : let c1 q := cycle [(100, q); (100, q + 1000)] (q + 2000) in let c2 q := cycle [(100, q); (100, q + 1000); (100, q + 2000)] (q + 3000) in
  forall qs q0, snd (run 16 (c1 q0 ++ flat_map c2 qs)) = 3 + 2 * zlen qs.
Proof.
  intros c1 c2 qs q0. unfold run. rewrite fold_left_app.
  assert (K : forall l st live c, p_cap st = 224 -> p_size st = 0 -> p_pos st = 0 -> (exists a, p_arenas st = [a] /\ ar_size a = 224) -> snd (fold_left (step 16) (flat_map c2 l) (st, live, c)) = c + 2 * zlen l).
  { induction l as [|q l IH]; intros st live c C S0 P (a & A & SA); [unfold zlen; cbn; lia|]. destruct st as [ar cap size pos]. cbn in C, S0, P, A. subst. cbn [flat_map]. rewrite fold_left_app.
    assert (AS : forall p' n, 0 <= n -> ar_size (aligned_alloc 16 p' n) = n) by (intros p' n N; apply (aligned_alloc_spec 16 p' n); lia).
    set (F := fold_left (step 16) (flat_map c2 l)) in *. unfold c2, cycle, allocs. cbn [map app fst snd fold_left].
    rewrite step_room by lia. rewrite step_room by (change (round_up 100 16) with 112; lia). rewrite step_new by (intros ? ? [= <- <-]; change (round_up 100 16) with 112; lia).
    change (round_up 100 16) with 112. cbn [step]. unfold reset. cbn [p_cap p_arenas]. change (Z.max (Z.max (Z.max 224 0) 0) (0 + 112)) with 224. change (224 =? 0) with false. cbn [negb orb]. unfold F.
    rewrite IH; cbn [p_cap p_size p_pos p_arenas]; try reflexivity; [rewrite zlen_cons; lia|]. eexists. split; [reflexivity|]. apply AS. lia. }
  assert (E : exists a live, fold_left (step 16) (c1 q0) (fresh, [], 0) = (MP [a] 224 0 0, live, 3) /\ ar_size a = 224).
  { assert (AS : forall p' n, 0 <= n -> ar_size (aligned_alloc 16 p' n) = n) by (intros p' n N; apply (aligned_alloc_spec 16 p' n); lia).
    unfold c1, cycle, allocs. cbn [map app fst snd fold_left]. unfold fresh. rewrite step_new by (intros ? ? [=]). rewrite step_new by (intros ? ? [= <- <-]; rewrite AS by lia; change (round_up 100 16) with 112; lia).
    change (round_up 100 16) with 112. cbn [step].
    unfold reset. cbn [p_cap p_arenas]. change (Z.max (Z.max 0 (0 + 112)) (0 + 112 + 112)) with 224. change (224 =? 0) with false. cbn [negb orb]. do 2 eexists. split; [reflexivity|]. apply AS. lia. }
  destruct E as (a & live & -> & SA). apply K; try reflexivity. exists a. split; [reflexivity|exact SA].
Qed.
(* a concrete honest history: three requests, one of which outgrows the arena *)
Example C40_ex : run 16 [OAlloc 100 5; OReset 1000; OAlloc 40 0; OAlloc 30 0; OAlloc 50 2000] =
  (MP [AR (2000, 65) 2000 50; AR (1000, 127) 1008 112] 112 64 64, [(2000, 50); (1056, 30); (1008, 40)], 3).
Proof. vm_compute. reflexivity. Qed.
Example C40_ex_honest : honest_history 16 [OAlloc 100 5; OReset 1000; OAlloc 40 0; OAlloc 30 0; OAlloc 50 2000].
Proof.
  intros h1 o h2 E. destruct h1 as [|o1 [|o2 [|o3 [|o4 [|o5 [|o6 h1]]]]]]; cbn in E; injection E; intros; subst; try discriminate; vm_compute; (split; [congruence|]) || idtac;
    intros a [= <-] b H || intros a [=]; repeat (destruct H as [<-|H]; [vm_compute; (left; congruence) || (right; congruence)|]); destruct H.
Qed.
Example C40_ex_cycle : exists ns : list (Z * Z), Forall (fun e => 0 <= fst e) ns /\ (exists e, In e ns /\ 0 < fst e) /\ snd (run 16 (cycle ns 5000 ++ flat_map (cycle ns) [6000; 7000; 8000])) = 3.
Proof. exists [(100, 0); (30, 2000)]. split; [repeat constructor; cbn; lia|]. split; [exists (100, 0); split; [now left|cbn; lia]|]. vm_compute. reflexivity. Qed.
Print Assumptions C40_disjoint.
Print Assumptions C40_size.
Print Assumptions C40_reuse.
Print Assumptions C40_steady_partial.
Print Assumptions C40_steady_refuted.
