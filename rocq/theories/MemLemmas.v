From Verif Require Import Base MemSpec MemModel.
From Coq Require Import Sorting.Sorted.
Local Open Scope Z_scope.
Ltac Zify.zify_post_hook ::= idtac.

Lemma round_up_spec n k : 1 <= k -> 0 <= n -> n <= round_up n k /\ round_up n k mod k = 0 /\ 0 <= round_up n k.
Proof. intros Hk Hn. unfold round_up. rewrite Z.mod_mul by lia. pose proof (Z.div_mod (n + k - 1) k ltac:(lia)). pose proof (Z.mod_pos_bound (n + k - 1) k ltac:(lia)). repeat split; nia. Qed.
Lemma aligned_alloc_spec k p n : 1 <= k -> 0 <= n -> let a := aligned_alloc k p n in
  ar_raw a = (p, n + k - 1) /\ ar_size a = n /\ ar_ptr a mod k = 0 /\ p <= ar_ptr a /\ ar_ptr a + n <= p + (n + k - 1).
Proof.
  intros Hk Hn. unfold aligned_alloc. cbn. pose proof (Z.mod_pos_bound (- p) k ltac:(lia)). split; [reflexivity|]. split; [rewrite Z.min_l; lia|]. split; [|lia].
  pose proof (Z.div_mod (- p) k ltac:(lia)) as D. replace (p + - p mod k) with (- (- p / k) * k) by lia. apply Z.mod_mul. lia.
Qed.
Lemma cut_spec a i n : 0 <= i -> 0 <= n -> i + n <= ar_size a -> cut a i (i + n) = (ar_ptr a + i, n).
Proof. intros. unfold cut. f_equal; lia. Qed.

Lemma cut_spec0 a n : 0 <= n -> n <= ar_size a -> cut a 0 n = (ar_ptr a, n).
Proof. intros. unfold cut. f_equal; lia. Qed.

(* the invariant of the pool *)
Record inv (k : Z) (st : pool) (live : list buf) : Prop := {
  i_pos : 0 <= p_pos st /\ p_pos st mod k = 0;
  i_cap : 0 <= p_size st /\ 0 <= p_cap st;
  i_ar : Forall (fun a => 0 <= ar_size a /\ ar_ptr a mod k = 0 /\ inside (ar_ptr a, ar_size a) (ar_raw a)) (p_arenas st);
  i_dis : ForallOrdPairs (fun a b => disjoint (ar_raw a) (ar_raw b)) (p_arenas st);
  i_live : Forall (fun b => 0 <= snd b /\ aligned k b /\ exists a, In a (p_arenas st) /\ inside b (ar_ptr a, ar_size a)) live;
  i_head : match p_arenas st with [] => True | a :: rest => Forall (fun b => (exists a', In a' rest /\ inside b (ar_ptr a', ar_size a')) \/ (inside b (ar_ptr a, ar_size a) /\ fst b + snd b <= ar_ptr a + p_pos st)) live end;
  i_dl : ForallOrdPairs disjoint live }.
Lemma inv_fresh k : 1 <= k -> inv k fresh [].
Proof. intros Hk. constructor; cbn; try constructor; try lia; try exact Logic.I. Qed.

Definition honest1 (k : Z) (st : pool) (o : op) : Prop :=
  match o with
  | OAlloc n p => 0 <= n /\ match snd (alloc k st n p) with Some a => forall b, In b (p_arenas st) -> disjoint (ar_raw a) (ar_raw b) | None => True end
  | OReset p => match snd (reset k st p) with Some a => forall b, In b (p_arenas st) -> disjoint (ar_raw a) (ar_raw b) | None => True end
  | OFree => True
  end.
Lemma disjoint_in (a b c d : buf) : 0 <= snd a -> 0 <= snd b -> inside a c -> inside b d -> disjoint c d -> disjoint a b.
Proof. destruct a, b, c, d. unfold inside, disjoint. cbn. lia. Qed.
Lemma alloc_inv k st live n p : 1 <= k -> inv k st live -> honest1 k st (OAlloc n p) ->
  let '(b, st', _) := alloc k st n p in snd b = n /\ inv k st' (b :: live).
Proof.
  intros Hk [[P0 PM] [S0 C0] IA ID IL IH IDL] (Hn & HA). destruct (round_up_spec n k Hk Hn) as (R1 & R2 & R3). unfold alloc in *.
  destruct (p_arenas st) as [|a rest] eqn:EA.
  - cbn [negb] in *. destruct (aligned_alloc_spec k p n Hk Hn) as (A1 & A2 & A3 & A4 & A5). set (a := aligned_alloc k p n) in *. rewrite (cut_spec0 a n) by lia. split; [reflexivity|].
    rewrite Forall_forall in IL. assert (live = []) as ->. { destruct live as [|b l]; [reflexivity|]. destruct (IL b (or_introl eq_refl)) as (_ & _ & x & [] & _). }
    constructor; cbn [p_arenas p_cap p_size p_pos].
    + lia.
    + lia.
    + repeat constructor; [lia|exact A3| |]; rewrite A1; cbn; lia.
    + repeat constructor.
    + repeat constructor; cbn; [lia|unfold aligned; cbn; exact A3|]. exists a. split; [now left|]. unfold inside. cbn. lia.
    + constructor; [right; unfold inside; cbn; lia|constructor].
    + repeat constructor.
  - destruct (Z.ltb_spec (ar_size a) (p_pos st + n)) as [L|L]; cbn [negb] in *.
    + destruct (aligned_alloc_spec k p n Hk Hn) as (A1 & A2 & A3 & A4 & A5). set (a' := aligned_alloc k p n) in *. rewrite (cut_spec0 a' n) by lia. split; [reflexivity|].
      cbn [snd] in HA. rewrite Forall_forall in *.
      assert (NEW : forall b, In b live -> disjoint (ar_ptr a', n) b).
      { intros b Hb. destruct (IL b Hb) as (B0 & _ & x & X & Y). assert (Hx : inside (ar_ptr x, ar_size x) (ar_raw x)) by (apply IA; exact X).
        apply (disjoint_in _ _ (ar_raw a') (ar_raw x)); [cbn; lia|exact B0|rewrite A1; unfold inside; cbn; lia| |apply HA; exact X]. unfold inside in *. cbn in *. lia. }
      constructor; cbn [p_arenas p_cap p_size p_pos].
      * lia.
      * lia.
      * constructor; [|apply Forall_forall; exact IA]. split; [lia|]. split; [exact A3|]. rewrite A1. unfold inside. cbn. lia.
      * constructor; [apply Forall_forall; exact HA|exact ID].
      * constructor; [split; [cbn; lia|]; split; [unfold aligned; cbn; exact A3|exists a'; split; [now left|unfold inside; cbn; lia]]|].
        apply Forall_forall. intros b Hb. destruct (IL b Hb) as (B0 & B1 & x & X & Y). split; [exact B0|]. split; [exact B1|]. exists x. split; [now right|exact Y].
      * constructor; [right; unfold inside; cbn; lia|]. apply Forall_forall. intros b Hb. left. destruct (IL b Hb) as (_ & _ & x & X & Y). eauto.
      * constructor; [apply Forall_forall; exact NEW|exact IDL].
    + rewrite (cut_spec a (p_pos st) n) by lia. split; [reflexivity|]. rewrite Forall_forall in *. destruct (IA a (or_introl eq_refl)) as (Q0 & Q1 & Q2).
      constructor; cbn [p_arenas p_cap p_size p_pos].
      * split; [lia|]. rewrite Z.add_mod, PM, R2 by lia. reflexivity.
      * lia.
      * apply Forall_forall. exact IA.
      * exact ID.
      * constructor; [|apply Forall_forall; exact IL]. split; [cbn; lia|]. split; [unfold aligned; cbn; rewrite Z.add_mod, Q1, PM by lia; reflexivity|]. exists a. split; [now left|]. unfold inside. cbn. lia.
      * constructor; [right; unfold inside; cbn; lia|]. apply Forall_forall. intros b Hb. destruct (IH b Hb) as [X|(X & Y)]; [now left|right]. split; [exact X|lia].
      * constructor; [|exact IDL]. apply Forall_forall. intros b Hb. destruct (IL b Hb) as (B0 & _). destruct (IH b Hb) as [(x & X & Y)|(X & Y)]; [|unfold disjoint; cbn; lia].
        assert (Hx : inside (ar_ptr x, ar_size x) (ar_raw x)) by (apply IA; now right). apply (disjoint_in _ _ (ar_raw a) (ar_raw x)); [cbn; lia|exact B0|unfold inside in *; cbn in *; lia|unfold inside in *; cbn in *; lia|].
        inversion ID as [|? ? F _]. rewrite Forall_forall in F. apply F. exact X.
Qed.
Lemma reset_inv k st live p : 1 <= k -> inv k st live -> inv k (fst (reset k st p)) [].
Proof.
  intros Hk [[P0 PM] [S0 C0] IA ID IL IH IDL]. unfold reset. destruct (Z.eqb_spec (p_cap st) 0) as [E|E].
  - constructor; cbn; try constructor; try lia; exact Logic.I.
  - destruct (negb _ || negb _) eqn:B; cbn [fst].
    + destruct (aligned_alloc_spec k p (p_cap st) Hk C0) as (A1 & A2 & A3 & A4 & A5). constructor; cbn [p_arenas p_cap p_size p_pos].
      * split; [lia|]. apply Z.mod_0_l. lia.
      * lia.
      * constructor; [|constructor]. split; [lia|]. split; [exact A3|]. rewrite A1. unfold inside. cbn. lia.
      * repeat constructor.
      * constructor.
      * constructor.
      * constructor.
    + constructor; cbn [p_arenas p_cap p_size p_pos]; try assumption; try constructor; try lia; try (apply Z.mod_0_l; lia). destruct (p_arenas st); constructor.
Qed.

Fixpoint honest (k : Z) (s : pool * list buf * Z) (h : list op) : Prop :=
  match h with [] => True | o :: h => honest1 k (fst (fst s)) o /\ honest k (step k s o) h end.
Lemma run_inv k h : 1 <= k -> forall s, inv k (fst (fst s)) (snd (fst s)) -> honest k s h -> let '(st, live, _) := fold_left (step k) h s in inv k st live.
Proof.
  intros Hk. induction h as [|o h IH]; intros ((st, live), c) IV HO; [exact IV|]. cbn [fold_left]. destruct HO as (H1 & H2). apply IH; [|exact H2]. cbn [fst snd] in *. unfold step. destruct o as [n p|p|].
  - pose proof (alloc_inv k st live n p Hk IV H1) as X. destruct (alloc k st n p) as ((b, st'), o). apply X.
  - pose proof (reset_inv k st live p Hk IV) as X. destruct (reset k st p) as (st', o). exact X.
  - apply inv_fresh. exact Hk.
Qed.

(* total size of requests, each rounded up *)
Definition need (k : Z) (ns : list Z) : Z := zsum (map (fun n => round_up n k) ns).
Lemma need_nonneg k ns : 1 <= k -> Forall (fun n => 0 <= n) ns -> 0 <= need k ns.
Proof. intros Hk. unfold need. induction ns as [|n ns IH]; intros F; cbn; [lia|]. inversion F; subst. destruct (round_up_spec n k Hk); [assumption|]. specialize (IH H2). change (zsum (round_up n k :: map (fun n => round_up n k) ns)) with (round_up n k + zsum (map (fun n => round_up n k) ns)). lia. Qed.
Definition allocs (ns : list (Z * Z)) : list op := map (fun e => OAlloc (fst e) (snd e)) ns.
(* requests that fit in the one arena of a reset pool *)
Lemma fit_run k a cap ns : 1 <= k -> Forall (fun e => 0 <= fst e) ns -> forall size pos live c, 0 <= pos -> size <= cap -> pos + need k (map fst ns) <= ar_size a ->
  exists live', fold_left (step k) (allocs ns) (MP [a] cap size pos, live, c) = (MP [a] cap size (pos + need k (map fst ns)), live', c).
Proof.
  intros Hk. induction ns as [|(n, p) ns IH]; intros F size pos live c P0 SC L; [exists live; cbn; unfold need; cbn; rewrite Z.add_0_r; reflexivity|].
  inversion F as [|? ? N0 F']; subst. cbn [fst] in N0. destruct (round_up_spec n k Hk N0) as (R1 & R2 & R3).
  assert (NS : need k (map fst ((n, p) :: ns)) = round_up n k + need k (map fst ns)) by reflexivity. rewrite NS in *. assert (N1 : 0 <= need k (map fst ns)) by (apply need_nonneg; [exact Hk|apply Forall_map; exact F']).
  cbn [allocs map fold_left fst snd]. unfold step at 2. unfold alloc. cbn [p_arenas p_pos p_cap p_size]. replace (ar_size a <? pos + n) with false by lia. cbn [negb]. rewrite Z.max_l by lia.
  destruct (IH F' size (pos + round_up n k) (cut a pos (pos + n) :: live) c) as (live' & E); [lia|lia|lia|]. exists live'. unfold allocs in E. rewrite E. rewrite Z.add_assoc. reflexivity.
Qed.
(* the first round: every non-empty request gets an arena of its own *)
Definition mk (k : Z) (st : pool) : Prop := p_cap st = p_size st /\ match p_arenas st with [] => p_pos st = 0 /\ p_size st = 0 | a :: _ => ar_size a <= p_pos st end.
Lemma first_run k ns : 1 <= k -> Forall (fun e => 0 <= fst e) ns -> forall st live c, mk k st -> 0 <= p_size st ->
  exists st' live' c', fold_left (step k) (allocs ns) (st, live, c) = (st', live', c') /\ mk k st' /\ p_size st' = p_size st + need k (map fst ns).
Proof.
  intros Hk. induction ns as [|(n, p) ns IH]; intros F st live c (M1 & M2) S0; [exists st, live, c; split; [reflexivity|]; split; [split; assumption|unfold need; cbn; lia]|].
  inversion F as [|? ? N0 F']; subst. cbn [fst] in N0. destruct (round_up_spec n k Hk N0) as (R1 & R2 & R3). assert (NS : need k (map fst ((n, p) :: ns)) = round_up n k + need k (map fst ns)) by reflexivity. rewrite NS in *.
  destruct (aligned_alloc_spec k p n Hk N0) as (A1 & A2 & A3 & _).
  cbn [allocs map fold_left fst snd]. unfold step at 2. unfold alloc.
  assert (NW : forall l, l = p_arenas st -> exists st' live' c', fold_left (step k) (map (fun e => OAlloc (fst e) (snd e)) ns) (MP (aligned_alloc k p n :: l) (Z.max (p_cap st) (p_size st + round_up n k)) (p_size st + round_up n k) (round_up n k), cut (aligned_alloc k p n) 0 n :: live, c + 1) = (st', live', c') /\ mk k st' /\ p_size st' = p_size st + (round_up n k + need k (map fst ns))).
  { intros l _. destruct (IH F' (MP (aligned_alloc k p n :: l) (Z.max (p_cap st) (p_size st + round_up n k)) (p_size st + round_up n k) (round_up n k)) (cut (aligned_alloc k p n) 0 n :: live) (c + 1)) as (st' & live' & c' & E1 & E2 & E3).
    - split; cbn [p_cap p_size p_arenas p_pos]; lia.
    - cbn. lia.
    - exists st', live', c'. split; [exact E1|]. split; [exact E2|]. cbn in E3. lia. }
  destruct (p_arenas st) as [|a rest] eqn:EA; [apply NW; reflexivity|]. destruct (Z.ltb_spec (ar_size a) (p_pos st + n)) as [L|L]; cbn [negb]; [apply NW; reflexivity|].
  assert (n = 0) by lia. subst n. assert (RU : round_up 0 k = 0) by (unfold round_up; rewrite Z.div_small by lia; reflexivity). rewrite RU in *.
  destruct (IH F' (MP (a :: rest) (Z.max (p_cap st) (p_size st)) (p_size st) (p_pos st + 0)) (cut a (p_pos st) (p_pos st + 0) :: live) c) as (st' & live' & c' & E1 & E2 & E3).
  - split; cbn [p_cap p_size p_arenas p_pos]; lia.
  - cbn. lia.
  - exists st', live', c'. split; [exact E1|]. split; [exact E2|]. cbn in E3. lia.
Qed.
