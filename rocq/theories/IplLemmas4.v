(* Lemmas for IplProps: the order in which the cells around a point are visited. *)
From Coq Require Import Reals Lra FunctionalExtensionality.
From Verif Require Import Base AlmModel AlmLemmas IplSpec IplModel IplLemmas IplLemmas2 IplLemmas3.
Ltac Zify.zify_post_hook ::= idtac.
Open Scope R_scope.

Fixpoint linked {A} (P : A -> A -> Prop) (x : A) (l : list A) : Prop := match l with [] => True | y :: l => P x y /\ linked P y l end.
Fixpoint lst {A} (x : A) (l : list A) : A := match l with [] => x | y :: l => lst y l end.
Lemma linked_app {A} (P : A -> A -> Prop) x l1 l2 : linked P x (l1 ++ l2) <-> linked P x l1 /\ linked P (lst x l1) l2.
Proof. revert x; induction l1 as [|y l1 IH]; intros x; cbn [app linked lst]; [tauto|]. rewrite IH. tauto. Qed.
Lemma lst_app {A} (x : A) l1 l2 : lst x (l1 ++ l2) = lst (lst x l1) l2.
Proof. revert x; induction l1 as [|y l1 IH]; intros x; cbn [app lst]; [reflexivity|]. apply IH. Qed.
Lemma lst_map {A B} (f : A -> B) x l : lst (f x) (map f l) = f (lst x l).
Proof. revert x; induction l as [|y l IH]; intros x; cbn [map lst]; [reflexivity|]. apply IH. Qed.
Lemma linked_map {A B} (P : A -> A -> Prop) (Q : B -> B -> Prop) (f : A -> B) x l : (forall u v, P u v -> Q (f u) (f v)) -> linked P x l -> linked Q (f x) (map f l).
Proof. intros H. revert x; induction l as [|y l IH]; intros x L; cbn [map linked] in *; [exact I|]. destruct L as [L1 L2]. split; [apply H, L1|apply IH, L2]. Qed.

Section Odometer.
Variable nw : Z.
Hypothesis Hw : (1 <= nw)%Z.
Definition carry (x : list Z) : bool := forallb (fun v => negb (v + 1 <? nw)%Z) x.

Lemma adv_snoc r k : adv nw (r ++ [k]) = if carry r then map (fun _ => 0%Z) r ++ adv nw [k] else adv nw r ++ [k].
Proof.
  induction r as [|v r IH]; cbn [app adv carry forallb map]; [reflexivity|]. fold (carry r).
  destruct (v + 1 <? nw)%Z; cbn [negb andb]; [reflexivity|]. rewrite IH. destruct (carry r); cbn [adv]; reflexivity.
Qed.
Lemma carry_rev x : carry (rev x) = carry x.
Proof.
  unfold carry. induction x as [|v x IH]; cbn [rev forallb]; [reflexivity|]. rewrite forallb_app, IH. cbn [forallb]. rewrite andb_true_r, andb_comm. reflexivity.
Qed.
Lemma advance_cons k x : advance nw (k :: x) = if carry x then (if (k + 1 <? nw)%Z then (k + 1)%Z else 0%Z) :: repeat 0%Z (length x) else k :: advance nw x.
Proof.
  unfold advance. cbn [rev]. rewrite adv_snoc, carry_rev. destruct (carry x); rewrite rev_app_distr; cbn [rev adv app].
  - assert (E : rev (map (fun _ : Z => 0%Z) (rev x)) = repeat 0%Z (length x)).
    { rewrite <- map_rev, rev_involutive. induction x as [|v x IH]; cbn [map length repeat]; [reflexivity|]. f_equal. exact IH. }
    rewrite E. destruct (k + 1 <? nw)%Z; reflexivity.
  - reflexivity.
Qed.

Definition step (x y : list Z) : Prop := advance nw x = y /\ carry x = false.
Lemma step_cons k x y : step x y -> step (k :: x) (k :: y).
Proof. intros [E C]. split; [rewrite advance_cons, C, E; reflexivity|]. cbn [carry forallb]. fold (carry x). rewrite C. apply andb_false_r. Qed.

Lemma tuples_chain d : exists l, tuples nw d = repeat 0%Z d :: l /\ linked step (repeat 0%Z d) l /\ carry (lst (repeat 0%Z d) l) = true.
Proof.
  induction d as [|d (T & ET & LT & CT)]; [exists []; repeat split|].
  set (z := repeat 0%Z d) in *.
  assert (G : forall c : nat, (Z.of_nat c < nw)%Z -> let k := (nw - 1 - Z.of_nat c)%Z in
    exists l, flat_map (fun k => map (cons k) (tuples nw d)) (zrange k nw) = (k :: z) :: l /\ linked step (k :: z) l /\ carry (lst (k :: z) l) = true).
  { induction c as [|c IH]; intros Hc k.
    - exists (map (cons k) T). rewrite (zrange_cons k nw) by lia. rewrite (zrange_empty (k + 1)) by lia. cbn [flat_map]. rewrite app_nil_r, ET. split; [reflexivity|]. split.
      + apply (linked_map step step (cons k)); [intros; apply step_cons; assumption|exact LT].
      + rewrite lst_map. unfold carry in *. cbn [forallb]. rewrite CT. replace (k + 1 <? nw)%Z with false by lia. reflexivity.
    - destruct (IH ltac:(lia)) as (l & El & Ll & Cl). set (k1 := (nw - 1 - Z.of_nat c)%Z) in *.
      exists (map (cons k) T ++ (k1 :: z) :: l). rewrite (zrange_cons k nw) by lia. replace (k + 1)%Z with k1 by lia. cbn [flat_map]. rewrite El, ET. split; [reflexivity|]. split.
      + apply linked_app. split; [apply (linked_map step step (cons k)); [intros; apply step_cons; assumption|exact LT]|].
        rewrite lst_map. cbn [linked]. split; [|exact Ll]. split.
        * rewrite advance_cons, CT. replace (k + 1 <? nw)%Z with true by lia. f_equal; [lia|].
          assert (EL : length (lst z T) = d); [|rewrite EL; reflexivity].
          assert (A : forall x l, linked step x l -> length x = d -> length (lst x l) = d).
          { clear. intros x l; revert x; induction l as [|y l IH]; intros x L E; cbn [lst linked] in *; [exact E|]. destruct L as [[S1 _] L]. apply IH; [exact L|]. rewrite <- S1, advance_length. exact E. }
          apply A; [exact LT|]. apply repeat_length.
        * unfold carry. cbn [forallb]. replace (k + 1 <? nw)%Z with true by lia. reflexivity.
      + rewrite lst_app. cbn [lst]. exact Cl. }
  destruct (G (Z.to_nat (nw - 1)) ltac:(lia)) as (l & El & Ll & Cl). replace (nw - 1 - Z.of_nat (Z.to_nat (nw - 1)))%Z with 0%Z in * by lia.
  exists l. cbn [tuples repeat]. split; [exact El|]. split; [exact Ll|exact Cl].
Qed.
Lemma tuples_length d : length (tuples nw d) = (Z.to_nat nw ^ d)%nat.
Proof.
  induction d as [|d IH]; cbn [tuples Nat.pow]; [reflexivity|].
  assert (A : forall l, length (flat_map (fun k => map (cons k) (tuples nw d)) l) = (length l * length (tuples nw d))%nat).
  { induction l as [|k l IHl]; cbn [flat_map length]; [reflexivity|]. rewrite app_length, map_length, IHl. lia. }
  rewrite A, IH. unfold zrange. rewrite zseq_length. f_equal. lia.
Qed.

Fixpoint takewhile {A} (t : A -> bool) (l : list A) : list A := match l with [] => [] | x :: l => if t x then x :: takewhile t l else [] end.
Definition found (b : edge) (shape off : list Z) (is : list Z) : bool := match cell b shape off is 0 with Some _ => true | None => false end.
Definition cell0 (b : edge) (shape off : list Z) (is : list Z) : Z := match cell b shape off is 0 with Some d => d | None => 0%Z end.

Lemma cloop_stuck b shape off fuel is : cell b shape off is 0 = None -> cloop b nw shape off fuel is = [].
Proof. intros E. induction fuel as [|fuel IH]; cbn [cloop]; [reflexivity|]. rewrite E. exact IH. Qed.
Lemma cloop_chain b shape off x l : linked step x l ->
  cloop b nw shape off (S (length l)) x = map (fun is => (cell0 b shape off is, is)) (takewhile (found b shape off) (x :: l)).
Proof.
  revert x; induction l as [|y l IH]; intros x L.
  - cbn [cloop length takewhile]. unfold found, cell0. destruct (cell b shape off x 0) eqn:E; [cbn [map]; rewrite E; reflexivity|reflexivity].
  - destruct L as [[S1 _] L]. cbn [cloop length takewhile]. unfold found at 1. destruct (cell b shape off x 0) as [d|] eqn:E.
    + cbn [map]. unfold cell0 at 1. rewrite E, S1. f_equal. apply (IH y L).
    + cbn [map]. rewrite cloop_stuck; [reflexivity|exact E].
Qed.
Lemma cloop_tuples b shape off d :
  cloop b nw shape off (Z.to_nat nw ^ d) (repeat 0%Z d) = map (fun is => (cell0 b shape off is, is)) (takewhile (found b shape off) (tuples nw d)).
Proof.
  destruct (tuples_chain d) as (l & E & L & _). rewrite <- tuples_length, E. cbn [length]. apply cloop_chain, L.
Qed.
End Odometer.

Lemma takewhile_all {A} (t : A -> bool) l : (forall x, In x l -> t x = true) -> takewhile t l = l.
Proof. induction l as [|x l IH]; intros H; cbn [takewhile]; [reflexivity|]. rewrite H by (left; reflexivity). f_equal. apply IH. intros; apply H; right; assumption. Qed.

Lemma takewhile_In {A} (t : A -> bool) l x : In x (takewhile t l) -> In x l.
Proof. induction l as [|y l IH]; cbn [takewhile]; [tauto|]. destruct (t y); [intros [E|H]; [left; exact E|right; apply IH, H]|intros []]. Qed.
Lemma tuples_In nw d is : In is (tuples nw d) <-> length is = d /\ (forall k, In k is -> (0 <= k < nw)%Z).
Proof.
  revert is; induction d as [|d IH]; intros is; cbn [tuples].
  - cbn [In]. split.
    + intros [E|[]]. subst. split; [reflexivity|]. intros k [].
    + intros [E _]. left. symmetry. apply length_zero_iff_nil, E.
  - rewrite in_flat_map. split.
    + intros (k & Hk & H). apply in_map_iff in H as (x & E & Hx). subst is. apply IH in Hx as [L R]. apply zrange_In in Hk. split; [cbn [length]; lia|].
      intros v [V|V]; [lia|apply R, V].
    + intros [L R]. destruct is as [|k x]; [discriminate L|]. cbn [length] in L. exists k. split; [apply zrange_In, R; left; reflexivity|].
      apply in_map, IH. split; [lia|]. intros v V. apply R. right. exact V.
Qed.

(* nested sums *)
Fixpoint nest (b : edge) (t : kind) (order : Z) (shape : list Z) (pos : list R) (data : arr) (e : Z) : R :=
  match shape, pos with
  | n :: shape, p :: pos => rsuml (map (fun k => weight_at t order p k * nest b t order shape pos data (e * n + map_border b n (k + offset t order p))%Z) (zrange 0 (nweight t order)))
  | _, _ => data e
  end.

Lemma cell_some b shape off is e : b <> EZero -> okshape b shape -> length off = length shape -> length is = length shape ->
  exists d, cell b shape off is e = Some d.
Proof.
  intros Hb. revert off is e; induction shape as [|n shape IH]; intros [|o off] [|k is] e H L1 L2; cbn [length] in *; try discriminate; cbn [cell]; [eauto|].
  destruct (H n (or_introl eq_refl)) as [H1 H2]. 
  assert (G : (0 <= map_border b n (k + o) < n)%Z).
  { destruct (map_border_range b n (k + o) H1 H2) as [B|B]; [|exact B]. exfalso. revert B. unfold map_border. destruct ((k + o <? 0) || (k + o >=? n))%Z eqn:E; [|lia].
    destruct b; [contradiction|lia|..]; intros B.
    - pose proof (Z.mod_pos_bound (k + o) n ltac:(lia)). lia.
    - specialize (H2 eq_refl). pose proof (Z.mod_pos_bound (k + o) (2 * n - 2) ltac:(lia)). cbv zeta in B. destruct (Z.geb_spec ((k + o) mod (2 * n - 2)) n); lia. }
  replace (map_border b n (k + o) <? 0)%Z with false by lia. apply IH; [intros x Hx; apply H; right; exact Hx|lia|lia].
Qed.

Lemma nest_sum b t order shape pos data e : length pos = length shape ->
  (forall is, In is (tuples (nweight t order) (length shape)) -> exists d, cell b shape (map (offset t order) pos) is e = Some d) ->
  rsuml (map (fun is => data (match cell b shape (map (offset t order) pos) is e with Some d => d | None => 0%Z end) * wprod t order pos is) (tuples (nweight t order) (length shape)))
  = nest b t order shape pos data e.
Proof.
  revert pos e; induction shape as [|n shape IH]; intros [|p pos] e L H; cbn [length] in *; try discriminate.
  - cbn. ring.
  - cbn [tuples nest map]. rewrite rsuml_flat_map. apply rsuml_ext. intros k Hk. rewrite map_map.
    assert (G : forall is, In is (tuples (nweight t order) (length shape)) ->
      (map_border b n (k + offset t order p) <? 0)%Z = false /\ exists d, cell b shape (map (offset t order) pos) is (e * n + map_border b n (k + offset t order p))%Z = Some d).
    { intros is His. assert (H' := H (k :: is)). cbn [map] in H'. destruct H' as (d & Hd).
      - cbn [tuples]. apply in_flat_map. exists k. split; [exact Hk|]. apply in_map, His.
      - cbn [cell] in Hd. destruct (map_border b n (k + offset t order p) <? 0)%Z eqn:E; [discriminate Hd|]. eauto. }
    rewrite <- IH; [|lia|intros is His; apply G, His]. rewrite <- rsuml_scal. apply rsuml_ext. intros is His. cbn [cell].
    destruct (G is His) as [G1 (d & G2)]. rewrite G1, G2. unfold wprod, cell_weights. cbn [combine map rprodl]. ring.
Qed.

Lemma interpol1_nest t order b shape pos data : (1 <= nweight t order)%Z -> length pos = length shape ->
  (forall is, In is (tuples (nweight t order) (length shape)) -> exists d, cell b shape (map (offset t order) pos) is 0 = Some d) ->
  interpol1 t order b shape pos data = nest b t order shape pos data 0.
Proof.
  intros Hw L H. rewrite interpol1_sum. unfold visits. rewrite L, cloop_tuples by exact Hw. rewrite takewhile_all.
  - rewrite map_map. cbn [fst snd]. rewrite <- nest_sum; [reflexivity|exact L|exact H].
  - intros is His. unfold found. destruct (H is His) as (d & E). rewrite E. reflexivity.
Qed.
Lemma interpol1_nest' t order b shape pos data : (1 <= nweight t order)%Z -> length pos = length shape -> b <> EZero -> okshape b shape ->
  interpol1 t order b shape pos data = nest b t order shape pos data 0.
Proof.
  intros Hw L Hb H. apply interpol1_nest; [exact Hw|exact L|]. intros is His. apply cell_some; [exact Hb|exact H|rewrite map_length; exact L|]. apply tuples_In in His. apply His.
Qed.
