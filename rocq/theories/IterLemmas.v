From Coq Require Import Sorted.
From Verif Require Import Base RangeLemmas IterSpec IterModel.

(* the same step by recursion on the dimensions *)
Fixpoint adv (dims : list (option Z)) (I : list (option Z)) : bool * list (option Z) :=
  match dims, I with
  | Some n :: r, Some k :: J => let '(b, I') := adv r J in
      if b then (true, Some k :: I') else if k + 1 <? n then (true, Some (k + 1) :: I') else (false, Some 0 :: I')
  | None :: r, x :: J => let '(b, I') := adv r J in (b, x :: I')
  | _, _ => (false, I)
  end.
Fixpoint start (dims : list (option Z)) : list (option Z) :=
  match dims with [] => [] | Some _ :: r => Some 0 :: start r | None :: r => None :: start r end.
(* axis numbers, last first *)
Fixpoint rev_axes (dims : list (option Z)) : list nat :=
  match dims with [] => [] | d :: r => map S (rev_axes r) ++ (match d with Some _ => [O] | None => [] end) end.

Fixpoint walk (step : list (option Z) -> bool * list (option Z)) (L : list (list (option Z))) (fin : list (option Z)) : Prop :=
  match L with
  | [] => False
  | x :: r => match r with [] => step x = (false, fin) | y :: _ => step x = (true, y) /\ walk step r fin end
  end.

Lemma walk_block step stepr c nxt : forall L z tail fin,
  (forall x y, stepr x = (true, y) -> step (c :: x) = (true, c :: y)) ->
  walk stepr L z -> (forall x, stepr x = (false, z) -> step (c :: x) = nxt) ->
  match tail with [] => nxt = (false, fin) | y :: _ => nxt = (true, y) /\ walk step tail fin end ->
  walk step (map (cons c) L ++ tail) fin.
Proof.
  induction L as [|x L IH]; intros z tail fin H1 H2 H3 H4; [destruct H2|]. destruct L as [|y L].
  - cbn [map app walk] in *. destruct tail as [|t tail]; [rewrite <- H4; apply H3, H2|]. destruct H4 as [H4 H5]. split; [rewrite <- H4; apply H3, H2|exact H5].
  - destruct H2 as [H2 H5]. change (map (cons c) (x :: y :: L) ++ tail) with ((c :: x) :: (c :: y) :: (map (cons c) L ++ tail)).
    split; [apply H1, H2|]. apply (IH z); assumption.
Qed.

Lemma flat_map_head {A B} (f : A -> list B) x l y r : f x = y :: r -> exists t, flat_map f (x :: l) = y :: t.
Proof. intros H. cbn [flat_map]. rewrite H. eexists. reflexivity. Qed.

Lemma start_head dims : (forall n, In (Some n) dims -> 0 < n) -> exists r, index_tuples dims = start dims :: r.
Proof.
  induction dims as [|[n|] dims IH]; intros H; [eexists; reflexivity| |].
  - destruct IH as [r Hr]; [intros m Hm; apply H; now right|]. cbn [index_tuples start]. rewrite zrange_cons by (apply H; now left).
    rewrite Hr. eexists. reflexivity.
  - destruct IH as [r Hr]; [intros m Hm; apply H; now right|]. cbn [index_tuples start]. rewrite Hr. eexists. reflexivity.
Qed.

Lemma walk_tuples dims : (forall n, In (Some n) dims -> 0 < n) -> walk (adv dims) (index_tuples dims) (start dims).
Proof.
  induction dims as [|[n|] dims IH]; intros H; [reflexivity| |].
  - assert (Hn : 0 < n) by (apply H; now left). assert (IH' : walk (adv dims) (index_tuples dims) (start dims)) by (apply IH; intros m Hm; apply H; now right).
    destruct (start_head dims) as [hr Hhr]; [intros m Hm; apply H; now right|]. cbn [index_tuples start].
    enough (E : forall j, 0 <= j < n -> walk (adv (Some n :: dims)) (flat_map (fun k => map (cons (Some k)) (index_tuples dims)) (zrange j n)) (Some 0 :: start dims)) by (apply E; lia).
    intros j Hj. remember (Z.to_nat (n - j)) as m eqn:Em. revert j Hj Em. induction m as [|m IHm]; intros j Hj Em; [lia|].
    rewrite zrange_cons by lia. cbn [flat_map].
    apply (walk_block _ (adv dims) (Some j) (if j + 1 <? n then (true, Some (j + 1) :: start dims) else (false, Some 0 :: start dims)) _ (start dims)).
    + intros x y Hxy. cbn [adv]. rewrite Hxy. reflexivity.
    + exact IH'.
    + intros x Hx. cbn [adv]. rewrite Hx. reflexivity.
    + destruct (j + 1 <? n) eqn:E.
      * specialize (IHm (j + 1) ltac:(lia) ltac:(lia)). rewrite (zrange_cons (j + 1)) in * by lia. cbn [flat_map] in *. rewrite Hhr in *. cbn [map app] in *. split; [reflexivity|exact IHm].
      * rewrite zrange_empty by lia. reflexivity.
  - assert (IH' : walk (adv dims) (index_tuples dims) (start dims)) by (apply IH; intros m Hm; apply H; now right). cbn [index_tuples start].
    rewrite <- (app_nil_r (map (cons None) (index_tuples dims))).
    apply (walk_block _ (adv dims) None (false, None :: start dims) _ (start dims)); auto.
    + intros x y Hxy. cbn [adv]. rewrite Hxy. reflexivity.
    + intros x Hx. cbn [adv]. rewrite Hx. reflexivity.
Qed.

(* the loop of the code against adv *)
Lemma advance_app shape : forall a1 a2 I, advance shape (a1 ++ a2) I = let '(b, I') := advance shape a1 I in if b then (true, I') else advance shape a2 I'.
Proof.
  induction a1 as [|ax a1 IH]; intros a2 I; [reflexivity|]. cbn [app advance]. destruct (_ <? nth ax shape 0); [reflexivity|apply IH].
Qed.
Lemma advance_S n shape x : forall axes I, advance (n :: shape) (map S axes) (x :: I) = let '(b, I') := advance shape axes I in (b, x :: I').
Proof.
  induction axes as [|ax axes IH]; intros I; [reflexivity|]. cbn [map advance nth_error nth set_nth].
  destruct (_ <? nth ax shape 0); [reflexivity|]. apply IH.
Qed.

(* dims says which axes of shape are selected; I has a number exactly there *)
Fixpoint fits (dims : list (option Z)) (shape : list Z) (I : list (option Z)) : Prop :=
  match dims, shape, I with
  | [], [], [] => True
  | Some n :: d, m :: s, Some _ :: J => n = m /\ fits d s J
  | None :: d, _ :: s, None :: J => fits d s J
  | _, _, _ => False
  end.
Lemma advance_adv : forall dims shape I, fits dims shape I -> advance shape (rev_axes dims) I = adv dims I /\ fits dims shape (snd (adv dims I)).
Proof.
  induction dims as [|d dims IH]; intros [|m shape] [|x I] H; try (destruct d; contradiction); try contradiction.
  - split; [reflexivity|exact Logic.I].
  - destruct d as [n|], x as [k|]; try contradiction.
    + destruct H as [-> H]. destruct (IH shape I H) as [E F]. cbn [rev_axes adv]. rewrite advance_app, advance_S, E.
      destruct (adv dims I) as [b I']. cbn [snd] in F. destruct b; [split; [reflexivity|split; [reflexivity|exact F]]|].
      cbn [advance nth_error nth set_nth]. destruct (k + 1 <? m); (split; [reflexivity|split; [reflexivity|exact F]]).
    + destruct (IH shape I H) as [E F]. cbn [rev_axes adv]. rewrite advance_app, advance_S, E.
      destruct (adv dims I) as [b I']. cbn [snd] in F. destruct b; (split; [reflexivity|exact F]).
Qed.

Lemma loop_walk dims shape : forall L I fin fuel, walk (adv dims) (I :: L) fin -> fits dims shape I -> (length (I :: L) <= fuel)%nat ->
  nditer_loop fuel shape (rev_axes dims) I = Some (I :: L).
Proof.
  induction L as [|y L IH]; intros I fin fuel Hw Hf Hl; (destruct fuel as [|fuel]; [cbn in Hl; lia|]); cbn [nditer_loop];
    destruct (advance_adv dims shape I Hf) as [E F]; rewrite E.
  - cbn [walk] in Hw. rewrite Hw. reflexivity.
  - destruct Hw as [H1 H2]. rewrite H1 in *. cbn [snd] in F. rewrite (IH y fin fuel H2 F); [reflexivity|cbn in *; lia].
Qed.

Lemma set_nth_comm_S {A} (x : A) I axes v : fold_left (fun I ax => set_nth I ax v) (map S axes) (x :: I) = x :: fold_left (fun I ax => set_nth I ax v) axes I.
Proof. revert I. induction axes as [|ax axes IH]; intros I; [reflexivity|]. cbn [map fold_left set_nth]. apply IH. Qed.
Lemma init_start dims : fold_left (fun I ax => set_nth I ax (Some 0)) (rev_axes dims) (repeat None (length dims)) = start dims.
Proof.
  induction dims as [|[n|] dims IH]; [reflexivity| |]; cbn [rev_axes length repeat start]; rewrite fold_left_app, set_nth_comm_S, IH; reflexivity.
Qed.
Lemma fits_start sel : forall shape i, fits (select_axes sel i shape) shape (start (select_axes sel i shape)).
Proof. induction shape as [|n shape IH]; intros i; [exact Logic.I|]. cbn [select_axes]. destruct (sel i); cbn; auto. Qed.
Lemma select_length sel : forall shape i, length (select_axes sel i shape) = length shape.
Proof. induction shape as [|n shape IH]; intros i; [reflexivity|]. cbn. f_equal. apply IH. Qed.

Lemma rev_axes_select sel : forall shape i, map (fun k => (i + k)%nat) (rev_axes (select_axes sel i shape)) = filter sel (rev (seq i (length shape))).
Proof.
  induction shape as [|n shape IH]; intros i; [reflexivity|]. cbn [select_axes rev_axes length seq rev].
  rewrite map_app, map_map, filter_app. specialize (IH (S i)). rewrite <- IH. f_equal.
  - apply map_ext. intros. lia.
  - cbn [filter]. destruct (sel i); cbn; [f_equal; lia|reflexivity].
Qed.

(* sorting the axes *)
Lemma insert_In x l y : In y (insert x l) <-> y = x \/ In y l.
Proof. induction l as [|z l IH]; cbn; [intuition|]. destruct (x <=? z)%nat; cbn; [intuition|]. rewrite IH. intuition. Qed.
Lemma sort_In l y : In y (sort l) <-> In y l.
Proof. induction l as [|x l IH]; cbn; [tauto|]. rewrite insert_In, IH. intuition. Qed.
Lemma insert_sorted x l : ~ In x l -> StronglySorted lt l -> StronglySorted lt (insert x l).
Proof.
  induction l as [|y l IH]; intros Hx Hs; cbn; [repeat constructor|]. inversion Hs as [|? ? Hs' Hf]; subst. rewrite Forall_forall in Hf.
  destruct (Nat.leb_spec x y) as [H|H].
  - constructor; [exact Hs|]. apply Forall_forall. intros z [<-|Hz]; [cbn in Hx; lia|]. specialize (Hf z Hz). lia.
  - constructor; [apply IH; [cbn in Hx; tauto|exact Hs']|]. apply Forall_forall. intros z Hz. apply insert_In in Hz as [->|Hz]; [lia|auto].
Qed.
Lemma sort_sorted l : NoDup l -> StronglySorted lt (sort l).
Proof. induction 1 as [|x l Hx Hl IH]; cbn; [constructor|]. apply insert_sorted; [rewrite sort_In; exact Hx|exact IH]. Qed.
Lemma sorted_unique : forall l m : list nat, StronglySorted lt l -> StronglySorted lt m -> (forall x, In x l <-> In x m) -> l = m.
Proof.
  induction l as [|x l IH]; intros [|y m] Hl Hm H; [reflexivity| | |].
  - exfalso. apply (H y). now left.
  - exfalso. apply (H x). now left.
  - inversion Hl as [|? ? Hl' Fl]; subst. inversion Hm as [|? ? Hm' Fm]; subst. rewrite Forall_forall in Fl, Fm.
    assert (x = y).
    { destruct (proj1 (H x) (or_introl eq_refl)) as [E|E]; [auto|]. destruct (proj2 (H y) (or_introl eq_refl)) as [E2|E2]; [auto|]. specialize (Fl _ E2). specialize (Fm _ E). lia. }
    subst y. f_equal. apply IH; [assumption..|]. intros z. split; intros Hz.
    + destruct (proj1 (H z) (or_intror Hz)) as [E|E]; [subst z; specialize (Fl _ Hz); lia|exact E].
    + destruct (proj2 (H z) (or_intror Hz)) as [E|E]; [subst z; specialize (Fm _ Hz); lia|exact E].
Qed.
Lemma seq_sorted i n : StronglySorted lt (seq i n).
Proof.
  revert i. induction n as [|n IH]; intros i; [constructor|]. cbn. constructor; [apply IH|]. apply Forall_forall. intros x Hx. apply in_seq in Hx. lia.
Qed.
Lemma filter_sorted (f : nat -> bool) l : StronglySorted lt l -> StronglySorted lt (filter f l).
Proof.
  induction 1 as [|x l Hs IH Hf]; [constructor|]. cbn. destruct (f x); [|exact IH]. constructor; [exact IH|].
  rewrite Forall_forall in *. intros y Hy. apply filter_In in Hy as [Hy _]. auto.
Qed.
Lemma filter_rev' {A} (f : A -> bool) l : filter f (rev l) = rev (filter f l).
Proof. induction l as [|x l IH]; [reflexivity|]. cbn [rev filter]. rewrite filter_app, IH. cbn [filter]. destruct (f x); [reflexivity|apply app_nil_r]. Qed.

Lemma nditer_axes_spec shape axes :
  match axes with None => True | Some l => NoDup (map (fun a => a mod zlen shape) l) /\ (l <> [] -> shape <> []) end ->
  nditer_axes (length shape) axes = Some (rev_axes (select_axes (has_axis (length shape) axes) 0 shape)).
Proof.
  intros H. pose proof (rev_axes_select (has_axis (length shape) axes) shape 0) as E. cbn [Nat.add] in E. rewrite map_id in E. rewrite E. clear E.
  destruct axes as [l|].
  - destruct H as [Hnd Hne]. unfold nditer_axes. destruct l as [|a l].
    + f_equal. symmetry. clear. unfold has_axis. cbn. induction (rev _) as [|x t IH]; [reflexivity|exact IH].
    + destruct (length shape) as [|d] eqn:El; [destruct shape; [exfalso; apply Hne; congruence|discriminate]|].
      f_equal. rewrite filter_rev'. f_equal. set (nd := S d) in *. set (ll := a :: l) in *.
      assert (Hz : zlen shape = Z.of_nat nd) by (unfold zlen; now rewrite El). rewrite Hz in Hnd.
      assert (Hr : forall b, 0 <= b mod Z.of_nat nd < Z.of_nat nd) by (intros; apply Z.mod_pos_bound; lia).
      apply sorted_unique.
      * apply sort_sorted. clear -Hnd Hr. induction ll as [|x ll IH]; [constructor|]. cbn [map] in *. inversion Hnd as [|? ? H1 H2]; subst.
        constructor; [|apply IH; exact H2]. intros Hin. apply H1. apply in_map_iff in Hin as (y & Hy & Hin). apply in_map_iff. exists y. split; [|exact Hin].
        apply Z2Nat.inj in Hy; [exact Hy|apply Hr|apply Hr].
      * apply filter_sorted, seq_sorted.
      * intros x. rewrite sort_In, filter_In, in_map_iff, in_seq. unfold has_axis. rewrite existsb_exists. split.
        -- intros (y & Hy & Hin). pose proof (Hr y). split; [lia|]. exists y. split; [exact Hin|]. apply Z.eqb_eq. lia.
        -- intros (Hx & y & Hin & Hy). apply Z.eqb_eq in Hy. exists y. split; [|exact Hin]. rewrite <- Hy. lia.
  - cbn. f_equal. symmetry. clear. induction (rev _) as [|x l IH]; [reflexivity|]. cbn. now rewrite IH.
Qed.

Lemma nditer_spec shape axes fuel :
  match axes with None => True | Some l => NoDup (map (fun a => a mod zlen shape) l) /\ (l <> [] -> shape <> []) end ->
  let dims := select_axes (has_axis (length shape) axes) 0 shape in
  (forall n, In (Some n) dims -> 0 < n) -> (length (index_tuples dims) <= fuel)%nat ->
  nditer fuel shape axes = Some (index_tuples dims).
Proof.
  intros H dims Hpos Hfuel. unfold nditer. rewrite nditer_axes_spec by exact H. fold dims.
  assert (Hl : length dims = length shape) by apply select_length. rewrite <- Hl. rewrite init_start.
  destruct (start_head dims Hpos) as [r Hr]. pose proof (walk_tuples dims Hpos) as Hw. rewrite Hr in *.
  apply (loop_walk dims shape r (start dims) (start dims) fuel Hw); [apply fits_start|exact Hfuel].
Qed.

(* the reference list really is the set of index tuples, each once *)
Lemma flat_map_NoDup {A B} (f : A -> list B) l : NoDup l -> (forall x, In x l -> NoDup (f x)) ->
  (forall x y z, In x l -> In y l -> In z (f x) -> In z (f y) -> x = y) -> NoDup (flat_map f l).
Proof.
  induction 1 as [|x l Hx Hl IH]; intros H1 H2; [constructor|]. cbn [flat_map].
  assert (Hd : forall z, In z (f x) -> ~ In z (flat_map f l)).
  { intros z Hz Hin. apply in_flat_map in Hin as (y & Hy & Hzy). assert (x = y) by (apply (H2 x y z); auto; [now left|now right]). subst y. contradiction. }
  specialize (IH (fun y Hy => H1 y (or_intror Hy)) (fun a b z Ha Hb => H2 a b z (or_intror Ha) (or_intror Hb))).
  pose proof (H1 x (or_introl eq_refl)) as Hnx. revert Hd Hnx. induction (f x) as [|z t IHt]; intros Hd Hnx; [exact IH|].
  inversion Hnx; subst. cbn [app]. constructor; [|apply IHt; [intros; apply Hd; now right|assumption]].
  rewrite in_app_iff. intros [Hz|Hz]; [contradiction|]. apply (Hd z); [now left|exact Hz].
Qed.
Lemma NoDup_map_cons {A} (c : A) l : NoDup l -> NoDup (map (cons c) l).
Proof.
  induction 1 as [|x l Hx Hl IH]; cbn; [constructor|]. constructor; [|exact IH]. intros Hin. apply in_map_iff in Hin as (y & Hy & Hin). injection Hy as ->. contradiction.
Qed.
Lemma index_tuples_In dims : forall I, In I (index_tuples dims) <-> Forall2 index_ok dims I.
Proof.
  induction dims as [|[n|] dims IH]; intros I; cbn [index_tuples].
  - split; [intros [<-|[]]; constructor|]. intros H. inversion H. now left.
  - rewrite in_flat_map. split.
    + intros (k & Hk & Hin). apply in_map_iff in Hin as (J & <- & HJ). apply zrange_In in Hk. constructor; [exact Hk|]. now apply IH.
    + intros H. inversion H as [|? v ? J Hv HJ]; subst. destruct v as [k|]; [|contradiction]. exists k. split; [apply zrange_In; exact Hv|].
      apply in_map_iff. exists J. split; [reflexivity|]. now apply IH.
  - rewrite in_map_iff. split.
    + intros (J & <- & HJ). constructor; [exact Logic.I|]. now apply IH.
    + intros H. inversion H as [|? v ? J Hv HJ]; subst. destruct v as [k|]; [contradiction|]. exists J. split; [reflexivity|]. now apply IH.
Qed.
Lemma index_tuples_NoDup dims : NoDup (index_tuples dims).
Proof.
  induction dims as [|[n|] dims IH]; cbn [index_tuples]; [repeat constructor; intros []| |apply NoDup_map_cons; exact IH].
  apply flat_map_NoDup; [apply zrange_NoDup|intros; apply NoDup_map_cons; exact IH|].
  intros x y z _ _ Hx Hy. apply in_map_iff in Hx as (a & <- & _). apply in_map_iff in Hy as (b & Hb & _). congruence.
Qed.

Lemma index_tuples_sorted dims : StronglySorted lex_lt (index_tuples dims).
Proof.
  induction dims as [|[n|] dims IH]; cbn [index_tuples]; [repeat constructor| |].
  - enough (E : forall m a, StronglySorted lex_lt (flat_map (fun k => map (cons (Some k)) (index_tuples dims)) (zseq a m))) by apply E.
    induction m as [|m IHm]; intros a; cbn [zseq flat_map]; [constructor|].
    assert (Hc : StronglySorted lex_lt (map (cons (Some a)) (index_tuples dims))).
    { clear -IH. induction IH as [|x l Hs IHs Hf]; cbn; [constructor|]. constructor; [exact IHs|]. rewrite Forall_forall in *. intros y Hy.
      apply in_map_iff in Hy as (z & <- & Hz). apply lex_next. auto. }
    assert (Hd : forall x y, In x (map (cons (Some a)) (index_tuples dims)) -> In y (flat_map (fun k => map (cons (Some k)) (index_tuples dims)) (zseq (a + 1) m)) -> lex_lt x y).
    { intros x y Hx Hy. apply in_map_iff in Hx as (x' & <- & _). apply in_flat_map in Hy as (k & Hk & Hy). apply in_map_iff in Hy as (y' & <- & _).
      apply zseq_In in Hk. apply lex_here. lia. }
    specialize (IHm (a + 1)). revert Hc Hd. induction (map (cons (Some a)) (index_tuples dims)) as [|x l IHl]; intros Hc Hd; [exact IHm|].
    inversion Hc as [|? ? Hc1 Hc2]; subst. cbn [app]. constructor; [apply IHl; [exact Hc1|intros; apply Hd; auto; now right]|].
    rewrite Forall_forall in *. intros y Hy. apply in_app_iff in Hy as [Hy|Hy]; [auto|apply Hd; [now left|exact Hy]].
  - induction IH as [|x l Hs IHs Hf]; cbn; [constructor|]. constructor; [exact IHs|]. rewrite Forall_forall in *. intros y Hy.
    apply in_map_iff in Hy as (z & <- & Hz). apply lex_next. auto.
Qed.
