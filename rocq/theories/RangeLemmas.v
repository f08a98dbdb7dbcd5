From Verif Require Import Base RangeSpec RangeModel.

(** * mask2range *)
Fixpoint runs (o : option Z) (k : Z) (m : list bool) : list rng :=
  match m, o with
  | [], None => []
  | [], Some s => [(s, k)]
  | true :: m, None => runs (Some k) (k + 1) m
  | true :: m, Some s => runs (Some s) (k + 1) m
  | false :: m, None => runs None (k + 1) m
  | false :: m, Some s => (s, k) :: runs None (k + 1) m
  end.

Definition b2z (b : bool) : Z := if b then 1 else 0.
Definition isopen (o : option Z) : bool := match o with Some _ => true | None => false end.
Definition o2l (o : option Z) : list Z := match o with Some s => [s] | None => [] end.
Definition starts (p : bool) k m := where_from k (map (fun d => 0 <? d) (diffs (map b2z (p :: m ++ [false])))).
Definition stops (p : bool) k m := where_from k (map (fun d => d <? 0) (diffs (map b2z (p :: m ++ [false])))).

Lemma starts_stops_runs m : forall o k,
  length (o2l o ++ starts (isopen o) k m) = length (stops (isopen o) k m) /\
  combine (o2l o ++ starts (isopen o) k m) (stops (isopen o) k m) = runs o k m.
Proof.
  induction m as [|x m IH]; intros o k.
  - destruct o as [s|]; cbn; auto.
  - destruct o as [s|], x.
    + specialize (IH (Some s) (k + 1)). exact IH.
    + destruct (IH None (k + 1)) as [L R]. cbn [runs].
      change (starts (isopen (Some s)) k (false :: m)) with (starts (isopen None) (k + 1) m).
      change (stops (isopen (Some s)) k (false :: m)) with (k :: stops (isopen None) (k + 1) m).
      cbn [o2l app length combine] in *. rewrite L, R. auto.
    + specialize (IH (Some k) (k + 1)). exact IH.
    + specialize (IH None (k + 1)). exact IH.
Qed.

Lemma mask2range_runs m : mask2range m = Some (runs None 0 m).
Proof.
  destruct (starts_stops_runs m None 0) as [L R]. cbn [o2l app isopen] in L, R.
  unfold mask2range. cbn [app].
  change (fun b : bool => if b then 1 else 0) with b2z.
  fold (starts false 0 m). fold (stops false 0 m). rewrite L, Nat.eqb_refl, R. reflexivity.
Qed.

Lemma covers_nil k : covers [] k <-> False.
Proof. split; [intros (r & [] & _)|easy]. Qed.

Lemma covers_cons r l k : covers (r :: l) k <-> inside r k \/ covers l k.
Proof.
  split.
  - intros (s & [<-|H] & I); [now left|right; now exists s].
  - intros [H|(s & H & I)]; [exists r; cbn; auto|exists s; cbn; auto].
Qed.

Lemma covers_app l m k : covers (l ++ m) k <-> covers l k \/ covers m k.
Proof.
  induction l as [|r l IH]; cbn [app]; [rewrite covers_nil; tauto|].
  rewrite !covers_cons, IH. tauto.
Qed.

Lemma zget_cons {A} (x : A) l k : zget (x :: l) k = if k =? 0 then Some x else zget l (k - 1).
Proof.
  unfold zget. destruct (k <? 0) eqn:E, (k =? 0) eqn:E0; try lia.
  - destruct (k - 1 <? 0) eqn:E1; [reflexivity|lia].
  - replace k with 0 by lia. reflexivity.
  - destruct (k - 1 <? 0) eqn:E1; [lia|].
    replace (Z.to_nat k) with (S (Z.to_nat (k - 1))) by lia. reflexivity.
Qed.

Lemma zget_nil {A} k : zget (@nil A) k = None.
Proof. unfold zget. destruct (k <? 0); [reflexivity|]. now destruct (Z.to_nat k). Qed.

Lemma runs_covers m : forall o k x,
  (forall s, o = Some s -> s < k) ->
  covers (runs o k m) x <-> (exists s, o = Some s /\ s <= x < k) \/ zget m (x - k) = Some true.
Proof.
  induction m as [|b m IH]; intros o k x Ho.
  - rewrite zget_nil. destruct o as [s|]; cbn [runs].
    + rewrite covers_cons, covers_nil. unfold inside; cbn [fst snd]. split.
      * intros [H|[]]. left. exists s. auto.
      * intros [(s' & E & H)|]; [|discriminate]. injection E as ->. auto.
    + rewrite covers_nil. split; [easy|]. intros [(s & E & _)|E]; discriminate.
  - rewrite zget_cons. destruct b, o as [s|]; cbn [runs]; try specialize (Ho s eq_refl).
    + rewrite IH by (intros ? E; injection E as <-; lia).
      replace (x - (k + 1)) with (x - k - 1) by lia.
      destruct (x - k =? 0) eqn:E.
      * split; [auto|]. intros _. left. exists s. split; [reflexivity|lia].
      * split; (intros [(s' & E' & H)|H]; [left; exists s'; split; [assumption|lia]|now right]).
    + rewrite IH by (intros ? E; injection E as <-; lia).
      replace (x - (k + 1)) with (x - k - 1) by lia.
      destruct (x - k =? 0) eqn:E.
      * split; [auto|]. intros _. left. exists k. split; [reflexivity|lia].
      * split.
        -- intros [(s' & E' & H)|H]; [injection E' as <-; lia|now right].
        -- intros [(s' & E' & H)|H]; [discriminate|now right].
    + rewrite covers_cons. unfold inside; cbn [fst snd].
      rewrite IH by discriminate.
      replace (x - (k + 1)) with (x - k - 1) by lia.
      destruct (x - k =? 0) eqn:E.
      * split; [|intros [(s' & E' & H)|H]; [injection E' as <-; lia|discriminate]].
        intros [H|[(s' & E' & H)|H]]; [lia|discriminate|].
        apply zget_Some_range in H. lia.
      * split.
        -- intros [H|[(s' & E' & H)|H]]; [left; eauto|discriminate|now right].
        -- intros [(s' & E' & H)|H]; [injection E' as <-; auto|auto].
    + rewrite IH by discriminate.
      replace (x - (k + 1)) with (x - k - 1) by lia.
      destruct (x - k =? 0) eqn:E.
      * split; [|intros [(s' & E' & H)|H]; discriminate].
        intros [(s' & E' & H)|H]; [discriminate|]. apply zget_Some_range in H. lia.
      * split; (intros [(s' & E' & H)|H]; [discriminate|now right]).
Qed.

Lemma runs_sep m : forall o k, (forall s, o = Some s -> s < k) ->
  separated (runs o k m) /\ Forall nonempty (runs o k m) /\
  Forall (fun r => match o with Some s => s | None => k end <= fst r) (runs o k m).
Proof.
  induction m as [|b m IH]; intros o k Ho.
  - destruct o as [s|]; cbn [runs]; [|repeat constructor].
    specialize (Ho s eq_refl). repeat split; repeat constructor; cbn; unfold nonempty; cbn; lia.
  - destruct b, o as [s|]; cbn [runs]; try specialize (Ho s eq_refl).
    + apply IH. intros ? E; injection E as <-; lia.
    + destruct (IH (Some k) (k + 1)) as (A & B & C); [intros ? E; injection E as <-; lia|]. auto.
    + destruct (IH None (k + 1)) as (A & B & C); [discriminate|].
      repeat split.
      * constructor; [exact A|]. eapply Forall_impl; [|exact C]. cbn; intros; lia.
      * constructor; [unfold nonempty; cbn; lia|exact B].
      * constructor; [cbn; lia|]. eapply Forall_impl; [|exact C]. cbn; intros; lia.
    + destruct (IH None (k + 1)) as (A & B & C); [discriminate|].
      repeat split; auto. eapply Forall_impl; [|exact C]. cbn; intros; lia.
Qed.

Lemma mask2range_spec m : exists r, mask2range m = Some r /\
  (forall k, covers r k <-> zget m k = Some true) /\ separated r /\ Forall nonempty r.
Proof.
  exists (runs None 0 m). split; [apply mask2range_runs|].
  destruct (runs_sep m None 0) as (A & B & C); [discriminate|].
  split; [|auto]. intros k. rewrite runs_covers by discriminate. rewrite Z.sub_0_r.
  split; [intros [(s & E & _)|H]; [discriminate|exact H]|auto].
Qed.

(** * sorting helpers *)
Lemma gather_map_fst (l : list rng) inds :
  map fst (gather (0, 0) l inds) = map (fun i => nth i (map fst l) 0) inds.
Proof.
  unfold gather. rewrite map_map. apply map_ext. intros i.
  change 0 with (fst (0, 0)) at 3. now rewrite map_nth.
Qed.

Lemma gather_perm {A} (d : A) l inds : Permutation inds (seq 0 (length l)) -> Permutation (gather d l inds) l.
Proof.
  intros H. unfold gather. rewrite (Permutation_map (fun i => nth i l d) H).
  clear H. induction l as [|x l IH]; [constructor|].
  cbn [length seq map nth]. constructor. rewrite <- seq_shift, map_map. exact IH.
Qed.

Lemma covers_perm l m k : Permutation l m -> covers l k <-> covers m k.
Proof.
  intros H. split; intros (r & I & K); exists r; split; auto.
  - eapply Permutation_in; eauto.
  - eapply Permutation_in; [symmetry|]; eauto.
Qed.

Lemma SS_nth {A} (R : A -> A -> Prop) l : StronglySorted R l ->
  forall i j x y, (i < j)%nat -> nth_error l i = Some x -> nth_error l j = Some y -> R x y.
Proof.
  induction 1 as [|a l HS IH F]; intros i j x y Hij Hi Hj.
  - destruct i; discriminate.
  - destruct j as [|j]; [lia|]. destruct i as [|i].
    + cbn in Hi, Hj. injection Hi as <-. rewrite Forall_forall in F. apply F.
      eapply nth_error_In; eauto.
    + cbn in Hi, Hj. apply (IH i j); auto. lia.
Qed.

Lemma SS_intro {A} (R : A -> A -> Prop) l :
  (forall i j x y, (i < j)%nat -> nth_error l i = Some x -> nth_error l j = Some y -> R x y) ->
  StronglySorted R l.
Proof.
  induction l as [|a l IH]; intros H; constructor.
  - apply IH. intros i j x y Hij Hi Hj. apply (H (S i) (S j) x y); auto; lia.
  - apply Forall_forall. intros x Hx. apply In_nth_error in Hx as [n Hn].
    apply (H O (S n) a x); auto. apply Nat.lt_0_succ.
Qed.

Lemma gather_nth {A} (d : A) l inds i x : nth_error (gather d l inds) i = Some x ->
  Permutation inds (seq 0 (length l)) ->
  exists p, nth_error inds i = Some p /\ nth_error l p = Some x.
Proof.
  unfold gather. rewrite nth_error_map. destruct (nth_error inds i) as [p|] eqn:E; [|discriminate].
  cbn. intros H HP. injection H as H. exists p. split; [reflexivity|].
  apply nth_error_In in E. apply (Permutation_in _ HP) in E. apply in_seq in E.
  rewrite <- H. apply nth_error_nth'. lia.
Qed.

Lemma gather_sorted_disjoint (l : list rng) inds :
  is_argsort inds (map fst l) -> disjoint_ranges l -> Forall (fun r => fst r <= snd r) l ->
  (forall i j r s, nth_error l i = Some r -> nth_error l j = Some s -> fst r = fst s -> snd r = snd s) ->
  in_order (gather (0, 0) l inds).
Proof.
  intros (HP & HS) HD HF Heq. rewrite map_length in HP. apply SS_intro.
  intros i j r s Hij Hi Hj.
  destruct (gather_nth _ _ _ _ _ Hi HP) as (p & Ep & Lp).
  destruct (gather_nth _ _ _ _ _ Hj HP) as (q & Eq & Lq).
  assert (Hpq : p <> q).
  { intros ->. assert (NoDup inds) by (eapply Permutation_NoDup; [symmetry; exact HP|apply seq_NoDup]).
    assert (i = j); [|lia]. eapply NoDup_nth_error; eauto.
    - apply nth_error_Some. congruence.
    - congruence. }
  assert (Hle : fst r <= fst s).
  { apply (SS_nth _ _ HS i j); auto; rewrite nth_error_map.
    - rewrite Ep. cbn. f_equal. apply nth_error_nth with (d := 0). rewrite nth_error_map, Lp. reflexivity.
    - rewrite Eq. cbn. f_equal. apply nth_error_nth with (d := 0). rewrite nth_error_map, Lq. reflexivity. }
  rewrite Forall_forall in HF.
  assert (fst r <= snd r) by (apply HF; eapply nth_error_In; eauto).
  assert (fst s <= snd s) by (apply HF; eapply nth_error_In; eauto).
  destruct (HD p q r s Hpq Lp Lq) as [D|D]; [exact D|].
  assert (E : fst r = fst s) by lia. pose proof (Heq p q r s Lp Lq E). lia.
Qed.

(** * range_sub *)
Lemma pyget_nonneg {A} (l : list A) i : 0 <= i -> pyget l i = zget l i.
Proof. intros H. unfold pyget. destruct (i <? 0) eqn:E; [lia|reflexivity]. Qed.

Lemma zget_In {A} (l : list A) i x : zget l i = Some x -> In x l.
Proof. unfold zget. destruct (i <? 0); [discriminate|]. apply nth_error_In. Qed.

Lemma In_zget {A} (l : list A) x : In x l -> exists i, zget l i = Some x.
Proof. intros H. apply In_nth_error in H as [n H]. exists (Z.of_nat n). now rewrite zget_nth_error. Qed.

Section SubP.
  Variable b : list rng.
  Variable rb : list Z.
  Hypothesis Hrb : zlen rb = zlen b.
  Hypothesis Hord : in_order b.
  Hypothesis Hwf : Forall (fun r => fst r <= snd r) b.

  Lemma b_wf i r : zget b i = Some r -> fst r <= snd r.
  Proof. intros H. rewrite Forall_forall in Hwf. apply Hwf. eapply zget_In; eauto. Qed.

  Lemma b_ord i j r s : i < j -> zget b i = Some r -> zget b j = Some s -> snd r <= fst s.
  Proof.
    intros Hij Hi Hj.
    pose proof (zget_Some_range _ _ _ Hi). pose proof (zget_Some_range _ _ _ Hj).
    unfold zget in Hi, Hj. destruct (i <? 0) eqn:?; [lia|]. destruct (j <? 0) eqn:?; [lia|].
    eapply (SS_nth _ _ Hord (Z.to_nat i) (Z.to_nat j)); eauto. lia.
  Qed.

  (* all ranges of b before position bi end at or before x *)
  Definition done (bi x : Z) := forall j r, j < bi -> zget b j = Some r -> snd r <= x.

  Definition abok (st : rstate) : Prop :=
    filter (fun x => 0 <=? x) (rs_abmap st) = zrange 0 (zlen (rs_c st)).

  Definition rb_ok := Forall (fun x => 0 <= x) rb.
  Hypothesis Hrbok : rb_ok.

  Lemma note_b_abok st i x : zget rb i = Some x -> abok st -> abok (note_b st x).
  Proof.
    intros Hx H. unfold abok, note_b in *. cbn [rs_abmap rs_c]. rewrite filter_app, H.
    unfold rb_ok in Hrbok. rewrite Forall_forall in Hrbok. specialize (Hrbok x (zget_In _ _ _ Hx)).
    cbn [filter]. destruct (0 <=? - x - 1) eqn:E; [lia|]. now rewrite app_nil_r.
  Qed.

  Lemma emit_abok st r ai : abok st -> abok (emit st r ai).
  Proof.
    intros H. unfold abok, emit in *. cbn [rs_abmap rs_c]. rewrite filter_app, H.
    pose proof (zlen_nonneg (rs_c st)).
    cbn [filter]. destruct (0 <=? zlen (rs_c st)) eqn:E; [|lia].
    rewrite zlen_app. replace (zlen [r]) with 1 by reflexivity. now rewrite zrange_snoc by lia.
  Qed.

  Lemma sub_skip_spec fuel : forall s bi st, 0 <= bi <= zlen b -> zlen b - bi < Z.of_nat fuel -> done bi s ->
    abok st ->
    exists bi' ab, sub_skip b rb fuel s bi st = Some (bi', RState (rs_c st) (rs_rmap st) (rs_abmap st ++ ab)) /\
      bi <= bi' <= zlen b /\ done bi' s /\
      abok (RState (rs_c st) (rs_rmap st) (rs_abmap st ++ ab)) /\
      (forall r, zget b bi' = Some r -> s < snd r).
  Proof.
    induction fuel as [|fuel IH]; intros s bi st Hbi Hf Hd Ha; [lia|].
    cbn [sub_skip]. destruct (bi <? zlen b) eqn:E.
    - rewrite !pyget_nonneg by lia.
      destruct (zget_in_range b bi ltac:(lia)) as [r Hr]. destruct (zget_in_range rb bi ltac:(lia)) as [x Hx].
      rewrite Hr, Hx. destruct (snd r <=? s) eqn:Es.
      + destruct (IH s (bi + 1) (note_b st x)) as (bi' & ab & Hrun & Hb & Hd' & Ha' & Hn); [lia|lia| | |].
        * intros j r' Hj Hr'. destruct (Z.eq_dec j bi) as [->|]; [|apply (Hd j); auto; lia].
          rewrite Hr in Hr'. injection Hr' as <-. lia.
        * eapply note_b_abok; eauto.
        * exists bi', ([- x - 1] ++ ab). cbn [note_b rs_c rs_rmap rs_abmap] in *.
          rewrite <- !app_assoc in *.
          split; [exact Hrun|]. split; [lia|auto].
      + exists bi, []. rewrite app_nil_r. destruct st. split; [reflexivity|]. split; [lia|].
        split; [exact Hd|]. split; [exact Ha|]. intros r' Hr'. rewrite Hr in Hr'. injection Hr' as <-. lia.
    - exists bi, []. rewrite app_nil_r. destruct st. split; [reflexivity|]. split; [lia|].
      split; [exact Hd|]. split; [exact Ha|]. intros r' Hr'. apply zget_Some_range in Hr'. lia.
  Qed.

  Definition in_b k := covers b k.

  Lemma in_b_zget k : in_b k <-> exists j r, zget b j = Some r /\ inside r k.
  Proof.
    split.
    - intros (r & Hr & Hk). apply In_zget in Hr as [j Hj]. eauto.
    - intros (j & r & Hr & Hk). exists r. split; [eapply zget_In; eauto|exact Hk].
  Qed.

  (* q neither contains nor straddles an entry of b, and starts (ends) where a or an entry of b does *)
  Definition clean (s e : Z) (q : rng) :=
    (forall r, In r b -> snd q <= fst r \/ snd r <= fst q) /\
    (fst q = s \/ exists r, In r b /\ fst q = snd r) /\
    (snd q = e \/ exists r, In r b /\ snd q = fst r).

  (* new output ranges of one turn *)
  Lemma sub_cut_spec fuel : forall s e ai bi st, 0 <= bi <= zlen b -> zlen b - bi < Z.of_nat fuel ->
    done bi s -> (forall r, zget b bi = Some r -> s <= snd r) -> abok st ->
    exists ps bi' cs ab,
      sub_cut b rb fuel e ai s bi st =
        Some (ps, bi', RState (rs_c st ++ cs) (rs_rmap st ++ map (fun _ => ai) cs) (rs_abmap st ++ ab)) /\
      bi <= bi' <= zlen b /\ s <= ps /\
      abok (RState (rs_c st ++ cs) (rs_rmap st ++ map (fun _ => ai) cs) (rs_abmap st ++ ab)) /\
      (ps <> s -> bi < bi') /\
      (bi < bi' -> forall r, zget b (bi' - 1) = Some r -> ps = snd r /\ fst r <= e) /\
      Forall (fun r => s <= fst r /\ snd r <= e /\ snd r <= ps /\ nonempty r) cs /\ in_order cs /\
      (forall k, s <= k < e -> (covers cs k \/ ps <= k) <-> ~ in_b k) /\
      done bi' ps /\ (bi' < zlen b -> forall r, zget b bi' = Some r -> e < fst r) /\
      (cs <> [] \/ bi < bi' -> ab <> []) /\
      Forall (clean s e) cs /\ (ps = s \/ exists r, In r b /\ ps = snd r).
  Proof.
    induction fuel as [|fuel IH]; intros s e ai bi st Hbi Hf Hd Hge Ha; [lia|].
    cbn [sub_cut].
    assert (Hexit : (bi < zlen b -> forall r, zget b bi = Some r -> e < fst r) ->
       exists ps bi' cs ab,
      Some (s, bi, st) =
        Some (ps, bi', RState (rs_c st ++ cs) (rs_rmap st ++ map (fun _ => ai) cs) (rs_abmap st ++ ab)) /\
      bi <= bi' <= zlen b /\ s <= ps /\
      abok (RState (rs_c st ++ cs) (rs_rmap st ++ map (fun _ => ai) cs) (rs_abmap st ++ ab)) /\
      (ps <> s -> bi < bi') /\
      (bi < bi' -> forall r, zget b (bi' - 1) = Some r -> ps = snd r /\ fst r <= e) /\
      Forall (fun r => s <= fst r /\ snd r <= e /\ snd r <= ps /\ nonempty r) cs /\ in_order cs /\
      (forall k, s <= k < e -> (covers cs k \/ ps <= k) <-> ~ in_b k) /\
      done bi' ps /\ (bi' < zlen b -> forall r, zget b bi' = Some r -> e < fst r) /\
      (cs <> [] \/ bi < bi' -> ab <> []) /\
      Forall (clean s e) cs /\ (ps = s \/ exists r, In r b /\ ps = snd r)).
    { intros Hx. exists s, bi, [], []. cbn [map]. rewrite !app_nil_r. destruct st.
      split; [reflexivity|]. split; [lia|]. split; [lia|]. split; [exact Ha|]. split; [lia|].
      split; [lia|]. split; [constructor|]. split; [constructor|].
      split; [|split; [exact Hd|split; [exact Hx|split; [intros [C|C]; [congruence|lia]|split; [constructor|now left]]]]].
      intros k Hk. split; [|intros _; right; lia].
      intros _ Hin. apply in_b_zget in Hin as (j & r & Hr & Hin). unfold inside in Hin.
      destruct (Z_lt_le_dec j bi) as [Hj|Hj].
      - specialize (Hd j r Hj Hr). lia.
      - pose proof (zget_Some_range _ _ _ Hr) as Hjr.
        destruct (zget_in_range b bi ltac:(lia)) as [r0 Hr0].
        specialize (Hx ltac:(lia) r0 Hr0). pose proof (b_wf _ _ Hr0).
        destruct (Z.eq_dec j bi) as [->|]; [rewrite Hr0 in Hr; injection Hr as <-; lia|].
        pose proof (b_ord bi j r0 r ltac:(lia) Hr0 Hr). lia. }
    destruct (bi <? zlen b) eqn:E.
    - rewrite !pyget_nonneg by lia.
      destruct (zget_in_range b bi ltac:(lia)) as [r Hr]. destruct (zget_in_range rb bi ltac:(lia)) as [x Hx].
      rewrite Hr, Hx. pose proof (b_wf _ _ Hr) as Hrw. specialize (Hge r Hr).
      destruct (fst r <=? e) eqn:Ee.
      2:{ apply Hexit. intros _ r' Hr'. rewrite Hr in Hr'. injection Hr' as <-. lia. }
      clear Hexit. cbn [fst snd].
      set (st1 := if 0 <? Z.min e (fst r) - s then emit st (s, Z.min e (fst r)) ai else st).
      assert (Ha1 : abok (note_b st1 x)).
      { eapply note_b_abok; [eauto|]. unfold st1. destruct (0 <? _); [apply emit_abok|]; exact Ha. }
      destruct (IH (snd r) e ai (bi + 1) (note_b st1 x)) as
        (ps & bi' & cs & ab & Hrun & Hb & Hps & Hab & Hne & Hlast & Hcs & Hord' & Hcov & Hd' & Hend & Hnz & Hcl & Hpsb); [lia|lia| | |exact Ha1|].
      + intros j r' Hj Hr'. destruct (Z.eq_dec j bi) as [->|].
        * rewrite Hr in Hr'. injection Hr' as <-. lia.
        * pose proof (b_ord j bi r' r ltac:(lia) Hr' Hr). lia.
      + intros r' Hr'. pose proof (b_ord bi (bi + 1) r r' ltac:(lia) Hr Hr'). pose proof (b_wf _ _ Hr'). lia.
      + set (c1 := if 0 <? Z.min e (fst r) - s then [(s, Z.min e (fst r))] else []).
        exists ps, bi', (c1 ++ cs),
          ((if 0 <? Z.min e (fst r) - s then [zlen (rs_c st)] else []) ++ [- x - 1] ++ ab).
        assert (Hst : RState (rs_c (note_b st1 x) ++ cs) (rs_rmap (note_b st1 x) ++ map (fun _ => ai) cs)
                        (rs_abmap (note_b st1 x) ++ ab) =
                      RState (rs_c st ++ c1 ++ cs) (rs_rmap st ++ map (fun _ => ai) (c1 ++ cs))
                        (rs_abmap st ++ (if 0 <? Z.min e (fst r) - s then [zlen (rs_c st)] else []) ++ [- x - 1] ++ ab)).
        { unfold st1, c1. destruct (0 <? Z.min e (fst r) - s);
            cbn [note_b emit rs_c rs_rmap rs_abmap]; rewrite map_app; cbn [map app];
            rewrite <- !app_assoc; reflexivity. }
        rewrite Hst in *.
        assert (Hc1 : Forall (fun q => s <= fst q /\ snd q <= e /\ snd q <= fst r /\ nonempty q) c1).
        { unfold c1, nonempty. destruct (0 <? Z.min e (fst r) - s) eqn:Em; constructor; [|constructor].
          cbn [fst snd]. lia. }
        split; [exact Hrun|]. split; [lia|]. split; [lia|]. split; [exact Hab|]. split; [lia|].
        split.
        { intros _ r' Hr'. destruct (Z.eq_dec bi' (bi + 1)) as [->|].
          - replace (bi + 1 - 1) with bi in Hr' by lia. rewrite Hr in Hr'. injection Hr' as <-.
            split; [|lia]. destruct (Z.eq_dec ps (snd r)) as [e0|n]; [exact e0|]. specialize (Hne n). lia.
          - apply Hlast; [lia|exact Hr']. }
        split.
        { apply Forall_app. split.
          - eapply Forall_impl; [|exact Hc1]. cbn; intros q (?&?&?&?). repeat split; try assumption; lia.
          - eapply Forall_impl; [|exact Hcs]. cbn; intros q (?&?&?&?). repeat split; try assumption; lia. }
        split.
        { unfold c1. destruct (0 <? Z.min e (fst r) - s) eqn:Em; [|exact Hord'].
          cbn [app]. constructor; [exact Hord'|]. eapply Forall_impl; [|exact Hcs].
          cbn; intros q (?&?&?&?). lia. }
        split; [|split; [exact Hd'|split; [exact Hend|split; [|split]]]].
        4:{ right. destruct Hpsb as [->|H]; [|exact H]. exists r. split; [eapply zget_In; eauto|reflexivity]. }
        3:{ assert (Hrb' : In r b) by (eapply zget_In; eauto).
          apply Forall_app. split.
          - unfold c1. destruct (0 <? Z.min e (fst r) - s) eqn:Em; constructor; [|constructor].
            split; [|split]; cbn [fst snd].
            + intros r' Hr'. apply In_zget in Hr' as [j Hr'].
              destruct (Z_lt_le_dec j bi) as [Hj|Hj]; [right; specialize (Hd j r' Hj Hr'); lia|].
              destruct (Z.eq_dec j bi) as [->|]; [rewrite Hr in Hr'; injection Hr' as <-; lia|].
              pose proof (b_ord bi j r r' ltac:(lia) Hr Hr'). lia.
            + now left.
            + destruct (Z_le_gt_dec e (fst r)); [left; lia|right]. exists r. split; [exact Hrb'|lia].
          - eapply Forall_impl; [|exact Hcl]. unfold clean. intros q (Q1 & Q2 & Q3).
            split; [exact Q1|]. split; [|exact Q3]. right. destruct Q2 as [->|Q2]; [|exact Q2].
            exists r. split; [exact Hrb'|reflexivity]. }
        2:{ intros _ Habs. destruct (0 <? Z.min e (fst r) - s); discriminate. }
        intros k Hk. rewrite covers_app.
        destruct (Z_lt_le_dec k (fst r)) as [Hlt|Hle].
        * assert (Hc : covers c1 k).
          { unfold c1. destruct (0 <? Z.min e (fst r) - s) eqn:Em; [|lia].
            rewrite covers_cons. left. unfold inside; cbn [fst snd]. lia. }
          split; [|auto]. intros _ Hin. apply in_b_zget in Hin as (j & r' & Hr' & Hin). unfold inside in Hin.
          destruct (Z_lt_le_dec j bi) as [Hj|Hj]; [specialize (Hd j r' Hj Hr'); lia|].
          destruct (Z.eq_dec j bi) as [->|]; [rewrite Hr in Hr'; injection Hr' as <-; lia|].
          pose proof (b_ord bi j r r' ltac:(lia) Hr Hr'). lia.
        * assert (Hnc : ~ covers c1 k).
          { intros (q & Hq & Hk'). rewrite Forall_forall in Hc1. specialize (Hc1 q Hq). unfold inside in Hk'. lia. }
          destruct (Z_lt_le_dec k (snd r)) as [Hin|Hout].
          -- split.
             ++ intros H. exfalso. destruct H as [[H|H]|H]; [contradiction| |lia].
                destruct H as (q & Hq & Hk'). rewrite Forall_forall in Hcs. specialize (Hcs q Hq). unfold inside in Hk'. lia.
             ++ intros H. exfalso. apply H. apply in_b_zget. exists bi, r. split; [exact Hr|]. unfold inside. lia.
          -- rewrite <- (Hcov k ltac:(lia)). tauto.
    - apply Hexit. lia.
  Qed.

  (* the ranges of the output that come from input range r with index ai *)
  Lemma sub_loop_spec : forall a bi st,
    in_order (map fst a) -> Forall (fun x => nonempty (fst x)) a -> 0 <= bi <= zlen b ->
    (forall x a', a = x :: a' -> done bi (fst (fst x))) -> abok st ->
    exists cs ab,
      sub_loop b rb a bi st =
        Some (RState (rs_c st ++ map fst cs) (rs_rmap st ++ map snd cs) (rs_abmap st ++ ab)) /\
      abok (RState (rs_c st ++ map fst cs) (rs_rmap st ++ map snd cs) (rs_abmap st ++ ab)) /\
      (forall k, covers (map fst cs) k <-> covers (map fst a) k /\ ~ in_b k) /\
      Forall nonempty (map fst cs) /\ in_order (map fst cs) /\
      Forall (fun q => exists x, In x a /\ snd x = snd q /\ fst (fst x) <= fst (fst q) /\ snd (fst q) <= snd (fst x)) cs /\
      (a <> [] -> ab <> []) /\
      Forall (fun q => exists x, In x a /\ clean (fst (fst x)) (snd (fst x)) q) (map fst cs).
  Proof.
    induction a as [|[[s e] ai] a IH]; intros bi st Hoa Hne Hbi Hd Ha.
    - exists [], []. cbn [sub_loop map]. rewrite !app_nil_r. destruct st.
      split; [reflexivity|]. split; [exact Ha|].
      split; [intros k; rewrite covers_nil; tauto|]. repeat split; try constructor; try congruence.
    - cbn [sub_loop]. cbn [fst snd]. specialize (Hd _ _ eq_refl). cbn [fst snd] in Hd.
      inversion Hne as [|? ? Hse Hne']; subst. unfold nonempty in Hse; cbn [fst snd] in Hse.
      cbn [map fst] in Hoa. inversion Hoa as [|? ? Hoa' Hfst]; subst. cbn [snd fst] in Hfst.
      destruct (sub_skip_spec (Z.to_nat (zlen b + 1 - bi)) s bi st Hbi ltac:(lia) Hd Ha) as (bi1 & ab1 & Hrun1 & Hb1 & Hd1 & Ha1 & Hn1).
      rewrite Hrun1. set (st1 := RState _ _ _) in *.
      destruct (sub_cut_spec (Z.to_nat (zlen b + 1 - bi1)) s e ai bi1 st1 ltac:(lia) ltac:(lia) Hd1) as
        (ps & bi2 & cs & ab2 & Hrun2 & Hb2 & Hps & Ha2 & Hne2 & Hlast & Hcs & Hord2 & Hcov & Hd2 & Hend & Hnz & Hcl & Hpsb).
      { intros r Hr. specialize (Hn1 r Hr). lia. }
      { exact Ha1. }
      rewrite Hrun2. set (st2 := RState (rs_c st1 ++ cs) _ _) in *.
      assert (Hnext : forall x a', a = x :: a' -> e <= fst (fst x)).
      { intros x a' ->. cbn [map] in Hfst. inversion Hfst; subst. assumption. }
      set (rest := if ps <? e then [(ps, e)] else []).
      assert (Hrest : Forall (fun q => ps <= fst q /\ snd q <= e /\ nonempty q) rest).
      { unfold rest, nonempty. destruct (ps <? e) eqn:Ep; constructor; [cbn; lia|constructor]. }
      assert (Hcovr : forall k, s <= k < e -> covers (cs ++ rest) k <-> ~ in_b k).
      { intros k Hk. rewrite <- (Hcov k Hk), covers_app. unfold rest. destruct (ps <? e) eqn:Ep.
        - rewrite covers_cons, covers_nil. unfold inside; cbn [fst snd].
          split; [intros [H|[H|[]]]; [now left|right; lia]|intros [H|H]; [now left|right; left; lia]].
        - rewrite covers_nil. split; [intros [H|[]]; now left|intros [H|H]; [now left|lia]]. }
      assert (Hcsr : Forall (fun q => s <= fst q /\ snd q <= e /\ nonempty q) (cs ++ rest)).
      { apply Forall_app. split; [eapply Forall_impl; [|exact Hcs]; cbn; tauto|].
        eapply Forall_impl; [|exact Hrest]. cbn; intros q (?&?&?); repeat split; try assumption; lia. }
      assert (Hor : in_order (cs ++ rest)).
      { unfold rest. destruct (ps <? e) eqn:Ep; [|now rewrite app_nil_r].
        apply SS_intro. intros i j x y Hij Hi Hj.
        destruct (Nat.lt_ge_cases j (length cs)) as [Hjl|Hjl].
        - rewrite nth_error_app1 in Hi, Hj by lia. apply (SS_nth _ _ Hord2 i j); auto.
        - rewrite nth_error_app2 in Hj by lia.
          assert (nth_error cs i = Some x).
          { rewrite nth_error_app1 in Hi; [exact Hi|].
            assert (j - length cs = 0)%nat; [|lia].
            destruct (j - length cs)%nat as [|[|]]; [reflexivity|discriminate|discriminate]. }
          destruct (j - length cs)%nat as [|[|]]; [|discriminate|discriminate].
          cbn in Hj. injection Hj as <-. cbn [fst].
          rewrite Forall_forall in Hcs. apply Hcs. eapply nth_error_In; eauto. }
      assert (Hclr : Forall (clean s e) (cs ++ rest)).
      { apply Forall_app. split; [exact Hcl|]. unfold rest. destruct (ps <? e) eqn:Ep; constructor; [|constructor].
        split; [|split; [exact Hpsb|now left]]. intros r Hr. cbn [fst snd]. apply In_zget in Hr as [j Hr].
        destruct (Z_lt_le_dec j bi2) as [Hj|Hj]; [right; exact (Hd2 j r Hj Hr)|left].
        pose proof (zget_Some_range _ _ _ Hr). destruct (zget_in_range b bi2 ltac:(lia)) as [r2 Hr2].
        specialize (Hend ltac:(lia) r2 Hr2). pose proof (b_wf _ _ Hr2).
        destruct (Z.eq_dec j bi2) as [->|]; [rewrite Hr2 in Hr; injection Hr as <-; lia|].
        pose proof (b_ord bi2 j r2 r ltac:(lia) Hr2 Hr). lia. }
      assert (Hgen : forall bi3 st3 ab3, 0 <= bi3 <= zlen b -> done bi3 e -> abok st3 ->
         st3 = RState (rs_c st ++ (cs ++ rest)) (rs_rmap st ++ map (fun _ => ai) (cs ++ rest)) (rs_abmap st ++ ab3) ->
         ab3 <> [] ->
         exists cs' ab,
      sub_loop b rb a bi3 st3 =
        Some (RState (rs_c st ++ map fst cs') (rs_rmap st ++ map snd cs') (rs_abmap st ++ ab)) /\
      abok (RState (rs_c st ++ map fst cs') (rs_rmap st ++ map snd cs') (rs_abmap st ++ ab)) /\
      (forall k, covers (map fst cs') k <-> covers (map fst (((s, e), ai) :: a)) k /\ ~ in_b k) /\
      Forall nonempty (map fst cs') /\ in_order (map fst cs') /\
      Forall (fun q => exists x, In x (((s, e), ai) :: a) /\ snd x = snd q /\ fst (fst x) <= fst (fst q) /\ snd (fst q) <= snd (fst x)) cs' /\
      (((s, e), ai) :: a <> [] -> ab <> []) /\
      Forall (fun q => exists x, In x (((s, e), ai) :: a) /\ clean (fst (fst x)) (snd (fst x)) q) (map fst cs')).
      { intros bi3 st3 ab3 Hb3 Hd3 Ha3 Est Hab3.
        destruct (IH bi3 st3 Hoa' Hne' Hb3) as (cs4 & ab4 & Hrun4 & Ha4 & Hcov4 & Hne4 & Hor4 & Hsrc4 & _ & Hcl4).
        { intros x a' Ex. specialize (Hnext x a' Ex). intros j r Hj Hr. specialize (Hd3 j r Hj Hr). lia. }
        { exact Ha3. }
        assert (Hlow4 : Forall (fun q => e <= fst q) (map fst cs4)).
        { apply Forall_forall. intros q Hq. apply in_map_iff in Hq as (p & <- & Hp).
          rewrite Forall_forall in Hsrc4. destruct (Hsrc4 p Hp) as (x & Hx & _ & Hlo & _).
          rewrite Forall_forall in Hfst. specialize (Hfst (fst x) (in_map fst _ _ Hx)). lia. }
        exists (map (fun q => (q, ai)) (cs ++ rest) ++ cs4), (ab3 ++ ab4).
        assert (E1 : map fst (map (fun q : rng => (q, ai)) (cs ++ rest) ++ cs4) = (cs ++ rest) ++ map fst cs4).
        { rewrite map_app, map_map. cbn [fst]. now rewrite map_id. }
        assert (E2 : map snd (map (fun q : rng => (q, ai)) (cs ++ rest) ++ cs4) = map (fun _ => ai) (cs ++ rest) ++ map snd cs4).
        { rewrite map_app, map_map. reflexivity. }
        rewrite E1, E2. subst st3. cbn [rs_c rs_rmap rs_abmap] in *. rewrite <- !app_assoc in *.
        split; [exact Hrun4|]. split; [exact Ha4|].
        split.
        { intros k. rewrite app_assoc, covers_app, Hcov4. cbn [map fst]. rewrite covers_cons.
          unfold inside at 1; cbn [fst snd]. split.
          - intros [H|[H H']]; [|auto].
            assert (Hk : s <= k < e).
            { destruct H as (q & Hq & Hk). rewrite Forall_forall in Hcsr. specialize (Hcsr q Hq). unfold inside in Hk. lia. }
            split; [now left|]. now apply Hcovr.
          - intros [[H|H] H']; [left; now apply Hcovr|now right]. }
        split.
        { rewrite app_assoc. apply Forall_app. split; [|exact Hne4].
          eapply Forall_impl; [|exact Hcsr]. cbn; tauto. }
        split.
        { rewrite app_assoc. apply SS_intro. intros i j x y Hij Hi Hj.
          destruct (Nat.lt_ge_cases j (length (cs ++ rest))) as [Hjl|Hjl].
          - rewrite nth_error_app1 in Hi, Hj by lia. apply (SS_nth _ _ Hor i j); auto.
          - rewrite nth_error_app2 in Hj by lia.
            destruct (Nat.lt_ge_cases i (length (cs ++ rest))) as [Hil|Hil].
            + rewrite nth_error_app1 in Hi by lia.
              rewrite Forall_forall in Hcsr, Hlow4.
              specialize (Hcsr x (nth_error_In _ _ Hi)). specialize (Hlow4 y (nth_error_In _ _ Hj)). lia.
            + rewrite nth_error_app2 in Hi by lia. eapply (SS_nth _ _ Hor4) with (2 := Hi) (3 := Hj). lia. }
        split.
        { apply Forall_app. split.
          - apply Forall_forall. intros q Hq. apply in_map_iff in Hq as (p & <- & Hp).
            exists ((s, e), ai). cbn [fst snd]. rewrite Forall_forall in Hcsr. specialize (Hcsr p Hp).
            split; [now left|]. split; [reflexivity|]. lia.
          - eapply Forall_impl; [|exact Hsrc4]. cbn beta. intros q (x & Hx & H). exists x. split; [now right|exact H]. }
        split.
        { intros _ Habs. apply app_eq_nil in Habs. destruct Habs; contradiction. }
        rewrite app_assoc. apply Forall_app. split.
        - eapply Forall_impl; [|exact Hclr]. intros q Hq. exists ((s, e), ai). split; [now left|exact Hq].
        - eapply Forall_impl; [|exact Hcl4]. cbn beta. intros q (x & Hx & H). exists x. split; [now right|exact H]. }
      destruct (ps <? e) eqn:Ep.
      + apply Hgen with (ab3 := ab1 ++ ab2 ++ [zlen (rs_c st2)]).
        * lia.
        * intros j r Hj Hr. specialize (Hd2 j r Hj Hr). lia.
        * apply emit_abok. exact Ha2.
        * unfold rest. subst st2 st1. unfold emit; cbn [rs_c rs_rmap rs_abmap].
          rewrite map_app. cbn [map]. rewrite <- !app_assoc. reflexivity.
        * intros Habs. apply app_eq_nil in Habs as [_ Habs]. apply app_eq_nil in Habs as [_ Habs]. discriminate.
      + assert (Hlt : bi1 < bi2) by (apply Hne2; lia).
        apply Hgen with (ab3 := ab1 ++ ab2).
        * lia.
        * intros j r Hj Hr. destruct (zget_in_range b (bi2 - 1) ltac:(lia)) as [r' Hr'].
          destruct (Hlast Hlt r' Hr') as [_ Hl]. pose proof (b_ord j (bi2 - 1) r r' Hj Hr Hr'). lia.
        * exact Ha2.
        * unfold rest. rewrite app_nil_r. subst st2 st1. cbn [rs_c rs_rmap rs_abmap].
          rewrite <- !app_assoc. reflexivity.
        * intros Habs. apply app_eq_nil in Habs as [_ Habs]. now apply Hnz in Habs; auto.
  Qed.
End SubP.

Lemma dedup_filter_nonneg l : forall p, 
  (forall i j x, nth_error (p :: l) i = Some x -> nth_error (p :: l) j = Some x -> 0 <= x -> i = j) ->
  filter (fun x => 0 <=? x) (dedup_tail p l) = filter (fun x => 0 <=? x) l.
Proof.
  induction l as [|x l IH]; intros p H; [reflexivity|]. cbn [dedup_tail filter].
  rewrite filter_app. rewrite IH.
  2:{ intros i j y Hi Hj Hy. specialize (H (S i) (S j) y Hi Hj Hy). lia. }
  destruct (x =? p) eqn:E.
  - cbn [filter app]. destruct (0 <=? x) eqn:E0; [|reflexivity].
    specialize (H 0%nat 1%nat x). cbn in H. assert (p = x) by lia. subst. specialize (H eq_refl eq_refl). lia.
  - cbn [filter]. destruct (0 <=? x); reflexivity.
Qed.

Lemma filter_zrange_inj l n : filter (fun x => 0 <=? x) l = zrange 0 n ->
  forall i j x, nth_error l i = Some x -> nth_error l j = Some x -> 0 <= x -> i = j.
Proof.
  intros H.
  assert (G : NoDup (filter (fun x => 0 <=? x) l)) by (rewrite H; apply zrange_NoDup).
  clear H. induction l as [|y l IH]; intros i j x Hi Hj Hx; [destruct i; discriminate|].
  assert (In_case : forall k, nth_error l k = Some x -> In x (filter (fun x => 0 <=? x) l)).
  { intros k Hk. apply filter_In. split; [eapply nth_error_In; eauto|lia]. }
  assert (G' : NoDup (filter (fun x => 0 <=? x) l)).
  { cbn [filter] in G. destruct (0 <=? y); [inversion G; assumption|exact G]. }
  destruct i as [|i], j as [|j]; cbn [nth_error] in Hi, Hj.
  - reflexivity.
  - injection Hi as ->. cbn [filter] in G. destruct (0 <=? x) eqn:E; [|lia].
    inversion G; subst. exfalso. eauto.
  - injection Hj as ->. cbn [filter] in G. destruct (0 <=? x) eqn:E; [|lia].
    inversion G; subst. exfalso. eauto.
  - f_equal. eapply IH; eauto.
Qed.

Lemma combine_map_fst {A B} (l : list A) (m : list B) : length l = length m -> map fst (combine l m) = l.
Proof. revert m; induction l as [|x l IH]; intros [|y m] H; try discriminate; cbn; [reflexivity|]. f_equal. apply IH. cbn in H. lia. Qed.

Lemma combine_nth_error {A B} (l : list A) (m : list B) n x : length l = length m ->
  nth_error (combine l m) n = Some x -> nth_error l n = Some (fst x) /\ nth_error m n = Some (snd x).
Proof.
  revert m n; induction l as [|y l IH]; intros [|z m] n L H; try discriminate.
  - destruct n; discriminate.
  - destruct n as [|n]; [cbn in H; injection H as <-; auto|]. cbn in *. apply IH; auto.
Qed.

Lemma range_sub_spec a b ainds binds :
  is_argsort ainds (map fst a) -> is_argsort binds (map fst b) ->
  a <> [] -> Forall nonempty a -> disjoint_ranges a ->
  Forall (fun r => fst r <= snd r) b -> disjoint_ranges b ->
  (forall i j r s, nth_error b i = Some r -> nth_error b j = Some s -> fst r = fst s -> snd r = snd s) ->
  exists c rmap abmap, range_sub a b ainds binds = Some (c, rmap, abmap) /\
    (forall k, covers c k <-> covers a k /\ ~ covers b k) /\
    Forall nonempty c /\ in_order c /\
    length rmap = length c /\
    (forall i r, nth_error c i = Some r -> exists j q, nth_error rmap i = Some (Z.of_nat j) /\
       nth_error a j = Some q /\ fst q <= fst r /\ snd r <= snd q) /\
    filter (fun x => 0 <=? x) abmap = zrange 0 (zlen c) /\
    Forall (fun q => (forall r, In r b -> snd q <= fst r \/ snd r <= fst q) /\
      (In (fst q) (map fst a) \/ In (fst q) (map snd b)) /\
      (In (snd q) (map snd a) \/ In (snd q) (map fst b))) c.
Proof.
  intros HA HB Hne0 Hne Hda Hwb Hdb Heqb.
  assert (HoA : in_order (gather (0,0) a ainds)).
  { apply gather_sorted_disjoint; auto.
    - eapply Forall_impl; [|exact Hne]. unfold nonempty; cbn; intros; lia.
    - intros i j r s Hi Hj Hrs. destruct (Nat.eq_dec i j) as [->|Hij]; [congruence|].
      rewrite Forall_forall in Hne. pose proof (Hne r (nth_error_In _ _ Hi)). pose proof (Hne s (nth_error_In _ _ Hj)).
      unfold nonempty in *. destruct (Hda i j r s Hij Hi Hj); lia. }
  assert (HoB : in_order (gather (0,0) b binds)) by (apply gather_sorted_disjoint; auto).
  destruct HA as [HPa HSa], HB as [HPb HSb]. rewrite map_length in HPa, HPb.
  pose proof (gather_perm (0,0) a ainds HPa) as PA. pose proof (gather_perm (0,0) b binds HPb) as PB.
  set (sa := gather (0,0) a ainds) in *. set (sb := gather (0,0) b binds) in *.
  assert (La : length sa = length (map Z.of_nat ainds)) by (unfold sa, gather; now rewrite !map_length).
  assert (Lb : zlen (map Z.of_nat binds) = zlen sb) by (unfold sb, gather, zlen; now rewrite !map_length).
  destruct (sub_loop_spec sb (map Z.of_nat binds) Lb HoB) with (a := combine sa (map Z.of_nat ainds)) (bi := 0) (st := RState [] [] [])
    as (cs & ab & Hrun & Hab & Hcov & Hnec & Hoc & Hsrc & Habne & Hcl).
  - eapply Permutation_Forall; [symmetry; exact PB|exact Hwb].
  - unfold rb_ok. apply Forall_forall. intros x Hx. apply in_map_iff in Hx as (n & <- & _). lia.
  - rewrite combine_map_fst by exact La. exact HoA.
  - apply Forall_forall. intros [r i] Hx. cbn [fst]. apply in_combine_l in Hx.
    rewrite Forall_forall in Hne. apply Hne. eapply Permutation_in; eauto.
  - pose proof (zlen_nonneg sb). lia.
  - intros x a' _ j r Hj Hr. apply zget_Some_range in Hr. lia.
  - reflexivity.
  - rewrite combine_map_fst in Hcov by exact La. cbn [rs_c rs_rmap rs_abmap app] in *.
    unfold range_sub. fold sa sb. rewrite Hrun. cbn [rs_c rs_rmap rs_abmap].
    unfold abok in Hab. cbn [rs_c rs_rmap rs_abmap] in Hab.
    assert (Hab0 : ab <> []).
    { apply Habne. intros E.
      assert (length sa = 0%nat). { rewrite <- (combine_map_fst sa (map Z.of_nat ainds)) by exact La. rewrite E. reflexivity. }
      assert (length a = 0%nat) by (rewrite <- (Permutation_length PA); assumption).
      destruct a; [congruence|discriminate]. }
    destruct ab as [|p ab]; [congruence|]. cbn [dedup].
    exists (map fst cs), (map snd cs), (p :: dedup_tail p ab). split; [reflexivity|].
    split.
    { intros k. rewrite Hcov. unfold in_b. rewrite (covers_perm _ _ k PA), (covers_perm _ _ k PB). tauto. }
    split; [exact Hnec|]. split; [exact Hoc|]. split; [now rewrite !map_length|].
    split.
    { intros i r Hi. rewrite nth_error_map in Hi. destruct (nth_error cs i) as [q|] eqn:Eq; [|discriminate].
      cbn in Hi. injection Hi as <-. rewrite Forall_forall in Hsrc.
      destruct (Hsrc q (nth_error_In _ _ Eq)) as (x & Hx & Hsx & Hlo & Hhi).
      apply In_nth_error in Hx as [n Hn].
      assert (Hsplit : nth_error sa n = Some (fst x) /\ nth_error (map Z.of_nat ainds) n = Some (snd x)).
      { apply combine_nth_error; [exact La|exact Hn]. }
      destruct Hsplit as [H1 H2].
      destruct (gather_nth _ _ _ _ _ H1 HPa) as (pp & Ep & Lp).
      rewrite nth_error_map, Ep in H2. cbn in H2. injection H2 as H2.
      exists pp, (fst x). split; [rewrite nth_error_map, Eq; cbn; congruence|]. auto. }
    split.
    { rewrite <- Hab. cbn [filter]. rewrite dedup_filter_nonneg; [reflexivity|].
      eapply filter_zrange_inj; eauto. }
    eapply Forall_impl; [|exact Hcl]. intros q ([r n] & Hx & Q1 & Q2 & Q3). cbn [fst snd] in *.
    assert (Hr : In r a).
    { apply in_combine_l in Hx. eapply Permutation_in; eauto. }
    split; [|split].
    + intros r' Hr'. apply Q1. eapply Permutation_in; [symmetry; exact PB|exact Hr'].
    + destruct Q2 as [->|(r' & Hr' & ->)]; [left; now apply in_map|right]. apply in_map. eapply Permutation_in; eauto.
    + destruct Q3 as [->|(r' & Hr' & ->)]; [left; now apply in_map|right]. apply in_map. eapply Permutation_in; eauto.
Qed.

(** * range_cut *)
Lemma range_cut_spec a c ainds binds :
  is_argsort ainds (map fst a) -> is_argsort binds c ->
  a <> [] -> Forall nonempty a -> disjoint_ranges a ->
  exists o, range_cut a c ainds binds = Some o /\
    (forall k, covers o k <-> covers a k) /\ Forall nonempty o /\ in_order o /\
    Forall (fun r => forall p, In p c -> ~ (fst r < p < snd r)) o /\
    Forall (fun r => (In (fst r) (map fst a) \/ In (fst r) c) /\ (In (snd r) (map snd a) \/ In (snd r) c)) o.
Proof.
  intros HA HB Hne0 Hne Hda.
  set (b := map (fun x : Z => (x, x)) c).
  assert (Eb1 : map fst b = c) by (unfold b; rewrite map_map; cbn; apply map_id).
  assert (Eb2 : map snd b = c) by (unfold b; rewrite map_map; cbn; apply map_id).
  assert (Hb : forall r, In r b -> fst r = snd r /\ In (fst r) c).
  { intros r Hr. unfold b in Hr. apply in_map_iff in Hr as (x & <- & Hx). auto. }
  destruct (range_sub_spec a b ainds binds) as (o & rm & ab & Hrun & Hcov & Hneo & Hoo & _ & _ & _ & Hcl); auto.
  - now rewrite Eb1.
  - apply Forall_forall. intros r Hr. destruct (Hb r Hr). lia.
  - intros i j r s Hij Hi Hj. destruct (Hb r (nth_error_In _ _ Hi)), (Hb s (nth_error_In _ _ Hj)). lia.
  - intros i j r s Hi Hj E. destruct (Hb r (nth_error_In _ _ Hi)), (Hb s (nth_error_In _ _ Hj)). lia.
  - exists o. unfold range_cut. fold b. rewrite Hrun. split; [reflexivity|].
    split.
    { intros k. rewrite Hcov. split; [tauto|]. intros H. split; [exact H|].
      intros (r & Hr & Hk). destruct (Hb r Hr). unfold inside in Hk. lia. }
    split; [exact Hneo|]. split; [exact Hoo|]. split.
    + eapply Forall_impl; [|exact Hcl]. intros q (Q1 & _) p Hp.
      specialize (Q1 (p, p)). cbn [fst snd] in Q1.
      assert (In (p, p) b) by (unfold b; apply in_map_iff; exists p; auto). specialize (Q1 H). lia.
    + eapply Forall_impl; [|exact Hcl]. intros q (_ & Q2 & Q3). rewrite Eb1, Eb2 in *. auto.
Qed.

(** * range_normalize *)
Lemma range_normalize_filter a : range_normalize a = filter (fun r => fst r <? snd r) a.
Proof.
  unfold range_normalize. induction a as [|r a IH]; [reflexivity|]. cbn [filter].
  destruct (snd r =? fst r) eqn:E1, (snd r <? fst r) eqn:E2, (fst r <? snd r) eqn:E3; cbn [negb filter];
    rewrite ?E2; cbn [negb]; try lia; try (rewrite IH; reflexivity).
Qed.

Lemma range_normalize_spec a : let o := range_normalize a in
  (forall k, covers o k <-> covers a k) /\ Forall nonempty o /\
  (disjoint_ranges a -> disjoint_ranges o).
Proof.
  cbv zeta. rewrite range_normalize_filter. split; [|split].
  - intros k. split; intros (r & Hr & Hk).
    + apply filter_In in Hr as [Hr _]. now exists r.
    + exists r. split; [|exact Hk]. apply filter_In. split; [exact Hr|]. unfold inside in Hk. lia.
  - apply Forall_forall. intros r Hr. apply filter_In in Hr as [_ Hr]. unfold nonempty. lia.
  - induction a as [|r a IH]; intros H; [exact H|]. cbn [filter].
    assert (Ha : disjoint_ranges a) by (intros i j x y Hij Hi Hj; apply (H (S i) (S j) x y); auto).
    specialize (IH Ha). destruct (fst r <? snd r); [|exact IH].
    assert (Hr : forall s, In s (filter (fun r => fst r <? snd r) a) -> snd r <= fst s \/ snd s <= fst r).
    { intros s Hs. apply filter_In in Hs as [Hs _]. apply In_nth_error in Hs as [n Hn].
      apply (H O (S n) r s); auto. }
    intros [|i] [|j] x y Hij Hi Hj; cbn [nth_error] in Hi, Hj.
    + congruence.
    + injection Hi as <-. apply Hr. eapply nth_error_In; eauto.
    + injection Hj as <-. destruct (Hr x); [eapply nth_error_In; eauto|now right|now left].
    + apply (IH i j); auto.
Qed.

(** * range_union *)
Lemma upd_length {A} (l : list A) i v : length (upd l i v) = length l.
Proof. revert i; induction l as [|x l IH]; intros [|i]; cbn; auto. Qed.

Lemma upd_nth {A} (l : list A) i j v d : (i < length l)%nat ->
  nth j (upd l i v) d = if Nat.eqb i j then v else nth j l d.
Proof.
  revert i j; induction l as [|x l IH]; intros i j H; [cbn in H; lia|].
  destruct i as [|i], j as [|j]; cbn in *; auto. apply IH. lia.
Qed.

Section UnionP.
  Variable a : list rng.
  Hypothesis Hwf : Forall (fun r => fst r <= snd r) a.
  Notation n := (length a).
  Notation aj j := (nth j a (0, 0)).

  Lemma aj_wf j : (j < n)%nat -> fst (aj j) <= snd (aj j).
  Proof. intros H. rewrite Forall_forall in Hwf. apply Hwf. now apply nth_In. Qed.

  Lemma aj_cov j k : (j < n)%nat -> inside (aj j) k -> covers a k.
  Proof. intros H I. exists (aj j). split; [now apply nth_In|exact I]. Qed.

  Definition sorted_is (is : list nat) := StronglySorted Z.le (map (fun i => fst (aj i)) is).
  Definition neg_in (rmap : list Z) (is : list nat) :=
    forall j, (j < n)%nat -> nth j rmap (-1) < 0 -> In j is.

  Lemma union_inner_spec js : forall nb rmap e start rmap0,
    Forall (fun j => (j < n)%nat) js -> sorted_is js -> length rmap = n -> 0 <= nb ->
    Forall (fun j => start <= fst (aj j)) js -> start <= e ->
    neg_in rmap js ->
    (forall j, (j < n)%nat -> nth j rmap (-1) = nth j rmap0 (-1) \/
        (nth j rmap (-1) = nb /\ start <= fst (aj j) /\ snd (aj j) <= e /\ nth j rmap0 (-1) < 0)) ->
    (forall k, start <= k < e -> covers a k) ->
    let '(rmap', e') := union_inner a js nb rmap e in
    length rmap' = n /\ e <= e' /\
    (forall j, (j < n)%nat -> nth j rmap' (-1) = nth j rmap0 (-1) \/
        (nth j rmap' (-1) = nb /\ start <= fst (aj j) /\ snd (aj j) <= e' /\ nth j rmap0 (-1) < 0)) /\
    (forall k, start <= k < e' -> covers a k) /\
    (forall j, (j < n)%nat -> nth j rmap' (-1) < 0 -> e' < fst (aj j) /\ In j js).
  Proof.
    induction js as [|j js IH]; intros nb rmap e start rmap0 Hjs Hs Hlen Hnb Hst Hse Hneg Hr Hc; cbn [union_inner].
    - split; [exact Hlen|]. split; [lia|]. split; [exact Hr|]. split; [exact Hc|].
      intros j Hj Hj'. destruct (Hneg j Hj Hj').
    - inversion Hjs as [|? ? Hj Hjs']; subst. inversion Hst as [|? ? Hsj Hst']; subst.
      unfold sorted_is in Hs. cbn [map] in Hs. inversion Hs as [|? ? Hs' Hle]; subst.
      destruct (0 <=? nth j rmap (-1)) eqn:E.
      + specialize (IH nb rmap e start rmap0 Hjs' Hs' Hlen Hnb Hst' Hse).
        destruct (union_inner a js nb rmap e) as [rmap' e'].
        assert (Hneg' : neg_in rmap js).
        { intros i Hi Hi'. destruct (Hneg i Hi Hi') as [<-|]; [lia|assumption]. }
        destruct (IH Hneg' Hr Hc) as (A & B & C & D & F). repeat (split; [assumption|]).
        intros i Hi Hi'. destruct (F i Hi Hi'). split; [assumption|now right].
      + destruct (e <? fst (aj j)) eqn:E2.
        * split; [exact Hlen|]. split; [lia|]. split; [exact Hr|]. split; [exact Hc|].
          intros i Hi Hi'. pose proof (Hneg i Hi Hi') as Hin. split; [|exact Hin].
          destruct Hin as [<-|Hin]; [lia|].
          rewrite Forall_forall in Hle. specialize (Hle (fst (aj i))).
          assert (fst (aj j) <= fst (aj i)); [|lia]. apply Hle.
          apply in_map_iff. exists i. auto.
        * set (e1 := Z.max e (snd (aj j))). set (rmap1 := upd rmap j nb).
          specialize (IH nb rmap1 e1 start rmap0 Hjs' Hs').
          destruct (union_inner a js nb rmap1 e1) as [rmap' e'].
          destruct IH as (A & B & C & D & F); auto.
          -- unfold rmap1. now rewrite upd_length.
          -- unfold e1. lia.
          -- intros i Hi Hi'. unfold rmap1 in Hi'. rewrite upd_nth in Hi' by lia.
             destruct (Nat.eqb j i) eqn:Eji; [lia|]. apply Nat.eqb_neq in Eji.
             destruct (Hneg i Hi Hi'); [congruence|assumption].
          -- intros i Hi. unfold rmap1. rewrite upd_nth by lia. destruct (Nat.eqb j i) eqn:Eji.
             ++ apply Nat.eqb_eq in Eji. subst i. right. unfold e1.
                split; [reflexivity|]. split; [assumption|]. split; [lia|].
                destruct (Hr j Hj) as [Hx|(Hx & _)]; lia.
             ++ destruct (Hr i Hi) as [Hx|(H1 & H2 & H3 & H4)]; [left; exact Hx|right].
                unfold e1. repeat split; try assumption; lia.
          -- intros k Hk. destruct (Z_lt_le_dec k e) as [Hke|Hke]; [apply Hc; lia|].
             apply (aj_cov j); [exact Hj|]. unfold inside. unfold e1 in Hk. lia.
          -- split; [exact A|]. split; [unfold e1 in B; lia|]. split; [exact C|]. split; [exact D|].
             intros i Hi Hi'. destruct (F i Hi Hi'). split; [assumption|now right].
  Qed.

  Definition UInv (is : list nat) (rmap : list Z) (b : list rng) : Prop :=
    length rmap = n /\ neg_in rmap is /\
    (forall j, (j < n)%nat -> 0 <= nth j rmap (-1) ->
       exists r, zget b (nth j rmap (-1)) = Some r /\ fst r <= fst (aj j) /\ snd (aj j) <= snd r) /\
    (forall k, covers b k -> covers a k) /\ separated b /\
    Forall (fun r => fst r <= snd r) b /\
    (forall r j, In r b -> (j < n)%nat -> nth j rmap (-1) < 0 -> snd r < fst (aj j)).

  Lemma union_outer_spec is : forall rmap b,
    Forall (fun j => (j < n)%nat) is -> sorted_is is -> UInv is rmap b ->
    UInv [] (fst (union_outer a is rmap b)) (snd (union_outer a is rmap b)).
  Proof.
    induction is as [|i is IH]; intros rmap b His Hs Hinv; cbn [union_outer]; [exact Hinv|].
    inversion His as [|? ? Hi His']; subst.
    unfold sorted_is in Hs. cbn [map] in Hs. inversion Hs as [|? ? Hs' Hle]; subst.
    destruct Hinv as (Hlen & Hneg & Hmap & Hcov & Hsep & Hbw & Hfar).
    destruct (0 <=? nth i rmap (-1)) eqn:E.
    - apply IH; auto. repeat (split; [assumption|]). split; [|auto].
      intros j Hj Hj'. destruct (Hneg j Hj Hj') as [<-|]; [lia|assumption].
    - destruct (aj i) as [start e0] eqn:Ea.
      pose proof (aj_wf i Hi) as Hw. rewrite Ea in Hw. cbn [fst snd] in Hw.
      pose proof (union_inner_spec is (zlen b) (upd rmap i (zlen b)) e0 start rmap) as HI.
      destruct (union_inner a is (zlen b) (upd rmap i (zlen b)) e0) as [rmap' e'].
      destruct HI as (A & B & C & D & F); auto.
      + now rewrite upd_length.
      + apply zlen_nonneg.
      + apply Forall_forall. intros j Hj. rewrite Forall_forall in Hle.
        specialize (Hle (fst (aj j))). cbn [fst] in Hle. apply Hle. apply in_map_iff. eauto.
      + intros j Hj Hj'. rewrite upd_nth in Hj' by lia. destruct (Nat.eqb i j) eqn:Eij.
        * pose proof (zlen_nonneg b). lia.
        * apply Nat.eqb_neq in Eij. destruct (Hneg j Hj Hj'); [congruence|assumption].
      + intros j Hj. rewrite upd_nth by lia. destruct (Nat.eqb i j) eqn:Eij; [|now left].
        apply Nat.eqb_eq in Eij. subst j. right. rewrite Ea. cbn [fst snd]. repeat split; lia.
      + intros k Hk. apply (aj_cov i); [exact Hi|]. rewrite Ea. exact Hk.
      + apply IH; auto. split; [exact A|]. split; [intros j Hj Hj'; now apply F|].
        split.
        { intros j Hj Hj'. destruct (C j Hj) as [Hx|(Hx & H1 & H2 & _)].
          - rewrite Hx in Hj' |- *. destruct (Hmap j Hj Hj') as (r & Hr & Hr').
            exists r. split; [|exact Hr']. rewrite zget_app1; [exact Hr|].
            apply zget_Some_range in Hr. lia.
          - rewrite Hx. exists (start, e'). rewrite zget_app2 by lia. rewrite Z.sub_diag. auto. }
        split.
        { intros k. rewrite covers_app, covers_cons, covers_nil. unfold inside; cbn [fst snd].
          intros [H|[H|[]]]; auto. }
        split.
        { apply SS_intro. intros x y r s Hxy Hx Hy.
          destruct (Nat.lt_ge_cases y (length b)) as [Hyl|Hyl].
          - rewrite nth_error_app1 in Hx, Hy by lia. apply (SS_nth _ _ Hsep x y); auto.
          - rewrite nth_error_app2 in Hy by lia. destruct (y - length b)%nat as [|[|]] eqn:Ey; try discriminate.
            cbn in Hy. injection Hy as <-. cbn [fst].
            rewrite nth_error_app1 in Hx by lia.
            specialize (Hfar r i (nth_error_In _ _ Hx) Hi ltac:(lia)). rewrite Ea in Hfar. exact Hfar. }
        split; [apply Forall_app; split; [exact Hbw|repeat constructor; cbn; lia]|].
        intros r j Hr Hj Hj'. apply in_app_iff in Hr as [Hr|[<-|[]]].
        * destruct (C j Hj) as [Hx|(Hx & _)]; [apply (Hfar r j); auto; congruence|].
          rewrite Hx in Hj'. pose proof (zlen_nonneg b). lia.
        * cbn [snd]. now apply F.
  Qed.
End UnionP.

Lemma range_union_spec a inds :
  is_argsort inds (map fst a) -> Forall (fun r => fst r <= snd r) a ->
  let '(b, rmap) := range_union a inds in
  (forall k, covers b k <-> covers a k) /\ separated b /\ Forall (fun r => fst r <= snd r) b /\
  length rmap = length a /\
  (forall j q, nth_error a j = Some q -> exists t r, nth_error rmap j = Some t /\ zget b t = Some r /\
     fst r <= fst q /\ snd q <= snd r).
Proof.
  intros [HP HS] Hwf. rewrite map_length in HP. unfold range_union.
  pose proof (union_outer_spec a Hwf inds (repeat (-1) (length a)) []) as H.
  destruct (union_outer a inds (repeat (-1) (length a)) []) as [rmap b]. cbn [fst snd] in H.
  destruct H as (Hlen & Hneg & Hmap & Hcov & Hsep & Hbw & _).
  - apply Forall_forall. intros j Hj. apply (Permutation_in _ HP) in Hj. apply in_seq in Hj. lia.
  - unfold sorted_is. erewrite map_ext; [exact HS|]. intros i. cbv beta.
    change 0 with (fst (0, 0)) at 3. now rewrite map_nth.
  - split; [apply repeat_length|]. split.
    { intros j Hj _. eapply Permutation_in; [symmetry; exact HP|]. apply in_seq. lia. }
    split.
    { intros j Hj Hj'. exfalso. assert (G : nth j (repeat (-1) (length a)) (-1) = -1); [|lia].
      clear. generalize (length a). intros m. revert j; induction m as [|m IH]; intros [|j]; cbn; auto. }
    repeat split; try constructor.
    + intros k Hk. now apply covers_nil in Hk.
    + intros r j [].
  - assert (Hall : forall j q, nth_error a j = Some q -> exists t r, nth_error rmap j = Some t /\ zget b t = Some r /\
     fst r <= fst q /\ snd q <= snd r).
    { intros j q Hq. assert (Hj : (j < length a)%nat) by (apply nth_error_Some; congruence).
      assert (0 <= nth j rmap (-1)).
      { destruct (Z_lt_le_dec (nth j rmap (-1)) 0) as [C|C]; [|exact C]. destruct (Hneg j Hj C). }
      destruct (Hmap j Hj H) as (r & Hr & H1 & H2). exists (nth j rmap (-1)), r.
      split; [apply nth_error_nth'; lia|]. split; [exact Hr|].
      rewrite (nth_error_nth a j (0, 0) Hq) in H1, H2. auto. }
    split; [|auto]. intros k. split; [apply Hcov|].
    intros (q & Hq & Hk). apply In_nth_error in Hq as [j Hq].
    destruct (Hall j q Hq) as (t & r & _ & Hr & H1 & H2). exists r. split; [eapply zget_In; eauto|].
    unfold inside in *. lia.
Qed.
