From Coq Require Import Qabs Lqa.
From Verif Require Import Base RangeSpec RangeModel RangeLemmas FindSpec SplitModel SplitLemmas FindModel.

Lemma pyget_Some {A} (l : list A) i : 0 <= i < zlen l -> exists x, pyget l i = Some x /\ zget l i = Some x.
Proof.
  intros H. rewrite pyget_nonneg by lia. destruct (zget_in_range l i H) as [x Hx]. eauto.
Qed.

Lemma Forall2_impl' {A B} (P R : A -> B -> Prop) l m : (forall a b, P a b -> R a b) -> Forall2 P l m -> Forall2 R l m.
Proof. intros H. induction 1; constructor; auto. Qed.

Lemma filter_length_le' {A} (f : A -> bool) l : (length (filter f l) <= length l)%nat.
Proof. induction l as [|x l IH]; cbn; [lia|]. destruct (f x); cbn; lia. Qed.

(** searchsorted on a sorted list *)
Lemma ss_left_range s v : 0 <= ss_left s v <= zlen s.
Proof.
  unfold ss_left, zlen. pose proof (filter_length_le' (fun x => x <? v) s). lia.
Qed.

Lemma ss_left_spec s v : StronglySorted Z.le s -> forall i x, zget s i = Some x -> (x < v <-> i < ss_left s v).
Proof.
  unfold ss_left. induction 1 as [|y s HS IH HF]; intros i x Hi; [rewrite zget_nil in Hi; discriminate|].
  rewrite zget_cons in Hi. cbn [filter]. destruct (y <? v) eqn:Ey.
  - rewrite zlen_cons. destruct (i =? 0) eqn:E0.
    + injection Hi as <-. pose proof (zlen_nonneg (filter (fun x => x <? v) s)). lia.
    + specialize (IH _ _ Hi). lia.
  - assert (E : filter (fun x => x <? v) s = []).
    { clear -HF Ey. induction HF as [|z s Hz HF IH]; [reflexivity|]. cbn [filter].
      destruct (z <? v) eqn:E; [lia|]. exact IH. }
    rewrite E, zlen_nil. destruct (i =? 0) eqn:E0.
    + injection Hi as <-. lia.
    + apply zget_In in Hi as Hin. apply zget_Some_range in Hi. rewrite Forall_forall in HF. specialize (HF _ Hin). lia.
Qed.

Lemma gather_zget {A} (d : A) l order i (o : nat) x : zget (map Z.of_nat order) i = Some (Z.of_nat o) ->
  nth_error l o = Some x -> zget (gather d l order) i = Some x.
Proof.
  unfold gather. intros Ho Hx. rewrite zget_map in Ho. rewrite zget_map. destruct (zget order i) as [o'|]; [|discriminate].
  cbn [option_map] in *. assert (o' = o) by (injection Ho; lia). subst. now rewrite (nth_error_nth _ _ _ Hx).
Qed.

Lemma find_one array order v : is_argsort order array -> array <> [] ->
  let c := Z.min (ss_left (gather 0 array order) v) (zlen array - 1) in
  exists r x, pyget (map Z.of_nat order) c = Some r /\ pyget array r = Some x /\ zget array r = Some x /\ (In v array <-> x = v).
Proof.
  intros [HP HS] Hne c. set (s := gather 0 array order) in *.
  assert (HPs : Permutation s array) by (apply gather_perm; exact HP).
  assert (Hlen : zlen s = zlen array) by (unfold zlen; now rewrite (Permutation_length HPs)).
  assert (Hlo : length order = length array) by (rewrite (Permutation_length HP), seq_length; reflexivity).
  assert (Hpos : 0 < zlen array) by (destruct array; [congruence|rewrite zlen_cons; pose proof (zlen_nonneg array); lia]).
  pose proof (ss_left_range s v) as Hr. fold s in c.
  assert (Hc : 0 <= c < zlen array) by (unfold c; lia).
  destruct (pyget_Some (map Z.of_nat order) c) as (r & Hr1 & Hr2).
  { rewrite zlen_map. unfold zlen in *. lia. }
  rewrite zget_map in Hr2. destruct (zget order c) as [o|] eqn:Eo; [|discriminate]. cbn in Hr2. injection Hr2 as <-.
  assert (Ho : (o < length array)%nat).
  { apply zget_In in Eo. apply (Permutation_in _ HP) in Eo. apply in_seq in Eo. lia. }
  destruct (nth_error array o) as [x|] eqn:Ex; [|apply nth_error_None in Ex; lia].
  exists (Z.of_nat o), x. split; [exact Hr1|]. split; [rewrite pyget_nonneg by lia; now rewrite zget_nth_error|].
  split; [now rewrite zget_nth_error|].
  assert (Hsc : zget s c = Some x).
  { eapply gather_zget; [|exact Ex]. rewrite zget_map, Eo. reflexivity. }
  split.
  - intros Hin. apply (Permutation_in _ (Permutation_sym HPs)) in Hin. apply In_zget in Hin as [j Hj].
    pose proof (ss_left_spec s v HS j v Hj) as Hjs. pose proof (zget_Some_range _ _ _ Hj) as Hjr.
    assert (Hcs : c = ss_left s v) by (unfold c; lia).
    pose proof (ss_left_spec s v HS c x Hsc) as Hcx.
    assert (Hge : v <= x) by lia.
    destruct (Z.eq_dec c j) as [->|Hcj]; [congruence|].
    assert (Hle : x <= v).
    { unfold zget in Hsc, Hj. destruct (c <? 0) eqn:?; [lia|]. destruct (j <? 0) eqn:?; [lia|].
      apply (SS_nth _ _ HS (Z.to_nat c) (Z.to_nat j) x v); [lia|assumption|assumption]. }
    lia.
  - intros ->. apply nth_error_In in Ex. exact Ex.
Qed.

(* positions of the good and the bad queries *)
Lemma find_all array order vals : is_argsort order array -> array <> [] ->
  exists res got, pygather (map Z.of_nat order) (find_cands array order vals) = Some res /\
    pygather array res = Some got /\ length res = length vals /\ length got = length vals /\
    Forall2 (fun v p => zget array (fst p) = Some (snd p) /\ (In v array <-> snd p = v)) vals (combine res got).
Proof.
  intros Ha Hne. unfold find_cands. induction vals as [|v vals (res & got & H1 & H2 & L1 & L2 & H3)].
  - exists [], []. cbn. repeat split; constructor.
  - destruct (find_one array order v Ha Hne) as (r & x & R1 & R2 & R3 & R4). cbn [map pygather].
    rewrite R1, H1. exists (r :: res), (x :: got). split; [reflexivity|]. cbn [pygather]. rewrite R2, H2.
    split; [reflexivity|]. split; [cbn; lia|]. split; [cbn; lia|]. cbn [combine]. constructor; [|exact H3]. cbn [fst snd]. auto.
Qed.

Lemma existsb_map_false {A B} (f : B -> bool) (g : A -> B) l : existsb f (map g l) = existsb (fun x => f (g x)) l.
Proof. induction l as [|x l IH]; cbn; [reflexivity|]. now rewrite IH. Qed.

Lemma find_spec array order vals default : is_argsort order array ->
  (forall res, find array order vals default = Some res ->
     Forall2 (fun v r => holds_at array v r \/ (~ In v array /\ default = Some r)) vals res) /\
  (array <> [] -> default <> None \/ (forall v, In v vals -> In v array) -> exists res, find array order vals default = Some res) /\
  (array = [] -> vals <> [] -> find array order vals default = None) /\
  (default = None -> (exists v, In v vals /\ ~ In v array) -> find array order vals default = None).
Proof.
  intros Ha. unfold find. destruct vals as [|v0 vs].
  { cbn. split; [intros res H; injection H as <-; constructor|]. split; [eauto|]. split; [congruence|]. intros _ (v & [] & _). }
  set (vals := v0 :: vs). assert (Hz : zlen vals =? 0 = false) by (unfold vals; rewrite zlen_cons; pose proof (zlen_nonneg vs); lia).
  rewrite Hz. destruct array as [|a0 arr0].
  { assert (E : pygather (map Z.of_nat order) (find_cands [] order vals) = None).
    { destruct Ha as [HP _]. cbn in HP. apply Permutation_sym, Permutation_nil in HP. subst order. reflexivity. }
    rewrite E. split; [discriminate|]. split; [congruence|]. split; auto. }
  set (array := a0 :: arr0) in *. assert (Hne : array <> []) by discriminate.
  destruct (find_all array order vals Ha Hne) as (res & got & H1 & H2 & L1 & L2 & H3). rewrite H1, H2.
  assert (Hbad : existsb (fun b => b) (map (fun p => negb (fst p =? snd p)) (combine got vals)) = true <->
    exists v, In v vals /\ ~ In v array).
  { rewrite existsb_map_false. clear H1 H2 Hz. revert res got L1 L2 H3. generalize vals. clear vals.
    induction vals as [|v vals IH]; intros [|r res] [|g got] L1 L2 H3; try discriminate; cbn in *.
    - split; [discriminate|]. intros (v & [] & _).
    - inversion H3 as [|? ? ? ? [Hg Hin] H3']; subst. cbn [snd] in Hin. rewrite orb_true_iff.
      rewrite (IH res got ltac:(lia) ltac:(lia) H3'). split.
      + intros [Hb|(u & Hu & Hn)]; [exists v; split; [now left|]; rewrite Hin; lia|exists u; auto].
      + intros (u & [<-|Hu] & Hn); [left; rewrite Hin in Hn; lia|right; eauto]. }
  assert (Hgood : forall d, Forall2 (fun v r => holds_at array v r \/ (~ In v array /\ Some d = Some r)) vals
     (map (fun p : Z * bool => if snd p then d else fst p) (combine res (map (fun p => negb (fst p =? snd p)) (combine got vals))))).
  { intros d. clear Hbad H1 H2 Hz. revert res got L1 L2 H3. generalize vals. clear vals.
    induction vals as [|v vals IH]; intros [|r res] [|g got] L1 L2 H3; try discriminate; cbn in *; constructor.
    - inversion H3 as [|? ? ? ? [Hg Hin] H3']; subst. cbn [fst snd] in *. destruct (g =? v) eqn:E; cbn.
      + left. unfold holds_at. rewrite Hg. f_equal. lia.
      + right. split; [rewrite Hin; lia|reflexivity].
    - inversion H3 as [|? ? ? ? [Hg Hin] H3']; subst. apply IH; [lia|lia|exact H3']. }
  destruct (existsb (fun b => b) _) eqn:Eb.
  - assert (Hex : exists v, In v vals /\ ~ In v array) by (apply Hbad; reflexivity).
    destruct default as [d|].
    + split; [intros r Hr; injection Hr as <-; apply Hgood|]. split; [eauto|]. split; [congruence|]. discriminate.
    + split; [discriminate|]. split; [|auto].
      intros _ [?|Hall]; [congruence|]. destruct Hex as (v & Hv & Hn). exfalso. apply Hn. now apply Hall.
  - assert (Hall : forall v, In v vals -> In v array).
    { intros v Hv. destruct (in_dec Z.eq_dec v array) as [Hi|Hi]; [exact Hi|]. exfalso.
      assert (false = true) by (apply Hbad; eauto). discriminate. }
    split.
    + intros r Hr. injection Hr as <-. clear -L1 L2 H3 Hall. revert res got L1 L2 H3 Hall. generalize vals. clear vals.
      induction vals as [|v vals IH]; intros [|r res] [|g got] L1 L2 H3 Hall; try discriminate; cbn in *; constructor.
      * inversion H3 as [|? ? ? ? [Hg Hin] H3']; subst. cbn [fst snd] in *. left. unfold holds_at. rewrite Hg. f_equal.
        apply Hin. apply Hall. now left.
      * inversion H3 as [|? ? ? ? [Hg Hin] H3']; subst. apply (IH _ got); auto.
    + split; [eauto|]. split; [congruence|]. intros _ (v & Hv & Hn). exfalso. apply Hn. now apply Hall.
Qed.

Lemma Forall2_filter_nonneg array vals res :
  Forall2 (fun v r => holds_at array v r \/ ~ In v array /\ Some (-1) = Some r) vals res ->
  Forall2 (holds_at array) (filter (fun v => existsb (Z.eqb v) array) vals) (filter (fun r => 0 <=? r) res).
Proof.
  induction 1 as [|v r vals res H HF IH]; cbn [filter]; [constructor|].
  destruct H as [H|[Hn H]].
  - assert (E1 : existsb (Z.eqb v) array = true).
    { apply existsb_exists. exists v. split; [eapply zget_In; exact H|lia]. }
    rewrite E1. apply zget_Some_range in H as Hr. destruct (0 <=? r) eqn:E; [|lia]. constructor; assumption.
  - injection H as <-. assert (E1 : existsb (Z.eqb v) array = false).
    { apply not_true_is_false. intros E. apply existsb_exists in E as (u & Hu & Euv). apply Hn.
      assert (v = u) by lia. now subst. }
    rewrite E1. cbn. exact IH.
Qed.

Lemma find_any_spec array order vals : is_argsort order array -> array <> [] -> vals <> [] ->
  exists res, find_any array order vals = Some res /\
    Forall2 (holds_at array) (filter (fun v => existsb (Z.eqb v) array) vals) res.
Proof.
  intros Ha Hne Hv. unfold find_any. assert (Hz : zlen vals =? 0 = false).
  { destruct vals; [congruence|]. rewrite zlen_cons. pose proof (zlen_nonneg vals). lia. }
  rewrite Hz. destruct (find_spec array order vals (Some (-1)) Ha) as (Hs & Ht & _ & _).
  destruct Ht as [res Hres]; [exact Hne|left; discriminate|]. rewrite Hres. eexists. split; [reflexivity|].
  apply Forall2_filter_nonneg. exact (Hs _ Hres).
Qed.

(** contains *)
Lemma contains_spec array vals svals : Permutation svals vals -> StronglySorted Z.le svals -> vals <> [] ->
  contains array svals = Some (map (fun x => existsb (Z.eqb x) vals) array).
Proof.
  intros HP HS Hne. unfold contains.
  assert (Hpos : 0 < zlen svals).
  { unfold zlen. rewrite (Permutation_length HP). destruct vals; [congruence|cbn; lia]. }
  induction array as [|x array IH]; [reflexivity|]. cbn [map pygather].
  set (i := if zlen svals <=? ss_left svals x then 0 else ss_left svals x).
  pose proof (ss_left_range svals x) as Hr.
  assert (Hi : 0 <= i < zlen svals) by (unfold i; destruct (zlen svals <=? ss_left svals x) eqn:E; lia).
  destruct (pyget_Some svals i Hi) as (y & Hy1 & Hy2). rewrite Hy1.
  set (rest := pygather svals _) in *. destruct rest as [got|]; [|discriminate].
  cbn [combine map fst snd]. apply Some_inj in IH. rewrite IH. f_equal. f_equal.
  assert (Hiff : existsb (Z.eqb x) vals = true <-> In x svals).
  { rewrite existsb_exists. split.
    - intros (u & Hu & E). apply (Permutation_in _ (Permutation_sym HP)). assert (x = u) by lia. now subst.
    - intros Hu. exists x. split; [now apply (Permutation_in _ HP)|lia]. }
  destruct (y =? x) eqn:Eyx.
  - symmetry. apply Hiff. assert (y = x) by lia. subst y. eapply zget_In; eauto.
  - symmetry. apply not_true_is_false. rewrite Hiff. intros Hin. apply In_zget in Hin as [j Hj].
    pose proof (ss_left_spec svals x HS j x Hj). pose proof (zget_Some_range _ _ _ Hj).
    assert (Ei : i = ss_left svals x) by (unfold i; destruct (zlen svals <=? ss_left svals x) eqn:E; lia).
    pose proof (ss_left_spec svals x HS i y Hy2).
    assert (y <= x).
    { destruct (Z.eq_dec i j) as [Hij|Hij]; [rewrite Hij, Hj in Hy2; injection Hy2; lia|].
      unfold zget in Hy2, Hj. destruct (i <? 0) eqn:?; [lia|]. destruct (j <? 0) eqn:?; [lia|].
      enough (y <= x) by lia.
      apply (SS_nth _ _ HS (Z.to_nat i) (Z.to_nat j) y x); [lia|assumption|assumption]. }
    lia.
Qed.

(** nearest_ind *)
Lemma ss_left_q_range s v : 0 <= ss_left_q s v <= zlen s.
Proof. unfold ss_left_q, zlen. pose proof (filter_length_le' (fun x => qltb x v) s). lia. Qed.

Lemma ss_left_q_spec s v : StronglySorted Qle s -> forall i x, zget s i = Some x ->
  (i < ss_left_q s v -> (x < v)%Q) /\ (ss_left_q s v <= i -> (v <= x)%Q).
Proof.
  unfold ss_left_q. induction 1 as [|y s HS IH HF]; intros i x Hi; [rewrite zget_nil in Hi; discriminate|].
  pose proof (zget_Some_range _ _ _ Hi) as Hir.
  rewrite zget_cons in Hi. cbn [filter]. destruct (qltb_spec y v) as [Ey|Ey].
  - rewrite zlen_cons. destruct (i =? 0) eqn:E0.
    + injection Hi as <-. pose proof (zlen_nonneg (filter (fun x => qltb x v) s)). split; [intros; lra|lia].
    + specialize (IH _ _ Hi). split; intros; apply IH; lia.
  - assert (E : filter (fun x => qltb x v) s = []).
    { clear -HF Ey. induction HF as [|z s Hz HF IH]; [reflexivity|]. cbn [filter].
      destruct (qltb_spec z v) as [E|E]; [lra|]. exact IH. }
    rewrite E, zlen_nil. split; [lia|]. intros _. destruct (i =? 0) eqn:E0.
    + injection Hi as <-. lra.
    + apply zget_In in Hi as Hin. rewrite Forall_forall in HF. specialize (HF _ Hin). lra.
Qed.

Lemma Qabs_cases a : (0 <= a /\ Qabs a == a \/ a <= 0 /\ Qabs a == - a)%Q.
Proof.
  destruct (Qlt_le_dec a 0) as [H|H].
  - right. split; [lra|]. apply Qabs_neg. lra.
  - left. split; [lra|]. now apply Qabs_pos.
Qed.

Lemma SSq_le s : StronglySorted Qle s -> forall i j x y, i <= j -> zget s i = Some x -> zget s j = Some y -> (x <= y)%Q.
Proof.
  intros HS i j x y Hij Hi Hj. destruct (Z.eq_dec i j) as [->|Hne].
  - rewrite Hi in Hj. injection Hj as ->. lra.
  - pose proof (zget_Some_range _ _ _ Hi). pose proof (zget_Some_range _ _ _ Hj).
    unfold zget in Hi, Hj. destruct (i <? 0) eqn:?; [lia|]. destruct (j <? 0) eqn:?; [lia|].
    apply (SS_nth _ _ HS (Z.to_nat i) (Z.to_nat j) x y); [lia|assumption|assumption].
Qed.

Lemma nearest_one_spec arr v : StronglySorted Qle arr -> arr <> [] ->
  exists i x, nearest_one arr v = Some i /\ pyget arr i = Some x /\ is_nearest arr v x /\ -1 <= i < zlen arr /\ (2 <= zlen arr -> 0 <= i).
Proof.
  intros HS Hne. assert (Hpos : 0 < zlen arr).
  { destruct arr; [congruence|]. rewrite zlen_cons. pose proof (zlen_nonneg arr). lia. }
  unfold nearest_one. set (i := Z.min (zlen arr - 1) (Z.max (ss_left_q arr v) 1)).
  destruct (Z.eq_dec (zlen arr) 1) as [E1|E1].
  - destruct arr as [|x [|x2 arr]]; [congruence| |rewrite !zlen_cons in E1; pose proof (zlen_nonneg arr); lia].
    assert (Ei : i = 0) by (unfold i; rewrite E1; lia). rewrite Ei.
    change (pyget [x] (0 - 1)) with (Some x). change (pyget [x] 0) with (Some x).
    assert (Ele : Qle_bool (Qabs (x - v)) (Qabs (x - v)) = true) by (apply Qle_bool_iff; lra).
    cbv beta iota. rewrite Ele. exists (-1), x. split; [reflexivity|]. split; [reflexivity|]. split; [|rewrite E1; lia].
    split; [now left|]. intros y [<-|[]]. lra.
  - pose proof (ss_left_q_range arr v) as Hr.
    assert (Hi : 1 <= i < zlen arr) by (unfold i; lia).
    destruct (pyget_Some arr (i - 1) ltac:(lia)) as (a & Ha1 & Ha2). destruct (pyget_Some arr i ltac:(lia)) as (b & Hb1 & Hb2).
    rewrite Ha1, Hb1.
    assert (Hab : (a <= b)%Q) by (apply (SSq_le _ HS (i - 1) i); [lia|assumption|assumption]).
    assert (Hleft : forall y k, zget arr k = Some y -> k <= i - 1 -> (y <= a)%Q).
    { intros y k Hk Hle. exact (SSq_le _ HS k (i - 1) y a Hle Hk Ha2). }
    assert (Hright : forall y k, zget arr k = Some y -> i <= k -> (b <= y)%Q).
    { intros y k Hk Hle. exact (SSq_le _ HS i k b y Hle Hb2 Hk). }
    assert (Hbr : (a <= v)%Q \/ (v < a)%Q /\ forall y k, zget arr k = Some y -> k <= i - 1 -> (y == a)%Q).
    { destruct (Z_le_gt_dec i (ss_left_q arr v)) as [Hle|Hgt].
      - left. pose proof (ss_left_q_spec arr v HS (i - 1) a Ha2) as [G _]. specialize (G ltac:(lia)). lra.
      - assert (Ei : i = 1) by (unfold i in *; lia).
        destruct (Qlt_le_dec v a) as [H|H]; [right|now left]. split; [exact H|].
        intros y k Hk Hle. pose proof (zget_Some_range _ _ _ Hk). assert (k = i - 1) by lia. subst k. rewrite Ha2 in Hk. injection Hk as ->. reflexivity. }
    assert (Hbl : (v <= b)%Q \/ (b < v)%Q /\ forall y k, zget arr k = Some y -> i <= k -> (y == b)%Q).
    { destruct (Z_le_gt_dec (ss_left_q arr v) i) as [Hle|Hgt].
      - left. pose proof (ss_left_q_spec arr v HS i b Hb2) as [_ G]. apply G. lia.
      - assert (Ei : i = zlen arr - 1) by (unfold i in *; lia).
        destruct (Qlt_le_dec b v) as [H|H]; [right|now left]. split; [exact H|].
        intros y k Hk Hle. pose proof (zget_Some_range _ _ _ Hk). assert (k = i) by lia. subst k. rewrite Hb2 in Hk. injection Hk as ->. reflexivity. }
    assert (Hmin : forall y, In y arr -> (Qabs (a - v) <= Qabs (y - v) \/ Qabs (b - v) <= Qabs (y - v))%Q).
    { intros y Hy. apply In_zget in Hy as [k Hk].
      destruct (Z_le_gt_dec k (i - 1)) as [Hle|Hgt].
      - specialize (Hleft _ _ Hk Hle). left. destruct Hbr as [Hav|[Hva Heq]].
        + destruct (Qabs_cases (a - v)) as [[? E]|[? E]], (Qabs_cases (y - v)) as [[? E']|[? E']]; lra.
        + specialize (Heq _ _ Hk Hle).
          destruct (Qabs_cases (a - v)) as [[? E]|[? E]], (Qabs_cases (y - v)) as [[? E']|[? E']]; lra.
      - assert (Hge : i <= k) by lia. specialize (Hright _ _ Hk Hge). right. destruct Hbl as [Hvb|[Hbv Heq]].
        + destruct (Qabs_cases (b - v)) as [[? E]|[? E]], (Qabs_cases (y - v)) as [[? E']|[? E']]; lra.
        + specialize (Heq _ _ Hk Hge).
          destruct (Qabs_cases (b - v)) as [[? E]|[? E]], (Qabs_cases (y - v)) as [[? E']|[? E']]; lra. }
    destruct (Qle_bool (Qabs (a - v)) (Qabs (b - v))) eqn:Ele.
    + apply Qle_bool_iff in Ele. exists (i - 1), a. split; [reflexivity|]. split; [exact Ha1|]. split; [|lia].
      split; [eapply zget_In; eauto|]. intros y Hy. unfold qdist. destruct (Hmin y Hy); lra.
    + assert (Hlt : (Qabs (b - v) < Qabs (a - v))%Q).
      { apply Qnot_le_lt. intros H. apply Qle_bool_iff in H. congruence. }
      exists i, b. split; [reflexivity|]. split; [exact Hb1|]. split; [|lia].
      split; [eapply zget_In; eauto|]. intros y Hy. unfold qdist. destruct (Hmin y Hy); lra.
Qed.

Lemma nearest_all_spec arr vals : StronglySorted Qle arr -> arr <> [] ->
  exists res, nearest_all arr vals = Some res /\
    Forall2 (fun v i => -1 <= i < zlen arr /\ exists x, pyget arr i = Some x /\ is_nearest arr v x) vals res.
Proof.
  intros HS Hne. induction vals as [|v vals (res & H1 & H2)]; [exists []; split; [reflexivity|constructor]|].
  destruct (nearest_one_spec arr v HS Hne) as (i & x & Hi & Hx & Hn & Hr & _). cbn [nearest_all]. rewrite Hi, H1.
  exists (i :: res). split; [reflexivity|]. constructor; [|exact H2]. split; [exact Hr|]. eauto.
Qed.

Lemma is_nearest_perm arr arr' v x : Permutation arr arr' -> is_nearest arr v x -> is_nearest arr' v x.
Proof.
  intros HP [Hin Hmin]. split; [now apply (Permutation_in _ HP)|]. intros y Hy. apply Hmin.
  now apply (Permutation_in _ (Permutation_sym HP)).
Qed.

Lemma nearest_unsorted_spec arr order vals : is_argsort_q order arr -> arr <> [] ->
  exists res, nearest_ind_unsorted arr order vals = Some res /\
    Forall2 (fun v i => exists x, zget arr i = Some x /\ is_nearest arr v x) vals res.
Proof.
  intros [HP HS] Hne. unfold nearest_ind_unsorted. change (map (fun i => nth i arr 0%Q) order) with (gather 0%Q arr order) in HS.
  assert (HPs : Permutation (gather 0%Q arr order) arr) by (apply gather_perm; exact HP).
  destruct (nearest_all_spec (gather 0%Q arr order) vals HS) as (inds & H1 & H2).
  { intros E. rewrite E in HPs. apply Permutation_nil in HPs. congruence. }
  rewrite H1. clear H1. induction H2 as [|v i vals inds [Hr (x & Hx & Hn)] HF (res & R1 & R2)]; [exists []; split; [reflexivity|constructor]|].
  cbn [pygather]. rewrite R1. unfold pyget in Hx |- *.
  assert (Hlo : zlen order = zlen (gather 0%Q arr order)) by (unfold gather; now rewrite zlen_map).
  rewrite zlen_map, Hlo. set (k := if i <? 0 then i + zlen (gather 0%Q arr order) else i) in *.
  unfold gather in Hx. rewrite zget_map in Hx. rewrite zget_map. destruct (zget order k) as [o|] eqn:Eo; [|discriminate]. cbn [option_map] in *.
  exists (Z.of_nat o :: res). split; [reflexivity|]. constructor; [|exact R2]. exists x. split.
  - rewrite zget_nth_error. apply zget_In in Eo. apply (Permutation_in _ HP) in Eo. apply in_seq in Eo.
    injection Hx as <-. apply nth_error_nth'. lia.
  - eapply is_nearest_perm; eauto.
Qed.

(** common_inds *)
Lemma ins_uniq_In x l y : In y (ins_uniq x l) <-> y = x \/ In y l.
Proof.
  induction l as [|z l IH]; cbn [ins_uniq].
  - cbn. intuition.
  - destruct (x <? z) eqn:E1; [cbn; intuition|]. destruct (x =? z) eqn:E2.
    + assert (x = z) by lia. subst. cbn. intuition.
    + cbn [In]. rewrite IH. intuition.
Qed.
Lemma np_unique_In l y : In y (np_unique l) <-> In y l.
Proof. induction l as [|x l IH]; cbn [np_unique fold_right]; [reflexivity|]. rewrite ins_uniq_In. fold (np_unique l). rewrite IH. cbn. intuition. Qed.

Lemma intersect1d_In a b y : In y (intersect1d a b) <-> In y a /\ In y b.
Proof.
  unfold intersect1d. rewrite filter_In, np_unique_In, existsb_exists. split.
  - intros [H (u & Hu & E)]. assert (y = u) by lia. subst. auto.
  - intros [H1 H2]. split; [exact H1|]. exists y. split; [exact H2|lia].
Qed.

Lemma ins_uniq_sorted x l : StronglySorted Z.lt l -> StronglySorted Z.lt (ins_uniq x l).
Proof.
  induction 1 as [|z l HS IH HF]; cbn [ins_uniq]; [repeat constructor|].
  destruct (x <? z) eqn:E1.
  - constructor; [now constructor|]. constructor; [lia|]. eapply Forall_impl; [|exact HF]. cbn. intros; lia.
  - destruct (x =? z) eqn:E2; [now constructor|]. constructor; [exact IH|].
    apply Forall_forall. intros y Hy. apply ins_uniq_In in Hy as [->|Hy]; [lia|]. rewrite Forall_forall in HF. now apply HF.
Qed.

Lemma SS_filter {A} (R : A -> A -> Prop) f l : StronglySorted R l -> StronglySorted R (filter f l).
Proof.
  induction 1 as [|z l HS IH HF]; cbn [filter]; [constructor|]. destruct (f z); [|exact IH].
  constructor; [exact IH|]. apply Forall_forall. intros y Hy. apply filter_In in Hy as [Hy _]. rewrite Forall_forall in HF. now apply HF.
Qed.

Lemma intersect1d_sorted a b : StronglySorted Z.lt (intersect1d a b).
Proof.
  unfold intersect1d. apply SS_filter. induction a as [|x a IH]; cbn [np_unique fold_right]; [constructor|]. now apply ins_uniq_sorted.
Qed.

Lemma common_fold_In rest : forall a y, In y (fold_left intersect1d rest a) <-> In y a /\ Forall (In y) rest.
Proof.
  induction rest as [|b rest IH]; intros a y; cbn [fold_left].
  - intuition.
  - rewrite IH, intersect1d_In. split.
    + intros [[H1 H2] H3]. auto.
    + intros [H1 H2]. inversion H2; subst. auto.
Qed.

Lemma common_fold_sorted rest : forall a b, StronglySorted Z.lt (fold_left intersect1d (b :: rest) a).
Proof.
  induction rest as [|c rest IH]; intros a b; cbn [fold_left]; [apply intersect1d_sorted|]. apply (IH (intersect1d a b) c).
Qed.

Lemma find_each_spec vals : forall arrs orders, Forall2 is_argsort orders arrs ->
  Forall (fun a => forall v, In v vals -> In v a) arrs ->
  exists res, find_each arrs orders vals = Some res /\ Forall2 (fun a r => Forall2 (holds_at a) vals r) arrs res.
Proof.
  induction arrs as [|a arrs IH]; intros orders HF Hin; inversion HF as [|o ? orders' ? Ho HF']; subst; cbn [find_each].
  - exists []. split; [reflexivity|constructor].
  - inversion Hin as [|? ? Ha Hin']; subst. destruct (IH _ HF' Hin') as (res & H1 & H2).
    destruct (find_spec a o vals None Ho) as (Hs & Ht & _).
    assert (Hex : exists r, find a o vals None = Some r).
    { destruct a as [|a0 a]; [|apply Ht; [discriminate|right; exact Ha]].
      destruct vals as [|v vals]; [exists []; reflexivity|]. destruct (Ha v (or_introl eq_refl)). }
    destruct Hex as [r Hr]. rewrite Hr, H1. eexists. split; [reflexivity|]. constructor; [|exact H2].
    apply Hs in Hr. eapply Forall2_impl'; [|exact Hr]. intros v i [H|[_ H]]; [exact H|discriminate].
Qed.

Lemma common_inds_spec arrs orders : Forall2 is_argsort orders arrs -> arrs <> [] ->
  exists vals res, common_vals arrs = Some vals /\ common_inds arrs orders = Some res /\
    (forall v, In v vals <-> Forall (In v) arrs) /\
    ((2 <= length arrs)%nat -> StronglySorted Z.lt vals) /\
    Forall2 (fun a r => Forall2 (holds_at a) vals r) arrs res.
Proof.
  intros HF Hne. destruct arrs as [|a rest]; [congruence|]. unfold common_inds. cbn [common_vals].
  set (vals := fold_left intersect1d rest a).
  assert (Hv : forall v, In v vals <-> Forall (In v) (a :: rest)).
  { intros v. unfold vals. rewrite common_fold_In. split; [intros []; now constructor|intros H; inversion H; auto]. }
  destruct (find_each_spec vals (a :: rest) orders HF) as (res & H1 & H2).
  { apply Forall_forall. intros x Hx v Hvv. apply Hv in Hvv. rewrite Forall_forall in Hvv. now apply Hvv. }
  exists vals, res. split; [reflexivity|]. split; [exact H1|]. split; [exact Hv|]. split; [|exact H2].
  intros Hl. destruct rest as [|b rest]; [cbn in Hl; lia|]. unfold vals. apply common_fold_sorted.
Qed.

(** inverse_order *)
Lemma scatter_length {A} idx : forall (l vals : list A), length (scatter l idx vals) = length l.
Proof. induction idx as [|i idx IH]; intros l [|v vals]; cbn [scatter]; auto. now rewrite IH, upd_length. Qed.

Lemma scatter_other {A} (d : A) idx : forall l vals j, ~ In j idx -> Forall (fun i => (i < length l)%nat) idx ->
  nth j (scatter l idx vals) d = nth j l d.
Proof.
  induction idx as [|i idx IH]; intros l [|v vals] j Hj HF; cbn [scatter]; auto.
  inversion HF; subst. rewrite IH.
  - rewrite upd_nth by assumption. destruct (Nat.eqb i j) eqn:E; [apply Nat.eqb_eq in E; subst; exfalso; apply Hj; now left|reflexivity].
  - intros H. apply Hj. now right.
  - eapply Forall_impl; [|eassumption]. cbn. intros; now rewrite upd_length.
Qed.

Lemma scatter_nth {A} (d : A) idx : forall l vals k, NoDup idx -> Forall (fun i => (i < length l)%nat) idx ->
  (k < length idx)%nat -> (k < length vals)%nat -> nth (nth k idx 0%nat) (scatter l idx vals) d = nth k vals d.
Proof.
  induction idx as [|i idx IH]; intros l [|v vals] k HN HF Hk Hk'; cbn [length] in *; try lia.
  inversion HN as [|? ? Hni HN']; subst. inversion HF as [|? ? Hi HF']; subst. cbn [scatter].
  assert (HF2 : Forall (fun i0 => (i0 < length (upd l i v))%nat) idx).
  { eapply Forall_impl; [|exact HF']. cbn. intros; now rewrite upd_length. }
  destruct k as [|k]; cbn [nth].
  - rewrite scatter_other by assumption. rewrite upd_nth by assumption. now rewrite Nat.eqb_refl.
  - apply IH; auto; lia.
Qed.

Lemma inverse_order_nth garbage order k : Permutation order (seq 0 (length order)) -> length garbage = length order ->
  (k < length order)%nat -> nth (nth k order 0%nat) (inverse_order garbage order) 0%nat = k.
Proof.
  intros HP HL Hk. unfold inverse_order. rewrite scatter_nth.
  - rewrite seq_nth by exact Hk. reflexivity.
  - eapply Permutation_NoDup; [exact (Permutation_sym HP)|apply seq_NoDup].
  - apply Forall_forall. intros i Hi. apply (Permutation_in _ HP) in Hi. apply in_seq in Hi. lia.
  - exact Hk.
  - now rewrite seq_length.
Qed.

Lemma inverse_order_spec {A} (d : A) garbage order (a : list A) :
  Permutation order (seq 0 (length a)) -> length garbage = length a ->
  let inv := inverse_order garbage order in
  Permutation inv (seq 0 (length a)) /\
  gather d (gather d a order) inv = a /\ gather d (gather d a inv) order = a.
Proof.
  intros HP HL inv. assert (Hlo : length order = length a) by (rewrite (Permutation_length HP), seq_length; reflexivity).
  assert (HP' : Permutation order (seq 0 (length order))) by (now rewrite Hlo).
  assert (Hli : length inv = length a) by (unfold inv, inverse_order; now rewrite scatter_length).
  assert (Hk : forall k, (k < length a)%nat -> nth (nth k order 0%nat) inv 0%nat = k).
  { intros k Hk. apply inverse_order_nth; [exact HP'|lia|lia]. }
  assert (Hord : forall k, (k < length a)%nat -> (nth k order 0 < length a)%nat).
  { intros k Hk'. assert (Hin : In (nth k order 0%nat) order) by (apply nth_In; lia).
    apply (Permutation_in _ HP) in Hin. apply in_seq in Hin. lia. }
  assert (Hsurj : forall j, (j < length a)%nat -> exists k, (k < length a)%nat /\ nth k order 0%nat = j).
  { intros j Hj. assert (Hin : In j order) by (apply (Permutation_in _ (Permutation_sym HP)); apply in_seq; lia).
    apply (In_nth _ _ 0%nat) in Hin as (k & Hk' & E). exists k. split; [lia|exact E]. }
  assert (Hinv : forall j, (j < length a)%nat -> (nth j inv 0 < length a)%nat /\ nth (nth j inv 0%nat) order 0%nat = j).
  { intros j Hj. destruct (Hsurj j Hj) as (k & Hk' & E). rewrite <- E at 1 2. rewrite (Hk k Hk'). split; [exact Hk'|exact E]. }
  split; [|split].
  - apply NoDup_Permutation_bis.
    + apply (NoDup_nth inv 0%nat). intros i j Hi Hj E. destruct (Hinv i ltac:(lia)) as [_ E1]. destruct (Hinv j ltac:(lia)) as [_ E2].
      rewrite <- E1, <- E2, E. reflexivity.
    + rewrite seq_length. lia.
    + intros x Hx. apply (In_nth _ _ 0%nat) in Hx as (j & Hj & <-). apply in_seq. pose proof (Hinv j ltac:(lia)). lia.
  - apply (nth_ext _ _ d d); [unfold gather; rewrite map_length; lia|].
    intros j Hj. unfold gather in *. rewrite map_length in Hj.
    destruct (Hinv j ltac:(lia)) as [H1 H2].
    rewrite (nth_indep _ d (nth 0%nat (map (fun i => nth i a d) order) d)) by (rewrite map_length; lia).
    rewrite (map_nth (fun i => nth i (map (fun i => nth i a d) order) d)).
    rewrite (nth_indep _ d (nth 0%nat a d)) by (rewrite map_length; lia).
    rewrite (map_nth (fun i => nth i a d)). now rewrite H2.
  - apply (nth_ext _ _ d d); [unfold gather; rewrite map_length; lia|].
    intros j Hj. unfold gather in *. rewrite map_length in Hj.
    rewrite (nth_indep _ d (nth 0%nat (map (fun i => nth i a d) inv) d)) by (rewrite map_length; lia).
    rewrite (map_nth (fun i => nth i (map (fun i => nth i a d) inv) d)).
    rewrite (nth_indep _ d (nth 0%nat a d)) by (rewrite map_length; pose proof (Hord j ltac:(lia)); lia).
    rewrite (map_nth (fun i => nth i a d)). now rewrite (Hk j) by lia.
Qed.

(** complement_inds *)
Lemma where_from_In l : forall k j, In j (where_from k l) <-> zget l (j - k) = Some true.
Proof.
  induction l as [|b l IH]; intros k j; cbn [where_from]; [rewrite zget_nil; cbn; intuition discriminate|].
  rewrite in_app_iff, IH, zget_cons. destruct (j - k =? 0) eqn:E.
  - replace (j - (k + 1)) with (-1) by lia. rewrite (zget_out l (-1)) by lia. destruct b; cbn; intuition (try discriminate; try lia).
  - replace (j - (k + 1)) with (j - k - 1) by lia. destruct b; cbn; intuition lia.
Qed.

Lemma where_from_sorted l : forall k, StronglySorted Z.lt (where_from k l) /\ Forall (fun j => k <= j) (where_from k l).
Proof.
  induction l as [|b l IH]; intros k; cbn [where_from]; [split; constructor|].
  destruct (IH (k + 1)) as [H1 H2].
  assert (H3 : Forall (fun j => k <= j) (where_from (k + 1) l)) by (eapply Forall_impl; [|exact H2]; cbn; intros; lia).
  destruct b; cbn [app]; [|auto]. split; constructor; auto; [|lia].
  eapply Forall_impl; [|exact H2]. cbn. intros; lia.
Qed.

Lemma zget_upd {A} (l : list A) i k v : (i < length l)%nat -> zget (upd l i v) k = if k =? Z.of_nat i then Some v else zget l k.
Proof.
  revert i k; induction l as [|x l IH]; intros i k H; [cbn in H; lia|]. destruct i as [|i]; cbn [upd].
  - rewrite !zget_cons. destruct (k =? 0) eqn:E, (k =? Z.of_nat 0) eqn:E'; try reflexivity; lia.
  - rewrite !zget_cons, IH by (cbn in H; lia). destruct (k =? 0) eqn:E, (k =? Z.of_nat (S i)) eqn:E', (k - 1 =? Z.of_nat i) eqn:E2; try reflexivity; lia.
Qed.

Lemma mask_clear_spec inds : forall mask, Forall (fun i => 0 <= i < zlen mask) inds ->
  exists m, mask_clear mask inds = Some m /\ zlen m = zlen mask /\
    forall k, zget m k = Some true <-> zget mask k = Some true /\ ~ In k inds.
Proof.
  induction inds as [|i inds IH]; intros mask HF; cbn [mask_clear].
  - exists mask. cbn. intuition.
  - inversion HF as [|? ? Hi HF']; subst. destruct (i <? 0) eqn:E0; [lia|].
    destruct ((0 <=? i) && (i <? zlen mask)) eqn:E; [|lia].
    assert (Hl : zlen (upd mask (Z.to_nat i) false) = zlen mask) by (unfold zlen; now rewrite upd_length).
    destruct (IH (upd mask (Z.to_nat i) false)) as (m & H1 & H2 & H3); [rewrite Hl; exact HF'|].
    exists m. split; [exact H1|]. split; [lia|]. intros k. rewrite H3, zget_upd by (unfold zlen in Hi; lia).
    destruct (k =? Z.of_nat (Z.to_nat i)) eqn:Ek; cbn [In].
    + split; [intros [? ?]; congruence|]. intros [_ H]. exfalso. apply H. left. lia.
    + split; [intros [? ?]; split; [assumption|]; intros [?|?]; [lia|auto]|]. intros [? H]. split; [assumption|]. intros ?. apply H. now right.
Qed.

Lemma zget_repeat {A} (x : A) n k : zget (repeat x n) k = if (0 <=? k) && (k <? Z.of_nat n) then Some x else None.
Proof.
  destruct ((0 <=? k) && (k <? Z.of_nat n)) eqn:E.
  - unfold zget. destruct (k <? 0) eqn:E0; [lia|]. apply nth_error_repeat. lia.
  - apply zget_out. unfold zlen. rewrite repeat_length. lia.
Qed.

Lemma complement_list_spec inds n : Forall (fun i => 0 <= i < Z.of_nat n) inds ->
  exists r, option_map (where_from 0) (mask_clear (repeat true n) inds) = Some r /\ StronglySorted Z.lt r /\
    forall k, In k r <-> 0 <= k < Z.of_nat n /\ ~ In k inds.
Proof.
  intros HF. destruct (mask_clear_spec inds (repeat true n)) as (m & H1 & H2 & H3).
  { unfold zlen. rewrite repeat_length. exact HF. }
  rewrite H1. cbn [option_map]. eexists. split; [reflexivity|]. split; [apply where_from_sorted|].
  intros k. rewrite where_from_In, Z.sub_0_r, H3, zget_repeat.
  destruct ((0 <=? k) && (k <? Z.of_nat n)) eqn:E; intuition (try discriminate; try lia).
Qed.

(** unmask *)
Lemma put_masked_length {A} (fill : A) mask : forall arr, length (put_masked fill mask arr) = length mask.
Proof. induction mask as [|[] mask IH]; intros arr; cbn [put_masked]; [reflexivity| |]; [destruct arr; cbn; now rewrite IH|cbn; now rewrite IH]. Qed.

Lemma select_length {A} mask : forall (l : list A), length l = length mask -> length (select mask l) = length (filter (fun b => b) mask).
Proof.
  induction mask as [|b mask IH]; intros [|x l] H; try discriminate; [reflexivity|]. cbn [select filter].
  destruct b; cbn [length]; rewrite IH by (cbn in H; lia); reflexivity.
Qed.

Lemma select_put {A} (fill : A) mask : forall arr, length arr = length (filter (fun b => b) mask) ->
  select mask (put_masked fill mask arr) = arr.
Proof.
  induction mask as [|[] mask IH]; intros arr H; cbn [put_masked select filter length] in *.
  - destruct arr; [reflexivity|discriminate].
  - destruct arr as [|x arr]; [discriminate|]. f_equal. apply IH. cbn in H. lia.
  - now apply IH.
Qed.

Lemma put_select {A} (fill : A) mask : forall l k b, length l = length mask -> nth_error mask k = Some b ->
  nth_error (put_masked fill mask (select mask l)) k = if b then nth_error l k else Some fill.
Proof.
  induction mask as [|c mask IH]; intros [|x l] k b H Hk; try discriminate; [destruct k; discriminate|].
  cbn [select]. destruct k as [|k]; cbn [nth_error] in *.
  - injection Hk as ->. destruct b; reflexivity.
  - destruct c; cbn [put_masked nth_error]; apply IH; auto.
Qed.

Lemma unmask_spec {A} (fill : A) mask arr : length arr = length (filter (fun b => b) mask) ->
  exists r, unmask arr mask fill = Some r /\ length r = length mask /\ select mask r = arr /\
    forall k, nth_error mask k = Some false -> nth_error r k = Some fill.
Proof.
  intros H. unfold unmask. rewrite H, Nat.eqb_refl. eexists. split; [reflexivity|]. split; [apply put_masked_length|].
  split; [now apply select_put|]. intros k Hk.
  rewrite <- (select_put fill mask arr H) at 1.
  rewrite (put_select fill mask (put_masked fill mask arr) k false); auto. apply put_masked_length.
Qed.

Lemma unmask_select {A} (fill : A) mask l : length l = length mask ->
  exists r, unmask (select mask l) mask fill = Some r /\ length r = length mask /\
    forall k b, nth_error mask k = Some b -> nth_error r k = if b then nth_error l k else Some fill.
Proof.
  intros H. unfold unmask. rewrite (select_length mask l H), Nat.eqb_refl. eexists. split; [reflexivity|].
  split; [apply put_masked_length|]. intros k b Hk. now apply put_select.
Qed.

(** listsplit: structural version *)
Fixpoint split_at (elem : Z) (l : list Z) : list (list Z) :=
  match l with
  | [] => [[]]
  | x :: l => if elem =? x then [] :: split_at elem l
              else match split_at elem l with [] => [[x]] | p :: rest => (x :: p) :: rest end
  end.

Lemma split_at_nonnil elem l : split_at elem l <> [].
Proof. destruct l as [|x l]; cbn [split_at]; [discriminate|]. destruct (elem =? x); [discriminate|]. destruct (split_at elem l); discriminate. Qed.

Lemma where_shift l : forall k, where_from (k + 1) l = map (fun i => i + 1) (where_from k l).
Proof. induction l as [|b l IH]; intros k; cbn [where_from]; [reflexivity|]. rewrite map_app, IH. destruct b; reflexivity. Qed.

Definition piece (s : list Z) (r : Z * Z) : list Z := firstn (Z.to_nat (snd r - fst r)) (skipn (Z.to_nat (fst r)) s).
Definition cuts (elem : Z) (s : list Z) : list Z := where_from 0 (map (Z.eqb elem) s).

Lemma combine_shift (a b : list Z) : combine (map (fun i => i + 1) a) (map (fun i => i + 1) b) = map (fun r => (fst r + 1, snd r + 1)) (combine a b).
Proof. revert b; induction a as [|x a IH]; intros [|y b]; cbn; [reflexivity..|]. now rewrite IH. Qed.

Lemma piece_shift x s r : 0 <= fst r -> piece (x :: s) (fst r + 1, snd r + 1) = piece s r.
Proof.
  intros H. unfold piece. cbn [fst snd]. replace (snd r + 1 - (fst r + 1)) with (snd r - fst r) by lia.
  replace (Z.to_nat (fst r + 1)) with (S (Z.to_nat (fst r))) by lia. reflexivity.
Qed.

Lemma cuts_nonneg elem s : Forall (fun i => 0 <= i) (cuts elem s).
Proof. apply (where_from_sorted (map (Z.eqb elem) s) 0). Qed.

Lemma combine_nonneg a : Forall (fun i => 0 <= i) a -> forall (b : list Z) r, In r (combine (0 :: map (fun i => i + 1) a) b) -> 0 <= fst r.
Proof.
  intros H b [x y] Hr. apply in_combine_l in Hr. cbn [fst]. destruct Hr as [<-|Hr]; [lia|].
  apply in_map_iff in Hr as (i & <- & Hi). rewrite Forall_forall in H. specialize (H i Hi). lia.
Qed.

Lemma listsplit_split s elem : listsplit s elem = split_at elem s.
Proof.
  change (map (piece s) (combine (0 :: map (fun i => i + 1) (cuts elem s)) (cuts elem s ++ [zlen s])) = split_at elem s).
  induction s as [|x s IH]; [reflexivity|]. cbn [split_at].
  assert (Hc : cuts elem (x :: s) = (if elem =? x then [0] else []) ++ map (fun i => i + 1) (cuts elem s)).
  { unfold cuts. cbn [map where_from]. rewrite <- where_shift. reflexivity. }
  assert (He : map (fun i => i + 1) (cuts elem s) ++ [zlen (x :: s)] = map (fun i => i + 1) (cuts elem s ++ [zlen s])).
  { rewrite map_app. cbn [map]. rewrite zlen_cons. do 2 f_equal. lia. }
  assert (Hs : forall l, (forall r, In r l -> 0 <= fst r) -> map (piece (x :: s)) (map (fun r => (fst r + 1, snd r + 1)) l) = map (piece s) l).
  { intros l Hl. rewrite map_map. apply map_ext_in. intros r Hr. apply piece_shift. now apply Hl. }
  rewrite Hc. destruct (elem =? x) eqn:E; cbn [app].
  - rewrite He. rewrite <- IH, <- (Hs (combine (0 :: map (fun i => i + 1) (cuts elem s)) (cuts elem s ++ [zlen s]))) by (apply combine_nonneg, cuts_nonneg).
    rewrite <- combine_shift. reflexivity.
  - rewrite He. pose proof (cuts_nonneg elem s) as Hnn. destruct (cuts elem s) as [|c cs] eqn:Ecs.
    + cbn [map app combine] in *. rewrite <- IH. cbn [map]. unfold piece. cbn [fst snd].
      replace (Z.to_nat (zlen s + 1 - 0)) with (S (Z.to_nat (zlen s - 0))) by (pose proof (zlen_nonneg s); lia). reflexivity.
    + cbn [map app combine] in *. rewrite <- IH. cbn [map]. inversion Hnn as [|? ? Hc0 Hnn']; subst. f_equal.
      * unfold piece. cbn [fst snd]. replace (Z.to_nat (c + 1 - 0)) with (S (Z.to_nat (c - 0))) by lia. reflexivity.
      * transitivity (map (piece s) (combine (map (fun i => i + 1) (c :: cs)) (cs ++ [zlen s]))); [|reflexivity].
        rewrite <- Hs, <- combine_shift; [reflexivity|]. intros [a b] Hr. apply in_combine_l in Hr. cbn [fst].
        apply in_map_iff in Hr as (i & <- & Hi). rewrite Forall_forall in Hnn. specialize (Hnn i Hi). lia.
Qed.

Lemma split_at_join elem l : join elem (split_at elem l) = l.
Proof.
  induction l as [|x l IH]; [reflexivity|]. cbn [split_at]. pose proof (split_at_nonnil elem l) as Hn.
  destruct (elem =? x) eqn:E.
  - assert (elem = x) by lia. subst. destruct (split_at x l) eqn:Es; [congruence|]. cbn [join app] in *. f_equal. exact IH.
  - destruct (split_at elem l) as [|p [|q rest]] eqn:Es; [congruence| |]; cbn [join app] in *; f_equal; exact IH.
Qed.

Lemma split_at_clean elem l : Forall (fun p => ~ In elem p) (split_at elem l).
Proof.
  induction l as [|x l IH]; cbn [split_at]; [repeat constructor; auto|]. destruct (elem =? x) eqn:E.
  - constructor; [auto|exact IH].
  - destruct (split_at elem l); inversion IH; subst; constructor; auto; cbn; intuition lia.
Qed.

Lemma join_unique (elem : Z) : forall ps qs : list (list Z), ps <> [] -> qs <> [] -> Forall (fun p => ~ In elem p) ps -> Forall (fun p => ~ In elem p) qs ->
  join elem ps = join elem qs -> ps = qs.
Proof.
  induction ps as [|p ps IH]; intros qs Hp Hq Fp Fq E; [congruence|]. destruct qs as [|q qs]; [congruence|].
  inversion Fp as [|? ? Np Fp']; subst. inversion Fq as [|? ? Nq Fq']; subst.
  assert (G : forall (p q r s : list Z), ~ In elem p -> ~ In elem q -> p ++ elem :: r = q ++ elem :: s -> p = q /\ r = s).
  { clear. induction p as [|x p IH]; intros [|y q] r s Hp Hq E; cbn [app] in E.
    - injection E as ->. auto.
    - injection E as -> _. exfalso. apply Hq. now left.
    - injection E as -> _. exfalso. apply Hp. now left.
    - injection E as -> E. destruct (IH q r s) as [-> ->]; auto; intros H; [apply Hp|apply Hq]; now right. }
  assert (Nin : forall (p r : list Z) , ~ In elem p -> p = r ++ elem :: [] ++ (@nil Z) -> False) by (intros ? r0 N ->; apply N; apply in_or_app; right; now left).
  destruct ps as [|p2 ps], qs as [|q2 qs].
  - cbn in E. now subst.
  - cbn [join] in E. exfalso. apply Np. rewrite E. apply in_or_app. right. now left.
  - cbn [join] in E. exfalso. apply Nq. rewrite <- E. apply in_or_app. right. now left.
  - cbn [join] in E. apply G in E as [-> E]; auto. f_equal. apply IH; auto; discriminate.
Qed.
