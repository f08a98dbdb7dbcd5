(* C62: roll_rows is a rotation of each row. C63: find_contours. *)
From Coq Require Import ZArith QArith List Lia Permutation.
From Verif Require Import Base RangeModel RangeLemmas AlmModel AlmLemmas AopSpec AopModel.
Import ListNotations.
Local Open Scope Z_scope.
Ltac Zify.zify_post_hook ::= idtac.

(** C62 *)
Lemma roll_target_mod nx off ix : 1 <= ix <= nx -> - nx <= off <= nx -> roll_target nx off ix - 1 = (ix - 1 + off) mod nx.
Proof.
  intros Hi Ho. unfold roll_target. destruct (Z.ltb_spec (ix + off) 1).
  - apply (Z.mod_unique _ _ (-1)); lia.
  - destruct (Z.ltb_spec nx (ix + off)).
    + apply (Z.mod_unique _ _ 1); lia.
    + apply (Z.mod_unique _ _ 0); lia.
Qed.
Lemma rotate_inj nx off a b : 0 < nx -> 0 <= a < nx -> 0 <= b < nx -> (a + off) mod nx = (b + off) mod nx -> a = b.
Proof.
  intros Hn Ha Hb E. pose proof (Z.div_mod (a + off) nx ltac:(lia)). pose proof (Z.div_mod (b + off) nx ltac:(lia)).
  rewrite E in H. assert (D : (a + off) / nx = (b + off) / nx) by nia. nia.
Qed.
Lemma flat_inj nx y x y' x' : 0 <= x < nx -> 0 <= x' < nx -> y * nx + x = y' * nx + x' -> y = y' /\ x = x'.
Proof. intros H H' E. assert (y = y') by nia. nia. Qed.
Lemma roll_loop_In ny nx y ix : In (y, ix) (roll_loop ny nx) <-> 0 <= y < ny /\ 1 <= ix <= nx.
Proof.
  unfold roll_loop. rewrite in_flat_map. split.
  - intros (y0 & Hy & H). apply in_map_iff in H. destruct H as (i & E & Hi). injection E as -> ->. apply zrange_In in Hy, Hi. lia.
  - intros [Hy Hi]. exists y. split; [apply zrange_In; lia|]. apply in_map_iff. exists ix. split; [reflexivity|]. apply zrange_In. lia.
Qed.
Lemma roll_loop_NoDup ny nx : NoDup (roll_loop ny nx).
Proof.
  unfold roll_loop. apply NoDup_flat_map; [| |apply zrange_NoDup].
  - intros y _. apply NoDup_map_inj; [congruence|apply zrange_NoDup].
  - intros y y' z _ _ H1 H2. apply in_map_iff in H1, H2. destruct H1 as (i & <- & _), H2 as (j & E & _). congruence.
Qed.

(* whatever order the assignments are done in: pixel x of row y ends up at (x + offset) mod nx of the same row, and every
   pixel of the output is written, so its old contents do not matter *)
Theorem C62_rotation : forall A (ny nx : Z) (imap omap : list A) offsets order,
  0 <= ny -> 0 < nx -> zlen imap = ny * nx -> zlen omap = ny * nx -> zlen offsets = ny -> Forall (fun o => - nx <= o <= nx) offsets ->
  Permutation order (roll_loop ny nx) ->
  exists out, roll_rows nx order imap offsets omap = Some out /\ zlen out = ny * nx /\
    (forall y x off, 0 <= y < ny -> 0 <= x < nx -> zget offsets y = Some off -> zget out (y * nx + (x + off) mod nx) = zget imap (y * nx + x)) /\
    (forall y x off, 0 <= y < ny -> 0 <= x < nx -> zget offsets y = Some off -> zget out (y * nx + x) = zget imap (y * nx + (x - off) mod nx)).
Proof.
  intros A ny nx imap omap offsets order Hny Hnx Li Lo Lf HF HP.
  assert (Hoff : forall y, 0 <= y < ny -> exists o, zget offsets y = Some o /\ - nx <= o <= nx).
  { intros y Hy. destruct (zget_in_range offsets y) as [o E]; [lia|]. exists o. split; [exact E|]. rewrite Forall_forall in HF. apply HF. eapply zget_In; exact E. }
  set (pos := fun p : Z * Z => fst p * nx + (roll_target nx (match zget offsets (fst p) with Some o => o | None => 0 end) (snd p) - 1)).
  assert (Hpos : forall y ix o, zget offsets y = Some o -> 1 <= ix <= nx -> - nx <= o <= nx -> pos (y, ix) = y * nx + (ix - 1 + o) mod nx).
  { intros y ix o E Hi Ho. unfold pos. cbn [fst snd]. rewrite E, roll_target_mod by assumption. reflexivity. }
  assert (Ho : forall p, In p order -> exists y ix o, p = (y, ix) /\ 0 <= y < ny /\ 1 <= ix <= nx /\ zget offsets y = Some o /\ - nx <= o <= nx).
  { intros [y ix] H. apply (Permutation_in _ HP), roll_loop_In in H. destruct (Hoff y) as (o & E & B); [lia|]. exists y, ix, o. tauto. }
  assert (Hmem : forall y ix, 0 <= y < ny -> 1 <= ix <= nx -> exists v, zget imap (y * nx + (ix - 1)) = Some v).
  { intros y ix Hy Hi. apply zget_in_range. rewrite Li. nia. }
  set (val := fun (p : Z * Z) (x : A) => match zget imap (fst p * nx + (snd p - 1)) with Some v => v | None => x end).
  destruct (scatter_spec pos val (roll_write nx imap offsets) (ny * nx) order omap) as (out & E & L & G & _).
  - intros m p x Hp _ _. destruct (Ho p Hp) as (y & ix & o & -> & Hy & Hi & Eo & Bo). unfold roll_write, pos, val. cbn [fst snd].
    destruct (Hmem y ix Hy Hi) as (v & Ev). rewrite Eo, Ev. reflexivity.
  - apply NoDup_map_inj; [|apply (Permutation_NoDup (Permutation_sym HP)), roll_loop_NoDup].
    intros p q Hp Hq. destruct (Ho p Hp) as (y & ix & o & -> & Hy & Hi & Eo & Bo), (Ho q Hq) as (y' & ix' & o' & -> & Hy' & Hi' & Eo' & Bo').
    rewrite (Hpos y ix o), (Hpos y' ix' o') by assumption. intros E.
    apply flat_inj in E; [|apply Z.mod_pos_bound; lia..]. destruct E as [-> E]. assert (o = o') by congruence. subst o'.
    apply rotate_inj in E; try lia. f_equal. lia.
  - intros p Hp. destruct (Ho p Hp) as (y & ix & o & -> & Hy & Hi & Eo & Bo). rewrite (Hpos y ix o) by assumption.
    pose proof (Z.mod_pos_bound (ix - 1 + o) nx Hnx). nia.
  - exact Lo.
  - exists out. split; [exact E|]. split; [exact L|].
    assert (M : forall y x off, 0 <= y < ny -> 0 <= x < nx -> zget offsets y = Some off -> zget out (y * nx + (x + off) mod nx) = zget imap (y * nx + x)).
    { intros y x off Hy Hx Eo. destruct (Hoff y Hy) as (o & Eo' & Bo). assert (o = off) by congruence. subst o.
      assert (Hp : In (y, x + 1) order) by (apply (Permutation_in _ (Permutation_sym HP)), roll_loop_In; lia).
      destruct (Hmem y (x + 1) Hy ltac:(lia)) as (v & Ev). destruct (zget_in_range omap (pos (y, x + 1))) as (u & Eu).
      { rewrite (Hpos y (x + 1) off) by (try assumption; lia). pose proof (Z.mod_pos_bound (x + 1 - 1 + off) nx Hnx). nia. }
      specialize (G _ _ Hp Eu). rewrite (Hpos y (x + 1) off) in G by (try assumption; lia). unfold val in G. cbn [fst snd] in G. rewrite Ev in G.
      replace (x + 1 - 1) with x in * by lia. congruence. }
    split; [exact M|]. intros y x off Hy Hx Eo. rewrite <- (M y ((x - off) mod nx) off) by (try assumption; apply Z.mod_pos_bound; lia).
    f_equal. f_equal. rewrite Z.add_mod_idemp_l by lia. replace (x - off + off) with x by lia. symmetry. apply Z.mod_small. lia.
Qed.
Print Assumptions C62_rotation.
(* beyond one turn the pixels go to other rows *)
Theorem C62_counterexample : exists (imap omap : list Z) offsets out, zlen imap = 2 * 3 /\ zlen omap = 2 * 3 /\ zlen offsets = 2 /\
  roll_rows 3 (roll_loop 2 3) imap offsets omap = Some out /\ zget out (1 * 3 + (0 + 0) mod 3) <> zget imap (1 * 3 + 0) /\
  zget out (0 * 3 + (2 + 5) mod 3) <> zget imap (0 * 3 + 2).
Proof.
  exists [1; 2; 3; 4; 5; 6], [0; 0; 0; 0; 0; 0], [5; -4]. eexists. split; [reflexivity|]. split; [reflexivity|]. split; [reflexivity|].
  split; [vm_compute; reflexivity|]. split; vm_compute; discriminate.
Qed.
Example C62_ex : roll_rows 3 (roll_loop 2 3) [1; 2; 3; 4; 5; 6] [1; -3] [0; 0; 0; 0; 0; 0] = Some [3; 1; 2; 4; 5; 6].
Proof. reflexivity. Qed.

(** C63 *)
Lemma Qltb_spec a b : Qltb a b = true <-> (a < b)%Q.
Proof.
  unfold Qltb. rewrite Bool.negb_true_iff. split.
  - intros H. apply Qnot_le_lt. intros L. apply Qle_bool_iff in L. congruence.
  - intros H. destruct (Qle_bool b a) eqn:E; [|reflexivity]. apply Qle_bool_iff in E. exfalso. exact (Qlt_not_le _ _ H E).
Qed.
Lemma search_spec v vals : forall i, i <= search v vals i <= i + zlen vals /\
  (forall k w, 0 <= k < search v vals i - i -> zget vals k = Some w -> (w <= v)%Q) /\
  (forall w, zget vals (search v vals i - i) = Some w -> (v < w)%Q).
Proof.
  induction vals as [|u vals IH]; intros i; cbn [search].
  - split; [unfold zlen; cbn; lia|]. split; [intros; lia|]. intros w H. apply zget_Some_range in H. unfold zlen in H. cbn in H. lia.
  - assert (ZL : zlen (u :: vals) = zlen vals + 1) by (unfold zlen; cbn [length]; lia). rewrite ZL. assert (0 <= zlen vals) by (unfold zlen; lia).
    destruct (Qltb u v) eqn:Q0; destruct (Qltb v u) eqn:Q1.
    all: try (split; [lia|]; split; [intros; lia|]; intros w Hw; rewrite Z.sub_diag in Hw; cbn in Hw; apply Some_inj in Hw; subst w; apply Qltb_spec; exact Q1).
    all: destruct (IH (i + 1)) as (B & L & U); split; [lia|]; split.
    all: try (intros k w Hk Hw; rewrite zget_cons in Hw; destruct (Z.eqb_spec k 0) as [->|N]; [apply Some_inj in Hw; subst w; apply Qnot_lt_le; intros C; apply Qltb_spec in C; congruence|];
      destruct (Z.ltb_spec k 0); [lia|]; apply (L (k - 1)); [lia|exact Hw]).
    all: intros w Hw; apply U; rewrite zget_cons in Hw.
    all: destruct (Z.eqb_spec (search v vals (i + 1) - i) 0); [lia|]; destruct (Z.ltb_spec (search v vals (i + 1) - i) 0); [lia|];
      replace (search v vals (i + 1) - (i + 1)) with (search v vals (i + 1) - i - 1) by lia; exact Hw.
Qed.
Lemma bin_search vals v : bin_of vals (Some v) = search v vals 1.
Proof. destruct vals as [|w vals]; [reflexivity|]. cbn [bin_of search]. destruct (Qltb v w); reflexivity. Qed.
Lemma bin_above vals v k l : ascending vals -> zget vals (k - 1) = Some l -> (above v l <-> k < bin_of vals v).
Proof.
  intros A E. pose proof (zget_Some_range _ _ _ E) as R. destruct v as [v|]; [|cbn [bin_of above]; lia]. rewrite bin_search. destruct (search_spec v vals 1) as (B & L & U). cbn [above]. split.
  - intros H. destruct (Z_lt_ge_dec k (search v vals 1)) as [C|C]; [exact C|exfalso]. destruct (zget_in_range vals (search v vals 1 - 1)) as (w & Ew); [lia|].
    specialize (U w Ew). assert (w <= l)%Q by (apply (A (search v vals 1 - 1) (k - 1)); [exact Ew|exact E|lia]).
    apply (Qlt_not_le _ _ U). eapply Qle_trans; eassumption.
  - intros H. apply (L (k - 1) l); [lia|exact E].
Qed.
Lemma bin_range vals v : 1 <= bin_of vals v <= zlen vals + 1.
Proof. destruct v as [v|]; [|cbn [bin_of]; unfold zlen; lia]. rewrite bin_search. destruct (search_spec v vals 1) as (B & _). lia. Qed.
Lemma separates_iff vals i a b : ascending vals -> 1 <= i <= zlen vals -> (separates vals i a b <-> Z.min (bin_of vals a) (bin_of vals b) <= i < Z.max (bin_of vals a) (bin_of vals b)).
Proof.
  intros A Hi. unfold separates. split.
  - intros (l & E & N). pose proof (bin_above vals a i l A E) as Ha. pose proof (bin_above vals b i l A E) as Hb. rewrite Ha, Hb in N. lia.
  - intros H. destruct (zget_in_range vals (i - 1)) as (l & E); [lia|]. exists l. split; [exact E|].
    pose proof (bin_above vals a i l A E) as Ha. pose proof (bin_above vals b i l A E) as Hb. rewrite Ha, Hb. lia.
Qed.

(* the output is 0 where no level separates the pixel from its right or lower neighbour. Otherwise it is the lowest level that separates it
   from its right neighbour, or from the lower one if there is none for the right. Missing: the last row and column *)
Theorem C63_contours_partial : forall imap vals ny nx, zlen imap = ny -> Forall (fun r => zlen r = nx) imap -> ascending vals ->
  forall y x, 0 <= y < ny - 1 -> 0 <= x < nx - 1 ->
  exists v right lower i, pixel2 imap y x = Some v /\ pixel2 imap y (x + 1) = Some right /\ pixel2 imap (y + 1) x = Some lower /\
    pixel2 (find_contours ny nx imap vals) y x = Some i /\
    (i = 0 <-> (forall k, ~ separates vals k v right) /\ (forall k, ~ separates vals k v lower)) /\
    (i <> 0 ->
      (separates vals i v right /\ forall k, separates vals k v right -> i <= k) \/
      ((forall k, ~ separates vals k v right) /\ separates vals i v lower /\ forall k, separates vals k v lower -> i <= k)).
Proof.
  intros imap vals ny nx Ln HF A y x Hy Hx.
  assert (P : forall y x, 0 <= y < ny -> 0 <= x < nx -> exists v, pixel2 imap y x = Some v).
  { intros y0 x0 H1 H2. unfold pixel2. destruct (zget_in_range imap y0) as (r & E); [lia|]. rewrite E. apply zget_in_range.
    rewrite Forall_forall in HF. rewrite (HF r); [lia|]. eapply zget_In; exact E. }
  destruct (P y x ltac:(lia) ltac:(lia)) as (v & Ev). destruct (P y (x + 1) ltac:(lia) ltac:(lia)) as (r & Er). destruct (P (y + 1) x ltac:(lia) ltac:(lia)) as (l & El).
  exists v, r, l. eexists. split; [exact Ev|]. split; [exact Er|]. split; [exact El|].
  pose proof (bin_range vals v) as Bv. pose proof (bin_range vals r) as Br. pose proof (bin_range vals l) as Bl.
  assert (S1 : forall a b k, separates vals k a b -> Z.min (bin_of vals a) (bin_of vals b) <= k < Z.max (bin_of vals a) (bin_of vals b)).
  { intros a b k (w & E & N). pose proof (zget_Some_range _ _ _ E). apply (separates_iff vals k a b A ltac:(lia)). exists w. tauto. }
  assert (S2 : forall a b k, Z.min (bin_of vals a) (bin_of vals b) <= k < Z.max (bin_of vals a) (bin_of vals b) -> separates vals k a b).
  { intros a b k H. pose proof (bin_range vals a). pose proof (bin_range vals b). apply separates_iff; [exact A|lia|exact H]. }
  split.
  - unfold find_contours, pixel2 at 1. rewrite zget_map, zget_zrange by lia. cbn [option_map]. rewrite zget_map, zget_zrange by lia. cbn [option_map].
    rewrite !Z.add_0_l, Ev, Er, El. destruct (Z.ltb_spec x (nx - 1)); [|lia]. destruct (Z.ltb_spec y (ny - 1)); [|lia]. cbn [andb]. reflexivity.
  - destruct (Z.eqb_spec (bin_of vals v) (bin_of vals r)) as [E1|E1]; cbn [negb]; [destruct (Z.eqb_spec (bin_of vals v) (bin_of vals l)) as [E2|E2]; cbn [negb]|].
    + split; [|lia]. split; [|reflexivity]. intros _. split; intros k H; apply S1 in H; lia.
    + split.
      * split; [lia|]. intros [_ H]. exfalso. apply (H (Z.min (bin_of vals v) (bin_of vals l))). apply S2. lia.
      * intros _. right. split; [intros k H; apply S1 in H; lia|]. split; [apply S2; lia|]. intros k H. apply S1 in H. lia.
    + split.
      * split; [lia|]. intros [H _]. exfalso. apply (H (Z.min (bin_of vals v) (bin_of vals r))). apply S2. lia.
      * intros _. left. split; [apply S2; lia|]. intros k H. apply S1 in H. lia.
Qed.
Print Assumptions C63_contours_partial.

(* a crossing along the last row is not marked *)
Theorem C63_edge_refuted : exists imap vals ny nx y x v right, zlen imap = ny /\ Forall (fun r => zlen r = nx) imap /\ ascending vals /\
  pixel2 imap y x = Some v /\ pixel2 imap y (x + 1) = Some right /\ separates vals 1 v right /\ pixel2 (find_contours ny nx imap vals) y x = Some 0.
Proof.
  exists [[Some 0%Q; Some 0%Q]; [Some 0%Q; Some 2%Q]], [1%Q], 2, 2, 1, 0, (Some 0%Q), (Some 2%Q).
  split; [reflexivity|]. split; [repeat constructor|]. split.
  { intros i j a b Ha Hb _. apply zget_In in Ha, Hb. destruct Ha as [<-|[]], Hb as [<-|[]]. apply Qle_refl. }
  split; [reflexivity|]. split; [reflexivity|]. split; [|reflexivity].
  exists 1%Q. split; [reflexivity|]. cbn [above]. intros [_ H]. assert (H0 : (1 <= 2)%Q) by discriminate. specialize (H H0). exact (H eq_refl).
Qed.
Print Assumptions C63_edge_refuted.
Example C63_ex : find_contours 3 3 [[Some 0%Q; Some 5%Q; None]; [Some 1%Q; Some 5%Q; Some 3%Q]; [Some 9%Q; Some 9%Q; Some 9%Q]] [1%Q; 2%Q; 4%Q] = [[1; 1; 0]; [2; 3; 0]; [0; 0; 0]].
Proof. reflexivity. Qed.
