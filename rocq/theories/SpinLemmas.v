From Verif Require Import Base SpinSpec IterSpec IterModel IterLemmas SpinModel.

Lemma scomp_ncomp s : scomp s = ncomp s. Proof. unfold scomp, ncomp. destruct (s =? 0); lia. Qed.
Lemma ncomp_pos s : 1 <= ncomp s <= 2. Proof. unfold ncomp. destruct (s =? 0); lia. Qed.

Lemma zrange_app_inv a b i n l : a < b -> zrange a b ++ l = zrange i n -> a = i /\ b <= n /\ l = zrange b n.
Proof.
  intros H E. assert (Hin : i < n). { destruct (Z_lt_dec i n); [assumption|]. rewrite (zrange_empty i n) in E by lia. rewrite (zrange_cons a b) in E by lia. discriminate. }
  assert (a = i). { rewrite (zrange_cons a b), (zrange_cons i n) in E by lia. cbn in E. congruence. } subst i.
  assert (L : b <= n). { assert (X : zlen (zrange a b ++ l) = zlen (zrange a n)) by (f_equal; exact E). unfold zlen in X. rewrite app_length, Nat2Z.inj_add in X. pose proof (zrange_zlen a b). pose proof (zrange_zlen a n). unfold zlen in *. lia. }
  split; [reflexivity|]. split; [exact L|]. rewrite (zrange_split a b n) in E by lia. apply app_inv_head in E. exact E.
Qed.

Definition wg_from (spin : list Z) (k : nat) (gs : list (Z * Z * Z)) : Prop :=
  forall j s a b, nth_error gs j = Some (s, a, b) -> nth_error spin ((k + j) mod length spin) = Some s /\ b - a = ncomp s.

Lemma spin_loop_spec spin n : spin <> [] -> forall fuel k i1, Z.max 1 (n - i1 + 1) <= Z.of_nat fuel ->
  let '(gs, e) := spin_loop fuel spin n (k mod length spin)%nat i1 in
  wg_from spin k gs /\ (exists m, covered gs = zrange i1 m /\ (gs = [] -> m = i1) /\ (gs <> [] -> i1 < m <= n) /\ (e = Done -> m = n)) /\ (e = Done -> gs <> []) /\
  e <> OutOfFuel /\ (e = Raised -> forall gs', gs' <> [] -> wg_from spin k gs' -> covered gs' <> zrange i1 n).
Proof.
  intros Hs. assert (L : (0 < length spin)%nat) by (destruct spin; [contradiction|cbn; lia]).
  induction fuel as [|fuel IH]; intros k i1 Hf; [lia|]. cbn [spin_loop].
  assert (B : (k mod length spin < length spin)%nat) by (apply Nat.mod_upper_bound; lia).
  destruct (nth_error spin (k mod length spin)) as [s|] eqn:E; [|apply nth_error_None in E; lia].
  rewrite scomp_ncomp. pose proof (ncomp_pos s) as P.
  (* what an alternative grouping must look like *)
  assert (ALT : forall gs', gs' <> [] -> wg_from spin k gs' -> covered gs' = zrange i1 n ->
                i1 + ncomp s <= n /\ exists r, wg_from spin (S k) r /\ covered r = zrange (i1 + ncomp s) n).
  { intros gs' Hne W C. destruct gs' as [|[[s' a] b] r]; [contradiction|]. destruct (W 0%nat s' a b eq_refl) as [W1 W2]. rewrite Nat.add_0_r, E in W1. apply Some_inj in W1. subst s'.
    cbn in C. change (flat_map _ r) with (covered r) in C. apply zrange_app_inv in C; [|lia]. destruct C as (-> & C2 & C3). replace b with (i1 + ncomp s) in * by lia. split; [exact C2|].
    exists r. split; [|exact C3]. intros j s' a' b' N. replace (S k + j)%nat with (k + S j)%nat by lia. apply W. exact N. }
  destruct (negb _) eqn:F.
  - split; [intros [|j] s' a b N; discriminate|]. split; [exists i1; rewrite zrange_empty by lia; repeat split; try reflexivity; try congruence; discriminate|].
    split; [discriminate|]. split; [discriminate|]. intros _ gs' Hne W C. destruct (ALT gs' Hne W C) as (A1 & _). lia.
  - assert (Hle : i1 + ncomp s <= n) by lia. replace (Z.min (i1 + ncomp s) n) with (i1 + ncomp s) in * by lia. destruct (i1 + ncomp s =? n) eqn:G.
    + split. { intros [|[|j]] s' a b N; try discriminate. cbn in N. injection N as E1 E2 E3. subst s'. rewrite Nat.add_0_r. split; [congruence|]. lia. }
      split. { exists n. cbn. rewrite app_nil_r. replace (i1 + ncomp s) with n by lia. repeat split; try discriminate; lia. }
      split; [discriminate|]. split; discriminate.
    + assert (M : (((k mod length spin) + 1) mod length spin)%nat = (S k mod length spin)%nat) by (rewrite Nat.add_mod_idemp_l by lia; f_equal; lia). rewrite M.
      specialize (IH (S k) (i1 + ncomp s) ltac:(lia)). destruct (spin_loop _ _ _ _ _) as [gs e]. destruct IH as (W & (m & C & C1 & C2 & C3) & D & O & R).
      split. { intros [|j] s' a b N; cbn in N; [injection N as E1 E2 E3; subst s'; rewrite Nat.add_0_r; split; [congruence|lia]|]. replace (k + S j)%nat with (S k + j)%nat by lia. apply W. exact N. }
      split. { exists m. assert (i1 + ncomp s <= m <= n) by (destruct gs; [rewrite (C1 eq_refl); lia|specialize (C2 ltac:(discriminate)); lia]).
        split; [cbn; change (flat_map _ gs) with (covered gs); rewrite C; symmetry; apply zrange_split; lia|]. split; [discriminate|]. split; [lia|exact C3]. }
      split; [discriminate|]. split; [exact O|]. intros Re gs' Hne W' C'. destruct (ALT gs' Hne W' C') as (A1 & r & A2 & A3).
      apply (R Re r); [|exact A2|exact A3]. intros ->. cbn in A3. rewrite (zrange_cons (i1 + ncomp s) n) in A3 by lia. discriminate.
Qed.

Lemma spin_helper_spec spin n fuel : spin <> [] -> Z.max 1 (n + 1) <= Z.of_nat fuel ->
  let '(gs, e) := spin_helper fuel spin n in
  well_grouped spin gs /\ (exists m, covered gs = zrange 0 m /\ m <= Z.max 0 n /\ (e = Done -> m = n)) /\ (e = Done \/ e = Raised) /\
  (e = Raised -> forall gs', gs' <> [] -> well_grouped spin gs' -> covered gs' <> zrange 0 n).
Proof.
  intros Hs Hf. pose proof (spin_loop_spec spin n Hs fuel 0 0 ltac:(lia)) as H. unfold spin_helper. rewrite Nat.mod_0_l in H by (destruct spin; [contradiction|cbn; lia]).
  destruct (spin_loop _ _ _ _ _) as [gs e]. destruct H as (W & (m & C & C1 & C2 & C3) & D & O & R).
  split; [exact W|]. split. { exists m. split; [exact C|]. split; [|exact C3]. destruct gs; [rewrite (C1 eq_refl); lia|specialize (C2 ltac:(discriminate)); lia]. }
  split; [destruct e; auto; contradiction|]. exact R.
Qed.

Lemma over_pre_done {A B} (pres : list A) (g : list B) : over_pre pres (g, Done) = (list_prod pres g, Done).
Proof. induction pres as [|p r IH]; cbn [over_pre fst snd]; [reflexivity|]. rewrite IH. reflexivity. Qed.

Lemma select_all i shape : select_axes (has_axis (i + length shape) None) i shape = map Some shape.
Proof.
  revert i. induction shape as [|n r IH]; intros i; [reflexivity|]. cbn. f_equal. replace (i + S (length r))%nat with (S i + length r)%nat by lia. apply IH.
Qed.

Lemma NoDup_app_intro {A} (l m : list A) : NoDup l -> NoDup m -> (forall x, In x l -> ~ In x m) -> NoDup (l ++ m).
Proof.
  intros Hl Hm D. induction Hl as [|x l Hx Hl IH]; [exact Hm|]. cbn. constructor.
  - rewrite in_app_iff. intros [H|H]; [contradiction|]. apply (D x (or_introl eq_refl) H).
  - apply IH. intros y Hy. apply D. right. exact Hy.
Qed.
Lemma NoDup_prod {A B} (l : list A) (m : list B) : NoDup l -> NoDup m -> NoDup (list_prod l m).
Proof.
  intros Hl Hm. induction Hl as [|x l Hx Hl IH]; [constructor|]. cbn [list_prod]. apply NoDup_app_intro; [|exact IH|].
  - apply FinFun.Injective_map_NoDup; [intros y z E; congruence|exact Hm].
  - intros [a b] H1 H2. apply in_map_iff in H1 as (c & E & _). apply in_prod_iff in H2 as [H2 _]. congruence.
Qed.
Lemma covered_tag {A} (t : A) g : flat_map (fun o : A * (Z * Z * Z) => map (pair (fst o)) (covered [snd o])) (map (fun y => (t, y)) g) = map (fun y => (t, y)) (covered g).
Proof.
  induction g as [|[[s a] b] g IH]; [reflexivity|]. cbn [map flat_map fst snd]. rewrite IH. unfold covered. cbn [flat_map]. rewrite app_nil_r, map_app. reflexivity.
Qed.
