(* Lemmas for IplProps: the spline filter along the lines of an array. *)
From Coq Require Import Reals Lra FunctionalExtensionality.
From Verif Require Import Base AlmModel AlmLemmas IplSpec IplModel IplLemmas.
Ltac Zify.zify_post_hook ::= idtac.
Open Scope R_scope.

Section Lines.
Variables n noff : Z.
Hypothesis Hn : (0 < n)%Z.
Hypothesis Ho : (0 < noff)%Z.

Definition line_of (e : Z) : Z * Z := (e mod noff, e / noff / n)%Z.
Definition kpos (e : Z) : Z := (e / noff mod n + 1)%Z.
Definition start (ob : Z * Z) : Z := (fst ob + snd ob * n * noff)%Z.
Definition obeqb (u v : Z * Z) : bool := ((fst u =? fst v) && (snd u =? snd v))%Z.

Lemma obeqb_spec u v : obeqb u v = true <-> u = v.
Proof. unfold obeqb. destruct u, v; cbn [fst snd]. split; intros H; [f_equal; lia|injection H as E F; lia]. Qed.
Lemma kpos_range e : (1 <= kpos e <= n)%Z.
Proof. unfold kpos. pose proof (Z.mod_pos_bound (e / noff) n Hn). lia. Qed.
Lemma line_pos e : e = (start (line_of e) + (kpos e - 1) * noff)%Z.
Proof.
  unfold start, line_of, kpos; cbn [fst snd]. pose proof (Z.div_mod e noff ltac:(lia)). pose proof (Z.div_mod (e / noff) n ltac:(lia)).
  set (q := (e / noff)%Z) in *. set (s := (e mod noff)%Z) in *. set (b := (q / n)%Z) in *. set (k := (q mod n)%Z) in *. nia.
Qed.
Lemma line_at oi bi k : (0 <= oi < noff)%Z -> (1 <= k <= n)%Z ->
  line_of (start (oi, bi) + (k - 1) * noff) = (oi, bi) /\ kpos (start (oi, bi) + (k - 1) * noff) = k.
Proof.
  intros H1 H2. unfold line_of, kpos, start; cbn [fst snd].
  replace (oi + bi * n * noff + (k - 1) * noff)%Z with (oi + (bi * n + (k - 1)) * noff)%Z by ring.
  rewrite Z.mod_add, Z.div_add, Z.mod_small, (Z.div_small oi) by lia. rewrite Z.add_0_l, Z.div_add_l, (Z.div_small (k - 1)) by lia.
  rewrite (Z.add_comm (bi * n)), Z.mod_add, (Z.mod_small (k - 1)) by lia. split; [f_equal; lia|lia].
Qed.

Lemma put_line_spec data oi bi a e : (0 <= oi < noff)%Z ->
  put_line n noff data (start (oi, bi)) a e = if obeqb (line_of e) (oi, bi) then a (kpos e) else data e.
Proof.
  intros H. unfold put_line. destruct (obeqb (line_of e) (oi, bi)) eqn:E.
  - apply obeqb_spec in E. pose proof (line_pos e) as P. rewrite E in P. pose proof (kpos_range e).
    replace (e - start (oi, bi))%Z with ((kpos e - 1) * noff)%Z by lia. rewrite Z.mod_mul, Z.div_mul by lia.
    replace ((0 <=? (kpos e - 1) * noff) && (0 =? 0) && (kpos e - 1 <? n))%Z with true by nia. f_equal. lia.
  - match goal with |- (if ?t then _ else _) = _ => destruct t eqn:T end; [|reflexivity]. exfalso.
    assert (T1 : ((e - start (oi, bi)) mod noff = 0)%Z) by lia.
    set (r := (e - start (oi, bi))%Z) in *. pose proof (Z.div_mod r noff ltac:(lia)) as D.
    assert (0 <= r / noff)%Z by (apply Z.div_pos; lia).
    destruct (line_at oi bi (r / noff + 1) H ltac:(lia)) as [L _].
    replace (start (oi, bi) + (r / noff + 1 - 1) * noff)%Z with e in L by lia.
    apply obeqb_spec in L. congruence.
Qed.

Definition on_lines (l : list (Z * Z)) (e : Z) : bool := existsb (obeqb (line_of e)) l.
Lemma on_lines_In l e : on_lines l e = true <-> In (line_of e) l.
Proof.
  unfold on_lines. rewrite existsb_exists. split.
  - intros (x & Hx & E). apply obeqb_spec in E. congruence.
  - intros H. exists (line_of e). split; [exact H|]. apply obeqb_spec. reflexivity.
Qed.

Section Run.
Variables (b : edge) (trans : bool) (ps : list R) (F : arr -> arr).
Hypothesis HF : forall a, pole_loop b n trans ps a = Some (F a).
Definition ldata (data : arr) (ob : Z * Z) : arr := fun k => take_line n noff data (start ob) k * weight ps.
Definition lresult (l : list (Z * Z)) (data : arr) : arr := fun e => if on_lines l e then F (ldata data (line_of e)) (kpos e) else data e.

Lemma do_line_eq data ob : (0 <= fst ob < noff)%Z -> do_line b n noff trans ps data ob = Some (lresult [ob] data).
Proof.
  intros H. unfold do_line. fold (start ob). change (fun k => take_line n noff data (start ob) k * weight ps) with (ldata data ob).
  rewrite HF. cbn [bind]. f_equal. apply functional_extensionality. intros e. destruct ob as [oi bi].
  rewrite put_line_spec by exact H. unfold lresult, on_lines. cbn [existsb]. rewrite orb_false_r. destruct (obeqb (line_of e) (oi, bi)) eqn:E; [|reflexivity].
  apply obeqb_spec in E. rewrite E. reflexivity.
Qed.

Lemma lines_run l data : NoDup l -> (forall ob, In ob l -> (0 <= fst ob < noff)%Z) ->
  ofold (do_line b n noff trans ps) l data = Some (lresult l data).
Proof.
  revert data; induction l as [|ob l IH]; intros data ND H; cbn [ofold]; [reflexivity|].
  rewrite do_line_eq by (apply H; left; reflexivity). inversion ND as [|? ? Hn' ND']; subst.
  rewrite IH by (try assumption; intros; apply H; right; assumption). f_equal. apply functional_extensionality. intros e.
  unfold lresult. destruct (on_lines l e) eqn:E.
  - assert (Hin := proj1 (on_lines_In l e) E). replace (on_lines (ob :: l) e) with true by (symmetry; apply on_lines_In; right; exact Hin).
    f_equal. apply functional_extensionality. intros k. unfold ldata, take_line.
    destruct ((1 <=? k) && (k <=? n))%Z eqn:K; [|reflexivity].
    destruct (on_lines [ob] (start (line_of e) + (k - 1) * noff)) eqn:O; [|reflexivity]. exfalso.
    apply on_lines_In in O. destruct O as [O|[]]. destruct (line_of e) as [oi bi] eqn:Le.
    assert (0 <= oi < noff)%Z by (specialize (H (oi, bi) (or_intror Hin)); exact H).
    destruct (line_at oi bi k ltac:(lia) ltac:(lia)) as [L _]. rewrite L in O. subst ob. contradiction.
  - unfold on_lines at 2. cbn [existsb]. fold (on_lines l e). rewrite E, orb_false_r.
    unfold on_lines. cbn [existsb]. rewrite orb_false_r. reflexivity.
Qed.

Lemma lresult_perm l l' data : Permutation l l' -> lresult l data = lresult l' data.
Proof.
  intros P. apply functional_extensionality. intros e. unfold lresult.
  replace (on_lines l' e) with (on_lines l e); [reflexivity|].
  destruct (on_lines l e) eqn:E, (on_lines l' e) eqn:E'; try reflexivity.
  - apply on_lines_In in E. apply (Permutation_in _ P) in E. apply on_lines_In in E. congruence.
  - apply on_lines_In in E'. apply (Permutation_in _ (Permutation_sym P)) in E'. apply on_lines_In in E'. congruence.
Qed.
End Run.

Lemma all_lines_In nblock ob : In ob (all_lines noff nblock) <-> (0 <= fst ob < noff)%Z /\ (0 <= snd ob < nblock)%Z.
Proof.
  unfold all_lines. rewrite in_flat_map. split.
  - intros (o & Ho' & H). apply in_map_iff in H as (b & E & Hb). apply zrange_In in Ho'. apply zrange_In in Hb. subst ob; cbn [fst snd]. lia.
  - intros [H1 H2]. exists (fst ob). split; [apply zrange_In; lia|]. apply in_map_iff. exists (snd ob). split; [destruct ob; reflexivity|apply zrange_In; lia].
Qed.
Lemma all_lines_NoDup nblock : NoDup (all_lines noff nblock).
Proof.
  unfold all_lines. apply NoDup_flat_map.
  - intros x Hx. apply NoDup_map_inj; [|apply zrange_NoDup]. intros u v _ _ E. congruence.
  - intros x y z Hx Hy G1 G2. apply in_map_iff in G1 as (u & E1 & _). apply in_map_iff in G2 as (v & E2 & _). congruence.
  - apply zrange_NoDup.
Qed.

Section Adj.
Variable nblock : Z.
Hypothesis Hb : (0 <= nblock)%Z.
Let N := (nblock * n * noff)%Z.

Lemma sum_line (h : Z -> R) oi bi : (0 <= oi < noff)%Z -> (0 <= bi < nblock)%Z ->
  rsuml (map (fun e => if obeqb (line_of e) (oi, bi) then h e else 0) (zrange 0 N)) =
  rsuml (map (fun k => h (start (oi, bi) + (k - 1) * noff)%Z) (zrange 1 (n + 1))).
Proof.
  intros H1 H2. rewrite rsuml_filter. rewrite <- (map_map (fun k => start (oi, bi) + (k - 1) * noff)%Z h).
  apply rsuml_perm, Permutation_map. apply NoDup_Permutation.
  - apply NoDup_filter, zrange_NoDup.
  - apply NoDup_map_inj; [|apply zrange_NoDup]. intros u v _ _ E. nia.
  - intros e. rewrite filter_In, zrange_In, in_map_iff. split.
    + intros [He E]. apply obeqb_spec in E. exists (kpos e). split; [rewrite <- E; symmetry; apply line_pos|]. apply zrange_In. pose proof (kpos_range e). lia.
    + intros (k & E & Hk). apply zrange_In in Hk. destruct (line_at oi bi k H1 ltac:(lia)) as [L _]. rewrite E in L.
      split; [|apply obeqb_spec; exact L]. subst e. unfold start, N; cbn [fst snd].
      assert (0 <= bi * n + (k - 1) <= nblock * n - 1)%Z by nia. nia.
Qed.

Lemma dot_line x y oi bi : (0 <= oi < noff)%Z -> (0 <= bi < nblock)%Z ->
  dot N x y = rsuml (map (fun e => if obeqb (line_of e) (oi, bi) then 0 else x e * y e) (zrange 0 N)) +
              dot1 n (take_line n noff x (start (oi, bi))) (take_line n noff y (start (oi, bi))).
Proof.
  intros H1 H2. unfold dot, dot1.
  replace (rsuml (map (fun i => take_line n noff x (start (oi, bi)) i * take_line n noff y (start (oi, bi)) i) (zrange 1 (n + 1))))
    with (rsuml (map (fun k => x (start (oi, bi) + (k - 1) * noff)%Z * y (start (oi, bi) + (k - 1) * noff)%Z) (zrange 1 (n + 1)))).
  - rewrite <- (sum_line (fun e => x e * y e)) by assumption. rewrite <- rsuml_plus. apply rsuml_ext. intros e _. destruct (obeqb _ _); ring.
  - apply rsuml_ext. intros k Hk. apply zrange_In in Hk. unfold take_line. replace ((1 <=? k) && (k <=? n))%Z with true by lia. reflexivity.
Qed.

Lemma take_lresult F ps data oi bi : (0 <= oi < noff)%Z ->
  forall k, (1 <= k <= n)%Z -> take_line n noff (lresult ps F [(oi, bi)] data) (start (oi, bi)) k = F (ldata ps data (oi, bi)) k.
Proof.
  intros H k Hk. unfold take_line. replace ((1 <=? k) && (k <=? n))%Z with true by lia.
  destruct (line_at oi bi k H Hk) as [L K]. unfold lresult. replace (on_lines [(oi, bi)] _) with true by (symmetry; apply on_lines_In; left; symmetry; exact L).
  rewrite L, K. reflexivity.
Qed.

Lemma dot1_ext f g f' g' : (forall k, (1 <= k <= n)%Z -> f k = f' k) -> (forall k, (1 <= k <= n)%Z -> g k = g' k) -> dot1 n f g = dot1 n f' g'.
Proof. intros H1 H2. unfold dot1. apply rsuml_ext. intros k Hk. apply zrange_In in Hk. rewrite H1, H2 by lia. reflexivity. Qed.

Lemma do_line_adj b ps ob : (2 <= n)%Z -> (0 <= fst ob < noff)%Z -> (0 <= snd ob < nblock)%Z ->
  adjp (dot N) (fun d => do_line b n noff false ps d ob) (fun d => do_line b n noff true ps d ob).
Proof.
  intros H2 H3 H4. destruct (pole_loop_adj b n ps H2) as (F & G & HF & HG & A). destruct ob as [oi bi]; cbn [fst snd] in *.
  exists (lresult ps F [(oi, bi)]), (lresult ps G [(oi, bi)]). split; [|split].
  - intros a. apply do_line_eq; [exact HF|exact H3].
  - intros a. apply do_line_eq; [exact HG|exact H3].
  - intros x y. rewrite !(dot_line _ _ oi bi) by assumption. f_equal.
    + apply rsuml_ext. intros e _. destruct (obeqb (line_of e) (oi, bi)) eqn:E; [reflexivity|].
      unfold lresult, on_lines. cbn [existsb]. rewrite E. reflexivity.
    + set (tx := take_line n noff x (start (oi, bi))). set (ty := take_line n noff y (start (oi, bi))).
      transitivity (weight ps * dot1 n (F tx) ty).
      * transitivity (dot1 n (F (ldata ps x (oi, bi))) ty); [apply dot1_ext; [intros; apply take_lresult; assumption|reflexivity]|].
        rewrite A. transitivity (weight ps * dot1 n tx (G ty)); [|rewrite A; reflexivity].
        rewrite <- dot1_scal. apply dot1_ext; [intros; unfold ldata; fold tx; ring|reflexivity].
      * transitivity (dot1 n tx (G (ldata ps y (oi, bi)))); [|symmetry; apply dot1_ext; [reflexivity|intros; apply take_lresult; assumption]].
        rewrite <- A. rewrite (dot1_comm n (F tx) (ldata ps y (oi, bi))), (dot1_comm n (F tx) ty).
        rewrite <- dot1_scal. apply dot1_ext; [intros; unfold ldata; fold ty; ring|reflexivity].
Qed.

Lemma lines_adj b ps L1 L2 : (2 <= n)%Z -> Permutation L1 (all_lines noff nblock) -> Permutation L2 (all_lines noff nblock) ->
  adjp (dot N) (ofold (do_line b n noff false ps) L1) (ofold (do_line b n noff true ps) L2).
Proof.
  intros H2 P1 P2.
  assert (R1 : forall ob, In ob L1 -> (0 <= fst ob < noff)%Z /\ (0 <= snd ob < nblock)%Z) by (intros ob Hob; apply all_lines_In, (Permutation_in _ P1), Hob).
  assert (R2 : forall ob, In ob L2 -> (0 <= fst ob < noff)%Z /\ (0 <= snd ob < nblock)%Z) by (intros ob Hob; apply all_lines_In, (Permutation_in _ P2), Hob).
  apply (adjp_ext (dot N) (ofold (do_line b n noff false ps) L1) (ofold (do_line b n noff true ps) (rev L1))); [reflexivity|..].
  - intros a. destruct (pole_loop_adj b n ps H2) as (F & G & HF & HG & A).
    assert (ND1 : NoDup L1) by (apply (Permutation_NoDup (Permutation_sym P1)), all_lines_NoDup).
    assert (ND2 : NoDup L2) by (apply (Permutation_NoDup (Permutation_sym P2)), all_lines_NoDup).
    rewrite !(lines_run b true ps G HG); [f_equal; apply lresult_perm|..].
    + transitivity L1; [apply Permutation_sym, Permutation_rev|]. transitivity (all_lines noff nblock); [exact P1|apply Permutation_sym, P2].
    + exact ND2.
    + intros; apply R2; assumption.
    + apply NoDup_rev, ND1.
    + intros ob Hob. apply R1, in_rev, Hob.
  - apply adjp_ofold. intros ob Hob. apply R1 in Hob. apply do_line_adj; [exact H2|apply Hob|apply Hob].
Qed.
End Adj.
End Lines.

(* ---------------------------------------------------------------- all axes *)
Lemma zprod_app l1 l2 : zprod (l1 ++ l2) = (zprod l1 * zprod l2)%Z.
Proof. induction l1 as [|x l1 IH]; cbn [app zprod]; [lia|]. rewrite IH. ring. Qed.
Lemma zprod_pos l : (forall x, In x l -> (1 <= x)%Z) -> (1 <= zprod l)%Z.
Proof.
  induction l as [|x l IH]; intros H; cbn [zprod]; [lia|]. specialize (IH (fun y Hy => H y (or_intror Hy))). specialize (H x (or_introl eq_refl)). nia.
Qed.
Lemma zprod_axis dims axis : (axis < length dims)%nat -> zprod dims = (zprod (firstn axis dims) * nth axis dims 0 * zprod (skipn (S axis) dims))%Z.
Proof.
  intros H. rewrite <- (firstn_skipn axis dims) at 1. rewrite zprod_app.
  replace (skipn axis dims) with (nth axis dims 0%Z :: skipn (S axis) dims); [cbn [zprod]; ring|].
  revert axis H; induction dims as [|d dims IH]; intros [|axis] H; cbn [length] in H; try lia; [reflexivity|]. cbn [nth skipn]. apply IH. lia.
Qed.
Lemma In_firstn_ {A} k (l : list A) x : In x (firstn k l) -> In x l.
Proof. intros H. rewrite <- (firstn_skipn k l). apply in_or_app. left. exact H. Qed.
Lemma In_skipn_ {A} k (l : list A) x : In x (skipn k l) -> In x l.
Proof. intros H. rewrite <- (firstn_skipn k l). apply in_or_app. right. exact H. Qed.

(* a schedule: each axis' lines in some order *)
Definition valid_lines (dims : list Z) (lines : nat -> list (Z * Z)) : Prop :=
  forall axis, (axis < length dims)%nat -> Permutation (lines axis) (all_lines (zprod (skipn (S axis) dims)) (zprod (firstn axis dims))).

Lemma filter1d_adj dims axis order b L1 L2 :
  (axis < length dims)%nat -> (forall x, In x dims -> (1 <= x)%Z) -> (2 <= nth axis dims 0)%Z ->
  Permutation L1 (all_lines (zprod (skipn (S axis) dims)) (zprod (firstn axis dims))) ->
  Permutation L2 (all_lines (zprod (skipn (S axis) dims)) (zprod (firstn axis dims))) ->
  adjp (dot (zprod dims)) (fun d => spline_filter1d L1 d dims axis order b false) (fun d => spline_filter1d L2 d dims axis order b true).
Proof.
  intros Ha Hd Hn P1 P2. unfold spline_filter1d. destruct (poles order) as [ps|]; [|apply adjp_id].
  rewrite (zprod_axis dims axis Ha). apply lines_adj; try assumption.
  - lia.
  - apply Z.lt_le_trans with 1%Z; [lia|]. apply zprod_pos. intros x Hx. apply Hd, (In_skipn_ _ _ _ Hx).
  - apply Z.le_trans with 1%Z; [lia|]. apply zprod_pos. intros x Hx. apply Hd, (In_firstn_ _ _ _ Hx).
Qed.

Lemma spline_filter_adj dims order border ndim L1 L2 : border <> Breflect -> (ndim <= length dims)%nat ->
  (forall x, In x dims -> (1 <= x)%Z) -> (forall x, In x (skipn (length dims - ndim) dims) -> (2 <= x)%Z) ->
  valid_lines dims L1 -> valid_lines dims L2 ->
  adjp (dot (zprod dims)) (fun d => spline_filter L1 true dims d order border ndim false) (fun d => spline_filter L2 true dims d order border ndim true).
Proof.
  intros Hb Hl Hd H2 V1 V2. unfold spline_filter. destruct (filter_border border) as [b|] eqn:Eb; [|destruct border; try discriminate; contradiction].
  cbn [bind]. apply adjp_ofold. intros axis Hax. apply in_seq in Hax.
  assert (A : (axis < length dims)%nat) by lia.
  refine (adjp_ext _ _ _ _ _ _ _ (filter1d_adj dims axis order b (L1 axis) (L2 axis) A Hd _ (V1 axis A) (V2 axis A))).
  - intros a. destruct (spline_filter1d _ _ _ _ _ _ _); reflexivity.
  - intros a. destruct (spline_filter1d _ _ _ _ _ _ _); reflexivity.
  - apply H2. rewrite <- (firstn_skipn (length dims - ndim) dims) at 1. rewrite app_nth2 by (rewrite firstn_length; lia).
    apply nth_In. rewrite skipn_length, firstn_length. lia.
Qed.
