(* Lemmas for IplProps: the pieces put together. *)
From Coq Require Import Reals Lra Lia FunctionalExtensionality.
From Verif Require Import Base AlmModel AlmLemmas IplSpec IplModel IplLemmas IplLemmas2 IplLemmas3 IplLemmas4 IplLemmas5 IplLemmas6 IplLemmas7 IplLemmas8.
Ltac Zify.zify_post_hook ::= idtac.
Open Scope R_scope.

Lemma nest_shift b t order shape pos D e x : length pos = length shape ->
  nest b t order shape pos D (e + x)%Z = nest b t order shape pos (fun d => D (e * zprod shape + d)%Z) x.
Proof.
  revert pos e x; induction shape as [|n shape IH]; intros [|p pos] e x L; cbn [length] in L; try discriminate.
  - cbn [nest zprod]. f_equal. lia.
  - cbn [nest zprod]. apply rsuml_ext. intros k Hk. f_equal. set (m := map_border b n (k + offset t order p)).
    replace ((e + x) * n + m)%Z with (e * n + (x * n + m))%Z by ring. rewrite IH by lia. f_equal. apply functional_extensionality. intros d. f_equal. ring.
Qed.
Lemma out_index nsamp o si : (0 <= si < nsamp)%Z -> ((o * nsamp + si) mod nsamp = si /\ (o * nsamp + si) / nsamp = o)%Z.
Proof. intros H. rewrite Z.add_comm, Z.mod_add, Z.div_add by lia. rewrite Z.mod_small, Z.div_small by lia. lia. Qed.
Lemma interpol_at t order b shape points idata o si pos : nth_error points si = Some pos ->
  interpol t order b shape points idata (o * zlen points + Z.of_nat si)%Z = interpol1 t order b shape pos (fun d => idata (o * zprod shape + d)%Z).
Proof.
  intros H. assert (L : (si < length points)%nat) by (apply nth_error_Some; congruence). unfold interpol. cbv zeta.
  destruct (out_index (zlen points) o (Z.of_nat si)) as [E1 E2]; [unfold zlen; lia|]. rewrite E1, E2, Nat2Z.id. rewrite (nth_error_nth points si [] H). reflexivity.
Qed.

(* the filter does nothing below order 2, and in any layout but C order *)
Lemma filter1d_total lines data dims axis order b trans : (axis < length dims)%nat -> (forall x, In x dims -> (1 <= x)%Z) -> (2 <= nth axis dims 0)%Z ->
  Permutation lines (all_lines (zprod (skipn (S axis) dims)) (zprod (firstn axis dims))) -> exists r, spline_filter1d lines data dims axis order b trans = Some r.
Proof.
  intros H1 H2 H3 P. destruct (filter1d_adj dims axis order b lines lines H1 H2 H3 P P) as (F & G & HF & HG & _). destruct trans; [rewrite HG|rewrite HF]; eauto.
Qed.
Lemma filter_noop lines contig dims data order border ndim trans : border <> Breflect -> poles order = None -> spline_filter lines contig dims data order border ndim trans = Some data.
Proof.
  intros Hb Ho. unfold spline_filter. destruct (filter_border border) as [b|] eqn:E; [|destruct border; discriminate || contradiction]. cbn [bind]. unfold spline_filter1d. rewrite Ho.
  assert (G : forall l, ofold (fun data (axis : nat) => data' <- Some data;; Some (if contig then data' else data)) l data = Some data).
  { induction l as [|x l IH]; cbn [ofold]; [reflexivity|]. cbn [bind]. destruct contig; exact IH. }
  apply G.
Qed.
Lemma filter_layout lines dims data order border ndim trans : border <> Breflect -> (ndim <= length dims)%nat ->
  (forall x, In x dims -> (1 <= x)%Z) -> (forall x, In x (skipn (length dims - ndim) dims) -> (2 <= x)%Z) -> valid_lines dims lines ->
  spline_filter lines false dims data order border ndim trans = Some data.
Proof.
  intros Hb Hl Hd H2 V. unfold spline_filter. destruct (filter_border border) as [b|] eqn:E; [|destruct border; discriminate || contradiction]. cbn [bind].
  assert (G : forall l, (forall a, In a l -> In a (seq (length dims - ndim) ndim)) -> ofold (fun data axis => data' <- spline_filter1d (lines axis) data dims axis order b trans;; Some data) l data = Some data).
  { induction l as [|x l IH]; intros H; cbn [ofold]; [reflexivity|]. pose proof (H x (or_introl eq_refl)) as Hx. apply in_seq in Hx.
    destruct (filter1d_total (lines x) data dims x order b trans) as [r Er]; [lia|exact Hd| |apply V; lia|].
    - apply H2. rewrite <- (firstn_skipn (length dims - ndim) dims) at 1. rewrite app_nth2 by (rewrite firstn_length; lia). apply nth_In. rewrite skipn_length, firstn_length. lia.
    - rewrite Er. cbn [bind]. apply IH. intros a Ha. apply H. right; exact Ha. }
  apply G. intros a Ha. destruct trans; [apply in_rev, Ha|exact Ha].
Qed.
Lemma filter_is_ofold lines dims data order b border ndim r : filter_border border = Some b ->
  spline_filter lines true dims data order border ndim false = Some r ->
  ofold (fun d axis => spline_filter1d (lines axis) d dims axis order b false) (seq (length dims - ndim) ndim) data = Some r.
Proof.
  intros E. unfold spline_filter. rewrite E. cbn [bind]. intros H. rewrite <- H. apply ofold_ext. intros s x _. destruct (spline_filter1d _ _ _ _ _ _ _); reflexivity.
Qed.

(* ---------------------------------------------------------------- the stand-in of a cell *)
Lemma stand_unique b n i j : (0 <= j < n)%Z -> (b = EMirror -> (2 <= n)%Z) -> stands_for b n i j -> map_border b n i = j.
Proof.
  intros Hj Hn HS. destruct b; cbn [stands_for] in HS.
  - subst i. unfold map_border. replace ((j <? 0) || (j >=? n))%Z with false by lia. reflexivity.
  - unfold map_border. destruct ((i <? 0) || (i >=? n))%Z eqn:E; lia.
  - destruct HS as [k E]. rewrite mb_cyclic by lia. subst i. rewrite Z.mod_add by lia. apply Z.mod_small, Hj.
  - specialize (Hn eq_refl). rewrite mb_mirror by lia. cbv zeta. destruct HS as [k [E|E]].
    + rewrite E, Z.mod_add, Z.mod_small by lia. destruct (Z.geb_spec j n); lia.
    + rewrite E, Z.mod_add by lia. destruct (Z.eq_dec j 0) as [Z0|Z0]; [subst j; rewrite Z.mod_0_l by lia; destruct (Z.geb_spec 0 n); lia|].
      rewrite Z.mod_opp_l_nz by (rewrite ?Z.mod_small by lia; lia). rewrite Z.mod_small by lia. destruct (Z.geb_spec (2 * n - 2 - j) n); lia.
Qed.
Lemma cell_stand b shape off is J e : okshape b shape -> stand b shape off is J -> inside shape J -> cell b shape off is e = Some (ravel shape J e).
Proof.
  revert off is J e; induction shape as [|n shape IH]; intros [|o off] [|k is] [|j J] e O HS HI; cbn [stand inside] in *; try contradiction; [reflexivity|].
  destruct HS as [H1 H2], HI as [I1 I2]. cbn [cell ravel]. rewrite (stand_unique b n (k + o) j I1); [|apply O; left; reflexivity|exact H1].
  replace (j <? 0)%Z with false by lia. apply IH; [intros x Hx; apply O; right; exact Hx|exact H2|exact I2].
Qed.

(* ---------------------------------------------------------------- constants pass the filter *)
Lemma max_index (f : Z -> R) (n : Z) : (1 <= n)%Z -> exists i, (0 <= i < n)%Z /\ forall j, (0 <= j < n)%Z -> Rabs (f j) <= Rabs (f i).
Proof.
  intros Hn. assert (G : forall k : nat, exists i, (0 <= i < 1 + Z.of_nat k)%Z /\ forall j, (0 <= j < 1 + Z.of_nat k)%Z -> Rabs (f j) <= Rabs (f i)).
  { induction k as [|k (i & Hi & M)].
    - exists 0%Z. split; [lia|]. intros j Hj. replace j with 0%Z by lia. lra.
    - destruct (Rle_dec (Rabs (f i)) (Rabs (f (1 + Z.of_nat k)%Z))) as [H|H].
      + exists (1 + Z.of_nat k)%Z. split; [lia|]. intros j Hj. destruct (Z.eq_dec j (1 + Z.of_nat k)) as [E|E]; [subst; lra|]. eapply Rle_trans; [apply M; lia|exact H].
      + exists i. split; [lia|]. intros j Hj. destruct (Z.eq_dec j (1 + Z.of_nat k)) as [E|E]; [subst; lra|]. apply M. lia. }
  destruct (G (Z.to_nat (n - 1))) as (i & Hi & M). exists i. split; [lia|]. intros j Hj. apply M. lia.
Qed.
Lemma mb_range b n i : (b = ECyclic \/ b = EMirror) -> (2 <= n)%Z -> (0 <= map_border b n i < n)%Z.
Proof.
  intros [E|E] Hn; subst b.
  - rewrite mb_cyclic by lia. apply Z.mod_pos_bound. lia.
  - rewrite mb_mirror by lia. cbv zeta. pose proof (Z.mod_pos_bound i (2 * n - 2) ltac:(lia)). destruct (Z.geb_spec (i mod (2 * n - 2)) n); lia.
Qed.
Lemma s_big p s : okpole p s -> 2 < Rabs s.
Proof.
  intros (P0 & P1 & E). assert (A : 0 < Rabs p) by (apply Rabs_pos_lt, P0).
  assert (X : Rabs s * Rabs p = p * p + 1). { rewrite <- Rabs_mult, <- E. replace ((p + / p) * p) with (p * p + 1) by (field; exact P0). apply Rabs_right. nra. }
  assert (Y : p * p = Rabs p * Rabs p) by (rewrite <- Rabs_mult; symmetry; apply Rabs_right; nra). nra.
Qed.
Lemma tri_unique b n s g : (b = ECyclic \/ b = EMirror) -> (2 <= n)%Z -> 2 < Rabs s -> (forall i, tri s (ext b n g) i = 0) -> forall k, (1 <= k <= n)%Z -> g k = 0.
Proof.
  intros Hb Hn Hs T. destruct (max_index (fun j => g (j + 1)%Z) n ltac:(lia)) as (i & Hi & M). cbv beta in M.
  assert (B : forall j, Rabs (ext b n g j) <= Rabs (g (i + 1)%Z)) by (intros j; apply M, mb_range; assumption).
  assert (Z0 : g (i + 1)%Z = 0).
  { specialize (T i). unfold tri in T. rewrite (ext_in b n g i Hi) in T. pose proof (B (i - 1)%Z) as B1. pose proof (B (i + 1)%Z) as B2.
    set (x := ext b n g (i - 1)) in *. set (y := ext b n g (i + 1)) in *. set (z := g (i + 1)%Z) in *.
    assert (E : Rabs s * Rabs z = Rabs (x + y)) by (rewrite <- Rabs_mult; f_equal; lra). pose proof (Rabs_triang x y). pose proof (Rabs_pos z).
    destruct (Req_dec (Rabs z) 0) as [Ez|Ez]; [|nra]. destruct (Req_dec z 0) as [Hz|Hz]; [exact Hz|]. apply Rabs_no_R0 in Hz. contradiction. }
  intros k Hk. specialize (M (k - 1)%Z ltac:(lia)). replace (k - 1 + 1)%Z with k in M by lia. rewrite Z0, Rabs_R0 in M. pose proof (Rabs_pos (g k)).
  destruct (Req_dec (g k) 0) as [E|E]; [exact E|]. apply Rabs_no_R0 in E. lra.
Qed.

Definition keeps (b : edge) (n : Z) (ps : list R) : Prop := b = ENearest \/ (b = ECyclic \/ b = EMirror) /\ (forall p, In p ps -> (n <= horizon p)%Z).

Lemma pole_const b n p s a c v : okpole p s -> (2 <= n)%Z -> keeps b n [p] -> pole_fwd b n (horizon p) p a = Some c ->
  (forall k, (1 <= k <= n)%Z -> a k = v) -> forall k, (1 <= k <= n)%Z -> c k = v / (2 - s).
Proof.
  intros HP Hn K Hc Ha. pose proof (s_big p s HP) as SB. destruct HP as (P0 & P1 & PE).
  assert (Q1 : 1 - p <> 0) by (pose proof (pow_abs_lt1 p 1 P1 ltac:(lia)) as Q; rewrite pow_1 in Q; exact Q).
  assert (S2 : 2 - s = - ((1 - p) * (1 - p)) / p) by (rewrite <- PE; field; exact P0).
  assert (N2 : 2 - s <> 0). { rewrite S2. unfold Rdiv. apply Rmult_integral_contrapositive_currified; [|apply Rinv_neq_0_compat, P0]. apply Ropp_neq_0_compat. apply Rmult_integral_contrapositive_currified; exact Q1. }
  destruct K as [K|[Hb Hh]].
  - subst b. pose proof (pow_abs_lt1 p 2 P1 ltac:(lia)) as Q2.
    destruct (pole_steps ENearest n (horizon p) p a Hn) as (a0 & cp & a2 & c' & E0 & E2 & E & F1 & F & B1 & B). rewrite E in Hc. apply Some_inj in Hc. subst c'.
    unfold causal_init, div1 in E0. rewrite rd_in in E0 by lia. cbn [bind] in E0. rewrite wr_in in E0 by lia. apply Some_inj in E0.
    assert (I1 : cp 1%Z = v / (1 - p)) by (rewrite F1, <- E0, setf_same, Ha by lia; reflexivity).
    assert (IC : forall k : nat, (1 + Z.of_nat k <= n)%Z -> cp (1 + Z.of_nat k)%Z = v / (1 - p)).
    { induction k as [|k IH]; intros Hk; [exact I1|]. rewrite F by lia. rewrite Ha by lia. replace (1 + Z.of_nat (S k) - 1)%Z with (1 + Z.of_nat k)%Z by lia. rewrite IH by lia. field. exact Q1. }
    assert (IC' : forall k, (1 <= k <= n)%Z -> cp k = v / (1 - p)) by (intros k Hk; replace k with (1 + Z.of_nat (Z.to_nat (k - 1)))%Z by lia; apply IC; lia).
    unfold back_init in E2. rewrite rd_in in E2 by lia. cbn [bind] in E2. rewrite rd_in in E2 by lia. cbn [bind] in E2. rewrite wr_in in E2 by lia. apply Some_inj in E2.
    assert (J1 : c n = v / (2 - s)). { rewrite B1, <- E2, setf_same, !IC' by lia. rewrite S2. field. split; [exact P0|]. split; [exact Q1|exact Q2]. }
    assert (JC : forall k : nat, (Z.of_nat k <= n - 1)%Z -> c (n - Z.of_nat k)%Z = v / (2 - s)).
    { induction k as [|k IH]; intros Hk; [rewrite Z.sub_0_r; exact J1|]. rewrite B by lia. replace (n - Z.of_nat (S k) + 1)%Z with (n - Z.of_nat k)%Z by lia. rewrite IH, IC' by lia. rewrite S2. field. split; [exact P0|exact Q1]. }
    intros k Hk. replace k with (n - Z.of_nat (Z.to_nat (n - k)))%Z by lia. apply JC. lia.
  - intros k Hk. assert (G : (fun j => c j - v / (2 - s)) k = 0); [|cbv beta in G; lra].
    apply (tri_unique b n s (fun j => c j - v / (2 - s)) Hb Hn SB); [|exact Hk]. intros i.
    pose proof (pole_exact b n (horizon p) p a c Hb Hn (Hh p (or_introl eq_refl)) P0 P1 Hc i) as T. rewrite PE in T.
    unfold tri in *. unfold ext in *. rewrite (Ha (map_border b n i + 1)%Z) in T by (pose proof (mb_range b n i Hb Hn); lia).
    set (x := c (map_border b n (i - 1) + 1)%Z) in *. set (y := c (map_border b n i + 1)%Z) in *. set (z := c (map_border b n (i + 1) + 1)%Z) in *.
    replace (x - v / (2 - s) - s * (y - v / (2 - s)) + (z - v / (2 - s))) with ((x - s * y + z) - v / (2 - s) * (2 - s)) by ring. rewrite T. field. exact N2.
Qed.

Lemma loop_const b n ps ss : Forall2 okpole ps ss -> (2 <= n)%Z -> keeps b n ps -> forall a c v, pole_loop b n false ps a = Some c ->
  (forall k, (1 <= k <= n)%Z -> a k = v * weight ps) -> forall k, (1 <= k <= n)%Z -> c k = v.
Proof.
  intros HP Hn. induction HP as [|p s ps ss HP HPS IH]; intros K a c v Hc Ha k Hk; unfold pole_loop in Hc; cbn [ofold] in Hc.
  - apply Some_inj in Hc. subst c. rewrite Ha by exact Hk. unfold weight. cbn [map rprodl]. ring.
  - destruct (pole_fwd b n (horizon p) p a) as [c1|] eqn:E; [|discriminate].
    apply (IH ltac:(destruct K as [K|[K1 K2]]; [left; exact K|right; split; [exact K1|intros q Hq; apply K2; right; exact Hq]]) c1 c v Hc); [|exact Hk].
    intros j Hj. rewrite (pole_const b n p s a c1 (v * weight (p :: ps)) HP Hn ltac:(destruct K as [K|[K1 K2]]; [left; exact K|right; split; [exact K1|intros q [Hq|[]]; apply K2; left; exact Hq]]) E Ha j Hj).
    unfold weight. cbn [map rprodl]. rewrite (pole_gain p s HP). assert (2 - s <> 0); [|field; assumption].
    pose proof (s_big p s HP). intros Z0. replace s with 2 in H by lra. rewrite Rabs_right in H by lra. lra.
Qed.

Lemma filter1d_const lines dims axis order b ps v : poles order = Some ps -> (axis < length dims)%nat -> (forall x, In x dims -> (1 <= x)%Z) -> (2 <= nth axis dims 0)%Z ->
  keeps b (nth axis dims 0%Z) ps -> Permutation lines (all_lines (zprod (skipn (S axis) dims)) (zprod (firstn axis dims))) ->
  spline_filter1d lines (fun _ => v) dims axis order b false = Some (fun _ => v).
Proof.
  intros Hps Ha Hd Hn K P. unfold spline_filter1d. rewrite Hps. set (n := nth axis dims 0%Z) in *. set (noff := zprod (skipn (S axis) dims)) in *.
  assert (Hno : (1 <= noff)%Z) by (apply zprod_pos; intros x Hx; apply Hd, (In_skipn_ _ _ _ Hx)).
  assert (HF : exists F, forall a, pole_loop b n false ps a = Some (F a)).
  { exists (fun a => match pole_loop b n false ps a with Some c => c | None => a end). intros a. destruct (pole_loop_total b n ps a Hn) as [c Ec]. rewrite Ec. reflexivity. }
  destruct HF as [F HF]. rewrite (lines_run n noff ltac:(lia) ltac:(lia) b false ps F HF).
  2: { apply (Permutation_NoDup (Permutation_sym P)). apply all_lines_NoDup; lia. }
  2: { intros ob Hob. apply (Permutation_in _ P) in Hob. apply all_lines_In in Hob; lia. }
  f_equal. apply functional_extensionality. intros e. unfold lresult. destruct (on_lines n noff lines e); [|reflexivity].
  apply (loop_const b n ps (svals order) (poles_spec order ps Hps) Hn K _ _ v (HF _)); [|apply kpos_range; lia].
  intros k Hk. unfold ldata, take_line. replace ((1 <=? k) && (k <=? n))%Z with true by lia. reflexivity.
Qed.
Lemma filter_const lines dims order border ndim ps v : border <> Breflect -> poles order = Some ps -> (ndim <= length dims)%nat ->
  (forall x, In x dims -> (1 <= x)%Z) -> (forall x, In x (skipn (length dims - ndim) dims) -> (2 <= x)%Z /\ keeps (iborder border) x ps) -> valid_lines dims lines ->
  spline_filter lines true dims (fun _ => v) order border ndim false = Some (fun _ => v).
Proof.
  intros Hb Hps Hl Hd H2 V. unfold spline_filter. destruct (filter_border border) as [b|] eqn:E; [|destruct border; discriminate || contradiction]. cbn [bind].
  assert (Eb : b = iborder border) by (destruct border; cbn in E |- *; congruence). subst b.
  assert (G : forall l, (forall a, In a l -> In a (seq (length dims - ndim) ndim)) -> ofold (fun data axis => data' <- spline_filter1d (lines axis) data dims axis order (iborder border) false;; Some data') l (fun _ => v) = Some (fun _ => v)).
  { induction l as [|x l IH]; intros H; cbn [ofold]; [reflexivity|]. pose proof (H x (or_introl eq_refl)) as Hx. apply in_seq in Hx.
    assert (X : In (nth x dims 0%Z) (skipn (length dims - ndim) dims)).
    { rewrite <- (firstn_skipn (length dims - ndim) dims) at 1. rewrite app_nth2 by (rewrite firstn_length; lia). apply nth_In. rewrite skipn_length, firstn_length. lia. }
    rewrite (filter1d_const (lines x) dims x order (iborder border) ps v Hps); [cbn [bind]; apply IH; intros a Ha; apply H; right; exact Ha|lia|exact Hd|apply H2, X|apply H2, X|apply V; lia]. }
  apply G. intros a Ha. exact Ha.
Qed.

(* ---------------------------------------------------------------- pixel centres *)
Lemma nzone_cells b order ps shape J is e : nzone b order ps shape J -> In is (tuples (nweight Spline order) (length shape)) ->
  exists d, cell b shape (map (offset Spline order) (map IZR J)) is e = Some d.
Proof.
  intros H His. apply tuples_In in His as [L R]. revert J is e H L R; induction shape as [|n shape IH]; intros [|j J] [|k is] e H L R; cbn [nzone length] in *; try contradiction; try discriminate; cbn [map cell]; [eauto|].
  destruct H as (_ & _ & _ & M & H). specialize (M k (R k (or_introl eq_refl))). destruct (Z.ltb_spec (map_border b n (k + offset Spline order (IZR j))) 0); [lia|].
  apply IH; [exact H|lia|intros x Hx; apply R; right; exact Hx].
Qed.
Lemma poles_len order ps : poles order = Some ps -> (2 <= order <= 5)%Z /\ (zlen ps <= (order + 1) / 2)%Z.
Proof.
  intros E. assert (O : (order = 2 \/ order = 3 \/ order = 4 \/ order = 5)%Z).
  { unfold poles in E. destruct order as [|o|o]; try discriminate. do 3 (destruct o as [o|o|]; try discriminate; try (now auto)). }
  destruct O as [O|[O|[O|O]]]; subst order; cbn [poles] in E; apply Some_inj in E; subst ps; split; try lia; unfold zlen; cbn [length]; vm_compute; discriminate.
Qed.
Lemma poles_some order : (2 <= order <= 5)%Z -> exists ps, poles order = Some ps.
Proof. intros H. assert (O : (order = 2 \/ order = 3 \/ order = 4 \/ order = 5)%Z) by lia. destruct O as [O|[O|[O|O]]]; subst order; cbn [poles]; eauto. Qed.

(* the pixels at which spline interpolation is shown to be exact *)
Definition pixel_ok (border : bname) (order n j : Z) : Prop :=
  (0 <= j < n)%Z /\
  ((border = Bcyclic \/ border = Bmirror) /\ (forall ps p, poles order = Some ps -> In p ps -> / 10 ^ 15 < Rabs p ^ Z.to_nat (n - 1)) \/
   ((order + 1) / 2 <= j /\ j + (order + 1) / 2 < n)%Z).
Fixpoint pixels_ok (border : bname) (order : Z) (shape J : list Z) : Prop :=
  match shape, J with n :: shape, j :: J => pixel_ok border order n j /\ pixels_ok border order shape J | [], [] => True | _, _ => False end.
Lemma pixels_nzone border order ps shape J : border <> Breflect -> poles order = Some ps -> (forall n, In n shape -> (2 <= n)%Z) ->
  pixels_ok border order shape J -> nzone (iborder border) order ps shape J.
Proof.
  intros Hb Hps. revert J; induction shape as [|n shape IH]; intros [|j J] Hn H; cbn [pixels_ok nzone] in *; try contradiction; [exact Logic.I|].
  destruct H as [[Hj HP] H]. pose proof (Hn n (or_introl eq_refl)) as Hn2. destruct (poles_len order ps Hps) as [HO HL].
  split; [exact Hn2|]. split; [exact Hj|]. 
  destruct HP as [[B S]|I].
  - assert (B' : iborder border = ECyclic \/ iborder border = EMirror) by (destruct B; subst; [left|right]; reflexivity).
    split; [left; split; [exact B'|]|split; [intros k _; apply mb_range; assumption|apply IH; [intros m Hm; apply Hn; right; exact Hm|exact H]]].
    intros p Hp. pose proof (poles_spec order ps Hps) as F. assert (Q : exists s, okpole p s).
    { clear - F Hp. induction F as [|a b l m HF F IH]; [contradiction|]. destruct Hp as [E|Hp]; [subst; exists b; exact HF|apply IH, Hp]. }
    destruct Q as (s & P0 & P1 & _). apply short_horizon; [exact P0|exact P1|lia|]. apply (S ps p Hps Hp).
  - split; [right; lia|]. split; [|apply IH; [intros m Hm; apply Hn; right; exact Hm|exact H]].
    intros k Hk. rewrite offset_int by lia. cbn [nweight] in *. replace (order + 1 - 1)%Z with order in * by lia.
    assert (2 * (order / 2) <= order /\ order < 2 * (order / 2) + 2 /\ order <= 2 * ((order + 1) / 2) /\ 2 * ((order + 1) / 2) <= order + 1)%Z.
    { pose proof (Z.div_mod order 2 ltac:(lia)). pose proof (Z.mod_pos_bound order 2 ltac:(lia)). pose proof (Z.div_mod (order + 1) 2 ltac:(lia)). pose proof (Z.mod_pos_bound (order + 1) 2 ltac:(lia)). lia. }
    assert ((order + 1) / 2 = order - order / 2)%Z.
    { assert (O : (order = 2 \/ order = 3 \/ order = 4 \/ order = 5)%Z) by lia. destruct O as [O|[O|[O|O]]]; subst order; reflexivity. }
    unfold map_border. replace ((k + (j - order / 2) <? 0) || (k + (j - order / 2) >=? n))%Z with false by lia. lia.
Qed.
