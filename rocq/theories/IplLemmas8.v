(* Lemmas for IplProps: constants, gradients, derivatives. *)
From Coq Require Import Reals Lra Lia FunctionalExtensionality.
From Verif Require Import Base AlmModel AlmLemmas IplSpec IplModel IplLemmas IplLemmas2 IplLemmas3 IplLemmas4 IplLemmas5 IplLemmas6 IplLemmas7.
Ltac Zify.zify_post_hook ::= idtac.
Open Scope R_scope.

(* all the cells a position needs are pixels of the array *)
Fixpoint covered (t : kind) (order : Z) (shape : list Z) (pos : list R) : Prop :=
  match shape, pos with
  | n :: shape, p :: pos => (0 <= offset t order p /\ offset t order p + nweight t order <= n)%Z /\ covered t order shape pos
  | [], [] => True
  | _, _ => False
  end.
Lemma covered_cells b t order shape pos is e : covered t order shape pos -> In is (tuples (nweight t order) (length shape)) ->
  exists d, cell b shape (map (offset t order) pos) is e = Some d.
Proof.
  intros H His. apply tuples_In in His as [L R]. revert pos is e H L R; induction shape as [|n shape IH]; intros [|p pos] [|k is] e H L R; cbn [covered length] in *; try contradiction; try discriminate; cbn [map cell]; [eauto|].
  destruct H as [H1 H2]. pose proof (R k (or_introl eq_refl)). unfold map_border. replace ((k + offset t order p <? 0) || (k + offset t order p >=? n))%Z with false by lia.
  replace (k + offset t order p <? 0)%Z with false by lia. apply IH; [exact H2|lia|intros x Hx; apply R; right; exact Hx].
Qed.
Lemma covered_length t order shape pos : covered t order shape pos -> length pos = length shape.
Proof. revert pos; induction shape as [|n shape IH]; intros [|p pos] H; cbn [covered] in H; try contradiction; cbn [length]; [reflexivity|f_equal; apply IH, H]. Qed.

Lemma nest_const b t order shape pos v e : interpolating t order -> length pos = length shape -> nest b t order shape pos (fun _ => v) e = v.
Proof.
  intros H. revert pos e; induction shape as [|n shape IH]; intros [|p pos] e L; cbn [length] in L; try discriminate; [reflexivity|]. cbn [nest].
  rewrite (rsuml_ext _ (fun k => v * weight_at t order p k)) by (intros; rewrite IH by lia; ring). rewrite rsuml_scal.
  destruct (weights_moments t order p H) as [S _]. transitivity (v * 1); [f_equal; exact S|ring].
Qed.

Lemma nest_linear b t order shape pos data alpha beta e : interpolating t order -> covered t order shape pos ->
  length beta = length shape -> (forall J, inside shape J -> data (ravel shape J e) = alpha + lin_at beta (map IZR J)) ->
  nest b t order shape pos data e = alpha + lin_at beta pos.
Proof.
  intros H. revert pos alpha beta e; induction shape as [|n shape IH]; intros [|p pos] alpha [|c beta] e C L HD; cbn [length covered] in *; try discriminate; try contradiction.
  - specialize (HD [] Logic.I). exact HD.
  - cbn [nest lin_at]. destruct C as [C1 C2].
    rewrite (rsuml_ext _ (fun k => (alpha + lin_at beta pos) * weight_at t order p k + c * (weight_at t order p k * IZR (k + offset t order p)))).
    + rewrite rsuml_plus, !rsuml_scal. destruct (weights_moments t order p H) as [S M]. change (fun k => weight_at t order p k) with (weight_at t order p) in S. rewrite S. change (fun x => weight_at t order p x * IZR (x + offset t order p)) with (fun k => weight_at t order p k * IZR (k + offset t order p)). rewrite M. ring.
    + intros k Hk. apply zrange_In in Hk. unfold map_border. replace ((k + offset t order p <? 0) || (k + offset t order p >=? n))%Z with false by lia.
      rewrite (IH pos (alpha + c * IZR (k + offset t order p)) beta); [ring|exact C2|lia|].
      intros J HJ. specialize (HD ((k + offset t order p)%Z :: J)). cbn [ravel map lin_at] in HD. rewrite HD by (split; [lia|exact HJ]). ring.
Qed.

(* ---------------------------------------------------------------- derivatives *)
From Coquelicot Require Import Coquelicot.

Definition smooth (t : kind) (order : Z) (p : R) : Prop := forall z : Z, p - (IZR (nweight t order) - 2) * 0.5 <> IZR z.
Definition differentiable (t : kind) (order : Z) : Prop :=
  match t with Conv => order = 1 \/ order = 3 | Spline => order = 1 \/ order = 2 \/ order = 4 | Lanczos => False end%Z.

Lemma loc_between (x a b : R) : a < x < b -> locally x (fun y => a < y < b).
Proof. intros [H1 H2]. apply filter_and; [apply (open_gt a x H1)|apply (open_lt b x H2)]. Qed.
Lemma loc_offset t order p : (1 <= order)%Z -> smooth t order p -> locally p (fun q => offset t order q = offset t order p).
Proof.
  intros O H. pose proof (offset_bounds t order p O) as B. set (w := (IZR (nweight t order) - 2) * 0.5) in *.
  assert (N : p - IZR (offset t order p) <> w) by (intros E; apply (H (offset t order p)); fold w; lra).
  apply (filter_imp (fun q => IZR (offset t order p) + w < q < IZR (offset t order p) + w + 1)); [|apply loc_between; lra].
  intros q Hq. pose proof (offset_bounds t order q O) as B'. fold w in B'.
  assert (IZR (offset t order q) < IZR (offset t order p + 1)) by (rewrite plus_IZR; lra). assert (IZR (offset t order p) < IZR (offset t order q + 1)) by (rewrite plus_IZR; lra).
  apply lt_IZR in H0, H1. lia.
Qed.

(* one piece of a kernel: on an open interval it is a polynomial *)
Lemma piece (f g : R -> R) (p a b l l' : R) : a < p < b -> (forall q, a < q < b -> f q = g q) -> is_derive g p l' -> l' = l -> is_derive f p l.
Proof.
  intros H E D Hl. subst l'. apply (is_derive_ext_loc g f); [|exact D]. apply (filter_imp (fun y => a < y < b)); [|apply loc_between; exact H]. intros y Hy. symmetry. apply E, Hy.
Qed.

Ltac kpiece c := intros q Hq; unfold kernel; first [rewrite (Rabs_right (q - c)) by lra | rewrite (Rabs_left1 (q - c)) by lra]; klt; reflexivity.
Ltac kdone := first [auto_derive; [exact Logic.I|reflexivity]].
Ltac kfin c p := unfold dkernel; first [rewrite (Rabs_right (p - c)) by lra | rewrite (Rabs_left1 (p - c)) by lra]; klt; try lra; field_simplify; lra.

Lemma kd_linear t (p c : R) : (t = Conv \/ t = Spline) -> p - c <> 0 -> -1 < p - c < 1 ->
  is_derive (fun q => kernel t 1 (Rabs (q - c))) p ((if Rlt_dec 0 (p - c) then 1 else -1) * dkernel t 1 (Rabs (p - c))).
Proof.
  intros T H0 H1. assert (E : forall x, kernel t 1 x = kernel Conv 1 x) by (intros; destruct T; subst; reflexivity).
  assert (E' : forall x, dkernel t 1 x = dkernel Conv 1 x) by (intros; destruct T; subst; reflexivity).
  apply (is_derive_ext (fun q => kernel Conv 1 (Rabs (q - c)))); [intros; symmetry; apply E|]. rewrite E'.
  destruct (Rlt_dec 0 (p - c)).
  - apply (piece _ (fun q => 1 - (q - c)) p c (c + 1) _ (-1)); [lra|kpiece c|auto_derive; [exact Logic.I|ring]|].
    unfold dkernel. rewrite Rabs_right by lra. klt. lra.
  - apply (piece _ (fun q => 1 - - (q - c)) p (c - 1) c _ 1); [lra|kpiece c|auto_derive; [exact Logic.I|ring]|].
    unfold dkernel. rewrite Rabs_left1 by lra. klt. lra.
Qed.
Lemma kd_conv3 (p c : R) : p - c <> 0 -> p - c <> 1 -> p - c <> -1 -> -2 < p - c < 2 ->
  is_derive (fun q => kernel Conv 3 (Rabs (q - c))) p ((if Rlt_dec 0 (p - c) then 1 else -1) * dkernel Conv 3 (Rabs (p - c))).
Proof.
  intros H0 H1 H2 H3. destruct (Rlt_dec 0 (p - c)); [destruct (Rlt_dec (p - c) 1)|destruct (Rlt_dec (-1) (p - c))].
  - eapply (piece _ (fun q => 1.5 * (q - c) ^ 3 - 2.5 * (q - c) ^ 2 + 1) p c (c + 1)); [lra|kpiece c|auto_derive; [exact Logic.I|reflexivity]|].
    unfold dkernel. rewrite Rabs_right by lra. klt. simpl. lra.
  - eapply (piece _ (fun q => - 0.5 * (q - c) ^ 3 + 2.5 * (q - c) ^ 2 - 4 * (q - c) + 2) p (c + 1) (c + 2)); [lra|kpiece c|auto_derive; [exact Logic.I|reflexivity]|].
    unfold dkernel. rewrite Rabs_right by lra. klt. simpl. lra.
  - eapply (piece _ (fun q => 1.5 * (- (q - c)) ^ 3 - 2.5 * (- (q - c)) ^ 2 + 1) p (c - 1) c); [lra|kpiece c|auto_derive; [exact Logic.I|reflexivity]|].
    unfold dkernel. rewrite Rabs_left1 by lra. klt. simpl. lra.
  - eapply (piece _ (fun q => - 0.5 * (- (q - c)) ^ 3 + 2.5 * (- (q - c)) ^ 2 - 4 * (- (q - c)) + 2) p (c - 2) (c - 1)); [lra|kpiece c|auto_derive; [exact Logic.I|reflexivity]|].
    unfold dkernel. rewrite Rabs_left1 by lra. klt. simpl. lra.
Qed.
Lemma kd_spline2 (p c : R) : p - c <> 0.5 -> p - c <> -0.5 -> -1.5 < p - c < 1.5 ->
  is_derive (fun q => kernel Spline 2 (Rabs (q - c))) p ((if Rlt_dec 0 (p - c) then 1 else -1) * dkernel Spline 2 (Rabs (p - c))).
Proof.
  intros H1 H2 H3. destruct (Rlt_dec 0.5 (p - c)); [|destruct (Rlt_dec (p - c) (-0.5))].
  - eapply (piece _ (fun q => 0.50 * (1.5 - (q - c)) ^ 2) p (c + 0.5) (c + 1.5)); [lra|kpiece c|auto_derive; [exact Logic.I|reflexivity]|].
    unfold dkernel. rewrite Rabs_right by lra. klt. simpl. lra.
  - eapply (piece _ (fun q => 0.50 * (1.5 - - (q - c)) ^ 2) p (c - 1.5) (c - 0.5)); [lra|kpiece c|auto_derive; [exact Logic.I|reflexivity]|].
    unfold dkernel. rewrite Rabs_left1 by lra. klt. simpl. lra.
  - eapply (piece _ (fun q => 0.75 - (q - c) ^ 2) p (c - 0.5) (c + 0.5)); [lra| |auto_derive; [exact Logic.I|reflexivity]|].
    + intros q Hq. unfold kernel. destruct (Rle_dec 0 (q - c)); [rewrite (Rabs_right (q - c)) by lra|rewrite (Rabs_left1 (q - c)) by lra]; klt; ring.
    + unfold dkernel. destruct (Rlt_dec 0 (p - c)); [rewrite Rabs_right by lra|rewrite Rabs_left1 by lra]; klt; simpl; lra.
Qed.
Lemma kd_spline4 (p c : R) : p - c <> 0.5 -> p - c <> -0.5 -> p - c <> 1.5 -> p - c <> -1.5 -> -2.5 < p - c < 2.5 ->
  is_derive (fun q => kernel Spline 4 (Rabs (q - c))) p ((if Rlt_dec 0 (p - c) then 1 else -1) * dkernel Spline 4 (Rabs (p - c))).
Proof.
  intros H1 H2 H3 H4 H5. destruct (Rlt_dec 1.5 (p - c)); [|destruct (Rlt_dec 0.5 (p - c)); [|destruct (Rlt_dec (p - c) (-1.5)); [|destruct (Rlt_dec (p - c) (-0.5))]]].
  - eapply (piece _ (fun q => ((q - c) - 2.5) ^ 4 / 24) p (c + 1.5) (c + 2.5)); [lra|kpiece c|auto_derive; [exact Logic.I|reflexivity]|].
    unfold dkernel. rewrite Rabs_right by lra. klt. simpl. lra.
  - eapply (piece _ (fun q => (q - c) * ((q - c) * ((q - c) * (5 / 6 - (q - c) / 6) - 1.25) + 5 / 24) + 55 / 96) p (c + 0.5) (c + 1.5)); [lra|kpiece c|auto_derive; [exact Logic.I|reflexivity]|].
    unfold dkernel. rewrite Rabs_right by lra. klt. simpl. lra.
  - eapply (piece _ (fun q => (- (q - c) - 2.5) ^ 4 / 24) p (c - 2.5) (c - 1.5)); [lra|kpiece c|auto_derive; [exact Logic.I|reflexivity]|].
    unfold dkernel. rewrite Rabs_left1 by lra. klt. simpl. lra.
  - eapply (piece _ (fun q => (- (q - c)) * ((- (q - c)) * ((- (q - c)) * (5 / 6 - (- (q - c)) / 6) - 1.25) + 5 / 24) + 55 / 96) p (c - 1.5) (c - 0.5)); [lra|kpiece c|auto_derive; [exact Logic.I|reflexivity]|].
    unfold dkernel. rewrite Rabs_left1 by lra. klt. simpl. lra.
  - eapply (piece _ (fun q => (q - c) ^ 2 * ((q - c) ^ 2 * 0.25 - 0.625) + 115 / 192) p (c - 0.5) (c + 0.5)); [lra| |auto_derive; [exact Logic.I|reflexivity]|].
    + intros q Hq. unfold kernel. destruct (Rle_dec 0 (q - c)); [rewrite (Rabs_right (q - c)) by lra|rewrite (Rabs_left1 (q - c)) by lra]; klt; [reflexivity|]. replace ((- (q - c)) ^ 2) with ((q - c) ^ 2) by ring. reflexivity.
    + unfold dkernel. destruct (Rlt_dec 0 (p - c)); [rewrite Rabs_right by lra|rewrite Rabs_left1 by lra]; klt; simpl; lra.
Qed.

(* strict bounds on the relative position *)
Lemma smooth_bounds t order p : (1 <= order)%Z -> smooth t order p -> (IZR (nweight t order) - 2) * 0.5 < p - IZR (offset t order p) < (IZR (nweight t order) - 2) * 0.5 + 1.
Proof. intros O H. pose proof (offset_bounds t order p O). specialize (H (offset t order p)). lra. Qed.

Lemma weight_deriv t order p k : differentiable t order -> smooth t order p -> (0 <= k < nweight t order)%Z ->
  is_derive (fun q => kernel t order (Rabs (q - IZR k - IZR (offset t order p)))) p (dweight_at t order p k).
Proof.
  intros D S Hk. assert (O : (1 <= order)%Z) by (destruct t; cbn [differentiable] in D; try lia; contradiction).
  pose proof (smooth_bounds t order p O S) as B. unfold dweight_at. replace (order =? 0)%Z with false by lia. cbv zeta.
  set (off := offset t order p) in *. set (c := IZR k + IZR off).
  apply (is_derive_ext (fun q => kernel t order (Rabs (q - c)))). { intros q. f_equal. f_equal. unfold c. ring. }
  replace (p - IZR k - IZR off) with (p - c) by (unfold c; ring).
  assert (C : p - c = p - IZR off - IZR k) by (unfold c; ring). set (u := p - IZR off) in *. clearbody u. clearbody c.
  destruct t; cbn [differentiable] in D; [destruct D as [D|D]|destruct D as [D|[D|D]]|contradiction]; subst order;
    [change (nweight Conv 1) with 2%Z in *|change (nweight Conv 3) with 4%Z in *|change (nweight Spline 1) with 2%Z in *|change (nweight Spline 2) with 3%Z in *|change (nweight Spline 4) with 5%Z in *].
  - assert (K : (k = 0 \/ k = 1)%Z) by lia. apply kd_linear; [left; reflexivity|..]; destruct K; subst k; lra.
  - assert (K : (k = 0 \/ k = 1 \/ k = 2 \/ k = 3)%Z) by lia. apply kd_conv3; destruct K as [K|[K|[K|K]]]; subst k; lra.
  - assert (K : (k = 0 \/ k = 1)%Z) by lia. apply kd_linear; [right; reflexivity|..]; destruct K; subst k; lra.
  - assert (K : (k = 0 \/ k = 1 \/ k = 2)%Z) by lia. apply kd_spline2; destruct K as [K|[K|K]]; subst k; lra.
  - assert (K : (k = 0 \/ k = 1 \/ k = 2 \/ k = 3 \/ k = 4)%Z) by lia. apply kd_spline4; destruct K as [K|[K|[K|[K|K]]]]; subst k; lra.
Qed.

Lemma quartic_pos y : 0 < y < 1 -> 0 < 1 + 4 * y + 6 * y ^ 2 + 4 * y ^ 3 - 4 * y ^ 4.
Proof. intros H. assert (0 <= y ^ 3) by (apply pow_le; lra). replace (4 * y ^ 4) with (4 * y ^ 3 * y) by ring. assert (4 * y ^ 3 * y <= 4 * y ^ 3 * 1) by (apply Rmult_le_compat_l; lra). assert (0 <= y ^ 2) by (apply pow_le; lra). lra. Qed.
Lemma weight_nonzero t order p k : differentiable t order -> smooth t order p -> (0 <= k < nweight t order)%Z -> weight_at t order p k <> 0.
Proof.
  intros D S Hk. assert (O : (1 <= order)%Z) by (destruct t; cbn [differentiable] in D; try lia; contradiction).
  pose proof (smooth_bounds t order p O S) as B. rewrite weight_u by exact O. set (u := p - IZR (offset t order p)) in *. clearbody u.
  destruct t; cbn [differentiable] in D; [destruct D as [D|D]|destruct D as [D|[D|D]]|contradiction]; subst order;
    [change (nweight Conv 1) with 2%Z in *|change (nweight Conv 3) with 4%Z in *|change (nweight Spline 1) with 2%Z in *|change (nweight Spline 2) with 3%Z in *|change (nweight Spline 4) with 5%Z in *].
  - assert (K : (k = 0 \/ k = 1)%Z) by lia. destruct K; subst k; kabs; unfold kernel; klt; lra.
  - assert (K : (k = 0 \/ k = 1 \/ k = 2 \/ k = 3)%Z) by lia.
    assert (F1 : forall x, 0 < x < 1 -> 1.5 * x ^ 3 - 2.5 * x ^ 2 + 1 <> 0) by (intros x Hx; replace (1.5 * x ^ 3 - 2.5 * x ^ 2 + 1) with ((1 - x) * (1 + x - 1.5 * (x * x))) by lra; apply Rmult_integral_contrapositive_currified; nra).
    assert (F2 : forall x, 1 < x < 2 -> - 0.5 * x ^ 3 + 2.5 * x ^ 2 - 4 * x + 2 <> 0) by (intros x Hx; replace (- 0.5 * x ^ 3 + 2.5 * x ^ 2 - 4 * x + 2) with ((1 - x) * (0.5 * ((2 - x) * (2 - x)))) by lra; apply Rmult_integral_contrapositive_currified; nra).
    destruct K as [K|[K|[K|K]]]; subst k; kabs; unfold kernel; klt; (apply F1 || apply F2); lra.
  - assert (K : (k = 0 \/ k = 1)%Z) by lia. destruct K; subst k; kabs; unfold kernel; klt; lra.
  - assert (K : (k = 0 \/ k = 1 \/ k = 2)%Z) by lia. destruct K as [K|[K|K]]; subst k; [|destruct (Rle_dec 1 u)|]; kabs; unfold kernel; klt; nra.
  - assert (K : (k = 0 \/ k = 1 \/ k = 2 \/ k = 3 \/ k = 4)%Z) by lia.
    assert (F1 : forall x, 1.5 < x < 2.5 -> (x - 2.5) ^ 4 / 24 <> 0) by (intros x Hx; unfold Rdiv; apply Rmult_integral_contrapositive_currified; [apply pow_nonzero; lra|lra]).
    assert (F2 : forall x, 0.5 < x < 1.5 -> x * (x * (x * (5 / 6 - x / 6) - 1.25) + 5 / 24) + 55 / 96 <> 0).
    { intros x Hx. pose proof (quartic_pos (1.5 - x) ltac:(lra)). lra. }
    assert (F3 : forall x, 0 <= x < 0.5 -> x ^ 2 * (x ^ 2 * 0.25 - 0.625) + 115 / 192 <> 0).
    { intros x Hx. assert (0 <= x ^ 2 <= 0.25) by (simpl; nra). nra. }
    destruct K as [K|[K|[K|[K|K]]]]; subst k; [| |destruct (Rle_dec 2 u)| |]; kabs; unfold kernel; klt; (apply F1 || apply F2 || apply F3); lra.
Qed.

(* ---------------------------------------------------------------- sums with other weights *)
Fixpoint gnest (b : edge) (nw : Z) (shape : list Z) (axes : list (Z * (Z -> R))) (data : arr) (e : Z) : R :=
  match shape, axes with
  | n :: shape, (o, w) :: axes => rsuml (map (fun k => w k * gnest b nw shape axes data (e * n + map_border b n (k + o))%Z) (zrange 0 nw))
  | _, _ => data e
  end.
Definition gprod (axes : list (Z * (Z -> R))) (is : list Z) : R := rprodl (map (fun '((_, w), k) => w k) (combine axes is)).
Lemma gnest_sum b nw shape axes data e : length axes = length shape ->
  (forall is, In is (tuples nw (length shape)) -> exists d, cell b shape (map fst axes) is e = Some d) ->
  rsuml (map (fun is => data (match cell b shape (map fst axes) is e with Some d => d | None => 0%Z end) * gprod axes is) (tuples nw (length shape)))
  = gnest b nw shape axes data e.
Proof.
  revert axes e; induction shape as [|n shape IH]; intros [|[o w] axes] e L H; cbn [length] in *; try discriminate.
  - cbn. ring.
  - cbn [tuples gnest map fst]. rewrite rsuml_flat_map. apply rsuml_ext. intros k Hk. rewrite map_map.
    assert (G : forall is, In is (tuples nw (length shape)) ->
      (map_border b n (k + o) <? 0)%Z = false /\ exists d, cell b shape (map fst axes) is (e * n + map_border b n (k + o))%Z = Some d).
    { intros is His. assert (H' := H (k :: is)). cbn [map fst] in H'. destruct H' as (d & Hd).
      - cbn [tuples]. apply in_flat_map. exists k. split; [exact Hk|]. apply in_map, His.
      - cbn [cell] in Hd. destruct (map_border b n (k + o) <? 0)%Z eqn:E; [discriminate Hd|]. eauto. }
    rewrite <- IH; [|lia|intros is His; apply G, His]. rewrite <- rsuml_scal. apply rsuml_ext. intros is His. cbn [cell].
    destruct (G is His) as [G1 (d & G2)]. rewrite G1, G2. unfold gprod. cbn [combine map rprodl]. ring.
Qed.

Section Deriv.
Variables (t : kind) (order : Z).
Definition waxes (pos : list R) : list (Z * (Z -> R)) := map (fun p => (offset t order p, weight_at t order p)) pos.
Fixpoint daxes (i : nat) (pos : list R) : list (Z * (Z -> R)) :=
  match pos with
  | [] => []
  | p :: pos => match i with O => (offset t order p, dweight_at t order p) :: waxes pos | S i => (offset t order p, weight_at t order p) :: daxes i pos end
  end.
Lemma daxes_length i pos : length (daxes i pos) = length pos.
Proof. revert i; induction pos as [|p pos IH]; intros [|i]; cbn [daxes length]; [reflexivity..| |]; [unfold waxes; rewrite map_length; reflexivity|rewrite IH; reflexivity]. Qed.
Lemma daxes_fst i pos : map fst (daxes i pos) = map (offset t order) pos.
Proof. revert i; induction pos as [|p pos IH]; intros [|i]; cbn [daxes map fst]; [reflexivity..| |]; [unfold waxes; rewrite map_map; reflexivity|rewrite IH; reflexivity]. Qed.
Lemma nest_gnest b shape pos data e : nest b t order shape pos data e = gnest b (nweight t order) shape (waxes pos) data e.
Proof.
  revert pos e; induction shape as [|n shape IH]; intros [|p pos] e; try reflexivity. cbn [nest waxes map gnest]. apply rsuml_ext. intros k Hk. rewrite IH. reflexivity.
Qed.
Lemma gprod_waxes pos is : gprod (waxes pos) is = wprod t order pos is.
Proof. revert is; induction pos as [|p pos IH]; intros [|k is]; try reflexivity. unfold gprod, wprod, cell_weights in *. cbn [waxes map combine rprodl]. fold (waxes pos). rewrite IH. reflexivity. Qed.
Lemma gprod_daxes i pos is : (i < length pos)%nat -> length is = length pos -> weight_at t order (nth i pos 0) (nth i is 0%Z) <> 0 ->
  gprod (daxes i pos) is = wprod t order pos is * dweight_at t order (nth i pos 0) (nth i is 0%Z) / weight_at t order (nth i pos 0) (nth i is 0%Z).
Proof.
  revert i is; induction pos as [|p pos IH]; intros [|i] [|k is] Hi L W; cbn [length nth] in *; try lia; cbn [daxes].
  - pose proof (gprod_waxes pos is) as G. unfold gprod, wprod, cell_weights in *. cbn [map combine rprodl]. rewrite G. field. exact W.
  - pose proof (IH i is ltac:(lia) ltac:(lia) W) as G. unfold gprod, wprod, cell_weights in *. cbn [map combine rprodl]. rewrite G. field. exact W.
Qed.

Lemma deriv1_gnest b shape pos i data : (1 <= nweight t order)%Z -> length pos = length shape -> (i < length pos)%nat ->
  (forall is, In is (tuples (nweight t order) (length shape)) -> exists d, cell b shape (map (offset t order) pos) is 0 = Some d) ->
  (forall k, (0 <= k < nweight t order)%Z -> weight_at t order (nth i pos 0) k <> 0) ->
  deriv1 t order b shape pos i data = gnest b (nweight t order) shape (daxes i pos) data 0.
Proof.
  intros Hw L Hi H W. unfold deriv1.
  set (tm := fun v : Z * list Z => let x := fold_left Rmult (cell_weights t order pos (snd v)) (data (fst v)) in
     if Req_EM_T x 0 then 0 else x * dweight_at t order (nth i pos 0) (nth i (snd v) 0%Z) / weight_at t order (nth i pos 0) (nth i (snd v) 0%Z)).
  assert (E : forall l s, fold_left (fun res '(dind, inds) => let v := fold_left Rmult (cell_weights t order pos inds) (data dind) in
      if Req_EM_T v 0 then res else let p := nth i pos 0 in let k := nth i inds 0%Z in res + v * dweight_at t order p k / weight_at t order p k) l s = s + rsuml (map tm l)).
  { induction l as [|[d is] l IH]; intros s; cbn [fold_left map rsuml]; [ring|]. rewrite IH. unfold tm at 2. cbn [fst snd]. cbv zeta. destruct (Req_EM_T _ 0); ring. }
  rewrite E, Rplus_0_l. unfold visits. rewrite L, cloop_tuples by exact Hw. rewrite takewhile_all.
  2: { intros is His. unfold found. destruct (H is His) as (d & Ed). rewrite Ed. reflexivity. }
  rewrite map_map. rewrite <- gnest_sum; [|rewrite daxes_length; exact L|rewrite daxes_fst; exact H].
  apply rsuml_ext. intros is His. rewrite daxes_fst. fold (cell0 b shape (map (offset t order) pos) is).
  apply tuples_In in His as [Li Ri].
  assert (Wi : weight_at t order (nth i pos 0) (nth i is 0%Z) <> 0) by (apply W, Ri, nth_In; lia).
  unfold tm. cbn [fst snd]. cbv zeta. rewrite fold_mult. fold (wprod t order pos is). rewrite gprod_daxes by (lia || exact Wi).
  destruct (Req_EM_T _ 0) as [Z0|Z0]; [|field; exact Wi].
  set (w := weight_at t order (nth i pos 0) (nth i is 0%Z)) in *. set (dw := dweight_at t order (nth i pos 0) (nth i is 0%Z)).
  set (x := data (cell0 b shape (map (offset t order) pos) is)) in *. replace (x * (wprod t order pos is * dw / w)) with (x * wprod t order pos is * (dw / w)) by (field; exact Wi). rewrite Z0. ring.
Qed.

Lemma is_derive_rsuml {A} (f : A -> R -> R) (d : A -> R) l p : (forall x, In x l -> is_derive (f x) p (d x)) -> is_derive (fun q => rsuml (map (fun x => f x q) l)) p (rsuml (map d l)).
Proof.
  induction l as [|x l IH]; intros H; cbn [map rsuml]; [apply (is_derive_const (V := R_NormedModule))|].
  apply (is_derive_plus (V := R_NormedModule) (f x)); [apply H; left; reflexivity|apply IH; intros; apply H; right; assumption].
Qed.

Hypothesis HD : differentiable t order.
Lemma order_pos : (1 <= order)%Z.
Proof. destruct t; cbn [differentiable] in HD; try lia; contradiction. Qed.

Lemma upd_offset i pos : smooth t order (nth i pos 0) -> locally (nth i pos 0) (fun q => map (offset t order) (upd i q pos) = map (offset t order) pos).
Proof.
  intros S. apply (filter_imp (fun q => offset t order q = offset t order (nth i pos 0))); [|apply loc_offset; [apply order_pos|exact S]].
  intros q. clear S. revert i; induction pos as [|p pos IH]; intros [|i] E; cbn [upd map nth] in *; try reflexivity; [rewrite E; reflexivity|rewrite IH by exact E; reflexivity].
Qed.
Lemma upd_length i q pos : length (upd i q pos) = length pos.
Proof. revert i; induction pos as [|p pos IH]; intros [|i]; cbn [upd length]; [reflexivity..| |]; [reflexivity|rewrite IH; reflexivity]. Qed.

Lemma nest_derive b shape pos i data e : length pos = length shape -> (i < length pos)%nat -> smooth t order (nth i pos 0) ->
  is_derive (fun q => nest b t order shape (upd i q pos) data e) (nth i pos 0) (gnest b (nweight t order) shape (daxes i pos) data e).
Proof.
  revert pos i e; induction shape as [|n shape IH]; intros [|p pos] i e L Hi S; cbn [length] in *; try lia. destruct i as [|i]; cbn [nth upd daxes gnest nest] in *.
  - apply (is_derive_ext_loc (fun q => rsuml (map (fun k => kernel t order (Rabs (q - IZR k - IZR (offset t order p))) * nest b t order shape pos data (e * n + map_border b n (k + offset t order p))%Z) (zrange 0 (nweight t order))))).
    + apply (filter_imp (fun q => offset t order q = offset t order p)); [|apply loc_offset; [apply order_pos|exact S]].
      intros q E. apply rsuml_ext. intros k Hk. rewrite E. unfold weight_at. rewrite E. pose proof order_pos. replace (order =? 0)%Z with false by lia. reflexivity.
    + apply is_derive_rsuml. intros k Hk. apply zrange_In in Hk. rewrite <- nest_gnest.
      set (C := nest b t order shape pos data (e * n + map_border b n (k + offset t order p))%Z).
      apply (is_derive_ext (fun q => scal C (kernel t order (Rabs (q - IZR k - IZR (offset t order p)))))); [intros q; apply Rmult_comm|].
      replace (dweight_at t order p k * C) with (scal C (dweight_at t order p k)) by (apply Rmult_comm). apply is_derive_scal. apply weight_deriv; [exact HD|exact S|lia].
  - apply is_derive_rsuml. intros k Hk. apply (is_derive_scal (fun q => nest b t order shape (upd i q pos) data (e * n + map_border b n (k + offset t order p))%Z)). apply IH; [lia|lia|exact S].
Qed.

Lemma interpol1_derive b shape pos i data : length pos = length shape -> (i < length pos)%nat -> smooth t order (nth i pos 0) ->
  (forall is, In is (tuples (nweight t order) (length shape)) -> exists d, cell b shape (map (offset t order) pos) is 0 = Some d) ->
  is_derive (fun q => interpol1 t order b shape (upd i q pos) data) (nth i pos 0) (deriv1 t order b shape pos i data).
Proof.
  intros L Hi S H. assert (Hw : (1 <= nweight t order)%Z).
  { destruct t; cbn [differentiable] in HD; cbn [nweight]; [destruct HD; subst; lia| |contradiction]. destruct HD as [E|[E|E]]; subst; lia. }
  rewrite deriv1_gnest; [|exact Hw|exact L|exact Hi|exact H|intros k Hk; apply weight_nonzero; assumption].
  apply (is_derive_ext_loc (fun q => nest b t order shape (upd i q pos) data 0)); [|apply nest_derive; assumption].
  apply (filter_imp (fun q => map (offset t order) (upd i q pos) = map (offset t order) pos)); [|apply upd_offset; exact S].
  intros q E. symmetry. apply interpol1_nest; [exact Hw|rewrite upd_length; exact L|]. rewrite E. exact H.
Qed.
End Deriv.
