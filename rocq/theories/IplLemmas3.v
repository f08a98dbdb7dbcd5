(* Lemmas for IplProps: reading and adding at the interpolation points. *)
From Coq Require Import Reals Lra FunctionalExtensionality.
From Verif Require Import Base AlmModel AlmLemmas IplSpec IplModel IplLemmas IplLemmas2.
Ltac Zify.zify_post_hook ::= idtac.
Open Scope R_scope.

Definition okshape (b : edge) (shape : list Z) : Prop := forall n, In n shape -> (1 <= n)%Z /\ (b = EMirror -> (2 <= n)%Z).

Lemma map_border_range b n i : (1 <= n)%Z -> (b = EMirror -> (2 <= n)%Z) -> (map_border b n i = -1)%Z \/ (0 <= map_border b n i < n)%Z.
Proof.
  intros Hn Hm. unfold map_border. destruct ((i <? 0) || (i >=? n))%Z eqn:E; [|right; lia]. destruct b.
  - left; reflexivity.
  - right. lia.
  - right. apply Z.mod_pos_bound. lia.
  - right. specialize (Hm eq_refl). pose proof (Z.mod_pos_bound i (2 * n - 2) ltac:(lia)). cbv zeta.
    destruct (Z.geb_spec (i mod (2 * n - 2)) n); lia.
Qed.

Lemma cell_range b shape off inds e d : okshape b shape -> length off = length shape -> length inds = length shape ->
  cell b shape off inds e = Some d -> (e * zprod shape <= d < (e + 1) * zprod shape)%Z.
Proof.
  revert off inds e; induction shape as [|n shape IH]; intros [|o off] [|k inds] e H L1 L2 E; cbn [length] in *; try discriminate; cbn [cell zprod] in *.
  - apply Some_inj in E. lia.
  - destruct (Z.ltb_spec (map_border b n (k + o)) 0) as [G|G]; [discriminate|].
    destruct (H n (or_introl eq_refl)) as [H1 H2]. destruct (map_border_range b n (k + o) H1 H2) as [B|B]; [lia|].
    assert (H' : okshape b shape) by (intros x Hx; apply H; right; exact Hx).
    apply IH in E; [|exact H'|lia|lia].
    assert (1 <= zprod shape)%Z by (apply zprod_pos; intros x Hx; apply H', Hx).
    set (xi := map_border b n (k + o)) in *. set (P := zprod shape) in *. split; nia.
Qed.

Lemma adv_length nw r : length (adv nw r) = length r.
Proof. induction r as [|k r IH]; cbn [adv length]; [reflexivity|]. destruct (k + 1 <? nw)%Z; cbn [length]; [reflexivity|]. rewrite IH. reflexivity. Qed.
Lemma advance_length nw r : length (advance nw r) = length r.
Proof. unfold advance. rewrite rev_length, adv_length, rev_length. reflexivity. Qed.

Lemma cloop_In b nw shape off fuel inds d is : length off = length shape -> length inds = length shape -> okshape b shape ->
  In (d, is) (cloop b nw shape off fuel inds) -> (0 <= d < zprod shape)%Z /\ length is = length shape.
Proof.
  intros L1 L2 H. revert inds L2; induction fuel as [|fuel IH]; intros inds L2 HI; cbn [cloop] in HI; [destruct HI|].
  destruct (cell b shape off inds 0) as [d'|] eqn:E; [|apply (IH _ L2 HI)].
  destruct HI as [HI|HI].
  - injection HI as E1 E2. subst. split; [|exact L2]. apply cell_range in E; auto. lia.
  - apply (IH (advance nw inds)); [rewrite advance_length; exact L2|exact HI].
Qed.
Lemma visits_In t order b shape pos d is : length pos = length shape -> okshape b shape -> In (d, is) (visits t order b shape pos) ->
  (0 <= d < zprod shape)%Z /\ length is = length shape.
Proof. intros L H. unfold visits. apply cloop_In; [rewrite map_length; exact L|rewrite repeat_length; exact L|exact H]. Qed.

Lemma fold_mult l v : fold_left Rmult l v = v * rprodl l.
Proof. revert v; induction l as [|x l IH]; intros v; cbn [fold_left rprodl]; [ring|]. rewrite IH. ring. Qed.
Lemma fold_sum {A} (f : A -> R) l s : fold_left (fun s x => s + f x) l s = s + rsuml (map f l).
Proof. revert s; induction l as [|x l IH]; intros s; cbn [fold_left map rsuml]; [ring|]. rewrite IH. ring. Qed.

Definition wprod t order pos (is : list Z) : R := rprodl (cell_weights t order pos is).
Lemma interpol1_sum t order b shape pos data :
  interpol1 t order b shape pos data = rsuml (map (fun v => data (fst v) * wprod t order pos (snd v)) (visits t order b shape pos)).
Proof.
  unfold interpol1.
  transitivity (fold_left (fun s v => s + (data (fst v) * wprod t order pos (snd v))) (visits t order b shape pos) 0).
  - generalize (visits t order b shape pos) as l. generalize 0 as s. intros s l; revert s. induction l as [|[d is] l IH]; intros s; cbn [fold_left fst snd]; [reflexivity|].
    rewrite fold_mult. apply IH.
  - rewrite fold_sum. ring.
Qed.

Lemma apply_updates_spec us e : apply_updates us e = rsuml (map (fun u => if (e =? fst u)%Z then snd u else 0) us).
Proof.
  assert (G : forall m : arr, fold_left (fun m '(d, v) => fun e => if (e =? d)%Z then m e + v else m e) us m e = m e + rsuml (map (fun u => if (e =? fst u)%Z then snd u else 0) us)).
  { induction us as [|[d v] us IH]; intros m; cbn [fold_left map rsuml fst snd]; [ring|]. rewrite IH. destruct (e =? d)%Z; ring. }
  unfold apply_updates. rewrite G. ring.
Qed.
Lemma dot_updates M x us : (forall u, In u us -> (0 <= fst u < M)%Z) -> dot M x (apply_updates us) = rsuml (map (fun u => x (fst u) * snd u) us).
Proof.
  intros H. unfold dot.
  transitivity (rsuml (map (fun e => rsuml (map (fun u => if (e =? fst u)%Z then x e * snd u else 0) us)) (zrange 0 M))).
  - apply rsuml_ext. intros e _. rewrite apply_updates_spec, <- rsuml_scal. apply rsuml_ext. intros u _. destruct (e =? fst u)%Z; ring.
  - rewrite rsuml_swap. apply rsuml_ext. intros u Hu. apply (rsuml_delta (fun e => x e * snd u)); [apply zrange_NoDup|]. apply zrange_In, H, Hu.
Qed.

Lemma combine_enum {A B} (f : Z * A -> B) (l : list A) d c :
  map f (combine (zseq c (length l)) l) = map (fun i => f (i, nth (Z.to_nat (i - c)) l d)) (zseq c (length l)).
Proof.
  revert c; induction l as [|x l IH]; intros c; cbn [length zseq combine map]; [reflexivity|]. f_equal.
  - f_equal. f_equal. replace (c - c)%Z with 0%Z by lia. reflexivity.
  - rewrite IH. apply map_ext_in. intros i Hi. apply zseq_In in Hi. f_equal. f_equal.
    replace (Z.to_nat (i - c)) with (S (Z.to_nat (i - (c + 1)))) by lia. reflexivity.
Qed.

Lemma interpol_adj t order b shape npre points x y us :
  okshape b shape -> (forall pos, In pos points -> length pos = length shape) -> (0 <= npre)%Z ->
  Permutation us (updates t order b shape npre points y) ->
  dot (npre * zlen points) (interpol t order b shape points x) y = dot (npre * zprod shape) x (apply_updates us).
Proof.
  intros H L Hp P.
  assert (Hz : (1 <= zprod shape)%Z) by (apply zprod_pos; intros n Hn; apply H, Hn).
  assert (Hs := zlen_nonneg points).
  set (pt := fun s : Z => nth (Z.to_nat s) points []).
  assert (Hpt : forall s, In s (zrange 0 (zlen points)) -> length (pt s) = length shape).
  { intros s Hs'. apply zrange_In in Hs'. apply L. apply nth_In. unfold zlen in Hs'. lia. }
  assert (EU : updates t order b shape npre points y = flat_map (fun s => sample_updates t order b shape npre (zlen points) s (pt s) y) (zrange 0 (zlen points))).
  { unfold updates. rewrite !flat_map_concat_map. f_equal. unfold zrange. replace (Z.to_nat (zlen points - 0)) with (length points) by (unfold zlen; lia).
    rewrite (combine_enum _ points []). apply map_ext_in. intros s Hs'. unfold pt. rewrite Z.sub_0_r. reflexivity. }
  rewrite dot_updates.
  2: { intros u Hu. apply (Permutation_in _ P) in Hu. rewrite EU in Hu. apply in_flat_map in Hu as (s & Hs' & Hu).
       unfold sample_updates in Hu. apply in_flat_map in Hu as ([d is] & Hv & Hu). apply in_map_iff in Hu as (j & E & Hj). subst u. cbn [fst].
       apply visits_In in Hv; [|apply Hpt, Hs'|exact H]. apply zrange_In in Hj. destruct Hv as [Hv _]. nia. }
  rewrite (rsuml_perm _ _ (Permutation_map (fun u => x (fst u) * snd u) P)), EU, rsuml_flat_map.
  unfold dot. rewrite zrange_block by (try exact Hp; apply zlen_nonneg). rewrite rsuml_swap. apply rsuml_ext. intros s Hs'.
  assert (Hs2 := Hs'). apply zrange_In in Hs2.
  unfold sample_updates. rewrite rsuml_flat_map.
  transitivity (rsuml (map (fun j => rsuml (map (fun v => x (j * zprod shape + fst v)%Z * wprod t order (pt s) (snd v) * y (j * zlen points + s)%Z) (visits t order b shape (pt s)))) (zrange 0 npre))).
  - apply rsuml_ext. intros j Hj. apply zrange_In in Hj. unfold interpol.
    assert (E1 : ((j * zlen points + s) mod zlen points = s)%Z) by (rewrite Z.add_comm, Z.mod_add by lia; apply Z.mod_small; lia).
    assert (E2 : ((j * zlen points + s) / zlen points = j)%Z) by (rewrite Z.div_add_l, Z.div_small by lia; lia).
    rewrite E1, E2, interpol1_sum. fold (pt s). rewrite Rmult_comm, <- rsuml_scal. apply rsuml_ext. intros v _. ring.
  - rewrite rsuml_swap. apply rsuml_ext. intros [d is] _. cbn [fst snd]. rewrite map_map. apply rsuml_ext. intros j _. cbn [fst snd]. rewrite fold_mult. unfold wprod. ring.
Qed.
