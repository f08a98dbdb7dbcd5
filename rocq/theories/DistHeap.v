(* Proofs about the heap. *)
From Coq Require Import Permutation FinFun.
From Verif Require Import Base RangeModel RangeLemmas FindLemmas AlmModel AlmLemmas DistSpec DistModel.
Local Open Scope Z_scope.
Ltac Zify.zify_post_hook ::= idtac.

Lemma zget_nth_error' {A} (l : list A) n : nth_error l n = zget l (Z.of_nat n).
Proof. symmetry. apply zget_nth_error. Qed.
Lemma swap_zget {A} (l : list A) i j k : 0 <= i < zlen l -> 0 <= j < zlen l ->
  zget (swap_at l i j) k = if k =? j then zget l i else if k =? i then zget l j else zget l k.
Proof.
  intros Hi Hj. unfold swap_at. destruct (zget_in_range l i Hi) as [a Ea]. destruct (zget_in_range l j Hj) as [b Eb]. rewrite Ea, Eb.
  rewrite zget_upd by (rewrite upd_length; unfold zlen in *; lia). rewrite zget_upd by (unfold zlen in *; lia). rewrite !Z2Nat.id by lia. reflexivity.
Qed.
Lemma swap_zlen {A} (l : list A) i j : zlen (swap_at l i j) = zlen l.
Proof. unfold swap_at. destruct (zget l i), (zget l j); try reflexivity. unfold zlen. now rewrite !upd_length. Qed.
Lemma swap_perm {A} (l : list A) i j : 0 <= i < zlen l -> 0 <= j < zlen l -> Permutation (swap_at l i j) l.
Proof.
  intros Hi Hj. apply Permutation_sym. apply Permutation_nth_error. split; [pose proof (swap_zlen l i j) as E; unfold zlen in E; lia|].
  exists (fun n => if Z.of_nat n =? j then Z.to_nat i else if Z.of_nat n =? i then Z.to_nat j else n). split.
  - intros a b. destruct (Z.eqb_spec (Z.of_nat a) j), (Z.eqb_spec (Z.of_nat b) j), (Z.eqb_spec (Z.of_nat a) i), (Z.eqb_spec (Z.of_nat b) i); lia.
  - intros n. rewrite !zget_nth_error', swap_zget by assumption. destruct (Z.eqb_spec (Z.of_nat n) j); [rewrite Z2Nat.id by lia; reflexivity|].
    destruct (Z.eqb_spec (Z.of_nat n) i); [rewrite Z2Nat.id by lia; reflexivity|reflexivity].
Qed.
Lemma swap_hval l i j k : 0 <= i < zlen l -> 0 <= j < zlen l -> hval (swap_at l i j) k = if k =? j then hval l i else if k =? i then hval l j else hval l k.
Proof. intros Hi Hj. unfold hval. rewrite swap_zget by assumption. destruct (k =? j); [reflexivity|]. destruct (k =? i); reflexivity. Qed.

Lemma half_lt i : 1 <= i -> 0 <= i / 2 < i.
Proof. intros H. split; [apply Z.div_pos; lia|apply Z.div_lt; lia]. Qed.
Lemma half_eq k : k = 2 * (k / 2) \/ k = 2 * (k / 2) + 1.
Proof. pose proof (Z.div_mod k 2 ltac:(lia)). pose proof (Z.mod_pos_bound k 2 ltac:(lia)). lia. Qed.

Lemma sift_up_perm fuel : forall l i, 0 <= i < zlen l -> Permutation (sift_up fuel l i) l.
Proof.
  induction fuel as [|fuel IH]; intros l i Hi; cbn [sift_up]; [reflexivity|]. destruct (Z.eqb_spec i 0); [reflexivity|]. pose proof (half_lt i ltac:(lia)).
  destruct (hval l (i / 2) <=? hval l i); [reflexivity|]. etransitivity; [apply IH; rewrite swap_zlen; lia|]. apply swap_perm; lia.
Qed.
Lemma zlen_snoc {A} (l : list A) x : zlen (l ++ [x]) = zlen l + 1.
Proof. unfold zlen. rewrite app_length. cbn [length]. lia. Qed.
Lemma push_perm l e : Permutation (pointheap_push l e) (e :: l).
Proof.
  unfold pointheap_push. etransitivity; [apply sift_up_perm; rewrite zlen_snoc; pose proof (zlen_nonneg l); lia|]. symmetry. apply Permutation_cons_append.
Qed.
Lemma sift_down_perm fuel : forall l p, 0 <= p -> Permutation (sift_down fuel l p) l.
Proof.
  induction fuel as [|fuel IH]; intros l p Hp; cbn [sift_down]; [reflexivity|]. destruct (Z.ltb_spec p (zlen l / 2)) as [C|C]; [|reflexivity].
  assert (2 * (zlen l / 2) <= zlen l) by (apply Z.mul_div_le; lia).
  assert (S : forall c, 0 <= c -> (c = 2 * p \/ c = 2 * p + 1) -> Permutation (sift_down fuel (swap_at l p c) c) l).
  { intros c Hc E. etransitivity; [apply IH; lia|apply swap_perm; lia]. }
  destruct (_ <? _); [destruct (_ || _); apply S; lia|]. destruct (_ && _); [apply S; lia|reflexivity].
Qed.
Lemma pop_perm l : l <> [] -> exists e l', pointheap_pop l = Some (e, l') /\ Permutation l (e :: l').
Proof.
  intros N. destruct l as [|e l]; [congruence|]. clear N. cbn [pointheap_pop]. eexists. eexists. split; [reflexivity|].
  replace (length (e :: l) - 1)%nat with (length l) by (cbn [length]; lia). cbn [upd].
  apply perm_skip. symmetry.
  etransitivity; [apply sift_down_perm; lia|].
  destruct l as [|x l'] using rev_ind; [reflexivity|]. clear IHl'. rewrite app_length. cbn [length]. rewrite Nat.add_1_r.
  replace (nth (S (length l')) (e :: l' ++ [x]) e) with x by (cbn [nth]; rewrite app_nth2, Nat.sub_diag by lia; reflexivity).
  cbn [firstn]. rewrite firstn_app, Nat.sub_diag, firstn_all, app_nil_r. apply Permutation_cons_append.
Qed.

(* ---- order ---- *)
Definition ordered (l : list hentry) : Prop := forall k, 1 <= k < zlen l -> hval l (k / 2) <= hval l k.
Lemma ordered_root l k : ordered l -> 0 <= k < zlen l -> hval l 0 <= hval l k.
Proof.
  intros O. assert (G : forall n k, 0 <= k < Z.of_nat n -> k < zlen l -> hval l 0 <= hval l k).
  { induction n as [|n IH]; intros i Hi Hl; [lia|]. destruct (Z.eq_dec i 0) as [->|N]; [lia|]. pose proof (half_lt i ltac:(lia)).
    specialize (IH (i / 2) ltac:(lia) ltac:(lia)). specialize (O i ltac:(lia)). lia. }
  intros H. apply (G (Z.to_nat (k + 1))); lia.
Qed.
Lemma sift_up_ordered fuel : forall l i, 0 <= i < zlen l -> i <= Z.of_nat fuel ->
  (forall k, 1 <= k < zlen l -> k <> i -> hval l (k / 2) <= hval l k) -> (1 <= i -> forall k, 1 <= k < zlen l -> k / 2 = i -> hval l (i / 2) <= hval l k) ->
  ordered (sift_up fuel l i).
Proof.
  induction fuel as [|fuel IH]; intros l i Hi Hf A B; cbn [sift_up]. { intros k Hk. apply A; lia. }
  destruct (Z.eqb_spec i 0) as [E|N]; [intros k Hk; apply A; lia|]. pose proof (half_lt i ltac:(lia)) as Hh.
  destruct (Z.leb_spec (hval l (i / 2)) (hval l i)) as [C|C]. { intros k Hk. destruct (Z.eq_dec k i) as [->|]; [assumption|apply A; assumption]. }
  set (p := i / 2) in *. assert (SW : forall k, hval (swap_at l i p) k = if k =? p then hval l i else if k =? i then hval l p else hval l k) by (intros; apply swap_hval; lia).
  apply IH; rewrite ?swap_zlen; try lia.
  - intros k Hk Nk. rewrite !SW. destruct (Z.eqb_spec k p); [contradiction|]. pose proof (half_lt k ltac:(lia)) as Hk2. destruct (Z.eqb_spec k i) as [->|Ni].
    + fold p. rewrite Z.eqb_refl. lia.
    + destruct (Z.eqb_spec (k / 2) p) as [E|E]; [specialize (A k Hk Ni); rewrite E in A; lia|]. destruct (Z.eqb_spec (k / 2) i) as [E'|E']; [apply B; lia|apply A; assumption].
  - intros Hp k Hk E. rewrite !SW. pose proof (half_lt p Hp) as Hp2. destruct (Z.eqb_spec (p / 2) p); [lia|]. destruct (Z.eqb_spec (p / 2) i); [lia|].
    assert (A1 : hval l (p / 2) <= hval l p) by (apply A; lia). destruct (Z.eqb_spec k p) as [->|]; [lia|]. destruct (Z.eqb_spec k i); [lia|]. specialize (A k Hk ltac:(assumption)). rewrite E in A. lia.
Qed.
Lemma hval_app1 l e k : 0 <= k < zlen l -> hval (l ++ [e]) k = hval l k.
Proof. intros H. unfold hval. rewrite zget_app1 by lia. reflexivity. Qed.
Lemma push_ordered l e : ordered l -> ordered (pointheap_push l e).
Proof.
  intros O. unfold pointheap_push. pose proof (zlen_nonneg l). apply sift_up_ordered; rewrite ?zlen_snoc; [lia|unfold zlen; lia| |].
  - intros k Hk Nk. pose proof (half_lt k ltac:(lia)). rewrite !hval_app1 by lia. apply O. lia.
  - intros H1 k Hk E. pose proof (half_lt k ltac:(lia)). lia.
Qed.
Lemma sift_down_ordered fuel : forall l p, 0 <= p -> zlen l - p < Z.of_nat fuel -> (zlen l <= 1 \/ zlen l mod 2 = 0) ->
  (forall k, 1 <= k < zlen l -> k / 2 <> p -> hval l (k / 2) <= hval l k) -> (1 <= p -> forall k, 1 <= k < zlen l -> k / 2 = p -> hval l (p / 2) <= hval l k) ->
  ordered (sift_down fuel l p).
Proof.
  induction fuel as [|fuel IH]; intros l p Hp Hf Hn A B; cbn [sift_down].
  { intros k Hk. apply A; [lia|]. pose proof (half_lt k ltac:(lia)). lia. }
  pose proof (Z.div_mod (zlen l) 2 ltac:(lia)) as DM. pose proof (zlen_nonneg l).
  destruct (Z.ltb_spec p (zlen l / 2)) as [C|C].
  2:{ intros k Hk. apply A; [lia|]. intros E. pose proof (half_eq k). destruct Hn as [Hn|Hn]; lia. }
  assert (Hc : 2 * p + 1 < zlen l) by (pose proof (Z.mod_pos_bound (zlen l) 2 ltac:(lia)); lia).
  assert (S : forall c, 1 <= c < zlen l -> c / 2 = p -> hval l c < hval l p -> (forall k, 1 <= k < zlen l -> k / 2 = p -> hval l c <= hval l k) -> ordered (sift_down fuel (swap_at l p c) c)).
  { intros c Hc' Ec V M. pose proof (half_lt c ltac:(lia)) as Hh. assert (SW : forall k, hval (swap_at l p c) k = if k =? c then hval l p else if k =? p then hval l c else hval l k) by (intros; apply swap_hval; lia).
    apply IH; rewrite ?swap_zlen; try lia.
    - intros k Hk Nk. pose proof (half_lt k ltac:(lia)). rewrite !SW. destruct (Z.eqb_spec (k / 2) c); [contradiction|]. destruct (Z.eqb_spec (k / 2) p) as [E|E].
      + destruct (Z.eqb_spec k c) as [->|]; [lia|]. destruct (Z.eqb_spec k p); [lia|]. apply M; assumption.
      + destruct (Z.eqb_spec k c) as [->|]; [congruence|]. destruct (Z.eqb_spec k p) as [->|]; [|apply A; assumption]. apply (B ltac:(lia) c); [lia|assumption].
    - intros _ k Hk E. rewrite !SW. rewrite Ec. destruct (Z.eqb_spec p c); [lia|]. rewrite Z.eqb_refl. pose proof (half_lt k ltac:(lia)).
      destruct (Z.eqb_spec k c); [lia|]. destruct (Z.eqb_spec k p); [lia|]. rewrite <- E. apply A; lia. }
  assert (H1 : (2 * p) / 2 = p) by (rewrite Z.mul_comm; apply Z.div_mul; lia).
  assert (H2 : (2 * p + 1) / 2 = p) by (symmetry; apply (Z.div_unique_pos _ _ _ 1); lia).
  assert (K : forall k, 1 <= k < zlen l -> k / 2 = p -> k = 2 * p \/ k = 2 * p + 1) by (intros k _ E; pose proof (half_eq k); lia).
  destruct (Z.ltb_spec (hval l (2 * p)) (hval l p)) as [V|V].
  - assert (P0 : p <> 0) by (intros ->; change (2 * 0) with 0 in V; lia).
    destruct (Z.leb_spec (zlen l) (2 * p + 1)); [lia|]. cbn [orb]. destruct (Z.ltb_spec (hval l (2 * p)) (hval l (2 * p + 1))) as [V2|V2].
    + apply S; try assumption; try lia. intros k Hk E. destruct (K k Hk E) as [->| ->]; lia.
    + apply S; try assumption; try lia. intros k Hk E. destruct (K k Hk E) as [->| ->]; lia.
  - destruct (Z.ltb_spec (2 * p + 1) (zlen l)); [|lia]. cbn [andb]. destruct (Z.ltb_spec (hval l (2 * p + 1)) (hval l p)) as [V2|V2].
    + apply S; try assumption; try lia. intros k Hk E. destruct (K k Hk E) as [->| ->]; lia.
    + intros k Hk. destruct (Z.eq_dec (k / 2) p) as [E|E]; [|apply A; assumption]. rewrite E. destruct (K k Hk E) as [->| ->]; lia.
Qed.
Lemma hval_root e l k : 1 <= k -> hval (e :: l) k = hval l (k - 1).
Proof. intros H. unfold hval. rewrite zget_cons by lia. destruct (Z.eqb_spec k 0); [lia|]. reflexivity. Qed.
Lemma hval_firstn l n k : 0 <= k < Z.of_nat n -> hval (firstn n l) k = hval l k.
Proof. intros H. unfold hval. rewrite zget_firstn by lia. reflexivity. Qed.
Lemma pop_ordered l e l' : ordered l -> pointheap_pop l = Some (e, l') -> zlen l' <= 1 \/ zlen l' mod 2 = 0 -> ordered l'.
Proof.
  intros O E Hn. destruct l as [|e0 l]; [discriminate|]. unfold pointheap_pop in E. apply Some_inj in E. apply (f_equal snd) in E. cbn [snd] in E.
  replace (length (e0 :: l) - 1)%nat with (length l) in E by (cbn [length]; lia). set (last := nth _ _ _) in E. clearbody last. cbn [upd] in E.
  set (rest := firstn (length l) (last :: l)) in *. 
  assert (Lr : zlen rest = zlen l) by (unfold rest, zlen; rewrite firstn_length; cbn [length]; lia).
  assert (Ll : zlen l' = zlen l). { rewrite <- E, <- Lr. unfold zlen. f_equal. apply Permutation_length. apply sift_down_perm. lia. }
  assert (VR : forall k, 1 <= k < zlen l -> hval rest k = hval (e0 :: l) k).
  { intros k Hk. unfold rest. rewrite hval_firstn by (unfold zlen in Hk; lia). rewrite !hval_root by lia. reflexivity. }
  rewrite <- E. apply sift_down_ordered; try lia.
  - rewrite Lr. unfold zlen. cbn [length]. lia.
  - intros k Hk Nk. pose proof (half_lt k ltac:(lia)). rewrite !VR by lia. apply O. rewrite Base.zlen_cons. lia.
Qed.
Lemma pop_min l e l' : ordered l -> pointheap_pop l = Some (e, l') -> forall x, In x l -> fst e <= fst x.
Proof.
  intros O E x Hx. destruct l as [|e0 l]; [discriminate|]. unfold pointheap_pop in E. apply Some_inj in E. apply (f_equal fst) in E. cbn [fst] in E. subst e.
  apply In_zget in Hx. destruct Hx as (k & Hk). pose proof (ordered_root _ k O (zget_Some_range _ _ _ Hk)) as H. unfold hval in H. rewrite Hk in H. exact H.
Qed.
