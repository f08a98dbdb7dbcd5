From Verif Require Import Base RangeLemmas WindLemmas BlockSpec BlockModel.

Lemma zget_skipn {A} (l : list A) a k : 0 <= a -> zget (skipn (Z.to_nat a) l) k = if k <? 0 then None else zget l (a + k).
Proof.
  intros Ha. unfold zget. destruct (k <? 0) eqn:E; [reflexivity|]. destruct (a + k <? 0) eqn:E2; [lia|].
  rewrite nth_error_skipn'. f_equal. lia.
Qed.
Lemma zget_firstn {A} (l : list A) n k : zget (firstn (Z.to_nat n) l) k = if k <? n then zget l k else None.
Proof.
  unfold zget. destruct (k <? 0) eqn:E; [destruct (k <? n); reflexivity|]. rewrite nth_error_firstn'.
  destruct (Nat.ltb_spec (Z.to_nat k) (Z.to_nat n)), (k <? n) eqn:E2; try reflexivity; lia.
Qed.
Lemma zget_sub {A} (l : list A) a b k : 0 <= a -> zget (sub l a b) k = if (0 <=? k) && (k <? b - a) then zget l (a + k) else None.
Proof.
  intros Ha. unfold sub. rewrite zget_firstn, zget_skipn by lia.
  destruct (k <? b - a) eqn:E1, (k <? 0) eqn:E2, ((0 <=? k)) eqn:E3; cbn; try reflexivity; lia.
Qed.
Lemma zlen_sub {A} (l : list A) a b : 0 <= a <= b -> b <= zlen l -> zlen (sub l a b) = b - a.
Proof. intros H1 H2. unfold sub, zlen in *. rewrite firstn_length, skipn_length. lia. Qed.

Lemma psl_sub {A} (l : list A) a b : 0 <= a -> 0 <= b -> psl l a b = sub l (Z.min a (zlen l)) (Z.min b (zlen l)).
Proof. intros Ha Hb. unfold psl, sub. destruct (a <? 0) eqn:E1; [lia|]. destruct (b <? 0) eqn:E2; [lia|]. reflexivity. Qed.

Lemma notnil_zlen {A} (l : list A) : notnil l = (0 <? zlen l).
Proof. destruct l; [reflexivity|]. cbn [notnil]. rewrite zlen_cons. pose proof (zlen_nonneg l). lia. Qed.

Lemma skipn_skipn' {A} x : forall y (l : list A), skipn x (skipn y l) = skipn (x + y) l.
Proof.
  intros y. induction y as [|y IH]; intros l; [now rewrite Nat.add_0_r|]. rewrite Nat.add_succ_r. destruct l as [|a l]; [now rewrite !skipn_nil|].
  cbn [skipn]. apply IH.
Qed.
Lemma chunks_length {A} b n : forall l : list A, length (chunks b n l) = n.
Proof. induction n as [|n IH]; intros l; cbn; auto. Qed.
Lemma chunks_nth {A} b n : forall (l : list A) i, (i < n)%nat -> nth_error (chunks b n l) i = Some (firstn b (skipn (i * b) l)).
Proof.
  induction n as [|n IH]; intros l i H; [lia|]. cbn [chunks]. destruct i as [|i]; cbn [nth_error]; [reflexivity|].
  rewrite IH by lia. f_equal. f_equal. rewrite skipn_skipn'. f_equal. lia.
Qed.
Lemma chunks_zget {A} b n (l : list A) i : 0 < b -> 0 <= i < n ->
  zget (chunks (Z.to_nat b) (Z.to_nat n) l) i = Some (sub l (i * b) ((i + 1) * b)).
Proof.
  intros Hb Hi. unfold zget. destruct (i <? 0) eqn:E; [lia|]. rewrite chunks_nth by lia. f_equal. unfold sub.
  f_equal; [f_equal; lia|]. f_equal. nia.
Qed.

Lemma np_repeat_length {A} (l : list A) m : 0 <= m -> zlen (np_repeat l m) = zlen l * m.
Proof.
  intros Hm. unfold np_repeat. induction l as [|x l IH]; [reflexivity|]. cbn [flat_map]. rewrite zlen_app, IH, zlen_cons.
  unfold zlen at 1. rewrite repeat_length. lia.
Qed.
Lemma zget_repeat' {A} (x : A) m k : zget (repeat x (Z.to_nat m)) k = if (0 <=? k) && (k <? m) then Some x else None.
Proof.
  destruct ((0 <=? k) && (k <? m)) eqn:E.
  - unfold zget. destruct (k <? 0) eqn:E0; [lia|]. apply nth_error_repeat. lia.
  - apply zget_out. unfold zlen. rewrite repeat_length. lia.
Qed.
Lemma zlen_repeat {A} (x : A) m : 0 <= m -> zlen (repeat x (Z.to_nat m)) = m.
Proof. intros H. unfold zlen. rewrite repeat_length. lia. Qed.

Lemma np_repeat_zget {A} (l : list A) m k : 0 < m -> zget (np_repeat l m) k = zget l (k / m).
Proof.
  intros Hm. unfold np_repeat. revert k. induction l as [|x l IH]; intros k; [cbn [flat_map]; rewrite !zget_nil; reflexivity|]. cbn [flat_map].
  destruct (Z_lt_ge_dec k 0) as [Hk|Hk].
  - assert (k / m < 0) by (apply Z.div_lt_upper_bound; lia). rewrite !zget_out by lia. reflexivity.
  - rewrite zget_cons. destruct (Z_lt_ge_dec k m) as [H|H].
    + rewrite zget_app1 by (rewrite zlen_repeat; lia). rewrite zget_repeat'.
      rewrite Z.div_small by lia. cbn. destruct ((0 <=? k) && (k <? m)) eqn:E; [reflexivity|lia].
    + rewrite zget_app2 by (rewrite zlen_repeat; lia). rewrite zlen_repeat by lia. rewrite IH.
      assert (E : k / m = (k - m) / m + 1).
      { replace k with ((k - m) + 1 * m) at 1 by lia. rewrite Z.div_add by lia. reflexivity. }
      rewrite E. pose proof (Z.div_pos (k - m) m). destruct ((k - m) / m + 1 =? 0) eqn:E0; [lia|]. f_equal. lia.
Qed.

(** reduce *)
Lemma div_facts n off b : 0 < b -> off <= n -> let q := (n - off) / b in 0 <= q /\ off + q * b <= n < off + (q + 1) * b.
Proof.
  intros Hb Ho q. pose proof (Z.div_mod (n - off) b). pose proof (Z.mod_pos_bound (n - off) b).
  assert (0 <= q) by (apply Z.div_pos; lia). unfold q in *. lia.
Qed.
Lemma nblock_eq n b off : 0 < b -> 0 <= off <= n -> let q := (n - off) / b in
  nblock n b off = (if 0 <? off then 1 else 0) + q + (if off + q * b <? n then 1 else 0).
Proof.
  intros Hb Ho q. unfold nblock. destruct (div_facts n off b) as (H0 & H1 & H2); [lia|lia|]. fold q in H0, H1, H2.
  rewrite <- Z.add_assoc. f_equal. symmetry. destruct (off + q * b <? n) eqn:E.
  - apply (Z.div_unique _ _ _ (n - off + b - 1 - b * (q + 1))); [left; lia|lia].
  - apply (Z.div_unique _ _ _ (n - off + b - 1 - b * (q + 0))); [left; lia|lia].
Qed.

Definition pieces {A} (a : list A) (b off : Z) : list (list A) :=
  let q := (zlen a - off) / b in
  (if 0 <? off then [sub a 0 off] else []) ++ chunks (Z.to_nat b) (Z.to_nat q) (sub a off (off + q * b)) ++
  (if off + q * b <? zlen a then [sub a (off + q * b) (zlen a)] else []).

Lemma sub_sub {A} (l : list A) a b c d : 0 <= a -> 0 <= c -> d <= b - a -> sub (sub l a b) c d = sub l (a + c) (a + d).
Proof.
  intros Ha Hc Hd. apply zget_ext. intros k. rewrite !zget_sub by lia.
  replace (a + d - (a + c)) with (d - c) by lia. destruct ((0 <=? k) && (k <? d - c)) eqn:E; [|reflexivity].
  destruct ((0 <=? c + k) && (c + k <? b - a)) eqn:E2; [|lia]. f_equal. lia.
Qed.

Lemma pieces_zget {A} (a : list A) b off i : 0 < b -> 0 <= off <= zlen a -> 0 <= i < nblock (zlen a) b off ->
  zget (pieces a b off) i = Some (sub a (block_lo b off i) (block_hi (zlen a) b off i)).
Proof.
  intros Hb Ho Hi. rewrite nblock_eq in Hi by lia. unfold pieces, block_hi, block_lo. set (q := (zlen a - off) / b) in *.
  destruct (div_facts (zlen a) off b) as (H0 & H1 & H2); [lia|lia|]. fold q in H0, H1, H2.
  assert (Hcl : forall l : list A, zlen (chunks (Z.to_nat b) (Z.to_nat q) l) = q) by (intros; unfold zlen; rewrite chunks_length; lia).
  assert (Hmid : forall j, 0 <= j < q -> zget (chunks (Z.to_nat b) (Z.to_nat q) (sub a off (off + q * b))) j = Some (sub a (off + j * b) (off + (j + 1) * b))).
  { intros j Hj. rewrite chunks_zget by lia. f_equal. apply sub_sub; nia. }
  destruct (0 <? off) eqn:Eo.
  - cbn [app]. rewrite zget_cons. destruct (i =? 0) eqn:Ei.
    + do 2 f_equal. destruct (i + 1 =? 0) eqn:E2; [lia|]. replace i with 0 by lia. lia.
    + destruct (i + 1 =? 0) eqn:E2; [lia|]. destruct (Z_lt_ge_dec (i - 1) q) as [Hlt|Hge].
      * rewrite zget_app1 by (rewrite Hcl; lia). rewrite Hmid by lia. f_equal. f_equal. replace (i + 1 - 1) with (i - 1 + 1) by lia.
        rewrite Z.min_r; [reflexivity|nia].
      * rewrite zget_app2 by (rewrite Hcl; lia). rewrite Hcl. destruct (off + q * b <? zlen a) eqn:E3; [|lia].
        replace (i - 1 - q) with 0 by lia. replace (i - 1) with q by lia. replace (i + 1 - 1) with (q + 1) by lia.
        rewrite Z.min_l by lia. reflexivity.
  - cbn [app]. assert (off = 0) by lia. subst off. rewrite ?Z.add_0_l in *. destruct (Z_lt_ge_dec i q) as [Hlt|Hge].
    + rewrite zget_app1 by (rewrite Hcl; lia). rewrite Hmid by lia. rewrite !Z.add_0_l. rewrite Z.min_r; [reflexivity|nia].
    + rewrite zget_app2 by (rewrite Hcl; lia). rewrite Hcl. destruct (q * b <? zlen a) eqn:E3; [|lia].
      replace (i - q) with 0 by lia. replace i with q by lia. rewrite Z.min_l by lia. reflexivity.
Qed.

Lemma pieces_zlen {A} (a : list A) b off : 0 < b -> 0 <= off <= zlen a -> zlen (pieces a b off) = nblock (zlen a) b off.
Proof.
  intros Hb Ho. rewrite nblock_eq by lia. unfold pieces. set (q := (zlen a - off) / b).
  destruct (div_facts (zlen a) off b) as (H0 & H1 & H2); [lia|lia|]. fold q in H0, H1, H2.
  rewrite !zlen_app. unfold zlen at 2. rewrite chunks_length. destruct (0 <? off), (off + q * b <? zlen a); rewrite ?zlen_cons, ?zlen_nil; lia.
Qed.

Lemma block_reduce_pieces {A} (op : list A -> A) a b off : 2 <= b -> 0 <= off <= zlen a -> a <> [] ->
  block_reduce op a b off true = Some (map op (pieces a b off)).
Proof.
  intros Hb Ho Hne. unfold block_reduce, pieces. destruct (b =? 1) eqn:E1; [lia|]. destruct (b =? 0) eqn:E0; [lia|].
  set (q := (zlen a - off) / b). destruct (div_facts (zlen a) off b) as (H0 & H1 & H2); [lia|lia|]. fold q in H0, H1, H2.
  assert (Hpos : 0 < zlen a) by (destruct a as [|u l]; [congruence|rewrite zlen_cons; pose proof (zlen_nonneg l); lia]).
  assert (Hqb : 0 <= q * b) by nia.
  assert (Hpre : psl a 0 off = sub a 0 off) by (rewrite psl_sub by lia; f_equal; lia).
  assert (Hmid : psl a off (off + q * b) = sub a off (off + q * b)) by (rewrite psl_sub by lia; f_equal; lia).
  assert (Htail : psl a (off + q * b) (zlen a) = sub a (off + q * b) (zlen a)) by (rewrite psl_sub by lia; f_equal; lia).
  rewrite Hpre, Hmid, Htail, !notnil_zlen, !zlen_sub by lia.
  rewrite !andb_true_r. replace (off + q * b - off) with (q * b) by lia. rewrite Z.sub_0_r.
  destruct (q * b =? q * b) eqn:Eq; [|lia]. rewrite andb_false_r.
  assert (Hconcat : forall p, p <> [] -> match p with [] => None | _ :: _ => Some (concat p) end = Some (concat p : list A)) by (intros []; congruence).
  assert (Hq0 : q * b = 0 -> chunks (Z.to_nat b) (Z.to_nat q) (sub a off (off + q * b)) = []).
  { intros H. replace q with 0 by nia. reflexivity. }
  destruct (0 <? off) eqn:Eo, (0 <? q * b) eqn:Emq, (0 <? zlen a - (off + q * b)) eqn:Et, (off + q * b <? zlen a) eqn:Et2; try lia;
    cbn [app concat map]; rewrite ?map_app, ?app_nil_r; try rewrite (Hq0 ltac:(lia)); try reflexivity; try (exfalso; nia).
Qed.

Lemma block_reduce_spec {A} (op : list A -> A) a b off : 2 <= b -> 0 <= off <= zlen a -> a <> [] ->
  exists r, block_reduce op a b off true = Some r /\ zlen r = nblock (zlen a) b off /\
    forall i, 0 <= i < nblock (zlen a) b off -> zget r i = Some (op (sub a (block_lo b off i) (block_hi (zlen a) b off i))).
Proof.
  intros Hb Ho Hne. rewrite block_reduce_pieces by assumption. eexists. split; [reflexivity|].
  split; [rewrite zlen_map; apply pieces_zlen; lia|]. intros i Hi. rewrite zget_map, pieces_zget by lia. reflexivity.
Qed.

(** expand *)
Definition which_block (b off k : Z) : Z := if k <? off then 0 else (if 0 <? off then 1 else 0) + (k - off) / b.

Lemma which_block_iff n b off k i : 0 < b -> 0 <= off <= n -> 0 <= k < n -> 0 <= i ->
  (which_block b off k = i <-> block_lo b off i <= k < block_hi n b off i).
Proof.
  intros Hb Ho Hk Hi. unfold which_block, block_hi, block_lo.
  pose proof (Z.div_mod (k - off) b ltac:(lia)). pose proof (Z.mod_pos_bound (k - off) b ltac:(lia)).
  set (q := (k - off) / b) in *. destruct (0 <? off) eqn:Eo.
  - destruct (i + 1 =? 0) eqn:E; [lia|]. destruct (i =? 0) eqn:Ei, (k <? off) eqn:Ek.
    + replace (i + 1 - 1) with i by lia. assert (i = 0) by lia. subst i. lia.
    + assert (i = 0) by lia. subst i. assert (0 <= q) by (apply Z.div_pos; lia). lia.
    + split; [lia|]. intros. nia.
    + split; [intros <-; nia|]. intros. nia.
  - assert (off = 0) by lia. subst off. destruct (k <? 0) eqn:Ek; [lia|]. rewrite Z.sub_0_r in *.
    split; [intros <-; nia|]. intros. nia.
Qed.

Lemma block_expand_spec {A} (zero : A) x b n off : 0 < b -> 0 <= off <= n -> 0 < n -> zlen x = nblock n b off ->
  exists r, block_expand zero x b n off true = Some r /\ zlen r = n /\
    forall k, 0 <= k < n -> zget r k = zget x (which_block b off k).
Proof.
  intros Hb Ho Hn Hx. rewrite nblock_eq in Hx by lia. unfold block_expand. destruct (b =? 0) eqn:E0; [lia|].
  set (q := (n - off) / b) in *. destruct (div_facts n off b) as (H0 & H1 & H2); [lia|lia|]. fold q in H0, H1, H2.
  set (o := if 0 <? off then 1 else 0) in *. assert (Hoo : 0 <= o) by (unfold o; destruct (0 <? off); lia).
  set (t := if off + q * b <? n then 1 else 0) in *. assert (Htt : 0 <= t) by (unfold t; destruct (off + q * b <? n); lia).
  rewrite !psl_sub by lia. rewrite Z.min_id, !Z.min_l by lia.
  rewrite !notnil_zlen, !zlen_sub by lia.
  set (r := np_repeat (sub x 0 o) off ++ np_repeat (sub x o (o + q)) b ++ np_repeat (sub x (o + q) (zlen x)) (n - off - q * b)).
  assert (Hparts : forall p, concat p = r -> p <> [] -> match p with [] => None | _ :: _ => Some (concat p) end = Some r) by (intros [] E; congruence).
  assert (Hl1 : zlen (np_repeat (sub x 0 o) off) = off).
  { rewrite np_repeat_length, zlen_sub by lia. unfold o. destruct (0 <? off) eqn:E; lia. }
  assert (Hl2 : zlen (np_repeat (sub x o (o + q)) b) = q * b).
  { rewrite np_repeat_length, zlen_sub by lia. lia. }
  assert (Hl3 : zlen (np_repeat (sub x (o + q) (zlen x)) (n - off - q * b)) = n - off - q * b).
  { rewrite np_repeat_length, zlen_sub by lia. unfold t in Hx. destruct (off + q * b <? n) eqn:E; nia. }
  assert (Hlen : zlen r = n) by (unfold r; rewrite !zlen_app, Hl1, Hl2, Hl3; lia).
  exists r. split; [apply Hparts|].
  - assert (Hnil : forall l m, @zlen A l = 0 -> np_repeat l m = []).
    { intros l m Hl. destruct l; [reflexivity|]. rewrite zlen_cons in Hl. pose proof (zlen_nonneg l). lia. }
    assert (N1 : (0 <? o - 0) = false -> np_repeat (sub x 0 o) off = []) by (intros; apply Hnil; rewrite zlen_sub; lia).
    assert (N2 : (0 <? o + q - o) = false -> np_repeat (sub x o (o + q)) b = []) by (intros; apply Hnil; rewrite zlen_sub; lia).
    assert (N3 : (0 <? zlen x - (o + q)) = false -> np_repeat (sub x (o + q) (zlen x)) (n - off - q * b) = []) by (intros; apply Hnil; rewrite zlen_sub; lia).
    rewrite !concat_app. unfold r.
    destruct (0 <? o - 0), (0 <? o + q - o), (0 <? zlen x - (o + q)); cbn [concat app]; rewrite ?app_nil_r;
      rewrite ?N1, ?N2, ?N3 by reflexivity; rewrite ?app_nil_r; reflexivity.
  - intros Hp. apply (f_equal (@length _)) in Hp. rewrite !app_length in Hp.
    assert (o + q + t > 0).
    { unfold o, t. destruct (0 <? off) eqn:E1, (off + q * b <? n) eqn:E2; try lia; nia. }
    destruct (0 <? o - 0) eqn:E1, (0 <? o + q - o) eqn:E2, (0 <? zlen x - (o + q)) eqn:E3; cbn in Hp; lia.
  - split; [exact Hlen|]. intros k Hk. unfold which_block. fold o. unfold r. destruct (k <? off) eqn:Ek.
    + rewrite zget_app1 by lia. rewrite np_repeat_zget by lia. rewrite Z.div_small by lia. rewrite zget_sub by lia.
      assert (Eo : o = 1) by (unfold o; destruct (0 <? off) eqn:E; lia). rewrite Eo. reflexivity.
    + rewrite zget_app2 by lia. rewrite Hl1. destruct (Z_lt_ge_dec (k - off) (q * b)) as [Hlt|Hge].
      * rewrite zget_app1 by lia. rewrite np_repeat_zget by lia. rewrite zget_sub by lia.
        assert (0 <= (k - off) / b) by (apply Z.div_pos; lia). assert ((k - off) / b < q) by (apply Z.div_lt_upper_bound; lia).
        destruct ((0 <=? (k - off) / b) && ((k - off) / b <? o + q - o)) eqn:E; [reflexivity|lia].
      * rewrite zget_app2 by lia. rewrite Hl2. rewrite np_repeat_zget by lia. rewrite zget_sub by lia.
        rewrite (Z.div_small (k - off - q * b)) by lia.
        assert (Et : t = 1) by (unfold t; destruct (off + q * b <? n) eqn:E; lia).
        destruct ((0 <=? 0) && (0 <? zlen x - (o + q))) eqn:E; [|lia]. f_equal.
        assert (Ed : (k - off) / b = q) by (symmetry; apply (Z.div_unique _ _ _ (k - off - b * q)); lia). lia.
Qed.

Lemma sub_const {A} (l : list A) v lo hi : 0 <= lo <= hi -> hi <= zlen l -> (forall k, lo <= k < hi -> zget l k = Some v) ->
  sub l lo hi = repeat v (Z.to_nat (hi - lo)).
Proof.
  intros H1 H2 H. apply zget_ext. intros k. rewrite zget_sub by lia. rewrite zget_repeat'.
  destruct ((0 <=? k) && (k <? hi - lo)) eqn:E; [|reflexivity]. apply H. lia.
Qed.

Lemma block_nonempty n b off i : 0 < b -> 0 <= off <= n -> 0 < n -> 0 <= i < nblock n b off -> 
  0 <= block_lo b off i < block_hi n b off i /\ block_hi n b off i <= n.
Proof.
  intros Hb Ho Hn Hi. rewrite nblock_eq in Hi by lia. destruct (div_facts n off b) as (H0 & H1 & H2); [lia|lia|].
  set (q := (n - off) / b) in *. unfold block_hi, block_lo. destruct (0 <? off) eqn:Eo.
  - destruct (i + 1 =? 0) eqn:E; [lia|]. destruct (i =? 0) eqn:Ei; [lia|].
    destruct (off + q * b <? n) eqn:Et; nia.
  - destruct (off + q * b <? n) eqn:Et; nia.
Qed.

Lemma reduce_expand {A} (R : A -> A -> Prop) (op : list A -> A) (zero : A) x b n off :
  (forall v m, (1 <= m)%nat -> R (op (repeat v m)) v) ->
  2 <= b -> 0 <= off <= n -> 0 < n -> zlen x = nblock n b off ->
  exists y z, block_expand zero x b n off true = Some y /\ zlen y = n /\ block_reduce op y b off true = Some z /\ Forall2 R z x.
Proof.
  intros Hop Hb Ho Hn Hx. destruct (block_expand_spec zero x b n off) as (y & Hy & Hly & Hyk); [lia..|exact Hx|].
  assert (Hne : y <> []) by (intros ->; rewrite zlen_nil in Hly; lia).
  destruct (block_reduce_spec op y b off Hb ltac:(lia) Hne) as (z & Hz & Hlz & Hzi). rewrite Hly in *.
  exists y, z. split; [exact Hy|]. split; [exact Hly|]. split; [exact Hz|].
  assert (Hlen : length z = length x) by (unfold zlen in *; lia).
  assert (Hpt : forall i u v, zget z i = Some u -> zget x i = Some v -> R u v).
  { intros i u v Hu Hv. assert (Hi : 0 <= i < nblock n b off) by (apply zget_Some_range in Hv; lia).
    rewrite Hzi in Hu by exact Hi. injection Hu as <-.
    destruct (block_nonempty n b off i) as [H1 H2]; [lia..|].
    rewrite (sub_const _ v); [|lia|lia|].
    2:{ intros k Hk. rewrite Hyk by lia. apply (which_block_iff n b off k i) in Hk; [|lia..]. rewrite Hk. exact Hv. }
    apply Hop. lia. }
  clear -Hlen Hpt. revert x Hlen Hpt. induction z as [|u z IH]; intros [|v x] Hlen Hpt; try discriminate; constructor.
  - apply (Hpt 0); reflexivity.
  - apply IH; [cbn in Hlen; lia|]. intros i a c Ha Hc. pose proof (zget_Some_range _ _ _ Ha).
    apply (Hpt (i + 1)); rewrite zget_cons; (destruct (i + 1 =? 0) eqn:E; [lia|]); replace (i + 1 - 1) with i by lia; assumption.
Qed.

(* inclusive=False *)
Lemma expand_noninc {A} (zero : A) x b n off : 0 < b -> 0 <= off <= n -> zlen x = (n - off) / b ->
  exists y, block_expand zero x b n off false = Some y /\ zlen y = n /\
    forall k, 0 <= k < n -> zget y k = if (off <=? k) && (k <? off + zlen x * b) then zget x ((k - off) / b) else Some zero.
Proof.
  intros Hb Ho Hx. unfold block_expand. destruct (b =? 0) eqn:E0; [lia|].
  destruct (div_facts n off b) as (H0 & H1 & H2); [lia|lia|]. rewrite <- Hx in *. set (q := zlen x) in *.
  destruct ((off <? 0) || (n - off - q * b <? 0)) eqn:E; [lia|]. eexists. split; [reflexivity|].
  assert (Hl2 : zlen (np_repeat x b) = q * b) by (apply np_repeat_length; lia).
  split; [rewrite !zlen_app, Hl2, !zlen_repeat by lia; lia|]. intros k Hk.
  destruct (Z_lt_ge_dec k off) as [Hlt|Hge].
  - rewrite zget_app1 by (rewrite zlen_repeat; lia). rewrite zget_repeat'. destruct ((0 <=? k) && (k <? off)) eqn:E1; [|lia].
    destruct ((off <=? k) && (k <? off + q * b)) eqn:E2; [lia|reflexivity].
  - rewrite zget_app2 by (rewrite zlen_repeat; lia). rewrite zlen_repeat by lia. destruct (Z_lt_ge_dec (k - off) (q * b)) as [Hlt|Hge2].
    + rewrite zget_app1 by lia. rewrite np_repeat_zget by lia. destruct ((off <=? k) && (k <? off + q * b)) eqn:E2; [reflexivity|lia].
    + rewrite zget_app2 by lia. rewrite Hl2, zget_repeat'. destruct ((0 <=? k - off - q * b) && (k - off - q * b <? n - off - q * b)) eqn:E1; [|lia].
      destruct ((off <=? k) && (k <? off + q * b)) eqn:E2; [lia|reflexivity].
Qed.

Lemma reduce_noninc {A} (op : list A -> A) a b off : 2 <= b -> 0 <= off -> off + b <= zlen a ->
  exists r, block_reduce op a b off false = Some r /\ zlen r = (zlen a - off) / b /\
    forall i, 0 <= i < (zlen a - off) / b -> zget r i = Some (op (sub a (off + i * b) (off + (i + 1) * b))).
Proof.
  intros Hb Ho Hlen. unfold block_reduce. destruct (b =? 1) eqn:E1; [lia|]. destruct (b =? 0) eqn:E0; [lia|].
  destruct (div_facts (zlen a) off b) as (H0 & H1 & H2); [lia|lia|]. set (q := (zlen a - off) / b) in *.
  assert (Hq : 1 <= q) by (apply Z.div_le_lower_bound; lia).
  rewrite !andb_false_r. cbn [app].
  assert (Hmid : psl a off (off + q * b) = sub a off (off + q * b)) by (rewrite psl_sub by nia; f_equal; lia).
  rewrite Hmid, notnil_zlen, zlen_sub by nia.
  destruct (0 <? off + q * b - off) eqn:E2; [|nia]. destruct (off + q * b - off =? q * b) eqn:E3; [|lia]. cbn [andb negb app concat].
  rewrite app_nil_r. eexists. split; [reflexivity|]. split; [rewrite zlen_map; unfold zlen; rewrite chunks_length; lia|].
  intros i Hi. rewrite zget_map, chunks_zget by lia. cbn [option_map]. do 2 f_equal. apply sub_sub; nia.
Qed.

Lemma qsum_repeat v m : (qsum (repeat v m) == inject_Z (Z.of_nat m) * v)%Q.
Proof.
  induction m as [|m IH]; [cbn; ring|]. cbn [repeat qsum]. rewrite IH. rewrite Nat2Z.inj_succ. unfold Z.succ. rewrite inject_Z_plus. ring.
Qed.
Lemma qmean_repeat v m : (1 <= m)%nat -> (qmean (repeat v m) == v)%Q.
Proof.
  intros H. unfold qmean, zlen. rewrite qsum_repeat, repeat_length. field.
  intros E. change 0%Q with (inject_Z 0) in E. unfold Qeq in E. cbn in E. lia.
Qed.

Lemma blocks_partition n b off : 0 < b -> 0 <= off <= n -> 0 < n ->
  block_lo b off 0 = 0 /\ block_hi n b off (nblock n b off - 1) = n /\
  (forall i, 0 <= i < nblock n b off -> 0 <= block_lo b off i < block_hi n b off i /\ block_hi n b off i <= n) /\
  (forall i, 0 <= i < nblock n b off - 1 -> block_hi n b off i = block_lo b off (i + 1)) /\
  (forall k, 0 <= k < n -> exists! i, 0 <= i < nblock n b off /\ block_lo b off i <= k < block_hi n b off i).
Proof.
  intros Hb Ho Hn. destruct (div_facts n off b) as (H0 & H1 & H2); [lia|lia|].
  pose proof (nblock_eq n b off Hb Ho) as Hnb. cbv zeta in Hnb. set (q := (n - off) / b) in *.
  split; [unfold block_lo; destruct (0 <? off); reflexivity|].
  split.
  { unfold block_hi, block_lo. rewrite Hnb. destruct (0 <? off) eqn:Eo, (off + q * b <? n) eqn:Et.
    - destruct (1 + q + 1 - 1 + 1 =? 0) eqn:E; [lia|]. nia.
    - destruct (1 + q + 0 - 1 + 1 =? 0) eqn:E; [lia|]. nia.
    - nia.
    - nia. }
  split; [intros i Hi; apply block_nonempty; lia|].
  split.
  { intros i Hi. destruct (block_nonempty n b off (i + 1)) as [A1 A2]; [lia..|]. unfold block_hi at 1. lia. }
  intros k Hk. exists (which_block b off k). split.
  - assert (Hw : 0 <= which_block b off k < nblock n b off).
    { rewrite Hnb. unfold which_block. destruct (k <? off) eqn:Ek.
      - destruct (0 <? off) eqn:Eo; [|lia]. destruct (off + q * b <? n); lia.
      - assert (0 <= (k - off) / b) by (apply Z.div_pos; lia).
        destruct (off + q * b <? n) eqn:Et.
        + assert ((k - off) / b < q + 1) by (apply Z.div_lt_upper_bound; lia). destruct (0 <? off); lia.
        + assert ((k - off) / b < q) by (apply Z.div_lt_upper_bound; lia). destruct (0 <? off); lia. }
    split; [exact Hw|]. apply which_block_iff; lia.
  - intros i [Hi Hk2]. apply (which_block_iff n b off k i); lia.
Qed.

Lemma Forall2_zget {A} (R : A -> A -> Prop) (z x : list A) : zlen z = zlen x ->
  (forall i u v, zget z i = Some u -> zget x i = Some v -> R u v) -> Forall2 R z x.
Proof.
  intros Hlen Hpt. assert (Hl : length z = length x) by (unfold zlen in *; lia). clear Hlen.
  revert x Hl Hpt. induction z as [|u z IH]; intros [|v x] Hl Hpt; try discriminate; constructor.
  - apply (Hpt 0); reflexivity.
  - apply IH; [cbn in Hl; lia|]. intros i a c Ha Hc. pose proof (zget_Some_range _ _ _ Ha).
    apply (Hpt (i + 1)); rewrite zget_cons; (destruct (i + 1 =? 0) eqn:E; [lia|]); replace (i + 1 - 1) with i by lia; assumption.
Qed.

Lemma reduce_expand_noninc {A} (R : A -> A -> Prop) (op : list A -> A) (zero : A) x b n off :
  (forall v m, (1 <= m)%nat -> R (op (repeat v m)) v) ->
  2 <= b -> 0 <= off -> off + b <= n -> zlen x = (n - off) / b ->
  exists y z, block_expand zero x b n off false = Some y /\ zlen y = n /\ block_reduce op y b off false = Some z /\ Forall2 R z x.
Proof.
  intros Hop Hb Ho Hn Hx. destruct (expand_noninc zero x b n off) as (y & Hy & Hly & Hyk); [lia..|].
  destruct (reduce_noninc op y b off) as (z & Hz & Hlz & Hzi); [lia..|]. rewrite Hly, <- Hx in *.
  exists y, z. split; [exact Hy|]. split; [exact Hly|]. split; [exact Hz|].
  apply Forall2_zget; [exact Hlz|]. intros i u v Hu Hv. pose proof (zget_Some_range _ _ _ Hv) as Hi.
  rewrite Hzi in Hu by lia. injection Hu as <-. destruct (div_facts n off b) as (H0 & H1 & H2); [lia|lia|]. rewrite <- Hx in *.
  rewrite (sub_const _ v); [|nia|nia|].
  2:{ intros k Hk. rewrite Hyk by nia. destruct ((off <=? k) && (k <? off + zlen x * b)) eqn:E; [|nia].
      replace ((k - off) / b) with i; [exact Hv|]. apply (Z.div_unique _ _ _ (k - off - b * i)); nia. }
  apply Hop. nia.
Qed.
