From Coq Require Import Lqa Qround Qabs.
From Verif Require Import Base RangeLemmas BlockLemmas MiscSpec MiscModel.

(** sexagesimal *)
Lemma to_sexa_spec x : let '(sign, deg, min, sec) := to_sexa x in
  (sign = 1 \/ sign = -1) /\ (sign = -1 <-> (x < 0)%Q) /\ 0 <= deg /\ 0 <= min < 60 /\ (0 <= sec < 60)%Q /\ (from_sexa (to_sexa x) == x)%Q.
Proof.
  unfold to_sexa. set (sign := if Qlt_le_dec x 0 then -1 else 1).
  assert (Hs : (sign = 1 \/ sign = -1) /\ (sign = -1 <-> (x < 0)%Q)).
  { unfold sign. destruct (Qlt_le_dec x 0); split; auto; split; intros; auto; try discriminate. exfalso. apply (Qlt_not_le x 0); assumption. }
  destruct Hs as [Hs1 Hs2]. set (y := (x * inject_Z sign)%Q).
  assert (Hy : (0 <= y)%Q).
  { unfold y. destruct Hs1 as [E|E]; rewrite E.
    - assert (~ (x < 0)%Q) by (intros H; apply Hs2 in H; lia). change (inject_Z 1) with 1%Q. apply Qnot_lt_le in H. lra.
    - assert (x < 0)%Q by (apply Hs2; exact E). change (inject_Z (-1)) with (-1)%Q. lra. }
  pose proof (Qfloor_le y) as F1. pose proof (Qlt_floor y) as F2. rewrite inject_Z_plus in F2. change (inject_Z 1) with 1%Q in F2.
  set (deg := Qfloor y) in *. set (z := ((y - inject_Z deg) * 60)%Q).
  assert (Hz : (0 <= z < 60)%Q) by (unfold z; lra).
  pose proof (Qfloor_le z) as G1. pose proof (Qlt_floor z) as G2. rewrite inject_Z_plus in G2. change (inject_Z 1) with 1%Q in G2.
  set (min := Qfloor z) in *.
  split; [exact Hs1|]. split; [exact Hs2|]. split.
  { assert (H : (inject_Z (-1) < inject_Z deg)%Q) by (change (inject_Z (-1)) with (-1)%Q; lra). rewrite <- Zlt_Qlt in H. lia. }
  split.
  { assert (H1 : (inject_Z (-1) < inject_Z min)%Q) by (change (inject_Z (-1)) with (-1)%Q; lra). assert (H2 : (inject_Z min < inject_Z 60)%Q) by (change (inject_Z 60) with 60%Q; lra).
    rewrite <- Zlt_Qlt in H1, H2. lia. }
  split; [lra|]. unfold from_sexa. cbv zeta. fold y.
  transitivity (inject_Z sign * y)%Q; [unfold z; field|]. unfold y. destruct Hs1 as [-> | ->]; [change (inject_Z 1) with 1%Q|change (inject_Z (-1)) with (-1)%Q]; ring.
Qed.

(** cache *)
Lemma dict_get_cons {V} k (v : V) c j : dict_get ((k, v) :: c) j = if k =? j then Some v else dict_get c j.
Proof. unfold dict_get. cbn [find fst]. destruct (k =? j); reflexivity. Qed.

(* what a call with this key gets, given the cache so far and the calls before it *)
Lemma cache_run_spec {V} : forall (calls : list (Z * V)) (cache : list (Z * V)), cache <> [] ->
  length (cache_run cache calls) = length calls /\
  forall i k v, nth_error calls i = Some (k, v) ->
    exists w e, nth_error (cache_run cache calls) i = Some (k, w, e) /\
      match dict_get cache k with
      | Some u => w = u /\ e = false
      | None => (e = true /\ w = v /\ (forall j v', (j < i)%nat -> nth_error calls j <> Some (k, v'))) \/
                (e = false /\ exists j, (j < i)%nat /\ nth_error calls j = Some (k, w) /\ nth_error (cache_run cache calls) j = Some (k, w, true))
      end.
Proof.
  induction calls as [|[k0 v0] calls IH]; intros cache Hne; [split; [reflexivity|]; intros [|i] k v H; discriminate|].
  cbn [cache_run cache_get]. destruct cache as [|c0 ct]; [congruence|]. set (cache := c0 :: ct) in *. unfold cache_get. fold cache.
  change (match cache with [] => (v0, true, []) | _ :: _ => match dict_get cache k0 with Some w => (w, false, cache) | None => (v0, true, (k0, v0) :: cache) end end)
    with (match dict_get cache k0 with Some w => (w, false, cache) | None => (v0, true, (k0, v0) :: cache) end).
  destruct (dict_get cache k0) as [u0|] eqn:E0.
  - destruct (IH cache Hne) as [IHl IHi]. split; [cbn; lia|]. intros [|i] k v H.
    + cbn in H. injection H as <- <-. exists u0, false. split; [reflexivity|]. rewrite E0. auto.
    + cbn [nth_error] in H. destruct (IHi i k v H) as (w & e & H1 & H2). exists w, e. split; [exact H1|].
      destruct (dict_get cache k) as [u|] eqn:E; [exact H2|]. destruct H2 as [(H2 & H3 & H4)|(H2 & j & H3 & H4 & H5)].
      * left. repeat split; auto. intros [|j] v' Hj; [cbn; intros Heq; injection Heq as -> ->; congruence|]. cbn. apply H4. lia.
      * right. split; [exact H2|]. exists (S j). repeat split; auto. lia.
  - destruct (IH ((k0, v0) :: cache)) as [IHl IHi]; [discriminate|]. split; [cbn; lia|]. intros [|i] k v H.
    + cbn in H. injection H as <- <-. exists v0, true. split; [reflexivity|]. rewrite E0. left. repeat split; auto. lia.
    + cbn [nth_error] in H. destruct (IHi i k v H) as (w & e & H1 & H2). exists w, e. split; [exact H1|].
      rewrite dict_get_cons in H2. destruct (k0 =? k) eqn:Ek.
      * destruct H2 as [-> ->]. assert (k0 = k) by lia. subst k0. rewrite E0. right. split; [reflexivity|]. exists 0%nat. repeat split; auto. lia.
      * destruct (dict_get cache k) as [u|] eqn:E; [exact H2|]. destruct H2 as [(H2 & H3 & H4)|(H2 & j & H3 & H4 & H5)].
        -- left. repeat split; auto. intros [|j] v' Hj; [cbn; intros Heq; injection Heq as -> ->; lia|]. cbn. apply H4. lia.
        -- right. split; [exact H2|]. exists (S j). repeat split; auto. lia.
Qed.

(** nearest_product *)
Lemma zset_zlen {A} (l : list A) : forall i v, zlen (zset l i v) = zlen l.
Proof. induction l as [|x l IH]; intros [|i] v; cbn [zset]; rewrite ?zlen_cons, ?IH; reflexivity. Qed.
Lemma zset_zget {A} (l : list A) : forall i v k, 0 <= i < zlen l -> zget (zset l (Z.to_nat i) v) k = if k =? i then Some v else zget l k.
Proof.
  induction l as [|x l IH]; intros i v k Hi; [unfold zlen in Hi; cbn in Hi; lia|]. rewrite zlen_cons in Hi. destruct (Z.eq_dec i 0) as [->|Hn].
  - cbn [Z.to_nat zset]. rewrite !zget_cons. destruct (k =? 0); reflexivity.
  - replace (Z.to_nat i) with (S (Z.to_nat (i - 1))) by lia. cbn [zset]. rewrite !zget_cons. destruct (k =? 0) eqn:E.
    + destruct (k =? i) eqn:E2; [lia|reflexivity].
    + rewrite IH by lia. destruct (k - 1 =? i - 1) eqn:E2, (k =? i) eqn:E3; try lia; reflexivity.
Qed.

Lemma product_pos F p : (forall f, In f F -> 2 <= f) -> product_of F p -> 1 <= p.
Proof. intros HF H. induction H as [|p f Hp IH Hf]; [lia|]. specialize (HF f Hf). nia. Qed.

Section Above.
Context (n : Z) (F : list Z) (size : Z).
Hypothesis HF : forall f, In f F -> 2 <= f.
Hypothesis Hn : 1 <= n.
Hypothesis Hsize : n < size.

(* done: pairs (i,f) treated so far *)
Definition inv (done : Z -> Z -> Prop) (st : list bool * option Z) : Prop :=
  let '(a, best) := st in
  zlen a = size /\ zget a 1 = Some true /\
  (forall m, zget a m = Some true -> product_of F m) /\
  (forall i f, done i f -> product_of F i -> In f F -> i * f < size -> zget a (i * f) = Some true) /\
  (forall b, best = Some b -> n <= b /\ proper_product F b) /\
  (forall i f, done i f -> product_of F i -> In f F -> n <= i * f -> exists b, best = Some b /\ b <= i * f).

Lemma factors_inv i : product_of F i -> forall fs, (forall f, In f fs -> In f F) -> forall st done, inv done st ->
  inv (fun j f => done j f \/ (j = i /\ In f fs)) (np_factors false n i fs st).
Proof.
  intros Hi. induction fs as [|f fs IH]; intros Hfs [a best] done Hinv.
  - cbn. destruct Hinv as (H1 & H2 & H3 & H4 & H5 & H6). repeat split; auto.
    + intros j f [Hd|[_ []]]; auto.
    + apply H5. assumption.
    + apply H5. assumption.
    + intros j f [Hd|[_ []]]; auto.
  - cbn [np_factors]. set (m := i * f). set (best' := if (n <=? m) && match best with None => true | Some b => m <? b end then Some m else best).
    assert (Hf : In f F) by (apply Hfs; now left). pose proof (product_pos F i HF Hi) as Hip. pose proof (HF f Hf) as Hf2.
    assert (Hm : product_of F m) by (apply prod_mul; assumption). assert (Hmpos : 0 <= m) by (unfold m; nia).
    destruct Hinv as (H1 & H2 & H3 & H4 & H5 & H6). rewrite H1. set (a' := if m <? size then zset a (Z.to_nat m) true else a).
    assert (Ha' : zlen a' = size) by (unfold a'; destruct (m <? size); rewrite ?zset_zlen; exact H1).
    assert (Hg : forall k, zget a' k = if (k =? m) && (m <? size) then Some true else zget a k).
    { intros k. unfold a'. destruct (m <? size) eqn:E; [|rewrite andb_false_r; reflexivity]. rewrite zset_zget by lia. rewrite andb_true_r. reflexivity. }
    assert (Hinv' : inv (fun j g => done j g \/ (j = i /\ g = f)) (a', best')).
    { repeat split.
      - exact Ha'.
      - rewrite Hg. destruct ((1 =? m) && (m <? size)); [reflexivity|exact H2].
      - intros k. rewrite Hg. destruct ((k =? m) && (m <? size)) eqn:E; [|apply H3]. intros _. replace k with m by lia. exact Hm.
      - intros j g [Hd|[-> ->]] Hj Hin Hlt; rewrite Hg.
        + destruct ((j * g =? m) && (m <? size)); [reflexivity|]. apply H4; assumption.
        + fold m in Hlt. fold m. rewrite Z.eqb_refl. destruct (m <? size) eqn:E; [reflexivity|lia].
      - unfold best' in *. destruct ((n <=? m) && _) eqn:E; [|apply H5; assumption]. injection H as <-. lia.
      - unfold best' in *. destruct ((n <=? m) && _) eqn:E; [|apply H5; assumption]. injection H as <-. exists i, f. auto.
      - intros j g [Hd|[-> ->]] Hj Hin Hge; unfold best'.
        + destruct (H6 j g Hd Hj Hin Hge) as (b & -> & Hb). destruct ((n <=? m) && (m <? b)) eqn:E; [exists m|exists b]; split; auto. lia.
        + fold m in Hge |- *. destruct best as [b|].
          * destruct ((n <=? m) && (m <? b)) eqn:E; [exists m|exists b]; split; auto; lia.
          * destruct ((n <=? m) && true) eqn:E; [exists m; split; auto; lia|lia]. }
    specialize (IH (fun g Hg0 => Hfs g (or_intror Hg0)) (a', best') _ Hinv').
    destruct (np_factors false n i fs (a', best')) as [a2 b2]. destruct IH as (J1 & J2 & J3 & J4 & J5 & J6). repeat split; auto.
    + intros j g Hd. apply J4. destruct Hd as [Hd|[-> [->|Hd]]]; auto.
    + apply J5. assumption.
    + apply J5. assumption.
    + intros j g Hd. apply J6. destruct Hd as [Hd|[-> [->|Hd]]]; auto.
Qed.

Lemma loop_inv : forall m k st, 0 <= k -> k + Z.of_nat m <= n + 1 -> inv (fun j _ => j < k) st -> inv (fun j _ => j < k + Z.of_nat m) (np_loop false n F (zseq k m) st).
Proof.
  induction m as [|m IH]; intros k st Hk Hm Hinv; [cbn [zseq np_loop]; rewrite Z.add_0_r; exact Hinv|].
  cbn [zseq np_loop]. replace (k + Z.of_nat (S m)) with (k + 1 + Z.of_nat m) by lia. apply IH; [lia|lia|].
  destruct st as [a best]. cbn [fst]. destruct Hinv as (H1 & H2 & H3 & H4 & H5 & H6).
  assert (Hmark : product_of F k -> zget a k = Some true).
  { intros Hp. destruct Hp as [|p f Hp Hf]; [exact H2|]. pose proof (product_pos F p HF Hp). pose proof (HF f Hf). apply H4; auto; nia. }
  destruct (zget a k) as [[|]|] eqn:E.
  - pose proof (factors_inv k (H3 k E) F (fun f H => H) (a, best) (fun j _ => j < k) (conj H1 (conj H2 (conj H3 (conj H4 (conj H5 H6)))))) as J.
    destruct (np_factors false n k F (a, best)) as [a2 b2]. destruct J as (J1 & J2 & J3 & J4 & J5 & J6). repeat split; auto.
    + intros j g Hj Hpj Hg. apply J4; auto. destruct (Z.eq_dec j k); [right; auto|left; lia].
    + apply J5. assumption.
    + apply J5. assumption.
    + intros j g Hj Hpj Hg. apply J6; auto. destruct (Z.eq_dec j k); [right; auto|left; lia].
  - assert (Hnp : ~ product_of F k) by (intros Hp; specialize (Hmark Hp); congruence).
    repeat split; auto.
    + intros j g Hj Hpj Hg. apply H4; auto. destruct (Z.eq_dec j k) as [->|]; [contradiction|lia].
    + apply H5; assumption.
    + apply H5; assumption.
    + intros j g Hj Hpj Hg. apply H6; auto. destruct (Z.eq_dec j k) as [->|]; [contradiction|lia].
  - assert (Hnp : ~ product_of F k) by (intros Hp; specialize (Hmark Hp); congruence).
    repeat split; auto.
    + intros j g Hj Hpj Hg. apply H4; auto. destruct (Z.eq_dec j k) as [->|]; [contradiction|lia].
    + apply H5; assumption.
    + apply H5; assumption.
    + intros j g Hj Hpj Hg. apply H6; auto. destruct (Z.eq_dec j k) as [->|]; [contradiction|lia].
Qed.
End Above.

Lemma zmin_list_spec l : forall d, (2 <= d) -> (forall f, In f l -> 2 <= f) -> 2 <= zmin_list d l.
Proof. induction l as [|x l IH]; intros d Hd H; [exact Hd|]. cbn. apply IH; [specialize (H x (or_introl eq_refl)); lia|intros; apply H; now right]. Qed.

Lemma unbounded_product F f n : (forall f, In f F -> 2 <= f) -> In f F -> exists p, proper_product F p /\ n <= p.
Proof.
  intros HF Hf. assert (H : forall k, exists p, product_of F p /\ Z.of_nat k <= p).
  { induction k as [|k (p & Hp & Hk)]; [exists 1; split; [constructor|lia]|]. exists (p * f). split; [apply prod_mul; assumption|]. pose proof (product_pos F p HF Hp). specialize (HF f Hf). nia. }
  destruct (H (Z.to_nat n)) as (p & Hp & Hk). exists (p * f). split; [exists p, f; auto|]. specialize (HF f Hf). assert (n <= p) by lia. assert (0 <= p) by lia. nia.
Qed.

Lemma above_spec n F : 1 <= n -> F <> [] -> (forall f, In f F -> 2 <= f) ->
  exists b, nearest_product n F false = Some (Some b) /\ n <= b /\ proper_product F b /\ (forall p, proper_product F p -> n <= p -> b <= p).
Proof.
  intros Hn Hne HF. unfold nearest_product.
  assert (H1 : existsb (fun f => f =? 1) F = false).
  { destruct (existsb (fun f => f =? 1) F) eqn:E; [|reflexivity]. apply existsb_exists in E as (f & Hf & E). specialize (HF f Hf). lia. }
  rewrite H1. destruct F as [|f0 F0]; [congruence|]. set (F := f0 :: F0) in *.
  cbv iota. set (mn := zmin_list (hd 0 F) F). assert (Hmn : 2 <= mn) by (apply zmin_list_spec; [apply HF; now left|exact HF]).
  set (size := n * mn + 1 + 1). assert (Hs : n < size) by (unfold size; nia).
  set (a0 := zset (repeat false (Z.to_nat size)) 1 true).
  assert (Hinv0 : inv n F size (fun j _ => j < 0) (a0, None)).
  { unfold a0. change 1%nat with (Z.to_nat 1). repeat split.
    - rewrite zset_zlen, zlen_repeat by lia. reflexivity.
    - rewrite zset_zget by (rewrite zlen_repeat; lia). reflexivity.
    - intros m. rewrite zset_zget by (rewrite zlen_repeat; lia). destruct (m =? 1) eqn:E; [intros _; replace m with 1 by lia; constructor|].
      rewrite zget_repeat'. destruct (_ && _); discriminate.
    - intros i f Hi Hp. pose proof (product_pos F i HF Hp). lia.
    - discriminate.
    - discriminate.
    - intros i f Hi Hp. pose proof (product_pos F i HF Hp). lia. }
  pose proof (loop_inv n F size HF Hs (Z.to_nat (n + 1 - 0)) 0 (a0, None) ltac:(lia) ltac:(lia) Hinv0) as HI.
  change (zseq 0 (Z.to_nat (n + 1 - 0))) with (zrange 0 (n + 1)) in HI. replace (0 + Z.of_nat (Z.to_nat (n + 1 - 0))) with (n + 1) in HI by lia.
  destruct (np_loop false n F (zrange 0 (n + 1)) (a0, None)) as [a best] eqn:El. destruct HI as (I1 & I2 & I3 & I4 & I5 & I6). cbn [snd].
  (* every proper product >= n is at least some product p*f with p <= n *)
  assert (Hkey : forall p, product_of F p -> forall f, In f F -> n <= p * f -> exists b, best = Some b /\ b <= p * f).
  { intros p Hp. induction Hp as [|p g Hp IH Hg]; intros f Hf Hle.
    - apply (I6 1 f); [lia|constructor|exact Hf|exact Hle].
    - pose proof (product_pos F p HF Hp). pose proof (HF g Hg). pose proof (HF f Hf).
      destruct (Z_le_gt_dec n (p * g)) as [Hc|Hc].
      + destruct (IH g Hg Hc) as (b & Hb & Hbl). exists b. split; [exact Hb|]. nia.
      + apply (I6 (p * g) f); [lia|apply prod_mul; assumption|exact Hf|exact Hle]. }
  destruct (unbounded_product F f0 n HF) as (p & (q & f & Hq & Hf & ->) & Hle); [now left|].
  destruct (Hkey q Hq f Hf Hle) as (b & -> & _). destruct (I5 b eq_refl) as [J1 J2].
  exists b. split; [reflexivity|]. split; [exact J1|]. split; [exact J2|].
  intros p (q2 & f2 & Hq2 & Hf2 & ->) Hle2. destruct (Hkey q2 Hq2 f2 Hf2 Hle2) as (b2 & E & Hb2). injection E as <-. exact Hb2.
Qed.

(* below: sound *)
Lemma below_factors n F i : (forall f, In f F -> 2 <= f) -> product_of F i -> forall fs, (forall f, In f fs -> In f F) -> forall a best,
  (forall m, zget a m = Some true -> product_of F m) -> (forall b, best = Some b -> b <= n /\ proper_product F b) ->
  let '(a', best') := np_factors true n i fs (a, best) in
  (forall m, zget a' m = Some true -> product_of F m) /\ (forall b, best' = Some b -> b <= n /\ proper_product F b).
Proof.
  intros HF Hi. induction fs as [|f fs IH]; intros Hfs a best Ha Hb; [cbn; auto|]. cbn [np_factors]. set (m := i * f).
  assert (Hf : In f F) by (apply Hfs; now left). assert (Hm : product_of F m) by (apply prod_mul; assumption).
  assert (0 <= m) by (pose proof (product_pos F m HF Hm); lia).
  destruct (n <? m) eqn:E; [apply IH; auto; intros; apply Hfs; now right|]. apply IH.
  - intros; apply Hfs; now right.
  - intros k. destruct (m <? zlen a) eqn:E2; [|apply Ha]. rewrite zset_zget by lia. destruct (k =? m) eqn:E3; [|apply Ha]. intros _. replace k with m by lia. exact Hm.
  - intros b Hbb. injection Hbb as <-. split; [lia|]. exists i, f. auto.
Qed.
Lemma below_loop n F : (forall f, In f F -> 2 <= f) -> forall is a best,
  (forall m, zget a m = Some true -> product_of F m) -> (forall b, best = Some b -> b <= n /\ proper_product F b) ->
  forall b, snd (np_loop true n F is (a, best)) = Some b -> b <= n /\ proper_product F b.
Proof.
  intros HF. induction is as [|i is IH]; intros a best Ha Hb b; [cbn; apply Hb|]. cbn [np_loop fst].
  destruct (zget a i) as [[|]|] eqn:E; try (apply IH; assumption).
  pose proof (below_factors n F i HF (Ha i E) F (fun f H => H) a best Ha Hb) as J. destruct (np_factors true n i F (a, best)) as [a' best'].
  destruct J as [J1 J2]. apply IH; assumption.
Qed.
Lemma below_sound n F b : 0 <= n -> (forall f, In f F -> 2 <= f) -> nearest_product n F true = Some (Some b) -> b <= n /\ proper_product F b.
Proof.
  intros Hn HF. unfold nearest_product.
  assert (H1 : existsb (fun f => f =? 1) F = false).
  { destruct (existsb (fun f => f =? 1) F) eqn:E; [|reflexivity]. apply existsb_exists in E as (f & Hf & E). specialize (HF f Hf). lia. }
  rewrite H1. cbv iota zeta. intros H. apply Some_inj in H. revert H. apply below_loop; [exact HF| |discriminate].
  change 1%nat with (Z.to_nat 1). intros m. rewrite zset_zget by (rewrite zlen_repeat; lia). destruct (m =? 1) eqn:E; [intros _; replace m with 1 by lia; constructor|].
  rewrite zget_repeat'. destruct (_ && _); discriminate.
Qed.
