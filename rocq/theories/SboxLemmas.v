From Verif Require Import Base RangeLemmas SboxSpec SboxModel.

Lemma div_step n s : 0 < s -> (n * s - 1) / s + 1 = n.
Proof.
  intros H. assert ((n * s - 1) / s = n - 1); [|lia].
  symmetry. apply Z.div_unique with (s - 1); [lia|]. ring.
Qed.

Lemma range_len_exact a n s : s <> 0 -> 0 <= n -> range_len a (a + n * s) s = n.
Proof.
  intros Hs Hn. unfold range_len. destruct (0 <? s) eqn:E.
  - destruct (a <? a + n * s) eqn:E2.
    + replace (a + n * s - a - 1) with (n * s - 1) by ring. apply div_step. lia.
    + assert (n * s <= 0) by lia. nia.
  - destruct (s <? 0) eqn:E1; [|lia]. destruct (a + n * s <? a) eqn:E2.
    + replace (a - (a + n * s) - 1) with (n * (- s) - 1) by ring. apply div_step. lia.
    + assert (0 <= n * s) by lia. nia.
Qed.

Lemma sbox_size_exact a n s : s <> 0 -> sbox_size (a, a + n * s, s) = n.
Proof.
  intros Hs. unfold sbox_size.
  replace ((a + n * s) * Z.sgn s - a * Z.sgn s - 1) with (n * (s * Z.sgn s) - 1) by ring.
  apply div_step. rewrite Z.mul_comm. destruct s; cbn; lia.
Qed.

Lemma sgn_abs_mul s : s * Z.sgn s = Z.abs s.
Proof. destruct s; cbn; lia. Qed.

Lemma sbox_size_len x : box_ok x -> sbox_size x = range_len (fst (fst x)) (snd (fst x)) (snd x).
Proof.
  destruct x as [[a b] s]. cbn [box_ok fst snd]. intros [Hs Hd]. unfold sbox_size, range_len.
  rewrite sgn_abs_mul.
  replace (b * Z.sgn s - a * Z.sgn s) with ((b - a) * Z.sgn s) by ring.
  destruct (0 <? s) eqn:E.
  - replace (Z.sgn s) with 1 in * by lia. rewrite Z.mul_1_r in *. replace (Z.abs s) with s by lia.
    destruct (a <? b) eqn:E2; [reflexivity|]. replace (b - a) with 0 by lia.
    rewrite <- (Z.div_unique (0 - 1) s (-1) (s - 1)); lia.
  - destruct (s <? 0) eqn:E1; [|lia]. replace (Z.sgn s) with (-1) in * by lia. replace (Z.abs s) with (- s) by lia.
    destruct (b <? a) eqn:E2; [do 2 f_equal; lia|]. replace (b - a) with 0 by lia.
    rewrite <- (Z.div_unique (0 * -1 - 1) (- s) (-1) (- s - 1)); lia.
Qed.

Lemma range_len_nonneg a b s : 0 <= range_len a b s.
Proof.
  unfold range_len. destruct (0 <? s) eqn:E.
  - destruct (a <? b) eqn:E2; [|lia]. pose proof (Z.div_pos (b - a - 1) s). lia.
  - destruct (s <? 0) eqn:E1; [|lia]. destruct (b <? a) eqn:E2; [|lia].
    pose proof (Z.div_pos (a - b - 1) (- s)). lia.
Qed.

Lemma indices_zlen x : zlen (indices x) = range_len (fst (fst x)) (snd (fst x)) (snd x).
Proof.
  destruct x as [[a b] s]. cbn [indices fst snd]. rewrite zlen_map, zrange_zlen.
  pose proof (range_len_nonneg a b s). lia.
Qed.

Lemma sbox_size_spec x : box_ok x -> sbox_size x = zlen (indices x).
Proof. intros H. rewrite indices_zlen. now apply sbox_size_len. Qed.

Lemma indices_exact a n s : s <> 0 -> 0 <= n ->
  indices (a, a + n * s, s) = map (fun i => a + s * i) (zrange 0 n).
Proof. intros Hs Hn. cbn [indices]. now rewrite range_len_exact. Qed.

Lemma sbox_fix_spec x : box_ok x -> box_exact (sbox_fix x) /\ indices (sbox_fix x) = indices x.
Proof.
  intros H. pose proof (sbox_size_len x H) as E.
  destruct x as [[a b] s]. cbn [sbox_fix fst snd box_exact] in *. destruct H as [Hs Hd].
  pose proof (range_len_nonneg a b s). rewrite E. split.
  - split; [exact Hs|]. eauto.
  - rewrite indices_exact by assumption. reflexivity.
Qed.

Lemma sbox_fix_exact x : box_exact x -> sbox_fix x = x.
Proof.
  destruct x as [[a b] s]. intros (Hs & n & Hn & ->). cbn [sbox_fix]. now rewrite sbox_size_exact.
Qed.

Lemma box_exact_ok x : box_exact x -> box_ok x.
Proof.
  destruct x as [[a b] s]. intros (Hs & n & Hn & ->). split; [exact Hs|].
  replace (a + n * s - a) with (n * s) by ring. rewrite <- Z.mul_assoc, sgn_abs_mul. nia.
Qed.

Lemma zget_indices_exact a n s j : s <> 0 -> 0 <= n -> 
  zget (indices (a, a + n * s, s)) j = if (0 <=? j) && (j <? n) then Some (a + s * j) else None.
Proof.
  intros Hs Hn. rewrite indices_exact by assumption. rewrite zget_map.
  destruct ((0 <=? j) && (j <? n)) eqn:E.
  - rewrite zget_zrange by lia. cbn. f_equal.
  - rewrite zget_out; [reflexivity|]. rewrite zrange_zlen. lia.
Qed.

Lemma zget_rev {A} (l : list A) j : 0 <= j < zlen l -> zget (rev l) j = zget l (zlen l - 1 - j).
Proof.
  intros H. unfold zlen in *. unfold zget. destruct (j <? 0) eqn:E; [lia|].
  destruct (Z.of_nat (length l) - 1 - j <? 0) eqn:E2; [lia|].
  destruct l as [|x0 l0] eqn:El; [cbn in H; lia|]. rewrite <- El in *. clear El.
  rewrite !(nth_error_nth' _ x0) by (rewrite ?rev_length; lia).
  rewrite rev_nth by lia. do 2 f_equal. lia.
Qed.

Lemma zlen_rev {A} (l : list A) : zlen (rev l) = zlen l.
Proof. unfold zlen. now rewrite rev_length. Qed.

Lemma flip_exact a n s : sbox_flip (a, a + n * s, s) = (a + (n - 1) * s, a + (n - 1) * s + n * - s, - s).
Proof. unfold sbox_flip. apply f_equal2; [apply f_equal2; ring|reflexivity]. Qed.

Lemma sbox_flip_spec x : box_exact x -> box_exact (sbox_flip x) /\ indices (sbox_flip x) = rev (indices x).
Proof.
  destruct x as [[a b] s]. intros (Hs & n & Hn & ->). rewrite flip_exact. split.
  - split; [lia|]. eauto.
  - apply zget_ext. intros j. rewrite zget_indices_exact by lia.
    destruct ((0 <=? j) && (j <? n)) eqn:E.
    + rewrite zget_rev; rewrite indices_zlen; cbn [fst snd]; rewrite range_len_exact by lia; [|lia].
      rewrite zget_indices_exact by lia. destruct ((0 <=? n - 1 - j) && (n - 1 - j <? n)) eqn:E2; [|lia].
      f_equal. ring.
    + rewrite zget_out; [reflexivity|]. rewrite zlen_rev, indices_zlen. cbn [fst snd]. rewrite range_len_exact by lia. lia.
Qed.

(* membership for positive steps *)
Lemma In_indices_exact k a n s : 0 < s -> 0 <= n ->
  In k (indices (a, a + n * s, s)) <-> a <= k < a + n * s /\ (s | k - a).
Proof.
  intros Hs Hn. rewrite indices_exact by lia. rewrite in_map_iff. split.
  - intros (i & <- & Hi). apply zrange_In in Hi. split; [nia|]. exists i. ring.
  - intros [Hk [i Hi]]. exists i. split; [lia|]. apply zrange_In. nia.
Qed.

(* normalised to positive step *)
Definition pos_box (x : sbox) : sbox := let y := sbox_fix x in if snd y <? 0 then sbox_flip y else y.

Lemma pos_box_spec x : box_ok x -> box_exact (pos_box x) /\ 0 < snd (pos_box x) /\
  (forall k, In k (indices (pos_box x)) <-> In k (indices x)).
Proof.
  intros H. destruct (sbox_fix_spec x H) as [He Hi]. unfold pos_box.
  destruct (sbox_fix x) as [[a b] s]. cbn [snd]. destruct (s <? 0) eqn:E.
  - destruct (sbox_flip_spec _ He) as [Hf Hr]. split; [exact Hf|]. split; [cbn; lia|].
    intros k. rewrite Hr, <- in_rev, Hi. tauto.
  - split; [exact He|]. split; [cbn; destruct He; lia|]. intros k. rewrite Hi. tauto.
Qed.

(** gcd / lcm *)
Lemma gcd_rec_spec fuel : forall a b, 0 <= a -> 0 <= b < Z.of_nat fuel -> gcd_rec fuel a b = Z.gcd a b.
Proof.
  induction fuel as [|fuel IH]; intros a b Ha Hb; [lia|]. cbn [gcd_rec]. destruct (b =? 0) eqn:E.
  - assert (b = 0) by lia. subst. rewrite Z.gcd_0_r. lia.
  - pose proof (Z.mod_pos_bound a b ltac:(lia)).
    rewrite IH by lia. rewrite Z.gcd_comm, Z.gcd_mod by lia. apply Z.gcd_comm.
Qed.

Lemma pylcm_spec a b : 0 < a -> 0 < b -> pylcm a b = Z.lcm a b /\ 0 < pylcm a b.
Proof.
  intros Ha Hb. unfold pylcm, pygcd. rewrite gcd_rec_spec by lia.
  assert (Hg : 0 < Z.gcd a b).
  { pose proof (Z.gcd_nonneg a b). destruct (Z.eq_dec (Z.gcd a b) 0) as [E|]; [|lia].
    apply Z.gcd_eq_0 in E. lia. }
  unfold Z.lcm. rewrite Z.divide_div_mul_exact by (auto using Z.gcd_divide_r; lia).
  destruct (Z.gcd_divide_r a b) as [q Hq]. set (g := Z.gcd a b) in *.
  assert (Hb' : b / g = q) by (rewrite Hq; apply Z.div_mul; lia). rewrite Hb'.
  assert (0 < q) by nia. split; nia.
Qed.

Lemma filter_first {A} (f : A -> bool) l : match filter f l with
  | [] => forall x, In x l -> f x = false
  | m :: _ => exists i, nth_error l i = Some m /\ f m = true /\
      (forall j x, (j < i)%nat -> nth_error l j = Some x -> f x = false)
  end.
Proof.
  induction l as [|x l IH]; cbn [filter]; [easy|]. destruct (f x) eqn:E.
  - exists O. split; [reflexivity|]. split; [exact E|]. lia.
  - destruct (filter f l) as [|m t].
    + intros y [<-|Hy]; auto.
    + destruct IH as (i & Hi & Hm & Hj). exists (S i). split; [exact Hi|]. split; [exact Hm|].
      intros [|j] y Hj' Hy; cbn in Hy; [injection Hy as <-; exact E|]. apply (Hj j y); [lia|exact Hy].
Qed.

(* the ordered case of one segment *)
Definition seg_ord (a b : sbox) : list sbox :=
  let '(a0, a1, a2) := a in let '(b0, b1, b2) := b in
  let step := pylcm (Z.abs a2) (Z.abs b2) in
  let rel_inds := indices (b0 - a0, b0 - a0 + step, b2) in
  match filter (fun r => r mod a2 =? 0) rel_inds with
  | [] => []
  | m :: _ =>
      let start := m + a0 in
      let e := (Z.min (a1 - a2) (b1 - b2) - start) / step * step + start + step in
      if e <=? start then [] else [(start, e, step)]
  end.

Lemma seg_ord_spec a0 n p b0 m q : 0 < p -> 0 < q -> 0 <= n -> 0 <= m -> a0 <= b0 ->
  let a := (a0, a0 + n * p, p) in let b := (b0, b0 + m * q, q) in
  (forall k, boxes_In k (seg_ord a b) <-> In k (indices a) /\ In k (indices b)) /\
  (length (seg_ord a b) <= 1)%nat /\ Forall (fun r => 0 < snd r) (seg_ord a b).
Proof.
  intros Hp Hq Hn Hm Hab a b. unfold a, b, seg_ord.
  replace (Z.abs p) with p by lia. replace (Z.abs q) with q by lia.
  destruct (pylcm_spec p q Hp Hq) as [EL HL]. set (L := pylcm p q) in *.
  assert (HpL : (p | L)) by (rewrite EL; apply Z.divide_lcm_l).
  assert (HqL : (q | L)) by (rewrite EL; apply Z.divide_lcm_r).
  destruct HqL as [c Hc]. assert (Hc0 : 0 < c) by nia.
  assert (Hlcm : forall x, (p | x) -> (q | x) -> (L | x)).
  { intros x H1 H2. rewrite EL. now apply Z.lcm_least. }
  (* membership facts *)
  assert (Mem : forall k, In k (indices (a0, a0 + n * p, p)) /\ In k (indices (b0, b0 + m * q, q)) <->
     b0 <= k <= Z.min (a0 + n * p - p) (b0 + m * q - q) /\ (p | k - a0) /\ (q | k - b0)).
  { intros k. rewrite !In_indices_exact by assumption. split.
    - intros [[H1 D1] [H2 D2]]. split; [|auto]. split; [lia|]. destruct D1 as [i Hi], D2 as [j Hj].
      assert (i < n) by nia. assert (j < m) by nia. apply Z.min_glb; nia.
    - intros [H [D1 D2]]. repeat split; auto; nia. }
  set (rel := map (fun i => b0 - a0 + q * i) (zrange 0 c)).
  assert (Erel : indices (b0 - a0, b0 - a0 + L, q) = rel).
  { unfold rel. rewrite <- indices_exact by lia. do 3 f_equal; lia. }
  rewrite Erel.
  pose proof (filter_first (fun r => r mod p =? 0) rel) as HF.
  destruct (filter (fun r => r mod p =? 0) rel) as [|x t].
  - split; [|split; [cbn; lia|constructor]]. intros k. split; [intros (r & [] & _)|].
    intros Hk. apply Mem in Hk as (Hk & D1 & D2). exfalso.
    destruct D2 as [j Hj].
    set (i := j mod c). assert (Hi : 0 <= i < c) by (apply Z.mod_pos_bound; lia).
    assert (G : (b0 - a0 + q * i) mod p =? 0 = false).
    { apply HF. unfold rel. apply in_map_iff. exists i. split; [reflexivity|]. apply zrange_In. lia. }
    assert (D : (p | b0 - a0 + q * i)).
    { assert (Ej : j = c * (j / c) + i) by (apply Z.div_mod; lia).
      replace (b0 - a0 + q * i) with ((k - a0) - (j / c) * L) by (rewrite Hc; lia).
      apply Z.divide_sub_r; [exact D1|]. now apply Z.divide_mul_r. }
    apply Z.mod_divide in D; [|lia]. lia.
  - destruct HF as (i & Hi & Hx & Hmin).
    assert (Hi' : (i < length rel)%nat) by (apply nth_error_Some; congruence).
    assert (Hlr : length rel = Z.to_nat c).
    { unfold rel. rewrite map_length. unfold zrange. rewrite zseq_length. f_equal. lia. }
    assert (Ex : x = b0 - a0 + q * Z.of_nat i).
    { unfold rel in Hi. rewrite nth_error_map in Hi. unfold zrange in Hi. rewrite zseq_nth in Hi by lia.
      cbn in Hi. injection Hi as <-. reflexivity. }
    set (start := x + a0). assert (Es : start = b0 + q * Z.of_nat i) by (unfold start; lia).
    assert (Dp : (p | start - a0)). { unfold start. replace (x + a0 - a0) with x by lia. apply Z.mod_divide; lia. }
    assert (Dq : (q | start - b0)). { exists (Z.of_nat i). lia. }
    set (M := Z.min (a0 + n * p - p) (b0 + m * q - q)) in *.
    (* all common elements are start + L*t, t >= 0 *)
    assert (Com : forall k, b0 <= k /\ (p | k - a0) /\ (q | k - b0) <-> exists t, 0 <= t /\ k = start + L * t).
    { intros k. split.
      - intros (Hk & D1 & D2).
        assert (D : (L | k - start)).
        { apply Hlcm.
          - replace (k - start) with ((k - a0) - (start - a0)) by lia. now apply Z.divide_sub_r.
          - replace (k - start) with ((k - b0) - (start - b0)) by lia. now apply Z.divide_sub_r. }
        destruct D as [u Hu]. exists u. split; [|lia].
        assert (start < b0 + L) by nia. nia.
      - intros (u & Hu & ->). split; [nia|]. split.
        + replace (start + L * u - a0) with ((start - a0) + u * L) by lia.
          apply Z.divide_add_r; [exact Dp|]. now apply Z.divide_mul_r.
        + replace (start + L * u - b0) with ((start - b0) + u * L) by lia.
          apply Z.divide_add_r; [exact Dq|]. apply Z.divide_mul_r. now exists c. }
    set (f := (M - start) / L).
    pose proof (Z.div_mod (M - start) L ltac:(lia)) as Hdm. fold f in Hdm.
    pose proof (Z.mod_pos_bound (M - start) L ltac:(lia)) as Hmb.
    destruct (f * L + start + L <=? start) eqn:Ef.
    + split; [|split; [cbn; lia|constructor]]. intros k. split; [intros (r & [] & _)|].
      intros Hk. apply Mem in Hk as (Hk & D1 & D2). exfalso.
      destruct (proj1 (Com k)) as (u & Hu & Ek); [tauto|].
      assert (f < 0) by nia. nia.
    + split; [|split; [cbn; lia|repeat constructor; cbn; lia]]. intros k.
      assert (Hf : 0 <= f) by nia.
      replace (f * L + start + L) with (start + (f + 1) * L) by ring.
      rewrite Mem. split.
      * intros (r & [<-|[]] & Hk). apply In_indices_exact in Hk as [Hk [u Hu]]; [|lia|lia].
        destruct (proj2 (Com k)) as (H1 & H2 & H3).
        { exists u. split; [|lia]. nia. }
        split; [|auto]. split; [exact H1|]. assert (u <= f) by nia. nia.
      * intros (Hk & D1 & D2). eexists. split; [left; reflexivity|].
        destruct (proj1 (Com k)) as (u & Hu & Ek); [tauto|].
        apply In_indices_exact; [lia|lia|]. split; [|exists u; lia].
        assert (u <= f); [|nia]. assert (L * u <= M - start) by lia.
        apply Z.div_le_lower_bound; lia.
Qed.

Lemma intersect_seg_spec a b : box_exact a -> box_exact b -> 0 < snd a -> 0 < snd b ->
  (forall k, boxes_In k (intersect_seg a b) <-> In k (indices a) /\ In k (indices b)) /\
  (length (intersect_seg a b) <= 1)%nat /\ Forall (fun r => 0 < snd r) (intersect_seg a b).
Proof.
  intros Ha Hb Hpa Hpb. destruct a as [[a0 a1] p], b as [[b0 b1] q]. cbn [snd] in *.
  destruct Ha as (_ & n & Hn & ->), Hb as (_ & m & Hm & ->).
  unfold intersect_seg. cbn [fst snd]. destruct (b0 <? a0) eqn:E.
  - destruct (seg_ord_spec b0 m q a0 n p) as (A & B & C); try lia. split; [|split; [exact B|exact C]].
    intros k. specialize (A k). cbn [seg_ord] in A. rewrite A. tauto.
  - destruct (seg_ord_spec a0 n p b0 m q) as (A & B & C); try lia. split; [exact A|split; [exact B|exact C]].
Qed.

Lemma sbox_intersect_1d_spec a b : box_ok a -> box_ok b ->
  let res := sbox_intersect_1d a b 0 in
  (forall k, boxes_In k res <-> In k (indices a) /\ In k (indices b)) /\
  (length res <= 1)%nat /\ Forall (fun r => 0 < snd r) res.
Proof.
  intros Ha Hb. cbv zeta. unfold sbox_intersect_1d. cbn [Z.eqb].
  fold (pos_box a). fold (pos_box b). cbn [flat_map fst snd]. rewrite app_nil_r.
  destruct (pos_box_spec a Ha) as (A1 & A2 & A3), (pos_box_spec b Hb) as (B1 & B2 & B3).
  destruct (intersect_seg_spec _ _ A1 B1 A2 B2) as (H1 & H2 & H3).
  split; [|auto]. intros k. rewrite H1, A3, B3. tauto.
Qed.

Lemma shift_exact x d : box_exact x -> box_exact (shift_box x d) /\
  (forall k, In k (indices (shift_box x d)) <-> In (k + d) (indices x)).
Proof.
  destruct x as [[a b] s]. intros (Hs & n & Hn & ->). cbn [shift_box].
  replace (a + n * s - d) with ((a - d) + n * s) by ring. split.
  - split; [exact Hs|]. eauto.
  - intros k. rewrite !indices_exact by assumption. rewrite !in_map_iff. split.
    + intros (i & <- & Hi). exists i. split; [lia|exact Hi].
    + intros (i & E & Hi). exists i. split; [lia|exact Hi].
Qed.

Lemma shift_step x d : snd (shift_box x d) = snd x.
Proof. destruct x as [[? ?] ?]. reflexivity. Qed.
Lemma shift_fst x d : fst (fst (shift_box x d)) = fst (fst x) - d.
Proof. destruct x as [[? ?] ?]. reflexivity. Qed.
Lemma shift_snd x d : snd (fst (shift_box x d)) = snd (fst x) - d.
Proof. destruct x as [[? ?] ?]. reflexivity. Qed.

Lemma boxes_In_app k l m : boxes_In k (l ++ m) <-> boxes_In k l \/ boxes_In k m.
Proof.
  unfold boxes_In. split.
  - intros (r & Hr & H). apply in_app_iff in Hr as [Hr|Hr]; eauto.
  - intros [(r & Hr & H)|(r & Hr & H)]; exists r; rewrite in_app_iff; auto.
Qed.

Lemma sbox_intersect_1d_wrap_spec a b w : box_ok a -> box_ok b -> 0 < w ->
  sbox_size a * Z.abs (snd a) <= w -> sbox_size b * Z.abs (snd b) <= w ->
  forall k, (exists x, boxes_In x (sbox_intersect_1d a b w) /\ cong w x k) <->
    (exists x, In x (indices a) /\ cong w x k) /\ (exists y, In y (indices b) /\ cong w y k).
Proof.
  intros Ha Hb Hw La Lb k. unfold sbox_intersect_1d. destruct (w =? 0) eqn:Ew; [lia|].
  fold (pos_box a). fold (pos_box b).
  assert (Ext : forall x, box_ok x -> sbox_size x * Z.abs (snd x) <= w ->
            snd (fst (pos_box x)) - fst (fst (pos_box x)) <= w).
  { clear. intros [[a b] s] H L. unfold pos_box. cbn [sbox_fix]. cbn [snd] in *.
    destruct (s <? 0) eqn:E; cbn [sbox_flip fst snd]; nia. }
  pose proof (Ext a Ha La) as Ea. pose proof (Ext b Hb Lb) as Eb. clear Ext La Lb.
  destruct (pos_box_spec a Ha) as (A1 & A2 & A3), (pos_box_spec b Hb) as (B1 & B2 & B3).
  assert (RA : (exists x, In x (indices a) /\ cong w x k) <-> (exists x, In x (indices (pos_box a)) /\ cong w x k)).
  { split; intros (x & Hx & Hc); exists x; (split; [now apply A3|exact Hc]). }
  assert (RB : (exists x, In x (indices b) /\ cong w x k) <-> (exists x, In x (indices (pos_box b)) /\ cong w x k)).
  { split; intros (x & Hx & Hc); exists x; (split; [now apply B3|exact Hc]). }
  rewrite RA, RB. clear RA RB A3 B3 Ha Hb. generalize dependent (pos_box a). generalize dependent (pos_box b). clear a b.
  intros b Eb B1 B2 a Ea A1 A2.
  set (da := fst (fst a) / w * w). set (db := fst (fst b) / w * w).
  assert (Ra : 0 <= fst (fst a) - da < w).
  { unfold da. pose proof (Z.div_mod (fst (fst a)) w). pose proof (Z.mod_pos_bound (fst (fst a)) w). nia. }
  assert (Rb : 0 <= fst (fst b) - db < w).
  { unfold db. pose proof (Z.div_mod (fst (fst b)) w). pose proof (Z.mod_pos_bound (fst (fst b)) w). nia. }
  assert (RA : (exists x, In x (indices a) /\ cong w x k) <-> (exists x, In x (indices (shift_box a da)) /\ cong w x k)).
  { destruct (shift_exact a da A1) as [_ S]. split; intros (x & Hx & [t Hc]).
    - exists (x - da). split; [apply S; now replace (x - da + da) with x by lia|].
      exists (t - fst (fst a) / w). unfold da. lia.
    - exists (x + da). split; [now apply S|]. exists (t + fst (fst a) / w). unfold da. lia. }
  assert (RB : (exists x, In x (indices b) /\ cong w x k) <-> (exists x, In x (indices (shift_box b db)) /\ cong w x k)).
  { destruct (shift_exact b db B1) as [_ S]. split; intros (x & Hx & [t Hc]).
    - exists (x - db). split; [apply S; now replace (x - db + db) with x by lia|].
      exists (t - fst (fst b) / w). unfold db. lia.
    - exists (x + db). split; [now apply S|]. exists (t + fst (fst b) / w). unfold db. lia. }
  rewrite RA, RB.
  destruct (shift_exact a da A1) as [A1' _]. destruct (shift_exact b db B1) as [B1' _].
  clear RA RB.
  assert (X1 : snd (fst (shift_box a da)) = snd (fst a) - da) by apply shift_snd.
  assert (X2 : snd (fst (shift_box b db)) = snd (fst b) - db) by apply shift_snd.
  assert (X3 : fst (fst (shift_box a da)) = fst (fst a) - da) by apply shift_fst.
  assert (X4 : fst (fst (shift_box b db)) = fst (fst b) - db) by apply shift_fst.
  assert (X5 : 0 < snd (shift_box a da)) by now rewrite shift_step.
  assert (X6 : 0 < snd (shift_box b db)) by now rewrite shift_step.
  generalize dependent (shift_box a da). generalize dependent (shift_box b db).
  intros b' B1' X2 X4 X6 a' A1' X1 X3 X5.
  assert (Ia : forall x, In x (indices a') -> 0 <= x < 2 * w /\ x < snd (fst a')).
  { intros x Hx. destruct a' as [[a0 a1] p]. cbn [fst snd] in *. destruct A1' as (_ & n & Hn & ->).
    apply In_indices_exact in Hx; lia. }
  assert (Ib : forall x, In x (indices b') -> 0 <= x < 2 * w /\ x < snd (fst b')).
  { intros x Hx. destruct b' as [[b0 b1] p]. cbn [fst snd] in *. destruct B1' as (_ & n & Hn & ->).
    apply In_indices_exact in Hx; lia. }
  clear X1 X2 X3 X4 Ea Eb Ra Rb da db A1 B1 A2 B2 a b.
  rewrite !flat_map_app. cbn [flat_map fst snd]. rewrite app_nil_r.
  destruct (intersect_seg_spec a' b' A1' B1' X5 X6) as (S0 & _).
  destruct (shift_exact a' w A1') as [A2' SA]. destruct (shift_exact b' w B1') as [B2' SB].
  destruct (intersect_seg_spec (shift_box a' w) b' A2' B1') as (S1 & _); [now rewrite shift_step|assumption|].
  destruct (intersect_seg_spec a' (shift_box b' w) A1' B2') as (S2 & _); [assumption|now rewrite shift_step|].
  split.
  - intros (x & Hx & Hc). rewrite !boxes_In_app in Hx. destruct Hx as [Hx|[Hx|Hx]].
    + apply S0 in Hx as [H1 H2]. split; exists x; auto.
    + destruct (w <? snd (fst a')); cbn [flat_map fst snd] in Hx.
      * rewrite app_nil_r in Hx. apply S1 in Hx as [H1 H2]. apply SA in H1. split; [|now exists x].
        exists (x + w). split; [exact H1|]. destruct Hc as [t Hc]. exists (t + 1). lia.
      * destruct Hx as (? & [] & _).
    + destruct (w <? snd (fst b')); cbn [flat_map fst snd] in Hx.
      * rewrite app_nil_r in Hx. apply S2 in Hx as [H1 H2]. apply SB in H2. split; [now exists x|].
        exists (x + w). split; [exact H2|]. destruct Hc as [t Hc]. exists (t + 1). lia.
      * destruct Hx as (? & [] & _).
  - intros [(x & Hx & [t Hc]) (y & Hy & [u Hd])].
    pose proof (Ia x Hx). pose proof (Ib y Hy).
    assert (Hd3 : x = y \/ x = y + w \/ y = x + w).
    { assert (x - y = (t - u) * w) by lia. assert (-1 <= t - u <= 1) by nia.
      assert (t - u = -1 \/ t - u = 0 \/ t - u = 1) as [E|[E|E]] by lia; rewrite E in *; lia. }
    destruct Hd3 as [E|[E|E]].
    + exists x. split; [|now exists t]. rewrite boxes_In_app. left. apply S0. rewrite <- E in Hy. auto.
    + exists y. split; [|now exists u]. rewrite !boxes_In_app. right; left.
      destruct (w <? snd (fst a')) eqn:E2; [|lia]. cbn [flat_map fst snd]. rewrite app_nil_r.
      apply S1. split; [apply SA; now rewrite <- E|exact Hy].
    + exists x. split; [|now exists t]. rewrite !boxes_In_app. right; right.
      destruct (w <? snd (fst b')) eqn:E2; [|lia]. cbn [flat_map fst snd]. rewrite app_nil_r.
      apply S2. split; [exact Hx|apply SB; now rewrite <- E].
Qed.

(** sbox_div, sbox_mul *)
Lemma zget_indices a b s j : zget (indices (a, b, s)) j =
  if (0 <=? j) && (j <? range_len a b s) then Some (a + s * j) else None.
Proof.
  cbn [indices]. rewrite zget_map. destruct ((0 <=? j) && (j <? range_len a b s)) eqn:E.
  - rewrite zget_zrange by lia. reflexivity.
  - rewrite zget_out; [reflexivity|]. rewrite zrange_zlen. lia.
Qed.

Lemma sbox_div_spec a b : box_ok a -> box_ok b -> indices a <> [] ->
  (forall k, In k (indices a) -> In k (indices b)) -> (snd b | snd a) ->
  map (zget (indices b)) (indices (sbox_div a b)) = map Some (indices a).
Proof.
  intros Ha Hb Hne Hsub Hd.
  destruct (sbox_fix_spec a Ha) as [Ea Ia], (sbox_fix_spec b Hb) as [Eb Ib].
  unfold sbox_div. rewrite <- Ia in *. rewrite <- Ib in *.
  assert (Hda : snd (sbox_fix a) = snd a) by (destruct a as [[? ?] ?]; reflexivity).
  assert (Hdb : snd (sbox_fix b) = snd b) by (destruct b as [[? ?] ?]; reflexivity).
  rewrite <- Hda, <- Hdb in Hd. clear Ia Ib Hda Hdb Ha Hb.
  destruct (sbox_fix a) as [[a0 a1] p], (sbox_fix b) as [[b0 b1] q]. clear a b.
  destruct Ea as (Hp & n & Hn & ->), Eb as (Hq & m & Hm & ->). cbn [snd] in Hd.
  destruct Hd as [c Hc]. subst p. assert (Hc0 : c <> 0) by (intros ->; lia).
  replace (a0 + n * (c * q) - a0) with (n * (c * q)) by ring.
  rewrite (Z.div_mul c q) by lia. rewrite (Z.div_mul n (c * q)) by lia.
  assert (Hn0 : 0 < n).
  { destruct (Z.eq_dec n 0) as [->|]; [|lia]. rewrite indices_exact in Hne by lia. cbn in Hne. congruence. }
  assert (H0 : In a0 (indices (b0, b0 + m * q, q))).
  { apply Hsub. rewrite indices_exact by lia. apply in_map_iff. exists 0. split; [lia|]. apply zrange_In. lia. }
  rewrite indices_exact in H0 by lia. apply in_map_iff in H0 as (i0 & E0 & Hi0). apply zrange_In in Hi0.
  replace ((a0 - b0) / q) with i0.
  2:{ replace (a0 - b0) with (i0 * q) by lia. now rewrite Z.div_mul by lia. }
  replace (c * n) with (n * c) by ring.
  rewrite !indices_exact by lia. rewrite !map_map. apply map_ext_in. intros i Hi. apply zrange_In in Hi.
  assert (Hin : In (a0 + c * q * i) (indices (b0, b0 + m * q, q))).
  { apply Hsub. rewrite indices_exact by lia. apply in_map_iff. exists i. split; [lia|]. apply zrange_In. lia. }
  rewrite indices_exact in Hin by lia. apply in_map_iff in Hin as (j & Ej & Hj). apply zrange_In in Hj.
  assert (j = i0 + c * i) by nia. subst j.
  rewrite zget_map, zget_zrange by lia. cbn. f_equal. lia.
Qed.

Lemma filter_map_comm {A B} (f : B -> bool) (g : A -> B) l : filter f (map g l) = map g (filter (fun x => f (g x)) l).
Proof. induction l as [|x l IH]; [reflexivity|]. cbn [map filter]. rewrite IH. destruct (f (g x)); reflexivity. Qed.

Lemma filter_all {A} (f : A -> bool) l : (forall x, In x l -> f x = true) -> filter f l = l.
Proof.
  induction l as [|x l IH]; intros H; [reflexivity|]. cbn [filter]. rewrite (H x (or_introl eq_refl)).
  f_equal. apply IH. intros y Hy. apply H. now right.
Qed.

Lemma filter_none {A} (f : A -> bool) l : (forall x, In x l -> f x = false) -> filter f l = [].
Proof.
  induction l as [|x l IH]; intros H; [reflexivity|]. cbn [filter]. rewrite (H x (or_introl eq_refl)).
  apply IH. intros y Hy. apply H. now right.
Qed.

Lemma filter_zrange n t : 0 <= t -> filter (fun i => i <? t) (zrange 0 n) = zrange 0 (Z.min n t).
Proof.
  intros Ht. destruct (Z_le_gt_dec n t) as [H|H].
  - rewrite Z.min_l by lia. apply filter_all. intros x Hx. apply zrange_In in Hx. lia.
  - rewrite Z.min_r by lia. rewrite (zrange_split 0 t n) by lia. rewrite filter_app.
    rewrite filter_all by (intros x Hx; apply zrange_In in Hx; lia).
    rewrite filter_none by (intros x Hx; apply zrange_In in Hx; lia). apply app_nil_r.
Qed.

Lemma filter_rev {A} (f : A -> bool) l : filter f (rev l) = rev (filter f l).
Proof.
  induction l as [|x l IH]; [reflexivity|]. cbn [rev filter]. rewrite filter_app, IH. cbn [filter].
  destruct (f x); [reflexivity|]. apply app_nil_r.
Qed.

(* ascending b *)
Lemma mul_pos a0 n p b0 m q : 0 < p -> 0 < q -> 0 <= n -> 0 <= m -> 0 <= b0 ->
  let res := sbox_fix (a0 + b0 * p, Z.min (a0 + (b0 + m * q) * p) (a0 + n * p), p * q) in
  b0 <= n ->
  box_exact res /\
  indices res = map (fun j => a0 + p * j) (filter (fun j => j <? n) (indices (b0, b0 + m * q, q))).
Proof.
  intros Hp Hq Hn Hm Hb0 res Hbn.
  assert (Hok : box_ok (a0 + b0 * p, Z.min (a0 + (b0 + m * q) * p) (a0 + n * p), p * q)).
  { split; [nia|]. replace (Z.sgn (p * q)) with 1 by nia. nia. }
  destruct (sbox_fix_spec _ Hok) as [He Hi]. fold res in He, Hi. split; [exact He|].
  rewrite Hi. rewrite indices_exact by lia. rewrite filter_map_comm, map_map.
  (* number of kept elements *)
  set (t := (n - b0 - 1) / q + 1).
  pose proof (Z.div_mod (n - b0 - 1) q ltac:(lia)). pose proof (Z.mod_pos_bound (n - b0 - 1) q ltac:(lia)).
  assert (Ht : 0 <= t).
  { unfold t. assert (-1 <= (n - b0 - 1) / q); [|lia]. apply Z.div_le_lower_bound; lia. }
  assert (Ef : filter (fun x => b0 + q * x <? n) (zrange 0 m) = filter (fun i => i <? t) (zrange 0 m)).
  { apply filter_ext_in. intros i Hi'. apply zrange_In in Hi'.
    assert (b0 + q * i < n <-> i < t); [|lia]. unfold t. split; intros G; nia. }
  rewrite Ef, filter_zrange by exact Ht.
  cbn [indices].
  assert (El : range_len (a0 + b0 * p) (Z.min (a0 + (b0 + m * q) * p) (a0 + n * p)) (p * q) = Z.min m t).
  { unfold range_len. destruct (0 <? p * q) eqn:Epq; [|nia].
    destruct (Z_le_gt_dec (b0 + m * q) n) as [Hle|Hgt].
    - rewrite Z.min_l by nia. rewrite Z.min_l by (unfold t; nia).
      destruct (a0 + b0 * p <? a0 + (b0 + m * q) * p) eqn:E.
      + replace (a0 + (b0 + m * q) * p - (a0 + b0 * p) - 1) with (m * (p * q) - 1) by ring. apply div_step. lia.
      + assert (m * (p * q) <= 0) by lia. nia.
    - rewrite Z.min_r by nia. rewrite Z.min_r by (unfold t; nia).
      destruct (a0 + b0 * p <? a0 + n * p) eqn:E.
      + replace (a0 + n * p - (a0 + b0 * p) - 1) with ((n - b0) * p - 1) by ring.
        unfold t. f_equal. rewrite <- Z.div_div by lia. f_equal.
        pose proof (div_step (n - b0) p Hp). lia.
      + assert (n - b0 <= 0) by nia. unfold t. replace (n - b0 - 1) with (-1) by lia.
        rewrite <- (Z.div_unique (-1) q (-1) (q - 1)); lia. }
  rewrite El. apply map_ext. intros i. ring.
Qed.


Lemma empty_box a b s : 0 < s -> b <= a ->
  indices (sbox_fix (a, b, s)) = [] /\ indices (sbox_flip (sbox_fix (a, b, s))) = [].
Proof.
  intros Hs Hb. cbn [sbox_fix]. set (z := sbox_size (a, b, s)).
  assert (Hz : z <= 0).
  { unfold z, sbox_size. replace (Z.sgn s) with 1 by lia.
    assert ((b * 1 - a * 1 - 1) / (s * 1) < 0); [|lia]. apply Z.div_lt_upper_bound; lia. }
  split; cbn [indices sbox_flip]; unfold range_len.
  - destruct (0 <? s) eqn:E; [|lia]. destruct (a <? a + z * s) eqn:E2; [nia|reflexivity].
  - destruct (0 <? - s) eqn:E; [lia|]. destruct (- s <? 0) eqn:E1; [|lia].
    destruct (a - s <? a + z * s - s) eqn:E2; [nia|reflexivity].
Qed.

Lemma mul_pos_any a0 n p b0 m q : 0 < p -> 0 < q -> 0 <= n -> 0 <= m -> (0 < m -> 0 <= b0) ->
  let res := sbox_fix (a0 + b0 * p, Z.min (a0 + (b0 + m * q) * p) (a0 + n * p), p * q) in
  let l := map (fun j => a0 + p * j) (filter (fun j => j <? n) (indices (b0, b0 + m * q, q))) in
  indices res = l /\ indices (sbox_flip res) = rev l.
Proof.
  intros Hp Hq Hn Hm Hb0 res l.
  destruct (Z.eq_dec m 0) as [->|Hm0]; [|destruct (Z_le_gt_dec b0 n) as [Hbn|Hbn]].
  - assert (El : l = []) by (unfold l; rewrite indices_exact by lia; reflexivity). rewrite El.
    apply empty_box; nia.
  - destruct (mul_pos a0 n p b0 m q) as [He Hi]; try lia. fold res l in He, Hi.
    split; [exact Hi|]. destruct (sbox_flip_spec res He) as [_ Hr]. now rewrite Hr, Hi.
  - assert (El : l = []).
    { unfold l. rewrite filter_none; [reflexivity|]. intros x Hx. apply In_indices_exact in Hx; lia. }
    rewrite El. apply empty_box; nia.
Qed.

Lemma sbox_mul_spec a b : box_ok a -> box_ok b -> 0 < snd a ->
  Forall (fun j => 0 <= j) (indices b) ->
  indices (sbox_mul a b) =
    map (fun j => fst (fst a) + snd a * j) (filter (fun j => j <? zlen (indices a)) (indices b)).
Proof.
  intros Ha Hb Hpa Hpos.
  destruct (sbox_fix_spec a Ha) as [Ea Ia], (sbox_fix_spec b Hb) as [Eb Ib].
  rewrite <- Ib in Hpos |- *. rewrite <- Ia.
  assert (Fa : fst (fst (sbox_fix a)) = fst (fst a) /\ snd (sbox_fix a) = snd a) by (destruct a as [[? ?] ?]; auto).
  unfold sbox_mul. destruct Fa as [F1 F2]. rewrite <- F1, <- F2 in *.
  clear F1 F2 Ia Ib Ha Hb.
  destruct (sbox_fix a) as [[a0 a1] p], (sbox_fix b) as [[b0 b1] q]. clear a b. cbn [fst snd] in *.
  destruct Ea as (_ & n & Hn & ->), Eb as (Hq & m & Hm & ->).
  destruct (p <? 0) eqn:Ep; [lia|].
  rewrite (indices_zlen (a0, a0 + n * p, p)). cbn [fst snd]. rewrite range_len_exact by lia.
  destruct (q <? 0) eqn:Eq; cbn [xorb].
  - rewrite flip_exact.
    destruct (sbox_flip_spec (b0, b0 + m * q, q)) as [_ Hr]; [split; [lia|eauto]|]. rewrite flip_exact in Hr.
    assert (Hr2 : indices (b0, b0 + m * q, q) = rev (indices (b0 + (m - 1) * q, b0 + (m - 1) * q + m * - q, - q))).
    { rewrite Hr. now rewrite rev_involutive. }
    rewrite Hr2, filter_rev, map_rev.
    destruct (mul_pos_any a0 n p (b0 + (m - 1) * q) m (- q)) as [_ H2]; try lia; [|exact H2].
    intros Hm0. rewrite Forall_forall in Hpos. apply Hpos. rewrite indices_exact by lia.
    apply in_map_iff. exists (m - 1). split; [ring|]. apply zrange_In. lia.
  - destruct (mul_pos_any a0 n p b0 m q) as [H2 _]; try lia; [|exact H2].
    intros Hm0. rewrite Forall_forall in Hpos. apply Hpos. rewrite indices_exact by lia.
    apply in_map_iff. exists 0. split; [ring|]. apply zrange_In. lia.
Qed.

Lemma sbox_mul_zget a b : box_ok a -> box_ok b -> 0 < snd a -> Forall (fun j => 0 <= j) (indices b) ->
  map Some (indices (sbox_mul a b)) =
    map (zget (indices a)) (filter (fun j => j <? zlen (indices a)) (indices b)).
Proof.
  intros Ha Hb Hp Hpos. rewrite sbox_mul_spec by assumption. rewrite map_map. apply map_ext_in.
  intros j Hj. apply filter_In in Hj as [Hj Hl]. rewrite Forall_forall in Hpos. specialize (Hpos j Hj).
  rewrite indices_zlen in Hl. destruct a as [[a0 a1] p]. cbn [fst snd] in *.
  rewrite zget_indices. destruct ((0 <=? j) && (j <? range_len a0 a1 p)) eqn:E; [reflexivity|lia].
Qed.

(** sbox_wrap *)
Lemma size1 a b : sbox_size (a, b, 1) = b - a.
Proof. unfold sbox_size. cbn [Z.sgn]. rewrite !Z.mul_1_r. rewrite Z.div_1_r. lia. Qed.

Lemma fix1 a b : sbox_fix (a, b, 1) = (a, b, 1).
Proof. cbn [sbox_fix]. rewrite size1. do 2 f_equal. lia. Qed.

Lemma moves_pos a n o t p : 0 <= n ->
  moves ((a, a + n, 1), (o, o + n, 1)) t p <-> o <= t < o + n /\ p = a + (t - o).
Proof.
  intros Hn. unfold moves. cbn [fst snd].
  replace (a + n) with (a + n * 1) by lia. replace (o + n) with (o + n * 1) by lia.
  split.
  - intros (j & H1 & H2). rewrite !zget_indices_exact in * by lia.
    destruct ((0 <=? j) && (j <? n)) eqn:E; [|discriminate]. apply Some_inj in H1. apply Some_inj in H2. lia.
  - intros (H1 & ->). exists (t - o). rewrite !zget_indices_exact by lia.
    destruct ((0 <=? t - o) && (t - o <? n)) eqn:E; [|lia]. split; f_equal; lia.
Qed.

Lemma moves_neg a n o t p : 0 <= n ->
  moves ((a, a + n, 1), (o, o - n, -1)) t p <-> o - n < t <= o /\ p = a + (o - t).
Proof.
  intros Hn. unfold moves. cbn [fst snd].
  replace (a + n) with (a + n * 1) by lia. replace (o - n) with (o + n * -1) by lia.
  split.
  - intros (j & H1 & H2). rewrite !zget_indices_exact in * by lia.
    destruct ((0 <=? j) && (j <? n)) eqn:E; [|discriminate]. apply Some_inj in H1. apply Some_inj in H2. lia.
  - intros (H1 & ->). exists (o - t). rewrite !zget_indices_exact by lia.
    destruct ((0 <=? o - t) && (o - t <? n)) eqn:E; [|lia]. split; f_equal; lia.
Qed.

(* output position counted along the ascending direction *)
Definition asc (flip : bool) (ilen t : Z) : Z := if flip then ilen - 1 - t else t.

Lemma wrap_loop_spec fuel : forall i0 i1 i w c ilen flip,
  0 < w -> 0 <= c <= w -> i0 <= i1 -> i0 < w -> i = Z.max 0 (- i0) -> i1 <= Z.of_nat fuel ->
  exists res, wrap_loop fuel (i0, i1, 1) i w c ilen flip = Some res /\
  (forall t p, (exists io, In io res /\ moves io t p) <->
     i <= asc flip ilen t < i1 - i0 /\ p = (i0 + asc flip ilen t) mod w /\ (c = 0 \/ p < c)) /\
  (forall x y io io' t p p', nth_error res x = Some io -> nth_error res y = Some io' ->
     moves io t p -> moves io' t p' -> x = y).
Proof.
  induction fuel as [|fuel IH]; intros i0 i1 i w c ilen flip Hw Hc Hi Hi0 Ei Hf.
  - cbn [wrap_loop]. destruct (0 <? i1) eqn:E; [lia|]. exists []. split; [reflexivity|]. split.
    + intros t p. split; [intros (io & [] & _)|]. lia.
    + intros [|]; discriminate.
  - cbn [wrap_loop]. destruct (0 <? i1) eqn:E.
    2:{ exists []. split; [reflexivity|]. split; [|intros [|]; discriminate].
        intros t p. split; [intros (io & [] & _)|]. lia. }
    rewrite Z.div_1_r, !Z.mul_1_r. rewrite !fix1, !size1.
    set (s := i0 + Z.max (- i0) 0). set (nsub := Z.min i1 w - s).
    set (top := if c =? 0 then Z.min i1 w else Z.min i1 c).
    assert (Es : s = Z.max i0 0) by lia.
    assert (Hns : 0 <= nsub) by (unfold nsub; lia).
    replace (if c =? 0 then (s, Z.min i1 w, 1) else (s, Z.min i1 c, 1)) with (s, top, 1)
      by (unfold top; destruct (c =? 0); reflexivity).
    rewrite size1. set (ncap := if c =? 0 then nsub else top - s).
    assert (Encap : ncap = top - s) by (unfold ncap, nsub, top; destruct (c =? 0); reflexivity).
    destruct (Z_le_gt_dec i1 w) as [Hlast|Hmore].
    + (* last piece *)
      destruct fuel as [|fuel']; cbn [wrap_loop]; (destruct (0 <? i1 - w) eqn:E2; [lia|]);
      (eexists; split; [reflexivity|]; split;
       [ intros t p; rewrite app_nil_r; split;
         [ intros (io & Hio & Hm); destruct (0 <? ncap) eqn:En; [|destruct Hio];
           destruct Hio as [<-|[]];
           replace top with (s + ncap) in Hm by lia;
           destruct flip; unfold asc;
           [ replace (ilen - 1 - (i + ncap)) with (ilen - 1 - i - ncap) in Hm by lia;
             apply moves_neg in Hm; [|lia] | apply moves_pos in Hm; [|lia] ];
           (rewrite Z.mod_small; unfold top in *; destruct (c =? 0) eqn:Ec; lia)
         | intros (Ht & Hp & Hcc);
           assert (Hr : (i0 + asc flip ilen t) mod w = i0 + asc flip ilen t) by (apply Z.mod_small; lia);
           rewrite Hr in Hp;
           assert (Hcap : p < top) by (unfold top; destruct (c =? 0) eqn:Ec; lia);
           destruct (0 <? ncap) eqn:En; [|lia];
           eexists; split; [left; reflexivity|];
           replace top with (s + ncap) by lia;
           destruct flip; unfold asc in *;
           [ replace (ilen - 1 - (i + ncap)) with (ilen - 1 - i - ncap) by lia; apply moves_neg; lia
           | apply moves_pos; lia ] ]
       | rewrite app_nil_r; intros x y io io' t p p' Hx Hy _ _;
         destruct (0 <? ncap); destruct x as [|[|]], y as [|[|]]; cbn in Hx, Hy; try discriminate; reflexivity ]).
    + destruct (IH (i0 - w) (i1 - w) (i + nsub) w c ilen flip) as (rest & Hrun & Hcov & Huniq); try lia.
      rewrite Hrun. eexists. split; [reflexivity|].
      set (first := if 0 <? ncap then _ else _).
      assert (Hfirst : forall t p, (exists io, In io first /\ moves io t p) <->
        i <= asc flip ilen t < i + nsub /\ p = (i0 + asc flip ilen t) mod w /\ (c = 0 \/ p < c)).
      { intros t p. unfold first. split.
        - intros (io & Hio & Hm). destruct (0 <? ncap) eqn:En; [|destruct Hio]. destruct Hio as [<-|[]].
          replace top with (s + ncap) in Hm by lia.
          destruct flip; unfold asc;
           [ replace (ilen - 1 - (i + ncap)) with (ilen - 1 - i - ncap) in Hm by lia;
             apply moves_neg in Hm; [|lia] | apply moves_pos in Hm; [|lia] ];
           (rewrite Z.mod_small; unfold top in *; destruct (c =? 0) eqn:Ec; lia).
        - intros (Ht & Hp & Hcc).
          assert (Hr : (i0 + asc flip ilen t) mod w = i0 + asc flip ilen t) by (apply Z.mod_small; lia).
          rewrite Hr in Hp.
          assert (Hcap : p < top) by (unfold top; destruct (c =? 0) eqn:Ec; lia).
          destruct (0 <? ncap) eqn:En; [|lia].
          eexists. split; [left; reflexivity|].
          replace top with (s + ncap) by lia.
          destruct flip; unfold asc in *;
           [ replace (ilen - 1 - (i + ncap)) with (ilen - 1 - i - ncap) by lia; apply moves_neg; lia
           | apply moves_pos; lia ]. }
      assert (Hmod : forall x, (i0 - w + x) mod w = (i0 + x) mod w).
      { intros x. replace (i0 - w + x) with (i0 + x + (-1) * w) by ring. apply Z.mod_add. lia. }
      split.
      * intros t p. split.
        -- intros (io & Hio & Hm). apply in_app_iff in Hio as [Hio|Hio].
           ++ destruct (proj1 (Hfirst t p)) as (H1 & H2); [eauto|]. split; [lia|exact H2].
           ++ destruct (proj1 (Hcov t p)) as (H1 & H2); [eauto|]. rewrite Hmod in H2. split; [lia|exact H2].
        -- intros (Ht & H2).
           destruct (Z_lt_le_dec (asc flip ilen t) (i + nsub)) as [Hlt|Hge].
           ++ destruct (proj2 (Hfirst t p)) as (io & Hio & Hm); [split; [lia|exact H2]|].
              exists io. split; [apply in_app_iff; now left|exact Hm].
           ++ destruct (proj2 (Hcov t p)) as (io & Hio & Hm); [rewrite Hmod; split; [lia|exact H2]|].
              exists io. split; [apply in_app_iff; now right|exact Hm].
      * intros x y io io' t p p' Hx Hy Hm Hm'.
        assert (Lf : (length first <= 1)%nat) by (unfold first; destruct (0 <? ncap); cbn; lia).
        destruct (Nat.lt_ge_cases x (length first)) as [Hxl|Hxl], (Nat.lt_ge_cases y (length first)) as [Hyl|Hyl].
        -- lia.
        -- exfalso. rewrite nth_error_app1 in Hx by lia. rewrite nth_error_app2 in Hy by lia.
           destruct (proj1 (Hfirst t p)) as (H1 & _); [exists io; split; [eapply nth_error_In; eauto|exact Hm]|].
           destruct (proj1 (Hcov t p')) as (H2 & _); [exists io'; split; [eapply nth_error_In; eauto|exact Hm']|]. lia.
        -- exfalso. rewrite nth_error_app2 in Hx by lia. rewrite nth_error_app1 in Hy by lia.
           destruct (proj1 (Hfirst t p')) as (H1 & _); [exists io'; split; [eapply nth_error_In; eauto|exact Hm']|].
           destruct (proj1 (Hcov t p)) as (H2 & _); [exists io; split; [eapply nth_error_In; eauto|exact Hm]|]. lia.
        -- rewrite nth_error_app2 in Hx, Hy by lia.
           assert (x - length first = y - length first)%nat by (eapply Huniq; eauto). lia.
Qed.

Lemma wrap_dim_spec x w c : box_ok x -> Z.abs (snd x) = 1 -> 0 <= w -> 0 <= c -> (0 < w -> c <= w) ->
  exists res, wrap_dim x w c = Some res /\
  (forall t p, (exists io, In io res /\ moves io t p) <-> wrap_target x w c t p) /\
  (forall a b io io' t p p', nth_error res a = Some io -> nth_error res b = Some io' ->
     moves io t p -> moves io' t p' -> a = b).
Proof.
  intros Hok Hs Hw Hc Hcw. destruct (sbox_fix_spec x Hok) as [He Hi].
  unfold wrap_dim, wrap_target. rewrite <- Hi. clear Hi.
  assert (Hs' : Z.abs (snd (sbox_fix x)) = 1) by (destruct x as [[? ?] ?]; exact Hs).
  destruct (sbox_fix x) as [[a b] s]. clear Hok Hs x. cbn [snd] in *.
  destruct He as (_ & n & Hn & ->). rewrite sbox_size_exact by lia.
  assert (Hlo : exists lo, (if s <? 0 then sbox_flip (a, a + n * s, s) else (a, a + n * s, s)) = (lo, lo + n, 1) /\
    forall t k, zget (indices (a, a + n * s, s)) t = Some k <-> 0 <= t < n /\ k = lo + asc (s <? 0) n t).
  { destruct (s <? 0) eqn:E.
    - assert (s = -1) by lia. subst s. exists (a - (n - 1)). split.
      + unfold sbox_flip. pair_eq; lia.
      + intros t k. rewrite zget_indices_exact by lia. unfold asc.
        destruct ((0 <=? t) && (t <? n)) eqn:E2; split; intros G; try discriminate; try lia.
        * apply Some_inj in G. lia.
        * f_equal. lia.
    - assert (s = 1) by lia. subst s. exists a. split.
      + pair_eq; lia.
      + intros t k. rewrite zget_indices_exact by lia. unfold asc.
        destruct ((0 <=? t) && (t <? n)) eqn:E2; split; intros G; try discriminate; try lia.
        * apply Some_inj in G. lia.
        * f_equal. lia. }
  destruct Hlo as (lo & -> & Hget). set (flip := s <? 0) in *. clearbody flip.
  assert (Hasc : forall t, 0 <= asc flip n t < n <-> 0 <= t < n) by (intros t; unfold asc; destruct flip; lia).
  destruct (w =? 0) eqn:Ew.
  - rewrite !Z.div_1_r, !Z.mul_1_r.
    set (npre := if c =? 0 then 0 else Z.max (- lo) 0).
    set (npost := if c =? 0 then 0 else Z.max (lo + n - 1 - (c - 1)) 0).
    assert (Key : forall t p, (exists k, zget (indices (a, a + n * s, s)) t = Some k /\ p = k /\ (c = 0 \/ 0 <= p < c)) <->
       npre <= asc flip n t < n - npost /\ p = lo + asc flip n t).
    { intros t p. split.
      - intros (k & Hk & -> & Hcc). apply Hget in Hk as [Ht ->]. apply Hasc in Ht. unfold npre, npost.
        destruct (c =? 0) eqn:Ec; lia.
      - intros [Ht ->]. exists (lo + asc flip n t). rewrite Hget, <- Hasc. unfold npre, npost in *.
        destruct (c =? 0) eqn:Ec; lia. }
    assert (Hpp : 0 <= npre /\ 0 <= npost) by (unfold npre, npost; destruct (c =? 0); lia).
    destruct (npre + npost <? n) eqn:E.
    + eexists. split; [reflexivity|]. split.
      * intros t p. rewrite Key.
        assert (G : moves (lo + npre, lo + n - npost, 1, if flip then (n - 1 - npre, npost - 1, -1) else (npre, n - npost, 1)) t p <->
                    npre <= asc flip n t < n - npost /\ p = lo + asc flip n t).
        { destruct flip; unfold asc.
          - pose proof (moves_neg (lo + npre) (n - npre - npost) (n - 1 - npre) t p) as G.
            replace (lo + npre + (n - npre - npost)) with (lo + n - npost) in G by lia.
            replace (n - 1 - npre - (n - npre - npost)) with (npost - 1) in G by lia. rewrite G by lia. lia.
          - pose proof (moves_pos (lo + npre) (n - npre - npost) npre t p) as G.
            replace (lo + npre + (n - npre - npost)) with (lo + n - npost) in G by lia.
            replace (npre + (n - npre - npost)) with (n - npost) in G by lia. rewrite G by lia. lia. }
        split; [intros (io & [<-|[]] & Hm); now apply G|].
        intros H. eexists. split; [left; reflexivity|]. now apply G.
      * intros [|[|]] [|[|]]; cbn; intros; try discriminate; reflexivity.
    + exists []. split; [reflexivity|]. split; [|intros [|]; discriminate].
      intros t p. rewrite Key. split; [intros (io & [] & _)|]. lia.
  - cbn [shift_box fst snd]. set (d := lo / w * w).
    assert (Hr : 0 <= lo - d < w).
    { unfold d. pose proof (Z.div_mod lo w). pose proof (Z.mod_pos_bound lo w). nia. }
    destruct (wrap_loop_spec (Z.to_nat (lo + n - d)) (lo - d) (lo + n - d) 0 w c n flip) as (res & Hrun & Hcov & Hu); try lia.
    exists res. split; [exact Hrun|]. split; [|exact Hu].
    intros t p. rewrite Hcov.
    assert (Em : forall x, (lo - d + x) mod w = (lo + x) mod w).
    { intros x. unfold d. replace (lo - lo / w * w + x) with (lo + x + (- (lo / w)) * w) by ring. apply Z.mod_add. lia. }
    rewrite Em. split.
    + intros (Ht & Hp & Hcc). exists (lo + asc flip n t). rewrite Hget, <- Hasc.
      pose proof (Z.mod_pos_bound (lo + asc flip n t) w). split; [lia|]. split; [exact Hp|]. lia.
    + intros (k & Hk & Hp & Hcc). apply Hget in Hk as [Ht ->]. apply Hasc in Ht. split; [lia|]. split; [exact Hp|]. lia.
Qed.

(** several axes *)
Lemma In_outer {A} (ls : list (list A)) l : In l (outer ls) <-> Forall2 (@In A) l ls.
Proof.
  revert l; induction ls as [|h ls IH]; intros l; cbn [outer].
  - split; [intros [<-|[]]; constructor|]. inversion 1; now left.
  - rewrite in_flat_map. split.
    + intros (x & Hx & Hl). apply in_map_iff in Hl as (l' & <- & Hl'). constructor; [exact Hx|]. now apply IH.
    + inversion 1; subst. exists x. split; [assumption|]. apply in_map. now apply IH.
Qed.

Lemma sbox_wrap_spec x :
  Forall (fun d => let '(b, w, c) := d in box_ok b /\ Z.abs (snd b) = 1 /\ 0 <= w /\ 0 <= c /\ (0 < w -> c <= w)) x ->
  exists res, sbox_wrap x = Some res /\
  forall t p, (exists io, In io res /\ moves_nd io t p) <-> targets x t p.
Proof.
  intros HF. unfold sbox_wrap.
  assert (H : exists dims, all_some (map (fun d => wrap_dim (fst (fst d)) (snd (fst d)) (snd d)) x) = Some dims /\
    forall t p, (exists l, Forall2 (@In (sbox * sbox)) l dims /\ moves_nd (map fst l, map snd l) t p) <-> targets x t p).
  { induction HF as [|[[b w] c] x (H1 & H2 & H3 & H4 & H5) _ IH].
    - exists []. split; [reflexivity|]. intros t p. split.
      + intros (l & Hl & Hm). inversion Hl; subst. cbn in *. destruct t, p; tauto.
      + intros H. exists []. split; [constructor|]. destruct t, p; exact H.
    - destruct IH as (dims & Hd & IH). destruct (wrap_dim_spec b w c) as (res & Hr & Hcov & _); auto.
      exists (res :: dims). cbn [map all_some fst snd]. rewrite Hr, Hd. split; [reflexivity|].
      intros t p. split.
      + intros (l & Hl & Hm). inversion Hl as [|io ? l' ? Hio Hl']; subst. destruct io as [i o]. cbn [map fst snd moves_nd] in Hm.
        destruct t as [|t ts], p as [|p ps]; try tauto. destruct Hm as [Hm Hms]. cbn [targets]. split.
        * apply Hcov. eauto.
        * apply IH. eauto.
      + intros H. destruct t as [|t ts], p as [|p ps]; cbn [targets] in H; try tauto. destruct H as [Ht Hts].
        apply Hcov in Ht as ([i o] & Hio & Hm). apply IH in Hts as (l & Hl & Hms).
        exists ((i, o) :: l). split; [constructor; assumption|]. cbn [map fst snd moves_nd]. auto. }
  destruct H as (dims & -> & H). eexists. split; [reflexivity|]. intros t p. rewrite <- H. split.
  - intros (io & Hio & Hm). apply in_map_iff in Hio as (l & <- & Hl). exists l. split; [now apply In_outer|exact Hm].
  - intros (l & Hl & Hm). exists (map fst l, map snd l). split; [|exact Hm]. apply in_map_iff. exists l.
    split; [reflexivity|]. now apply In_outer.
Qed.
