From Coq Require Import ZArith List Lia.
From Verif Require Import Base RangeModel RangeLemmas AlmLemmas HpSpec HpModel.
Import ListNotations.
Local Open Scope Z_scope.
Ltac Zify.zify_post_hook ::= idtac.

Lemma all_some_map {A B} (f : A -> option B) (g : A -> B) l : (forall a, In a l -> f a = Some (g a)) -> all_some (map f l) = Some (map g l).
Proof.
  intros H. induction l as [|a l IH]; [reflexivity|]. cbn. rewrite (H a) by (left; reflexivity).
  unfold all_some in *. rewrite IH by (intros; apply H; right; assumption). reflexivity.
Qed.

Lemma ring_len_north n y : 0 <= y < n -> ring_len n y = 4 * (y + 1).
Proof. unfold ring_len. lia. Qed.
Lemma ring_len_mid n y : n - 1 <= y <= 3 * n - 1 -> ring_len n y = 4 * n.
Proof. unfold ring_len. lia. Qed.
Lemma ring_len_south n y : 3 * n - 1 <= y < 4 * n - 1 -> ring_len n y = 4 * (4 * n - 1 - y).
Proof. unfold ring_len. lia. Qed.

Lemma ring_start_succ n y : 0 <= y -> ring_start n (y + 1) = ring_start n y + ring_len n y.
Proof. intros H. unfold ring_start. rewrite zrange_snoc by lia. rewrite map_app, zsum_app. cbn. lia. Qed.
Lemma ring_start_0 n : ring_start n 0 = 0.
Proof. reflexivity. Qed.

Lemma nat_ind_up (P : Z -> Prop) a b : P a -> (forall y, a <= y < b -> P y -> P (y + 1)) -> forall y, a <= y <= b -> P y.
Proof.
  intros H0 HS y Hy. replace y with (a + Z.of_nat (Z.to_nat (y - a))) by lia.
  assert (HN : Z.of_nat (Z.to_nat (y - a)) <= b - a) by lia. revert HN.
  induction (Z.to_nat (y - a)) as [|k IH]; intros HN.
  - replace (a + Z.of_nat 0) with a by lia. exact H0.
  - replace (a + Z.of_nat (S k)) with (a + Z.of_nat k + 1) by lia. apply HS; [lia|]. apply IH. lia.
Qed.

Lemma ring_start_north n y : 1 <= n -> 0 <= y <= n -> ring_start n y = 2 * y * (y + 1).
Proof.
  intros Hn. revert y. apply nat_ind_up; [reflexivity|]. intros y Hy IH.
  rewrite ring_start_succ, IH, ring_len_north by lia. nia.
Qed.
Lemma ring_start_mid n y : 1 <= n -> n <= y <= 3 * n - 1 -> ring_start n y = 2 * n * (n + 1) + 4 * n * (y - n).
Proof.
  intros Hn. revert y. apply nat_ind_up; [rewrite ring_start_north by lia; nia|]. intros y Hy IH.
  rewrite ring_start_succ, IH, ring_len_mid by lia. nia.
Qed.
Lemma ring_start_south n y : 1 <= n -> 3 * n - 1 <= y <= 4 * n - 1 ->
  ring_start n y = 12 * n * n - 2 * (4 * n - 1 - y) * (4 * n - y).
Proof.
  intros Hn. revert y. apply nat_ind_up; [rewrite ring_start_mid by lia; nia|]. intros y Hy IH.
  rewrite ring_start_succ, IH, ring_len_south by lia. nia.
Qed.
Lemma ring_start_end n : 1 <= n -> ring_start n (nring n) = 12 * n * n.
Proof. intros Hn. unfold nring. rewrite ring_start_south by lia. nia. Qed.
Lemma ring_len_pos n y : 1 <= n -> 0 <= y < nring n -> 4 <= ring_len n y.
Proof. unfold ring_len, nring. lia. Qed.
Lemma ring_start_le n y z : 1 <= n -> 0 <= y <= z -> z <= nring n -> ring_start n y <= ring_start n z.
Proof.
  intros Hn H Hz. assert (G : forall z, y <= z <= nring n -> ring_start n y <= ring_start n z).
  { apply (nat_ind_up (fun z => ring_start n y <= ring_start n z)); [lia|]. intros w Hw IH. rewrite ring_start_succ by lia. pose proof (ring_len_pos n w Hn). lia. }
  apply G; lia.
Qed.

Definition the_info (n : Z) : hpinfo :=
  HP n (12 * n * n) (2 * n * (n + 1)) (nring n) (map (ring_len n) (zrange 0 (nring n)))
     (map (ring_start n) (zrange 0 (nring n))) (map (half_shift n) (zrange 0 (nring n))).

Lemma three_parts {A} (f g h k : Z -> A) n : 1 <= n ->
  (forall y, 0 <= y < n -> f y = k y) -> (forall y, n <= y < 3 * n - 1 -> g y = k y) -> (forall y, 3 * n - 1 <= y < 4 * n - 1 -> h y = k y) ->
  map f (zrange 0 n) ++ map g (zrange n (3 * n - 1)) ++ map h (zrange (3 * n - 1) (4 * n - 1)) = map k (zrange 0 (nring n)).
Proof.
  intros Hn F G H. unfold nring. rewrite (zrange_split 0 n (4 * n - 1)) by lia. rewrite (zrange_split n (3 * n - 1) (4 * n - 1)) by lia.
  rewrite !map_app. f_equal; [|f_equal]; apply map_ext_in; intros y Hy; apply zrange_In in Hy; auto.
Qed.

Lemma zget_map_zr {A} (f : Z -> A) a b k : 0 <= k < b - a -> zget (map f (zrange a b)) k = Some (f (a + k)).
Proof. intros H. rewrite zget_map, zget_zrange by lia. reflexivity. Qed.

Lemma land1 x : Z.land x 1 = x mod 2.
Proof. change 1 with (Z.ones 1). rewrite Z.land_ones by lia. reflexivity. Qed.

Lemma build_ok n : 1 <= n <= 32767 -> build_healpix_info n = Some (the_info n).
Proof.
  intros Hn. unfold build_healpix_info.
  assert (E1 : cint (2 * n) = Some (2 * n)).
  { unfold cint. replace (_ && _) with true; [reflexivity|]. symmetry. apply andb_true_iff. split; [apply Z.leb_le|apply Z.ltb_lt]; lia. }
  assert (E2 : cint (2 * n * (n + 1)) = Some (2 * n * (n + 1))).
  { unfold cint. replace (_ && _) with true; [reflexivity|]. symmetry. apply andb_true_iff. split; [apply Z.leb_le|apply Z.ltb_lt]; nia. }
  assert (E3 : cint (4 * n - 1) = Some (4 * n - 1)).
  { unfold cint. replace (_ && _) with true; [reflexivity|]. symmetry. apply andb_true_iff. split; [apply Z.leb_le|apply Z.ltb_lt]; lia. }
  rewrite E1. cbn [bind]. rewrite E2. cbn [bind]. rewrite E3. cbn [bind].
  assert (HR : forall {A} (f g : Z -> A) y, In y (zrange (3 * n - 1) (4 * n - 1)) ->
     zget (map f (zrange 0 n) ++ map g (zrange n (3 * n - 1))) (4 * n - 2 - y) = Some (f (4 * n - 2 - y))).
  { intros A f g y Hy. apply zrange_In in Hy. rewrite zget_app1 by (unfold zlen; rewrite map_length; fold (zlen (zrange 0 n)); rewrite zrange_zlen; lia).
    rewrite zget_map_zr by lia. reflexivity. }
  rewrite (all_some_map _ (fun y => 4 * (4 * n - 2 - y + 1))) by (intros y Hy; rewrite HR by assumption; reflexivity). cbn [bind].
  rewrite (all_some_map _ (fun y => 12 * n * n - 2 * (4 * n - 2 - y) * (4 * n - 2 - y + 1) - 4 * (4 * n - 2 - y + 1)))
    by (intros y Hy; rewrite HR by assumption; cbn [bind]; rewrite HR by assumption; reflexivity). cbn [bind].
  rewrite (all_some_map _ (fun y => 1)) by (intros y Hy; rewrite HR by assumption; reflexivity). cbn [bind].
  unfold the_info. apply (f_equal Some). f_equal.
  - apply three_parts; [lia|..]; intros y Hy.
    + symmetry. apply ring_len_north. lia.
    + symmetry. apply ring_len_mid. lia.
    + rewrite ring_len_south by lia. lia.
  - apply three_parts; [lia|..]; intros y Hy.
    + rewrite ring_start_north by lia. reflexivity.
    + rewrite ring_start_mid by lia. reflexivity.
    + rewrite ring_start_south by lia. nia.
  - apply three_parts; [lia|..]; intros y Hy; unfold half_shift.
    + destruct (Z.ltb_spec y n); [reflexivity|lia].
    + destruct (Z.ltb_spec y n); [lia|]. destruct (Z.leb_spec (3 * n - 1) y); [lia|]. cbn [orb]. apply land1.
    + destruct (Z.leb_spec (3 * n - 1) y); [|lia]. now rewrite orb_true_r.
Qed.

(* ---- pixel numbers ---- *)
Lemma info_off n y : 0 <= y < nring n -> zget (hp_off (the_info n)) y = Some (ring_start n y).
Proof. intros H. cbn. rewrite zget_map_zr by lia. reflexivity. Qed.
Lemma info_nx n y : 0 <= y < nring n -> zget (hp_nx (the_info n)) y = Some (ring_len n y).
Proof. intros H. cbn. rewrite zget_map_zr by lia. reflexivity. Qed.
Lemma info_shift n y : 0 <= y < nring n -> zget (hp_shift (the_info n)) y = Some (half_shift n y).
Proof. intros H. cbn. rewrite zget_map_zr by lia. reflexivity. Qed.

(* what correctly rounded double precision guarantees of (inum)sqrt(x+0.5) *)
Definition sqrt_ok (fsqrt : Z -> Z) : Prop :=
  (forall x, 0 <= x <= 2 ^ 50 -> fsqrt x = Z.sqrt x) /\ (forall x, 2 ^ 50 < x < 2 ^ 62 -> Z.abs (fsqrt x - Z.sqrt x) <= 1).

Lemma isqrt_ok fs x : sqrt_ok fs -> 0 <= x < 2 ^ 62 -> isqrt fs x = Z.sqrt x.
Proof.
  intros [H1 H2] Hx. unfold isqrt. destruct (Z.ltb_spec (2 ^ 50) x) as [L|L].
  - specialize (H2 x ltac:(lia)). pose proof (Z.sqrt_spec x ltac:(lia)) as S. cbn zeta in S. unfold Z.succ in S.
    pose proof (Z.sqrt_nonneg x) as SN.
    assert (D : fs x = Z.sqrt x - 1 \/ fs x = Z.sqrt x \/ fs x = Z.sqrt x + 1) by lia.
    destruct (Z.ltb_spec x (fs x * fs x)) as [A|A]; [|destruct (Z.leb_spec ((fs x + 1) * (fs x + 1)) x) as [B|B]];
      destruct D as [D|[D|D]]; rewrite D in *; generalize dependent (Z.sqrt x); intros; nia.
  - apply H1. lia.
Qed.

Lemma tri_root y x : 0 <= y -> 0 <= x < 4 * (y + 1) -> Z.quot (-1 + Z.sqrt (1 + 2 * (2 * y * (y + 1) + x))) 2 = y.
Proof.
  intros Hy Hx. set (v := 1 + 2 * (2 * y * (y + 1) + x)).
  pose proof (Z.sqrt_spec v ltac:(nia)) as S. cbn zeta in S. unfold Z.succ in S. pose proof (Z.sqrt_nonneg v) as SN.
  assert (2 * y + 1 <= Z.sqrt v) by (apply Z.sqrt_le_square; nia).
  assert (Z.sqrt v < 2 * y + 3) by (apply Z.sqrt_lt_square; nia).
  rewrite Z.quot_div_nonneg by lia. symmetry. apply (Z.div_unique _ _ _ (-1 + Z.sqrt v - 2 * y)); lia.
Qed.

Lemma pix2y_ok fs n y x : sqrt_ok fs -> 1 <= n <= 32767 -> is_pix n y x -> pix2y_healpix fs (the_info n) (ring_start n y + x) = y.
Proof.
  intros HS Hn [Hy Hx]. unfold pix2y_healpix. cbn [hp_npix hp_ncap hp_nside the_info].
  unfold nring in Hy.
  assert (HB : 12 * n * n <= 2 ^ 34) by nia.
  assert (C : y < n \/ n <= y < 3 * n - 1 \/ 3 * n - 1 <= y) by lia. destruct C as [C|[C|C]].
  - rewrite ring_start_north by lia. rewrite ring_len_north in Hx by lia.
    assert (HM : (y + 1) * (y + 2) <= n * (n + 1)) by (apply Z.mul_le_mono_nonneg; lia).
    destruct (Z.ltb_spec (2 * y * (y + 1) + x) (2 * n * (n + 1))) as [L|L]; [|lia].
    rewrite isqrt_ok by (assumption || nia). apply tri_root; lia.
  - rewrite ring_start_mid by lia. rewrite ring_len_mid in Hx by lia.
    destruct (Z.ltb_spec (2 * n * (n + 1) + 4 * n * (y - n) + x) (2 * n * (n + 1))) as [L|L]; [nia|].
    destruct (Z.ltb_spec (12 * n * n - 1 - (2 * n * (n + 1) + 4 * n * (y - n) + x)) (2 * n * (n + 1))) as [L2|L2]; [nia|].
    replace (2 * n * (n + 1) + 4 * n * (y - n) + x - 2 * n * (n + 1)) with (x + (y - n) * (4 * n)) by lia.
    rewrite Z.quot_div_nonneg by nia. rewrite Z.div_add by lia. rewrite Z.div_small by lia. lia.
  - rewrite ring_start_south by lia. rewrite ring_len_south in Hx by lia.
    set (t := 4 * n - 2 - y) in *.
    replace (4 * n - 1 - y) with (t + 1) in * by lia. replace (4 * n - y) with (t + 2) in * by lia.
    assert (Ht : 0 <= t <= n - 1) by lia.
    destruct (Z.ltb_spec (12 * n * n - 2 * (t + 1) * (t + 2) + x) (2 * n * (n + 1))) as [L|L]; [nia|].
    replace (12 * n * n - 1 - (12 * n * n - 2 * (t + 1) * (t + 2) + x)) with (2 * t * (t + 1) + (4 * (t + 1) - 1 - x)) by nia.
    assert (HM : (t + 1) * (t + 2) <= n * (n + 1)) by (apply Z.mul_le_mono_nonneg; lia).
    destruct (Z.ltb_spec (2 * t * (t + 1) + (4 * (t + 1) - 1 - x)) (2 * n * (n + 1))) as [L2|L2]; [|lia].
    rewrite isqrt_ok by (assumption || nia). rewrite tri_root by lia. lia.
Qed.

Lemma ring_cover n p : 1 <= n -> 0 <= p < 12 * n * n -> exists y x, is_pix n y x /\ p = ring_start n y + x.
Proof.
  intros Hn Hp.
  assert (G : forall z, 0 <= z <= nring n -> p < ring_start n z -> exists y x, is_pix n y x /\ p = ring_start n y + x).
  { apply (nat_ind_up (fun z => p < ring_start n z -> exists y x, is_pix n y x /\ p = ring_start n y + x)).
    - rewrite ring_start_0. lia.
    - intros y Hy IH L. destruct (Z_lt_le_dec p (ring_start n y)) as [A|A]; [auto|].
      rewrite ring_start_succ in L by lia. exists y, (p - ring_start n y). unfold is_pix. repeat split; lia. }
  apply (G (nring n)); [unfold nring; lia|]. rewrite ring_start_end by lia. lia.
Qed.
Lemma ring_range n y x : 1 <= n -> is_pix n y x -> 0 <= ring_start n y + x < 12 * n * n.
Proof.
  intros Hn [Hy Hx]. rewrite <- (ring_start_end n Hn).
  pose proof (ring_start_le n 0 y Hn ltac:(lia) ltac:(lia)). rewrite ring_start_0 in *.
  pose proof (ring_start_le n (y + 1) (nring n) Hn ltac:(lia) ltac:(lia)). rewrite ring_start_succ in * by lia. lia.
Qed.
Lemma ring_unique n y x y' x' : 1 <= n -> is_pix n y x -> is_pix n y' x' -> ring_start n y + x = ring_start n y' + x' -> y = y' /\ x = x'.
Proof.
  intros Hn [Hy Hx] [Hy' Hx'] E.
  destruct (Z.lt_trichotomy y y') as [L|[L|L]].
  - pose proof (ring_start_le n (y + 1) y' Hn ltac:(lia) ltac:(lia)). rewrite ring_start_succ in * by lia. lia.
  - subst. lia.
  - pose proof (ring_start_le n (y' + 1) y Hn ltac:(lia) ltac:(lia)). rewrite ring_start_succ in * by lia. lia.
Qed.

(* ---- neighbours ---- *)
Definition wr (w x : Z) : Z := if x <? 0 then x + w else if w <=? x then x - w else x.
Lemma wr_id w x : 0 <= x < w -> wr w x = x.
Proof. intros H. unfold wr. destruct (Z.ltb_spec x 0); [lia|]. destruct (Z.leb_spec w x); lia. Qed.
Lemma wr_range w x : 1 <= w -> -1 <= x <= w -> 0 <= wr w x < w.
Proof. intros W H. unfold wr. destruct (Z.ltb_spec x 0); [lia|]. destruct (Z.leb_spec w x); lia. Qed.
Lemma wr_up w x : 1 <= w -> 0 <= x < w -> wr w (wr w (x - 1) + 1) = x.
Proof. intros W H. unfold wr at 2. destruct (Z.ltb_spec (x - 1) 0); [|destruct (Z.leb_spec w (x - 1)); [lia|]]; unfold wr; destruct (Z.ltb_spec (x - 1 + w + 1) 0); destruct (Z.ltb_spec (x - 1 + 1) 0); try lia; destruct (Z.leb_spec w (x - 1 + w + 1)); destruct (Z.leb_spec w (x - 1 + 1)); lia. Qed.
Lemma wr_down w x : 1 <= w -> 0 <= x < w -> wr w (wr w (x + 1) - 1) = x.
Proof. intros W H. unfold wr at 2. destruct (Z.ltb_spec (x + 1) 0); [lia|]. destruct (Z.leb_spec w (x + 1)); unfold wr; destruct (Z.ltb_spec (x + 1 - w - 1) 0); destruct (Z.ltb_spec (x + 1 - 1) 0); try lia; destruct (Z.leb_spec w (x + 1 - w - 1)); destruct (Z.leb_spec w (x + 1 - 1)); lia. Qed.
Lemma wr_mod w x d : 1 <= w -> (wr w (x + d) - x - d) mod w = 0.
Proof.
  intros W. unfold wr. destruct (Z.ltb_spec (x + d) 0); [|destruct (Z.leb_spec w (x + d))].
  - replace (x + d + w - x - d) with (1 * w) by lia. apply Z.mod_mul; lia.
  - replace (x + d - w - x - d) with ((-1) * w) by lia. apply Z.mod_mul; lia.
  - replace (x + d - x - d) with 0 by lia. apply Z.mod_0_l; lia.
Qed.

Lemma wrap_ok n y x : 0 <= y < nring n -> hp_wrap (the_info n) (y, x) = Some (y, wr (ring_len n y) x).
Proof. intros H. unfold hp_wrap. cbn [fst snd]. rewrite info_nx by assumption. reflexivity. Qed.

Ltac bsplit := repeat match goal with |- context [?a <=? ?b] => destruct (Z.leb_spec a b); try (exfalso; lia) | |- context [?a <? ?b] => destruct (Z.ltb_spec a b); try (exfalso; lia) end.

Lemma neighs_mid n y x : 1 <= n -> n <= y < 3 * n - 1 ->
  get_healpix_neighs (the_info n) y x = Some (
    if half_shift n y =? 0 then [(y-1, wr (4*n) (x-1)); (y-1, wr (4*n) x); (y+1, wr (4*n) (x-1)); (y+1, wr (4*n) x)]
    else [(y-1, wr (4*n) x); (y-1, wr (4*n) (x+1)); (y+1, wr (4*n) x); (y+1, wr (4*n) (x+1))]).
Proof.
  intros Hn Hy. unfold get_healpix_neighs. cbn [hp_nside the_info]. change (HP _ _ _ _ _ _ _) with (the_info n).
  destruct (Z.leb_spec n y); [|lia]. destruct (Z.ltb_spec y (3 * n - 1)); [|lia]. cbn [andb].
  rewrite info_shift by (unfold nring; lia). cbn [bind].
  destruct (half_shift n y =? 0); cbn [bind map all_some fold_right]; rewrite !wrap_ok by (unfold nring; lia);
    rewrite !ring_len_mid by lia; reflexivity.
Qed.

Lemma qr k s r : 0 < k -> 0 <= s -> 0 <= r < k -> Z.quot (s * k + r) k = s /\ Z.rem (s * k + r) k = r.
Proof.
  intros K S R. rewrite Z.quot_div_nonneg, Z.rem_mod_nonneg by nia. split.
  - rewrite Z.add_comm, Z.div_add by lia. rewrite Z.div_small by lia. lia.
  - rewrite Z.add_comm, Z.mod_add by lia. apply Z.mod_small; lia.
Qed.
Lemma qr1 k s r : 0 < k -> 0 <= s -> 0 <= r < k -> (Z.rem (s * k + r + 1) k =? 0) = (r =? k - 1).
Proof.
  intros K S R. destruct (Z.eqb_spec r (k - 1)) as [E|E].
  - replace (s * k + r + 1) with ((s + 1) * k + 0) by lia. destruct (qr k (s + 1) 0) as [_ Q]; try lia.
  - replace (s * k + r + 1) with (s * k + (r + 1)) by lia. destruct (qr k s (r + 1)) as [_ Q]; try lia. 
Qed.

Lemma neighs_north n y s r : 1 <= n -> 0 <= y < n -> 0 <= s < 4 -> 0 <= r < y + 1 ->
  get_healpix_neighs (the_info n) y (s * (y + 1) + r) = Some
    [ (if r =? 0 then (y, wr (4 * (y + 1)) (s * (y + 1) + r - 1)) else (y - 1, s * y + (r - 1)));
      (if r =? y then (y, wr (4 * (y + 1)) (s * (y + 1) + r + 1)) else (y - 1, s * y + r));
      (y + 1, if y =? n - 1 then s * (y + 1) + r else s * (y + 2) + r);
      (y + 1, if y =? n - 1 then wr (4 * n) (s * (y + 1) + r + 1) else s * (y + 2) + (r + 1)) ].
Proof.
  intros Hn Hy Hs Hr. unfold get_healpix_neighs. cbn [hp_nside the_info]. change (HP _ _ _ _ _ _ _) with (the_info n).
  destruct (Z.leb_spec n y); [lia|]. cbn [andb].
  rewrite info_nx by (unfold nring; lia). cbn [bind]. rewrite ring_len_north by lia.
  replace (Z.quot (4 * (y + 1)) 4) with (y + 1) by (rewrite Z.mul_comm, Z.quot_mul; lia).
  destruct (qr (y + 1) s r ltac:(lia) ltac:(lia) Hr) as [Q R]. rewrite Q, R, qr1 by lia.
  destruct (Z.ltb_spec y n); [|lia]. cbn [bind map all_some fold_right].
  replace (y + 1 - 1) with y by lia.
  destruct (Z.eqb_spec r 0) as [E|E]; [|replace (y - 1, s * (y + 1) + r - 1 - s) with (y - 1, s * y + (r - 1)) by (f_equal; lia)];
  (destruct (Z.eqb_spec r y) as [E1|E1]; [|replace (y - 1, s * (y + 1) + r + 0 - s) with (y - 1, s * y + r) by (f_equal; lia)]);
  (destruct (Z.eqb_spec y (n - 1)) as [E2|E2];
     [|replace (s * (y + 1) + r + s) with (s * (y + 2) + r) by lia; replace (s * (y + 1) + r + 1 + s) with (s * (y + 2) + (r + 1)) by lia]);
  rewrite !wrap_ok by (unfold nring; lia); cbn beta iota;
  rewrite ?(ring_len_north n y) by lia; rewrite ?(ring_len_north n (y - 1)) by lia;
  first [rewrite (ring_len_north n (y + 1)) by lia | rewrite (ring_len_mid n (y + 1)) by lia];
  rewrite ?(wr_id (4 * (y - 1 + 1))) by nia; rewrite ?(wr_id (4 * (y + 1 + 1))) by nia; rewrite ?(wr_id (4 * n) (s * (y + 1) + r)) by nia; try reflexivity.
Qed.

Lemma neighs_south n y t s r : 1 <= n -> 0 <= t < n -> y = 4 * n - 2 - t -> 0 <= s < 4 -> 0 <= r < t + 1 ->
  get_healpix_neighs (the_info n) y (s * (t + 1) + r) = Some
    [ (y - 1, if t =? n - 1 then s * (t + 1) + r else s * (t + 2) + r);
      (y - 1, if t =? n - 1 then wr (4 * n) (s * (t + 1) + r + 1) else s * (t + 2) + (r + 1));
      (if r =? 0 then (y, wr (4 * (t + 1)) (s * (t + 1) + r - 1)) else (y + 1, s * t + (r - 1)));
      (if r =? t then (y, wr (4 * (t + 1)) (s * (t + 1) + r + 1)) else (y + 1, s * t + r)) ].
Proof.
  intros Hn Ht Ey Hs Hr. unfold get_healpix_neighs. cbn [hp_nside the_info]. change (HP _ _ _ _ _ _ _) with (the_info n).
  destruct (Z.ltb_spec y (3 * n - 1)); [lia|]. rewrite andb_false_r.
  rewrite info_nx by (unfold nring; lia). cbn [bind]. rewrite ring_len_south by lia.
  replace (4 * n - 1 - y) with (t + 1) by lia.
  replace (Z.quot (4 * (t + 1)) 4) with (t + 1) by (rewrite Z.mul_comm, Z.quot_mul; lia).
  destruct (qr (t + 1) s r ltac:(lia) ltac:(lia) Hr) as [Q R]. rewrite Q, R, qr1 by lia.
  destruct (Z.ltb_spec y n); [lia|]. cbn [bind map all_some fold_right].
  replace (t + 1 - 1) with t by lia.
  replace (y =? 3 * n - 1) with (t =? n - 1) by (destruct (Z.eqb_spec t (n - 1)); destruct (Z.eqb_spec y (3 * n - 1)); lia).
  assert (L1 : ring_len n y = 4 * (t + 1)) by (rewrite ring_len_south by lia; lia).
  destruct (Z.eqb_spec r 0) as [E|E]; [|replace (y + 1, s * (t + 1) + r - 1 - s) with (y + 1, s * t + (r - 1)) by (f_equal; lia)];
  (destruct (Z.eqb_spec r t) as [E1|E1]; [|replace (y + 1, s * (t + 1) + r + 0 - s) with (y + 1, s * t + r) by (f_equal; lia)]);
  (destruct (Z.eqb_spec t (n - 1)) as [E2|E2];
     [|replace (s * (t + 1) + r + s) with (s * (t + 2) + r) by lia; replace (s * (t + 1) + r + 1 + s) with (s * (t + 2) + (r + 1)) by lia]);
  rewrite !wrap_ok by (unfold nring; lia); cbn beta iota;
  rewrite ?L1;
  first [replace (ring_len n (y - 1)) with (4 * (t + 2)) by (rewrite ring_len_south by lia; lia) | rewrite (ring_len_mid n (y - 1)) by lia];
  try replace (ring_len n (y + 1)) with (4 * t) by (rewrite ring_len_south by lia; lia);
  rewrite ?(wr_id (4 * t)) by nia; rewrite ?(wr_id (4 * (t + 2))) by nia; rewrite ?(wr_id (4 * n) (s * (t + 1) + r)) by nia; try reflexivity.
Qed.

(* every pixel of a polar ring has a run and a position in it *)
Lemma cap_split k x : 0 < k -> 0 <= x < 4 * k -> exists s r, 0 <= s < 4 /\ 0 <= r < k /\ x = s * k + r.
Proof.
  intros K X. exists (x / k), (x mod k). pose proof (Z.div_mod x k ltac:(lia)). pose proof (Z.mod_pos_bound x k K).
  repeat split; try lia; nia.
Qed.

Lemma half_mid n y : 1 <= n -> n <= y < 3 * n - 1 -> half_shift n y = (y - n) mod 2.
Proof. intros. unfold half_shift. destruct (Z.ltb_spec y n); [lia|]. destruct (Z.leb_spec (3 * n - 1) y); [lia|]. reflexivity. Qed.
Lemma half_cap n y : y < n \/ 3 * n - 1 <= y -> half_shift n y = 1.
Proof. intros. unfold half_shift. destruct (Z.ltb_spec y n); [reflexivity|]. destruct (Z.leb_spec (3 * n - 1) y); [reflexivity|lia]. Qed.
Lemma half_bin n y : half_shift n y = 0 \/ half_shift n y = 1.
Proof. unfold half_shift. destruct (_ || _); [lia|]. pose proof (Z.mod_pos_bound (y - n) 2 ltac:(lia)). lia. Qed.
Lemma half_alt n y : 1 <= n -> n - 1 <= y -> y + 1 <= 3 * n - 1 -> half_shift n (y + 1) = 1 - half_shift n y.
Proof.
  intros Hn H1 H2. destruct (Z.eq_dec y (n - 1)) as [->|N1].
  - rewrite (half_cap n (n - 1)) by lia. rewrite half_mid by lia. replace (n - 1 + 1 - n) with 0 by lia. reflexivity.
  - destruct (Z.eq_dec (y + 1) (3 * n - 1)) as [E|N2].
    + rewrite E, half_cap by lia. rewrite half_mid by lia. replace (y - n) with ((n - 1) * 2) by lia. rewrite Z.mod_mul by lia. reflexivity.
    + rewrite !half_mid by lia. pose proof (Z.div_mod (y - n) 2 ltac:(lia)). pose proof (Z.mod_pos_bound (y - n) 2 ltac:(lia)).
      pose proof (Z.div_mod (y + 1 - n) 2 ltac:(lia)). pose proof (Z.mod_pos_bound (y + 1 - n) 2 ltac:(lia)). lia.
Qed.

Lemma plane_cap n y k s r : 1 <= n -> 0 < k <= n -> k = Z.min (y + 1) (4 * n - 1 - y) -> 0 <= s < 4 -> 0 <= r < k ->
  plane n y (s * k + r) = (2 * n * s + (n - k) + 1 + 2 * r, y).
Proof.
  intros Hn Hk Ek Hs Hr. unfold plane. rewrite <- Ek. cbn zeta. destruct (Z.ltb_spec k n) as [L|L].
  - destruct (qr k s r ltac:(lia) ltac:(lia) Hr) as [Q R]. rewrite Z.quot_div_nonneg in Q by nia. rewrite Z.rem_mod_nonneg in R by nia.
    rewrite Q, R. reflexivity.
  - rewrite half_cap by lia. f_equal. replace k with n by lia. lia.
Qed.
Lemma plane_mid n y x : 1 <= n -> n - 1 <= y <= 3 * n - 1 -> plane n y x = (2 * x + half_shift n y, y).
Proof. intros Hn Hy. unfold plane. cbn zeta. destruct (Z.ltb_spec (Z.min (y + 1) (4 * n - 1 - y)) n); [lia|reflexivity]. Qed.

Lemma adj_exact n dx dy p q : fst q = fst p + dx -> snd q = snd p + dy -> adjacent n dx dy p q.
Proof. intros A B. split; [|assumption]. replace (fst q - fst p - dx) with 0 by lia. apply Zmod_0_l. Qed.
Lemma mul_mod n c : (c * (8 * n)) mod (8 * n) = 0.
Proof. destruct (Z.eq_dec n 0) as [->|]; [rewrite Z.mul_comm; apply Zmod_0_l|]. apply Z.mod_mul. lia. Qed.
Lemma adj_shift n dx dy p q c : fst q = fst p + dx + c * (8 * n) -> snd q = snd p + dy -> adjacent n dx dy p q.
Proof. intros A B. split; [|assumption]. replace (fst q - fst p - dx) with (c * (8 * n)) by lia. apply mul_mod. Qed.

(* an odd ring and its even neighbours in the belt *)
Lemma adj_belt n y x y' x' d dx : 1 <= n -> n - 1 <= y <= 3 * n - 1 -> n - 1 <= y' <= 3 * n - 1 -> (y' = y + 1 \/ y' = y - 1) -> 0 <= x < 4 * n ->
  x' = wr (4 * n) (x + d) -> dx = 2 * d + half_shift n y' - half_shift n y -> adjacent n dx (y' - y) (plane n y x) (plane n y' x').
Proof.
  intros Hn Hy Hy' HY Hx Ex Ed. rewrite !plane_mid by lia. subst x'.
  unfold wr. destruct (Z.ltb_spec (x + d) 0); [apply (adj_shift _ _ _ _ _ 1)|destruct (Z.leb_spec (4 * n) (x + d)); [apply (adj_shift _ _ _ _ _ (-1))|apply adj_exact]]; cbn [fst snd]; lia.
Qed.
Lemma pix_belt n y x : 1 <= n -> n - 1 <= y <= 3 * n - 1 -> 0 <= x < 4 * n -> is_pix n y x.
Proof. intros. unfold is_pix, nring. rewrite ring_len_mid by lia. lia. Qed.
Lemma pix_north n y s r : 1 <= n -> 0 <= y < n -> 0 <= s < 4 -> 0 <= r < y + 1 -> is_pix n y (s * (y + 1) + r).
Proof. intros. unfold is_pix, nring. rewrite ring_len_north by lia. nia. Qed.
Lemma pix_south n y t s r : 1 <= n -> 0 <= t < n -> y = 4 * n - 2 - t -> 0 <= s < 4 -> 0 <= r < t + 1 -> is_pix n y (s * (t + 1) + r).
Proof. intros. unfold is_pix, nring. rewrite ring_len_south by lia. replace (4 * n - 1 - y) with (t + 1) by lia. nia. Qed.

(* no pixel of a shorter ring of the cap lies beyond the end of a run *)
Lemma no_mult n c v : 0 < v < 2 * n -> 2 * n * c + v <> 0.
Proof. intros V E. destruct (Z.lt_trichotomy c 0) as [L|[L|L]]; [|subst; lia|nia]. nia. Qed.
Lemma gap_west n s s2 r2 k : 1 <= n -> 0 < k <= n -> 0 <= r2 < k - 1 ->
  (2 * n * s2 + (n - (k - 1)) + 1 + 2 * r2 - (2 * n * s + (n - k) + 1 + 2 * 0) - -1) mod (8 * n) <> 0.
Proof.
  intros Hn Hk Hr E. apply Z.mod_divide in E; [|lia]. destruct E as [c E].
  apply (no_mult n (s2 - s - 4 * c) (2 + 2 * r2)); lia.
Qed.
Lemma gap_east n s s2 r2 k : 1 <= n -> 0 < k <= n -> 0 <= r2 < k - 1 ->
  (2 * n * s2 + (n - (k - 1)) + 1 + 2 * r2 - (2 * n * s + (n - k) + 1 + 2 * (k - 1)) - 1) mod (8 * n) <> 0.
Proof.
  intros Hn Hk Hr E. apply Z.mod_divide in E; [|lia]. destruct E as [c E].
  apply (no_mult n (s2 - s - 4 * c - 1) (2 * n - 2 * (k - 1) + 2 * r2)); lia.
Qed.

Lemma belt_nb n y x y' x' d dx dy : 1 <= n -> n - 1 <= y <= 3 * n - 1 -> y' = y + dy -> n - 1 <= y' <= 3 * n - 1 -> dy = 1 \/ dy = -1 ->
  0 <= x < 4 * n -> -1 <= d <= 1 -> x' = wr (4 * n) (x + d) -> dx = 2 * d + half_shift n y' - half_shift n y -> edge_neighbour n dx dy y x y' x'.
Proof.
  intros Hn Hy Ey' Hy' Hd Hx HD Ex E. unfold edge_neighbour. split; [subst x'; apply pix_belt; try lia; apply wr_range; lia|].
  left. replace dy with (y' - y) by lia. apply (adj_belt _ _ _ _ _ d); try assumption; lia.
Qed.

Lemma neighs_spec n y x : 1 <= n -> is_pix n y x -> exists qs, get_healpix_neighs (the_info n) y x = Some qs /\
  Forall2 (fun d q => edge_neighbour n (fst d) (snd d) y x (fst q) (snd q)) directions qs.
Proof.
  intros Hn [Hy Hx]. unfold nring in Hy.
  assert (C : y < n \/ n <= y < 3 * n - 1 \/ 3 * n - 1 <= y) by lia. destruct C as [C|[C|C]].
  - rewrite ring_len_north in Hx by lia. destruct (cap_split (y + 1) x) as (s & r & Hs & Hr & ->); try lia.
    rewrite neighs_north by lia. eexists. split; [reflexivity|].
    assert (P0 : plane n y (s * (y + 1) + r) = (2 * n * s + (n - (y + 1)) + 1 + 2 * r, y)) by (apply plane_cap; lia).
    apply Forall2_cons; [|apply Forall2_cons; [|apply Forall2_cons; [|apply Forall2_cons; [|apply Forall2_nil]]]]; cbn [fst snd].
    + unfold edge_neighbour. destruct (Z.eqb_spec r 0) as [E|E]; cbn [fst snd].
      * split; [unfold is_pix, nring; rewrite ring_len_north by lia; pose proof (wr_range (4 * (y + 1)) (s * (y + 1) + r - 1)); nia|].
        right. split; [|split; [reflexivity|rewrite ring_len_north by lia; rewrite <- Z.add_opp_r; apply wr_mod; lia]].
        intros y2 x2 [Hy2 Hx2] [A1 A2]. rewrite P0 in A1, A2. cbn [snd fst] in *.
        assert (E2 : y2 = y - 1) by (unfold plane in A2; cbn zeta in A2; destruct (_ <? _); cbn in A2; lia). subst y2.
        rewrite ring_len_north in Hx2 by lia. destruct (cap_split (y - 1 + 1) x2) as (s2 & r2 & Hs2 & Hr2 & ->); try lia.
        rewrite (plane_cap n (y - 1) (y - 1 + 1)) in A1 by lia. cbn [fst] in A1.
        apply (gap_west n s s2 r2 (y + 1)); try lia. etransitivity; [|exact A1]. f_equal. lia.
      * split; [replace y with (y - 1 + 1) at 2 by lia; apply pix_north; lia|]. left. rewrite P0.
        replace (s * y) with (s * (y - 1 + 1)) by lia. rewrite (plane_cap n (y - 1) (y - 1 + 1)) by lia. apply adj_exact; cbn [fst snd]; lia.
    + unfold edge_neighbour. destruct (Z.eqb_spec r y) as [E|E]; cbn [fst snd].
      * split; [unfold is_pix, nring; rewrite ring_len_north by lia; pose proof (wr_range (4 * (y + 1)) (s * (y + 1) + r + 1)); nia|].
        right. split; [|split; [reflexivity|rewrite ring_len_north by lia; apply wr_mod; lia]].
        intros y2 x2 [Hy2 Hx2] [A1 A2]. rewrite P0 in A1, A2. cbn [snd fst] in *.
        assert (E2 : y2 = y - 1) by (unfold plane in A2; cbn zeta in A2; destruct (_ <? _); cbn in A2; lia). subst y2.
        rewrite ring_len_north in Hx2 by lia. destruct (cap_split (y - 1 + 1) x2) as (s2 & r2 & Hs2 & Hr2 & ->); try lia.
        rewrite (plane_cap n (y - 1) (y - 1 + 1)) in A1 by lia. cbn [fst] in A1.
        apply (gap_east n s s2 r2 (y + 1)); try lia. etransitivity; [|exact A1]. f_equal. lia.
      * split; [replace y with (y - 1 + 1) at 2 by lia; apply pix_north; lia|]. left. rewrite P0.
        replace (s * y) with (s * (y - 1 + 1)) by lia. rewrite (plane_cap n (y - 1) (y - 1 + 1)) by lia. apply adj_exact; cbn [fst snd]; lia.
    + unfold edge_neighbour. destruct (Z.eqb_spec y (n - 1)) as [E|E].
      * split; [apply pix_belt; nia|]. left. rewrite P0, plane_mid by lia. replace (y + 1) with n by lia. rewrite half_mid by lia.
        replace (n - n) with 0 by lia. apply adj_exact; cbn [fst snd]; [|lia]. change (0 mod 2) with 0. lia.
      * replace (y + 2) with (y + 1 + 1) by lia. split; [apply pix_north; lia|]. left. rewrite P0, (plane_cap n (y + 1) (y + 1 + 1)) by lia.
        apply adj_exact; cbn [fst snd]; lia.
    + unfold edge_neighbour. destruct (Z.eqb_spec y (n - 1)) as [E|E].
      * pose proof (wr_range (4 * n) (s * (y + 1) + r + 1)). split; [apply pix_belt; nia|]. left.
        replace 1 with (y + 1 - y) at 2 by lia. apply (adj_belt _ _ _ _ _ 1); try lia; try nia.
        rewrite (half_cap n y) by lia. replace (y + 1) with n by lia. rewrite half_mid by lia. replace (n - n) with 0 by lia. reflexivity.
      * replace (y + 2) with (y + 1 + 1) by lia. split; [apply pix_north; lia|]. left. rewrite P0, (plane_cap n (y + 1) (y + 1 + 1)) by lia.
        apply adj_exact; cbn [fst snd]; lia.
  - rewrite ring_len_mid in Hx by lia. rewrite neighs_mid by lia. eexists. split; [reflexivity|].
    pose proof (half_alt n y Hn ltac:(lia) ltac:(lia)) as A1. pose proof (half_alt n (y - 1) Hn ltac:(lia) ltac:(lia)) as A2.
    replace (y - 1 + 1) with y in A2 by lia.
    destruct (Z.eqb_spec (half_shift n y) 0) as [E|E]; [|pose proof (half_bin n y)];
    (apply Forall2_cons; [|apply Forall2_cons; [|apply Forall2_cons; [|apply Forall2_cons; [|apply Forall2_nil]]]]); cbn [fst snd].
    + apply (belt_nb _ _ _ _ _ (-1)); lia || (f_equal; lia).
    + apply (belt_nb _ _ _ _ _ 0); lia || (f_equal; lia).
    + apply (belt_nb _ _ _ _ _ (-1)); lia || (f_equal; lia).
    + apply (belt_nb _ _ _ _ _ 0); lia || (f_equal; lia).
    + apply (belt_nb _ _ _ _ _ 0); lia || (f_equal; lia).
    + apply (belt_nb _ _ _ _ _ 1); lia || (f_equal; lia).
    + apply (belt_nb _ _ _ _ _ 0); lia || (f_equal; lia).
    + apply (belt_nb _ _ _ _ _ 1); lia || (f_equal; lia).
  - rewrite ring_len_south in Hx by lia. remember (4 * n - 2 - y) as t eqn:Et. replace (4 * n - 1 - y) with (t + 1) in Hx by lia.
    destruct (cap_split (t + 1) x) as (s & r & Hs & Hr & ->); try lia.
    rewrite (neighs_south n y t) by lia. eexists. split; [reflexivity|].
    assert (P0 : plane n y (s * (t + 1) + r) = (2 * n * s + (n - (t + 1)) + 1 + 2 * r, y)) by (apply plane_cap; lia).
    assert (L0 : ring_len n y = 4 * (t + 1)) by (rewrite ring_len_south by lia; lia).
    apply Forall2_cons; [|apply Forall2_cons; [|apply Forall2_cons; [|apply Forall2_cons; [|apply Forall2_nil]]]]; cbn [fst snd].
    + unfold edge_neighbour. destruct (Z.eqb_spec t (n - 1)) as [E|E].
      * split; [apply pix_belt; nia|]. left. replace (-1) with (y - 1 - y) at 2 by lia. apply (adj_belt _ _ _ _ _ 0); try lia; try nia.
        -- rewrite wr_id; nia.
        -- rewrite (half_cap n y) by lia. rewrite half_mid by lia. replace (y - 1 - n) with ((n - 1) * 2) by lia. rewrite Z.mod_mul by lia. reflexivity.
      * replace (t + 2) with (t + 1 + 1) by lia. split; [apply pix_south; lia|]. left. rewrite P0, (plane_cap n (y - 1) (t + 1 + 1)) by lia.
        apply adj_exact; cbn [fst snd]; lia.
    + unfold edge_neighbour. destruct (Z.eqb_spec t (n - 1)) as [E|E].
      * pose proof (wr_range (4 * n) (s * (t + 1) + r + 1)). split; [apply pix_belt; nia|]. left.
        replace (-1) with (y - 1 - y) at 1 by lia. apply (adj_belt _ _ _ _ _ 1); try lia; try nia.
        rewrite (half_cap n y) by lia. rewrite half_mid by lia. replace (y - 1 - n) with ((n - 1) * 2) by lia. rewrite Z.mod_mul by lia. reflexivity.
      * replace (t + 2) with (t + 1 + 1) by lia. split; [apply pix_south; lia|]. left. rewrite P0, (plane_cap n (y - 1) (t + 1 + 1)) by lia.
        apply adj_exact; cbn [fst snd]; lia.
    + unfold edge_neighbour. destruct (Z.eqb_spec r 0) as [E|E]; cbn [fst snd].
      * split; [unfold is_pix, nring; rewrite L0; pose proof (wr_range (4 * (t + 1)) (s * (t + 1) + r - 1)); nia|].
        right. split; [|split; [reflexivity|rewrite L0; rewrite <- Z.add_opp_r; apply wr_mod; lia]].
        intros y2 x2 [Hy2 Hx2] [A1 A2]. rewrite P0 in A1, A2. cbn [snd fst] in *. unfold nring in Hy2.
        assert (E2 : y2 = y + 1) by (unfold plane in A2; cbn zeta in A2; destruct (_ <? _); cbn in A2; lia). subst y2.
        rewrite ring_len_south in Hx2 by lia. replace (4 * n - 1 - (y + 1)) with (t - 1 + 1) in Hx2 by lia.
        destruct (cap_split (t - 1 + 1) x2) as (s2 & r2 & Hs2 & Hr2 & ->); try lia.
        rewrite (plane_cap n (y + 1) (t - 1 + 1)) in A1 by lia. cbn [fst] in A1.
        apply (gap_west n s s2 r2 (t + 1)); try lia. etransitivity; [|exact A1]. f_equal. lia.
      * replace (s * t) with (s * (t - 1 + 1)) by lia. split; [apply pix_south; lia|]. left. rewrite P0.
        rewrite (plane_cap n (y + 1) (t - 1 + 1)) by lia. apply adj_exact; cbn [fst snd]; lia.
    + unfold edge_neighbour. destruct (Z.eqb_spec r t) as [E|E]; cbn [fst snd].
      * split; [unfold is_pix, nring; rewrite L0; pose proof (wr_range (4 * (t + 1)) (s * (t + 1) + r + 1)); nia|].
        right. split; [|split; [reflexivity|rewrite L0; apply wr_mod; lia]].
        intros y2 x2 [Hy2 Hx2] [A1 A2]. rewrite P0 in A1, A2. cbn [snd fst] in *. unfold nring in Hy2.
        assert (E2 : y2 = y + 1) by (unfold plane in A2; cbn zeta in A2; destruct (_ <? _); cbn in A2; lia). subst y2.
        rewrite ring_len_south in Hx2 by lia. replace (4 * n - 1 - (y + 1)) with (t - 1 + 1) in Hx2 by lia.
        destruct (cap_split (t - 1 + 1) x2) as (s2 & r2 & Hs2 & Hr2 & ->); try lia.
        rewrite (plane_cap n (y + 1) (t - 1 + 1)) in A1 by lia. cbn [fst] in A1.
        apply (gap_east n s s2 r2 (t + 1)); try lia. etransitivity; [|exact A1]. f_equal. lia.
      * replace (s * t) with (s * (t - 1 + 1)) by lia. split; [apply pix_south; lia|]. left. rewrite P0.
        rewrite (plane_cap n (y + 1) (t - 1 + 1)) by lia. apply adj_exact; cbn [fst snd]; lia.
Qed.

(* ---- symmetry ---- *)
Definition nbof (n y x : Z) (q : Z * Z) : Prop := exists qs, get_healpix_neighs (the_info n) y x = Some qs /\ In q qs.

Lemma nb_mid n y x q : 1 <= n -> n <= y < 3 * n - 1 ->
  nbof n y x q <-> (half_shift n y = 0 /\ (q = (y-1, wr (4*n) (x-1)) \/ q = (y-1, wr (4*n) x) \/ q = (y+1, wr (4*n) (x-1)) \/ q = (y+1, wr (4*n) x)))
    \/ (half_shift n y = 1 /\ (q = (y-1, wr (4*n) x) \/ q = (y-1, wr (4*n) (x+1)) \/ q = (y+1, wr (4*n) x) \/ q = (y+1, wr (4*n) (x+1)))).
Proof.
  intros Hn Hy. unfold nbof. rewrite neighs_mid by lia. pose proof (half_bin n y) as HB.
  destruct (Z.eqb_spec (half_shift n y) 0) as [E|E].
  - split.
    + intros (qs & Eq & H). apply Some_inj in Eq. subst qs. left. split; [assumption|]. cbn [In] in H. destruct H as [H|[H|[H|[H|[]]]]]; subst q; auto 6.
    + intros [[_ H]|[? _]]; [|lia]. eexists. split; [reflexivity|]. cbn [In]. destruct H as [->|[->|[->| ->]]]; auto 6.
  - split.
    + intros (qs & Eq & H). apply Some_inj in Eq. subst qs. right. split; [lia|]. cbn [In] in H. destruct H as [H|[H|[H|[H|[]]]]]; subst q; auto 6.
    + intros [[? _]|[_ H]]; [lia|]. eexists. split; [reflexivity|]. cbn [In]. destruct H as [->|[->|[->| ->]]]; auto 6.
Qed.
Lemma nb_north n y s r q : 1 <= n -> 0 <= y < n -> 0 <= s < 4 -> 0 <= r < y + 1 ->
  nbof n y (s * (y + 1) + r) q <->
    q = (if r =? 0 then (y, wr (4 * (y + 1)) (s * (y + 1) + r - 1)) else (y - 1, s * y + (r - 1))) \/
    q = (if r =? y then (y, wr (4 * (y + 1)) (s * (y + 1) + r + 1)) else (y - 1, s * y + r)) \/
    q = (y + 1, if y =? n - 1 then s * (y + 1) + r else s * (y + 2) + r) \/
    q = (y + 1, if y =? n - 1 then wr (4 * n) (s * (y + 1) + r + 1) else s * (y + 2) + (r + 1)).
Proof.
  intros Hn Hy Hs Hr. unfold nbof. rewrite neighs_north by lia. split.
  - intros (qs & Eq & H). apply Some_inj in Eq. subst qs. cbn [In] in H. destruct H as [H|[H|[H|[H|[]]]]]; subst q; auto 6.
  - intros H. eexists. split; [reflexivity|]. cbn [In]. destruct H as [->|[->|[->| ->]]]; auto 6.
Qed.
Lemma nb_south n y t s r q : 1 <= n -> 0 <= t < n -> y = 4 * n - 2 - t -> 0 <= s < 4 -> 0 <= r < t + 1 ->
  nbof n y (s * (t + 1) + r) q <->
    q = (y - 1, if t =? n - 1 then s * (t + 1) + r else s * (t + 2) + r) \/
    q = (y - 1, if t =? n - 1 then wr (4 * n) (s * (t + 1) + r + 1) else s * (t + 2) + (r + 1)) \/
    q = (if r =? 0 then (y, wr (4 * (t + 1)) (s * (t + 1) + r - 1)) else (y + 1, s * t + (r - 1))) \/
    q = (if r =? t then (y, wr (4 * (t + 1)) (s * (t + 1) + r + 1)) else (y + 1, s * t + r)).
Proof.
  intros Hn Ht Ey Hs Hr. unfold nbof. rewrite (neighs_south n y t) by lia. split.
  - intros (qs & Eq & H). apply Some_inj in Eq. subst qs. cbn [In] in H. destruct H as [H|[H|[H|[H|[]]]]]; subst q; auto 6.
  - intros H. eexists. split; [reflexivity|]. cbn [In]. destruct H as [->|[->|[->| ->]]]; auto 6.
Qed.

Lemma pair_inv (a b c d : Z) : (a, b) = (c, d) -> a = c /\ b = d.
Proof. intros E. now inversion E. Qed.
Lemma pair_eq (a b c d : Z) : a = c -> b = d -> (a, b) = (c, d).
Proof. congruence. Qed.

Lemma neighs_sym n y x y' x' : 1 <= n -> is_pix n y x -> nbof n y x (y', x') -> nbof n y' x' (y, x).
Proof.
  intros Hn [Hy Hx] H. unfold nring in Hy.
  assert (C : y < n \/ n <= y < 3 * n - 1 \/ 3 * n - 1 <= y) by lia. destruct C as [C|[C|C]].
  - rewrite ring_len_north in Hx by lia. destruct (cap_split (y + 1) x) as (s & r & Hs & Hr & ->); try lia.
    apply nb_north in H; try lia. destruct H as [H|[H|[H|H]]].
    + destruct (Z.eqb_spec r 0) as [E|E]; apply pair_inv in H; destruct H as [-> ->].
      * (* previous run *)
        assert (X : exists s', 0 <= s' < 4 /\ wr (4 * (y + 1)) (s * (y + 1) + r - 1) = s' * (y + 1) + y).
        { destruct (Z.eq_dec s 0) as [->|NS]; [exists 3|exists (s - 1)]; (split; [lia|]); unfold wr; bsplit; nia. }
        destruct X as (s' & Hs' & E'). rewrite E'. apply nb_north; try lia. right; left. rewrite Z.eqb_refl. apply pair_eq; [reflexivity|].
        rewrite <- E'. symmetry. apply wr_up; nia.
      * replace y with (y - 1 + 1) at 2 by lia. apply nb_north; try lia. do 3 right. 
        destruct (Z.eqb_spec (y - 1) (n - 1)); [lia|]. apply pair_eq; lia.
    + destruct (Z.eqb_spec r y) as [E|E]; apply pair_inv in H; destruct H as [-> ->].
      * assert (X : exists s', 0 <= s' < 4 /\ wr (4 * (y + 1)) (s * (y + 1) + r + 1) = s' * (y + 1) + 0).
        { destruct (Z.eq_dec s 3) as [->|NS]; [exists 0|exists (s + 1)]; (split; [lia|]); unfold wr; bsplit; nia. }
        destruct X as (s' & Hs' & E'). rewrite E'. apply nb_north; try lia. left. rewrite Z.eqb_refl. apply pair_eq; [reflexivity|].
        rewrite <- E'. symmetry. apply wr_down; nia.
      * replace y with (y - 1 + 1) at 2 by lia. apply nb_north; try lia. do 2 right. left. 
        destruct (Z.eqb_spec (y - 1) (n - 1)); [lia|]. apply pair_eq; lia.
    + destruct (Z.eqb_spec y (n - 1)) as [E|E]; apply pair_inv in H; destruct H as [-> ->].
      * apply nb_mid; try lia. left. split; [rewrite half_mid by lia; replace (y + 1 - n) with 0 by lia; reflexivity|].
        right; left. apply pair_eq; [lia|]. rewrite wr_id by nia. reflexivity.
      * replace (y + 2) with (y + 1 + 1) by lia. apply nb_north; try lia. right; left.
        destruct (Z.eqb_spec r (y + 1)); [lia|]. apply pair_eq; lia.
    + destruct (Z.eqb_spec y (n - 1)) as [E|E]; apply pair_inv in H; destruct H as [-> ->].
      * apply nb_mid; try lia. left. split; [rewrite half_mid by lia; replace (y + 1 - n) with 0 by lia; reflexivity|].
        left. apply pair_eq; [lia|]. rewrite wr_down by nia. reflexivity.
      * replace (y + 2) with (y + 1 + 1) by lia. apply nb_north; try lia. left.
        destruct (Z.eqb_spec (r + 1) 0); [lia|]. apply pair_eq; lia.
  - rewrite ring_len_mid in Hx by lia. 
    assert (UP : forall x', 0 <= x' < 4 * n -> (half_shift n y = 0 /\ (x = wr (4 * n) x' \/ x = wr (4 * n) (x' + 1)) \/ half_shift n y = 1 /\ (x = wr (4 * n) (x' - 1) \/ x = wr (4 * n) x')) ->
       nbof n (y - 1) x' (y, x)).
    { intros u Hu HX. destruct (Z.eq_dec y n) as [E|E].
      - destruct (cap_split n u) as (s & r & Hs & Hr & ->); try lia. replace (s * n + r) with (s * (y - 1 + 1) + r) in * by lia.
        apply nb_north; try lia. destruct (Z.eqb_spec (y - 1) (n - 1)); [|lia]. do 2 right.
        rewrite half_mid in HX by lia. replace (y - n) with 0 in HX by lia. change (0 mod 2) with 0 in HX.
        destruct HX as [[_ [HX|HX]]|[? _]]; [left|right|lia]; apply pair_eq; try lia. rewrite wr_id in HX by lia. lia.
      - apply nb_mid; try lia. pose proof (half_alt n (y - 1) Hn ltac:(lia) ltac:(lia)) as HA. replace (y - 1 + 1) with y in * by lia.
        destruct HX as [[HS HX]|[HS HX]]; [right|left]; (split; [lia|]); destruct HX as [->| ->]; auto. }
    assert (DN : forall x', 0 <= x' < 4 * n -> (half_shift n y = 0 /\ (x = wr (4 * n) x' \/ x = wr (4 * n) (x' + 1)) \/ half_shift n y = 1 /\ (x = wr (4 * n) (x' - 1) \/ x = wr (4 * n) x')) ->
       nbof n (y + 1) x' (y, x)).
    { intros u Hu HX. destruct (Z.eq_dec (y + 1) (3 * n - 1)) as [E|E].
      - destruct (cap_split n u) as (s & r & Hs & Hr & ->); try lia. replace (s * n + r) with (s * (n - 1 + 1) + r) in * by lia.
        apply nb_south; try lia. rewrite Z.eqb_refl.
        rewrite half_mid in HX by lia. replace (y - n) with ((n - 1) * 2) in HX by lia. rewrite Z.mod_mul in HX by lia.
        destruct HX as [[_ [HX|HX]]|[? _]]; [left|right; left|lia]; apply pair_eq; try lia. rewrite wr_id in HX by lia. lia.
      - apply nb_mid; try lia. pose proof (half_alt n y Hn ltac:(lia) ltac:(lia)) as HA. replace (y + 1 - 1) with y in * by lia.
        destruct HX as [[HS HX]|[HS HX]]; [right|left]; (split; [lia|]); destruct HX as [->| ->]; auto. }
    apply nb_mid in H; try lia. pose proof (wr_up (4 * n) x ltac:(lia) Hx). pose proof (wr_down (4 * n) x ltac:(lia) Hx).
    pose proof (wr_id (4 * n) x Hx). pose proof (wr_range (4 * n) (x - 1) ltac:(lia) ltac:(lia)). pose proof (wr_range (4 * n) (x + 1) ltac:(lia) ltac:(lia)).
    destruct H as [[HS H]|[HS H]]; destruct H as [H|[H|[H|H]]]; apply pair_inv in H; destruct H as [-> ->];
      first [apply UP | apply DN]; try lia; rewrite ?(wr_id (4 * n) x Hx) in *; auto.
  - rewrite ring_len_south in Hx by lia. remember (4 * n - 2 - y) as t eqn:Et. replace (4 * n - 1 - y) with (t + 1) in Hx by lia.
    destruct (cap_split (t + 1) x) as (s & r & Hs & Hr & ->); try lia.
    apply (nb_south n y t) in H; try lia. destruct H as [H|[H|[H|H]]].
    + destruct (Z.eqb_spec t (n - 1)) as [E|E]; apply pair_inv in H; destruct H as [-> ->].
      * apply nb_mid; try lia. left. split; [rewrite half_mid by lia; replace (y - 1 - n) with ((n - 1) * 2) by lia; apply Z.mod_mul; lia|].
        right; right; right. apply pair_eq; [lia|]. rewrite wr_id by nia. reflexivity.
      * replace (t + 2) with (t + 1 + 1) by lia. apply nb_south; try lia. right; right; right.
        destruct (Z.eqb_spec r (t + 1)); [lia|]. apply pair_eq; lia.
    + destruct (Z.eqb_spec t (n - 1)) as [E|E]; apply pair_inv in H; destruct H as [-> ->].
      * apply nb_mid; try lia. left. split; [rewrite half_mid by lia; replace (y - 1 - n) with ((n - 1) * 2) by lia; apply Z.mod_mul; lia|].
        right; right; left. apply pair_eq; [lia|]. rewrite wr_down by nia. reflexivity.
      * replace (t + 2) with (t + 1 + 1) by lia. apply nb_south; try lia. right; right; left.
        destruct (Z.eqb_spec (r + 1) 0); [lia|]. apply pair_eq; lia.
    + destruct (Z.eqb_spec r 0) as [E|E]; apply pair_inv in H; destruct H as [-> ->].
      * assert (X : exists s', 0 <= s' < 4 /\ wr (4 * (t + 1)) (s * (t + 1) + r - 1) = s' * (t + 1) + t).
        { destruct (Z.eq_dec s 0) as [->|NS]; [exists 3|exists (s - 1)]; (split; [lia|]); unfold wr; bsplit; nia. }
        destruct X as (s' & Hs' & E'). rewrite E'. apply nb_south; try lia. right; right; right. rewrite Z.eqb_refl. apply pair_eq; [reflexivity|].
        rewrite <- E'. symmetry. apply wr_up; nia.
      * replace (s * t) with (s * (t - 1 + 1)) by lia. apply nb_south; try lia. right; left.
        destruct (Z.eqb_spec (t - 1) (n - 1)); [lia|]. apply pair_eq; lia.
    + destruct (Z.eqb_spec r t) as [E|E]; apply pair_inv in H; destruct H as [-> ->].
      * assert (X : exists s', 0 <= s' < 4 /\ wr (4 * (t + 1)) (s * (t + 1) + r + 1) = s' * (t + 1) + 0).
        { destruct (Z.eq_dec s 3) as [->|NS]; [exists 0|exists (s + 1)]; (split; [lia|]); unfold wr; bsplit; nia. }
        destruct X as (s' & Hs' & E'). rewrite E'. apply nb_south; try lia. right; right; left. rewrite Z.eqb_refl. apply pair_eq; [reflexivity|].
        rewrite <- E'. symmetry. apply wr_down; nia.
      * replace (s * t) with (s * (t - 1 + 1)) by lia. apply nb_south; try lia. left.
        destruct (Z.eqb_spec (t - 1) (n - 1)); [lia|]. apply pair_eq; lia.
Qed.

(* ---- the python tables ---- *)
Lemma excl_sum_zget l : forall a k, 0 <= k < zlen l -> zget (excl_sum a l) k = Some (a + zsum (firstn (Z.to_nat k) l)).
Proof.
  induction l as [|x l IH]; intros a k Hk; [unfold zlen in Hk; cbn in Hk; lia|].
  cbn [excl_sum]. destruct (Z.eq_dec k 0) as [->|N].
  - cbn. f_equal. lia.
  - rewrite zget_cons. destruct (Z.eqb_spec k 0); [lia|]. unfold zlen in *. cbn [length] in Hk. rewrite IH by (unfold zlen; lia).
    replace (Z.to_nat k) with (S (Z.to_nat (k - 1))) by lia. cbn [firstn zsum]. f_equal. lia.
Qed.
Lemma excl_sum_zlen l : forall a, zlen (excl_sum a l) = zlen l.
Proof. unfold zlen. induction l as [|x l IH]; intros a; [reflexivity|]. cbn [excl_sum length]. specialize (IH (a + x)). lia. Qed.
Lemma excl_sum_rings (f : Z -> Z) a b : a <= b ->
  forall c, excl_sum c (map f (zrange a b)) = map (fun y => c + zsum (map f (zrange a y))) (zrange a b).
Proof.
  intros H. replace b with (a + Z.of_nat (Z.to_nat (b - a))) by lia. generalize (Z.to_nat (b - a)) as k. clear H b.
  intros k. revert a. induction k as [|k IH]; intros a c.
  - rewrite zrange_empty by lia. reflexivity.
  - rewrite zrange_cons by lia. cbn [map excl_sum]. rewrite (zrange_empty a a) by lia. cbn [map zsum].
    f_equal; [lia|]. replace (a + Z.of_nat (S k)) with (a + 1 + Z.of_nat k) by lia. rewrite IH. apply map_ext_in. intros y Hy.
    apply zrange_In in Hy. rewrite (zrange_cons a y) by lia. cbn [map zsum]. lia.
Qed.

Lemma north_len n y : 1 <= n -> 0 <= y < nring n ->
  (let r := (if 2 * n <? y + 1 then 4 * n - (y + 1) else y + 1) in if r <? n then 4 * r else 4 * n) = ring_len n y.
Proof. intros Hn Hy. unfold ring_len, nring in *. cbn zeta. destruct (Z.ltb_spec (2 * n) (y + 1)); [destruct (Z.ltb_spec (4 * n - (y + 1)) n)|destruct (Z.ltb_spec (y + 1) n)]; lia. Qed.
Lemma north_half n y : 1 <= n -> 0 <= y < nring n ->
  (let r := (if 2 * n <? y + 1 then 4 * n - (y + 1) else y + 1) in if r <? n then 1 else if Z.land (r - n) 1 =? 0 then 1 else 0) = half_shift n y.
Proof.
  intros Hn Hy. unfold nring in *. cbn zeta. rewrite land1.
  assert (G : forall r, (if 2 * n <? y + 1 then 4 * n - (y + 1) else y + 1) = r -> r < n -> y < n \/ 3 * n - 1 <= y).
  { intros r E L. destruct (Z.ltb_spec (2 * n) (y + 1)); lia. }
  destruct (Z.ltb_spec (if 2 * n <? y + 1 then 4 * n - (y + 1) else y + 1) n) as [L|L].
  - rewrite half_cap; [reflexivity|]. eapply G; [reflexivity|assumption].
  - clear G. unfold half_shift.
    destruct (Z.ltb_spec (2 * n) (y + 1)) as [A|A].
    + replace (4 * n - (y + 1) - n) with (3 * n - 1 - y) in * by lia.
      destruct (Z.ltb_spec y n); [lia|]. cbn [orb]. destruct (Z.leb_spec (3 * n - 1) y) as [B|B].
      * replace (3 * n - 1 - y) with 0 by lia. reflexivity.
      * pose proof (Z.div_mod (3 * n - 1 - y) 2 ltac:(lia)). pose proof (Z.mod_pos_bound (3 * n - 1 - y) 2 ltac:(lia)).
        pose proof (Z.div_mod (y - n) 2 ltac:(lia)). pose proof (Z.mod_pos_bound (y - n) 2 ltac:(lia)).
        destruct (Z.eqb_spec ((3 * n - 1 - y) mod 2) 0); lia.
    + destruct (Z.ltb_spec y n) as [B|B]; cbn [orb].
      * replace (y + 1 - n) with 0 by lia. reflexivity.
      * destruct (Z.leb_spec (3 * n - 1) y) as [B2|B2].
        -- replace (y + 1 - n) with (n * 2) by lia. rewrite Z.mod_mul by lia. reflexivity.
        -- pose proof (Z.div_mod (y + 1 - n) 2 ltac:(lia)). pose proof (Z.mod_pos_bound (y + 1 - n) 2 ltac:(lia)).
           pose proof (Z.div_mod (y - n) 2 ltac:(lia)). pose proof (Z.mod_pos_bound (y - n) 2 ltac:(lia)).
           destruct (Z.eqb_spec ((y + 1 - n) mod 2) 0); lia.
Qed.
Lemma ring_info_lists n rings : 1 <= n -> (forall y, In y rings -> 0 <= y < nring n) ->
  get_ring_info_healpix n (Some rings) = (map (ring_len n) rings, excl_sum 0 (map (ring_len n) rings), map (half_shift n) rings).
Proof.
  intros Hn HR. unfold get_ring_info_healpix. rewrite !map_map.
  assert (E1 : map (fun x => if (if 2 * n <? x + 1 then 4 * n - (x + 1) else x + 1) <? n then 4 * (if 2 * n <? x + 1 then 4 * n - (x + 1) else x + 1) else 4 * n) rings = map (ring_len n) rings).
  { apply map_ext_in. intros y Hy. apply (north_len n y Hn). auto. }
  rewrite E1. f_equal. apply map_ext_in. intros y Hy. apply (north_half n y Hn). auto.
Qed.
