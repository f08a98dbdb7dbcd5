From Verif Require Import Base SliceSpec SliceModel SliceLemmas ArrModel PixModel PixLemmas RangeModel RangeLemmas AlmModel AlmLemmas ShtSpec ShtModel.
Ltac Zify.zify_post_hook ::= idtac.

(* ---- calc_locinfo ---- *)
Lemma zlen_app_ {A} (l m : list A) : zlen (l ++ m) = zlen l + zlen m.
Proof. unfold zlen. rewrite app_length. lia. Qed.
Lemma zlen_filter_le {A} (f : A -> bool) l : zlen (filter f l) <= zlen l.
Proof. unfold zlen. induction l as [|a l IH]; [cbn; lia|]. cbn [filter]. destruct (f a); cbn [length]; lia. Qed.
Lemma filter_all {A} (f : A -> bool) l : zlen (filter f l) = zlen l -> filter f l = l.
Proof.
  induction l as [|a l IH]; [reflexivity|]. pose proof (zlen_filter_le f l). unfold zlen in *. cbn [filter]. destruct (f a); cbn [length]; intros E; [f_equal; apply IH; lia|lia].
Qed.
Lemma firstn_app_exact {A} (l m : list A) n : n = length l -> firstn n (l ++ m) = l.
Proof. intros ->. rewrite firstn_app, Nat.sub_diag, firstn_all. cbn. apply app_nil_r. Qed.
Lemma skipn_app_rep {A} (l : list A) z n k : length l = n -> skipn (n + k) (l ++ z) = skipn k z.
Proof. intros <-. rewrite skipn_app. replace (length l + k - length l)%nat with k by lia. rewrite skipn_all2 by lia. reflexivity. Qed.
Lemma skipn_repeat {A} (z : A) k n : skipn k (repeat z n) = repeat z (n - k).
Proof. revert n. induction k as [|k IH]; intros n; [cbn; f_equal; lia|]. destruct n; [reflexivity|]. cbn. apply IH. Qed.
Lemma set_slice_app {A} (l v : list A) z n : zlen v <= n ->
  set_slice (l ++ repeat z (Z.to_nat n)) (zlen l) (zlen l + zlen v) v = Some (l ++ v ++ repeat z (Z.to_nat (n - zlen v))).
Proof.
  intros H. unfold set_slice. pose proof (zlen_nonneg l). pose proof (zlen_nonneg v).
  rewrite zlen_app_. assert (zlen (repeat z (Z.to_nat n)) = n) by (unfold zlen; rewrite repeat_length; lia).
  replace (_ && _) with true; [|symmetry; rewrite !andb_true_iff, Z.eqb_eq, !Z.leb_le; lia].
  f_equal. rewrite firstn_app_exact by (unfold zlen in *; lia). f_equal. f_equal.
  replace (Z.to_nat (zlen l + zlen v)) with (length l + length v)%nat by (unfold zlen; lia).
  rewrite skipn_app_rep by reflexivity. rewrite skipn_repeat. f_equal. unfold zlen. lia.
Qed.

Section Loc.
Context {P : Type} (pos : Z -> Z -> P) (conv : P -> P) (finite : P -> bool) (zero : P) (ny nx bsize : Z).
Definition row (y : Z) : list P := map (fun x => conv (pos y x)) (zrange 0 nx).
Definition good (a b : Z) : list P := filter finite (concat (map row (zrange a b))).
Definition maskrows (a b : Z) : list (list bool) := map (fun y => map finite (row y)) (zrange a b).
Definition locinv (b : Z) (st : locstate P) : Prop :=
  st = (good 0 b ++ repeat zero (Z.to_nat (ny * nx - zlen (good 0 b))), maskrows 0 b ++ repeat (repeat false (Z.to_nat nx)) (Z.to_nat (ny - b)), zlen (good 0 b)).

Lemma count_true (l : list P) : zsum (map (fun b : bool => if b then 1 else 0) (map finite l)) = zlen (filter finite l).
Proof. unfold zlen. induction l as [|a l IH]; [reflexivity|]. cbn [map filter zsum]. destruct (finite a); cbn [length]; lia. Qed.
Lemma count_rows (ll : list (list P)) :
  zsum (map (fun row => zsum (map (fun b : bool => if b then 1 else 0) row)) (map (map finite) ll)) = zlen (filter finite (concat ll)).
Proof.
  induction ll as [|l ll IH]; [reflexivity|]. cbn [map concat zsum]. rewrite filter_app, zlen_app_, count_true. lia.
Qed.
Lemma zlen_rows a b : 0 <= nx -> a <= b -> zlen (concat (map row (zrange a b))) = (b - a) * nx.
Proof.
  intros Hx Hab. replace (b - a) with (zlen (zrange a b)) by (rewrite zrange_zlen; lia). generalize (zrange a b). intros l. induction l as [|y l IH]; [unfold zlen; cbn; lia|].
  cbn [map concat]. rewrite zlen_app_, IH. unfold row at 1. unfold zlen. rewrite map_length. fold (zlen (zrange 0 nx)). rewrite zrange_zlen. cbn [length]. lia.
Qed.
Lemma good_split a b c : a <= b <= c -> good a c = good a b ++ good b c.
Proof. intros H. unfold good. rewrite (zrange_split a b c) by lia. rewrite map_app, concat_app, filter_app. reflexivity. Qed.
Lemma good_le a b : 0 <= nx -> a <= b -> zlen (good a b) <= (b - a) * nx.
Proof. intros. unfold good. etransitivity; [apply zlen_filter_le|]. rewrite zlen_rows by lia. lia. Qed.


Lemma loc_block_ok b st : 0 <= nx -> 1 <= bsize -> 0 <= b <= ny -> locinv b st ->
  exists st', loc_block pos conv finite ny nx bsize st b = Some st' /\ locinv (Z.min (b + bsize) ny) st'.
Proof.
  intros Hx Hs Hb ->. unfold loc_block. set (b2 := Z.min (b + bsize) ny). fold row. 
  change (map (fun y => map (fun x => conv (pos y x)) (zrange 0 nx)) (zrange b b2)) with (map row (zrange b b2)).
  rewrite count_rows. fold (good b b2).
  assert (HB : b <= b2 <= ny) by lia.
  pose proof (good_le 0 b Hx ltac:(lia)) as G1. pose proof (good_le b b2 Hx ltac:(lia)) as G2.
  assert (ER : (if zlen (good b b2) <? (b2 - b) * nx then good b b2 else concat (map row (zrange b b2))) = good b b2).
  { destruct (Z.ltb_spec (zlen (good b b2)) ((b2 - b) * nx)); [reflexivity|]. unfold good in *. symmetry. apply filter_all. rewrite zlen_rows by lia. lia. }
  rewrite ER. rewrite set_slice_app by nia.
  assert (M0 : zlen (maskrows 0 b) = b) by (unfold maskrows, zlen; rewrite map_length; fold (zlen (zrange 0 b)); rewrite zrange_zlen; lia).
  assert (M1 : zlen (maskrows b b2) = b2 - b) by (unfold maskrows, zlen; rewrite map_length; fold (zlen (zrange b b2)); rewrite zrange_zlen; lia).
  replace (map (map finite) (map row (zrange b b2))) with (maskrows b b2) by (unfold maskrows; rewrite map_map; reflexivity).
  assert (EM : set_slice (maskrows 0 b ++ repeat (repeat false (Z.to_nat nx)) (Z.to_nat (ny - b))) b b2 (maskrows b b2) =
    Some (maskrows 0 b ++ maskrows b b2 ++ repeat (repeat false (Z.to_nat nx)) (Z.to_nat (ny - b2)))).
  { pose proof (set_slice_app (maskrows 0 b) (maskrows b b2) (repeat false (Z.to_nat nx)) (ny - b)) as E.
    rewrite M0, M1 in E. replace (b + (b2 - b)) with b2 in E by lia. replace (ny - b - (b2 - b)) with (ny - b2) in E by lia. apply E. lia. }
  rewrite EM. eexists. split; [reflexivity|]. unfold locinv. rewrite (good_split 0 b b2) by lia. rewrite zlen_app_.
  replace (maskrows 0 b2) with (maskrows 0 b ++ maskrows b b2) by (unfold maskrows; rewrite (zrange_split 0 b b2), map_app by lia; reflexivity).
  rewrite <- !app_assoc. replace (ny * nx - zlen (good 0 b) - zlen (good b b2)) with (ny * nx - (zlen (good 0 b) + zlen (good b b2))) by lia. reflexivity.
Qed.

Lemma loc_blocks k : 0 <= nx -> 1 <= bsize -> 0 <= ny -> forall i st, 0 <= i -> bsize * i <= ny - 1 \/ k = O -> (k <> O -> bsize * (i + Z.of_nat k - 1) <= ny) -> locinv (Z.min (bsize * i) ny) st ->
  exists st', ofold (loc_block pos conv finite ny nx bsize) (map (fun i => 0 + bsize * i) (zrange i (i + Z.of_nat k))) st = Some st' /\
    locinv (Z.min (bsize * (i + Z.of_nat k)) ny) st'.
Proof.
  intros Hx Hs Hy. induction k as [|k IH]; intros i st Hi HB HL HI.
  - rewrite zrange_empty by lia. exists st. split; [reflexivity|]. replace (i + Z.of_nat 0) with i by lia. assumption.
  - rewrite zrange_cons by lia. cbn [map ofold].
    assert (Hbi : bsize * i <= ny) by nia.
    replace (Z.min (bsize * i) ny) with (0 + bsize * i) in HI by lia.
    destruct (loc_block_ok (0 + bsize * i) st) as (st1 & E1 & I1); try assumption; try nia.
    rewrite E1. replace (i + Z.of_nat (S k)) with (i + 1 + Z.of_nat k) by lia.
    replace (Z.min (0 + bsize * i + bsize) ny) with (Z.min (bsize * (i + 1)) ny) in I1 by lia.
    destruct k as [|k].
    + rewrite (zrange_empty (i + 1) (i + 1 + Z.of_nat 0)) by lia. exists st1. split; [reflexivity|]. replace (i + 1 + Z.of_nat 0) with (i + 1) by lia. assumption.
    + destruct (Z_le_gt_dec (bsize * (i + 1)) (ny - 1)) as [L|L].
      * apply IH; try lia. specialize (HL ltac:(lia)). replace (i + 1 + Z.of_nat (S k) - 1) with (i + Z.of_nat (S (S k)) - 1) by lia. assumption.
      * (* the next block starts at ny exactly and is empty *)
        destruct k as [|k]; [|specialize (HL ltac:(lia)); nia].
        replace (i + 1 + Z.of_nat 1) with (i + 1 + 1) by lia. rewrite (zrange_cons (i + 1)) by lia. rewrite (zrange_empty (i + 1 + 1) (i + 1 + 1)) by lia.
        cbn [map ofold]. specialize (HL ltac:(lia)).
        assert (E : bsize * (i + 1) = ny) by lia.
        replace (Z.min (bsize * (i + 1)) ny) with (0 + bsize * (i + 1)) in I1 by lia.
        destruct (loc_block_ok (0 + bsize * (i + 1)) st1) as (st2 & E2 & I2); try assumption; try lia.
        rewrite E2. exists st2. split; [reflexivity|]. replace (Z.min (bsize * (i + 1 + 1)) ny) with (Z.min (0 + bsize * (i + 1) + bsize) ny) by lia. assumption.
Qed.

(* rows visited *)
Definition visited : Z := if (ny - 1) mod bsize =? 0 then ny - 1 else ny.
Lemma calc_locinfo_visits : 0 <= nx -> 1 <= bsize -> 1 <= ny ->
  calc_locinfo pos conv finite zero ny nx bsize =
    Some (good 0 visited, maskrows 0 visited ++ repeat (repeat false (Z.to_nat nx)) (Z.to_nat (ny - visited)), zlen (good 0 visited) <? ny * nx).
Proof.
  intros Hx Hs Hy. unfold calc_locinfo, py_range. set (N := (ny - 1 - 0 + bsize - 1) / bsize).
  pose proof (Z.div_mod (ny - 1 - 0 + bsize - 1) bsize ltac:(lia)) as D. pose proof (Z.mod_pos_bound (ny - 1 - 0 + bsize - 1) bsize ltac:(lia)) as M. fold N in D.
  pose proof (Z.div_mod (ny - 1) bsize ltac:(lia)) as D1. pose proof (Z.mod_pos_bound (ny - 1) bsize ltac:(lia)) as M1.
  assert (HN : 0 <= N) by (unfold N; apply Z.div_pos; lia).
  assert (HV : Z.min (bsize * N) ny = visited).
  { unfold visited. destruct (Z.eqb_spec ((ny - 1) mod bsize) 0) as [E|E].
    - rewrite E in D1. assert (N = (ny - 1) / bsize); [|nia].
      unfold N. replace (ny - 1 - 0 + bsize - 1) with (bsize - 1 + (ny - 1) / bsize * bsize) by lia. rewrite Z.div_add by lia. rewrite Z.div_small by lia. lia.
    - assert (bsize * N >= ny - 1) by lia. destruct (Z.eq_dec (bsize * N) (ny - 1)) as [E2|]; [|lia].
      exfalso. apply E. rewrite <- E2, Z.mul_comm. apply Z.mod_mul. lia. }
  destruct (loc_blocks (Z.to_nat N)) with (i := 0) (st := (repeat zero (Z.to_nat (ny * nx)), repeat (repeat false (Z.to_nat nx)) (Z.to_nat ny), 0)) as (st & E & I).
  1-4: lia.
  - destruct (Z.eq_dec N 0) as [->|]; [right; reflexivity|left; lia].
  - intros _. rewrite Z2Nat.id by lia. replace (0 + N - 1) with (N - 1) by lia. nia.
  - unfold locinv. replace (Z.min (bsize * 0) ny) with 0 by lia. unfold good, maskrows. rewrite zrange_empty by lia. cbn [map concat filter app]. change (zlen (@nil P)) with 0.
    replace (ny * nx - 0) with (ny * nx) by lia. replace (ny - 0) with ny by lia. reflexivity.
  - replace (0 + Z.of_nat (Z.to_nat N)) with N in E, I by lia. rewrite E. rewrite HV in I. rewrite I.
    rewrite firstn_app_exact by (unfold zlen; lia). reflexivity.
Qed.
End Loc.

Lemma flat_concat {A B} (f : A -> list B) l : flat_map f l = concat (map f l).
Proof. induction l as [|a l IH]; [reflexivity|]. cbn. now rewrite IH. Qed.
Lemma pixels_rows {P} (pos : Z -> Z -> P) conv ny nx :
  concat (map (row pos conv nx) (zrange 0 ny)) = map (fun q => conv (pos (fst q) (snd q))) (pixels ny nx).
Proof.
  unfold pixels. rewrite flat_concat, concat_map, map_map. f_equal. apply map_ext. intros y. rewrite map_map. reflexivity.
Qed.
Lemma filter_map_swap {A B} (f : A -> B) (g : B -> bool) l : filter g (map f l) = map f (filter (fun a => g (f a)) l).
Proof. induction l as [|a l IH]; [reflexivity|]. cbn. destruct (g (f a)); cbn; now rewrite IH. Qed.
Lemma zlen_filter_lt {A} (f : A -> bool) l : (zlen (filter f l) <? zlen l) = existsb (fun a => negb (f a)) l.
Proof.
  induction l as [|a l IH]; [reflexivity|]. cbn [filter existsb]. pose proof (zlen_filter_le f l) as L. unfold zlen in *. destruct (f a); cbn [length negb orb].
  - rewrite <- IH. destruct (Z.ltb_spec (Z.of_nat (length (filter f l))) (Z.of_nat (length l))); destruct (Z.ltb_spec (Z.of_nat (S (length (filter f l)))) (Z.of_nat (S (length l)))); lia.
  - destruct (Z.ltb_spec (Z.of_nat (length (filter f l))) (Z.of_nat (S (length l)))); [reflexivity|lia].
Qed.
Lemma existsb_map {A B} (f : A -> B) (g : B -> bool) l : existsb g (map f l) = existsb (fun a => g (f a)) l.
Proof. induction l as [|a l IH]; [reflexivity|]. cbn. now rewrite IH. Qed.

(* ---- slices of the buffers ---- *)
Lemma flip_len f n : 0 <= n -> py_len (flip2slice f) n = n.
Proof.
  intros H. unfold py_len, py_start, py_stop, py_step, flip2slice. destruct f; cbn.
  - destruct (Z.ltb_spec (-1) (n - 1)); [|lia]. rewrite Z.div_1_r. lia.
  - destruct (Z.ltb_spec 0 n); [|lia]. rewrite Z.div_1_r. lia.
Qed.
Lemma flip_at f n k : sl_at (flip2slice f) n k = flipped f n k.
Proof. unfold sl_at, flipped, flip2slice, py_start, py_step. destruct f; cbn [ps_step ps_start]; [change (1 - 2 * 1) with (-1)|change (1 - 2 * 0) with 1]; cbn [Z.ltb Z.compare]; lia. Qed.
Lemma flip_step f : py_step (flip2slice f) <> 0.
Proof. destruct f; cbn; lia. Qed.
Lemma flip_in_range f n : in_range (flip2slice f) n.
Proof. split; [apply flip_step|]. split; intros i E; discriminate E. Qed.
Lemma flip_inv f n k : flipped f n (flipped f n k) = k.
Proof. destruct f; cbn; lia. Qed.
Lemma flip_range f n k : 0 <= k < n -> 0 <= flipped f n k < n.
Proof. destruct f; cbn; lia. Qed.

Lemma sl_facts a n p : 0 <= a -> 0 <= n -> 0 <= p ->
  py_start (sl a (a + n + p - p)) (a + n + p) = a /\ py_len (sl a (a + n + p - p)) (a + n + p) = n.
Proof.
  intros. replace (a + n + p - p) with (a + n) by lia. unfold py_len, py_start, py_stop, sl, py_step. cbn [ps_start ps_stop ps_step]. unfold py_adjust.
  change (1 <? 0) with false. cbv iota.
  destruct (Z.ltb_spec a 0); [lia|]. destruct (Z.ltb_spec (a + n) 0); [lia|].
  assert (E1 : (if a + n + p <=? a then a + n + p else a) = a) by (destruct (Z.leb_spec (a + n + p) a); lia).
  assert (E2 : (if a + n + p <=? a + n then a + n + p else a + n) = a + n) by (destruct (Z.leb_spec (a + n + p) (a + n)); lia).
  rewrite E1, E2. split; [reflexivity|]. destruct (Z.ltb_spec a (a + n)); [rewrite Z.div_1_r|]; lia.
Qed.
Lemma sl_at_facts a n p k : 0 <= a -> 0 <= n -> 0 <= p -> sl_at (sl a (a + n + p - p)) (a + n + p) k = a + k.
Proof. intros. unfold sl_at. destruct (sl_facts a n p) as [E _]; try assumption. rewrite E. unfold py_step. cbn [sl ps_step]. lia. Qed.
Lemma sl_find_facts a n p k : 0 <= a -> 0 <= n -> 0 <= p ->
  sl_find (sl a (a + n + p - p)) (a + n + p) k = if (a <=? k) && (k <? a + n) then Some (k - a) else None.
Proof.
  intros. unfold sl_find. destruct (sl_facts a n p) as [E L]; try assumption. rewrite E, L. unfold py_step. cbn [sl ps_step]. rewrite Z.div_1_r.
  replace (a + 1 * (k - a)) with k by lia. rewrite Z.eqb_refl. cbn [andb].
  destruct (Z.leb_spec 0 (k - a)), (Z.leb_spec a k), (Z.ltb_spec (k - a) n), (Z.ltb_spec k (a + n)); try lia; reflexivity.
Qed.

Lemma sl_in_range a n p : 0 <= a -> 0 <= n -> 0 <= p -> in_range (sl a (a + n + p - p)) (a + n + p).
Proof. intros. split; [discriminate|]. split; intros i E; cbn in E; apply Some_inj in E; subst i; (split; [lia|]); intros L; exfalso; revert L; unfold py_step; cbn; lia. Qed.
Lemma flip_axis_len n cp cd f : 0 <= n -> axis_len (slice_axis n cp cd (flip2slice f) false) = n.
Proof.
  intros Hn. unfold slice_axis, expand_slice, es_step, flip2slice. destruct f; cbn [ps_step ps_start ps_stop es_default].
  - change (1 - 2 * 1) with (-1). cbn [Z.eqb Z.ltb Z.compare]. unfold es_cycle, axis_len. cbn [fst].
    replace (if 0 <=? n - 1 then Z.min (n - 1) n else n + (n - 1)) with (n - 1) by (destruct (Z.leb_spec 0 (n - 1)); lia).
    replace (-1 - (n - 1) + -1 - Z.sgn (-1)) with (n * -1) by (change (Z.sgn (-1)) with (-1); lia). apply Z.div_mul. lia.
  - change (1 - 2 * 0) with 1. cbn [Z.eqb Z.ltb Z.compare]. unfold es_cycle, axis_len. cbn [fst].
    change (0 <=? 0) with true. cbv iota. destruct (Z.leb_spec 0 n); [|lia].
    replace (Z.min n n - Z.min 0 n + 1 - Z.sgn 1) with (n * 1) by (cbn [Z.sgn]; lia). apply Z.div_mul. lia.
Qed.
Lemma flip_axis_sky n crval cp cd f k : 0 <= n ->
  (sky_at crval (axis_crpix (slice_axis n cp cd (flip2slice f) false)) (axis_cdelt (slice_axis n cp cd (flip2slice f) false)) (inject_Z (flipped f n k)) == sky_at crval cp cd (inject_Z k))%Q.
Proof.
  intros Hn. etransitivity; [apply (slice_axis_sky n crval cp cd (flip2slice f) (inject_Z (flipped f n k)) Hn (flip_in_range f n))|].
  unfold sky_at, flip2slice, py_start, py_step. destruct f; cbn [ps_start ps_step flipped].
  - change (1 - 2 * 1) with (-1). cbn [Z.ltb Z.compare Z.sgn]. unfold Z.sub. rewrite !inject_Z_plus, !inject_Z_opp. change (inject_Z (-1)) with (-(1))%Q. change (inject_Z 1) with 1%Q. field.
  - change (1 - 2 * 0) with 1. cbn [Z.ltb Z.compare Z.sgn]. change (inject_Z 1) with 1%Q. change (inject_Z 0) with 0%Q. field.
Qed.

(* ---- jacobi ---- *)
Section Vec.
Context {V : Type} (zero : V) (add sub : V -> V -> V) (D : vectors V zero add sub).
Lemma vec_eq a b c : add a c = add b c -> a = b.
Proof. intros E. rewrite <- (v_sub' _ _ _ _ D a c), E. apply (v_sub' _ _ _ _ D). Qed.
Lemma vec_self a : sub a a = zero.
Proof. apply (vec_eq _ _ a). rewrite (v_sub _ _ _ _ D), (v_comm _ _ _ _ D), (v_zero _ _ _ _ D). reflexivity. Qed.
Lemma vec_zero a : sub a zero = a.
Proof. apply (vec_eq _ _ zero). rewrite (v_sub _ _ _ _ D), (v_zero _ _ _ _ D). reflexivity. Qed.
(* x0 - (x - b') = (x0 - x) - b when b' = -b *)
Lemma vec_step x0 x b : sub x0 (sub x (sub zero b)) = sub (sub x0 x) b.
Proof.
  assert (E : sub x (sub zero b) = add x b).
  { apply (vec_eq _ _ (sub zero b)). rewrite (v_sub _ _ _ _ D), <- (v_assoc _ _ _ _ D), (v_comm _ _ _ _ D b), (v_sub _ _ _ _ D), (v_zero _ _ _ _ D). reflexivity. }
  rewrite E. apply (vec_eq _ _ (add x b)). rewrite (v_sub _ _ _ _ D). rewrite (v_comm _ _ _ _ D x b), (v_assoc _ _ _ _ D), (v_sub _ _ _ _ D), (v_sub _ _ _ _ D). reflexivity.
Qed.
Lemma vec_neg x y : sub x y = sub zero (sub y x).
Proof.
  apply (vec_eq _ _ (sub y x)). rewrite (v_sub _ _ _ _ D). apply (vec_eq _ _ x). rewrite <- (v_assoc _ _ _ _ D), (v_sub _ _ _ _ D), (v_sub _ _ _ _ D).
  rewrite (v_comm _ _ _ _ D), (v_zero _ _ _ _ D). reflexivity.
Qed.
End Vec.

Section Jac.
Context {X Y : Type} (zX : X) (addX subX : X -> X -> X) (zY : Y) (addY subY : Y -> Y -> Y) (F : X -> Y) (B : Y -> X).
Context (DX : vectors X zX addX subX) (DY : vectors Y zY addY subY) (HF : additive subX subY F) (HB : additive subY subX B).
Definition resid (e : X) : X := subX e (B (F e)).
Lemma add_zero {V W} (zV : V) aV sV (zW : W) aW sW (G : V -> W) : vectors V zV aV sV -> vectors W zW aW sW -> additive sV sW G -> G zV = zW.
Proof. intros D1 D2 HG. rewrite <- (vec_self _ _ _ D1 zV), HG. apply (vec_self _ _ _ D2). Qed.
Lemma jac_step x0 x : subX x0 (subX x (B (subY (F x) (F x0)))) = resid (subX x0 x).
Proof.
  rewrite <- HF. rewrite (vec_neg _ _ _ DX x x0). rewrite HF, (add_zero zX addX subX zY addY subY F DX DY HF), HB.
  rewrite (add_zero zY addY subY zX addX subX B DY DX HB). apply (vec_step _ _ _ DX).
Qed.
Lemma power_shift {V} (f : V -> V) n v : power f n (f v) = f (power f n v).
Proof. induction n as [|n IH]; [reflexivity|]. cbn. now rewrite IH. Qed.
Lemma jac_loop n : forall x0 x nf nb,
  let '(r, nf', nb') := jacobi_loop subX subY F B None n (F x0) x nf nb in
  subX x0 r = power resid n (subX x0 x) /\ nf' = nf + Z.of_nat n /\ nb' = nb + Z.of_nat n.
Proof.
  induction n as [|n IH]; intros x0 x nf nb; cbn [jacobi_loop].
  - repeat split; lia.
  - specialize (IH x0 (subX x (B (subY (F x) (F x0)))) (nf + 1) (nb + 1)).
    destruct (jacobi_loop _ _ _ _ _ _ _ _ _ _) as [[r a] b]. destruct IH as (E & -> & ->).
    rewrite E, jac_step. cbn [power]. rewrite power_shift. repeat split; lia.
Qed.
End Jac.
