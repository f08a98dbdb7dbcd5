From Verif Require Import Base NdSpec NdModel RangeLemmas FindLemmas.
From Coq Require Import Sorting.Sorted Permutation.
Local Open Scope Z_scope.
Ltac Zify.zify_post_hook ::= idtac.

(* -- reshape -- *)
Lemma zprod_app a b : zprod (a ++ b) = zprod a * zprod b.
Proof. unfold zprod. induction a as [|x a IH]; cbn [app fold_right]; [lia|]. rewrite IH. lia. Qed.
Lemma zprod_cons x l : zprod (x :: l) = x * zprod l. Proof. reflexivity. Qed.
Lemma zprod_nonneg l : Forall (fun s => 0 <= s) l -> 0 <= zprod l.
Proof. induction 1; [cbn; lia|]. rewrite zprod_cons. nia. Qed.
Lemma ravel_acc shape : forall idx acc, length shape = length idx -> fold_left (fun acc e => acc * fst e + snd e) (combine shape idx) acc = acc * zprod shape + rank shape idx.
Proof.
  induction shape as [|s shape IH]; intros [|i idx] acc L; cbn in L; try lia; [cbn; lia|]. cbn [combine fold_left fst snd]. rewrite IH by lia. rewrite zprod_cons. cbn [rank]. ring.
Qed.
Lemma valid_len shape idx : valid_idx shape idx -> length shape = length idx. Proof. induction 1; cbn; congruence. Qed.
Lemma ravel_rank shape idx : length shape = length idx -> ravel shape idx = rank shape idx.
Proof. intros L. unfold ravel. rewrite ravel_acc by exact L. lia. Qed.
Lemma valid_pos shape idx : valid_idx shape idx -> 0 < zprod shape.
Proof. induction 1; [cbn; lia|]. rewrite zprod_cons. nia. Qed.
Lemma rank_bound shape idx : valid_idx shape idx -> 0 <= rank shape idx < zprod shape.
Proof. induction 1 as [|s i shape idx H V IH]; [cbn; lia|]. pose proof (valid_pos _ _ V). cbn [rank]. rewrite zprod_cons. nia. Qed.
Lemma unravel_rank shape idx : valid_idx shape idx -> unravel shape (rank shape idx) = idx.
Proof.
  induction 1 as [|s i shape idx H V IH]; [reflexivity|]. pose proof (rank_bound _ _ V). cbn [rank unravel]. rewrite Z.add_comm, Z.div_add, Z.div_small by lia. rewrite Z_mod_plus_full, Z.mod_small by lia. rewrite IH. f_equal.
Qed.
Lemma unravel_valid shape : Forall (fun s => 0 <= s) shape -> forall f, 0 <= f < zprod shape -> valid_idx shape (unravel shape f) /\ rank shape (unravel shape f) = f.
Proof.
  induction 1 as [|s shape H F IH]; intros f R; [cbn in *; split; [constructor|lia]|]. rewrite zprod_cons in R. pose proof (zprod_nonneg _ F) as P0. assert (P1 : 0 < zprod shape) by nia.
  pose proof (Z.div_mod f (zprod shape) ltac:(lia)) as D. pose proof (Z.mod_pos_bound f (zprod shape) P1) as M. destruct (IH (f mod zprod shape) M) as (V & E). cbn [unravel rank]. rewrite E. split; [|lia]. constructor; [|exact V].
  split; [apply Z.div_pos; lia|]. apply Z.div_lt_upper_bound; lia.
Qed.
Lemma reshape_at {A} (a : nd A) shape : Forall (fun s => 0 <= s) (nd_shape a) -> zprod shape = zprod (nd_shape a) ->
  exists b, reshape shape a = Some b /\ nd_shape b = shape /\ forall i j, valid_idx (nd_shape a) i -> valid_idx shape j -> rank (nd_shape a) i = rank shape j -> nd_at b j = nd_at a i.
Proof.
  intros F E. unfold reshape. rewrite E, Z.eqb_refl. eexists. split; [reflexivity|]. split; [reflexivity|]. cbn. intros i j Vi Vj R. rewrite ravel_rank by (apply valid_len; exact Vj). rewrite <- R, unravel_rank by exact Vi. reflexivity.
Qed.
Lemma reshape_back {A} (a b : nd A) shape : Forall (fun s => 0 <= s) (nd_shape a) -> Forall (fun s => 0 <= s) shape -> reshape shape a = Some b -> exists c, reshape (nd_shape a) b = Some c /\ nd_eq c a.
Proof.
  intros Fa Fs E. unfold reshape in E. destruct (Z.eqb_spec (zprod shape) (zprod (nd_shape a))) as [P|]; [|discriminate]. apply Some_inj in E. subst b. unfold reshape. cbn [nd_shape nd_at]. rewrite <- P, Z.eqb_refl. eexists. split; [reflexivity|]. split; [reflexivity|]. cbn. intros idx V.
  rewrite (ravel_rank (nd_shape a) idx) by (apply valid_len; exact V). pose proof (rank_bound _ _ V). destruct (unravel_valid shape Fs (rank (nd_shape a) idx)) as (V2 & R2); [lia|]. rewrite ravel_rank by (apply valid_len; exact V2). rewrite R2, unravel_rank by exact V. reflexivity.
Qed.
Lemma nd_eq_refl {A} (a : nd A) : nd_eq a a. Proof. split; [reflexivity|]. auto. Qed.
Lemma nd_eq_trans {A} (a b c : nd A) : nd_eq a b -> nd_eq b c -> nd_eq a c.
Proof. intros (S1 & E1) (S2 & E2). split; [congruence|]. intros idx V. rewrite E1 by exact V. apply E2. rewrite <- S1. exact V. Qed.
Lemma reshape_cong {A} (a a' b : nd A) shape : nd_eq a a' -> Forall (fun s => 0 <= s) (nd_shape a) -> reshape shape a = Some b -> exists b', reshape shape a' = Some b' /\ nd_eq b b'.
Proof.
  intros (S1 & E1) F E. unfold reshape in *. rewrite <- S1. destruct (Z.eqb_spec (zprod shape) (zprod (nd_shape a))) as [P|]; [|discriminate]. apply Some_inj in E. subst b. eexists. split; [reflexivity|]. split; [reflexivity|]. cbn. intros idx V.
  rewrite ravel_rank by (apply valid_len; exact V). apply E1. pose proof (rank_bound _ _ V). apply unravel_valid; [exact F|lia].
Qed.

(* -- the order of axes -- *)
Lemma map_zget_range {B} (l : list B) : map (zget l) (zrange 0 (zlen l)) = map Some l.
Proof.
  apply zget_ext. intros k. rewrite !zget_map. destruct (Z.ltb_spec k 0) as [N|N]; [rewrite !zget_out by lia; reflexivity|]. destruct (Z.leb_spec (zlen l) k) as [M|M]; [rewrite !zget_out by (rewrite ?zrange_zlen; lia); reflexivity|].
  rewrite zget_zrange by lia. cbn. destruct (zget_in_range l k) as (x & ->); [lia|]. reflexivity.
Qed.
Lemma ins_pair_perm e l : Permutation (ins_pair e l) (e :: l).
Proof. induction l as [|f l IH]; [reflexivity|]. cbn. destruct (fst e <=? fst f); [reflexivity|]. rewrite IH. apply perm_swap. Qed.
Lemma sort_pairs_perm l : Permutation (sort_pairs l) l.
Proof. induction l as [|e l IH]; [reflexivity|]. cbn. rewrite ins_pair_perm, IH. reflexivity. Qed.
Lemma ins_pair_sorted e l : StronglySorted (fun a b => fst a <= fst b) l -> StronglySorted (fun a b => fst a <= fst b) (ins_pair e l).
Proof.
  induction 1 as [|f l SL IH F]; [repeat constructor|]. cbn. destruct (Z.leb_spec (fst e) (fst f)).
  - constructor; [constructor; assumption|]. constructor; [assumption|]. rewrite Forall_forall in *. intros x X. specialize (F x X). lia.
  - constructor; [exact IH|]. rewrite Forall_forall in *. intros x X. apply (Permutation_in _ (ins_pair_perm e l)) in X as [<-|X]; [lia|auto].
Qed.
Lemma sort_pairs_sorted l : StronglySorted (fun a b => fst a <= fst b) (sort_pairs l).
Proof. induction l; cbn; [constructor|]. apply ins_pair_sorted. assumption. Qed.

Lemma zlen_insert p x l : zlen (py_insert p x l) = 1 + zlen l.
Proof. unfold py_insert. rewrite zlen_app, zlen_cons. pose proof (firstn_skipn (Z.to_nat p) l) as E. apply (f_equal (@zlen _)) in E. rewrite zlen_app in E. lia. Qed.
Lemma zget_insert p x l k : 0 <= p <= zlen l -> zget (py_insert p x l) k = if k <? p then zget l k else if k =? p then Some x else zget l (k - 1).
Proof.
  intros R. unfold py_insert. assert (L1 : zlen (firstn (Z.to_nat p) l) = p) by (unfold zlen in *; rewrite firstn_length; lia).
  destruct (Z.ltb_spec k p) as [H|H].
  - destruct (Z.ltb_spec k 0) as [N|N]; [rewrite !zget_out by lia; reflexivity|]. rewrite zget_app1 by lia. rewrite <- (firstn_skipn (Z.to_nat p) l) at 2. rewrite zget_app1 by lia. reflexivity.
  - rewrite zget_app2 by lia. rewrite L1. destruct (Z.eqb_spec k p) as [->|N]; [rewrite Z.sub_diag; reflexivity|]. rewrite zget_cons. replace (k - p =? 0) with false by lia.
    rewrite <- (firstn_skipn (Z.to_nat p) l) at 2. rewrite zget_app2 by lia. rewrite L1. f_equal. lia.
Qed.
Lemma filter_true {B} (p : B -> bool) l : (forall x, In x l -> p x = true) -> filter p l = l.
Proof. induction l as [|x l IH]; intros H; [reflexivity|]. cbn. rewrite (H x) by now left. f_equal. apply IH. intros; apply H; now right. Qed.
Lemma filter_ext_in2 {B} (p q : B -> bool) l : (forall x, In x l -> p x = q x) -> filter p l = filter q l.
Proof. induction l as [|x l IH]; intros H; [reflexivity|]. cbn. rewrite (H x) by now left. rewrite IH by (intros; apply H; now right). reflexivity. Qed.
Definition notin (l : list Z) (p : Z) : bool := negb (existsb (Z.eqb p) l).
Lemma notin_true l p : notin l p = true <-> ~ In p l.
Proof. unfold notin. rewrite negb_true_iff, <- not_true_iff_false, existsb_exists. split; intros H X; apply H; [exists p; split; [exact X|apply Z.eqb_refl]|]. destruct X as (q & X & Y). apply Z.eqb_eq in Y. subst. exact X. Qed.
Lemma notin_app l m p : notin (l ++ m) p = notin l p && notin m p.
Proof. unfold notin. rewrite existsb_app, negb_orb. reflexivity. Qed.
Lemma notin_false l p : notin l p = false <-> In p l.
Proof. rewrite <- not_true_iff_false, notin_true. destruct (in_dec Z.eq_dec p l); tauto. Qed.

(* inserting at increasing positions *)
Lemma inserts_spec (B : list Z) ps : StronglySorted (fun a b : Z * Z => fst a < fst b) ps -> (forall e, In e ps -> 0 <= fst e < zlen B + zlen ps) ->
  let L := fold_left (fun order e => py_insert (fst e) (snd e) order) ps B in
  zlen L = zlen B + zlen ps /\ (forall e, In e ps -> zget L (fst e) = Some (snd e)) /\
  map (zget L) (filter (notin (map fst ps)) (zrange 0 (zlen L))) = map Some B.
Proof.
  induction ps as [|(d, s) ps IH] using rev_ind; intros SS R.
  - cbn. split; [change (zlen (@nil (Z * Z))) with 0; lia|]. split; [tauto|]. rewrite filter_true by (intros; reflexivity). apply map_zget_range.
  - assert (SS0 : StronglySorted (fun a b : Z * Z => fst a < fst b) ps /\ forall e, In e ps -> fst e < d).
    { clear -SS. induction ps as [|e ps IH]; [split; [constructor|easy]|]. inversion SS as [|? ? S1 F]; subst. destruct (IH S1) as (I1 & I2). rewrite Forall_forall in F. split.
      - constructor; [exact I1|]. apply Forall_forall. intros x X. apply F. apply in_or_app. now left.
      - intros x [<-|X]; [apply (F (d, s)); apply in_or_app; right; now left|auto]. }
    destruct SS0 as (SS0 & LT). pose proof (R (d, s) ltac:(apply in_or_app; right; now left)) as Rd. cbn [fst] in Rd. rewrite zlen_app in *. change (zlen [(d, s)]) with 1 in *.
    destruct (IH SS0) as (I1 & I2 & I3). { intros e He. pose proof (LT e He). pose proof (R e ltac:(apply in_or_app; now left)). lia. }
    rewrite fold_left_app. cbn [fold_left fst snd]. cbn zeta in *. set (L := fold_left _ ps B) in *. clearbody L.
    rewrite zlen_insert. split; [lia|]. split.
    + intros e He. apply in_app_or in He as [He|[<-|[]]].
      * rewrite zget_insert by lia. pose proof (LT e He). replace (fst e <? d) with true by lia. apply I2. exact He.
      * cbn [fst snd]. rewrite zget_insert by lia. rewrite Z.ltb_irrefl, Z.eqb_refl. reflexivity.
    + rewrite <- I3, map_app. cbn [map fst]. rewrite (zrange_split 0 d (1 + zlen L)), (zrange_split 0 d (zlen L)) by lia. rewrite (zrange_cons d (1 + zlen L)) by lia. rewrite !filter_app, !map_app. cbn [filter].
      assert (ND : notin (map fst ps ++ [d]) d = false) by (apply notin_false; apply in_or_app; right; now left). rewrite ND. f_equal.
      * rewrite (filter_ext_in2 (notin (map fst ps ++ [d])) (notin (map fst ps))).
        2:{ intros x X. apply zrange_In in X. rewrite notin_app. replace (notin [d] x) with true; [apply andb_true_r|]. symmetry. apply notin_true. cbn. lia. }
        apply map_ext_in. intros x X. apply filter_In in X as (X & _). apply zrange_In in X. rewrite zget_insert by lia. replace (x <? d) with true by lia. reflexivity.
      * assert (OUT : forall x, d <= x -> notin (map fst ps) x = true). { intros x X. apply notin_true. intros Y. apply in_map_iff in Y as (e & <- & He). pose proof (LT e He). lia. }
        rewrite (filter_true (notin (map fst ps ++ [d]))). 2:{ intros x X. apply zrange_In in X. rewrite notin_app, OUT by lia. apply notin_true. cbn. lia. }
        rewrite (filter_true (notin (map fst ps))). 2:{ intros x X. apply zrange_In in X. apply OUT. lia. }
        replace (zrange (d + 1) (1 + zlen L)) with (map (fun x => x + 1) (zrange d (zlen L))).
        -- rewrite map_map. apply map_ext_in. intros x X. apply zrange_In in X. rewrite zget_insert by lia. replace (x + 1 <? d) with false by lia. replace (x + 1 =? d) with false by lia. f_equal. lia.
        -- clear. unfold zrange. replace (Z.to_nat (1 + zlen L - (d + 1))) with (Z.to_nat (zlen L - d)) by lia. generalize (Z.to_nat (zlen L - d)). intros n. revert d. induction n as [|n IHn]; intros d; [reflexivity|]. cbn. f_equal. apply IHn.
Qed.

Definition axes_ok (n : Z) (l : list Z) : Prop := NoDup l /\ forall a, In a l -> 0 <= a < n.
Lemma others_len n l : 0 <= n -> axes_ok n l -> zlen (filter (notin l) (zrange 0 n)) = n - zlen l.
Proof.
  intros Hn (N & R). assert (P : Permutation (filter (fun x => negb (notin l x)) (zrange 0 n)) l).
  { apply NoDup_Permutation; [apply NoDup_filter, zrange_NoDup|exact N|]. intros x. rewrite filter_In, zrange_In, negb_true_iff, notin_false. split; [tauto|]. intros X. split; [apply R|]; exact X. }
  apply Permutation_length in P. assert (E : forall m, (length (filter (notin l) m) + length (filter (fun x => negb (notin l x)) m) = length m)%nat) by (induction m as [|x m IH]; cbn; [lia|]; destruct (notin l x); cbn; lia).
  specialize (E (zrange 0 n)). pose proof (zrange_zlen 0 n). unfold zlen in *. lia.
Qed.
Lemma in_combine_zget {A B} (a : list A) : forall (b : list B) k x y, zget a k = Some x -> zget b k = Some y -> In (x, y) (combine a b).
Proof.
  induction a as [|u a IH]; intros [|v b] k x y H1 H2; try (rewrite zget_nil in *; discriminate). rewrite zget_cons in H1. rewrite zget_cons in H2. destruct (k =? 0); [apply Some_inj in H1, H2; subst; now left|]. right. eapply IH; eassumption.
Qed.
Lemma order_spec n src dst : 0 <= n -> axes_ok n src -> axes_ok n dst -> zlen src = zlen dst -> let L := axis_order n src dst in
  zlen L = n /\ (forall k s d, zget src k = Some s -> zget dst k = Some d -> zget L d = Some s) /\
  map (zget L) (filter (notin dst) (zrange 0 n)) = map Some (filter (notin src) (zrange 0 n)).
Proof.
  intros Hn (NS & RS) (ND & RD) EL. unfold axis_order. change (fun a => negb (existsb (Z.eqb a) src)) with (notin src). set (ps := sort_pairs (combine dst src)).
  assert (LL : length src = length dst) by (unfold zlen in EL; lia).
  assert (FST : map fst (combine dst src) = dst) by (clear -LL; revert src LL; induction dst as [|d dst IH]; intros [|s src] L; cbn in *; try lia; [reflexivity|]; f_equal; apply IH; lia).
  pose proof (sort_pairs_perm (combine dst src)) as P. fold ps in P. assert (PF : Permutation (map fst ps) dst) by (rewrite <- FST; apply Permutation_map; exact P).
  assert (SS : StronglySorted (fun a b : Z * Z => fst a < fst b) ps).
  { pose proof (sort_pairs_sorted (combine dst src)) as S0. fold ps in S0. assert (NP : NoDup (map fst ps)) by (apply (Permutation_NoDup (Permutation_sym PF)); exact ND). clear -S0 NP. induction S0 as [|e l S1 IH F]; [constructor|]. cbn in NP. inversion NP as [|? ? N1 N2]; subst. constructor; [apply IH; exact N2|]. rewrite Forall_forall in *. intros x X. specialize (F x X). assert (fst e <> fst x) by (intros E; apply N1; rewrite E; apply in_map; exact X). lia. }
  assert (LP : zlen ps = zlen dst) by (apply Permutation_length in PF; rewrite map_length in PF; unfold zlen; lia).
  pose proof (others_len n src Hn (conj NS RS)) as LO.
  destruct (inserts_spec (filter (notin src) (zrange 0 n)) ps SS) as (I1 & I2 & I3).
  { intros e He. apply (in_map fst) in He. apply (Permutation_in _ PF) in He. specialize (RD _ He). lia. }
  cbn zeta in *. set (L := fold_left _ ps _) in *. clearbody L. assert (ZL : zlen L = n) by lia. split; [exact ZL|]. split.
  - intros k s d Hs Hd. apply (I2 (d, s)). apply (Permutation_in _ (Permutation_sym P)). eapply in_combine_zget; eassumption.
  - rewrite ZL in I3. rewrite <- I3. f_equal. apply filter_ext_in2. intros x _. apply eq_true_iff_eq. rewrite !notin_true. split; intros H X; apply H; [apply (Permutation_in _ PF); exact X|apply (Permutation_in _ (Permutation_sym PF)); exact X].
Qed.
Lemma map_Some_zget {A} (L : list A) l m k x y : map (zget L) l = map Some m -> zget l k = Some x -> zget m k = Some y -> zget L x = Some y.
Proof. intros E H1 H2. apply (f_equal (fun z => zget z k)) in E. rewrite !zget_map, H1, H2 in E. cbn in E. apply Some_inj in E. exact E. Qed.
Lemma order_inverse n src dst : 0 <= n -> axes_ok n src -> axes_ok n dst -> zlen src = zlen dst -> forall p, 0 <= p < n ->
  exists q, zget (axis_order n src dst) p = Some q /\ 0 <= q < n /\ zget (axis_order n dst src) q = Some p.
Proof.
  intros Hn S0 D0 EL p Hp. destruct (order_spec n src dst Hn S0 D0 EL) as (_ & A2 & A3). destruct (order_spec n dst src Hn D0 S0 (eq_sym EL)) as (_ & B2 & B3). destruct (notin dst p) eqn:E.
  - assert (X : In p (filter (notin dst) (zrange 0 n))) by (apply filter_In; split; [apply zrange_In; lia|exact E]). apply In_zget in X as (k & Hk). pose proof (zget_Some_range _ _ _ Hk) as RK. rewrite (others_len n dst Hn D0) in RK.
    destruct (zget_in_range (filter (notin src) (zrange 0 n)) k) as (q & Hq); [rewrite (others_len n src Hn S0); lia|]. exists q. split; [eapply map_Some_zget; eassumption|]. split; [apply zget_In, filter_In in Hq as (Hq & _); apply zrange_In in Hq; lia|]. eapply map_Some_zget; eassumption.
  - apply notin_false, In_zget in E as (k & Hk). pose proof (zget_Some_range _ _ _ Hk) as RK. destruct (zget_in_range src k) as (q & Hq); [lia|]. exists q. split; [eapply A2; eassumption|]. split; [apply S0; apply zget_In in Hq; exact Hq|]. eapply B2; eassumption.
Qed.

(* -- transposition -- *)
Lemma index_of_spec x l k : zget l k = Some x -> (forall j, zget l j = Some x -> j = k) -> index_of x l = k.
Proof.
  revert k. induction l as [|y l IH]; intros k H U; [rewrite zget_nil in H; discriminate|]. cbn [index_of]. destruct (Z.eqb_spec x y) as [->|N]; [apply U; rewrite zget_cons; reflexivity|].
  rewrite zget_cons in H. destruct (Z.eqb_spec k 0) as [K0|K]; [apply Some_inj in H; congruence|]. rewrite (IH (k - 1)); [lia|exact H|]. intros j Hj. pose proof (zget_Some_range _ _ _ Hj). specialize (U (j + 1)). rewrite zget_cons in U. replace (j + 1 =? 0) with false in U by lia. replace (j + 1 - 1) with j in U by lia. specialize (U Hj). lia.
Qed.
Lemma index_order n src dst q p : 0 <= n -> axes_ok n src -> axes_ok n dst -> zlen src = zlen dst -> zget (axis_order n src dst) q = Some p -> index_of p (axis_order n src dst) = q.
Proof.
  intros Hn S0 D0 EL H. apply index_of_spec; [exact H|]. intros j Hj. destruct (order_spec n src dst Hn S0 D0 EL) as (ZL & _). pose proof (zget_Some_range _ _ _ H) as R1. pose proof (zget_Some_range _ _ _ Hj) as R2.
  destruct (order_inverse n src dst Hn S0 D0 EL q ltac:(lia)) as (p1 & E1 & _ & F1). destruct (order_inverse n src dst Hn S0 D0 EL j ltac:(lia)) as (p2 & E2 & _ & F2). rewrite H in E1. rewrite Hj in E2. apply Some_inj in E1, E2. subst p1 p2. rewrite F1 in F2. apply Some_inj in F2. auto.
Qed.
Lemma zat_get l k x : zget l k = Some x -> zat l k = x. Proof. unfold zat. intros ->. reflexivity. Qed.
Lemma map_zat l : map (zat l) (zrange 0 (zlen l)) = l.
Proof. pose proof (map_zget_range l) as E. apply (f_equal (map (fun o => match o with Some x => x | None => 0 end))) in E. rewrite !map_map in E. rewrite map_id in E. exact E. Qed.
Lemma valid_zat shape idx : zlen shape = zlen idx -> (forall k, 0 <= k < zlen shape -> 0 <= zat idx k < zat shape k) -> valid_idx shape idx.
Proof.
  revert idx. induction shape as [|s shape IH]; intros [|i idx] L H; try (unfold zlen in L; cbn in L; lia); [constructor|]. rewrite !zlen_cons in *. pose proof (zlen_nonneg shape). constructor; [apply (H 0); lia|]. apply IH; [lia|]. intros k Hk. specialize (H (k + 1) ltac:(lia)). unfold zat in *. rewrite !zget_cons in H. replace (k + 1 =? 0) with false in H by lia. replace (k + 1 - 1) with k in H by lia. exact H.
Qed.
Lemma valid_zlen shape idx : valid_idx shape idx -> zlen shape = zlen idx. Proof. intros V. unfold zlen. rewrite (valid_len _ _ V). reflexivity. Qed.
Lemma valid_at shape idx k : valid_idx shape idx -> 0 <= k < zlen shape -> 0 <= zat idx k < zat shape k.
Proof.
  intros V. revert k. induction V as [|s i shape idx H V IH]; intros k R; [change (zlen (@nil Z)) with 0 in R; lia|]. unfold zat. rewrite !zget_cons. destruct (Z.eqb_spec k 0); [exact H|]. rewrite zlen_cons in R. apply IH. lia.
Qed.
Section Moves.
Variables (n : Z) (src dst : list Z).
Hypothesis (Hn : 0 <= n) (S0 : axes_ok n src) (D0 : axes_ok n dst) (EL : zlen src = zlen dst).
Let L1 := axis_order n src dst.
Let L2 := axis_order n dst src.
Lemma tr_shape {A} (a : nd A) : zlen (nd_shape a) = n -> zlen (nd_shape (transpose L1 a)) = n.
Proof. intros _. cbn. rewrite zlen_map. apply (order_spec n src dst Hn S0 D0 EL). Qed.
Lemma tr_valid {A} (a : nd A) idx : zlen (nd_shape a) = n -> valid_idx (nd_shape (transpose L1 a)) idx -> valid_idx (nd_shape a) (map (fun ax => zat idx (index_of ax L1)) (zrange 0 n)).
Proof.
  intros E V. apply valid_zat; [rewrite zlen_map, zrange_zlen; lia|]. intros k Hk.
  destruct (order_inverse n dst src Hn D0 S0 (eq_sym EL) k ltac:(lia)) as (q & Q1 & Q2 & Q3). fold L1 in Q3.
  replace (zat (map (fun ax => zat idx (index_of ax L1)) (zrange 0 n)) k) with (zat idx q).
  2:{ unfold zat at 2. rewrite zget_map, zget_zrange by lia. cbn [option_map]. rewrite Z.add_0_l. unfold L1. rewrite (index_order n src dst q k Hn S0 D0 EL Q3). reflexivity. }
  assert (RQ : 0 <= q < zlen (nd_shape (transpose L1 a))) by (rewrite tr_shape by exact E; lia). pose proof (valid_at _ _ q V RQ) as H. cbn [transpose nd_shape] in H. unfold zat at 3 in H. rewrite zget_map, Q3 in H. cbn [option_map] in H. exact H.
Qed.
Lemma tr_tr {A} (a : nd A) : zlen (nd_shape a) = n -> nd_eq (transpose L2 (transpose L1 a)) a.
Proof.
  intros E. assert (SH : nd_shape (transpose L2 (transpose L1 a)) = nd_shape a).
  { cbn [transpose nd_shape]. apply zget_ext. intros k. rewrite zget_map. destruct (Z.ltb_spec k 0) as [N|N]; [rewrite !zget_out by lia; reflexivity|]. destruct (order_spec n dst src Hn D0 S0 (eq_sym EL)) as (ZL & _). fold L2 in ZL. destruct (Z.leb_spec n k) as [M|M]; [rewrite !zget_out by lia; reflexivity|].
    destruct (order_inverse n dst src Hn D0 S0 (eq_sym EL) k ltac:(lia)) as (q & Q1 & Q2 & Q3). fold L2 in Q1. fold L1 in Q3. rewrite Q1. cbn [option_map]. unfold zat at 1. rewrite zget_map, Q3. cbn [option_map]. unfold zat. destruct (zget_in_range (nd_shape a) k) as (x & ->); [lia|]. reflexivity. }
  split; [exact SH|]. rewrite SH. intros idx V. cbn [transpose nd_at nd_shape]. f_equal. pose proof (valid_zlen _ _ V) as LV. rewrite zlen_map, E. destruct (order_spec n src dst Hn S0 D0 EL) as (ZL & _). fold L1 in ZL. rewrite ZL.
  transitivity (map (zat idx) (zrange 0 n)); [|rewrite <- E, LV; apply map_zat]. apply map_ext_in. intros ax Hax. apply zrange_In in Hax.
  destruct (order_inverse n dst src Hn D0 S0 (eq_sym EL) ax ltac:(lia)) as (q & Q1 & Q2 & Q3). unfold L1. rewrite (index_order n src dst q ax Hn S0 D0 EL Q3). unfold zat at 1. rewrite zget_map, zget_zrange by lia. cbn [option_map]. rewrite Z.add_0_l. unfold L2. rewrite (index_order n dst src ax q Hn D0 S0 (eq_sym EL) Q1). reflexivity.
Qed.
Lemma tr_cong {A} (a b : nd A) : zlen (nd_shape a) = n -> nd_eq a b -> nd_eq (transpose L1 a) (transpose L1 b).
Proof.
  intros E (SH & EQ). split; [cbn; rewrite SH; reflexivity|]. intros idx V. cbn [transpose nd_at]. rewrite <- SH, E. apply EQ. apply tr_valid; assumption.
Qed.
End Moves.

(* -- moveaxes -- *)
Definition valid_axes (n : Z) (axes : list Z) : Prop := (forall a, In a axes -> - n <= a < n) /\ NoDup (map (fun a => a mod n) axes).
Lemma norm_ok n axes : valid_axes n axes -> norm_axes n axes = Some (map (fun a => a mod n) axes) /\ axes_ok n (map (fun a => a mod n) axes).
Proof.
  intros (R & N). split.
  - induction axes as [|a axes IH]; [reflexivity|]. cbn [norm_axes map]. cbn [map] in N. inversion N as [|? ? N1 N2]; subst. pose proof (R a (or_introl eq_refl)). unfold norm_axis. replace ((- n <=? a) && (a <? n)) with true by lia. rewrite IH by (try exact N2; intros; apply R; now right).
    replace (existsb _ _) with false; [reflexivity|]. symmetry. apply not_true_is_false. intros X. apply existsb_exists in X as (y & X & Y). apply Z.eqb_eq in Y. subst y. tauto.
  - split; [exact N|]. intros x X. apply in_map_iff in X as (a & <- & Ha). specialize (R a Ha). apply Z.mod_pos_bound. lia.
Qed.
Lemma moveaxes_eq {A} (a : nd A) src dst : let n := zlen (nd_shape a) in valid_axes n src -> valid_axes n dst -> zlen src = zlen dst ->
  moveaxes a src dst = Some (transpose (axis_order n (map (fun x => x mod n) src) (map (fun x => x mod n) dst)) a).
Proof. intros n Vs Vd E. unfold moveaxes. fold n. destruct (norm_ok n src Vs) as (-> & _). destruct (norm_ok n dst Vd) as (-> & _). rewrite !zlen_map, E, Z.eqb_refl. reflexivity. Qed.
Lemma pick_zat l ps : pick l ps = map (zat l) ps. Proof. reflexivity. Qed.
Lemma zlen_pick l ps : zlen (pick l ps) = zlen ps. Proof. unfold pick. apply zlen_map. Qed.
Lemma move_at {A} (a : nd A) n src dst i j : 0 <= n -> zlen (nd_shape a) = n -> axes_ok n src -> axes_ok n dst -> zlen src = zlen dst -> zlen i = n ->
  pick j dst = pick i src -> pick j (others n dst) = pick i (others n src) -> nd_at (transpose (axis_order n src dst) a) j = nd_at a i.
Proof.
  intros Hn E S0 D0 EL LI P1 P2. cbn [transpose nd_at]. f_equal. rewrite E. transitivity (map (zat i) (zrange 0 n)); [|rewrite <- LI; apply map_zat]. apply map_ext_in. intros ax Hax. apply zrange_In in Hax.
  destruct (order_inverse n dst src Hn D0 S0 (eq_sym EL) ax ltac:(lia)) as (q & Q1 & Q2 & Q3). rewrite (index_order n src dst q ax Hn S0 D0 EL Q3).
  destruct (order_spec n src dst Hn S0 D0 EL) as (_ & A2 & A3). destruct (notin dst q) eqn:NQ.
  - assert (X : In q (filter (notin dst) (zrange 0 n))) by (apply filter_In; split; [apply zrange_In; lia|exact NQ]). apply In_zget in X as (k & Hk). pose proof (zget_Some_range _ _ _ Hk) as RK. rewrite (others_len n dst Hn D0) in RK.
    destruct (zget_in_range (filter (notin src) (zrange 0 n)) k) as (r & Hr); [rewrite (others_len n src Hn S0); lia|]. pose proof (map_Some_zget _ _ _ _ _ _ A3 Hk Hr) as X. rewrite Q3 in X. apply Some_inj in X. subst r.
    apply (f_equal (fun l => zget l k)) in P2. unfold pick, others in P2. change (fun p => negb (existsb (Z.eqb p) dst)) with (notin dst) in P2. change (fun p => negb (existsb (Z.eqb p) src)) with (notin src) in P2. rewrite !zget_map, Hk, Hr in P2. cbn in P2. apply Some_inj in P2. exact P2.
  - apply notin_false, In_zget in NQ as (k & Hk). pose proof (zget_Some_range _ _ _ Hk) as RK. destruct (zget_in_range src k) as (r & Hr); [lia|]. pose proof (A2 _ _ _ Hr Hk) as X. rewrite Q3 in X. apply Some_inj in X. subst r.
    apply (f_equal (fun l => zget l k)) in P1. unfold pick in P1. rewrite !zget_map, Hk, Hr in P1. cbn in P1. apply Some_inj in P1. exact P1.
Qed.
Lemma move_shape {A} (a : nd A) n src dst : 0 <= n -> zlen (nd_shape a) = n -> axes_ok n src -> axes_ok n dst -> zlen src = zlen dst ->
  let b := transpose (axis_order n src dst) a in pick (nd_shape b) dst = pick (nd_shape a) src /\ pick (nd_shape b) (others n dst) = pick (nd_shape a) (others n src).
Proof.
  intros Hn E S0 D0 EL. destruct (order_spec n src dst Hn S0 D0 EL) as (ZL & A2 & A3). cbn zeta. cbn [transpose nd_shape]. split; apply zget_ext; intros k; unfold pick, others; rewrite !zget_map.
  - destruct (zget dst k) as [d|] eqn:Hd.
    + pose proof (zget_Some_range _ _ _ Hd). destruct (zget_in_range src k) as (s & Hs); [lia|]. rewrite Hs. cbn. f_equal. rewrite zget_map, (A2 _ _ _ Hs Hd). reflexivity.
    + destruct (zget src k) as [s|] eqn:Hs; [|reflexivity]. pose proof (zget_Some_range _ _ _ Hs). destruct (zget_in_range dst k) as (d & Hd2); [lia|]. congruence.
  - change (fun p => negb (existsb (Z.eqb p) dst)) with (notin dst). change (fun p => negb (existsb (Z.eqb p) src)) with (notin src). pose proof (others_len n dst Hn D0) as O1. pose proof (others_len n src Hn S0) as O2.
    destruct (zget (filter (notin dst) _) k) as [d|] eqn:Hd.
    + pose proof (zget_Some_range _ _ _ Hd). destruct (zget_in_range (filter (notin src) (zrange 0 n)) k) as (s & Hs); [lia|]. rewrite Hs. cbn. f_equal. rewrite zget_map, (map_Some_zget _ _ _ _ _ _ A3 Hd Hs). reflexivity.
    + destruct (zget (filter (notin src) _) k) as [s|] eqn:Hs; [|reflexivity]. pose proof (zget_Some_range _ _ _ Hs). destruct (zget_in_range (filter (notin dst) (zrange 0 n)) k) as (d & Hd2); [lia|]. congruence.
Qed.
(* a list of length n is known from its entries at l and at the other positions *)
Lemma others_range n k : 0 <= k <= n -> others n (zrange 0 k) = zrange k n.
Proof.
  intros H. unfold others. change (fun p => negb (existsb (Z.eqb p) (zrange 0 k))) with (notin (zrange 0 k)). rewrite (zrange_split 0 k n), filter_app by lia. rewrite (filter_true _ (zrange k n)) by (intros x X; apply zrange_In in X; apply notin_true; rewrite zrange_In; lia).
  replace (filter _ (zrange 0 k)) with (@nil Z); [reflexivity|]. symmetry. assert (K : forall l, (forall x, In x l -> In x (zrange 0 k)) -> filter (notin (zrange 0 k)) l = []); [|apply K; auto]. induction l as [|x l IH]; intros F; [reflexivity|]. cbn. replace (notin (zrange 0 k) x) with false by (symmetry; apply notin_false, F; now left). apply IH. intros; apply F; now right.
Qed.
Lemma others_one n p : 0 <= p < n -> others n [p] = zrange 0 p ++ zrange (p + 1) n.
Proof.
  intros H. unfold others. change (fun q => negb (existsb (Z.eqb q) [p])) with (notin [p]). rewrite (zrange_split 0 p n), (zrange_cons p n), filter_app by lia. cbn [filter]. replace (notin [p] p) with false by (symmetry; apply notin_false; now left).
  rewrite !filter_true; [reflexivity| |]; intros x X; apply zrange_In in X; apply notin_true; cbn; lia.
Qed.
Lemma pick_app l p q : pick l (p ++ q) = pick l p ++ pick l q. Proof. apply map_app. Qed.
Lemma pick_front a b : pick (a ++ b) (zrange 0 (zlen a)) = a.
Proof. rewrite pick_zat. transitivity (map (zat a) (zrange 0 (zlen a))); [|apply map_zat]. apply map_ext_in. intros k Hk. apply zrange_In in Hk. unfold zat. rewrite zget_app1 by lia. reflexivity. Qed.
Lemma zrange_shift a b c : map (fun x => x + c) (zrange a b) = zrange (a + c) (b + c).
Proof. unfold zrange. replace (b + c - (a + c)) with (b - a) by lia. generalize (Z.to_nat (b - a)). intros m. revert a. induction m as [|m IH]; intros a; [reflexivity|]. cbn. f_equal. rewrite IH. f_equal. lia. Qed.
Lemma pick_back a b : pick (a ++ b) (zrange (zlen a) (zlen a + zlen b)) = b.
Proof.
  rewrite pick_zat. transitivity (map (zat b) (zrange 0 (zlen b))); [|apply map_zat]. replace (zrange (zlen a) (zlen a + zlen b)) with (map (fun x => x + zlen a) (zrange 0 (zlen b))) by (rewrite zrange_shift; f_equal; lia). rewrite map_map. apply map_ext_in. intros k Hk. apply zrange_In in Hk. unfold zat. rewrite zget_app2 by lia. replace (k + zlen a - zlen a) with k by lia. reflexivity.
Qed.
Lemma put_insert p x l : put p x l = py_insert p x l. Proof. reflexivity. Qed.
Lemma pick_put p x l : 0 <= p <= zlen l -> pick (put p x l) [p] = [x] /\ pick (put p x l) (others (1 + zlen l) [p]) = l.
Proof.
  intros R. rewrite put_insert. split.
  - cbn. rewrite zget_insert by lia. rewrite Z.ltb_irrefl, Z.eqb_refl. reflexivity.
  - rewrite others_one by lia. rewrite pick_app. transitivity (map (zat l) (zrange 0 p) ++ map (zat l) (zrange p (zlen l))); [|rewrite <- map_app, <- zrange_split by lia; apply map_zat]. f_equal.
    + apply map_ext_in. intros k Hk. apply zrange_In in Hk. rewrite zget_insert by lia. replace (k <? p) with true by lia. reflexivity.
    + replace (zrange (p + 1) (1 + zlen l)) with (map (fun z => z + 1) (zrange p (zlen l))) by (rewrite zrange_shift; f_equal; lia). unfold pick. rewrite map_map. apply map_ext_in. intros k Hk. apply zrange_In in Hk. rewrite zget_insert by lia. replace (k + 1 <? p) with false by lia. replace (k + 1 =? p) with false by lia. unfold zat. replace (k + 1 - 1) with k by lia. reflexivity.
Qed.
Lemma rank_app s1 : forall i1 s2 i2, length s1 = length i1 -> rank (s1 ++ s2) (i1 ++ i2) = rank s1 i1 * zprod s2 + rank s2 i2.
Proof. induction s1 as [|s s1 IH]; intros [|i i1] s2 i2 L; cbn in L; try lia; [cbn; lia|]. cbn [app rank]. rewrite IH by lia. rewrite zprod_app. ring. Qed.
Lemma valid_app s1 i1 s2 i2 : valid_idx s1 i1 -> valid_idx s2 i2 -> valid_idx (s1 ++ s2) (i1 ++ i2). Proof. apply Forall2_app. Qed.
Lemma valid_pick shape i ps : valid_idx shape i -> (forall p, In p ps -> 0 <= p < zlen shape) -> valid_idx (pick shape ps) (pick i ps).
Proof. intros V R. induction ps as [|p ps IH]; [constructor|]. cbn. constructor; [apply (valid_at shape i p V); apply R; now left|]. apply IH. intros; apply R; now right. Qed.
