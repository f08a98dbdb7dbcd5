From Verif Require Import Base NdSpec NdModel RangeLemmas NdLemmas.
Local Open Scope Z_scope.
Ltac Zify.zify_post_hook ::= idtac.

(* ================= C34 ================= *)
(* numbers of axes of an n-dimensional array, negative ones counted from the end, no axis twice *)
Definition axes_of (n : Z) (axes : list Z) : Prop := (forall a, In a axes -> - n <= a < n) /\ NoDup (map (fun a => a mod n) axes).
(* moveaxes puts axis src[k] at dst[k] and keeps the order of the others *)
Theorem C34_moveaxes {A} (a : nd A) src dst : let n := zlen (nd_shape a) in let s := map (fun x => x mod n) src in let d := map (fun x => x mod n) dst in
  axes_of n src -> axes_of n dst -> zlen src = zlen dst ->
  exists b, moveaxes a src dst = Some b /\ zlen (nd_shape b) = n /\
    pick (nd_shape b) d = pick (nd_shape a) s /\ pick (nd_shape b) (others n d) = pick (nd_shape a) (others n s) /\
    forall i j, zlen i = n -> pick j d = pick i s -> pick j (others n d) = pick i (others n s) -> nd_at b j = nd_at a i.
Proof.
  intros n s d Vs Vd E. pose proof (zlen_nonneg (nd_shape a)) as Hn. destruct (norm_ok n src Vs) as (_ & S0). destruct (norm_ok n dst Vd) as (_ & D0). assert (EL : zlen s = zlen d) by (unfold s, d; rewrite !zlen_map; exact E).
  eexists. split; [apply moveaxes_eq; assumption|]. fold n s d. split; [apply tr_shape; auto|]. destruct (move_shape a n s d Hn eq_refl S0 D0 EL) as (M1 & M2). split; [exact M1|]. split; [exact M2|]. intros i j LI P1 P2. apply (move_at a n s d); auto.
Qed.
(* moving back undoes the move *)
Theorem C34_moveaxes_back {A} (a : nd A) src dst : axes_of (zlen (nd_shape a)) src -> axes_of (zlen (nd_shape a)) dst -> zlen src = zlen dst ->
  exists b c, moveaxes a src dst = Some b /\ moveaxes b dst src = Some c /\ nd_eq c a.
Proof.
  intros Vs Vd E. set (n := zlen (nd_shape a)) in *. pose proof (zlen_nonneg (nd_shape a)) as Hn. destruct (norm_ok n src Vs) as (_ & S0). destruct (norm_ok n dst Vd) as (_ & D0). set (s := map (fun x => x mod n) src) in *. set (d := map (fun x => x mod n) dst) in *. assert (EL : zlen s = zlen d) by (unfold s, d; rewrite !zlen_map; exact E).
  eexists _, _. split; [apply moveaxes_eq; assumption|]. fold n s d. assert (T : zlen (nd_shape (transpose (axis_order n s d) a)) = n) by (apply tr_shape; auto). split; [rewrite (moveaxes_eq _ dst src); rewrite ?T; auto|]. fold s d. apply tr_tr; auto.
Qed.
Lemma app_inj_len {B} (a b c d : list B) : length a = length c -> a ++ b = c ++ d -> a = c /\ b = d.
Proof. revert c. induction a as [|x a IH]; intros [|y c] L E; cbn in *; try lia; [auto|]. injection E as -> E. destruct (IH c ltac:(lia) E) as (-> & ->). auto. Qed.
Lemma zprod_pos l : Forall (fun z => 0 <= z) l -> (forall z, In z l -> z <> 0) -> 0 < zprod l.
Proof. induction 1 as [|x l H F IH]; intros NZ; [cbn; lia|]. rewrite zprod_cons. specialize (IH (fun z X => NZ z (or_intror X))). pose proof (NZ x (or_introl eq_refl)). nia. Qed.
(* what partial_flatten computes: the named axes keep their index, the others become one axis at pos, numbered in C order *)
Definition fits (a : list Z) (axes : list Z) (pos : Z) : Prop := axes_of (zlen a) axes /\ Forall (fun s => 0 <= s) a /\ (forall s, In s (pick a (map (fun x => x mod zlen a) axes)) -> s <> 0) /\ - (zlen axes + 1) <= pos <= zlen axes.
Lemma flatten_steps {A} (a : nd A) axes pos : let n := zlen (nd_shape a) in let s := map (fun x => x mod n) axes in let k := zlen axes in let p := pos mod (k + 1) in
  let rest := pick (nd_shape a) (others n s) in
  fits (nd_shape a) axes pos ->
  exists a1 a2 a3, moveaxes a axes (zrange 0 k) = Some a1 /\ nd_shape a1 = pick (nd_shape a) s ++ rest /\ reshape_hole (pick (nd_shape a) s) [] a1 = Some a2 /\ reshape (pick (nd_shape a) s ++ [zprod rest]) a1 = Some a2 /\
    nd_shape a2 = pick (nd_shape a) s ++ [zprod rest] /\ moveaxes a2 [-1] [pos] = Some a3 /\ partial_flatten a axes pos = Some a3 /\ nd_shape a3 = put p (zprod rest) (pick (nd_shape a) s) /\
    forall i, valid_idx (nd_shape a) i -> nd_at a3 (put p (rank rest (pick i (others n s))) (pick i s)) = nd_at a i.
Proof.
  intros n s k p rest (Va & NN & NZ & PP). pose proof (zlen_nonneg (nd_shape a)) as Hn. fold n in Hn. pose proof (zlen_nonneg axes) as Hk. fold k in Hk, PP.
  destruct (norm_ok n axes Va) as (_ & S0). fold s in S0. assert (ZS : zlen s = k) by (unfold s; apply zlen_map).
  assert (KN : k <= n). { pose proof (others_len n s Hn S0). pose proof (zlen_nonneg (filter (notin s) (zrange 0 n))). lia. }
  assert (Vr : axes_of n (zrange 0 k)) by (split; [intros x X; apply zrange_In in X; lia|]; rewrite (map_ext_in _ (fun x => x)), map_id; [apply zrange_NoDup|]; intros x X; apply zrange_In in X; apply Z.mod_small; lia).
  assert (ZR : map (fun x => x mod n) (zrange 0 k) = zrange 0 k) by (rewrite (map_ext_in _ (fun x => x)), map_id; [reflexivity|]; intros x X; apply zrange_In in X; apply Z.mod_small; lia).
  assert (LR : zlen (zrange 0 k) = k) by (rewrite zrange_zlen; lia).
  destruct (C34_moveaxes a axes (zrange 0 k) Va Vr ltac:(fold k; lia)) as (a1 & E1 & L1 & Q1 & Q2 & Q3). cbn zeta in *. change (zlen (nd_shape a)) with n in L1, Q1, Q2, Q3. rewrite ZR in *.  rewrite others_range in Q2, Q3 by lia.
  assert (SPL : forall l, zlen l = n -> l = pick l (zrange 0 k) ++ pick l (zrange k n)). { intros l Hl. rewrite <- pick_app, <- zrange_split by lia. rewrite pick_zat, <- Hl. symmetry. apply map_zat. }
  assert (SH1 : nd_shape a1 = pick (nd_shape a) s ++ rest) by (rewrite (SPL (nd_shape a1) L1), Q1, Q2; reflexivity).
  assert (NNr : Forall (fun z => 0 <= z) rest). { unfold rest. apply Forall_forall. intros z Z. unfold pick in Z. apply in_map_iff in Z as (q & <- & _). destruct (zget (nd_shape a) q) eqn:G; [|lia]. apply zget_In in G. rewrite Forall_forall in NN. apply NN. exact G. }
  assert (NNs : Forall (fun z => 0 <= z) (pick (nd_shape a) s)). { apply Forall_forall. intros z Z. unfold pick in Z. apply in_map_iff in Z as (q & <- & _). destruct (zget (nd_shape a) q) eqn:G; [|lia]. apply zget_In in G. rewrite Forall_forall in NN. apply NN. exact G. }
  assert (PS : 0 < zprod (pick (nd_shape a) s)) by (apply zprod_pos; [exact NNs|exact NZ]).
  assert (NN1 : Forall (fun z => 0 <= z) (nd_shape a1)) by (rewrite SH1; apply Forall_app; auto).
  destruct (reshape_at a1 (pick (nd_shape a) s ++ [zprod rest]) NN1) as (a2 & E2 & SH2 & AT2). { rewrite SH1, !zprod_app. cbn. lia. }
  assert (E2' : reshape_hole (pick (nd_shape a) s) [] a1 = Some a2). { unfold reshape_hole. cbn [zprod fold_right]. rewrite Z.mul_1_r. replace (zprod (pick (nd_shape a) s) =? 0) with false by lia. rewrite SH1, zprod_app, Z.mul_comm, Z.mod_mul, Z.div_mul by lia. cbn [Z.eqb app]. exact E2. }
  assert (L2 : zlen (nd_shape a2) = k + 1) by (rewrite SH2, zlen_app, zlen_pick, ZS; reflexivity).
  assert (V1 : forall x, - (k + 1) <= x < k + 1 -> axes_of (zlen (nd_shape a2)) [x]) by (intros x X; rewrite L2; split; [intros y [<-|[]]; lia|repeat constructor; cbn; tauto]).
  destruct (C34_moveaxes a2 [-1] [pos] (V1 (-1) ltac:(lia)) (V1 pos ltac:(lia)) eq_refl) as (a3 & E3 & L3 & R1 & R2 & R3). cbn [map] in R1, R2, R3. rewrite L2 in *.
  assert (MK : (-1) mod (k + 1) = k) by (symmetry; apply (Z.mod_unique _ _ (-1)); lia). rewrite MK in R1, R2, R3. fold p in R1, R2, R3. assert (HP : 0 <= p < k + 1) by (apply Z.mod_pos_bound; lia).
  assert (LSEL : forall l, zlen (pick l s) = k) by (intros l; rewrite zlen_pick; exact ZS).
  assert (OK : others (k + 1) [k] = zrange 0 k) by (rewrite others_one by lia; rewrite (zrange_empty (k + 1)) by lia; apply app_nil_r).
  assert (LAST : forall l f, zlen l = k -> pick (l ++ [f]) [k] = [f] /\ pick (l ++ [f]) (zrange 0 k) = l) by (intros l f Hl; split; [cbn; rewrite zget_app2 by lia; replace (k - zlen l) with 0 by lia; reflexivity|rewrite <- Hl; apply pick_front]).
  assert (PUT : forall l f, zlen l = k -> pick (put p f l) [p] = [f] /\ pick (put p f l) (others (k + 1) [p]) = l) by (intros l f Hl; rewrite (Z.add_comm k 1), <- Hl; apply pick_put; lia).
  exists a1, a2, a3. split; [exact E1|]. split; [exact SH1|]. split; [exact E2'|]. split; [exact E2|]. split; [exact SH2|]. split; [exact E3|].
  assert (FN : firstn (Z.to_nat k) (nd_shape a1) = pick (nd_shape a) s). { rewrite SH1. specialize (LSEL (nd_shape a)). unfold zlen in LSEL. replace (Z.to_nat k) with (length (pick (nd_shape a) s)) by lia. rewrite firstn_app, Nat.sub_diag, firstn_all. cbn. apply app_nil_r. }
  split; [unfold partial_flatten; fold k; rewrite E1, FN, E2'; exact E3|]. split.
  - (* shape *)
    assert (U : forall l m, zlen l = k + 1 -> zlen m = k + 1 -> pick l [p] = pick m [p] -> pick l (others (k + 1) [p]) = pick m (others (k + 1) [p]) -> l = m).
    { intros l m Hl Hm X Y. rewrite others_one, !pick_app in Y by lia. assert (FULL : forall z, zlen z = k + 1 -> z = pick z (zrange 0 p) ++ pick z [p] ++ pick z (zrange (p + 1) (k + 1))). { intros z Hz. rewrite <- !pick_app. change ([p] ++ zrange (p + 1) (k + 1)) with (p :: zrange (p + 1) (k + 1)). rewrite <- zrange_cons, <- zrange_split by lia. rewrite pick_zat, <- Hz. symmetry. apply map_zat. }
      rewrite (FULL l Hl), (FULL m Hm). apply app_inj_len in Y; [|unfold pick; rewrite !map_length; reflexivity]. destruct Y as (Y1 & Y2). rewrite Y1, Y2, X. reflexivity. }
    destruct (LAST (pick (nd_shape a) s) (zprod rest) (LSEL _)) as (W1 & W2). destruct (PUT (pick (nd_shape a) s) (zprod rest) (LSEL _)) as (W3 & W4). rewrite SH2, W1 in R1. rewrite SH2, OK, W2 in R2.
    apply U; [exact L3|rewrite put_insert, zlen_insert, LSEL; lia|congruence|congruence].
  - intros i Vi. set (f := rank rest (pick i (others n s))). destruct (LAST (pick i s) f (LSEL _)) as (W1 & W2). destruct (PUT (pick i s) f (LSEL _)) as (W3 & W4).
    rewrite (R3 (pick i s ++ [f])); [|rewrite zlen_app, LSEL; reflexivity|congruence|rewrite OK; congruence].
    assert (RO : forall q, In q (others n s) -> 0 <= q < zlen (nd_shape a)) by (intros q Q; unfold others in Q; apply filter_In in Q as (Q & _); apply zrange_In in Q; exact Q).
    assert (VR : valid_idx rest (pick i (others n s))) by (apply valid_pick; [exact Vi|exact RO]). assert (VS : valid_idx (pick (nd_shape a) s) (pick i s)) by (apply valid_pick; [exact Vi|apply S0]).
    pose proof (rank_bound _ _ VR) as RB. fold f in RB.
    rewrite (AT2 (pick i s ++ pick i (others n s))); [| rewrite SH1; apply valid_app; assumption|apply valid_app; [exact VS|repeat constructor; lia]|].
    + pose proof (valid_zlen _ _ Vi) as LI. fold n in LI. apply Q3; [exact (eq_sym LI)| |].
      * replace k with (zlen (pick i s)) by apply LSEL. apply pick_front.
      * pose proof (others_len n s Hn S0) as OL. change (filter (notin s) (zrange 0 n)) with (others n s) in OL. replace (zrange k n) with (zrange (zlen (pick i s)) (zlen (pick i s) + zlen (pick i (others n s)))) by (f_equal; rewrite ?LSEL, ?zlen_pick; lia). apply pick_back.
    + rewrite SH1. pose proof (valid_len _ _ VS). rewrite !rank_app by assumption. fold f. cbn. lia.
Qed.
Theorem C34_flatten {A} (a : nd A) axes pos : let n := zlen (nd_shape a) in let s := map (fun x => x mod n) axes in let p := pos mod (zlen axes + 1) in
  let rest := pick (nd_shape a) (others n s) in
  fits (nd_shape a) axes pos ->
  exists b, partial_flatten a axes pos = Some b /\ nd_shape b = put p (zprod rest) (pick (nd_shape a) s) /\
    forall i, valid_idx (nd_shape a) i -> nd_at b (put p (rank rest (pick i (others n s))) (pick i s)) = nd_at a i.
Proof. intros n s p rest F. destruct (flatten_steps a axes pos F) as (a1 & a2 & a3 & _ & _ & _ & _ & _ & _ & E & SH & AT). exists a3. auto. Qed.
(* partial_expand undoes partial_flatten *)
Theorem C34_roundtrip {A} (a : nd A) axes pos : fits (nd_shape a) axes pos -> axes <> [] ->
  exists b c, partial_flatten a axes pos = Some b /\ partial_expand b (nd_shape a) axes pos = Some c /\ nd_eq c a.
Proof.
  intros F NE. destruct (flatten_steps a axes pos F) as (a1 & a2 & a3 & E1 & SH1 & _ & E2 & SH2 & E3 & EF & _). set (n := zlen (nd_shape a)) in *. set (s := map (fun x => x mod n) axes) in *. set (k := zlen axes) in *. set (rest := pick (nd_shape a) (others n s)) in *.
  destruct F as (Va & NN & NZ & PP). fold n k in Va, PP. pose proof (zlen_nonneg (nd_shape a)) as Hn. fold n in Hn.
  assert (KP : 1 <= k) by (unfold k; destruct axes; [congruence|]; rewrite zlen_cons; pose proof (zlen_nonneg axes); lia). destruct (norm_ok n axes Va) as (_ & S0). fold s in S0. assert (ZS : zlen s = k) by (unfold s; apply zlen_map).
  assert (KN : k <= n). { pose proof (others_len n s Hn S0). pose proof (zlen_nonneg (filter (notin s) (zrange 0 n))). lia. }
  assert (L2 : zlen (nd_shape a2) = k + 1) by (rewrite SH2, zlen_app, zlen_pick, ZS; reflexivity).
  assert (V1 : forall x, - (k + 1) <= x < k + 1 -> axes_of (zlen (nd_shape a2)) [x]) by (intros x X; rewrite L2; split; [intros y [<-|[]]; lia|repeat constructor; cbn; tauto]).
  destruct (C34_moveaxes_back a2 [-1] [pos] (V1 (-1) ltac:(lia)) (V1 pos ltac:(lia)) eq_refl) as (b & a4 & E3' & E4 & EQ4). rewrite E3 in E3'. apply Some_inj in E3'. subst b.
  assert (NNr : Forall (fun z => 0 <= z) rest). { unfold rest. apply Forall_forall. intros z Z. unfold pick in Z. apply in_map_iff in Z as (q & <- & _). destruct (zget (nd_shape a) q) eqn:G; [|lia]. apply zget_In in G. rewrite Forall_forall in NN. apply NN. exact G. }
  assert (NNs : Forall (fun z => 0 <= z) (pick (nd_shape a) s)). { apply Forall_forall. intros z Z. unfold pick in Z. apply in_map_iff in Z as (q & <- & _). destruct (zget (nd_shape a) q) eqn:G; [|lia]. apply zget_In in G. rewrite Forall_forall in NN. apply NN. exact G. }
  assert (NN1 : Forall (fun z => 0 <= z) (nd_shape a1)) by (rewrite SH1; apply Forall_app; auto). assert (NN2 : Forall (fun z => 0 <= z) (nd_shape a2)) by (rewrite SH2; apply Forall_app; split; [exact NNs|]; repeat constructor; apply zprod_nonneg; exact NNr).
  destruct (reshape_back a1 a2 _ NN1 ltac:(rewrite SH2 in NN2; exact NN2) E2) as (c2 & E5 & EQ5).
  assert (EQ4' : nd_eq a2 a4) by (destruct EQ4 as (X & Y); split; [congruence|]; intros idx V; symmetry; apply Y; rewrite X; exact V).
  destruct (reshape_cong a2 a4 c2 (nd_shape a1) EQ4' NN2 E5) as (a5 & E6 & EQ6).
  assert (EQ7 : nd_eq a1 a5). { destruct EQ5 as (X & Y). destruct EQ6 as (X2 & Y2). split; [congruence|]. intros idx V. rewrite <- Y2 by (rewrite X; exact V). symmetry. apply Y. rewrite X. exact V. }
  assert (Vr : axes_of n (zrange 0 k)) by (split; [intros x X; apply zrange_In in X; lia|]; rewrite (map_ext_in _ (fun x => x)), map_id; [apply zrange_NoDup|]; intros x X; apply zrange_In in X; apply Z.mod_small; lia).
  assert (LR : zlen (zrange 0 k) = k) by (rewrite zrange_zlen; lia). assert (ZR : map (fun x => x mod n) (zrange 0 k) = zrange 0 k) by (rewrite (map_ext_in _ (fun x => x)), map_id; [reflexivity|]; intros x X; apply zrange_In in X; apply Z.mod_small; lia).
  assert (ZM : map (fun x => x mod n) s = s) by (rewrite (map_ext_in _ (fun x => x)), map_id; [reflexivity|]; intros x X; apply Z.mod_small; apply S0; exact X).
  assert (Vs : axes_of n s) by (split; [intros x X; destruct S0 as (_ & S1); specialize (S1 x X); lia|rewrite ZM; apply S0]).
  pose proof (moveaxes_eq a axes (zrange 0 k) Va Vr ltac:(fold k; lia)) as M1. fold n s in M1. rewrite ZR in M1. rewrite E1 in M1. apply Some_inj in M1.
  assert (L1 : zlen (nd_shape a1) = n) by (rewrite M1; apply tr_shape; auto; [split; [apply zrange_NoDup|]; intros x X; apply zrange_In in X; lia|lia]).
  assert (L5 : zlen (nd_shape a5) = n) by (destruct EQ7 as (<- & _); exact L1).
  pose proof (moveaxes_eq a5 (zrange 0 k) s) as M2. rewrite L5 in M2. specialize (M2 Vr Vs ltac:(lia)). rewrite ZR, ZM in M2.
  assert (RO : axes_ok n (zrange 0 k)) by (split; [apply zrange_NoDup|]; intros x X; apply zrange_In in X; lia).
  eexists a3, _. split; [exact EF|]. split.
  - unfold partial_expand. fold k n. rewrite E4. replace ((n =? 0) || (k =? 0)) with false by lia. fold s. change (map (zat (nd_shape a)) (filter (fun p => negb (existsb (Z.eqb p) s)) (zrange 0 n))) with rest.
    destruct EQ4 as (X & _). rewrite X, SH2. assert (FN : firstn (Z.to_nat k) (pick (nd_shape a) s ++ [zprod rest]) = pick (nd_shape a) s). { pose proof (zlen_pick (nd_shape a) s) as LP. unfold zlen in LP, ZS. replace (Z.to_nat k) with (length (pick (nd_shape a) s)) by lia. rewrite firstn_app, Nat.sub_diag, firstn_all. cbn. apply app_nil_r. }
    rewrite FN, <- SH1, E6. exact M2.
  - eapply nd_eq_trans; [apply (tr_cong n (zrange 0 k) s Hn RO S0 ltac:(lia) a5 a1 L5)|].
    + destruct EQ7 as (X & Y). split; [congruence|]. intros idx V. symmetry. apply Y. rewrite X. exact V.
    + rewrite M1. apply (tr_tr n s (zrange 0 k) Hn S0 RO ltac:(lia) a eq_refl).
Qed.
(* preflat and postflat with a non-negative number of axes *)
Lemma split_valid shape i m : valid_idx shape i -> valid_idx (firstn m shape) (firstn m i) /\ valid_idx (skipn m shape) (skipn m i).
Proof.
  unfold valid_idx. intros V. revert m. induction V as [|s x shape i H V IH]; intros m; [rewrite !firstn_nil, !skipn_nil; split; constructor|]. destruct m as [|m]; cbn [firstn skipn]; [split; [constructor|constructor; assumption]|].
  destruct (IH m). split; [constructor; assumption|assumption].
Qed.
Lemma split_nonneg (l : list Z) m : Forall (fun s => 0 <= s) l -> Forall (fun s => 0 <= s) (firstn m l) /\ Forall (fun s => 0 <= s) (skipn m l).
Proof. intros F. rewrite <- (firstn_skipn m l) in F. apply Forall_app in F. exact F. Qed.
Theorem C34_preflat {A} (a : nd A) m : (m <= length (nd_shape a))%nat -> Forall (fun s => 0 <= s) (nd_shape a) -> (forall s, In s (skipn m (nd_shape a)) -> s <> 0) ->
  exists b, preflat a (Z.of_nat m) = Some b /\ nd_shape b = zprod (firstn m (nd_shape a)) :: skipn m (nd_shape a) /\
    forall i, valid_idx (nd_shape a) i -> nd_at b (rank (firstn m (nd_shape a)) (firstn m i) :: skipn m i) = nd_at a i.
Proof.
  intros L F NZ. destruct (split_nonneg _ m F) as (F1 & F2). pose proof (zprod_pos _ F2 NZ) as P. unfold preflat. replace (Z.of_nat m <? 0) with false by lia. unfold py_from. replace (Z.of_nat m <? 0) with false by lia. rewrite Nat2Z.id.
  assert (PE : zprod (nd_shape a) = zprod (firstn m (nd_shape a)) * zprod (skipn m (nd_shape a))) by (rewrite <- zprod_app, firstn_skipn; reflexivity).
  unfold reshape_hole. change (zprod []) with 1. rewrite Z.mul_1_l. replace (zprod (skipn m (nd_shape a)) =? 0) with false by lia. rewrite PE, Z.mod_mul, Z.div_mul by lia. cbn [Z.eqb app].
  destruct (reshape_at a (zprod (firstn m (nd_shape a)) :: skipn m (nd_shape a)) F) as (b & E & SH & AT); [rewrite zprod_cons; lia|]. exists b. split; [exact E|]. split; [exact SH|]. intros i V. destruct (split_valid _ _ m V) as (V1 & V2). apply AT; [exact V|constructor; [apply rank_bound; exact V1|exact V2]|].
  rewrite <- (firstn_skipn m (nd_shape a)) at 1. rewrite <- (firstn_skipn m i) at 1. rewrite rank_app by (apply valid_len; exact V1). reflexivity.
Qed.
Theorem C34_postflat {A} (a : nd A) m : (m <= length (nd_shape a))%nat -> Forall (fun s => 0 <= s) (nd_shape a) -> (forall s, In s (firstn (length (nd_shape a) - m) (nd_shape a)) -> s <> 0) ->
  exists b, postflat a (Z.of_nat m) = Some b /\ nd_shape b = firstn (length (nd_shape a) - m) (nd_shape a) ++ [zprod (skipn (length (nd_shape a) - m) (nd_shape a))] /\
    forall i, valid_idx (nd_shape a) i -> nd_at b (firstn (length (nd_shape a) - m) i ++ [rank (skipn (length (nd_shape a) - m) (nd_shape a)) (skipn (length (nd_shape a) - m) i)]) = nd_at a i.
Proof.
  intros L F NZ. set (q := (length (nd_shape a) - m)%nat) in *. destruct (split_nonneg _ q F) as (F1 & F2). pose proof (zprod_pos _ F1 NZ) as P. unfold postflat. replace (Z.of_nat m <? 0) with false by lia. unfold py_upto.
  replace (zlen (nd_shape a) - Z.of_nat m) with (Z.of_nat q) by (unfold zlen; lia). replace (Z.of_nat q <? 0) with false by lia. rewrite Nat2Z.id.
  assert (PE : zprod (nd_shape a) = zprod (skipn q (nd_shape a)) * zprod (firstn q (nd_shape a))) by (rewrite Z.mul_comm, <- zprod_app, firstn_skipn; reflexivity).
  unfold reshape_hole. change (zprod []) with 1. rewrite Z.mul_1_r. replace (zprod (firstn q (nd_shape a)) =? 0) with false by lia. rewrite PE, Z.mod_mul, Z.div_mul by lia. cbn [Z.eqb app].
  destruct (reshape_at a (firstn q (nd_shape a) ++ [zprod (skipn q (nd_shape a))]) F) as (b & E & SH & AT); [rewrite zprod_app; cbn; lia|]. exists b. split; [exact E|]. split; [exact SH|]. intros i V. destruct (split_valid _ _ q V) as (V1 & V2). apply AT; [exact V|apply valid_app; [exact V1|repeat constructor; apply rank_bound; exact V2]|].
  rewrite <- (firstn_skipn q (nd_shape a)) at 1. rewrite <- (firstn_skipn q i) at 1. pose proof (valid_len _ _ V1). rewrite !rank_app by assumption. cbn. lia.
Qed.
(* documented for negative n: flatten all but the last -n dimensions. What happens: everything is flattened *)
Theorem C34_preflat_negative_refuted : option_map nd_shape (preflat (ND [2; 3; 4] (fun i => rank [2; 3; 4] i)) (-1)) = Some [24].
Proof. vm_compute. reflexivity. Qed.
Theorem C34_postflat_negative_refuted : option_map nd_shape (postflat (ND [2; 3; 4] (fun i => rank [2; 3; 4] i)) (-1)) = Some [2; 3; 4].
Proof. vm_compute. reflexivity. Qed.
Example C34_ex : fits [2; 3; 4] [-1; 0] 1 /\ option_map (fun b => (nd_shape b, nd_at b [3; 2; 1])) (partial_flatten (ND [2; 3; 4] (fun i => i)) [-1; 0] 1) = Some ([4; 3; 2], [1; 2; 3]).
Proof.
  split; [|vm_compute; reflexivity]. split; [split; [intros a [<-|[<-|[]]]; unfold zlen; cbn; lia|cbn; repeat constructor; cbn; intuition lia]|]. split; [repeat constructor; lia|]. split; [intros s Hs; vm_compute in Hs; intuition lia|unfold zlen; cbn; lia].
Qed.
Print Assumptions C34_moveaxes.
Print Assumptions C34_moveaxes_back.
Print Assumptions C34_flatten.
Print Assumptions C34_roundtrip.
Print Assumptions C34_preflat.
Print Assumptions C34_postflat.
Print Assumptions C34_preflat_negative_refuted.
Print Assumptions C34_postflat_negative_refuted.
