(* Lemmas for C89-C92. *)
From Coq Require Import Qabs Qround.
From Coq Require Import Lqa.
From Verif Require Import Base SliceSpec SliceModel WindSpec WindModel WindLemmas ArrModel PixModel GeoModel PosSpec PosModel.
Ltac Zify.zify_post_hook ::= idtac.
Open Scope Q_scope.

Lemma Forall2_nth {A B} (R : A -> B -> Prop) l : forall m, length l = length m -> (forall i x y, nth_error l i = Some x -> nth_error m i = Some y -> R x y) -> Forall2 R l m.
Proof.
  induction l as [|a l IH]; intros [|b m] L H; try discriminate; constructor.
  - apply (H O); reflexivity.
  - apply IH; [injection L; auto|]. intros i x y E1 E2. apply (H (S i)); assumption.
Qed.
Lemma nth_combine {A B} (l : list A) : forall (m : list B) i, nth_error (combine l m) i = match nth_error l i, nth_error m i with Some a, Some b => Some (a, b) | _, _ => None end.
Proof.
  induction l as [|a l IH]; intros m i; [destruct i; reflexivity|]. destruct m as [|b m]; [destruct i; cbn; [reflexivity|destruct (nth_error l i); reflexivity]|]. destruct i as [|i]; [reflexivity|]. exact (IH m i).
Qed.
Lemma nth_map {A B} (f : A -> B) l i : nth_error (map f l) i = option_map f (nth_error l i).
Proof. revert i. induction l as [|a l IH]; intros [|i]; cbn; auto. Qed.
Lemma map_snd_combine {A B} (l : list A) : forall m : list B, length l = length m -> map snd (combine l m) = m.
Proof. induction l as [|a l IH]; intros [|b m] H; try discriminate H; [reflexivity|]. cbn. f_equal. apply IH. injection H; auto. Qed.
Lemma nth_some {A} (l : list A) i : (i < length l)%nat -> exists x, nth_error l i = Some x.
Proof. intros H. destruct (nth_error l i) eqn:E; [eauto|]. apply nth_error_None in E. lia. Qed.
Lemma nth_len {A} (l : list A) i x : nth_error l i = Some x -> (i < length l)%nat.
Proof. intros H. apply nth_error_Some. congruence. Qed.

Lemma tl_pos c : ~ c == 0 -> 0 < turn_len c.
Proof.
  intros H. unfold turn_len. apply Qabs_case; intros K.
  - apply Qle_lteq in K. destruct K as [K|K]; [exact K|]. exfalso. apply (Qeq_sym _ _) in K. assert (E : 360 == 360 / c * c) by (field; exact H). rewrite K in E. discriminate E.
  - apply Qle_lteq in K. destruct K as [K|K]; [lra|]. exfalso. assert (E : 360 == 360 / c * c) by (field; exact H). rewrite K in E. discriminate E.
Qed.
Lemma tl_turn c k : exists k', 360 / c * inject_Z k == inject_Z k' * turn_len c.
Proof.
  unfold turn_len. apply Qabs_case; intros _; [exists k|exists (- k)%Z; rewrite inject_Z_opp]; ring.
Qed.
Lemma same_angle_sym p a b : same_angle p a b -> same_angle p b a.
Proof. intros [k H]. exists (- k)%Z. rewrite H, inject_Z_opp. ring. Qed.
Lemma same_angle_eq p a b : a == b -> same_angle p a b.
Proof. intros H. exists 0%Z. rewrite H. change (inject_Z 0) with 0. ring. Qed.
Lemma same_angle_plus p a b c : same_angle p a b -> same_angle p (a + c) (b + c).
Proof. intros [k H]. exists k. rewrite H. ring. Qed.
Lemma rewind_uniq ref p a b : 0 < p -> same_angle p a b -> within (ref - p / 2) (ref + p / 2) b -> rewind ref p a == b.
Proof.
  intros Hp Ha Hb. destruct (rewind_spec ref p a Hp) as [H1 H2]. assert (E : ref - p / 2 + p == ref + p / 2) by field. apply (same_angle_unique p (ref - p / 2)); auto.
  - apply (same_angle_trans p _ a); [apply same_angle_sym, H1|exact Ha].
  - destruct H2. split; [assumption|]. now rewrite E.
  - destruct Hb. split; [assumption|]. now rewrite E.
Qed.
(* a list of angles that follow f closely, unwound, is f up to one constant number of turns *)
Lemma turns_small p d m : 0 < p -> Qabs d < p / 2 -> Qabs (d + inject_Z m * p) <= p / 2 -> m = 0%Z.
Proof.
  intros Hp Hd H. apply Qabs_Qle_condition in H. apply Qabs_Qlt_condition in Hd. destruct H as [H1 H2], Hd as [D1 D2].
  destruct (Z.lt_trichotomy m 0) as [L|[E|G]]; [|exact E|]; exfalso.
  - assert (K : inject_Z m * p <= (- (1)) * p). { apply Qmult_le_compat_r; [|apply Qlt_le_weak, Hp]. change (- (1)) with (inject_Z (-1)). rewrite <- Zle_Qle. lia. } generalize dependent (inject_Z m * p). assert (P2 : p / 2 == p * (1 # 2)) by reflexivity. rewrite P2 in *. intros; lra.
  - assert (K : 1 * p <= inject_Z m * p). { apply Qmult_le_compat_r; [|apply Qlt_le_weak, Hp]. change 1 with (inject_Z 1). rewrite <- Zle_Qle. lia. } generalize dependent (inject_Z m * p). assert (P2 : p / 2 == p * (1 # 2)) by reflexivity. rewrite P2 in *. intros; lra.
Qed.
Lemma turns_lt p m : 0 < p -> Qabs (inject_Z m * p) < p -> m = 0%Z.
Proof.
  intros Hp Hd. apply Qabs_Qlt_condition in Hd. destruct Hd as [D1 D2].
  destruct (Z.lt_trichotomy m 0) as [L|[E|G]]; [|exact E|]; exfalso.
  - assert (K : inject_Z m * p <= (- (1)) * p). { apply Qmult_le_compat_r; [|apply Qlt_le_weak, Hp]. change (- (1)) with (inject_Z (-1)). rewrite <- Zle_Qle. lia. } generalize dependent (inject_Z m * p). intros; lra.
  - assert (K : 1 * p <= inject_Z m * p). { apply Qmult_le_compat_r; [|apply Qlt_le_weak, Hp]. change 1 with (inject_Z 1). rewrite <- Zle_Qle. lia. } generalize dependent (inject_Z m * p). intros; lra.
Qed.
Lemma no_jump_const (p : Q) (out : list Q) (f : nat -> Q) : 0 < p -> no_jump (p / 2) out ->
  (forall i y, nth_error out i = Some y -> same_angle p (f i) y) -> (forall i, (S i < length out)%nat -> Qabs (f (S i) - f i) < p / 2) ->
  exists k, forall i y, nth_error out i = Some y -> y == f i + inject_Z k * p.
Proof.
  intros Hp NJ SA SL. destruct (nth_error out 0) as [y0|] eqn:E0.
  2:{ exists 0%Z. intros i y E. apply nth_len in E. apply nth_error_None in E0. lia. }
  destruct (SA O y0 E0) as [k Hk]. exists k. induction i as [|i IH]; intros y E.
  - rewrite E0 in E. injection E as <-. exact Hk.
  - pose proof (nth_len _ _ _ E) as L. destruct (nth_some out i ltac:(lia)) as [z Ez]. specialize (IH z Ez). pose proof (NJ i z y Ez E) as J. destruct (SA (S i) y E) as [k' Hk'].
    assert (M : (k' - k)%Z = 0%Z).
    { apply (turns_small p (f (S i) - f i)); [exact Hp|apply SL, L|]. rewrite Hk', IH in J. unfold Z.sub. rewrite inject_Z_plus, inject_Z_opp.
      setoid_replace (f (S i) - f i + (inject_Z k' + - inject_Z k) * p) with (f (S i) + inject_Z k' * p - (f i + inject_Z k * p)) by ring. exact J. }
    rewrite Hk'. replace k' with k by lia. reflexivity.
Qed.

(* pix2sky, point by point *)
Lemma p2s_len plain safe corner turn w pix : length (pix2sky plain safe corner turn w pix) = length pix.
Proof.
  unfold pix2sky. cbv zeta. rewrite combine_length, !map_length. destruct (safe && negb plain); [|rewrite !map_length; apply Nat.min_id].
  destruct (unwind_spec RMiddle 0 360 (map (fun p => sky_x w (snd p) + (if plain then 0 else 360 * inject_Z (turn (fst p) (snd p)))) (map (fun p => (fst p - half corner, snd p - half corner)) pix)) ltac:(reflexivity)) as (L & _).
  cbv zeta in L. rewrite L, !map_length. apply Nat.min_id.
Qed.
Lemma p2s_nth plain safe corner turn w pix i y x : nth_error pix i = Some (y, x) ->
  exists d r, nth_error (pix2sky plain safe corner turn w pix) i = Some (d, r) /\ d = sky_y w (y - half corner) /\
  if plain then r == sky_x w (x - half corner) else same_angle 360 (sky_x w (x - half corner)) r.
Proof.
  intros E. unfold pix2sky. cbv zeta. set (ra := map (fun p => sky_x w (snd p) + (if plain then 0 else 360 * inject_Z (turn (fst p) (snd p)))) (map (fun p => (fst p - half corner, snd p - half corner)) pix)).
  assert (Er : nth_error ra i = Some (sky_x w (x - half corner) + (if plain then 0 else 360 * inject_Z (turn (y - half corner) (x - half corner))))) by (unfold ra; rewrite !nth_map, E; reflexivity).
  rewrite nth_combine, !nth_map, E. cbn [option_map fst snd]. destruct (safe && negb plain) eqn:S.
  - apply andb_true_iff in S. destruct S as [_ S]. apply negb_true_iff in S. subst plain. destruct (unwind_spec RMiddle 0 360 ra ltac:(reflexivity)) as (_ & H & _). cbv zeta in H. destruct (H i _ Er) as (r & E' & SA). rewrite E'.
    eexists. eexists. split; [reflexivity|]. split; [reflexivity|]. apply (same_angle_trans 360 _ (sky_x w (x - half corner) + 360 * inject_Z (turn (y - half corner) (x - half corner)))); [|exact SA]. eexists. rewrite Qmult_comm. reflexivity.
  - rewrite Er. eexists. eexists. split; [reflexivity|]. split; [reflexivity|]. destruct plain; [ring|]. eexists. rewrite Qmult_comm. reflexivity.
Qed.
Lemma s2p_sky crval crpix cdelt p : ~ cdelt == 0 -> s2p crval crpix cdelt (sky_at crval crpix cdelt p) == p.
Proof. intros H. unfold s2p, sky_at. field. exact H. Qed.
Lemma s2p_angle crval crpix cdelt a b : ~ cdelt == 0 -> same_angle 360 a b -> same_angle (turn_len cdelt) (s2p crval crpix cdelt a) (s2p crval crpix cdelt b).
Proof.
  intros H [k Hk]. destruct (tl_turn cdelt k) as [k' E]. exists k'. rewrite <- E. unfold s2p. rewrite Hk. field. exact H.
Qed.
(* sky2pix, point by point *)
Lemma axis_len plain safe corner n cdelt wp : ~ cdelt == 0 -> length (sky2pix_axis plain safe corner n cdelt wp) = length wp.
Proof.
  intros H. unfold sky2pix_axis. destruct ((safe =? 0)%Z || plain); [apply map_length|]. destruct (safe =? 1)%Z; [rewrite !map_length; reflexivity|].
  destruct (unwind_spec RLeft (inject_Z n / 2 + half corner) (Qabs (360 / cdelt)) (map (fun p => p + half corner) wp) (tl_pos _ H)) as (L & _). cbv zeta in L. rewrite L. apply map_length.
Qed.
Lemma s2p_len plain safe corner turn' shape w cs : ~ cdelt_x w == 0 -> ~ cdelt_y w == 0 -> length (sky2pix plain safe corner turn' shape w cs) = length cs.
Proof. intros Hx Hy. unfold sky2pix. cbv zeta. rewrite combine_length, !axis_len, !map_length by assumption. apply Nat.min_id. Qed.
Lemma axis_plain safe corner n cdelt wp : sky2pix_axis true safe corner n cdelt wp = map (fun p => p + half corner) wp.
Proof. unfold sky2pix_axis. rewrite orb_true_r. reflexivity. Qed.
Lemma axis_safe corner n cdelt wp : sky2pix_axis false 1 corner n cdelt wp = map (rewind (inject_Z n / 2 + half corner) (turn_len cdelt)) (map (fun p => p + half corner) wp).
Proof. reflexivity. Qed.

(* the pixel of a position: unique near the reference point *)
Lemma s2p_at (plain : bool) corner turn' shape w cs i c y x : ~ cdelt_x w == 0 -> ~ cdelt_y w == 0 -> nth_error cs i = Some c ->
  (if plain then fst c == sky_y w (y - half corner) /\ snd c == sky_x w (x - half corner) else same_dir c (sky_y w (y - half corner), sky_x w (x - half corner)) /\ near_ref (cdelt_y w) (ref_pix (fst shape) corner) y /\ near_ref (cdelt_x w) (ref_pix (snd shape) corner) x) ->
  exists q, nth_error (sky2pix plain 1 corner turn' shape w cs) i = Some q /\ same_pair q (y, x).
Proof.
  intros Hx Hy E H. unfold sky2pix. cbv zeta. rewrite nth_combine. destruct c as [d r]. cbn [fst snd] in H.
  assert (Y0 : s2p (crval_y w) (crpix_y w) (cdelt_y w) (sky_y w (y - half corner)) + half corner == y) by (unfold sky_y; rewrite s2p_sky by exact Hy; ring).
  assert (X0 : s2p (crval_x w) (crpix_x w) (cdelt_x w) (sky_x w (x - half corner)) + half corner == x) by (unfold sky_x; rewrite s2p_sky by exact Hx; ring).
  destruct plain.
  - rewrite !axis_plain, !nth_map, E. cbn [option_map fst snd]. destruct H as [H1 H2]. eexists. split; [reflexivity|]. split; cbn [fst snd].
    + rewrite <- Y0. unfold s2p. rewrite H1. reflexivity.
    + rewrite <- X0. unfold s2p. rewrite H2. ring.
  - destruct H as ((H1 & H2) & W1 & W2). cbn [fst snd] in H1, H2. rewrite !axis_safe, !nth_map, E. cbn [option_map fst snd]. eexists. split; [reflexivity|]. split; cbn [fst snd].
    + apply rewind_uniq; [apply tl_pos, Hy| |exact W1]. apply same_angle_eq. rewrite <- Y0. unfold s2p. rewrite H1. reflexivity.
    + apply rewind_uniq; [apply tl_pos, Hx| |exact W2]. apply (same_angle_trans _ _ (s2p (crval_x w) (crpix_x w) (cdelt_x w) r + half corner)).
      * destruct (tl_turn (cdelt_x w) (turn' d r)) as [k Ek]. exists (- k)%Z. rewrite inject_Z_opp. rewrite Ek. ring.
      * apply (same_angle_trans _ _ (s2p (crval_x w) (crpix_x w) (cdelt_x w) (sky_x w (x - half corner)) + half corner)); [|apply same_angle_eq, X0].
        apply same_angle_plus, s2p_angle; assumption.
Qed.

Lemma nth_zrange a b i : (a + Z.of_nat i < b)%Z -> nth_error (zrange a b) i = Some (a + Z.of_nat i)%Z.
Proof.
  assert (G : forall n a i, (i < n)%nat -> nth_error (zseq a n) i = Some (a + Z.of_nat i)%Z).
  { induction n as [|n IH]; intros c m L; [lia|]. destruct m as [|m]; cbn [zseq nth_error]; [f_equal; lia|]. rewrite IH by lia. f_equal. lia. }
  intros H. unfold zrange. apply G. lia.
Qed.
Lemma len_zrange a b : length (zrange a b) = Z.to_nat (b - a).
Proof. pose proof (zrange_zlen a b) as H. unfold zlen in H. lia. Qed.
Lemma blocks_zrange {A} (row : Z -> A) s n : (0 < s)%Z -> (0 <= n)%Z ->
  concat (map (fun k => map row (zrange (k * s) (Z.min (k * s + s) n))) (zrange 0 ((n + s - 1) / s))) = map row (zrange 0 n).
Proof.
  intros Hs Hn. assert (K0 : (0 <= (n + s - 1) / s)%Z) by (apply Z.div_pos; lia).
  assert (G : forall K, (0 <= K)%Z -> concat (map (fun k => map row (zrange (k * s) (Z.min (k * s + s) n))) (zrange 0 K)) = map row (zrange 0 (Z.min (K * s) n))).
  { apply natlike_ind; [rewrite !zrange_empty by lia; reflexivity|]. intros K HK IH. change (Z.succ K) with (K + 1)%Z. rewrite zrange_snoc by lia. rewrite map_app, concat_app, IH. cbn [map concat]. rewrite app_nil_r, <- map_app. f_equal.
    replace ((K + 1) * s)%Z with (K * s + s)%Z by ring. assert (0 <= K * s)%Z by nia. destruct (Z.le_gt_cases (K * s) n).
    - rewrite (Z.min_l (K * s) n) by lia. symmetry. apply zrange_split. lia.
    - rewrite (zrange_empty (K * s)) by lia. rewrite app_nil_r. f_equal. lia. }
  rewrite G by exact K0. f_equal. f_equal. apply Z.min_r. pose proof (Z.div_mod (n + s - 1) s ltac:(lia)). pose proof (Z.mod_pos_bound (n + s - 1) s Hs). lia.
Qed.

(* a row of pix2sky follows the map: one number of turns, fixed by the middle pixel *)
Lemma row_sky (plain corner : bool) turn w y n k : plain = true /\ k = 0%Z \/ plain = false /\ Qabs (cdelt_x w) < 180 /\ within (-180) 180 (sky_x w (inject_Z (n / 2) - half corner) + 360 * inject_Z k) ->
  let row := pix2sky plain true corner turn w (map (fun x => (y, inject_Z x)) (zrange 0 n)) in
  length row = Z.to_nat n /\ forall x, (0 <= x < n)%Z -> exists d r, nth_error row (Z.to_nat x) = Some (d, r) /\ d = sky_y w (y - half corner) /\ r == sky_x w (inject_Z x - half corner) + 360 * inject_Z k.
Proof.
  intros H. cbv zeta. assert (LEN : length (pix2sky plain true corner turn w (map (fun x => (y, inject_Z x)) (zrange 0 n))) = Z.to_nat n) by (rewrite p2s_len, map_length, len_zrange; f_equal; lia).
  split; [exact LEN|]. intros x Hx.
  assert (P : forall i, (Z.of_nat i < n)%Z -> nth_error (map (fun x => (y, inject_Z x)) (zrange 0 n)) i = Some (y, inject_Z (Z.of_nat i))) by (intros i Hi; rewrite nth_map, nth_zrange by lia; reflexivity).
  destruct (p2s_nth plain true corner turn w _ _ _ _ (P (Z.to_nat x) ltac:(lia))) as (d & r & E & Ed & Er). exists d, r. split; [exact E|]. split; [exact Ed|]. rewrite Z2Nat.id in Er by lia.
  destruct H as [[-> ->]|(-> & S & W)]; [rewrite Er; change (inject_Z 0) with 0; ring|].
  set (ra := map snd (pix2sky false true corner turn w (map (fun x => (y, inject_Z x)) (zrange 0 n)))).
  assert (U : exists ra0, length ra0 = Z.to_nat n /\ ra = unwind RMiddle 0 360 ra0).
  { unfold ra, pix2sky. cbv zeta. cbn [andb negb]. eexists. split; [|apply map_snd_combine]. 2:{
      match goal with |- _ = length (unwind _ _ _ ?l) => destruct (unwind_spec RMiddle 0 360 l ltac:(reflexivity)) as (L & _); cbv zeta in L; rewrite L end. rewrite !map_length. reflexivity. }
    rewrite !map_length, len_zrange. f_equal. lia. }
  destruct U as (ra0 & L0 & EU). destruct (unwind_spec RMiddle 0 360 ra0 ltac:(reflexivity)) as (L1 & _ & NJ & MID). cbv zeta in *. rewrite <- EU in *.
  assert (NTH : forall i v, nth_error ra i = Some v -> same_angle 360 (sky_x w (inject_Z (Z.of_nat i) - half corner)) v).
  { intros i v Ev. pose proof (nth_len _ _ _ Ev) as Li. destruct (p2s_nth false true corner turn w _ _ _ _ (P i ltac:(lia))) as (d' & r' & E' & _ & SA). unfold ra in Ev. rewrite nth_map, E' in Ev. cbn in Ev. injection Ev as <-. exact SA. }
  destruct (no_jump_const 360 ra (fun i => sky_x w (inject_Z (Z.of_nat i) - half corner)) ltac:(reflexivity) NJ NTH) as [k' K].
  { intros i Hi. rewrite Nat2Z.inj_succ. unfold Z.succ. rewrite inject_Z_plus. change (inject_Z 1) with 1. unfold sky_x, sky_at. setoid_replace (crval_x w + cdelt_x w * (inject_Z (Z.of_nat i) + 1 - half corner + 1 - crpix_x w) - (crval_x w + cdelt_x w * (inject_Z (Z.of_nat i) - half corner + 1 - crpix_x w))) with (cdelt_x w) by ring. setoid_replace (360 / 2) with 180 by reflexivity. exact S. }
  assert (E2 : nth_error ra (Z.to_nat x) = Some r) by (unfold ra; rewrite nth_map, E; reflexivity).
  assert (KK : k' = k).
  { set (i := Nat.div (length ra0) 2). assert (Hi : (i < length ra)%nat) by (rewrite L1; unfold i; apply Nat.div_lt; lia).
    destruct (nth_some ra i Hi) as [v Ev]. specialize (MID i v eq_refl Ev). specialize (K i v Ev). cbv beta in K.
    assert (Z.of_nat i = (n / 2)%Z) as Ei by (unfold i; rewrite Nat2Z.inj_div, L0, Z2Nat.id by lia; reflexivity). rewrite Ei in K.
    set (s := sky_x w (inject_Z (n / 2) - half corner)) in *. destruct MID as [M1 M2], W as [W1 W2]. rewrite K in M1, M2.
    assert (k' - k = 0)%Z; [|lia]. apply (turns_lt 360); [reflexivity|]. unfold Z.sub. rewrite inject_Z_plus, inject_Z_opp.
    assert (T : 360 / 2 == 180) by reflexivity. rewrite T in *. generalize dependent (inject_Z k'). generalize dependent (inject_Z k). clear. intros. apply Qabs_Qlt_condition. split; lra. }
  subst k'. rewrite (K _ _ E2). cbv beta. rewrite Z2Nat.id by lia. ring.
Qed.

Lemma sky_angle crval crpix cdelt a b : ~ cdelt == 0 -> same_angle (turn_len cdelt) a b -> same_angle 360 (sky_at crval crpix cdelt a) (sky_at crval crpix cdelt b).
Proof.
  intros H [k E]. assert (T : exists k', inject_Z k * turn_len cdelt * cdelt == inject_Z k' * 360).
  { unfold turn_len. apply Qabs_case; intros _; [exists k|exists (- k)%Z; rewrite inject_Z_opp]; field; exact H. }
  destruct T as [k' T]. exists k'. rewrite <- T. unfold sky_at. rewrite E. ring.
Qed.
Lemma near_unique cdelt ref a b : ~ cdelt == 0 -> same_angle (turn_len cdelt) a b -> near_ref cdelt ref a -> near_ref cdelt ref b -> a == b.
Proof.
  intros H S [A1 A2] [B1 B2]. assert (E : ref - turn_len cdelt / 2 + turn_len cdelt == ref + turn_len cdelt / 2) by field.
  apply (same_angle_unique (turn_len cdelt) (ref - turn_len cdelt / 2)); [apply tl_pos, H|exact S|split; [assumption|]|split; [assumption|]]; rewrite E; assumption.
Qed.
Lemma axis_any (plain : bool) mode corner n cdelt wp i v q : ~ cdelt == 0 -> nth_error wp i = Some v -> nth_error (sky2pix_axis plain mode corner n cdelt wp) i = Some q ->
  if plain then q = v + half corner else same_angle (turn_len cdelt) (v + half corner) q.
Proof.
  intros H Ev Eq. unfold sky2pix_axis in Eq. assert (M : nth_error (map (fun p => p + half corner) wp) i = Some (v + half corner)) by (rewrite nth_map, Ev; reflexivity). destruct plain.
  - rewrite orb_true_r in Eq. congruence.
  - rewrite orb_false_r in Eq. destruct (mode =? 0)%Z; [rewrite M in Eq; injection Eq as <-; apply same_angle_eq; reflexivity|]. cbv zeta in Eq. destruct (mode =? 1)%Z.
    + rewrite nth_map, M in Eq. injection Eq as <-. apply (rewind_spec _ _ _ (tl_pos _ H)).
    + destruct (unwind_spec RLeft (inject_Z n / 2 + half corner) (turn_len cdelt) (map (fun p => p + half corner) wp) (tl_pos _ H)) as (_ & U & _). cbv zeta in U. destruct (U i _ M) as (q' & E' & S). unfold turn_len in E'. rewrite E' in Eq. injection Eq as <-. exact S.
Qed.
Lemma s2p_any (plain : bool) mode corner turn' shape w pos i d r y x : ~ cdelt_x w == 0 -> ~ cdelt_y w == 0 -> nth_error pos i = Some (d, r) -> nth_error (sky2pix plain mode corner turn' shape w pos) i = Some (y, x) ->
  (if plain then y == s2p (crval_y w) (crpix_y w) (cdelt_y w) d + half corner else same_angle (turn_len (cdelt_y w)) (s2p (crval_y w) (crpix_y w) (cdelt_y w) d + half corner) y) /\
  (if plain then x == s2p (crval_x w) (crpix_x w) (cdelt_x w) r + half corner else same_angle (turn_len (cdelt_x w)) (s2p (crval_x w) (crpix_x w) (cdelt_x w) r + half corner) x).
Proof.
  intros Hx Hy Ep E. unfold sky2pix in E. cbv zeta in E. rewrite nth_combine in E. set (py := map _ pos) in E at 1. set (px := map _ pos) in E.
  destruct (nth_error (sky2pix_axis plain mode corner (fst shape) (cdelt_y w) py) i) as [y'|] eqn:EY; [|discriminate E]. destruct (nth_error (sky2pix_axis plain mode corner (snd shape) (cdelt_x w) px) i) as [x'|] eqn:EX; [|discriminate E]. injection E as -> ->.
  assert (PY : nth_error py i = Some (s2p (crval_y w) (crpix_y w) (cdelt_y w) d)) by (unfold py; rewrite nth_map, Ep; reflexivity).
  assert (PX : nth_error px i = Some (s2p (crval_x w) (crpix_x w) (cdelt_x w) r + (if plain then 0 else 360 / cdelt_x w * inject_Z (turn' d r)))) by (unfold px; rewrite nth_map, Ep; reflexivity).
  pose proof (axis_any _ _ _ _ _ _ _ _ _ Hy PY EY) as AY. pose proof (axis_any _ _ _ _ _ _ _ _ _ Hx PX EX) as AX. destruct plain.
  - split; [rewrite AY; reflexivity|]. rewrite AX. ring.
  - split; [exact AY|]. apply (same_angle_trans _ _ (s2p (crval_x w) (crpix_x w) (cdelt_x w) r + 360 / cdelt_x w * inject_Z (turn' d r) + half corner)); [|exact AX]. destruct (tl_turn (cdelt_x w) (turn' d r)) as [k Ek]. exists k. rewrite <- Ek. ring.
Qed.
Lemma Qleb_lt a b : Qle_bool a b = false <-> b < a.
Proof.
  split; intros H.
  - apply Qnot_le_lt. intros K. apply Qle_bool_iff in K. congruence.
  - destruct (Qle_bool a b) eqn:E; [|reflexivity]. apply Qle_bool_iff in E. exfalso. apply (Qlt_not_le _ _ H E).
Qed.
Lemma Forall2_one {A B} (R : A -> B -> Prop) a l : Forall2 R [a] l -> exists b, l = [b] /\ R a b.
Proof. intros H. inversion H as [|x y l1 l2 H1 H2]; subst. inversion H2; subst. eauto. Qed.
(* the ten points of skybox2pixbox along one axis *)
Lemma axis_box corner n crval crpix cdelt a b wp : ~ cdelt == 0 -> Qabs (b - a) < 1620 -> length wp = 10%nat ->
  (forall i v, nth_error wp i = Some v -> same_angle (turn_len cdelt) (s2p crval crpix cdelt (linspace a b i)) v) ->
  exists p q, nth_error (sky2pix_axis false 2 corner n cdelt wp) 0 = Some p /\ nth_error (sky2pix_axis false 2 corner n cdelt wp) 9 = Some q /\
  near_ref cdelt (ref_pix n corner) p /\ same_angle (turn_len cdelt) (s2p crval crpix cdelt a + half corner) p /\ q - p == (b - a) / cdelt.
Proof.
  intros H L LW SA. pose proof (tl_pos _ H) as TP. unfold sky2pix_axis. cbn [Z.eqb orb]. cbv zeta. set (wp' := map (fun p => p + half corner) wp).
  destruct (unwind_spec RLeft (inject_Z n / 2 + half corner) (turn_len cdelt) wp' TP) as (L1 & U & NJ & REF). cbv zeta in *. fold (turn_len cdelt). set (out := unwind RLeft (inject_Z n / 2 + half corner) (turn_len cdelt) wp') in *.
  assert (LO : length out = 10%nat) by (rewrite L1; unfold wp'; rewrite map_length; exact LW).
  destruct (no_jump_const (turn_len cdelt) out (fun i => s2p crval crpix cdelt (linspace a b i) + half corner) TP NJ) as [k K].
  - intros i y Ey. pose proof (nth_len _ _ _ Ey) as Li. destruct (nth_some wp i ltac:(lia)) as [v Ev]. destruct (U i (v + half corner)) as (y' & Ey' & S); [unfold wp'; rewrite nth_map, Ev; reflexivity|]. rewrite Ey' in Ey. injection Ey as <-.
    apply (same_angle_trans _ _ (v + half corner)); [apply same_angle_plus, SA, Ev|exact S].
  - intros i Hi. assert (E : s2p crval crpix cdelt (linspace a b (S i)) + half corner - (s2p crval crpix cdelt (linspace a b i) + half corner) == (b - a) / 9 * (/ cdelt)).
    { unfold s2p, linspace. rewrite Nat2Z.inj_succ. unfold Z.succ. rewrite inject_Z_plus. change (inject_Z 1) with 1. field. exact H. }
    rewrite E. assert (ET : turn_len cdelt / 2 == 180 * Qabs (/ cdelt)). { unfold turn_len, Qdiv at 2. rewrite Qabs_Qmult. change (Qabs 360) with 360. field. }
    rewrite ET, Qabs_Qmult. apply Qmult_lt_r.
    + apply Qabs_case; intros C; apply Qle_lteq in C; destruct C as [C|C]; try lra; exfalso; assert (X : 1 == cdelt * / cdelt) by (field; exact H); [rewrite <- C in X|rewrite C in X]; rewrite Qmult_0_r in X; discriminate X.
    + unfold Qdiv. rewrite Qabs_Qmult. change (Qabs (/ 9)) with (1 # 9). lra.
  - destruct (nth_some out 0 ltac:(lia)) as [p Ep]. destruct (nth_some out 9 ltac:(lia)) as [q Eq]. exists p, q. split; [exact Ep|]. split; [exact Eq|]. split; [exact (REF O p eq_refl Ep)|].
    assert (E0 : linspace a b 0 == a) by (unfold linspace; cbn [Z.of_nat]; change (inject_Z 0) with 0; field). assert (E9 : linspace a b 9 == b) by (unfold linspace; change (inject_Z (Z.of_nat 9)) with 9; field). split.
    + exists k. rewrite (K _ _ Ep). unfold s2p. rewrite E0. reflexivity.
    + rewrite (K _ _ Ep), (K _ _ Eq). unfold s2p. rewrite E0, E9. field. exact H.
Qed.
Lemma floor_at p i : inject_Z i <= p -> p < inject_Z i + 1 -> Qfloor p = i.
Proof.
  intros A B. pose proof (Qfloor_le p). pose proof (Qlt_floor p). rewrite inject_Z_plus in *. change (inject_Z 1) with 1 in *.
  assert (inject_Z (Qfloor p) < inject_Z (i + 1)) as L by (rewrite inject_Z_plus; change (inject_Z 1) with 1; lra). assert (inject_Z i < inject_Z (Qfloor p + 1)) as M by (rewrite inject_Z_plus; change (inject_Z 1) with 1; lra).
  rewrite <- Zlt_Qlt in L, M. lia.
Qed.
