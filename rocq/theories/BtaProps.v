From Coq Require Import List ZArith QArith Qabs Qround Qminmax Lia Lqa.
From Verif Require Import WindSpec WindModel WindLemmas WindProps BtaSpec BtaModel.
Import ListNotations.
Open Scope Q_scope.
Ltac Zify.zify_post_hook ::= idtac.

Lemma lt_bool_spec a b : lt_bool a b = true <-> a < b.
Proof.
  unfold lt_bool. destruct (Qle_bool b a) eqn:E; cbn [negb]; split; intros H; try congruence.
  - apply Qle_bool_iff in E. lra.
  - apply Qnot_le_lt. intros L. apply Qle_bool_iff in L. congruence.
Qed.
(* C156 *)
Theorem C156_between p lo hi a : 0 < p -> (between_angles a lo hi p = true <-> angle_in p lo hi a).
Proof.
  intros P. unfold between_angles. rewrite Bool.andb_true_iff, Qle_bool_iff, lt_bool_spec. destruct (C23_rewind ((lo + hi) / 2) p a P) as (S & [W1 W2] & U). split.
  - intros [A B]. destruct S as [k K]. exists k. rewrite K in A, B. split; assumption.
  - intros [k [A B]]. assert (H1 : (lo + hi) / 2 == (1 # 2) * lo + (1 # 2) * hi) by field. assert (H2 : p / 2 == (1 # 2) * p) by field. destruct (Qlt_le_dec p (hi - lo)) as [L|L].
    + split; lra.
    + specialize (U (a + inject_Z k * p)). assert (E : a + inject_Z k * p == rewind ((lo + hi) / 2) p a) by (apply U; [exists k; reflexivity|split; lra]). rewrite <- E. split; assumption.
Qed.
(* the signed distance to the nearest whole number *)
Lemma sub_spec x : let d := qmod (x + (1 # 2)) 1 - (1 # 2) in (exists k, x == d + inject_Z k) /\ forall k, Qabs d <= Qabs (x - inject_Z k).
Proof.
  cbv zeta. unfold qmod. set (f := Qfloor ((x + (1 # 2)) / 1)). assert (E : (x + (1 # 2)) / 1 == x + (1 # 2)) by field. pose proof (Qfloor_le ((x + (1 # 2)) / 1)) as F1. pose proof (Qlt_floor ((x + (1 # 2)) / 1)) as F2. fold f in F1, F2. rewrite E in F1, F2. rewrite inject_Z_plus in F2. change (inject_Z 1) with 1 in F2. clearbody f. split.
  - exists f. ring.
  - intros k. assert (A : Qabs (x + (1 # 2) - 1 * inject_Z f - (1 # 2)) <= 1 # 2) by (apply Qabs_Qle_condition; split; lra). destruct (Z.lt_trichotomy f k) as [L|[->|L]].
    + assert (K : inject_Z f + 1 <= inject_Z k) by (change 1 with (inject_Z 1); rewrite <- inject_Z_plus, <- Zle_Qle; lia). pose proof (Qle_Qabs (- (x - inject_Z k))) as Q. rewrite Qabs_opp in Q. lra.
    + assert (EQ : x + (1 # 2) - 1 * inject_Z k - (1 # 2) == x - inject_Z k) by ring. rewrite EQ. lra.
    + assert (K : inject_Z k + 1 <= inject_Z f) by (change 1 with (inject_Z 1); rewrite <- inject_Z_plus, <- Zle_Qle; lia). pose proof (Qle_Qabs (x - inject_Z k)) as Q. lra.
Qed.
Lemma sub_near (le : Q -> Q -> Prop) tol x : (forall a b, a <= b -> le b tol -> le a tol) -> le (Qabs (qmod (x + (1 # 2)) 1 - (1 # 2))) tol <-> near_whole le tol x.
Proof.
  intros M. destruct (sub_spec x) as [[k K] U]. split.
  - intros H. exists k. apply (M _ (Qabs (qmod (x + (1 # 2)) 1 - (1 # 2)))); [|exact H]. rewrite K at 1. assert (E : forall d, d + inject_Z k - inject_Z k == d) by (intros; ring). rewrite E. lra.
  - intros [k' H]. exact (M _ _ (U k') H).
Qed.
(* C157 *)
Theorem C157_hasoff val off tol : hasoff val off tol = true <-> near_whole Qlt tol (val - off).
Proof. unfold hasoff. rewrite lt_bool_spec. apply (sub_near Qlt). intros a b. lra. Qed.
(* a tolerance above one half accepts everything *)
Theorem C157_wide val off tol : (1 # 2) < tol -> hasoff val off tol = true.
Proof.
  intros T. apply C157_hasoff. exists (Qfloor (val - off + (1 # 2))). pose proof (Qfloor_le (val - off + (1 # 2))) as F1. pose proof (Qlt_floor (val - off + (1 # 2))) as F2. rewrite inject_Z_plus in F2. change (inject_Z 1) with 1 in F2. apply Qle_lt_trans with (1 # 2); [|exact T]. apply Qabs_Qle_condition. split; lra.
Qed.

Lemma header_id w1 w2 : pc w1 = identity -> pc w2 = identity -> same_headers (to_header w1) (to_header w2) = Nat.eqb (kind w2) (kind w1).
Proof.
  intros P1 P2. unfold same_headers, to_header. rewrite P1, P2. cbn. rewrite Bool.andb_true_r. destruct (Nat.eqb_spec (kind w2) (kind w1)) as [->|N]; [apply Qeq_bool_iff; reflexivity|]. destruct (Qeq_bool _ _) eqn:E; [|reflexivity]. apply Qeq_bool_iff in E. unfold Qeq in E. cbn [Qnum Qden inject_Z] in E. lia.
Qed.
Lemma max_le a b t : Qmax a b <= t <-> a <= t /\ b <= t.
Proof. split; [intros H; pose proof (Q.le_max_l a b); pose proof (Q.le_max_r a b); split; lra|intros [A B]; now apply Q.max_lub]. Qed.
Lemma axis_forward tol c r1 r2 p1 p2 (i : Z) : ~ c == 0 -> near_whole Qle tol ((r1 - r2) / c - (p1 - p2)) -> exists (i' : Z) x, Qabs (x - inject_Z i') <= tol /\ r2 + c * (x - p2) == r1 + c * (inject_Z i - p1).
Proof.
  intros C [k K]. exists (i + k)%Z, (inject_Z i + ((r1 - r2) / c - (p1 - p2))). split; [|field; exact C]. rewrite inject_Z_plus. assert (E : inject_Z i + ((r1 - r2) / c - (p1 - p2)) - (inject_Z i + inject_Z k) == (r1 - r2) / c - (p1 - p2) - inject_Z k) by ring. now rewrite E.
Qed.
Lemma axis_backward tol c r1 r2 p1 p2 (i i' : Z) x : ~ c == 0 -> Qabs (x - inject_Z i') <= tol -> r2 + c * (x - p2) == r1 + c * (inject_Z i - p1) -> near_whole Qle tol ((r1 - r2) / c - (p1 - p2)).
Proof.
  intros C K E. exists (i' - i)%Z. assert (X : (r1 - r2) / c - (p1 - p2) == x - inject_Z i). { assert (R : r1 - r2 == c * (x - p2) - c * (inject_Z i - p1)) by lra. rewrite R. field. exact C. } rewrite X. unfold Z.sub. rewrite inject_Z_plus, inject_Z_opp. assert (Y : x - inject_Z i - (inject_Z i' + - inject_Z i) == x - inject_Z i') by ring. now rewrite Y.
Qed.
(* C158 for equal pixel sizes and no rotation: compatible just if every centre is at a centre *)
Theorem C158_compatible_partial w1 w2 tol : pc w1 = identity -> pc w2 = identity -> cdelt w1 = cdelt w2 -> ~ fst (cdelt w1) == 0 -> ~ snd (cdelt w1) == 0 -> 0 <= tol ->
  is_compatible w1 w2 tol = true <-> kind w1 = kind w2 /\ centres_match tol w1 w2.
Proof.
  intros P1 P2 C N1 N2 T. unfold is_compatible. rewrite (header_id _ _ P1 P2). destruct (Nat.eqb_spec (kind w2) (kind w1)) as [K|K]; cbn [negb]; [|split; [discriminate|intros [E _]; congruence]].
  assert (Z : lt_bool tol (amax (map2 Qminus (cdelt w1) (cdelt w2)) / amin (cdelt w1)) = false).
  { destruct (lt_bool _ _) eqn:E; [|reflexivity]. apply lt_bool_spec in E. exfalso. rewrite C in E. unfold amax, map2 in E. cbn [fst snd] in E. assert (Z1 : forall x, Qabs (x - x) == 0) by (intros x; assert (Q : x - x == 0) by ring; rewrite Q; reflexivity). rewrite !Z1 in E. assert (Z2 : Qmax 0 0 / amin (cdelt w2) == 0) by (rewrite Q.max_id; unfold Qdiv; ring). rewrite Z2 in E. lra. }
  rewrite Z. cbv zeta. assert (B : forall b : bool, (if b then false else true) = true <-> b <> true) by (intros []; split; congruence). rewrite B, lt_bool_spec. unfold amax. cbn [fst snd map2]. set (s1 := qmod _ _ - _). set (s2 := qmod _ _ - _).
  assert (L : ~ tol < Qmax (Qabs s1) (Qabs s2) <-> Qabs s1 <= tol /\ Qabs s2 <= tol) by (rewrite <- max_le; split; [apply Qnot_lt_le|intros H1 H2; lra]). rewrite L. clear L. subst s1 s2. rewrite !(sub_near Qle) by (intros a b; lra). unfold centres_match, world. rewrite P1, P2, <- C. cbn [identity fst snd]. split.
  - intros [A1 A2]. split; [congruence|]. intros i j. destruct (axis_forward tol _ _ _ _ _ i N1 A1) as (i' & x & X1 & X2). destruct (axis_forward tol _ _ _ _ _ j N2 A2) as (j' & y & Y1 & Y2). exists i', j', x, y. split; [exact X1|]. split; [exact Y1|]. split; lra.
  - intros [_ M]. destruct (M 0%Z 0%Z) as (i' & j' & x & y & X1 & Y1 & X2 & Y2). split; [apply (axis_backward tol _ _ _ _ _ 0%Z i' x N1 X1); lra|apply (axis_backward tol _ _ _ _ _ 0%Z j' y N2 Y1); lra].
Qed.
Definition plain (c : Q) : wcs := {| kind := 1; crval := (0, 0); crpix := (0, 0); cdelt := (c, c); pc := identity |}.
(* pixel sizes that differ within the tolerance drift apart *)
Theorem C158_drift_refuted : is_compatible (plain 1) (plain (1001 # 1000)) (1 # 1000) = true /\ ~ centres_match (1 # 1000) (plain 1) (plain (1001 # 1000)).
Proof.
  split; [reflexivity|]. intros M. destruct (M 500%Z 0%Z) as (i' & j' & x & y & X & _ & E & _). cbn [plain world crval crpix cdelt pc identity fst snd] in E. change (inject_Z 500) with (500 # 1) in E. change (inject_Z 0) with 0 in E. apply Qabs_Qle_condition in X. assert (B1 : inject_Z 499 < inject_Z i') by (change (inject_Z 499) with (499 # 1); lra). assert (B2 : inject_Z i' < inject_Z 500) by (change (inject_Z 500) with (500 # 1); lra). rewrite <- Zlt_Qlt in B1, B2. lia.
Qed.
Definition turned : wcs := {| kind := 1; crval := (0, 0); crpix := (0, 0); cdelt := (1, 1); pc := ((3 # 5, -4 # 5), (4 # 5, 3 # 5)) |}.
(* a rotation that only one of the two headers mentions is not noticed *)
Theorem C158_rotation_refuted : is_compatible turned (plain 1) (1 # 1000) = true /\ is_compatible (plain 1) turned (1 # 1000) = true /\ ~ centres_match (1 # 1000) turned (plain 1).
Proof.
  split; [reflexivity|]. split; [reflexivity|]. intros M. destruct (M 1%Z 0%Z) as (i' & j' & x & y & X & _ & E & _). cbn [plain turned world crval crpix cdelt pc identity fst snd] in E. change (inject_Z 1) with 1 in E. change (inject_Z 0) with 0 in E. apply Qabs_Qle_condition in X. assert (B1 : inject_Z 0 < inject_Z i') by (change (inject_Z 0) with 0; lra). assert (B2 : inject_Z i' < inject_Z 1) by (change (inject_Z 1) with 1; lra). rewrite <- Zlt_Qlt in B1, B2. lia.
Qed.
Print Assumptions C156_between. Print Assumptions C157_hasoff. Print Assumptions C157_wide. Print Assumptions C158_compatible_partial. Print Assumptions C158_drift_refuted. Print Assumptions C158_rotation_refuted.
Example C156_ex : between_angles 359 (-10) 10 360 = true /\ between_angles 359 0 10 360 = false /\ between_angles 370 10 20 360 = true /\ between_angles 20 10 20 360 = false.
Proof. repeat split; reflexivity. Qed.
Example C157_ex : hasoff (173 # 10) (3 # 10) (1 # 1000) = true /\ hasoff (173 # 10) (4 # 10) (1 # 1000) = false.
Proof. split; reflexivity. Qed.
Definition moved (x : Q) : wcs := {| kind := 1; crval := (10, 0); crpix := (x, 7); cdelt := (- (1 # 2), 1 # 2); pc := identity |}.
Example C158_ex : is_compatible (moved 3) (moved 8) (1 # 1000) = true /\ is_compatible (moved 3) (moved (17 # 2)) (1 # 1000) = false.
Proof. split; reflexivity. Qed.
