From Coq Require Import QArith Lqa.
From Verif Require Import Base PolySpec PolyModel SplitModel WcshLemmas.
Open Scope Q_scope.

Definition rel (p v : pt) : pt := (fst v - fst p, snd v - snd p).
Definition crs (p a b : pt) : bool := crosses (rel p a) (rel p b).
Fixpoint par_from (p prev : pt) (l : list pt) : bool :=
  match l with [] => false | v :: l => xorb (crs p prev v) (par_from p v l) end.

Lemma count_par p l : forall prev, (count_from (rel p prev) (map (rel p) l) mod 2 =? 1)%Z = par_from p prev l.
Proof.
  induction l as [|v l IH]; intros prev; [reflexivity|]. cbn [map count_from par_from]. rewrite <- (IH v). fold (crs p prev v).
  set (n := count_from _ _). destruct (crs p prev v); cbn [xorb].
  - pose proof (Z.mod_pos_bound n 2 eq_refl). rewrite Z.add_mod by discriminate. change (1 mod 2)%Z with 1%Z. destruct (Z.eqb_spec (n mod 2) 1) as [E|E]; [rewrite E; reflexivity|]. assert (n mod 2 = 0)%Z as -> by lia. reflexivity.
  - rewrite Z.add_0_l. destruct (_ =? _)%Z; reflexivity.
Qed.
Lemma last_map {A B} (f : A -> B) l d : last (map f l) (f d) = f (last l d).
Proof. induction l as [|x [|y l] IH]; cbn in *; auto. Qed.
Lemma pip_par p a l : point_in_polygon p (a :: l) = par_from p (last (a :: l) a) (a :: l).
Proof.
  unfold point_in_polygon. change (let verts := map (rel p) (a :: l) in (count_from (last verts (0%Q, 0%Q)) verts mod 2 =? 1)%Z = par_from p (last (a :: l) a) (a :: l)). cbv zeta. rewrite <- count_par. do 3 f_equal.
  rewrite <- (last_map (rel p) (a :: l) a). cbn [map]. generalize (map (rel p) l) as m. generalize (rel p a) as x. clear. intros x m. revert x. induction m as [|y m IH]; intros x; [reflexivity|]. cbn [last] in *. destruct m; [reflexivity|]. apply (IH x).
Qed.

(* crossings in terms of the side of the edge *)
Lemma crs_true p a b : crs p a b = true <-> (snd a - snd p) * (snd b - snd p) < 0 /\ 0 < side p a b * (snd b - snd a).
Proof.
  unfold crs, crosses, rel, side. destruct a as [xa ya], b as [xb yb], p as [xp yp]. cbn [fst snd]. rewrite andb_true_iff, !qltb_true.
  set (x1 := xa - xp). set (y1 := ya - yp). set (x2 := xb - xp). set (y2 := yb - yp).
  assert (D : yb - ya == y2 - y1) by (unfold y1, y2; ring). rewrite D. clear D. clearbody x1 y1 x2 y2.
  split; intros [H1 H2]; (split; [exact H1|]).
  - assert (N : ~ y2 - y1 == 0) by nra. set (x := - y1 * (x2 - x1) / (y2 - y1) + x1) in *.
    assert (E : x1 * y2 - x2 * y1 == x * (y2 - y1)) by (unfold x; field; exact N). rewrite E. clearbody x. assert (0 < (y2 - y1) * (y2 - y1)) by nra. nra.
  - assert (N : ~ y2 - y1 == 0) by nra. set (x := - y1 * (x2 - x1) / (y2 - y1) + x1) in *.
    assert (E : x1 * y2 - x2 * y1 == x * (y2 - y1)) by (unfold x; field; exact N). rewrite E in H2. clearbody x. assert (0 < (y2 - y1) * (y2 - y1)) by nra. nra.
Qed.
Lemma crs_sym p a b : crs p a b = crs p b a.
Proof.
  assert (S1 : side p b a == - side p a b) by (unfold side; ring).
  destruct (crs p a b) eqn:E1, (crs p b a) eqn:E2; auto.
  - apply crs_true in E1 as [A B]. assert (X : crs p b a = true); [|congruence]. apply crs_true. rewrite S1. split; nra.
  - apply crs_true in E2 as [A B]. assert (X : crs p a b = true); [|congruence]. apply crs_true. rewrite S1 in B. split; nra.
Qed.
Lemma crs_self p a : crs p a a = false.
Proof. destruct (crs p a a) eqn:E; [|reflexivity]. apply crs_true in E as [A B]. exfalso. nra. Qed.

(* fan decomposition of the parity *)
Definition tri_par (p a b c : pt) : bool := xorb (crs p a b) (xorb (crs p b c) (crs p c a)).
Lemma fan_par p a : forall l v, xorb (crs p (last l v) a) (par_from p v l) =
  xorb (crs p a v) (fold_right xorb false (map (fun t => let '(a, b, c) := t in tri_par p a b c) (fan a (v :: l)))).
Proof.
  induction l as [|w l IH]; intros v.
  - cbn [last par_from fan map fold_right]. rewrite (crs_sym p v a). destruct (crs p a v); reflexivity.
  - assert (L : last (w :: l) v = last l w) by (destruct l as [|z l]; [reflexivity|]; cbn [last]; clear; revert z; induction l as [|y l IHl]; intros z; [reflexivity|]; cbn [last] in *; apply IHl).
    rewrite L. cbn [par_from]. specialize (IH w).
    replace (fan a (v :: w :: l)) with ((a, v, w) :: fan a (w :: l)) by reflexivity. cbn [map fold_right]. unfold tri_par at 1. rewrite (crs_sym p w a).
    set (F := fold_right xorb false _) in *. destruct (crs p (last l w) a), (par_from p w l), (crs p v w), (crs p a w), (crs p a v), F; cbn in *; congruence.
Qed.

(* one triangle *)
Lemma neg_le_true x : negb (Qle_bool x 0) = true <-> 0 < x.
Proof. rewrite negb_true_iff. split; intros H. - apply Qnot_le_lt. intros L. apply Qle_bool_iff in L. congruence. - destruct (Qle_bool x 0) eqn:E; [|reflexivity]. apply Qle_bool_iff in E. lra. Qed.
Lemma neg_ge_true x : negb (Qle_bool 0 x) = true <-> x < 0.
Proof. rewrite negb_true_iff. split; intros H. - apply Qnot_le_lt. intros L. apply Qle_bool_iff in L. congruence. - destruct (Qle_bool 0 x) eqn:E; [|reflexivity]. apply Qle_bool_iff in E. lra. Qed.

Lemma sgn (x : Q) : x < 0 \/ x == 0 \/ 0 < x.
Proof. destruct (Q_dec x 0) as [[H|H]|H]; auto. Qed.
Lemma crs_pos p a b (c : bool) : (if c then 0 < side p a b * (snd b - snd a) else side p a b * (snd b - snd a) <= 0) -> (snd a - snd p) * (snd b - snd p) < 0 -> crs p a b = c.
Proof.
  intros H H1. destruct c; [apply crs_true; auto|]. destruct (crs p a b) eqn:E; [|reflexivity]. apply crs_true in E. lra.
Qed.
Lemma crs_level p a b : 0 <= (snd a - snd p) * (snd b - snd p) -> crs p a b = false.
Proof. intros H. destruct (crs p a b) eqn:E; [|reflexivity]. apply crs_true in E. lra. Qed.
Lemma in_tri_true p a b c : in_triangle p a b c = true <-> (0 < side p a b /\ 0 < side p b c /\ 0 < side p c a) \/ (side p a b < 0 /\ side p b c < 0 /\ side p c a < 0).
Proof. unfold in_triangle. cbv zeta. rewrite orb_true_iff, !andb_true_iff, !neg_le_true, !neg_ge_true. tauto. Qed.

(* a is alone on its side of the horizontal line *)
Lemma tri_case p a b c : ~ side p a b == 0 -> ~ side p c a == 0 ->
  (snd a - snd p) * (snd b - snd p) < 0 -> (snd a - snd p) * (snd c - snd p) < 0 ->
  tri_par p a b c = in_triangle p a b c.
Proof.
  intros N1 N3 H1 H2. set (ya := snd a - snd p) in *. set (yb := snd b - snd p) in *. set (yc := snd c - snd p) in *.
  assert (I0 : ya * side p b c + yb * side p c a + yc * side p a b == 0) by (unfold ya, yb, yc, side; ring).
  assert (Dab : snd b - snd a == yb - ya) by (unfold ya, yb; ring). assert (Dca : snd a - snd c == ya - yc) by (unfold ya, yc; ring).
  assert (Lbc : crs p b c = false) by (apply crs_level; fold yb yc; nra).
  unfold tri_par. rewrite Lbc.
  set (s1 := side p a b) in *. set (s2 := side p b c) in *. set (s3 := side p c a) in *.
  assert (IT : in_triangle p a b c = true <-> (0 < s1 /\ 0 < s2 /\ 0 < s3) \/ (s1 < 0 /\ s2 < 0 /\ s3 < 0)) by apply in_tri_true.
  assert (C1 : forall x, (if x : bool then 0 < s1 * (yb - ya) else s1 * (yb - ya) <= 0) -> crs p a b = x) by (intros x Hx; apply crs_pos; [destruct x; rewrite Dab; exact Hx|exact H1]).
  assert (C3 : forall x, (if x : bool then 0 < s3 * (ya - yc) else s3 * (ya - yc) <= 0) -> crs p c a = x) by (intros x Hx; apply crs_pos; [destruct x; rewrite Dca; exact Hx|fold yc ya; lra]).
  clearbody s1 s2 s3 ya yb yc. clear Dab Dca Lbc.
  destruct (sgn ya) as [Sa|[Sa|Sa]]; [|rewrite Sa in H1; lra|].
  - assert (0 < yb) by nra. assert (0 < yc) by nra.
    destruct (sgn s1) as [S1|[S1|S1]]; [|contradiction|]; destruct (sgn s3) as [S3|[S3|S3]]; try contradiction.
    + rewrite (C1 false), (C3 true) by nra. symmetry. apply IT. right. repeat split; try assumption. nra.
    + rewrite (C1 false), (C3 false) by nra. symmetry. destruct (in_triangle p a b c); [|reflexivity]. destruct (proj1 IT eq_refl) as [X|X]; exfalso; lra.
    + rewrite (C1 true), (C3 true) by nra. symmetry. destruct (in_triangle p a b c); [|reflexivity]. destruct (proj1 IT eq_refl) as [X|X]; exfalso; lra.
    + rewrite (C1 true), (C3 false) by nra. symmetry. apply IT. left. repeat split; try assumption. nra.
  - assert (yb < 0) by nra. assert (yc < 0) by nra.
    destruct (sgn s1) as [S1|[S1|S1]]; [|contradiction|]; destruct (sgn s3) as [S3|[S3|S3]]; try contradiction.
    + rewrite (C1 true), (C3 false) by nra. symmetry. apply IT. right. repeat split; try assumption. nra.
    + rewrite (C1 true), (C3 true) by nra. symmetry. destruct (in_triangle p a b c); [|reflexivity]. destruct (proj1 IT eq_refl) as [X|X]; exfalso; lra.
    + rewrite (C1 false), (C3 false) by nra. symmetry. destruct (in_triangle p a b c); [|reflexivity]. destruct (proj1 IT eq_refl) as [X|X]; exfalso; lra.
    + rewrite (C1 false), (C3 true) by nra. symmetry. apply IT. left. repeat split; try assumption. nra.
Qed.
Lemma in_tri_rot p a b c : in_triangle p a b c = in_triangle p b c a.
Proof. destruct (in_triangle p a b c) eqn:E1, (in_triangle p b c a) eqn:E2; auto; [apply in_tri_true in E1|apply in_tri_true in E2]. - assert (in_triangle p b c a = true) by (apply in_tri_true; tauto). congruence. - assert (in_triangle p a b c = true) by (apply in_tri_true; tauto). congruence. Qed.
Lemma tri_par_rot p a b c : tri_par p a b c = tri_par p b c a.
Proof. unfold tri_par. destruct (crs p a b), (crs p b c), (crs p c a); reflexivity. Qed.

Lemma crs_ext p a a' b : fst a == fst a' -> snd a == snd a' -> crs p a b = crs p a' b.
Proof.
  intros E1 E2. assert (S0 : side p a b == side p a' b) by (unfold side; rewrite E1, E2; reflexivity).
  destruct (crs p a b) eqn:X, (crs p a' b) eqn:Y; auto; [apply crs_true in X|apply crs_true in Y].
  - rewrite S0, E2 in X. apply crs_true in X. congruence.
  - rewrite <- S0, <- E2 in Y. apply crs_true in Y. congruence.
Qed.
(* a triangle with two equal corners *)
Lemma tri_degenerate p a b c : fst a == fst b -> snd a == snd b -> tri_par p a b c = in_triangle p a b c.
Proof.
  intros E1 E2. assert (in_triangle p a b c = false) as ->. { destruct (in_triangle p a b c) eqn:E; [|reflexivity]. apply in_tri_true in E. assert (side p a b == 0) by (unfold side; rewrite E1, E2; ring). lra. }
  unfold tri_par. rewrite (crs_ext p a b b E1 E2), crs_self. rewrite (crs_sym p c a), (crs_ext p a b c E1 E2). destruct (crs p b c); reflexivity.
Qed.

Lemma tri_full p a b c : (forall x y, In x [a; b; c] -> In y [a; b; c] -> side p x y == 0 -> fst x == fst y /\ snd x == snd y) ->
  ~ snd a == snd p -> ~ snd b == snd p -> ~ snd c == snd p -> tri_par p a b c = in_triangle p a b c.
Proof.
  intros G Ya Yb Yc.
  destruct (Qeq_dec (side p a b) 0) as [Z1|Z1]. { destruct (G a b) as [E1 E2]; [cbn; auto|cbn; auto|exact Z1|]. apply tri_degenerate; assumption. }
  destruct (Qeq_dec (side p b c) 0) as [Z2|Z2]. { destruct (G b c) as [E1 E2]; [cbn; auto|cbn; auto|exact Z2|]. rewrite tri_par_rot, in_tri_rot. apply tri_degenerate; assumption. }
  destruct (Qeq_dec (side p c a) 0) as [Z3|Z3]. { destruct (G c a) as [E1 E2]; [cbn; auto|cbn; auto|exact Z3|]. rewrite tri_par_rot, in_tri_rot, tri_par_rot, in_tri_rot. apply tri_degenerate; assumption. }
  destruct (Q_dec (snd a - snd p) 0) as [[Sa|Sa]|Sa]; [| |exfalso; lra]; (destruct (Q_dec (snd b - snd p) 0) as [[Sb|Sb]|Sb]; [| |exfalso; lra]); (destruct (Q_dec (snd c - snd p) 0) as [[Sc|Sc]|Sc]; [| |exfalso; lra]).
  all: try (apply tri_case; [assumption|assumption|nra|nra]).
  all: try (rewrite tri_par_rot, in_tri_rot; apply tri_case; [assumption|assumption|nra|nra]).
  all: try (rewrite tri_par_rot, in_tri_rot, tri_par_rot, in_tri_rot; apply tri_case; [assumption|assumption|nra|nra]).
  all: unfold tri_par; rewrite !crs_level by nra; cbn; symmetry; destruct (in_triangle p a b c) eqn:E; [|reflexivity]; exfalso; apply in_tri_true in E.
  all: assert (I0 : (snd a - snd p) * side p b c + (snd b - snd p) * side p c a + (snd c - snd p) * side p a b == 0) by (unfold side; ring).
  all: destruct E as [(A & B & C)|(A & B & C)]; nra.
Qed.

Lemma pip_inside p poly : generic p poly -> point_in_polygon p poly = inside p poly.
Proof.
  destruct poly as [|a l]; intros [G1 G2]; [reflexivity|]. rewrite pip_par. cbn [inside].
  destruct l as [|v l].
  - cbn [last par_from fan map fold_right]. rewrite crs_self. reflexivity.
  - assert (L : last (a :: v :: l) a = last l v) by (cbn [last]; destruct l as [|w l]; [reflexivity|]; clear; revert w; induction l as [|y l IHl]; intros w; [reflexivity|]; cbn [last] in *; apply IHl).
    rewrite L. cbn [par_from]. pose proof (fan_par p a l v) as FP.
    assert (T : fold_right xorb false (map (fun t => let '(a, b, c) := t in tri_par p a b c) (fan a (v :: l))) = fold_right xorb false (map (fun t => let '(a, b, c) := t in in_triangle p a b c) (fan a (v :: l)))).
    { f_equal. apply map_ext_in. intros [[x y] z] Ht.
      assert (M : x = a /\ In y (v :: l) /\ In z (v :: l)).
      { clear -Ht. revert Ht. generalize (v :: l) as m. induction m as [|b [|c m] IH]; cbn [fan]; try contradiction. intros [E|E]; [injection E as <- <- <-; cbn; auto|]. destruct (IH E) as (A & B & C). cbn in *. tauto. }
      destruct M as (-> & My & Mz). rewrite Forall_forall in G1. apply tri_full.
      - intros x y' Hx Hy. apply G2; cbn in Hx, Hy; [destruct Hx as [<-|[<-|[<-|[]]]]|destruct Hy as [<-|[<-|[<-|[]]]]]; cbn in *; tauto.
      - apply G1. now left.
      - apply G1. now right.
      - apply G1. now right. }
    rewrite <- T. clear T. set (F := fold_right xorb false _) in *. clearbody F. destruct (crs p (last l v) a), (crs p a v), (par_from p v l), F; cbn in *; congruence.
Qed.
