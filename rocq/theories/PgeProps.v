From Coq Require Import Reals List Arith Lia Lra Psatz.
From Verif Require Import RotSpec RotModel RotLemmas SkyrModel PgeSpec PgeModel.
Import ListNotations.
Open Scope R_scope.
Ltac Zify.zify_post_hook ::= idtac.

Ltac vecs := repeat match goal with v : vec |- _ => destruct v as [[? ?] ?] end; unfold dot, scale, addv, cross in *; cbn [fst snd] in *.

Ltac veq := apply f_equal2; [apply f_equal2|]; ring.
Lemma lagrange a b : dot (cross a b) (cross a b) = dot a a * dot b b - dot a b * dot a b.
Proof. vecs. ring. Qed.
Lemma cross_cross a b : dot a a = 1 -> cross (cross a b) a = addv b (scale (- dot a b) a).
Proof.
  intros H. transitivity (addv (scale (dot a a) b) (scale (- dot a b) a)); [|rewrite H; vecs; veq].
  clear H. vecs. veq.
Qed.
Lemma dot_add p a b : dot p (addv a b) = dot p a + dot p b. Proof. vecs. ring. Qed.
Lemma dot_scale p k a : dot p (scale k a) = k * dot p a. Proof. vecs. ring. Qed.
Lemma cross_scale k a b : cross (scale k a) b = scale k (cross a b). Proof. vecs. veq. Qed.
Lemma gram p a b : dot p (cross a b) * dot p (cross a b) =
  dot p p * dot a a * dot b b + 2 * dot p a * dot p b * dot a b - dot p p * dot a b * dot a b - dot a a * dot p b * dot p b - dot b b * dot p a * dot p a.
Proof. vecs. ring. Qed.
Lemma unit_dot a b : dot a a = 1 -> dot b b = 1 -> -1 <= dot a b <= 1.
Proof. intros A B. pose proof (cauchy a b) as C. unfold norm in C. rewrite A, B, sqrt_1 in C. unfold Rabs in C. destruct (Rcase_abs _); lra. Qed.
Lemma clip_id x : -1 <= x <= 1 -> clip (-1) 1 x = x.
Proof. intros H. unfold clip. rewrite Rmax_right, Rmin_right; lra. Qed.

(* angles and their cosines *)
Lemma angle_le d e a b c : angle d a b -> 0 <= e <= PI -> cos e = c -> c <= dot a b -> d <= e.
Proof.
  intros (H1 & H2) E C L. destruct (Rle_or_lt d e) as [|N]; [assumption|]. exfalso. assert (cos d < cos e) by (apply cos_decreasing_1; lra). lra.
Qed.
Lemma angle_ge d e p q : angle e p q -> 0 <= d <= PI -> dot p q <= cos d -> d <= e.
Proof.
  intros (H1 & H2) E L. destruct (Rle_or_lt d e) as [|N]; [assumption|]. exfalso. assert (cos d < cos e) by (apply cos_decreasing_1; lra). lra.
Qed.
Lemma cos_valley x y z : 0 <= x -> x <= y -> y <= z -> z <= 2 * PI -> cos y <= Rmax (cos x) (cos z).
Proof.
  intros. destruct (Rle_or_lt y PI).
  - eapply Rle_trans; [|apply Rmax_l]. apply cos_decr_1; lra.
  - eapply Rle_trans; [|apply Rmax_r]. apply cos_incr_1; lra.
Qed.
Lemma outside_angle a b : -1 <= a <= 1 -> -1 <= b <= 1 -> let d := Rmin (acos a) (acos b) in 0 <= d <= PI /\ cos d = Rmax a b.
Proof.
  intros A B d. pose proof (acos_bound a). pose proof (acos_bound b). pose proof (cos_acos a A). pose proof (cos_acos b B). unfold d, Rmin, Rmax.
  destruct (Rle_dec (acos a) (acos b)) as [L|L]; destruct (Rle_dec a b) as [M|M]; (split; [lra|]); try lra.
  - destruct (Req_dec (acos a) (acos b)) as [E|E]; [rewrite E; lra|]. assert (cos (acos b) < cos (acos a)) by (apply cos_decreasing_1; lra). lra.
  - assert (cos (acos a) < cos (acos b)) by (apply cos_decreasing_1; lra). lra.
Qed.
Lemma arc_ends a b : dot a a = 1 -> dot b b = 1 -> on_arc a b a /\ on_arc a b b.
Proof.
  intros A B. split; (split; [assumption|]).
  - exists 1, 0. repeat split; try lra. vecs. veq.
  - exists 0, 1. repeat split; try lra. vecs. veq.
Qed.
Lemma outside_attained p a b : dot p p = 1 -> dot a a = 1 -> dot b b = 1 -> exists q, on_arc a b q /\ angle (Rmin (acos (dot p a)) (acos (dot p b))) p q.
Proof.
  intros P A B. destruct (arc_ends a b A B) as [Ea Eb]. pose proof (unit_dot p a P A) as Ua. pose proof (unit_dot p b P B) as Ub.
  unfold Rmin. destruct (Rle_dec _ _); [exists a|exists b]; (split; [assumption|]); split; try apply acos_bound; now apply cos_acos.
Qed.

(* one edge *)
Lemma edge_distance p v1 v2 : dot p p = 1 -> dot v1 v1 = 1 -> dot v2 v2 = 1 -> dot v1 v2 <> -1 -> distance_to p (on_arc v1 v2) (edge_dist p v1 v2).
Proof.
  intros P A B N. pose proof (unit_dot p v1 P A) as U1. pose proof (unit_dot p v2 P B) as U2. pose proof (unit_dot v1 v2 A B) as UK. pose proof PI_RGT_0 as HP.
  unfold edge_dist. rewrite !(clip_id (dot p v1)), !(clip_id (dot p v2)) by assumption.
  set (k := dot v1 v2) in *. unfold normalised at 1. rewrite lagrange, A, B. fold k. destruct (Req_EM_T (1 * 1 - k * k) 0) as [Z|NZ].
  - assert (K : k = 1) by nra. split; [now apply outside_attained|].
    assert (E : v1 = v2) by (apply dot_one; assumption). rewrite <- E in *. intros q e (Q & s & t & S & T & ->) An.
    destruct (outside_angle _ _ U1 U1) as [O1 O2]. eapply angle_ge; [exact An|exact O1|]. rewrite O2, dot_add, !dot_scale.
    assert (ST : (s + t) * (s + t) = 1). { rewrite dot_add, !dot_scale, !(dot_comm _ v1), !dot_add, !dot_scale in Q. rewrite A in Q. lra. }
    assert (s + t = 1) by nra. rewrite <- (Rmult_plus_distr_r s t), H, Rmult_1_l. apply Rmax_l.
  - set (c2 := 1 * 1 - k * k) in *. assert (C2 : 0 < c2) by (unfold c2 in *; nra). set (c := sqrt c2). assert (C : 0 < c) by now apply sqrt_lt_R0. assert (CC : c * c = c2) by (apply sqrt_sqrt; lra).
    set (vz := scale (/ c) (cross v1 v2)).
    assert (YY : cross vz v1 = scale (/ c) (addv v2 (scale (- k) v1))) by (unfold vz; rewrite cross_scale, cross_cross by assumption; reflexivity).
    assert (Y1 : dot (cross vz v1) (cross vz v1) = 1).
    { rewrite YY, dot_scale, dot_comm, dot_scale. rewrite dot_add, !dot_scale, !(dot_comm (addv _ _)), !dot_add, !dot_scale, B, A, (dot_comm v2 v1). fold k. replace 1 with (/ c * (/ c * c2)) at 3; [unfold c2; ring|]. rewrite <- CC. field. lra. }
    unfold normalised. rewrite Y1. destruct (Req_EM_T 1 0) as [?|_]; [lra|]. rewrite sqrt_1, Rinv_1. set (vy := scale 1 (cross vz v1)).
    assert (VY : forall x, dot x vy = (dot x v2 - k * dot x v1) / c) by (intros x; unfold vy; rewrite dot_scale, YY, dot_scale, dot_add, dot_scale; field; lra).
    set (a := dot p v1) in *. set (b := dot p v2) in *.
    assert (V2 : dot v2 vy = c). { rewrite VY, B, (dot_comm v2 v1). fold k. replace (1 - k * k) with (c * c) by (rewrite CC; unfold c2; ring). field. lra. }
    assert (V1 : dot v2 v1 = k) by apply dot_comm. rewrite V2, V1.
    set (y := dot p vy) in *. assert (Hb : b = k * a + c * y) by (unfold y; rewrite VY; fold a b; field; lra).
    set (z := dot p vz) in *.
    assert (Hz : a * a + y * y + z * z = 1).
    { assert (c2 * (a * a + y * y + z * z) = c2); [|nra].
      pose proof (gram p v1 v2) as G. rewrite P, A, B in G. fold k a b in G. assert (Z2 : z * c = dot p (cross v1 v2)) by (unfold z, vz; rewrite dot_scale; field; lra). rewrite <- Z2 in G.
      replace (c2 * (a * a + y * y + z * z)) with (c2 * a * a + (c * y) * (c * y) + (z * c) * (z * c)) by (rewrite <- CC; ring). rewrite G.
      replace (c * y) with (b - k * a) by lra. unfold c2. ring. }
    set (phi := atan2 y a). set (ang2 := atan2 c k). set (rho := sqrt (a ^ 2 + y ^ 2)).
    assert (R0 : 0 <= rho) by apply sqrt_pos. assert (RR : rho * rho = a * a + y * y) by (unfold rho; rewrite sqrt_sqrt; [ring|nra]).
    assert (PH : a = rho * cos phi /\ y = rho * sin phi).
    { destruct (Req_EM_T rho 0) as [E|E].
      - assert (a = 0 /\ y = 0) as [-> ->] by (rewrite E in RR; split; nra). rewrite E. lra.
      - destruct (atan2_polar y a) as [Q1 Q2]; [|unfold rho, phi; lra]. destruct (Req_dec a 0) as [Za|]; [|left; assumption]. right. intros Zy. apply E. unfold rho. rewrite Za, Zy. replace (0 ^ 2 + 0 ^ 2) with 0 by ring. apply sqrt_0. }
    destruct PH as [PA PY].
    assert (AN : cos ang2 = k /\ sin ang2 = c).
    { destruct (atan2_polar c k) as [Q1 Q2]; [right; lra|]. replace (k ^ 2 + c ^ 2) with 1 in Q1, Q2 by (replace (c ^ 2) with c2 by (rewrite <- CC; ring); unfold c2; ring). rewrite sqrt_1, !Rmult_1_l in Q1, Q2. split; assumption. }
    destruct AN as [AC AS]. assert (AR : 0 < ang2 < PI).
    { pose proof (atan2_range c k) as [R1 R2]. fold ang2 in R1, R2. pose proof (atan2_upper c k ltac:(lra)) as R3. fold ang2 in R3. split.
      - destruct (Req_dec ang2 0) as [E|]; [|lra]. rewrite E, sin_0 in AS. lra.
      - destruct (Req_dec ang2 PI) as [E|]; [|lra]. rewrite E, sin_PI in AS. lra. }
    assert (PR : - PI < phi <= PI) by apply atan2_range.
    (* points of the arc *)
    assert (ARC : forall q, on_arc v1 v2 q -> exists th, 0 <= th <= ang2 /\ dot p q = rho * cos (th - phi)).
    { intros q (Q & s & t & S & T & ->). set (X := s + t * k). set (Y := t * c).
      assert (XY : X * X + Y * Y = 1).
      { rewrite dot_add, !dot_scale, !(dot_comm (addv _ _)), !dot_add, !dot_scale, A, B, (dot_comm v2 v1) in Q. fold k in Q. unfold X, Y. replace (t * c * (t * c)) with (t * t * c2) by (rewrite <- CC; ring). unfold c2. lra. }
      exists (atan2 Y X). assert (Y0 : 0 <= Y) by (apply Rmult_le_pos; lra).
      destruct (atan2_polar Y X) as [Q1 Q2]. { destruct (Req_dec X 0); [right; intros E; rewrite H, E in XY; lra|left; assumption]. }
      replace (X ^ 2 + Y ^ 2) with 1 in Q1, Q2 by (rewrite <- XY; ring). rewrite sqrt_1, !Rmult_1_l in Q1, Q2. set (th := atan2 Y X) in *.
      pose proof (atan2_upper Y X Y0) as T0. pose proof (atan2_range Y X) as [_ T1]. fold th in T0, T1.
      assert (SN : 0 <= sin (ang2 - th)). { rewrite sin_minus, AC, AS, Q1, Q2. unfold X, Y. replace (c * (s + t * k) - k * (t * c)) with (c * s) by ring. apply Rmult_le_pos; lra. }
      split.
      - split; [exact T0|]. destruct (Rle_or_lt th ang2) as [|L]; [assumption|]. exfalso. assert (sin (ang2 - th) < 0) by (apply sin_lt_0_var; lra). lra.
      - rewrite dot_add, !dot_scale. fold a b. rewrite cos_minus, Q1, Q2, Hb.
        transitivity (X * (rho * cos phi) + Y * (rho * sin phi)); [rewrite <- PA, <- PY; unfold X, Y; ring|ring]. }
    assert (OUT : (phi < 0 \/ ang2 <= phi) -> distance_to p (on_arc v1 v2) (Rmin (acos a) (acos b))).
    { intros O. split; [now apply outside_attained|]. intros q e Q An. destruct (ARC q Q) as (th & Th & D). destruct (outside_angle a b U1 U2) as [O1 O2].
      eapply angle_ge; [exact An|exact O1|]. rewrite O2, D.
      assert (Ba : a = rho * cos (0 - phi)) by (rewrite Rminus_0_l, cos_neg; exact PA).
      assert (Bb : b = rho * cos (ang2 - phi)) by (rewrite cos_minus, AC, AS, Hb, PA, PY; ring).
      assert (V : cos (th - phi) <= Rmax (cos (0 - phi)) (cos (ang2 - phi))).
      { destruct O as [O|O]; [apply cos_valley; lra|].
        rewrite <- (cos_neg (th - phi)), <- (cos_neg (0 - phi)), <- (cos_neg (ang2 - phi)), Rmax_comm. apply cos_valley; lra. }
      rewrite Ba, Bb, RmaxRmult by exact R0. apply Rmult_le_compat_l; assumption. }
    destruct (Rle_dec 0 phi) as [F0|F0]; [destruct (Rlt_dec phi ang2) as [F1|F1]|]; [|apply OUT; right; lra|apply OUT; left; lra].
    (* between *)
    assert (Z1 : -1 <= z <= 1) by (split; nra). rewrite (clip_id z Z1).
    assert (D : 0 <= Rabs (acos z - PI / 2) <= PI /\ cos (Rabs (acos z - PI / 2)) = rho).
    { pose proof (acos_bound z) as Bz. split; [split; [apply Rabs_pos|apply Rabs_le; lra]|].
      assert (E : cos (Rabs (acos z - PI / 2)) = sin (acos z)). { unfold Rabs. destruct (Rcase_abs _); [|rewrite <- cos_neg]; rewrite <- cos_shift; f_equal; ring. }
      rewrite E. assert (S0 : 0 <= sin (acos z)) by (apply sin_ge_0; lra). pose proof (sin2_cos2 (acos z)) as SC. unfold Rsqr in SC. rewrite cos_acos in SC by exact Z1. nra. }
    destruct D as [D1 D2]. split.
    + exists (addv (scale (cos phi - k * sin phi / c) v1) (scale (sin phi / c) v2)). assert (SP : 0 <= sin phi) by (apply sin_ge_0; lra).
      assert (IC : 0 < / c) by now apply Rinv_0_lt_compat.
      split; [split|].
      * rewrite dot_add, !dot_scale, !(dot_comm (addv _ _)), !dot_add, !dot_scale, A, B, (dot_comm v2 v1). fold k.
        transitivity (cos phi * cos phi + (sin phi / c) * (sin phi / c) * (1 * 1 - k * k)); [field; lra|]. fold c2. rewrite <- CC. pose proof (sin2_cos2 phi) as SC. unfold Rsqr in SC. rewrite <- SC. field. lra.
      * exists (cos phi - k * sin phi / c), (sin phi / c). split; [|split; [apply Rmult_le_pos; lra|reflexivity]].
        assert (SN : 0 <= sin (ang2 - phi)) by (apply sin_ge_0; lra). rewrite sin_minus, AC, AS in SN.
        replace (cos phi - k * sin phi / c) with ((c * cos phi - k * sin phi) * / c) by (field; lra). apply Rmult_le_pos; lra.
      * split; [exact D1|]. rewrite D2, dot_add, !dot_scale. fold a b. rewrite Hb.
        transitivity (cos phi * a + sin phi * y); [|field; lra]. rewrite PA, PY at 1. pose proof (sin2_cos2 phi) as SC. unfold Rsqr in SC.
        transitivity (rho * (sin phi * sin phi + cos phi * cos phi)); [rewrite SC; ring|ring].
    + intros q e Q An. destruct (ARC q Q) as (th & Th & E). eapply angle_ge; [exact An|exact D1|]. rewrite D2, E. pose proof (COS_bound (th - phi)). nra.
Qed.

Lemma distance_union p S T d e : distance_to p S d -> distance_to p T e -> distance_to p (fun q => S q \/ T q) (Rmin d e).
Proof.
  intros ((q & Sq & Aq) & LS) ((r & Tr & Ar) & LT). split.
  - unfold Rmin. destruct (Rle_dec d e); [exists q|exists r]; auto.
  - intros x f [X|X] F; [eapply Rle_trans; [apply Rmin_l|]|eapply Rle_trans; [apply Rmin_r|]]; eauto.
Qed.
Lemma distance_iff p S T d : (forall q, S q <-> T q) -> distance_to p S d -> distance_to p T d.
Proof. intros E ((q & Sq & Aq) & L). split; [exists q; split; [now apply E|assumption]|]. intros x f X. apply L. now apply E. Qed.
Lemma fold_distance p (f : nat -> R) (S : nat -> vec -> Prop) l d T : distance_to p T d -> (forall i, In i l -> distance_to p (S i) (f i)) ->
  distance_to p (fun q => T q \/ exists i, In i l /\ S i q) (fold_left Rmin (map f l) d).
Proof.
  revert d T. induction l as [|i l IH]; intros d T H F; cbn [map fold_left].
  - eapply distance_iff; [|exact H]. intros q. split; [auto|]. intros [?|(i & [] & _)]. assumption.
  - eapply distance_iff; [|apply (IH (Rmin d (f i)) (fun q => T q \/ S i q))].
    + intros q. cbn beta. split; [intros [[?|?]|(j & J & ?)]; [auto|right; exists i; cbn; auto|right; exists j; cbn; auto]|]. intros [?|(j & [->|J] & ?)]; [auto|auto|right; exists j; auto].
    + apply distance_union; [exact H|]. apply F. now left.
    + intros j J. apply F. now right.
Qed.

(* C127 the distance from the edges is the distance to the nearest of all their points *)
Theorem C127_distance point poly : poly <> [] -> no_opposites poly ->
  exists d, poly_edge_dist point poly = Some d /\ distance_to (dir false point) (on_edges poly) d.
Proof.
  intros NE NO. unfold poly_edge_dist. set (n := length poly) in *. assert (N : (0 < n)%nat) by (destruct poly; [congruence|unfold n; cbn; lia]).
  set (f := fun i => edge_dist _ _ _). assert (F : forall i, (i < n)%nat -> distance_to (dir false point) (on_arc (vertex poly i) (vertex poly ((i + 1) mod n))) (f i)).
  { intros i I. unfold f. assert (V : forall j, (j < n)%nat -> nth j (map (ang2rect false) poly) north = vertex poly j).
    { intros j J. unfold vertex. rewrite <- ang2rect_dir. rewrite (nth_indep _ north (ang2rect false (0, 0))) by (rewrite map_length; exact J). apply map_nth. }
    assert (M : ((i + 1) mod n < n)%nat) by (apply Nat.mod_upper_bound; lia). rewrite !V, ang2rect_dir by assumption. apply edge_distance; try apply dir_unit. now apply NO. }
  destruct n as [|m] eqn:En; [lia|]. cbn [seq map]. eexists. split; [reflexivity|].
  eapply distance_iff; [|apply (fold_distance _ f (fun i => on_arc (vertex poly i) (vertex poly ((i + 1) mod S m))) (seq 1 m)); [apply (F O); lia|]].
  - intros q. unfold on_edges. fold n. rewrite En. split.
    + intros [H|(i & I & H)]; [exists O; split; [lia|exact H]|exists i; apply in_seq in I; split; [lia|exact H]].
    + intros (i & I & H). destruct i as [|i]; [left; exact H|right; exists (S i); split; [apply in_seq; lia|exact H]].
  - intros i I. apply in_seq in I. apply F. lia.
Qed.
Print Assumptions C127_distance.
(* it is zero just for points on an edge *)
Theorem C127_zero point poly d : no_opposites poly -> poly_edge_dist point poly = Some d -> (d = 0 <-> on_edges poly (dir false point)).
Proof.
  intros NO E. assert (NE : poly <> []) by (intros ->; discriminate E). destruct (C127_distance point poly NE NO) as (d' & E' & (q & Q & A1 & A2) & L). rewrite E in E'. injection E' as <-. split.
  - intros ->. rewrite cos_0 in A2. replace (dir false point) with q; [exact Q|]. symmetry. apply dot_one; [apply dir_unit| |now symmetry]. destruct Q as (i & _ & D & _). exact D.
  - intros H. assert (A0 : angle 0 (dir false point) (dir false point)) by (split; [pose proof PI_RGT_0; lra|rewrite cos_0, dir_unit; reflexivity]). specialize (L _ _ H A0). lra.
Qed.
Print Assumptions C127_zero.

(* a triangle with right angles whose first vertex is repeated at the end *)
Example C127_ex_hyps : no_opposites [(0, 0); (PI / 2, 0); (0, PI / 2); (0, 0)].
Proof.
  assert (G : forall a b : R * R, cos (snd a) * cos (fst a) * (cos (snd b) * cos (fst b)) + cos (snd a) * sin (fst a) * (cos (snd b) * sin (fst b)) + sin (snd a) * sin (snd b) <> -1 -> dot (dir false a) (dir false b) <> -1) by (intros a b H; exact H).
  intros i I. unfold vertex. change (length _) with 4%nat in *.
  destruct i as [|[|[|[|i]]]]; [| | | |lia]; apply G; clear G; cbn [nth Nat.add Nat.modulo Nat.divmod fst snd Nat.sub]; rewrite ?cos_0, ?sin_0, ?cos_PI2, ?sin_PI2; lra.
Qed.
Example C127_ex : poly_edge_dist (0, 0) [(0, 0); (PI / 2, 0); (0, PI / 2); (0, 0)] = Some 0.
Proof.
  destruct (C127_distance (0, 0) [(0, 0); (PI / 2, 0); (0, PI / 2); (0, 0)] ltac:(discriminate) C127_ex_hyps) as (d & E & _). rewrite E. f_equal.
  apply (proj2 (C127_zero _ _ _ C127_ex_hyps E)). exists O. split; [change (0 < 4)%nat; lia|]. apply arc_ends; apply dir_unit.
Qed.
