(* C14: pixel areas add up. C15: polarisation rotation is a group action. *)
From Coq Require Import Reals Lra.
From Verif Require Import Base SliceSpec SliceModel RangeModel SkyrSpec SkyrModel SkyrLemmas.
Open Scope R_scope.

(* For every map with at least one row whose row edges run strictly monotonically over the sphere (up or down): every pixel
   has an area, all positive, and they add up to area_cyl, which is the area of the zone between the outer edges.
   Guard: rows wholly beyond a pole make two clipped edges equal, see C14_offsky_refuted. *)
Theorem C14_areas_partial : forall (dec : R -> R) (cdelt : R) (ny nx : nat), (0 < ny)%nat -> cdelt <> 0 ->
  let e i := on_sphere (dec (INR i - 1 / 2)) in
  (forall i, (i < ny)%nat -> e i < e (S i)) \/ (forall i, (i < ny)%nat -> e (S i) < e i) ->
  exists px, pixsizemap dec cdelt ny nx = map (map Some) px /\
  rsum (map rsum px) = area_cyl dec cdelt ny nx /\
  area_cyl dec cdelt ny nx = zone_area (Rmin (e 0%nat) (e ny)) (Rmax (e 0%nat) (e ny)) (INR nx * Rabs cdelt) /\
  forall row v, In row px -> In v row -> 0 < v.
Proof.
  intros dec cd ny nx Hn Hc e [H|H].
  - destruct (areas_inc dec cd ny nx Hn H) as (px & E & T & P). exists px. split; [exact E|].
    pose proof (monotone_dist e ny H Hn) as L. rewrite area_cyl_ends by (unfold edge; fold (e 0%nat) (e ny); lra). unfold edge in *. fold (e 0%nat) (e ny) in *. rewrite Rmax_right, Rmin_left by lra. unfold zone_area.
    split; [rewrite T; ring|]. split; [ring|]. intros row v Hr Hv. destruct (P row v Hr Hv) as (i & Hi & ->). specialize (H i Hi). apply sin_lt in H. apply Rmult_lt_0_compat; [apply Rabs_pos_lt; exact Hc|lra].
  - destruct (areas_dec dec cd ny nx Hn H) as (px & E & T & P). exists px. split; [exact E|].
    pose proof (monotone_dist (fun i => - e i) ny ltac:(intros i Hi; specialize (H i Hi); lra) Hn) as L. cbn beta in L. rewrite area_cyl_ends by (unfold edge; fold (e 0%nat) (e ny); lra). unfold edge in *. fold (e 0%nat) (e ny) in *. rewrite Rmax_left, Rmin_right by lra. unfold zone_area.
    split; [rewrite T; ring|]. split; [ring|]. intros row v Hr Hv. destruct (P row v Hr Hv) as (i & Hi & ->). specialize (H i Hi). apply sin_lt in H. apply Rmult_lt_0_compat; [apply Rabs_pos_lt; exact Hc|lra].
Qed.
Print Assumptions C14_areas_partial.

(* An equal-declination map of n rows going from pole to pole meets the hypotheses. *)
Example C14_ex : forall ny, (0 < ny)%nat -> let dec y := - PI / 2 + PI / INR ny * (y + 1 / 2) in
  forall i, (i < ny)%nat -> on_sphere (dec (INR i - 1 / 2)) < on_sphere (dec (INR (S i) - 1 / 2)).
Proof.
  intros ny Hn dec i Hi. pose proof PI_RGT_0. apply lt_INR in Hn as Hn'. cbn [INR] in Hn'.
  assert (V : forall k, (k <= ny)%nat -> on_sphere (dec (INR k - 1 / 2)) = - PI / 2 + PI / INR ny * INR k).
  { intros k Hk. unfold dec. replace (INR k - 1 / 2 + 1 / 2) with (INR k) by lra. assert (0 <= INR k <= INR ny) by (split; [apply pos_INR|apply le_INR; exact Hk]).
    assert (B : 0 <= PI / INR ny * INR k <= PI). { split; [apply Rmult_le_pos; [apply Rlt_le, Rdiv_lt_0_compat; lra|lra]|]. replace PI with (PI / INR ny * INR ny) at 2 by (field; lra). apply Rmult_le_compat_l; [apply Rlt_le, Rdiv_lt_0_compat; lra|lra]. }
    unfold on_sphere, Rmax, Rmin. repeat destruct (Rle_dec _ _); lra. }
  rewrite !V by lia. rewrite S_INR. assert (0 < PI / INR ny) by (apply Rdiv_lt_0_compat; lra). lra.
Qed.

(* A row beyond the pole: no area is computed for it (0/0), although the map has an area. *)
Theorem C14_offsky_refuted : exists dec cdelt, exists r, pixsizemap dec cdelt 2 1 = [r; [None]] /\ 0 < area_cyl dec cdelt 2 1.
Proof.
  pose proof PI_RGT_0 as P. pose proof PI2_1 as P1. exists (fun y => PI / 2 - 1 / 2 + y), 1.
  assert (E0 : edge (fun y => PI / 2 - 1 / 2 + y) 0 = PI / 2 - 1). { unfold edge, on_sphere, Rmax, Rmin. cbn [INR]. repeat destruct (Rle_dec _ _); lra. }
  assert (E1 : edge (fun y => PI / 2 - 1 / 2 + y) 1 = PI / 2). { unfold edge, on_sphere, Rmax, Rmin. cbn [INR]. repeat destruct (Rle_dec _ _); lra. }
  assert (E2 : edge (fun y => PI / 2 - 1 / 2 + y) 2 = PI / 2). { unfold edge, on_sphere, Rmax, Rmin. cbn [INR]. repeat destruct (Rle_dec _ _); lra. }
  eexists. split.
  - unfold pixsizemap. rewrite pixshapes_spec. cbn [seq map]. cbv zeta. rewrite E0, E1, E2. cbn [repeat]. f_equal. destruct (Req_EM_T (PI / 2 - PI / 2) 0); [reflexivity|lra].
  - rewrite area_cyl_ends by lra. rewrite E0, E2. rewrite Rmax_right, Rmin_left by lra. rewrite Rabs_R1. cbn [INR]. rewrite sin_PI2. assert (sin (PI / 2 - 1) < 1); [|lra]. pose proof (sin_increasing_1 (PI / 2 - 1) (PI / 2)) as I1. rewrite sin_PI2 in I1. apply I1; lra.
Qed.
Print Assumptions C14_offsky_refuted.

(* ---- C15 ---- *)
(* the two component numbers name different components of the map *)
Definition two_comps (l : list R) (c0 c1 : Z) : Prop := exists i j, pyidx l c0 = Some i /\ pyidx l c1 = Some j /\ i <> j.

Theorem C15_rotate_pol : forall m c0 c1 spin, two_comps m c0 c1 ->
  rotate_pol m 0 c0 c1 spin = Some m /\
  forall a, exists m1, rotate_pol m a c0 c1 spin = Some m1 /\ rotate_pol m1 (- a) c0 c1 spin = Some m /\
  forall b, rotate_pol m1 b c0 c1 spin = rotate_pol m (a + b) c0 c1 spin.
Proof.
  intros m c0 c1 sp (i & j & Hi & Hj & N). pose proof (pyidx_lt _ _ _ Hi) as Li. pose proof (pyidx_lt _ _ _ Hj) as Lj.
  assert (R0 : rot2 m i j 1 0 = m). { apply list_ext_nth; [apply rot2_length|]. intros k. rewrite rot2_nth by assumption. destruct (Nat.eqb j k) eqn:E1; [apply Nat.eqb_eq in E1; subst; ring|]. destruct (Nat.eqb i k) eqn:E2; [apply Nat.eqb_eq in E2; subst; ring|reflexivity]. }
  split. { rewrite (rotate_pol_rot2 m 0 c0 c1 sp i j Hi Hj N), Rmult_0_r, cos_0, sin_0. f_equal. exact R0. }
  intros a. rewrite (rotate_pol_rot2 m a c0 c1 sp i j Hi Hj N). eexists. split; [reflexivity|].
  set (m1 := rot2 m i j _ _). assert (Hi1 : pyidx m1 c0 = Some i) by (rewrite (pyidx_len m1 m) by apply rot2_length; exact Hi). assert (Hj1 : pyidx m1 c1 = Some j) by (rewrite (pyidx_len m1 m) by apply rot2_length; exact Hj).
  split.
  - rewrite (rotate_pol_rot2 m1 _ c0 c1 sp i j Hi1 Hj1 N). unfold m1. rewrite rot2_rot2 by assumption. f_equal. rewrite <- R0 at 2. replace (sp * - a) with (- (sp * a)) by ring. rewrite cos_neg, sin_neg. f_equal; [|ring]. pose proof (sin2_cos2 (sp * a)) as T. unfold Rsqr in T. lra.
  - intros b. rewrite (rotate_pol_rot2 m1 _ c0 c1 sp i j Hi1 Hj1 N), (rotate_pol_rot2 m _ c0 c1 sp i j Hi Hj N). unfold m1. rewrite rot2_rot2 by assumption. f_equal. rewrite Rmult_plus_distr_l, cos_plus, sin_plus. f_equal; ring.
Qed.
Print Assumptions C15_rotate_pol.

(* The polarised intensity is kept, and so are all other components. *)
Theorem C15_intensity : forall m a c0 c1 spin i j, pyidx m c0 = Some i -> pyidx m c1 = Some j -> i <> j ->
  exists m1, rotate_pol m a c0 c1 spin = Some m1 /\ length m1 = length m /\
  (nth i m1 0) ^ 2 + (nth j m1 0) ^ 2 = (nth i m 0) ^ 2 + (nth j m 0) ^ 2 /\
  nth i m1 0 = cos (spin * a) * nth i m 0 - sin (spin * a) * nth j m 0 /\
  forall k, k <> i -> k <> j -> nth k m1 0 = nth k m 0.
Proof.
  intros m a c0 c1 sp i j Hi Hj N. pose proof (pyidx_lt _ _ _ Hi) as Li. pose proof (pyidx_lt _ _ _ Hj) as Lj.
  rewrite (rotate_pol_rot2 m a c0 c1 sp i j Hi Hj N). eexists. split; [reflexivity|]. split; [apply rot2_length|].
  assert (D : Nat.eqb j i = false) by (apply Nat.eqb_neq; auto). split; [|split].
  - rewrite !rot2_nth by assumption. rewrite D, !Nat.eqb_refl. pose proof (sin2_cos2 (sp * a)) as T. unfold Rsqr in T. set (c := cos (sp * a)) in *. set (s := sin (sp * a)) in *. set (x := nth i m 0). set (y := nth j m 0).
    replace ((c * x - s * y) ^ 2 + (s * x + c * y) ^ 2) with ((s * s + c * c) * (x ^ 2 + y ^ 2)) by ring. rewrite T. ring.
  - rewrite rot2_nth by assumption. rewrite D, Nat.eqb_refl. reflexivity.
  - intros k Ki Kj. rewrite rot2_nth by assumption. replace (Nat.eqb j k) with false by (symmetry; apply Nat.eqb_neq; auto). replace (Nat.eqb i k) with false by (symmetry; apply Nat.eqb_neq; auto). reflexivity.
Qed.
Print Assumptions C15_intensity.

(* The in-place rotation of the aberration module is the rotation by the opposite angle. *)
Theorem C15_inplace : forall q u g spin, let r := rotate_pol_inplace q u g spin in rotate_pol [q; u] (- g) 0 1 spin = Some [fst r; snd r].
Proof.
  intros q u g sp r. rewrite (rotate_pol_rot2 _ _ _ _ _ 0 1) by (reflexivity || lia). unfold r, rotate_pol_inplace, rot2. cbn. replace (sp * - g) with (- (sp * g)) by ring. rewrite cos_neg, sin_neg.
  destruct (Req_EM_T sp 0) as [->|]; cbn [fst snd]; rewrite ?Rmult_0_l, ?cos_0, ?sin_0; match goal with |- Some [?a; ?b] = Some [?c; ?d] => replace a with c by ring; replace b with d by ring end; reflexivity.
Qed.
Print Assumptions C15_inplace.

(* The E/B rotation matrix with inverse=True undoes the one without, for every multipole and integer spin, in both
   conventions. *)
Theorem C15_queb : forall l0 l1 iau spin v, map_mul2 (queb_rotmat l0 l1 true iau spin) (map_mul2 (queb_rotmat l0 l1 false iau spin) v) = v.
Proof.
  intros l0 l1 iau sp [q u]. unfold map_mul2, queb_rotmat. cbn [fst snd].
  assert (K : forall a b, cos (a + b) = 1 -> sin (a + b) = 0 -> (cos a * (cos b * q + - sin b * u) + - sin a * (sin b * q + cos b * u), sin a * (cos b * q + - sin b * u) + cos a * (sin b * q + cos b * u)) = (q, u)).
  { intros a b C S'. rewrite cos_plus in C. rewrite sin_plus in S'. f_equal.
    - replace (cos a * (cos b * q + - sin b * u) + - sin a * (sin b * q + cos b * u)) with ((cos a * cos b - sin a * sin b) * q - (sin a * cos b + cos a * sin b) * u) by ring. rewrite C, S'. ring.
    - replace (sin a * (cos b * q + - sin b * u) + cos a * (sin b * q + cos b * u)) with ((sin a * cos b + cos a * sin b) * q + (cos a * cos b - sin a * sin b) * u) by ring. rewrite C, S'. ring. }
  assert (G : forall t, cos (IZR sp * atan2 (- t) l0 + IZR sp * atan2 t l0) = 1 /\ sin (IZR sp * atan2 (- t) l0 + IZR sp * atan2 t l0) = 0).
  { intros t. destruct (atan2_opp t l0) as [E|(_ & E & P)].
    - rewrite E. replace (_ + _) with 0 by ring. split; [apply cos_0|apply sin_0].
    - rewrite E, P. replace (_ + _) with (IZR sp * (2 * PI)) by ring. destruct (sin_Z_PI sp) as [E1 E2]. auto. }
  destruct iau; apply K.
  - replace (- - (1) * l1) with (- (- (1) * l1)) by ring. apply G.
  - replace (- - (1) * l1) with (- (- (1) * l1)) by ring. apply G.
  - replace (- (1) * l1) with (- (1 * l1)) by ring. apply G.
  - replace (- (1) * l1) with (- (1 * l1)) by ring. apply G.
Qed.
Print Assumptions C15_queb.

Example C15_ex : two_comps [1; 2; 3] (-2) (-1).
Proof. exists 1%nat, 2%nat. split; [reflexivity|]. split; [reflexivity|lia]. Qed.
Example C15_ex_quarter : rotate_pol [1; 2; 3] (PI / 4) (-2) (-1) 2 = Some [1; -3; 2].
Proof. rewrite (rotate_pol_rot2 _ _ _ _ _ 1 2) by (reflexivity || lia). replace (2 * (PI / 4)) with (PI / 2) by field. rewrite cos_PI2, sin_PI2. unfold rot2. cbn. match goal with |- Some [_; ?a; ?b] = Some [_; ?c; ?d] => replace a with c by ring; replace b with d by ring end. reflexivity. Qed.
