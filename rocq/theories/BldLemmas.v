From Coq Require Import Reals ZArith Lia Lra Psatz.
From Verif Require Import BldSpec BldModel.
Open Scope R_scope.
Ltac Zify.zify_post_hook ::= idtac.

Lemma floorR_spec x : IZR (floorR x) <= x < IZR (floorR x) + 1.
Proof. unfold floorR. destruct (base_Int_part x). lra. Qed.

Lemma roundR_spec x : Rabs (IZR (roundR x) - x) <= 1/2.
Proof.
  unfold roundR. pose proof (floorR_spec x) as [A B]. set (k := floorR x) in *.
  apply Rabs_le. destruct (Rlt_dec _ _); [lra|]. destruct (Rlt_dec _ _); [rewrite plus_IZR; lra|].
  destruct (Z.even k); [lra|rewrite plus_IZR; lra].
Qed.
Lemma roundR_nonneg x : 0 <= x -> (0 <= roundR x)%Z.
Proof.
  intros P. pose proof (roundR_spec x) as A. apply Rabs_def2b in A || idtac.
  apply le_IZR. unfold roundR in *. pose proof (floorR_spec x) as [B C]. set (k := floorR x) in *.
  assert (0 <= k)%Z. { assert (-1 < IZR k) by lra. apply lt_IZR in H. lia. }
  apply IZR_le in H. destruct (Rlt_dec _ _); [lra|]. destruct (Rlt_dec _ _); [rewrite plus_IZR; lra|].
  destruct (Z.even k); [lra|rewrite plus_IZR; lra].
Qed.

Lemma off_bound x : -1/2 <= frac1 (x + 1/2) - 1/2 < 1/2.
Proof. unfold frac1. pose proof (floorR_spec (x + 1/2)). lra. Qed.

Lemma floorR_unique x k : IZR k <= x < IZR k + 1 -> floorR x = k.
Proof.
  intros [A B]. pose proof (floorR_spec x) as [C D].
  assert (IZR (floorR x) < IZR (k + 1)) by (rewrite plus_IZR; lra).
  assert (IZR k < IZR (floorR x + 1)) by (rewrite plus_IZR; lra).
  apply lt_IZR in H, H0. lia.
Qed.

Lemma wrap180_id x : Rabs x <= 180 -> wrap180 x = x.
Proof.
  intros A. assert (-180 <= x <= 180) by (unfold Rabs in A; destruct (Rcase_abs x); lra).
  unfold wrap180. replace (truncR (x / 360)) with 0%Z.
  - cbv zeta. destruct (Rlt_dec _ _); [lra|]. destruct (Rlt_dec _ _); lra.
  - unfold truncR. destruct (Rlt_dec _ _); symmetry.
    + rewrite (floorR_unique _ 0); [reflexivity|]. lra.
    + apply floorR_unique. lra.
Qed.
Lemma wrap180_turn x : exists k : Z, wrap180 x = x + 360 * IZR k.
Proof.
  unfold wrap180. set (t := truncR (x / 360)). destruct (Rlt_dec _ _); [|destruct (Rlt_dec _ _)].
  - exists (- t - 1)%Z. rewrite minus_IZR, opp_IZR. lra.
  - exists (- t + 1)%Z. rewrite plus_IZR, opp_IZR. lra.
  - exists (- t)%Z. rewrite opp_IZR. lra.
Qed.

(* heights grow with latitude *)
Lemma rdeg_pos : 0 < rdeg.
Proof. unfold rdeg. pose proof PI_RGT_0. lra. Qed.
Lemma rdeg_90 : 90 * rdeg = PI / 2.
Proof. unfold rdeg. lra. Qed.

Definition lam_ok (s : system) (lam : R) := match s with Cea => 0 < lam | _ => True end.
Lemma height_lt s lam a b : lam_ok s lam -> shown s a -> shown s b -> a < b -> height s lam a < height s lam b.
Proof.
  intros L A B AB. pose proof rdeg_pos as P. pose proof rdeg_90 as Q. pose proof PI_RGT_0. destruct s; cbn [height shown lam_ok] in *; [lra|lra| |].
  - apply Rmult_lt_compat_r; [apply Rinv_0_lt_compat; lra|]. apply Rmult_lt_compat_r; [apply Rinv_0_lt_compat; lra|].
    apply sin_increasing_1; nra.
  - apply Rmult_lt_compat_r; [apply Rinv_0_lt_compat; lra|].
    apply ln_increasing.
    + apply tan_gt_0; nra.
    + apply tan_increasing; nra.
Qed.
Lemma height_le s lam a b : lam_ok s lam -> shown s a -> shown s b -> a <= b -> height s lam a <= height s lam b.
Proof. intros L A B [C| ->]; [left; now apply height_lt|right; reflexivity]. Qed.

(* what world2pix does *)
Lemma w2p_y_lies w t : rdy w <> 0 -> height (rsys w) (rlam w) t = rvy w + (w2p_y w 0 t + 1 - rpy w) * rdy w.
Proof. intros D. unfold w2p_y. field. exact D. Qed.
Lemma w2p_x_lies w u : rdx w <> 0 -> (rsys w <> Plain -> Rabs (u - rvx w) <= 180) -> u = rvx w + (w2p_x w 0 u + 1 - rpx w) * rdx w.
Proof.
  intros D N. unfold w2p_x. destruct (rsys w) eqn:E; try (rewrite wrap180_id by (apply N; discriminate)); field; exact D.
Qed.
Lemma w2p_x_turn w u : rdx w <> 0 -> exists k : Z, u + 360 * IZR k = rvx w + (w2p_x w 0 u + 1 - rpx w) * rdx w /\ (rsys w = Plain -> k = 0%Z).
Proof.
  intros D. unfold w2p_x. destruct (rsys w) eqn:E.
  1: { exists 0%Z. split; [field; exact D|reflexivity]. }
  all: destruct (wrap180_turn (u - rvx w)) as [k K]; exists k; split; [|discriminate]; cbv zeta; rewrite K; field; exact D.
Qed.
Lemma w2p_y_set w py px o t : w2p_y (set_crpix w py px) o t = w2p_y w o t - rpy w + py.
Proof. unfold w2p_y. cbn. ring. Qed.
Lemma w2p_x_set w py px o u : w2p_x (set_crpix w py px) o u = w2p_x w o u - rpx w + px.
Proof. unfold w2p_x. cbn. ring. Qed.
Lemma w2p_y_origin w o t : w2p_y w o t = w2p_y w 0 t + o.
Proof. unfold w2p_y. ring. Qed.
Lemma w2p_x_origin w o u : w2p_x w o u = w2p_x w 0 u + o.
Proof. unfold w2p_x. ring. Qed.

Lemma unit_scale deg : (if deg : bool then 1 else 1 / rdeg) = unit_of deg.
Proof. destruct deg; [reflexivity|]. unfold rdeg, unit_of. field. apply PI_neq0. Qed.
Lemma unit_pos deg : 0 < unit_of deg.
Proof. destruct deg; cbn; [lra|]. pose proof PI_RGT_0. apply Rdiv_lt_0_compat; lra. Qed.

(* the last step: shifting by a fraction of a pixel *)
Lemma final_ref_spec w ref : rdy w <> 0 -> rdx w <> 0 ->
  exists ey ex, Rabs ey <= 1/2 /\ Rabs ex <= 1/2 /\ (ref = None -> ey = 0 /\ ex = 0) /\
  final_ref w ref = set_crpix w (rpy w + ey) (rpx w + ex) /\
  forall d r, ref = Some (d, r) -> whole (w2p_y (final_ref w ref) 0 d) /\ whole (w2p_x (final_ref w ref) 0 r).
Proof.
  intros Dy Dx. destruct ref as [[d r]|]; cbn [final_ref].
  - exists (- (frac1 (w2p_y w 1 d + 1/2) - 1/2)), (- (frac1 (w2p_x w 1 r + 1/2) - 1/2)).
    pose proof (off_bound (w2p_y w 1 d)). pose proof (off_bound (w2p_x w 1 r)).
    split; [apply Rabs_le; lra|]. split; [apply Rabs_le; lra|]. split; [discriminate|]. split; [reflexivity|].
    intros d' r' [= <- <-]. rewrite w2p_y_set, w2p_x_set. unfold frac1. rewrite (w2p_y_origin w 1), (w2p_x_origin w 1). split.
    + exists (floorR (w2p_y w 0 d + 1 + 1/2) - 1)%Z. rewrite minus_IZR. ring.
    + exists (floorR (w2p_x w 0 r + 1 + 1/2) - 1)%Z. rewrite minus_IZR. ring.
  - exists 0, 0. rewrite Rabs_R0. repeat split; try lra; try discriminate.
    destruct w; unfold set_crpix; cbn. f_equal; ring.
Qed.
