From Coq Require Import Reals Lra.
From Verif Require Import Base SliceSpec SliceModel RangeModel RangeLemmas SkyrSpec SkyrModel.
Open Scope R_scope.

Lemma rdiff_seq f n : forall k, rdiff (map f (seq k (S n))) = map (fun i => f (S i) - f i) (seq k n).
Proof. induction n as [|n IH]; intros k; [reflexivity|]. change (seq k (S (S n))) with (k :: seq (S k) (S n)). change (seq k (S n)) with (k :: seq (S k) n). cbn [map rdiff]. rewrite <- IH. reflexivity. Qed.
Lemma rsum_telescope f n : forall k, rsum (map (fun i => f (S i) - f i) (seq k n)) = f (k + n)%nat - f k.
Proof. induction n as [|n IH]; intros k; cbn; [rewrite Nat.add_0_r; lra|]. rewrite IH. replace (S k + n)%nat with (k + S n)%nat by lia. lra. Qed.
Lemma rsum_repeat x n : rsum (repeat x n) = INR n * x.
Proof. induction n as [|n IH]; [cbn; lra|]. rewrite S_INR. cbn. rewrite IH. lra. Qed.
Lemma rsum_scale {A} c (f : A -> R) l : rsum (map (fun x => c * f x) l) = c * rsum (map f l).
Proof. induction l as [|x l IH]; cbn; [lra|]. rewrite IH. lra. Qed.
Lemma combine_map {A B C} (f : A -> B) (g : A -> C) l : combine (map f l) (map g l) = map (fun x => (f x, g x)) l.
Proof. induction l as [|x l IH]; cbn; [reflexivity|]. rewrite IH. reflexivity. Qed.

Lemma clip_range x : - PI / 2 <= clip (- PI / 2) (PI / 2) x <= PI / 2.
Proof. unfold clip. pose proof PI_RGT_0. unfold Rmin, Rmax. repeat destruct (Rle_dec _ _); lra. Qed.
Lemma clip_on_sphere x : clip (- PI / 2) (PI / 2) x = on_sphere x.
Proof. unfold clip, on_sphere. pose proof PI_RGT_0. unfold Rmin, Rmax. repeat destruct (Rle_dec _ _); lra. Qed.
Lemma sphere_range x : - PI / 2 <= on_sphere x <= PI / 2.
Proof. rewrite <- clip_on_sphere. apply clip_range. Qed.
Lemma sin_lt a b : on_sphere a < on_sphere b -> sin (on_sphere a) < sin (on_sphere b).
Proof. intros H. pose proof (sphere_range a). pose proof (sphere_range b). apply sin_increasing_1; lra. Qed.

Definition edge (dec : R -> R) (i : nat) : R := on_sphere (dec (INR i - 1 / 2)).

Lemma pixshapes_spec dec cd ny : pixshapes_cyl dec cd ny =
  map (fun i => let h := edge dec (S i) - edge dec i in let s := sin (edge dec (S i)) - sin (edge dec i) in
       if Req_EM_T h 0 then None else Some (Rabs h, Rabs (cd * s / h))) (seq 0 ny).
Proof.
  unfold pixshapes_cyl, edges. rewrite !map_map. rewrite (map_ext (fun x => clip _ _ _) (edge dec)) by (intros i; unfold edge; apply clip_on_sphere).
  rewrite (map_ext (fun x => sin (clip (- PI / 2) (PI / 2) (dec (INR x - 1 / 2)))) (fun x => sin (edge dec x))) by (intros i; unfold edge; rewrite clip_on_sphere; reflexivity).
  rewrite !rdiff_seq, combine_map, map_map. reflexivity.
Qed.

Lemma monotone_dist (f : nat -> R) n : (forall i, (i < n)%nat -> f i < f (S i)) -> (0 < n)%nat -> f 0%nat < f n.
Proof. induction n as [|n IH]; intros H L; [lia|]. destruct n as [|n]; [apply H; lia|]. apply Rlt_trans with (f (S n)); [apply IH; [intros i Hi; apply H; lia|lia]|apply H; lia]. Qed.

Lemma areas_inc dec cd ny nx : (0 < ny)%nat -> (forall i, (i < ny)%nat -> edge dec i < edge dec (S i)) ->
  exists px, pixsizemap dec cd ny nx = map (map Some) px /\ rsum (map rsum px) = Rabs cd * INR nx * (sin (edge dec ny) - sin (edge dec 0)) /\
  forall row v, In row px -> In v row -> exists i, (i < ny)%nat /\ v = Rabs cd * (sin (edge dec (S i)) - sin (edge dec i)).
Proof.
  intros Hn H. exists (map (fun i => repeat (Rabs cd * (sin (edge dec (S i)) - sin (edge dec i))) nx) (seq 0 ny)). split; [|split].
  - unfold pixsizemap. rewrite pixshapes_spec, !map_map. apply map_ext_in. intros i Hi. apply in_seq in Hi. specialize (H i ltac:(lia)).
    cbv zeta. destruct (Req_EM_T (edge dec (S i) - edge dec i) 0) as [E|E]; [lra|]. cbn [option_map fst snd].
    assert (V : Rabs (edge dec (S i) - edge dec i) * Rabs (cd * (sin (edge dec (S i)) - sin (edge dec i)) / (edge dec (S i) - edge dec i)) = Rabs cd * (sin (edge dec (S i)) - sin (edge dec i))).
    { rewrite <- Rabs_mult. replace (_ * (_ / _)) with (cd * (sin (edge dec (S i)) - sin (edge dec i))) by (field; lra). rewrite Rabs_mult. f_equal. apply Rabs_pos_eq. apply sin_lt in H. unfold edge. lra. }
    rewrite V. clear. induction nx; cbn; [reflexivity|]. f_equal. assumption.
  - rewrite map_map. rewrite (map_ext _ (fun i => (INR nx * Rabs cd) * (sin (edge dec (S i)) - sin (edge dec i)))) by (intros i; rewrite rsum_repeat; lra).
    rewrite rsum_scale, (rsum_telescope (fun i => sin (edge dec i))). cbn [Nat.add]. lra.
  - intros row v Hr Hv. apply in_map_iff in Hr as (i & <- & Hi). apply in_seq in Hi. exists i. split; [lia|]. apply repeat_spec in Hv. exact Hv.
Qed.

Lemma areas_dec dec cd ny nx : (0 < ny)%nat -> (forall i, (i < ny)%nat -> edge dec (S i) < edge dec i) ->
  exists px, pixsizemap dec cd ny nx = map (map Some) px /\ rsum (map rsum px) = Rabs cd * INR nx * (sin (edge dec 0) - sin (edge dec ny)) /\
  forall row v, In row px -> In v row -> exists i, (i < ny)%nat /\ v = Rabs cd * (sin (edge dec i) - sin (edge dec (S i))).
Proof.
  intros Hn H. exists (map (fun i => repeat (Rabs cd * (sin (edge dec i) - sin (edge dec (S i)))) nx) (seq 0 ny)). split; [|split].
  - unfold pixsizemap. rewrite pixshapes_spec, !map_map. apply map_ext_in. intros i Hi. apply in_seq in Hi. specialize (H i ltac:(lia)).
    cbv zeta. destruct (Req_EM_T (edge dec (S i) - edge dec i) 0) as [E|E]; [lra|]. cbn [option_map fst snd].
    assert (V : Rabs (edge dec (S i) - edge dec i) * Rabs (cd * (sin (edge dec (S i)) - sin (edge dec i)) / (edge dec (S i) - edge dec i)) = Rabs cd * (sin (edge dec i) - sin (edge dec (S i)))).
    { rewrite <- Rabs_mult. replace (_ * (_ / _)) with (- (cd * (sin (edge dec i) - sin (edge dec (S i))))) by (field; lra). rewrite Rabs_Ropp, Rabs_mult. f_equal. apply Rabs_pos_eq. apply sin_lt in H. unfold edge. lra. }
    rewrite V. clear. induction nx; cbn; [reflexivity|]. f_equal. assumption.
  - rewrite map_map. rewrite (map_ext _ (fun i => (- INR nx * Rabs cd) * (sin (edge dec (S i)) - sin (edge dec i)))) by (intros i; rewrite rsum_repeat; lra).
    rewrite rsum_scale, (rsum_telescope (fun i => sin (edge dec i))). cbn [Nat.add]. lra.
  - intros row v Hr Hv. apply in_map_iff in Hr as (i & <- & Hi). apply in_seq in Hi. exists i. split; [lia|]. apply repeat_spec in Hv. exact Hv.
Qed.

Lemma area_cyl_ends dec cd ny nx : edge dec 0 <> edge dec ny ->
  area_cyl dec cd ny nx = (sin (Rmax (edge dec 0) (edge dec ny)) - sin (Rmin (edge dec 0) (edge dec ny))) * Rabs cd * INR nx.
Proof.
  intros H. unfold area_cyl, edge in *. cbn [INR] in *. replace (INR ny - 1 + 1 / 2) with (INR ny - 1 / 2) by lra. replace (0 - 1 / 2) with (- (1 / 2)) in * by lra.
  set (a := dec (- (1 / 2))) in *. set (b := dec (INR ny - 1 / 2)) in *. pose proof PI_RGT_0.
  assert (E1 : Rmin (PI / 2) (Rmax a b) = Rmax (on_sphere a) (on_sphere b)). { unfold on_sphere, Rmin, Rmax in *. repeat destruct (Rle_dec _ _); lra. }
  assert (E2 : Rmax (- PI / 2) (Rmin a b) = Rmin (on_sphere a) (on_sphere b)). { unfold on_sphere, Rmin, Rmax in *. repeat destruct (Rle_dec _ _); lra. }
  rewrite E1, E2. reflexivity.
Qed.

(* ---- rotations ---- *)
Lemma pyidx_lt {A} (l : list A) c i : pyidx l c = Some i -> (i < length l)%nat.
Proof. unfold pyidx, zlen. destruct (_ && _) eqn:E; [intros H; apply Some_inj in H; lia|]. destruct (_ && _) eqn:F in |- *; [intros H; apply Some_inj in H; lia|discriminate]. Qed.
Lemma pyidx_len {A} (l m : list A) c : length l = length m -> pyidx l c = pyidx m c.
Proof. intros H. unfold pyidx, zlen. rewrite H. reflexivity. Qed.
Lemma list_ext_nth (l m : list R) : length l = length m -> (forall k, nth k l 0 = nth k m 0) -> l = m.
Proof. intros H E. apply (nth_ext _ _ 0 0); auto. Qed.

Definition rot2 (l : list R) i j c s := upd (upd l i (c * nth i l 0 - s * nth j l 0)) j (s * nth i l 0 + c * nth j l 0).
Lemma rot2_length l i j c s : length (rot2 l i j c s) = length l.
Proof. unfold rot2. rewrite !upd_length. reflexivity. Qed.
Lemma rot2_nth l i j c s k : (i < length l)%nat -> (j < length l)%nat -> i <> j ->
  nth k (rot2 l i j c s) 0 = if Nat.eqb j k then s * nth i l 0 + c * nth j l 0 else if Nat.eqb i k then c * nth i l 0 - s * nth j l 0 else nth k l 0.
Proof. intros Hi Hj N. unfold rot2. rewrite upd_nth by (rewrite upd_length; exact Hj). rewrite upd_nth by exact Hi. reflexivity. Qed.
Lemma rot2_rot2 l i j c s c' s' : (i < length l)%nat -> (j < length l)%nat -> i <> j ->
  rot2 (rot2 l i j c s) i j c' s' = rot2 l i j (c' * c - s' * s) (s' * c + c' * s).
Proof.
  intros Hi Hj N. apply list_ext_nth; [rewrite !rot2_length; reflexivity|]. intros k. rewrite !rot2_nth; rewrite ?rot2_length; auto.
  rewrite !Nat.eqb_refl. replace (Nat.eqb j i) with false by (symmetry; apply Nat.eqb_neq; auto).
  destruct (Nat.eqb j k); [ring|]. destruct (Nat.eqb i k); [ring|reflexivity].
Qed.
Lemma rotate_pol_rot2 l a c0 c1 sp i j : pyidx l c0 = Some i -> pyidx l c1 = Some j -> i <> j -> rotate_pol l a c0 c1 sp = Some (rot2 l i j (cos (sp * a)) (sin (sp * a))).
Proof.
  intros Hi Hj N. unfold rotate_pol. rewrite Hi, Hj. destruct (Req_EM_T sp 0) as [->|]; [|reflexivity]. rewrite Rmult_0_l, cos_0, sin_0. f_equal.
  apply list_ext_nth; [rewrite rot2_length; reflexivity|]. intros k. rewrite rot2_nth; eauto using pyidx_lt. 
  destruct (Nat.eqb j k) eqn:E1; [apply Nat.eqb_eq in E1; subst; ring|]. destruct (Nat.eqb i k) eqn:E2; [apply Nat.eqb_eq in E2; subst; ring|reflexivity].
Qed.

Lemma atan2_opp y x : atan2 (- y) x = - atan2 y x \/ (y = 0 /\ atan2 (- y) x = atan2 y x /\ atan2 y x = PI).
Proof.
  unfold atan2. destruct (Rlt_dec 0 x) as [Hx|Hx].
  - left. replace (- y / x) with (- (y / x)) by (field; lra). apply atan_opp.
  - destruct (Rlt_dec x 0) as [Hx'|Hx'].
    + destruct (Req_dec y 0) as [->|Hy].
      * right. rewrite Ropp_0. split; [reflexivity|]. split; [reflexivity|]. destruct (Rle_dec 0 0); [|lra]. replace (0 / x) with 0 by (field; lra). rewrite atan_0. lra.
      * left. replace (- y / x) with (- (y / x)) by (field; lra). rewrite atan_opp. destruct (Rle_dec 0 y), (Rle_dec 0 (- y)); lra.
    + left. destruct (Rlt_dec 0 y), (Rlt_dec 0 (- y)), (Rlt_dec y 0), (Rlt_dec (- y) 0); lra.
Qed.

Lemma sin_Z_PI k : sin (IZR k * (2 * PI)) = 0 /\ cos (IZR k * (2 * PI)) = 1.
Proof.
  assert (N : forall n : nat, sin (INR n * (2 * PI)) = 0 /\ cos (INR n * (2 * PI)) = 1).
  { intros n. pose proof (sin_period 0 n). pose proof (cos_period 0 n). rewrite Rplus_0_l in *. rewrite sin_0 in H. rewrite cos_0 in H0. replace (INR n * (2 * PI)) with (2 * INR n * PI) by ring. auto. }
  destruct (Z_le_gt_dec 0 k) as [H|H].
  - rewrite <- (Z2Nat.id k) by lia. rewrite <- INR_IZR_INZ. apply N.
  - replace (IZR k * (2 * PI)) with (- (INR (Z.to_nat (- k)) * (2 * PI))). { rewrite sin_neg, cos_neg. destruct (N (Z.to_nat (- k))) as [-> ->]. split; ring. }
    rewrite INR_IZR_INZ, Z2Nat.id by lia. rewrite opp_IZR. ring.
Qed.
