From Coq Require Import Reals Lra.
From Verif Require Import Base ArrModel RdsModel RbnSpec RbnModel.
Ltac Zify.zify_post_hook ::= idtac.
Open Scope R_scope.

Lemma ravel_pixels {A} (a : farr A) : ravel a = map (fun p => f_at a (fst p) (snd p)) (pixels a).
Proof.
  unfold ravel, pixels. induction (zrange 0 (f_ny a)) as [|y l IH]; [reflexivity|]. cbn [flat_map list_prod]. rewrite map_app, <- IH, map_map. reflexivity.
Qed.

Lemma div_nonneg a b : 0 <= a -> 0 < b -> 0 <= a / b.
Proof. intros H1 H2. unfold Rdiv. apply Rmult_le_pos; [exact H1|]. left. now apply Rinv_0_lt_compat. Qed.
Lemma floor_ring w r b : 0 < w -> npfloor (r / w) = b <-> in_ring w b r.
Proof.
  intros Hw. unfold npfloor, in_ring. rewrite plus_IZR. destruct (base_Int_part (r / w)) as [H1 H2]. assert (E : r = r / w * w) by (field; lra). set (q := r / w) in *. rewrite E. split.
  - intros <-. nra.
  - intros [G1 G2]. assert (IZR b <= q) by nra. assert (q < IZR b + 1) by nra.
    assert (X1 : IZR b < IZR (Int_part q + 1)) by (rewrite plus_IZR; lra). assert (X2 : IZR (Int_part q) < IZR (b + 1)) by (rewrite plus_IZR; lra).
    apply lt_IZR in X1, X2. lia.
Qed.

Lemma fold_rmax_ge l : forall x y, (y = x \/ In y l) -> y <= fold_left Rmax l x.
Proof.
  induction l as [|z l IH]; intros x y H; cbn [fold_left].
  - destruct H as [->|[]]. lra.
  - assert (M : Rmax x z <= fold_left Rmax l (Rmax x z)) by (apply IH; now left).
    destruct H as [->|[->|H]]; [pose proof (Rmax_l x z); lra|pose proof (Rmax_r x y); lra|apply IH; now right].
Qed.
Lemma fold_rmax_in l : forall x, fold_left Rmax l x = x \/ In (fold_left Rmax l x) l.
Proof.
  induction l as [|z l IH]; intros x; cbn [fold_left]; [now left|]. destruct (IH (Rmax x z)) as [E|E]; [|right; right; exact E].
  rewrite E. unfold Rmax. destruct (Rle_dec x z); [right; left; reflexivity|left; reflexivity].
Qed.

Section RING.
Variables (r : farr R) (w : R).
Hypothesis Hw : 0 < w.
Notation inds := (map (fun x => npfloor (x / w)) (ravel r)).

Lemma ring_filter b (l : list (Z * Z)) :
  zlen (filter (fun i => (i =? b)%Z) (map (fun x => npfloor (x / w)) (map (fun p => f_at r (fst p) (snd p)) l))) =
  zlen (filter (fun p => if in_ring_dec w b (f_at r (fst p) (snd p)) then true else false) l).
Proof.
  induction l as [|p l IH]; [reflexivity|]. cbn [map filter]. destruct (in_ring_dec w b (f_at r (fst p) (snd p))) as [H|H].
  - apply (proj2 (floor_ring w _ b Hw)) in H. rewrite H, Z.eqb_refl, !zlen_cons, IH. reflexivity.
  - destruct (_ =? b)%Z eqn:E; [|exact IH]. exfalso. apply H, floor_ring; [exact Hw|lia].
Qed.
Lemma nhit_ring b : bincount_at inds b = zlen (ring r w b).
Proof. unfold bincount_at, ring. rewrite ravel_pixels. apply ring_filter. Qed.

Lemma sum_ring (m : farr R) b (l : list (Z * Z)) :
  bincount_w (map (fun x => npfloor (x / w)) (map (fun p => f_at r (fst p) (snd p)) l)) (map (fun p => f_at m (fst p) (snd p)) l) b =
  rsum (map (fun p => f_at m (fst p) (snd p)) (filter (fun p => if in_ring_dec w b (f_at r (fst p) (snd p)) then true else false) l)).
Proof.
  unfold bincount_w. induction l as [|p l IH]; [reflexivity|]. cbn [map combine fold_right filter fst snd]. destruct (in_ring_dec w b (f_at r (fst p) (snd p))) as [H|H].
  - apply (proj2 (floor_ring w _ b Hw)) in H. rewrite H, Z.eqb_refl. cbn [map rsum]. now rewrite IH.
  - destruct (_ =? b)%Z eqn:E; [|exact IH]. exfalso. apply H, floor_ring; [exact Hw|lia].
Qed.

Lemma avg_ring (m : farr R) b : f_ny m = f_ny r -> f_nx m = f_nx r ->
  per_hit (bincount_w inds (ravel m) b) (bincount_at inds b) = mean m (ring r w b).
Proof.
  intros Hy Hx. rewrite nhit_ring. unfold per_hit. rewrite !ravel_pixels. assert (Ep : pixels m = pixels r) by (unfold pixels; now rewrite Hy, Hx).
  rewrite Ep, sum_ring. fold (ring r w b). unfold mean. destruct (ring r w b) as [|p l] eqn:E; [reflexivity|].
  rewrite zlen_cons. pose proof (zlen_nonneg l). destruct (1 + zlen l =? 0)%Z eqn:E2; [lia|]. rewrite <- zlen_cons with (x := p). reflexivity.
Qed.
End RING.

Lemma bin_helper_ok (m r : farr R) w : 0 < w -> f_ny m = f_ny r -> f_nx m = f_nx r -> (0 < f_ny r)%Z -> (0 < f_nx r)%Z ->
  (forall p, In p (pixels r) -> 0 <= f_at r (fst p) (snd p)) ->
  exists n, full_rings r w n /\ (0 <= n)%Z /\
    bin_helper m r w = Some (BND (map (fun b => mean m (ring r w b)) (zrange 0 n)) (map (fun b => mean r (ring r w b)) (zrange 0 n))
                                 (map (fun b => zlen (ring r w b)) (zrange 0 n)) (map (fun k => IZR k * w) (zrange 0 (n + 1)))).
Proof.
  intros Hw Hy Hx Py Px Hr. unfold bin_helper.
  assert (Hp : In (0, 0)%Z (pixels r)) by (apply in_prod; apply zrange_In; lia).
  pose proof (ravel_pixels r) as ER. destruct (ravel r) as [|x0 xs] eqn:Erav; [symmetry in ER; apply map_eq_nil in ER; rewrite ER in Hp; destruct Hp|].
  cbn [map rmax]. set (top := fold_left Rmax _ _).
  assert (Hin : forall p, In p (pixels r) -> f_at r (fst p) (snd p) / w <= top).
  { intros p Hp'. apply fold_rmax_ge. assert (G : In (f_at r (fst p) (snd p)) (x0 :: xs)) by (rewrite ER; apply (in_map (fun p => f_at r (fst p) (snd p))); exact Hp').
    destruct G as [->|G]; [now left|right]. apply (in_map (fun x => x / w)). exact G. }
  assert (Hex : exists p, In p (pixels r) /\ top = f_at r (fst p) (snd p) / w).
  { assert (G : exists x, In x (x0 :: xs) /\ top = x / w).
    { destruct (fold_rmax_in (map (fun x => x / w) xs) (x0 / w)) as [E|E]; fold top in E; [exists x0; split; [now left|exact E]|].
      apply in_map_iff in E as (x & Ex & Hx'). exists x. split; [now right|now symmetry]. }
    destruct G as (x & G1 & G2). rewrite ER in G1. apply in_map_iff in G1 as (p & Ep & Hp'). exists p. split; [exact Hp'|]. now rewrite Ep. }
  assert (Htop : 0 <= top). { pose proof (Hin _ Hp) as G. pose proof (Hr _ Hp) as G2. assert (0 <= f_at r (fst (0%Z, 0%Z)) (snd (0%Z, 0%Z)) / w) by (apply div_nonneg; assumption). lra. }
  assert (En : pyint top = Int_part top) by (unfold pyint; destruct (Rle_dec 0 top); [reflexivity|contradiction]). rewrite En. set (n := Int_part top).
  destruct (base_Int_part top) as [I1 I2]. fold n in I1, I2.
  assert (Hn : (0 <= n)%Z). { assert (IZR (-1) < IZR n) by lra. apply lt_IZR in H. lia. }
  exists n. split; [|split; [exact Hn|]].
  - split.
    + destruct Hex as (p & Hp' & Et). exists p. split; [exact Hp'|]. apply floor_ring; [exact Hw|]. unfold npfloor. now rewrite <- Et.
    + intros p Hp'. specialize (Hin p Hp'). rewrite plus_IZR. assert (E : f_at r (fst p) (snd p) = f_at r (fst p) (snd p) / w * w) by (field; lra). rewrite E. nra.
  - change (npfloor (x0 / w) :: map (fun x => npfloor (x / w)) xs) with (map (fun x => npfloor (x / w)) (x0 :: xs)). rewrite <- Erav.
    replace (forallb _ _) with true.
    + f_equal. assert (A1 : forall a, f_ny a = f_ny r -> f_nx a = f_nx r -> map (fun b => per_hit (bincount_w (map (fun x => npfloor (x / w)) (ravel r)) (ravel a) b) (bincount_at (map (fun x => npfloor (x / w)) (ravel r)) b)) (zrange 0 n) = map (fun b => mean a (ring r w b)) (zrange 0 n)).
      { intros a Ay Ax. apply map_ext. intros b. now apply avg_ring. }
      rewrite (A1 m Hy Hx), (A1 r eq_refl eq_refl). f_equal. apply map_ext. intros b. now apply nhit_ring.
    + symmetry. apply forallb_forall. intros i Hi. apply in_map_iff in Hi as (x & <- & Hx'). rewrite ravel_pixels in Hx'. apply in_map_iff in Hx' as (p & <- & Hp').
      apply Z.leb_le. unfold npfloor. destruct (base_Int_part (f_at r (fst p) (snd p) / w)) as [J1 J2].
      assert (0 <= f_at r (fst p) (snd p) / w) by (apply div_nonneg; auto). assert (IZR (-1) < IZR (Int_part (f_at r (fst p) (snd p) / w))) by lra. apply lt_IZR in H0. lia.
Qed.

Lemma rsum_bounds lo hi l : (forall x, In x l -> lo <= x <= hi) -> lo * IZR (zlen l) <= rsum l <= hi * IZR (zlen l).
Proof.
  induction l as [|x l IH]; intros H; [cbn; lra|]. rewrite zlen_cons, plus_IZR. cbn [rsum].
  assert (lo <= x <= hi) by (apply H; now left). assert (lo * IZR (zlen l) <= rsum l <= hi * IZR (zlen l)) by (apply IH; intros y Hy; apply H; now right). lra.
Qed.
Lemma mean_bounds a l lo hi v : (forall p, In p l -> lo <= f_at a (fst p) (snd p) <= hi) -> mean a l = Some v -> lo <= v <= hi.
Proof.
  unfold mean. destruct l as [|p l]; [discriminate|]. intros H E. apply Some_inj in E. set (L := p :: l) in *.
  pose proof (rsum_bounds lo hi (map (fun p => f_at a (fst p) (snd p)) L)) as B. rewrite zlen_map in B.
  assert (0 < IZR (zlen L)) by (apply IZR_lt; unfold L; rewrite zlen_cons; pose proof (zlen_nonneg l); lia).
  destruct B as [B1 B2]. { intros x Hx. apply in_map_iff in Hx as (q & <- & Hq). auto. }
  subst v. set (S := rsum _) in *. assert (ES : S = S / IZR (zlen L) * IZR (zlen L)) by (field; lra). set (q := S / IZR (zlen L)) in *. split; nra.
Qed.
Lemma rsum_app l m : rsum (l ++ m) = rsum l + rsum m.
Proof. induction l as [|x l IH]; cbn [app rsum]; [lra|rewrite IH; lra]. Qed.
Lemma rsum_zero {A} (l : list A) : rsum (map (fun _ => 0) l) = 0.
Proof. induction l as [|x l IH]; [reflexivity|]. cbn [map rsum]. rewrite IH. lra. Qed.
Lemma rsum_plus {A} (f g : A -> R) l : rsum (map (fun x => f x + g x) l) = rsum (map f l) + rsum (map g l).
Proof. induction l as [|x l IH]; cbn [map rsum]; [lra|rewrite IH; lra]. Qed.

