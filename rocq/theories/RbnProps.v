(* C108: radial binning of maps. *)
From Coq Require Import Reals Lra.
From Verif Require Import Base ArrModel RdsModel RbnSpec RbnModel RbnLemmas.
Ltac Zify.zify_post_hook ::= idtac.
Open Scope R_scope.

Definition same_shape (m r : farr R) : Prop := f_ny m = f_ny r /\ f_nx m = f_nx r /\ (0 < f_ny r)%Z /\ (0 < f_nx r)%Z.
(* the bins: b.bn_vals etc. hold, for each ring that fits completely, the mean of the map, the mean distance, the number of pixels *)
Definition ring_means (m r : farr R) (w : R) (b : binned) : Prop :=
  exists n, full_rings r w n /\ (0 <= n)%Z /\
    bn_vals b = map (fun k => mean m (ring r w k)) (zrange 0 n) /\ bn_rads b = map (fun k => mean r (ring r w k)) (zrange 0 n) /\
    bn_nhit b = map (fun k => zlen (ring r w k)) (zrange 0 n) /\ bn_edges b = map (fun k => IZR k * w) (zrange 0 (n + 1)).

Theorem C108_rbin (m r : farr R) ext bsize brel rop :
  let r' := match rop with Some f => f r | None => r end in
  let w := match bsize with Some b => b | None => Rmin (fst ext / IZR (f_ny m)) (snd ext / IZR (f_nx m)) end * brel in
  same_shape m r' -> 0 < w -> (forall p, In p (pixels r') -> 0 <= f_at r' (fst p) (snd p)) ->
  exists b, rbin m r ext bsize brel rop = Some b /\ ring_means m r' w b.
Proof.
  intros r' w (H1 & H2 & H3 & H4) Hw Hr. destruct (bin_helper_ok m r' w Hw H1 H2 H3 H4 Hr) as (n & N1 & N2 & E).
  eexists. split; [exact E|]. exists n. cbn. auto 8.
Qed.
Print Assumptions C108_rbin.

Theorem C108_lbin (m l : farr R) bsize brel lop :
  let l' := match lop with Some f => f l | None => l end in
  let w := match bsize with Some b => b | None => Rmin (Rabs (f_at l' 0 1)) (Rabs (f_at l' 1 0)) end * brel in
  same_shape m l' -> 0 < w -> (bsize = None -> 2 <= f_ny l' /\ 2 <= f_nx l')%Z -> (forall p, In p (pixels l') -> 0 <= f_at l' (fst p) (snd p)) ->
  exists b, lbin m l bsize brel lop = Some b /\ ring_means m l' w b.
Proof.
  intros l' w (H1 & H2 & H3 & H4) Hw H5 Hr. destruct (bin_helper_ok m l' w Hw H1 H2 H3 H4 Hr) as (n & N1 & N2 & E).
  unfold lbin. fold l'. destruct bsize as [bs|].
  - eexists. split; [exact E|]. exists n. cbn. auto 8.
  - destruct (H5 eq_refl). replace (_ || _) with false by (symmetry; rewrite orb_false_iff; lia).
    eexists. split; [exact E|]. exists n. cbn. auto 8.
Qed.
Print Assumptions C108_lbin.

(* what the user gets out of it: values between the smallest and largest of the ring, radii inside the ring, and bins that
   are not a number exactly where there are no pixels *)
Theorem C108_bin_values m r w b k v lo hi : ring_means m r w b -> zget (bn_vals b) k = Some (Some v) ->
  (forall p, In p (pixels r) -> in_ring w k (f_at r (fst p) (snd p)) -> lo <= f_at m (fst p) (snd p) <= hi) -> lo <= v <= hi.
Proof.
  intros (n & _ & _ & -> & _) Hk H. pose proof (zget_Some_range _ _ _ Hk) as Rk. rewrite zlen_map, zrange_zlen in Rk. rewrite zget_map, zget_zrange in Hk by lia.
  cbn [option_map] in Hk. apply Some_inj in Hk. rewrite Z.add_0_l in Hk. eapply mean_bounds; [|exact Hk].
  intros p Hp. unfold ring in Hp. apply filter_In in Hp as [Hp Hd]. apply H; [exact Hp|]. destruct (in_ring_dec w k (f_at r (fst p) (snd p))); [assumption|discriminate].
Qed.
Print Assumptions C108_bin_values.

Theorem C108_bin_radius m r w b k v : ring_means m r w b -> zget (bn_rads b) k = Some (Some v) -> in_ring w k v.
Proof.
  intros (n & _ & _ & _ & -> & _) Hk. pose proof (zget_Some_range _ _ _ Hk) as Rk. rewrite zlen_map, zrange_zlen in Rk. rewrite zget_map, zget_zrange in Hk by lia.
  cbn [option_map] in Hk. apply Some_inj in Hk. rewrite Z.add_0_l in Hk.
  assert (F : forall p, In p (ring r w k) -> in_ring w k (f_at r (fst p) (snd p))).
  { intros p Hp. unfold ring in Hp. apply filter_In in Hp as [_ Hd]. destruct (in_ring_dec w k (f_at r (fst p) (snd p))); [assumption|discriminate]. }
  destruct (ring r w k) as [|p0 l] eqn:E; [discriminate|]. set (L := p0 :: l) in *.
  assert (M : exists hi, hi < IZR (k + 1) * w /\ forall p, In p L -> f_at r (fst p) (snd p) <= hi).
  { clear - F. induction L as [|p L IH]; [exists (IZR (k + 1) * w - 1); split; [lra|intros p []]|].
    destruct IH as (h & Hh1 & Hh2); [intros q Hq; apply F; now right|]. destruct (F p (or_introl eq_refl)) as [_ F2].
    exists (Rmax h (f_at r (fst p) (snd p))). split; [apply Rmax_lub_lt; assumption|]. intros q [<-|Hq]; [apply Rmax_r|]. pose proof (Rmax_l h (f_at r (fst p) (snd p))). specialize (Hh2 q Hq). lra. }
  destruct M as (hi & M1 & M2). destruct (mean_bounds r L (IZR k * w) hi v) as [B1 B2]; [|exact Hk|split; lra].
  intros p Hp. split; [exact (proj1 (F p Hp))|auto].
Qed.
Print Assumptions C108_bin_radius.

Theorem C108_empty_bins m r w b k : ring_means m r w b -> (0 <= k < zlen (bn_vals b))%Z ->
  (zget (bn_vals b) k = Some None <-> forall p, In p (pixels r) -> ~ in_ring w k (f_at r (fst p) (snd p))).
Proof.
  intros (n & _ & _ & -> & _) Rk. rewrite zlen_map, zrange_zlen in Rk. rewrite zget_map, zget_zrange by lia. cbn [option_map]. rewrite Z.add_0_l. split.
  - intros E p Hp Hin. apply Some_inj in E. unfold mean in E. destruct (ring r w k) as [|q l] eqn:Er; [|discriminate].
    assert (G : In p (ring r w k)). { unfold ring. apply filter_In. split; [exact Hp|]. destruct (in_ring_dec w k (f_at r (fst p) (snd p))); [reflexivity|contradiction]. }
    rewrite Er in G. destruct G.
  - intros H. replace (ring r w k) with (@nil (Z * Z)); [reflexivity|]. symmetry. unfold ring. induction (pixels r) as [|p l IH]; [reflexivity|]. cbn [filter].
    destruct (in_ring_dec w k (f_at r (fst p) (snd p))) as [Hd|_]; [exfalso; exact (H p (or_introl eq_refl) Hd)|]. apply IH. intros q Hq. apply H. now right.
Qed.
Print Assumptions C108_empty_bins.

(* no pixel inside the binned region is lost or counted twice *)
Theorem C108_total m r w b : same_shape m r -> 0 < w -> (forall p, In p (pixels r) -> 0 <= f_at r (fst p) (snd p)) -> ring_means m r w b ->
  rsum (map (fun vn => match fst vn with Some v => v * IZR (snd vn) | None => 0 end) (combine (bn_vals b) (bn_nhit b))) =
  rsum (map (fun p => f_at m (fst p) (snd p)) (filter (fun p => if Rlt_dec (f_at r (fst p) (snd p)) (IZR (zlen (bn_vals b)) * w) then true else false) (pixels r))).
Proof.
  intros _ Hw Hr (n & _ & Hn & -> & _ & -> & _). rewrite zlen_map, zrange_zlen. replace (Z.max 0 (n - 0)) with n by lia.
  assert (C : forall l : list Z, combine (map (fun k => mean m (ring r w k)) l) (map (fun k => zlen (ring r w k)) l) = map (fun k => (mean m (ring r w k), zlen (ring r w k))) l).
  { induction l as [|k l IH]; [reflexivity|]. cbn [map combine]. now rewrite IH. }
  rewrite C, map_map. cbn [fst snd].
  rewrite (map_ext _ (fun k => rsum (map (fun p => if in_ring_dec w k (f_at r (fst p) (snd p)) then f_at m (fst p) (snd p) else 0) (pixels r)))).
  - revert n Hn. apply (natlike_ind (fun n => rsum (map (fun k => rsum (map (fun p => if in_ring_dec w k (f_at r (fst p) (snd p)) then f_at m (fst p) (snd p) else 0) (pixels r))) (zrange 0 n)) =
      rsum (map (fun p => f_at m (fst p) (snd p)) (filter (fun p => if Rlt_dec (f_at r (fst p) (snd p)) (IZR n * w) then true else false) (pixels r))))).
    + cbn [map rsum zrange zseq Z.to_nat Z.sub]. rewrite zrange_empty by lia. cbn [map rsum]. clear C. induction (pixels r) as [|p l IH]; [reflexivity|]. cbn [filter].
      destruct (Rlt_dec _ _) as [H|H]; [specialize (Hr p (or_introl eq_refl)); lra|]. apply IH. intros q Hq. apply Hr. now right.
    + intros n Hn IH. unfold Z.succ. rewrite zrange_snoc by lia. rewrite map_app, rsum_app, IH. cbn [map rsum]. rewrite Rplus_0_r. clear IH C Hr.
      induction (pixels r) as [|p l IH]; [cbn; lra|]. cbn [filter map rsum].
      set (x := f_at r (fst p) (snd p)) in *. destruct (Rlt_dec x (IZR n * w)) as [H1|H1], (Rlt_dec x (IZR (n + 1) * w)) as [H2|H2], (in_ring_dec w n x) as [[H3 H4]|H3]; cbn [map rsum] in *; try lra;
        try (exfalso; apply H3; split; lra); try (exfalso; rewrite plus_IZR in *; nra).
  - intros k. unfold mean, ring. set (L := filter _ (pixels r)).
    assert (E : rsum (map (fun p => f_at m (fst p) (snd p)) L) = rsum (map (fun p => if in_ring_dec w k (f_at r (fst p) (snd p)) then f_at m (fst p) (snd p) else 0) (pixels r))).
    { unfold L. clear. induction (pixels r) as [|p l IH]; [reflexivity|]. cbn [filter map rsum]. destruct (in_ring_dec w k (f_at r (fst p) (snd p))); cbn [map rsum]; rewrite IH; lra. }
    rewrite <- E. destruct L as [|p L']; [reflexivity|]. field. rewrite zlen_cons. apply not_0_IZR. pose proof (zlen_nonneg L'). lia.
Qed.
Print Assumptions C108_total.

(* a change of units or zero point of the map carries over to the bins *)
Theorem C108_linear m r w a c b b' : same_shape m r -> 0 < w -> (forall p, In p (pixels r) -> 0 <= f_at r (fst p) (snd p)) ->
  bin_helper m r w = Some b -> bin_helper (FA (f_ny m) (f_nx m) (fun y x => a * f_at m y x + c)) r w = Some b' ->
  bn_vals b' = map (option_map (fun v => a * v + c)) (bn_vals b) /\ bn_rads b' = bn_rads b /\ bn_nhit b' = bn_nhit b.
Proof.
  intros (H1 & H2 & H3 & H4) Hw Hr E E'.
  destruct (bin_helper_ok m r w Hw H1 H2 H3 H4 Hr) as (n & (F1 & F2) & _ & G). rewrite E in G. apply Some_inj in G. subst b. clear E.
  edestruct (bin_helper_ok (FA (f_ny m) (f_nx m) (fun y x => a * f_at m y x + c)) r w Hw H1 H2 H3 H4 Hr) as (n' & (F1' & F2') & _ & G). rewrite E' in G. apply Some_inj in G. subst b'. clear E'.
  assert (n = n').
  { destruct F1 as (p & Hp & [P1 P2]), F1' as (p' & Hp' & [P1' P2']). specialize (F2' p Hp). specialize (F2 p' Hp').
    assert (A1 : IZR n < IZR (n' + 1)) by nra. assert (A2 : IZR n' < IZR (n + 1)) by nra. apply lt_IZR in A1, A2. lia. }
  subst n'. cbn [bn_vals bn_rads bn_nhit]. split; [|auto]. rewrite map_map. apply map_ext. intros k.
  unfold mean. destruct (ring r w k) as [|p l]; [reflexivity|]. cbn [option_map f_at]. f_equal. set (L := p :: l).
  assert (N : IZR (zlen L) <> 0) by (apply not_0_IZR; unfold L; rewrite zlen_cons; pose proof (zlen_nonneg l); lia).
  assert (E : rsum (map (fun q => a * f_at m (fst q) (snd q) + c) L) = a * rsum (map (fun q => f_at m (fst q) (snd q)) L) + c * IZR (zlen L)).
  { clear. induction L as [|q L IH]; [cbn; lra|]. rewrite zlen_cons, plus_IZR. cbn [map rsum]. rewrite IH. lra. }
  rewrite E. field. exact N.
Qed.
Print Assumptions C108_linear.

Theorem C108_raises m r w : 0 < w ->
  ((f_ny r <= 0)%Z \/ (f_nx r <= 0)%Z \/ exists p, In p (pixels r) /\ f_at r (fst p) (snd p) < 0) -> bin_helper m r w = None.
Proof.
  intros Hw H. unfold bin_helper. rewrite !ravel_pixels. destruct H as [H|[H|(p & Hp & Hn)]].
  - unfold pixels. rewrite (zrange_empty 0 (f_ny r)) by exact H. reflexivity.
  - unfold pixels. rewrite (zrange_empty 0 (f_nx r)) by exact H. replace (list_prod (zrange 0 (f_ny r)) (@nil Z)) with (@nil (Z * Z)); [reflexivity|]. symmetry. induction (zrange 0 (f_ny r)); [reflexivity|assumption].
  - destruct (rmax _); [|reflexivity]. replace (forallb _ _) with false; [reflexivity|]. symmetry. apply not_true_iff_false. intros F. rewrite forallb_forall in F.
    specialize (F (npfloor (f_at r (fst p) (snd p) / w))). assert (G : (0 <= npfloor (f_at r (fst p) (snd p) / w))%Z).
    { apply Z.leb_le, F. apply in_map_iff. eexists. split; [reflexivity|]. apply (in_map (fun q => f_at r (fst q) (snd q))). exact Hp. }
    destruct (proj1 (floor_ring w _ _ Hw) eq_refl : in_ring w _ (f_at r (fst p) (snd p))) as [G1 _]. apply IZR_le in G. nra.
Qed.
Print Assumptions C108_raises.

(* outside the claim: the ring in which the furthest pixel lies is left out, although it has pixels *)
Theorem C108_outermost m r w b : 0 < w -> ring_means m r w b -> exists p, In p (pixels r) /\ forall k, (0 <= k < zlen (bn_vals b))%Z -> ~ in_ring w k (f_at r (fst p) (snd p)).
Proof.
  intros Hw (n & [(p & Hp & [H1 H2]) _] & Hn & -> & _). exists p. split; [exact Hp|]. intros k Hk [K1 K2]. rewrite zlen_map, zrange_zlen in Hk.
  assert (IZR (k + 1) <= IZR n) by (apply IZR_le; lia). nra.
Qed.
Print Assumptions C108_outermost.

(* a 1x4 map with distances 0, 1, 1.5, 3: two full bins of width 1, then an empty one *)
Example C108_ex : let r := FA 1 4 (fun _ x => if (x =? 3)%Z then 3 else if (x =? 2)%Z then 3/2 else IZR x) in let m := FA 1 4 (fun _ x => IZR (10 * x)) in
  same_shape m r /\ (forall p, In p (pixels r) -> 0 <= f_at r (fst p) (snd p)) /\ full_rings r 1 3 /\
  exists b, rbin m r (1, 4) None 1 None = Some b /\ bn_nhit b = [1; 2; 0]%Z /\ bn_vals b = [Some 0; Some 15; None].
Proof.
  intros r m. assert (S : same_shape m r) by (repeat split).
  assert (P : pixels r = [(0, 0); (0, 1); (0, 2); (0, 3)]%Z) by reflexivity.
  assert (NN : forall p, In p (pixels r) -> 0 <= f_at r (fst p) (snd p)).
  { rewrite P. intros p [<-|[<-|[<-|[<-|[]]]]]; cbn; lra. }
  assert (F3 : full_rings r 1 3).
  { split; [exists (0, 3)%Z; split; [right; right; right; left; reflexivity|unfold in_ring; cbn; lra]|]. intros p Hp. assert (Hp' : In p (pixels r)) by exact Hp. rewrite P in Hp'. clear Hp. destruct Hp' as [<-|[<-|[<-|[<-|[]]]]]; cbn; lra. }
  split; [exact S|]. split; [exact NN|]. split; [exact F3|].
  assert (Hw : Rmin (1 / IZR 1) (4 / IZR 4) * 1 = 1) by (rewrite Rmin_left; lra).
  destruct (C108_rbin m r (1, 4) None 1 None) as (b & E & n & FR & Hn & V & _ & N & _); [exact S| |exact NN|].
  { cbn [f_ny f_nx m fst snd]. rewrite Hw. lra. }
  exists b. split; [exact E|]. cbn [f_ny f_nx m fst snd] in V, N, FR. rewrite Hw in V, N, FR.
  assert (n = 3)%Z.
  { destruct FR as [(p & Hp & [P1 P2]) Q], F3 as [(p' & Hp' & [P1' P2']) Q']. specialize (Q p' Hp'). specialize (Q' p Hp). change (IZR (3 + 1)) with 4 in Q'.
    assert (A1 : IZR n < IZR 4) by lra. assert (A2 : IZR 3 < IZR (n + 1)) by lra. apply lt_IZR in A1, A2. lia. }
  subst n. change (zrange 0 3) with [0; 1; 2]%Z in *. cbn [map] in V, N.
  assert (R0 : ring r 1 0 = [(0, 0)]%Z /\ ring r 1 1 = [(0, 1); (0, 2)]%Z /\ ring r 1 2 = []).
  { unfold ring. rewrite P. cbn [filter fst snd f_at r].
    repeat split; repeat (destruct (in_ring_dec _ _ _) as [[? ?]|?]; try (cbn in *; lra); try reflexivity; try (exfalso; match goal with H : ~ in_ring _ _ _ |- _ => apply H; unfold in_ring; cbn; lra end)). }
  destruct R0 as (-> & -> & ->) in V, N. split; [exact N|]. rewrite V. unfold mean. cbn [map rsum zlen length fst snd f_at m]. repeat f_equal; cbn; lra.
Qed.
