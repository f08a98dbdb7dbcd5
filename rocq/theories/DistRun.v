(* The runs of the transforms, and the pixelizations. *)
From Coq Require Import Permutation.
From Verif Require Import Base RangeModel RangeLemmas FindLemmas AlmModel AlmLemmas HpSpec HpModel HpLemmas DistSpec DistModel DistLemmas DistHeap.
Local Open Scope Z_scope.
Ltac Zify.zify_post_hook ::= idtac.

Section Run.
Context (D : Z -> Z -> Z) (npoint rmax npix : Z) (pix : node -> option Z) (nbs : node -> option (list node)) (valid : node -> Prop).
Hypothesis Hpix : forall q, valid q -> exists p, pix q = Some p /\ 0 <= p < npix.
Hypothesis Hinj : forall q q' p, valid q -> valid q' -> pix q = Some p -> pix q' = Some p -> q = q'.
Hypothesis Hnbs : forall q, valid q -> exists l, nbs q = Some l /\ forall r, In r l -> valid r.
Hypothesis Hn : 0 <= npix.

Definition outcome (points : list node) (dists domains : list Z) : Prop :=
  finished D npoint rmax npix pix nbs valid dists domains /\
  (forall i q p, zget points i = Some q -> pix q = Some p -> exists j, zget domains p = Some j /\ 0 <= j) /\
  (forall i q p, zget points i = Some q -> pix q = Some p -> (forall k q', zget points k = Some q' -> pix q' = Some p -> k = i) -> exists d, zget dists p = Some d /\ d <= D i p).

Lemma outcome_later points d m d' m' : honest D npoint npix rmax d m -> finished D npoint rmax npix pix nbs valid d' m' -> later (d, m) (d', m') ->
  (forall i q p, zget points i = Some q -> pix q = Some p -> exists j, zget m p = Some j /\ 0 <= j) ->
  (forall i q p, zget points i = Some q -> pix q = Some p -> (forall k q', zget points k = Some q' -> pix q' = Some p -> k = i) -> zget d p = Some (D i p) /\ zget m p = Some i) ->
  outcome points d' m'.
Proof.
  intros H F L A B. pose proof F as (H' & _).
  assert (R : forall p j, zget m p = Some j -> exists dd dd' jj', zget d p = Some dd /\ zget d' p = Some dd' /\ zget m' p = Some jj' /\ dd' <= dd /\ (0 <= j -> 0 <= jj')).
  { intros p j E. pose proof H as (_ & L2 & _). pose proof (zget_Some_range _ _ _ E) as Rp.
    destruct (honest_at _ _ _ _ _ _ p H ltac:(lia)) as (d1 & j1 & X1 & X2 & _). destruct (honest_at _ _ _ _ _ _ p H' ltac:(lia)) as (d2 & j2 & X3 & X4 & _).
    exists d1, d2, j2. assert (j1 = j) by congruence. subst j1. destruct (L p d1 j d2 j2 X1 X2 X3 X4). auto. }
  split; [exact F|]. split.
  - intros i q p E1 E2. destruct (A i q p E1 E2) as (j & E & Hj). destruct (R p j E) as (a & b & c & _ & _ & X & _ & Y). exists c. auto.
  - intros i q p E1 E2 U. destruct (B i q p E1 E2 U) as (E & E'). destruct (R p i E') as (a & b & c & X1 & X2 & _ & Y & _). exists b. split; [exact X2|]. replace (D i p) with a by congruence. exact Y.
Qed.

(* ---- bubble ---- *)
Lemma vec_items w v (q : node) : Permutation (vec_push w v q) (q :: w).
Proof. unfold vec_push. symmetry. apply Permutation_cons_append. Qed.
Lemma bubble_mono fuel : forall fuel' st r, (fuel <= fuel')%nat -> bubble_loop D npoint rmax pix nbs fuel st = Some r -> bubble_loop D npoint rmax pix nbs fuel' st = Some r.
Proof.
  induction fuel as [|fuel IH]; intros fuel' [[d m] c] r Hf E; destruct c as [|q c].
  - destruct fuel'; exact E. - discriminate.
  - destruct fuel'; exact E.
  - destruct fuel' as [|fuel']; [lia|]. cbn [bubble_loop] in *. apply bind_some in E. destruct E as (st & E1 & E2). rewrite E1. cbn [bind]. apply IH; [lia|exact E2].
Qed.
Lemma bubble_end fuel : forall d m c, INV D npoint rmax npix pix nbs (fun l => l) valid (fun _ => False) (d, m, c) -> (gap D npoint npix d < fuel)%nat ->
  exists d' m', bubble_loop D npoint rmax pix nbs fuel (d, m, c) = Some (d', m') /\ finished D npoint rmax npix pix nbs valid d' m' /\ later (d, m) (d', m').
Proof.
  induction fuel as [|fuel IH]; intros d m c HI Hf; [lia|].
  assert (LR : later (d, m) (d, m)) by (intros p d1 j1 d2 j2; cbn [fst snd]; intros; replace d2 with d1 by congruence; replace j2 with j1 by congruence; lia).
  destruct c as [|q c].
  { exists d, m. split; [reflexivity|]. split; [|exact LR]. eapply (finish _ _ _ _ _ _ (fun l => l)); [reflexivity|exact HI]. }
  remember (q :: c) as cc eqn:Ecc. assert (E0 : bubble_loop D npoint rmax pix nbs (S fuel) (d, m, cc) = bind (ofold (visit D npoint rmax pix nbs vec_push) cc (d, m, [])) (bubble_loop D npoint rmax pix nbs fuel)) by (subst cc; reflexivity).
  rewrite E0. clear E0.
  destruct (visit_pass D npoint rmax npix pix nbs vec_push (fun l => l) valid vec_items Hpix Hinj Hnbs cc (fun _ => False) d m []) as (d1 & m1 & c1 & E1 & I1 & L1 & G1).
  { destruct HI as (A & B & C & S1). split; [exact A|]. split; [intros u []|]. split; [intros u [[]|X]; auto|]. intros u p j V X1 X2 X3. destruct (S1 u p j V X1 X2 X3) as [[]|[X|X]]; auto. }
  rewrite E1. cbn [bind]. cbn [length] in G1. destruct c1 as [|q1 c1].
  - exists d1, m1. split; [destruct fuel; reflexivity|]. split; [|exact L1]. eapply (finish _ _ _ _ _ _ (fun l => l)); [reflexivity|exact I1].
  - cbn [length] in G1. destruct (IH d1 m1 (q1 :: c1) I1 ltac:(lia)) as (d2 & m2 & E2 & F2 & L2). exists d2, m2. split; [exact E2|]. split; [exact F2|].
    eapply later_trans; [exact L1|exact L2|]. eapply honest_same; [exact (INV_honest _ _ _ _ _ _ _ _ _ _ _ _ HI)|exact (INV_honest _ _ _ _ _ _ _ _ _ _ _ _ I1)].
Qed.
Lemma bubble_ok points : (forall q, In q points -> valid q) -> zlen points = npoint ->
  exists dists domains, (forall fuel, npix * npoint < Z.of_nat fuel -> distance_bubble D npix npoint rmax pix nbs points fuel = Some (dists, domains)) /\ outcome points dists domains.
Proof.
  intros HV HL. destruct (start_ok D npoint rmax npix pix nbs vec_push (fun l => l) valid vec_items Hpix Hinj Hnbs [] points eq_refl HV HL Hn) as (d & m & w & E & I1 & Lw & S1 & S2).
  pose proof (zlen_nonneg points). pose proof (gap_bound D npoint npix d Hn ltac:(lia)) as GB.
  destruct (bubble_end (S (Z.to_nat (npix * npoint))) d m w I1 ltac:(lia)) as (d' & m' & E' & F & L). exists d', m'. split.
  - intros fuel Hf. unfold distance_bubble. rewrite E. cbn [bind]. eapply bubble_mono; [|exact E']. assert (0 <= npix * npoint) by (apply Z.mul_nonneg_nonneg; lia). lia.
  - eapply outcome_later; [exact (INV_honest _ _ _ _ _ _ _ _ _ _ _ _ I1)|exact F|exact L|exact S1|exact S2].
Qed.

(* ---- heap ---- *)
Definition hitems (l : list hentry) : list node := map snd l.
Lemma heap_items w v q : Permutation (hitems (heap_push w v q)) (q :: hitems w).
Proof. unfold hitems, heap_push. etransitivity; [apply Permutation_map, push_perm|]. reflexivity. Qed.
Lemma heap_mono fuel : forall fuel' st r, (fuel <= fuel')%nat -> heap_loop D npoint rmax pix nbs fuel st = Some r -> heap_loop D npoint rmax pix nbs fuel' st = Some r.
Proof.
  induction fuel as [|fuel IH]; intros fuel' [[d m] c] r Hf E; destruct c as [|q c].
  - destruct fuel'; exact E. - discriminate.
  - destruct fuel'; exact E.
  - destruct fuel' as [|fuel']; [lia|]. cbn [heap_loop] in *. apply bind_some in E. destruct E as ([e h] & E1 & E2). rewrite E1. cbn [bind].
    apply bind_some in E2. destruct E2 as (st & E2 & E3). rewrite E2. cbn [bind]. apply IH; [lia|exact E3].
Qed.
Lemma heap_end fuel : forall d m h, INV D npoint rmax npix pix nbs hitems valid (fun _ => False) (d, m, h) -> (length h + gap D npoint npix d <= fuel)%nat ->
  exists d' m', heap_loop D npoint rmax pix nbs fuel (d, m, h) = Some (d', m') /\ finished D npoint rmax npix pix nbs valid d' m' /\ later (d, m) (d', m').
Proof.
  induction fuel as [|fuel IH]; intros d m h HI Hf.
  all: assert (LR : later (d, m) (d, m)) by (intros p d1 j1 d2 j2; cbn [fst snd]; intros; replace d2 with d1 by congruence; replace j2 with j1 by congruence; lia).
  all: destruct h as [|q h].
  1, 3: exists d, m; split; [reflexivity|]; split; [|exact LR]; apply (finish D npoint rmax npix pix nbs hitems valid [] d m eq_refl HI).
  { cbn [length] in Hf. lia. }
  destruct (pop_perm (q :: h) ltac:(discriminate)) as (e & h' & E & P). remember (q :: h) as hh eqn:Ehh.
  assert (E0 : heap_loop D npoint rmax pix nbs (S fuel) (d, m, hh) = bind (visit D npoint rmax pix nbs heap_push (d, m, h') (snd e)) (heap_loop D npoint rmax pix nbs fuel)).
  { rewrite Ehh. cbn [heap_loop]. rewrite <- Ehh, E. reflexivity. }
  rewrite E0. clear E0. pose proof (Permutation_map snd P) as PM. cbn [map] in PM. fold (hitems h') in PM. fold (hitems hh) in PM.
  destruct (visit_ok D npoint rmax npix pix nbs heap_push hitems valid heap_items Hpix Hinj Hnbs (fun _ => False) d m h' (snd e)) as (d1 & m1 & c1 & E1 & I1 & L1 & G1).
  { destruct HI as (A & B & C & S1). split; [exact A|]. split; [intros u Hu; apply B; apply (Permutation_in _ (Permutation_sym PM)); right; exact Hu|].
    split; [intros u [[]| ->]; apply B; apply (Permutation_in _ (Permutation_sym PM)); left; reflexivity|].
    intros u p j V X1 X2 X3. destruct (S1 u p j V X1 X2 X3) as [[]|[X|X]]; [|auto]. apply (Permutation_in _ PM) in X. destruct X as [X|X]; [left; right; symmetry; exact X|auto]. }
  { intros u []. }
  rewrite E1. cbn [bind]. pose proof (Permutation_length P) as PL. cbn [length] in PL. unfold hitems in G1. rewrite !map_length in G1. change (@length (Z * node)) with (@length hentry) in G1.
  destruct (IH d1 m1 c1 I1 ltac:(lia)) as (d2 & m2 & E2 & F2 & L2). exists d2, m2. split; [exact E2|]. split; [exact F2|].
  eapply later_trans; [exact L1|exact L2|]. eapply honest_same; [exact (INV_honest _ _ _ _ _ _ _ _ _ _ _ _ HI)|exact (INV_honest _ _ _ _ _ _ _ _ _ _ _ _ I1)].
Qed.
Lemma heap_ok points : (forall q, In q points -> valid q) -> zlen points = npoint ->
  exists dists domains, (forall fuel, npoint + npix * npoint <= Z.of_nat fuel -> distance_heap D npix npoint rmax pix nbs points fuel = Some (dists, domains)) /\ outcome points dists domains.
Proof.
  intros HV HL. destruct (start_ok D npoint rmax npix pix nbs heap_push hitems valid heap_items Hpix Hinj Hnbs [] points eq_refl HV HL Hn) as (d & m & w & E & I1 & Lw & S1 & S2).
  pose proof (zlen_nonneg points). pose proof (gap_bound D npoint npix d Hn ltac:(lia)) as GB. assert (0 <= npix * npoint) by (apply Z.mul_nonneg_nonneg; lia).
  unfold hitems in Lw. rewrite map_length in Lw. change (@length (Z * node)) with (@length hentry) in Lw. unfold zlen in HL.
  destruct (heap_end (Z.to_nat (npoint + npix * npoint)) d m w I1 ltac:(lia)) as (d' & m' & E' & F & L). exists d', m'. split.
  - intros fuel Hf. unfold distance_heap. rewrite E. cbn [bind]. eapply heap_mono; [|exact E']. lia.
  - eapply outcome_later; [exact (INV_honest _ _ _ _ _ _ _ _ _ _ _ _ I1)|exact F|exact L|exact S1|exact S2].
Qed.

(* ---- consequences, in terms of pixels ---- *)
Context (nbr : Z -> Z -> Prop).
Hypothesis Hnbr : forall p q, nbr p q -> exists u v l, valid u /\ pix u = Some p /\ nbs u = Some l /\ In v l /\ pix v = Some q.
Lemma outcome_local points d m : outcome points d m -> locally_closest D rmax nbr d m.
Proof.
  intros ((_ & F) & _) p q j dd N Ej Hj Ed. destruct (Hnbr p q N) as (u & v & l & Vu & Pu & Nu & Iv & Pv). exact (F u p j Vu Pu Ej Hj l v Nu Iv q dd Pv Ed).
Qed.
Lemma nbr_range p q : nbr p q -> 0 <= q < npix.
Proof.
  intros N. destruct (Hnbr p q N) as (u & v & l & Vu & Pu & Nu & Iv & Pv). destruct (Hnbs u Vu) as (l' & E & H). replace l' with l in H by congruence.
  destruct (Hpix v (H v Iv)) as (q' & E' & R). replace q with q' by congruence. exact R.
Qed.
Lemma outcome_reach points d m i u p0 p : outcome points d m -> zget points i = Some u -> pix u = Some p0 ->
  (forall j q, 0 <= j < npoint -> 0 <= q < npix -> D j q < rmax) -> walk nbr (fun _ => True) p0 p -> exists j, zget m p = Some j /\ 0 <= j < npoint.
Proof.
  intros O Eu Ep HD Wk. pose proof O as ((HH & _) & S1 & _). assert (HB : forall p j, zget m p = Some j -> 0 <= j -> 0 <= j < npoint).
  { intros q j E Hj. pose proof HH as (_ & L & _). pose proof (zget_Some_range _ _ _ E). destruct (honest_at _ _ _ _ _ _ q HH ltac:(lia)) as (d1 & j1 & _ & E1 & [X|X]); replace j with j1 in * by congruence; lia. }
  assert (exists j, zget m p = Some j /\ 0 <= j) as (j & E & Hj); [|exists j; split; [exact E|eauto]].
  induction Wk as [|p0 q r W1 IH N _]; [eauto|]. destruct (IH Ep) as (j & E & Hj).
  destruct (honest_at _ _ _ _ _ _ r HH (nbr_range _ _ N)) as (dr & jr & Er & Ejr & X). exists jr. split; [exact Ejr|].
  destruct (outcome_local _ _ _ O q r j dr N E Hj Er) as [Y|Y]; pose proof (HD j r (HB _ _ E Hj) (nbr_range _ _ N)); lia.
Qed.
Lemma outcome_exact points d m i u p0 p : outcome points d m -> zget points i = Some u -> pix u = Some p0 ->
  (forall k q', zget points k = Some q' -> pix q' = Some p0 -> k = i) -> walk nbr (fun q => nearest D npoint i q /\ D i q < rmax) p0 p ->
  zget d p = Some (D i p) /\ zget m p = Some i.
Proof.
  intros O Eu Ep U Wk. pose proof O as ((HH & _) & _ & S2).
  assert (K : forall q dq, zget d q = Some dq -> dq <= D i q -> nearest D npoint i q /\ D i q < rmax -> zget d q = Some (D i q) /\ zget m q = Some i).
  { intros q dq E L [[Hi Hs] Hr]. pose proof (zget_Some_range _ _ _ E). pose proof HH as (L1 & _). destruct (honest_at _ _ _ _ _ _ q HH ltac:(lia)) as (d1 & j1 & E1 & E2 & X).
    assert (d1 = dq) by congruence. subst d1. destruct X as [X|[X Y]]; [lia|]. destruct (Z.eq_dec j1 i) as [->|N]; [subst dq; auto|]. specialize (Hs j1 X N). lia. }
  induction Wk as [p0 HP|p0 q r W1 IH N HP].
  - destruct (S2 i u p0 Eu Ep U) as (dp & E & L). exact (K p0 dp E L HP).
  - destruct (IH Ep U) as [E1 E2]. destruct (honest_at _ _ _ _ _ _ r HH (nbr_range _ _ N)) as (dr & jr & Er & _ & _). apply (K r dr Er); [|exact HP].
    destruct HP as [[Hi _] Hr]. destruct (outcome_local _ _ _ O q r i dr N E2 ltac:(lia) Er); lia.
Qed.
End Run.

(* ---- the two pixelizations ---- *)
Definition flat_valid (ny nx : Z) (q : node) : Prop := 0 <= fst q < ny /\ 0 <= snd q < nx.
Lemma flat_Hpix ny nx q : flat_valid ny nx q -> exists p, flat_pix ny nx q = Some p /\ 0 <= p < ny * nx.
Proof. intros [H1 H2]. eexists. split; [reflexivity|]. assert ((fst q + 1) * nx <= ny * nx) by (apply Z.mul_le_mono_nonneg_r; lia). assert (0 <= fst q * nx) by (apply Z.mul_nonneg_nonneg; lia). lia. Qed.
Lemma flat_inj nx y x y' x' : 0 <= x < nx -> 0 <= x' < nx -> y * nx + x = y' * nx + x' -> y = y' /\ x = x'.
Proof.
  intros H H' E. assert (y = y'); [|subst; lia]. destruct (Z.lt_trichotomy y y') as [L|[L|L]]; [|exact L|].
  - assert ((y + 1) * nx <= y' * nx) by (apply Z.mul_le_mono_nonneg_r; lia). lia.
  - assert ((y' + 1) * nx <= y * nx) by (apply Z.mul_le_mono_nonneg_r; lia). lia.
Qed.
Lemma flat_Hinj ny nx q q' p : flat_valid ny nx q -> flat_valid ny nx q' -> flat_pix ny nx q = Some p -> flat_pix ny nx q' = Some p -> q = q'.
Proof.
  intros [_ H] [_ H'] E E'. unfold flat_pix in *. apply Some_inj in E, E'. destruct (flat_inj nx (fst q) (snd q) (fst q') (snd q') H H' ltac:(lia)). destruct q, q'. cbn [fst snd] in *. congruence.
Qed.
Definition wrap1 (n v : Z) : Z := if v <? 0 then v + n else if n <=? v then v - n else v.
Lemma wrap1_mod n v : 1 <= n -> -1 <= v <= n -> wrap1 n v = v mod n.
Proof.
  intros Hn Hv. unfold wrap1. destruct (Z.ltb_spec v 0).
  - apply (Z.mod_unique_pos _ _ (-1)); lia.
  - destruct (Z.leb_spec n v); [apply (Z.mod_unique_pos _ _ 1); lia|]. symmetry. apply Z.mod_small. lia.
Qed.
Lemma flat_nb_list ny nx y x : flat_nbs ny nx (y, x) = Some (map (fun '(dy, dx) => (wrap1 ny (y + dy), wrap1 nx (x + dx))) [(0, -1); (0, 1); (-1, 0); (1, 0)]).
Proof. reflexivity. Qed.
Lemma flat_Hnbs ny nx q : flat_valid ny nx q -> exists l, flat_nbs ny nx q = Some l /\ forall r, In r l -> flat_valid ny nx r.
Proof.
  intros [Hy Hx]. destruct q as [y x]. cbn [fst snd] in *. eexists. split; [apply flat_nb_list|]. intros r Hr. apply in_map_iff in Hr. destruct Hr as ([dy dx] & <- & Hd).
  assert (B : (dy = 0 \/ dy = -1 \/ dy = 1) /\ (dx = 0 \/ dx = -1 \/ dx = 1)) by (destruct Hd as [E|[E|[E|[E|[]]]]]; injection E as <- <-; lia).
  unfold flat_valid. cbn [fst snd]. rewrite !wrap1_mod by lia. split; apply Z.mod_pos_bound; lia.
Qed.
Lemma flat_Hnbr ny nx p q : grid_nbr ny nx p q -> exists u v l, flat_valid ny nx u /\ flat_pix ny nx u = Some p /\ flat_nbs ny nx u = Some l /\ In v l /\ flat_pix ny nx v = Some q.
Proof.
  intros (y & x & dy & dx & Hy & Hx & Hd & -> & ->). exists (y, x), (wrap1 ny (y + dy), wrap1 nx (x + dx)). eexists.
  split; [split; cbn [fst snd]; lia|]. split; [reflexivity|]. split; [apply flat_nb_list|]. split.
  - apply in_map_iff. exists (dy, dx). split; [reflexivity|]. assert (C : dy = 0 /\ dx = -1 \/ dy = 0 /\ dx = 1 \/ dy = -1 /\ dx = 0 \/ dy = 1 /\ dx = 0) by lia.
    destruct C as [[-> ->]|[[-> ->]|[[-> ->]|[-> ->]]]]; cbn [In]; auto 6.
  - unfold flat_pix. cbn [fst snd]. rewrite !wrap1_mod by lia. reflexivity.
Qed.

Definition hp_valid (n : Z) (q : node) : Prop := is_pix n (fst q) (snd q).
Lemma hp_pix_eq n q : hp_valid n q -> hp_pix (the_info n) q = Some (ring_start n (fst q) + snd q).
Proof. intros [H _]. unfold hp_pix. rewrite info_off by exact H. reflexivity. Qed.
Lemma hp_Hpix n q : 1 <= n -> hp_valid n q -> exists p, hp_pix (the_info n) q = Some p /\ 0 <= p < 12 * n * n.
Proof. intros Hn H. eexists. split; [apply hp_pix_eq; exact H|]. apply ring_range; assumption. Qed.
Lemma hp_Hinj n q q' p : 1 <= n -> hp_valid n q -> hp_valid n q' -> hp_pix (the_info n) q = Some p -> hp_pix (the_info n) q' = Some p -> q = q'.
Proof.
  intros Hn H H' E E'. rewrite hp_pix_eq in E, E' by assumption. apply Some_inj in E, E'.
  destruct (ring_unique n (fst q) (snd q) (fst q') (snd q') Hn H H' ltac:(lia)). destruct q, q'. cbn [fst snd] in *. congruence.
Qed.
Lemma hp_Hnbs n q : 1 <= n -> hp_valid n q -> exists l, hp_nbs (the_info n) q = Some l /\ forall r, In r l -> hp_valid n r.
Proof.
  intros Hn H. destruct (neighs_spec n (fst q) (snd q) Hn H) as (qs & E & F). exists qs. split; [exact E|]. clear E. intros r Hr.
  induction F as [|d q' ds qs' [X _] F IH]; [destruct Hr|]. destruct Hr as [->|Hr]; [exact X|auto].
Qed.
(* the edge neighbour in a given direction is unique *)
Lemma mod_close n a b : 0 < n -> (a - b) mod n = 0 -> Z.abs (a - b) < n -> a = b.
Proof. intros Hn E H. apply Z.mod_divide in E; [|lia]. destruct E as [k E]. assert (k = 0); [|subst; lia]. destruct (Z.lt_trichotomy k 0) as [L|[L|L]]; [|exact L|]; exfalso; [assert (k * n <= -1 * n)|assert (1 * n <= k * n)]; try (apply Z.mul_le_mono_nonneg_r; lia); lia. Qed.
Lemma plane_inj n y x x' : 1 <= n -> is_pix n y x -> is_pix n y x' -> (fst (plane n y x) - fst (plane n y x')) mod (8 * n) = 0 -> x = x'.
Proof.
  intros Hn [Hy Hx] [_ Hx'] E. unfold nring in Hy. unfold ring_len in Hx, Hx'. unfold plane in E. set (k := Z.min (y + 1) (4 * n - 1 - y)) in *.
  assert (Hk : 1 <= k) by (clear E Hx Hx'; unfold k; lia). destruct (Z.ltb_spec k n) as [C|C]; cbn [fst] in E.
  - replace (Z.min (Z.min (y + 1) n) (4 * n - 1 - y)) with k in * by (clear -C; unfold k in *; lia). clearbody k.
    pose proof (Z.div_mod x k ltac:(lia)) as D1. pose proof (Z.mod_pos_bound x k ltac:(lia)) as M1. pose proof (Z.div_mod x' k ltac:(lia)) as D2. pose proof (Z.mod_pos_bound x' k ltac:(lia)) as M2.
    assert (S1 : 0 <= x / k <= 3) by (split; [apply Z.div_pos; lia|]; assert (x / k < 4) by (apply Z.div_lt_upper_bound; lia); lia).
    assert (S2 : 0 <= x' / k <= 3) by (split; [apply Z.div_pos; lia|]; assert (x' / k < 4) by (apply Z.div_lt_upper_bound; lia); lia).
    set (s := x / k) in *. set (r := x mod k) in *. set (s' := x' / k) in *. set (r' := x' mod k) in *. clearbody s r s' r'.
    assert (B1 : 0 <= n * s <= n * 3) by (split; [apply Z.mul_nonneg_nonneg; lia|apply Z.mul_le_mono_nonneg_l; lia]).
    assert (B2 : 0 <= n * s' <= n * 3) by (split; [apply Z.mul_nonneg_nonneg; lia|apply Z.mul_le_mono_nonneg_l; lia]).
    apply mod_close in E; [|lia|lia]. assert (Q : n * s + r = n * s' + r') by lia.
    assert (s = s'). { destruct (flat_inj n s r s' r' ltac:(lia) ltac:(lia) ltac:(lia)). assumption. } subst s'. lia.
  - replace (Z.min (Z.min (y + 1) n) (4 * n - 1 - y)) with n in * by (clear -C; unfold k in *; lia). clearbody k. apply mod_close in E; lia.
Qed.
Lemma mod_sub_eq n a b c : 0 < n -> (a - c) mod n = 0 -> (b - c) mod n = 0 -> (a - b) mod n = 0.
Proof.
  intros Hn A B. apply Z.mod_divide in A, B; try lia. apply Z.mod_divide; [lia|]. replace (a - b) with ((a - c) - (b - c)) by lia. apply Z.divide_sub_r; assumption.
Qed.
Lemma edge_unique n dx dy y x a b a' b' : 1 <= n -> is_pix n y x -> edge_neighbour n dx dy y x a b -> edge_neighbour n dx dy y x a' b' -> a = a' /\ b = b'.
Proof.
  intros Hn P0 [P1 H1] [P2 H2]. 
  assert (SP : forall y x, snd (plane n y x) = y) by (intros; unfold plane; destruct (_ <? _); reflexivity).
  destruct H1 as [[A1 B1]|[N1 [E1 M1]]], H2 as [[A2 B2]|[N2 [E2 M2]]].
  - rewrite !SP in B1, B2. assert (HA : a' = a) by lia. clear B1 B2. subst a'. split; [reflexivity|]. eapply (plane_inj n a); try assumption.
    apply (mod_sub_eq (8 * n) _ _ (fst (plane n y x) + dx)); [lia| |]; [replace (fst (plane n a b) - (fst (plane n y x) + dx)) with (fst (plane n a b) - fst (plane n y x) - dx) by lia|replace (fst (plane n a b') - (fst (plane n y x) + dx)) with (fst (plane n a b') - fst (plane n y x) - dx) by lia]; assumption.
  - exfalso. apply (N2 a b P1). split; assumption.
  - exfalso. apply (N1 a' b' P2). split; assumption.
  - subst. split; [reflexivity|]. destruct P1 as [_ P1], P2 as [_ P2]. apply (mod_close (ring_len n y)); [lia| |lia].
    apply (mod_sub_eq _ _ _ (x + dx)); [lia| |]; rewrite Z.sub_add_distr; assumption.
Qed.
(* edge neighbours as a relation between pixel numbers *)
Definition hp_nbr (n p q : Z) : Prop := exists d y x y' x', In d directions /\ is_pix n y x /\ edge_neighbour n (fst d) (snd d) y x y' x' /\
  p = ring_start n y + x /\ q = ring_start n y' + x'.
Lemma neighs_complete n y x d y' x' qs : 1 <= n -> is_pix n y x -> get_healpix_neighs (the_info n) y x = Some qs -> In d directions ->
  edge_neighbour n (fst d) (snd d) y x y' x' -> In (y', x') qs.
Proof.
  intros Hn HP E Hd HE. destruct (neighs_spec n y x Hn HP) as (qs' & E' & F). assert (qs' = qs) by congruence. subst qs'. clear E E'.
  induction F as [|d' q ds qs X F IH]; [destruct Hd|]. destruct Hd as [->|Hd]; [|right; auto]. left.
  destruct (edge_unique n _ _ y x _ _ _ _ Hn HP X HE) as [A B]. destruct q. cbn [fst snd] in *. congruence.
Qed.
Lemma neighs_sound n y x q qs : 1 <= n -> is_pix n y x -> get_healpix_neighs (the_info n) y x = Some qs -> In q qs ->
  exists d, In d directions /\ edge_neighbour n (fst d) (snd d) y x (fst q) (snd q).
Proof.
  intros Hn HP E Hq. destruct (neighs_spec n y x Hn HP) as (qs' & E' & F). assert (qs' = qs) by congruence. subst qs'. clear E E'.
  induction F as [|d' q' ds qs X F IH]; [destruct Hq|]. destruct Hq as [->|Hq]; [exists d'; split; [left; reflexivity|exact X]|].
  destruct (IH Hq) as (d & A & B). exists d. split; [right; exact A|exact B].
Qed.
Lemma hp_Hnbr n p q : 1 <= n -> hp_nbr n p q -> exists u v l, hp_valid n u /\ hp_pix (the_info n) u = Some p /\ hp_nbs (the_info n) u = Some l /\ In v l /\ hp_pix (the_info n) v = Some q.
Proof.
  intros Hn (d & y & x & y' & x' & Hd & HP & HE & -> & ->). destruct (neighs_spec n y x Hn HP) as (qs & E & _).
  exists (y, x), (y', x'), qs. split; [exact HP|]. split; [apply (hp_pix_eq n (y, x)); exact HP|]. split; [exact E|]. split; [eapply neighs_complete; eassumption|].
  apply (hp_pix_eq n (y', x')). destruct HE as [HE _]. exact HE.
Qed.
