(* Proofs about the distance transforms. *)
From Coq Require Import Permutation.
From Verif Require Import Base RangeModel RangeLemmas FindLemmas AlmModel AlmLemmas HpSpec HpModel HpLemmas DistSpec DistModel.
Local Open Scope Z_scope.
Ltac Zify.zify_post_hook ::= idtac.

Lemma bind_some {A B} (o : option A) (f : A -> option B) b : bind o f = Some b -> exists a, o = Some a /\ f a = Some b.
Proof. destruct o as [a|]; cbn [bind]; intros H; [eauto|discriminate]. Qed.

Lemma zget_rep {A} (x : A) n k : 0 <= k < n -> zget (repeat x (Z.to_nat n)) k = Some x.
Proof. intros H. rewrite zget_repeat. destruct (Z.leb_spec 0 k); [|lia]. destruct (Z.ltb_spec k (Z.of_nat (Z.to_nat n))); [reflexivity|lia]. Qed.
(* ---- counting ---- *)
Lemma filter_len_le {A} (f g : A -> bool) l : (forall x, In x l -> f x = true -> g x = true) -> (length (filter f l) <= length (filter g l))%nat.
Proof.
  induction l as [|x l IH]; intros H; cbn [filter]; [lia|]. specialize (IH (fun y Hy => H y (or_intror Hy))). pose proof (H x (or_introl eq_refl)) as Hx.
  destruct (f x); [rewrite Hx by reflexivity; cbn [length]; lia|]. destruct (g x); cbn [length]; lia.
Qed.
Lemma filter_len_lt {A} (f g : A -> bool) l x : (forall y, In y l -> f y = true -> g y = true) -> In x l -> f x = false -> g x = true ->
  (length (filter f l) < length (filter g l))%nat.
Proof.
  intros H Hx Fx Gx. apply in_split in Hx. destruct Hx as (l1 & l2 & ->). rewrite !filter_app, !app_length. cbn [filter]. rewrite Fx, Gx. cbn [length].
  assert (length (filter f l1) <= length (filter g l1))%nat by (apply filter_len_le; intros; apply H; [apply in_or_app; left|]; assumption).
  assert (length (filter f l2) <= length (filter g l2))%nat by (apply filter_len_le; intros; apply H; [apply in_or_app; right; right|]; assumption). lia.
Qed.
Lemma filter_len_all {A} (f : A -> bool) l : (length (filter f l) <= length l)%nat.
Proof. induction l as [|x l IH]; cbn [filter]; [lia|]. destruct (f x); cbn [length]; lia. Qed.

Definition later (a b : list Z * list Z) : Prop := forall p d j d' j', zget (fst a) p = Some d -> zget (snd a) p = Some j ->
  zget (fst b) p = Some d' -> zget (snd b) p = Some j' -> d' <= d /\ (0 <= j -> 0 <= j').
Lemma later_trans a b c : later a b -> later b c -> (forall p, zget (fst a) p <> None -> zget (fst b) p <> None /\ zget (snd b) p <> None) -> later a c.
Proof.
  intros H1 H2 T p d j d' j' A B C E. destruct (T p ltac:(congruence)) as [T1 T2].
  destruct (zget (fst b) p) as [d1|] eqn:X1; [|congruence]. destruct (zget (snd b) p) as [j1|] eqn:X2; [|congruence].
  destruct (H1 p d j d1 j1 A B X1 X2). destruct (H2 p d1 j1 d' j' X1 X2 C E). split; [lia|auto].
Qed.
Lemma honest_same D npoint npix rmax a b c d : honest D npoint npix rmax a b -> honest D npoint npix rmax c d -> forall p, zget a p <> None -> zget c p <> None /\ zget d p <> None.
Proof.
  intros (A & B & _) (C & E & _) p H. destruct (zget a p) as [x|] eqn:X; [|congruence]. apply zget_Some_range in X.
  destruct (zget_in_range c p ltac:(lia)) as [? ->]. destruct (zget_in_range d p ltac:(lia)) as [? ->]. split; discriminate.
Qed.
Lemma honest_at D npoint npix rmax dists domains p : honest D npoint npix rmax dists domains -> 0 <= p < npix -> exists d j, zget dists p = Some d /\ zget domains p = Some j /\
    (j = -1 /\ d = rmax \/ 0 <= j < npoint /\ d = D j p).
Proof. intros (_ & _ & H) Hp. auto. Qed.


Section Grow.
Context (D : Z -> Z -> Z) (npoint rmax npix : Z) (pix : node -> option Z) (nbs : node -> option (list node)).
Context {W : Type} (push : W -> Z -> node -> W) (items : W -> list node).
Context (valid : node -> Prop).
Hypothesis Hpush : forall w v q, Permutation (items (push w v q)) (q :: items w).
Hypothesis Hpix : forall q, valid q -> exists p, pix q = Some p /\ 0 <= p < npix.
Hypothesis Hinj : forall q q' p, valid q -> valid q' -> pix q = Some p -> pix q' = Some p -> q = q'.
Hypothesis Hnbs : forall q, valid q -> exists l, nbs q = Some l /\ forall r, In r l -> valid r.

Definition gap (dists : list Z) : nat := length (filter (fun '(p, j) => match zget dists p with Some d => D j p <? d | None => false end)
  (list_prod (zrange 0 npix) (zrange 0 npoint))).
Definition okq (dists : list Z) (j : Z) (r : node) : Prop := forall p d, pix r = Some p -> zget dists p = Some d -> rmax <= D j p \/ d <= D j p.
Definition settled (dists : list Z) (j : Z) (q : node) : Prop := forall l r, nbs q = Some l -> In r l -> okq dists j r.
Definition named (domains : list Z) (q : node) : Prop := valid q /\ exists p j, pix q = Some p /\ zget domains p = Some j /\ 0 <= j.

Definition INV (R : node -> Prop) (st : gstate (W:=W)) : Prop :=
  let '(dists, domains, w) := st in
  honest D npoint npix rmax dists domains /\ (forall q, In q (items w) -> named domains q) /\ (forall q, R q -> named domains q) /\
  forall q p j, valid q -> pix q = Some p -> zget domains p = Some j -> 0 <= j -> R q \/ In q (items w) \/ settled dists j q.

(* one neighbour *)
Lemma relax_ok R ipoint dists domains w q : INV R (dists, domains, w) -> valid q -> 0 <= ipoint < npoint ->
  exists dists' domains' w', relax D npoint rmax pix push ipoint (dists, domains, w) q = Some (dists', domains', w') /\
    INV R (dists', domains', w') /\ okq dists' ipoint q /\ later (dists, domains) (dists', domains') /\
    (forall u p, valid u -> pix u = Some p -> zget domains p = Some ipoint -> zget domains' p = Some ipoint) /\
    (length (items w') + gap dists' <= length (items w) + gap dists)%nat.
Proof.
  intros (HH & HI & HR & HS) Hq Hj. destruct (Hpix q Hq) as (p2 & Ep & Rp). destruct (honest_at _ _ _ _ _ _ _ HH Rp) as (d & j & Ed & Ej & Hd).
  unfold relax. rewrite Ep. cbn [bind]. rewrite Ej. cbn [bind]. 
  assert (L0 : later (dists, domains) (dists, domains)) by (intros p d1 j1 d2 j2; cbn [fst snd]; intros; split; [|intros]; replace d2 with d1 by congruence; replace j2 with j1 by congruence; lia).
  assert (SAME : okq dists ipoint q -> exists dists' domains' w', Some (dists, domains, w) = Some (dists', domains', w') /\
    INV R (dists', domains', w') /\ okq dists' ipoint q /\ later (dists, domains) (dists', domains') /\
    (forall u p, valid u -> pix u = Some p -> zget domains p = Some ipoint -> zget domains' p = Some ipoint) /\
    (length (items w') + gap dists' <= length (items w) + gap dists)%nat).
  { intros O. exists dists, domains, w. split; [reflexivity|]. split; [exact (conj HH (conj HI (conj HR HS)))|]. split; [exact O|]. split; [exact L0|]. split; [auto|]. lia. }
  destruct (Z.eqb_spec j ipoint) as [->|NE].
  { apply SAME. intros p dd E1 E2. assert (p = p2) by congruence. subst p. right. replace dd with d by congruence. lia. }
  destruct (Z.leb_spec 0 ipoint); [|lia]. destruct (Z.ltb_spec ipoint npoint); [|lia]. cbn [andb]. rewrite Ed. cbn [bind].
  destruct (Z.ltb_spec (D ipoint p2) d) as [C1|C1]; cbn [andb].
  2:{ apply SAME. intros p dd E1 E2. assert (p = p2) by congruence. subst p. right. replace dd with d by congruence. lia. }
  destruct (Z.ltb_spec (D ipoint p2) rmax) as [C2|C2].
  2:{ apply SAME. intros p dd E1 E2. assert (p = p2) by congruence. subst p. left. lia. }
  destruct HH as (L1 & L2 & HH).
  destruct (set_at_spec dists p2 (D ipoint p2) ltac:(lia)) as (dists' & E1 & L1' & G1).
  destruct (set_at_spec domains p2 ipoint ltac:(lia)) as (domains' & E2 & L2' & G2).
  rewrite E1. cbn [bind]. rewrite E2. cbn [bind]. exists dists', domains', (push w (D ipoint p2) q). split; [reflexivity|].
  assert (NM : forall u, named domains u -> named domains' u).
  { intros u (Vu & p & k & A & B & C). split; [assumption|]. exists p. destruct (Z.eqb_spec p p2) as [->|N].
    - exists ipoint. rewrite G2, Z.eqb_refl. auto. - exists k. rewrite G2. destruct (Z.eqb_spec p p2); [contradiction|]. auto. }
  assert (ST : forall k u, settled dists k u -> settled dists' k u).
  { intros k u Su l r El Hr p dd A B. rewrite G1 in B. destruct (Z.eqb_spec p p2) as [->|N]; [|eapply Su; eassumption].
    destruct (Su l r El Hr p2 d A Ed) as [X|X]; [left; assumption|right]. injection B as <-. lia. }
  split; [|split; [|split; [|split]]].
  - split; [|split; [|split]].
    + split; [lia|]. split; [lia|]. intros p Hp. rewrite G1, G2. destruct (Z.eqb_spec p p2) as [->|N]; [|auto].
      exists (D ipoint p2), ipoint. repeat split; auto. 
    + intros u Hu. apply (Permutation_in _ (Hpush _ _ _)) in Hu. destruct Hu as [<-|Hu]; [|auto].
      split; [assumption|]. exists p2, ipoint. rewrite G2, Z.eqb_refl. repeat split; auto; lia.
    + intros u Hu. auto.
    + intros u p k Vu Eu Ek Hk. rewrite G2 in Ek. destruct (Z.eqb_spec p p2) as [->|N].
      * right; left. rewrite (Hinj u q p2) by assumption. apply (Permutation_in _ (Permutation_sym (Hpush _ _ _))). left; reflexivity.
      * destruct (HS u p k Vu Eu Ek Hk) as [X|[X|X]]; [auto| |auto]. right; left. apply (Permutation_in _ (Permutation_sym (Hpush _ _ _))). right; assumption.
  - intros p dd A B. assert (p = p2) by congruence. subst p. rewrite G1, Z.eqb_refl in B. injection B as <-. right; lia.
  - intros p d1 j1 d2 j2; cbn [fst snd]. rewrite G1, G2. destruct (Z.eqb_spec p p2) as [->|N]; intros A1 A2 A3 A4.
    + replace d1 with d by congruence. replace d2 with (D ipoint p2) by congruence. replace j2 with ipoint by congruence. lia.
    + replace d2 with d1 by congruence. replace j2 with j1 by congruence. lia.
  - intros u p Vu Eu X. rewrite G2. destruct (Z.eqb_spec p p2); [reflexivity|assumption].
  - rewrite (Permutation_length (Hpush _ _ _)). cbn [length].
    assert (gap dists' < gap dists)%nat; [|lia]. unfold gap. apply filter_len_lt with (x := (p2, ipoint)).
    + intros [p k] Hin. rewrite G1. destruct (Z.eqb_spec p p2) as [->|N]; [|auto]. rewrite Ed. intros X. apply Z.ltb_lt in X. apply Z.ltb_lt. lia.
    + apply in_prod; apply zrange_In; lia.
    + rewrite G1, Z.eqb_refl. apply Z.ltb_ge. lia.
    + rewrite Ed. apply Z.ltb_lt. lia.
Qed.

Lemma okq_later dists domains dists' domains' j r : honest D npoint npix rmax dists domains -> honest D npoint npix rmax dists' domains' ->
  later (dists, domains) (dists', domains') -> okq dists j r -> okq dists' j r.
Proof.
  intros H H' L O p d' E Ed. pose proof (zget_Some_range _ _ _ Ed) as Rp. pose proof H as (L1 & _). pose proof H' as (L1' & _).
  destruct (honest_at _ _ _ _ _ _ p H ltac:(lia)) as (d & jj & A & B & _). destruct (honest_at _ _ _ _ _ _ p H' ltac:(lia)) as (d2 & jj2 & A2 & B2 & _).
  destruct (L p d jj d2 jj2 A B A2 B2) as [X _]. destruct (O p d E A); [left; assumption|right]. replace d' with d2 by congruence. lia.
Qed.
Lemma INV_honest R dists domains w : INV R (dists, domains, w) -> honest D npoint npix rmax dists domains.
Proof. intros (H & _). exact H. Qed.

Lemma relax_all R ipoint l : forall dists domains w, INV R (dists, domains, w) -> (forall r, In r l -> valid r) -> 0 <= ipoint < npoint ->
  exists dists' domains' w', ofold (relax D npoint rmax pix push ipoint) l (dists, domains, w) = Some (dists', domains', w') /\
    INV R (dists', domains', w') /\ (forall r, In r l -> okq dists' ipoint r) /\ later (dists, domains) (dists', domains') /\
    (forall u p, valid u -> pix u = Some p -> zget domains p = Some ipoint -> zget domains' p = Some ipoint) /\
    (length (items w') + gap dists' <= length (items w) + gap dists)%nat.
Proof.
  induction l as [|q l IH]; intros dists domains w HI Hl Hj.
  - exists dists, domains, w. cbn [ofold]. split; [reflexivity|]. split; [assumption|]. split; [intros r []|].
    split; [intros p d1 j1 d2 j2; cbn [fst snd]; intros; replace d2 with d1 by congruence; replace j2 with j1 by congruence; lia|]. split; [auto|lia].
  - cbn [ofold]. destruct (relax_ok R ipoint dists domains w q HI (Hl q (or_introl eq_refl)) Hj) as (d1 & m1 & w1 & E1 & I1 & O1 & L1 & K1 & G1).
    rewrite E1. destruct (IH d1 m1 w1 I1 (fun r Hr => Hl r (or_intror Hr)) Hj) as (d2 & m2 & w2 & E2 & I2 & O2 & L2 & K2 & G2).
    pose proof (INV_honest _ _ _ _ HI) as H0. pose proof (INV_honest _ _ _ _ I1) as H1. pose proof (INV_honest _ _ _ _ I2) as H2.
    exists d2, m2, w2. split; [exact E2|]. split; [exact I2|]. split.
    { intros r [<-|Hr]; [|auto]. exact (okq_later _ _ _ _ _ _ H1 H2 L2 O1). }
    split; [eapply later_trans; [exact L1|exact L2|exact (honest_same _ _ _ _ _ _ _ _ H0 H1)]|]. split; [eauto|lia].
Qed.

(* visiting a pixel settles it *)
Lemma visit_ok R dists domains w q : INV (fun u => R u \/ u = q) (dists, domains, w) -> (forall u, R u -> named domains u) ->
  exists dists' domains' w', visit D npoint rmax pix nbs push (dists, domains, w) q = Some (dists', domains', w') /\
    INV R (dists', domains', w') /\ later (dists, domains) (dists', domains') /\ (length (items w') + gap dists' <= length (items w) + gap dists)%nat.
Proof.
  intros HI HRn. pose proof HI as (HH & _ & HR & _). destruct (HR q (or_intror eq_refl)) as (Vq & p & j & Ep & Ej & Hj).
  unfold visit. rewrite Ep. cbn [bind fst snd]. rewrite Ej. cbn [bind]. destruct (Hnbs q Vq) as (l & El & Hl). rewrite El. cbn [bind].
  assert (Hjn : 0 <= j < npoint).
  { destruct (Hpix q Vq) as (p' & Ep' & Rp). assert (p' = p) by congruence. subst. destruct (honest_at _ _ _ _ _ _ p HH Rp) as (d & k & _ & Ek & [X|X]); replace j with k in * by congruence; lia. }
  destruct (relax_all _ j l dists domains w HI Hl Hjn) as (d2 & m2 & w2 & E2 & I2 & O2 & L2 & K2 & G2). rewrite E2.
  exists d2, m2, w2. split; [reflexivity|]. split; [|split; assumption].
  destruct I2 as (H2 & A2 & B2 & C2). split; [exact H2|]. split; [exact A2|]. split; [intros u Hu; apply B2; left; exact Hu|].
  intros u pu k Vu Eu Ek Hk. destruct (C2 u pu k Vu Eu Ek Hk) as [[X| ->]|X]; [left; exact X| |right; exact X].
  right; right. assert (pu = p) by congruence. subst pu. pose proof (K2 q p Vq Ep Ej) as Z1. assert (k = j) by congruence. subst k.
  intros l' r El' Hr. replace l' with l in * by congruence. auto.
Qed.

(* the start *)
Lemma start_ok w0 points : items w0 = [] -> (forall q, In q points -> valid q) -> zlen points = npoint -> 0 <= npix ->
  exists dists domains w, start D npoint rmax pix push npix w0 points = Some (dists, domains, w) /\
    INV (fun _ => False) (dists, domains, w) /\ length (items w) = length points /\
    (forall i q p, zget points i = Some q -> pix q = Some p -> exists j, zget domains p = Some j /\ 0 <= j) /\
    (forall i q p, zget points i = Some q -> pix q = Some p -> (forall k q', zget points k = Some q' -> pix q' = Some p -> k = i) -> zget dists p = Some (D i p) /\ zget domains p = Some i).
Proof.
  intros H0 HV HL Hn. unfold start.
  (* the loop, started from the k-th point *)
  assert (G : forall l k dists domains w, 0 <= k -> k + zlen l = npoint -> (forall q, In q l -> valid q) -> honest D npoint npix rmax dists domains ->
     (forall q, In q (items w) -> named domains q) -> (forall q p j, valid q -> pix q = Some p -> zget domains p = Some j -> 0 <= j -> In q (items w)) ->
     exists dists' domains' w', ofold (start_point D pix push) (combine (zrange k npoint) l) (dists, domains, w) = Some (dists', domains', w') /\
       honest D npoint npix rmax dists' domains' /\ (forall q, In q (items w') -> named domains' q) /\
       (forall q p j, valid q -> pix q = Some p -> zget domains' p = Some j -> 0 <= j -> In q (items w')) /\
       length (items w') = (length (items w) + length l)%nat /\
       (forall p, (forall i q, zget l i = Some q -> pix q <> Some p) -> zget dists' p = zget dists p /\ zget domains' p = zget domains p) /\
       (forall p j, zget domains p = Some j -> 0 <= j -> exists j', zget domains' p = Some j' /\ 0 <= j') /\
       (forall i q p, zget l i = Some q -> pix q = Some p -> exists j, zget domains' p = Some j /\ 0 <= j) /\
       (forall i q p, zget l i = Some q -> pix q = Some p -> (forall a q', zget l a = Some q' -> pix q' = Some p -> a = i) ->
          zget dists' p = Some (D (k + i) p) /\ zget domains' p = Some (k + i))).
  { induction l as [|q l IH]; intros k dists domains w Hk HL' HV' HH HN HC.
    - exists dists, domains, w. rewrite combine_nil. cbn [ofold]. split; [reflexivity|]. repeat (split; [assumption|]). split; [cbn; lia|]. split; [auto|]. split; [eauto|].
      split; intros i q p E; rewrite zget_nil in E; discriminate.
    - rewrite Base.zlen_cons in HL'. pose proof (zlen_nonneg l). rewrite (zrange_cons k) by lia. cbn [combine ofold].
      pose proof (HV' q (or_introl eq_refl)) as Vq. destruct (Hpix q Vq) as (p0 & E0 & R0). pose proof HH as (L1 & L2 & HHp).
      cbn [start_point]. rewrite E0. cbn [bind].
      destruct (set_at_spec dists p0 (D k p0) ltac:(lia)) as (dists1 & E1 & L1' & G1).
      destruct (set_at_spec domains p0 k ltac:(lia)) as (domains1 & E2 & L2' & G2). rewrite E1. cbn [bind]. rewrite E2. cbn [bind].
      assert (N0 : named domains1 q) by (split; [assumption|]; exists p0, k; rewrite G2, Z.eqb_refl; auto).
      destruct (IH (k + 1) dists1 domains1 (push w (D k p0) q)) as (d2 & m2 & w2 & F1 & F2 & F3 & F4 & F5 & F6 & F7 & F8 & F9); try lia.
      + intros; apply HV'; right; assumption.
      + split; [lia|]. split; [lia|]. intros p Hp. rewrite G1, G2. destruct (Z.eqb_spec p p0) as [->|N]; [|auto].
        exists (D k p0), k. split; [reflexivity|]. split; [reflexivity|]. right. split; [lia|reflexivity].
      + intros u Hu. apply (Permutation_in _ (Hpush _ _ _)) in Hu. destruct Hu as [<-|Hu]; [exact N0|].
        destruct (HN u Hu) as (Vu & p & j & A & B & C). split; [assumption|]. exists p. destruct (Z.eqb_spec p p0) as [->|N].
        * exists k. rewrite G2, Z.eqb_refl. auto. * exists j. rewrite G2. destruct (Z.eqb_spec p p0); [contradiction|]. auto.
      + intros u p j Vu Eu Ej Hj. rewrite G2 in Ej. apply (Permutation_in _ (Permutation_sym (Hpush _ _ _))). destruct (Z.eqb_spec p p0) as [->|N].
        * left. symmetry. apply (Hinj u q p0); assumption. * right. eapply HC; eassumption.
      + exists d2, m2, w2. split; [exact F1|]. split; [exact F2|]. split; [exact F3|]. split; [exact F4|].
        split; [rewrite F5, (Permutation_length (Hpush _ _ _)); cbn [length]; lia|].
        split. { intros p Hp. destruct (F6 p) as [X Y].
          { intros i r Ei. apply (Hp (i + 1) r). pose proof (zget_Some_range _ _ _ Ei). rewrite zget_cons by lia. destruct (Z.eqb_spec (i + 1) 0); [lia|]. now replace (i + 1 - 1) with i by lia. }
          assert (p <> p0). { intros ->. apply (Hp 0 q); [reflexivity|assumption]. }
          rewrite X, Y, G1, G2. destruct (Z.eqb_spec p p0); [contradiction|auto]. }
        split. { intros p j Ej Hj. apply (F7 p (if p =? p0 then k else j)); [rewrite G2; destruct (p =? p0); auto|destruct (p =? p0); lia]. }
        split. { intros i r p Ei Ep. pose proof (zget_Some_range _ _ _ Ei) as Ri. rewrite zget_cons in Ei by lia. destruct (Z.eqb_spec i 0) as [->|Ni].
          - injection Ei as <-. replace p with p0 by congruence. apply (F7 p0 k); [rewrite G2, Z.eqb_refl; reflexivity|lia].
          - eapply F8; eassumption. }
        intros i r p Ei Ep Hu. pose proof (zget_Some_range _ _ _ Ei) as Ri. pose proof Ei as Ei0. rewrite zget_cons in Ei by lia. destruct (Z.eqb_spec i 0) as [->|Ni].
        * injection Ei as <-. assert (p = p0) by congruence. subst p. destruct (F6 p0) as [X Y].
          { intros a r Ea Er. pose proof (zget_Some_range _ _ _ Ea). assert (a + 1 = 0); [|lia]. apply (Hu (a + 1) r); [|assumption].
            rewrite zget_cons by lia. destruct (Z.eqb_spec (a + 1) 0); [lia|]. now replace (a + 1 - 1) with a by lia. }
          rewrite X, Y, G1, G2, Z.eqb_refl. replace (k + 0) with k by lia. auto.
        * destruct (F9 (i - 1) r p Ei Ep) as [X Y].
          { intros a r' Ea Er'. pose proof (zget_Some_range _ _ _ Ea). assert (a + 1 = i); [|lia]. apply (Hu (a + 1) r'); [|assumption].
            rewrite zget_cons by lia. destruct (Z.eqb_spec (a + 1) 0); [lia|]. now replace (a + 1 - 1) with a by lia. }
          rewrite X, Y. replace (k + 1 + (i - 1)) with (k + i) by lia. auto. }
  destruct (G points 0 (repeat rmax (Z.to_nat npix)) (repeat (-1) (Z.to_nat npix)) w0) as (d2 & m2 & w2 & F1 & F2 & F3 & F4 & F5 & F6 & F7 & F8 & F9); try lia.
  - exact HV.
  - unfold honest. unfold zlen. rewrite !repeat_length, Z2Nat.id by lia. split; [reflexivity|]. split; [reflexivity|].
    intros p Hp. exists rmax, (-1). rewrite !zget_rep by lia. repeat (split; [reflexivity|]). left; split; reflexivity.
  - rewrite H0. intros q [].
  - intros q p j _ _ Ej Hj. pose proof (zget_Some_range _ _ _ Ej) as R. unfold zlen in R. rewrite repeat_length in R. rewrite zget_rep in Ej by lia. apply Some_inj in Ej. lia.
  - exists d2, m2, w2. split; [exact F1|]. split.
    { split; [exact F2|]. split; [exact F3|]. split; [intros q []|]. intros q p j V E1 E2 E3. right; left. eapply F4; eassumption. }
    split; [rewrite F5, H0; reflexivity|]. split; [exact F8|]. exact F9.
Qed.

(* what the end of any run gives *)
Definition finished (dists domains : list Z) : Prop := honest D npoint npix rmax dists domains /\
  forall q p j, valid q -> pix q = Some p -> zget domains p = Some j -> 0 <= j -> settled dists j q.
Lemma finish w dists domains : items w = [] -> INV (fun _ => False) (dists, domains, w) -> finished dists domains.
Proof. intros E (H & _ & _ & S1). split; [exact H|]. intros q p j V A B C. destruct (S1 q p j V A B C) as [[]|[X|X]]; [rewrite E in X; destruct X|exact X]. Qed.
Lemma visit_pass l : forall R dists domains w, INV (fun u => R u \/ In u l) (dists, domains, w) ->
  exists dists' domains' w', ofold (visit D npoint rmax pix nbs push) l (dists, domains, w) = Some (dists', domains', w') /\
    INV R (dists', domains', w') /\ later (dists, domains) (dists', domains') /\ (length (items w') + gap dists' <= length (items w) + gap dists)%nat.
Proof.
  induction l as [|q l IH]; intros R dists domains w HI.
  - exists dists, domains, w. cbn [ofold]. split; [reflexivity|]. split.
    + destruct HI as (A & B & C & S1). split; [exact A|]. split; [exact B|]. split; [intros u Hu; apply C; left; exact Hu|].
      intros u p j V E1 E2 E3. destruct (S1 u p j V E1 E2 E3) as [[X|[]]|X]; auto.
    + split; [|lia]. intros p d1 j1 d2 j2; cbn [fst snd]; intros; replace d2 with d1 by congruence; replace j2 with j1 by congruence; lia.
  - cbn [ofold]. assert (HI' : INV (fun u => (R u \/ In u l) \/ u = q) (dists, domains, w)).
    { destruct HI as (A & B & C & S1). split; [exact A|]. split; [exact B|]. split.
      - intros u [[X|X]|X]; apply C; [left|right; right|right; left; symmetry]; assumption.
      - intros u p j V E1 E2 E3. destruct (S1 u p j V E1 E2 E3) as [[X|[X|X]]|X]; auto. }
    destruct (visit_ok (fun u => R u \/ In u l) dists domains w q HI') as (d1 & m1 & w1 & E1 & I1 & L1 & G1).
    { intros u Hu. destruct HI' as (_ & _ & C & _). apply C. left. exact Hu. }
    rewrite E1. destruct (IH R d1 m1 w1 I1) as (d2 & m2 & w2 & E2 & I2 & L2 & G2). exists d2, m2, w2. split; [exact E2|]. split; [exact I2|].
    split; [|lia]. eapply later_trans; [exact L1|exact L2|]. exact (honest_same _ _ _ _ _ _ _ _ (INV_honest _ _ _ _ HI) (INV_honest _ _ _ _ I1)).
Qed.
End Grow.
Lemma gap_bound D npoint npix dists : 0 <= npix -> 0 <= npoint -> (gap D npoint npix dists <= Z.to_nat (npix * npoint))%nat.
Proof.
  intros H1 H2. unfold gap. etransitivity; [apply filter_len_all|]. rewrite prod_length. pose proof (zrange_zlen 0 npix) as A. pose proof (zrange_zlen 0 npoint) as B. unfold zlen in A, B.
  rewrite Z2Nat.inj_mul by lia. apply Nat.mul_le_mono; [clear -A H1|clear -B H2]; lia.
Qed.

