From Coq Require Import Lqa.
From Verif Require Import Base RangeLemmas SliceSpec SliceModel BlockSpec BlockModel BlockLemmas DownSpec DownModel.

Lemma sequence_Some {A} (l : list (option A)) r : sequence l = Some r <-> l = map Some r.
Proof.
  revert r. induction l as [|[x|] l IH]; intros r; cbn [sequence].
  - split; [intros H; injection H as <-; reflexivity|]. destruct r; [reflexivity|discriminate].
  - destruct (sequence l) as [t|] eqn:E.
    + split; [intros H; injection H as <-; cbn; f_equal; now apply IH|].
      destruct r as [|y r]; [discriminate|]. cbn. intros H. injection H as -> H. apply IH in H. congruence.
    + split; [discriminate|]. destruct r as [|y r]; [discriminate|]. cbn. intros H. injection H as -> H. apply IH in H. congruence.
  - split; [discriminate|]. destruct r; discriminate.
Qed.
Lemma sequence_map {A B} (f : A -> option B) l (P : A -> B -> Prop) : (forall x, In x l -> exists y, f x = Some y /\ P x y) ->
  exists r, sequence (map f l) = Some r /\ Forall2 P l r.
Proof.
  intros H. induction l as [|x l IH]; [exists []; split; [reflexivity|constructor]|].
  destruct (H x (or_introl eq_refl)) as (y & Hy & HP). destruct IH as (r & Hr & HF); [intros z Hz; apply H; now right|].
  exists (y :: r). split; [|constructor; assumption]. cbn [map sequence]. rewrite Hy, Hr. reflexivity.
Qed.
Lemma Forall2_zget_l {A B} (P : A -> B -> Prop) l r : Forall2 P l r ->
  zlen r = zlen l /\ forall i x, zget l i = Some x -> exists y, zget r i = Some y /\ P x y.
Proof.
  intros H. induction H as [|x y l r Hxy HF [IHl IHg]]; [split; [reflexivity|]; intros i x H; rewrite zget_nil in H; discriminate|].
  split; [rewrite !zlen_cons; lia|]. intros i z. rewrite !zget_cons. destruct (i =? 0).
  - intros E. injection E as <-. eauto.
  - apply IHg.
Qed.

(** uniform statements for inclusive and not *)
Lemma blk_reduce {A} (R : A -> A -> Prop) (op : list A -> A) a f off incl : (forall x, R x (op [x])) -> (forall x, R x x) ->
  good_axis incl (zlen a) f off ->
  exists r, block_reduce op a f off incl = Some r /\ zlen r = blk_n incl (zlen a) f off /\
    forall i, 0 <= i < blk_n incl (zlen a) f off -> exists v, zget r i = Some v /\ R v (op (sub a (blk_lo incl f off i) (blk_hi incl (zlen a) f off i))).
Proof.
  intros H1 H2 (Hf & Ho & Hn & Hf1 & Hi). assert (Hne : a <> []) by (intros ->; rewrite zlen_nil in *; lia).
  destruct (Z.eq_dec f 1) as [->|Hf2].
  - rewrite (Hf1 eq_refl) in *. exists a. split; [reflexivity|].
    assert (Hbn : blk_n incl (zlen a) 1 0 = zlen a) by (unfold blk_n, nblock; destruct incl; rewrite Z.div_1_r; cbn; lia).
    rewrite Hbn. split; [reflexivity|]. intros i Hr. destruct (zget_in_range a i Hr) as [v Hv]. exists v. split; [exact Hv|].
    replace (sub a _ _) with [v]; [apply H1|]. symmetry.
    assert (E : sub a i (i + 1) = [v]).
    { apply zget_ext. intros k. rewrite zget_sub by lia. rewrite zget_cons, zget_nil. destruct (k =? 0) eqn:Ek.
      - assert (k = 0) by lia. subst k. rewrite Z.add_0_r. destruct ((0 <=? 0) && (0 <? i + 1 - i)) eqn:E; [exact Hv|lia].
      - destruct ((0 <=? k) && (k <? i + 1 - i)) eqn:E; [lia|reflexivity]. }
    rewrite <- E. f_equal; unfold blk_lo, blk_hi, block_hi, block_lo; destruct incl; cbn; lia.
  - destruct incl.
    + destruct (block_reduce_spec op a f off) as (r & Hr & Hl & Hg); [lia|lia|exact Hne|].
      exists r. split; [exact Hr|]. split; [exact Hl|]. intros i Hii. eexists. split; [apply Hg; exact Hii|]. apply H2.
    + destruct (reduce_noninc op a f off) as (r & Hr & Hl & Hg); [lia|lia|apply Hi; reflexivity|].
      exists r. split; [exact Hr|]. split; [exact Hl|]. intros i Hii. eexists. split; [apply Hg; exact Hii|]. apply H2.
Qed.

Lemma blk_facts incl n f off i : good_axis incl n f off -> 0 <= i < blk_n incl n f off ->
  0 <= blk_lo incl f off i < blk_hi incl n f off i /\ blk_hi incl n f off i <= n.
Proof.
  intros (Hf & Ho & Hn & Hf1 & Hin) Hi. unfold blk_n, blk_lo, blk_hi in *. destruct incl; [apply block_nonempty; lia|].
  destruct (div_facts n off f) as (A1 & A2 & A3); [lia|lia|]. nia.
Qed.
Lemma blk_n_pos incl n f off : good_axis incl n f off -> 0 < blk_n incl n f off.
Proof.
  intros (Hf & Ho & Hn & Hf1 & Hin). unfold blk_n. destruct incl.
  - rewrite nblock_eq by lia. destruct (div_facts n off f) as (A1 & A2 & A3); [lia|lia|].
    destruct (0 <? off) eqn:E1, (off + (n - off) / f * f <? n) eqn:E2; nia.
  - specialize (Hin eq_refl). enough (1 <= (n - off) / f) by lia. apply Z.div_le_lower_bound; lia.
Qed.

(** sums *)
Lemma qsum_ext l m : Forall2 Qeq l m -> (qsum l == qsum m)%Q.
Proof. induction 1; cbn [qsum]; [reflexivity|]. rewrite H, IHForall2. reflexivity. Qed.
Lemma qsum_on_ext g h lo hi : (forall k, lo <= k < hi -> (g k == h k)%Q) -> (qsum_on g lo hi == qsum_on h lo hi)%Q.
Proof.
  intros H. unfold qsum_on. assert (Hl : forall k, In k (zrange lo hi) -> (g k == h k)%Q) by (intros k Hk; apply H, zrange_In, Hk).
  induction (zrange lo hi) as [|x l IH]; [reflexivity|]. cbn [map qsum]. rewrite (Hl x), IH; [reflexivity| |now left].
  intros k Hk. apply Hl. now right.
Qed.
Lemma qsum_on_app g a b c : a <= b <= c -> (qsum_on g a c == qsum_on g a b + qsum_on g b c)%Q.
Proof. intros H. unfold qsum_on. rewrite (zrange_split a b c) by lia. rewrite map_app, qsum_app. reflexivity. Qed.
Lemma qsum_on_scale c g lo hi : (qsum_on (fun k => c * g k) lo hi == c * qsum_on g lo hi)%Q.
Proof. unfold qsum_on. induction (zrange lo hi) as [|x l IH]; cbn [map qsum]; [ring|]. rewrite IH. ring. Qed.
Lemma qsum_on_plus g h lo hi : (qsum_on (fun k => g k + h k) lo hi == qsum_on g lo hi + qsum_on h lo hi)%Q.
Proof. unfold qsum_on. induction (zrange lo hi) as [|x l IH]; cbn [map qsum]; [ring|]. rewrite IH. ring. Qed.
Lemma qsum_on_zero lo hi : (qsum_on (fun _ => 0) lo hi == 0)%Q.
Proof. unfold qsum_on. induction (zrange lo hi) as [|x l IH]; cbn [map qsum]; [ring|]. rewrite IH. ring. Qed.
Lemma qsum_on_swap g a b c d : (qsum_on (fun y => qsum_on (fun x => g y x) c d) a b == qsum_on (fun x => qsum_on (fun y => g y x) a b) c d)%Q.
Proof.
  enough (E : forall L, (qsum (map (fun y => qsum_on (fun x => g y x) c d) L) == qsum_on (fun x => qsum (map (fun y => g y x) L)) c d)%Q) by apply E.
  induction L as [|y l IH]; cbn [map qsum].
  - symmetry. apply qsum_on_zero.
  - rewrite IH. rewrite <- qsum_on_plus. reflexivity.
Qed.
Lemma qsum_on_empty g a b : b <= a -> qsum_on g a b = 0%Q.
Proof. intros H. unfold qsum_on. rewrite zrange_empty by lia. reflexivity. Qed.

(* regroup a sum into q blocks of f *)
Lemma qsum_on_blocks g off f q : 0 <= f -> 0 <= q ->
  (qsum_on (fun i => qsum_on g (off + i * f) (off + (i + 1) * f)) 0 q == qsum_on g off (off + q * f))%Q.
Proof.
  intros Hf Hq. rewrite <- (Z2Nat.id q) by lia. induction (Z.to_nat q) as [|n IH].
  - rewrite !qsum_on_empty by lia. reflexivity.
  - rewrite Nat2Z.inj_succ. unfold Z.succ. rewrite (qsum_on_app _ 0 (Z.of_nat n)) by lia.
    rewrite IH. rewrite (qsum_on_app g off (off + Z.of_nat n * f) (off + (Z.of_nat n + 1) * f)) by nia.
    apply Qplus_comp; [reflexivity|]. unfold qsum_on at 1. rewrite (zrange_cons (Z.of_nat n)), zrange_empty by lia. cbn [map qsum]. ring.
Qed.

Definition znthq (l : list Q) (k : Z) : Q := match zget l k with Some v => v | None => 0%Q end.

Lemma sub_as_map (l : list Q) lo hi : 0 <= lo <= hi -> hi <= zlen l -> sub l lo hi = map (znthq l) (zrange lo hi).
Proof.
  intros H1 H2. apply zget_ext. intros k. rewrite zget_sub, zget_map by lia. destruct ((0 <=? k) && (k <? hi - lo)) eqn:E.
  - rewrite zget_zrange by lia. cbn [option_map]. unfold znthq. destruct (zget_in_range l (lo + k)) as [v ->]; [lia|reflexivity].
  - rewrite (zget_out (zrange lo hi)); [reflexivity|]. rewrite zrange_zlen. lia.
Qed.
Lemma inject_pos z : 0 < z -> ~ (inject_Z z == 0)%Q.
Proof. intros H E. change 0%Q with (inject_Z 0) in E. rewrite inject_Z_injective in E. lia. Qed.

Lemma qmean_sub l lo hi : 0 <= lo < hi -> hi <= zlen l -> (qmean (sub l lo hi) * inject_Z (hi - lo) == qsum_on (znthq l) lo hi)%Q.
Proof.
  intros H1 H2. unfold qmean. rewrite zlen_sub by lia. rewrite sub_as_map by lia. fold (qsum_on (znthq l) lo hi). field. apply inject_pos. lia.
Qed.

Lemma zget_sequence_row_len {A} (out : list (list A)) n : out <> [] -> Forall (fun r => zlen r = n) out -> row_len out = n.
Proof. intros H1 H2. destruct out as [|r t]; [congruence|]. inversion H2. assumption. Qed.

Lemma colop_zlen {A} d (op : list A -> A) nx rows : 0 <= nx -> zlen (colop d op nx rows) = nx.
Proof. intros H. unfold colop. rewrite zlen_map, zrange_zlen. lia. Qed.

Lemma zlen_pos_ne {A} (l : list A) : 0 < zlen l -> l <> [].
Proof. intros H E. destruct l; [cbn in H; lia|discriminate]. Qed.

Lemma In_zget' {A} (l : list A) x : In x l -> exists i, zget l i = Some x.
Proof. intros H. apply In_nth_error in H as [n H]. exists (Z.of_nat n). now rewrite zget_nth_error. Qed.

Definition rowR (nx : Z) (r s : list Q) : Prop := zlen r = nx /\ zlen s = nx /\ Forall2 Qeq r s.

Lemma Forall_zget {A} (P : A -> Prop) l i x : Forall P l -> zget l i = Some x -> P x.
Proof. intros H Hx. rewrite Forall_forall in H. apply H. unfold zget in Hx. destruct (i <? 0); [discriminate|]. eapply nth_error_In, Hx. Qed.
Lemma Forall_of_zget {A} (P : A -> Prop) l : (forall i x, zget l i = Some x -> P x) -> Forall P l.
Proof. intros H. apply Forall_forall. intros x Hx. apply In_zget' in Hx as [i Hi]. eauto. Qed.

Lemma zget_Forall2Q r s i : Forall2 Qeq r s -> (znthq r i == znthq s i)%Q.
Proof.
  intros H. unfold znthq. revert i. induction H as [|x y l t Hxy HF IH]; intros i; [reflexivity|]. rewrite !zget_cons. destruct (i =? 0); [exact Hxy|apply IH].
Qed.

Lemma colop_znthq nx rows x : 0 <= x < nx -> znthq (colop 0%Q qmean nx rows) x = qmean (map (fun r => znthq r x) rows).
Proof.
  intros H. unfold znthq at 1, colop. rewrite zget_map, zget_zrange by lia. cbn [option_map]. rewrite Z.add_0_l. reflexivity.
Qed.
Lemma skipn_map {A B} (g : A -> B) n : forall l, skipn n (map g l) = map g (skipn n l).
Proof. induction n as [|n IH]; intros [|x l]; cbn; auto. Qed.
Lemma map_sub {A B} (g : A -> B) l lo hi : map g (sub l lo hi) = sub (map g l) lo hi.
Proof. unfold sub. rewrite skipn_map, firstn_map. reflexivity. Qed.

(* rows after the first reduction *)
Lemma down_rows (m : ndmap Q) fy oy incl : nd_wf m -> good_axis incl (nm_ny m) fy oy -> 0 < nm_nx m ->
  exists rows, block_reduce (colop 0%Q qmean (nm_nx m)) (nm_arr m) fy oy incl = Some rows /\
    zlen rows = blk_n incl (nm_ny m) fy oy /\ Forall (fun r => zlen r = nm_nx m) rows /\
    forall Y r, zget rows Y = Some r -> forall x, 0 <= x < nm_nx m ->
      (znthq r x * inject_Z (blk_hi incl (nm_ny m) fy oy Y - blk_lo incl fy oy Y) ==
       qsum_on (fun y => pixq m y x) (blk_lo incl fy oy Y) (blk_hi incl (nm_ny m) fy oy Y))%Q.
Proof.
  intros [W1 W2] Hg Hnx.
  set (R := fun r s : list Q => zlen r = nm_nx m -> zlen s = nm_nx m /\ forall x, (znthq r x == znthq s x)%Q).
  assert (Hg' : good_axis incl (zlen (nm_arr m)) fy oy) by (rewrite W1; exact Hg).
  (* a row is replaced by something of the right length with the same values *)
  destruct (Z.eq_dec fy 1) as [->|Hf2].
  - destruct Hg as (A1 & A2 & A3 & A4 & A5). rewrite (A4 eq_refl) in *. exists (nm_arr m). split; [reflexivity|].
    assert (Hbn : blk_n incl (nm_ny m) 1 0 = nm_ny m) by (unfold blk_n, nblock; destruct incl; rewrite Z.div_1_r; cbn; lia).
    split; [lia|]. split; [exact W2|]. intros Y r Hr x Hx. pose proof (zget_Some_range _ _ _ Hr).
    assert (E1 : blk_lo incl 1 0 Y = Y) by (unfold blk_lo, block_lo; destruct incl; cbn; lia).
    assert (E2 : blk_hi incl (nm_ny m) 1 0 Y = Y + 1) by (unfold blk_hi, block_hi, block_lo; destruct incl; cbn; lia).
    rewrite E1, E2. replace (Y + 1 - Y) with 1 by lia. unfold qsum_on. rewrite zrange_cons, zrange_empty by lia. cbn [map qsum].
    unfold pixq, pixel. rewrite Hr. fold (znthq r x). change (inject_Z 1) with 1%Q. ring.
  - destruct Hg' as (A1 & A2 & A3 & A4 & A5). assert (Hne : nm_arr m <> []) by (apply zlen_pos_ne; lia).
    assert (S0 : exists rows, block_reduce (colop 0%Q qmean (nm_nx m)) (nm_arr m) fy oy incl = Some rows /\
      zlen rows = blk_n incl (nm_ny m) fy oy /\ forall Y, 0 <= Y < blk_n incl (nm_ny m) fy oy ->
        zget rows Y = Some (colop 0%Q qmean (nm_nx m) (sub (nm_arr m) (blk_lo incl fy oy Y) (blk_hi incl (nm_ny m) fy oy Y)))).
    { rewrite <- W1. unfold blk_n, blk_lo, blk_hi. destruct incl.
      - apply block_reduce_spec; [lia|lia|exact Hne].
      - apply reduce_noninc; [lia|lia|apply A5; reflexivity]. }
    destruct S0 as (rows & Hr & Hl & Hz). exists rows. split; [exact Hr|]. split; [exact Hl|].
    assert (Hrow : forall Y r, zget rows Y = Some r -> 0 <= Y < blk_n incl (nm_ny m) fy oy /\
      r = colop 0%Q qmean (nm_nx m) (sub (nm_arr m) (blk_lo incl fy oy Y) (blk_hi incl (nm_ny m) fy oy Y))).
    { intros Y r HY. pose proof (zget_Some_range _ _ _ HY). rewrite Hz in HY by lia. injection HY as <-. split; [lia|reflexivity]. }
    split.
    + apply Forall_of_zget. intros Y r HY. apply Hrow in HY as [_ ->]. apply colop_zlen. lia.
    + intros Y r HY x Hx. apply Hrow in HY as [HY ->]. rewrite colop_znthq by exact Hx. rewrite map_sub.
      destruct (blk_facts incl (nm_ny m) fy oy Y Hg HY) as [B1 B2]. rewrite qmean_sub by (rewrite ?zlen_map; lia).
      apply qsum_on_ext. intros y Hy. unfold znthq, pixq, pixel. rewrite zget_map.
      destruct (zget_in_range (nm_arr m) y) as [r ->]; [lia|]. reflexivity.
Qed.

Lemma downgrade_wcs (m : ndmap Q) fy fx oy ox incl : good_axis incl (nm_ny m) fy oy -> good_axis incl (nm_nx m) fx ox ->
  let w := nm_wcs (getitem m (PS (Some oy) None (Some fy), PS (Some ox) None (Some fx))) in
  centres_match m (NdMap 0 0 [] (wcs_shift w (qb ((0 <? ox) && incl)) (qb ((0 <? oy) && incl)))) fy fx oy ox incl.
Proof.
  intros (A1 & A2 & A3 & A4 & A5) (B1 & B2 & B3 & B4 & B5). cbv zeta. unfold getitem, slice_geometry, slice_axis, expand_slice, es_step. cbn [ps_step ps_start ps_stop es_default fst snd].
  destruct (fy =? 0) eqn:E1; [lia|]. destruct (fx =? 0) eqn:E2; [lia|].
  destruct (0 <? fy) eqn:E3; [|lia]. destruct (0 <? fx) eqn:E4; [|lia]. cbn [nm_wcs]. unfold es_cycle.
  destruct (0 <=? oy) eqn:E5; [|lia]. destruct (0 <=? ox) eqn:E6; [|lia]. rewrite (Z.min_l oy), (Z.min_l ox) by lia.
  split; intros; unfold sky_x, sky_y, sky_at, wcs_shift; cbn [nm_wcs crval_x crpix_x cdelt_x crval_y crpix_y cdelt_y]; rewrite ?E3, ?E4;
    field; apply inject_pos; lia.
Qed.

Lemma downgrade_spec (m : ndmap Q) fy fx oy ox incl : nd_wf m ->
  good_axis incl (nm_ny m) fy oy -> good_axis incl (nm_nx m) fx ox ->
  exists d, downgrade m fy fx oy ox incl = Some d /\ nd_wf d /\
    nm_ny d = blk_n incl (nm_ny m) fy oy /\ nm_nx d = blk_n incl (nm_nx m) fx ox /\
    (forall Y X, 0 <= Y < nm_ny d -> 0 <= X < nm_nx d ->
      let y0 := blk_lo incl fy oy Y in let y1 := blk_hi incl (nm_ny m) fy oy Y in
      let x0 := blk_lo incl fx ox X in let x1 := blk_hi incl (nm_nx m) fx ox X in
      exists v, pixel d Y X = Some v /\
        (v * inject_Z ((y1 - y0) * (x1 - x0))%Z == qsum_on (fun y => qsum_on (fun x => pixq m y x) x0 x1) y0 y1)%Q) /\
    centres_match m d fy fx oy ox incl.
Proof.
  intros Hw Hy Hx. unfold downgrade. destruct ((fy =? 1) && (fx =? 1)) eqn:E.
  - assert (fy = 1) by lia. assert (fx = 1) by lia. subst fy fx. exists m. split; [reflexivity|]. split; [exact Hw|].
    assert (oy = 0) by (apply Hy; reflexivity). assert (ox = 0) by (apply Hx; reflexivity). subst oy ox.
    assert (Hbn : forall n, blk_n incl n 1 0 = n) by (intros; unfold blk_n, nblock; destruct incl; rewrite Z.div_1_r; cbn; lia).
    rewrite !Hbn. split; [reflexivity|]. split; [reflexivity|].
    assert (E1 : forall Y, blk_lo incl 1 0 Y = Y) by (intros; unfold blk_lo, block_lo; destruct incl; cbn; lia).
    assert (E2 : forall n Y, 0 <= Y < n -> blk_hi incl n 1 0 Y = Y + 1) by (intros; unfold blk_hi, block_hi, block_lo; destruct incl; cbn; lia).
    split.
    + intros Y X HY HX. cbv zeta. rewrite !E1, !E2 by lia.
      destruct Hw as [W1 W2]. destruct (zget_in_range (nm_arr m) Y) as [r Hr]; [lia|].
      pose proof (Forall_zget _ _ _ _ W2 Hr) as Hrl. cbn beta in Hrl.
      destruct (zget_in_range r X) as [v Hv]; [lia|].
      assert (Hp : pixel m Y X = Some v) by (unfold pixel; rewrite Hr; exact Hv). exists v. split; [exact Hp|].
      replace ((Y + 1 - Y) * (X + 1 - X)) with 1 by lia. unfold qsum_on. rewrite (zrange_cons Y), (zrange_empty (Y + 1)), (zrange_cons X), (zrange_empty (X + 1)) by lia. cbn [map qsum].
      unfold pixq. rewrite Hp. change (inject_Z 1) with 1%Q. ring.
    + split; intros; cbn [Z.ltb andb qb]; change (inject_Z 0) with 0%Q; change (inject_Z 1) with 1%Q; cbn; unfold sky_x, sky_y, sky_at; field.
  - destruct (down_rows m fy oy incl Hw Hy) as (rows & Hr & Hrl & Hrn & Hrv); [apply Hx|].
    rewrite Hr.
    destruct (sequence_map (fun r => block_reduce qmean r fx ox incl) rows
      (fun r s => zlen s = blk_n incl (nm_nx m) fx ox /\ forall X, 0 <= X < blk_n incl (nm_nx m) fx ox -> exists v, zget s X = Some v /\
         (v == qmean (sub r (blk_lo incl fx ox X) (blk_hi incl (nm_nx m) fx ox X)))%Q)) as (out & Ho & HF).
    { intros r Hin. rewrite Forall_forall in Hrn. pose proof (Hrn r Hin) as Hlen.
      destruct (blk_reduce Qeq qmean r fx ox incl) as (s & H1 & H2 & H3).
      - intros x. symmetry. apply (qmean_repeat x 1). lia.
      - reflexivity.
      - rewrite Hlen. exact Hx.
      - rewrite Hlen in *. eauto. }
    rewrite Ho. eexists. split; [reflexivity|]. apply Forall2_zget_l in HF as [Hol Hog].
    assert (Hpos : 0 < zlen out) by (rewrite Hol, Hrl; apply blk_n_pos; exact Hy).
    assert (Hnxo : Forall (fun s => zlen s = blk_n incl (nm_nx m) fx ox) out).
    { apply Forall_of_zget. intros i s Hs. pose proof (zget_Some_range _ _ _ Hs). destruct (zget_in_range rows i) as [r Hri]; [lia|].
      destruct (Hog _ _ Hri) as (s' & Hs' & H1 & _). rewrite Hs in Hs'. injection Hs' as <-. exact H1. }
    assert (Hrow : row_len out = blk_n incl (nm_nx m) fx ox) by (apply zget_sequence_row_len; [apply zlen_pos_ne; exact Hpos|exact Hnxo]).
    cbn [nm_ny nm_nx nm_arr nm_wcs]. split; [split; cbn [nm_arr nm_ny nm_nx]; [reflexivity|rewrite Hrow; exact Hnxo]|].
    split; [lia|]. split; [exact Hrow|]. split.
    + intros Y X HY HX. cbv zeta. destruct (zget_in_range rows Y) as [r HrY]; [lia|].
      destruct (Hog _ _ HrY) as (s & Hs & Hsl & Hsv). rewrite Hrow in HX. destruct (Hsv X HX) as (v & Hv & Hvq).
      exists v. split; [unfold pixel; cbn [nm_arr]; rewrite Hs; exact Hv|].
      set (x0 := blk_lo incl fx ox X) in *. set (x1 := blk_hi incl (nm_nx m) fx ox X) in *.
      set (y0 := blk_lo incl fy oy Y) in *. set (y1 := blk_hi incl (nm_ny m) fy oy Y) in *.
      destruct (blk_facts _ _ _ _ _ Hx HX) as [F1 F2]. fold x0 x1 in F1, F2.
      assert (HYb : 0 <= Y < blk_n incl (nm_ny m) fy oy) by lia.
      destruct (blk_facts _ _ _ _ _ Hy HYb) as [G1 G2]. fold y0 y1 in G1, G2.
      pose proof (Forall_zget _ _ _ _ Hrn HrY) as Hlen. cbn beta in Hlen.
      rewrite inject_Z_mult, Hvq. rewrite qsum_on_swap.
      transitivity (inject_Z (y1 - y0) * (qmean (sub r x0 x1) * inject_Z (x1 - x0)))%Q; [ring|].
      rewrite qmean_sub by lia. rewrite <- qsum_on_scale. apply qsum_on_ext. intros x Hxr.
      rewrite Qmult_comm. apply Hrv; [exact HrY|lia].
    + apply (downgrade_wcs m fy fx oy ox incl Hy Hx).
Qed.

(* the total of the covered area is conserved *)
Lemma downgrade_total (m : ndmap Q) fy fx oy ox d : nd_wf m ->
  good_axis false (nm_ny m) fy oy -> good_axis false (nm_nx m) fx ox -> downgrade m fy fx oy ox false = Some d ->
  (inject_Z (fy * fx) * qsum_on (fun Y => qsum_on (fun X => pixq d Y X) 0 (nm_nx d)) 0 (nm_ny d) ==
   qsum_on (fun y => qsum_on (fun x => pixq m y x) ox (ox + nm_nx d * fx)) oy (oy + nm_ny d * fy))%Q.
Proof.
  intros Hw Hy Hx Hd. destruct (downgrade_spec m fy fx oy ox false Hw Hy Hx) as (d' & Hd' & Hwd & Hny & Hnx & Hv & _).
  rewrite Hd in Hd'. injection Hd' as <-.
  pose proof (blk_n_pos _ _ _ _ Hy) as Py. pose proof (blk_n_pos _ _ _ _ Hx) as Px. rewrite <- Hny in Py. rewrite <- Hnx in Px.
  destruct Hy as (Y1 & _). destruct Hx as (X1 & _).
  rewrite <- (qsum_on_blocks _ oy fy (nm_ny d)) by lia. rewrite <- qsum_on_scale. apply qsum_on_ext. intros Y HY.
  rewrite qsum_on_swap. rewrite <- (qsum_on_blocks _ ox fx (nm_nx d)) by lia. rewrite <- qsum_on_scale. apply qsum_on_ext. intros X HX.
  destruct (Hv Y X HY HX) as (v & Hp & Hvq). cbn [blk_lo blk_hi] in Hvq. unfold pixq at 1. rewrite Hp. rewrite qsum_on_swap in Hvq. rewrite <- Hvq.
  rewrite Qmult_comm. apply Qmult_comp; [reflexivity|]. rewrite inject_Z_injective. ring.
Qed.

(** upgrade *)
Lemma up_good incl n f off : 1 <= f -> 0 <= off -> (f = 1 -> off = 0) -> 0 < n ->
  good_axis incl (up_len n f off incl) f off /\ blk_n incl (up_len n f off incl) f off = n.
Proof.
  intros Hf Ho Hf1 Hn. unfold up_len. set (o := if (0 <? off) && incl then 1 else 0).
  assert (Hoc : 0 <= o <= 1 /\ (o = 1 -> incl = true /\ 0 < off) /\ (incl = true -> 0 < off -> o = 1)).
  { unfold o. destruct (0 <? off) eqn:E1, incl; cbn; repeat split; try lia; try discriminate; intros; try discriminate; lia. }
  assert (Hdiv : forall k, 0 <= k -> (k * f + off - off) / f = k) by (intros; rewrite Z.add_simpl_r; apply Z.div_mul; lia).
  split; [unfold good_axis; repeat split; try lia; try nia; intros ->; nia|].
  unfold blk_n, nblock. destruct incl.
  - replace ((n - o) * f + off - off + f - 1) with ((f - 1) + (n - o) * f) by lia. rewrite Z.div_add by lia. rewrite Z.div_small by lia.
    destruct (0 <? off) eqn:E; lia.
  - rewrite Hdiv by lia. destruct Hoc as (H1 & H2 & H3). destruct (Z.eq_dec o 1); [|lia]. destruct (H2 ltac:(assumption)). discriminate.
Qed.

Lemma up_expand {A} (zero : A) x f off incl : 1 <= f -> 0 <= off -> (f = 1 -> off = 0) -> 0 < zlen x ->
  let n := up_len (zlen x) f off incl in
  exists y, block_expand zero x f n off incl = Some y /\ zlen y = n /\
    (forall i k, 0 <= i < zlen x -> blk_lo incl f off i <= k < blk_hi incl n f off i -> zget y k = zget x i) /\
    (forall k v, zget y k = Some v -> v = zero \/ In v x).
Proof.
  intros Hf Ho Hf1 Hx n. destruct (up_good incl (zlen x) f off Hf Ho Hf1 Hx) as [Hg Hbn]. fold n in Hg, Hbn.
  pose proof Hg as (G1 & G2 & G3 & G4 & G5). destruct incl.
  - destruct (block_expand_spec zero x f n off) as (y & Hy & Hl & Hk); [lia..|symmetry; exact Hbn|].
    exists y. split; [exact Hy|]. split; [exact Hl|]. split.
    + intros i k Hi Hik. rewrite <- Hbn in Hi. destruct (blk_facts true n f off i Hg Hi). cbn [blk_lo blk_hi] in *.
      rewrite Hk by lia. apply (which_block_iff n f off k i) in Hik; [|lia..]. now rewrite Hik.
    + intros k v Hv. right. pose proof (zget_Some_range _ _ _ Hv). rewrite Hk in Hv by lia.
      unfold zget in Hv. destruct (which_block f off k <? 0); [discriminate|]. eapply nth_error_In, Hv.
  - destruct (expand_noninc zero x f n off) as (y & Hy & Hl & Hk); [lia..|symmetry; exact Hbn|].
    exists y. split; [exact Hy|]. split; [exact Hl|]. split.
    + intros i k Hi Hik. rewrite <- Hbn in Hi. destruct (blk_facts false n f off i Hg Hi). cbn [blk_lo blk_hi] in *.
      rewrite Hk by lia. rewrite Hbn in Hi. destruct ((off <=? k) && (k <? off + zlen x * f)) eqn:E; [|nia].
      f_equal. symmetry. apply (Z.div_unique _ _ _ (k - off - f * i)); nia.
    + intros k v Hv. pose proof (zget_Some_range _ _ _ Hv). rewrite Hk in Hv by lia.
      destruct ((off <=? k) && (k <? off + zlen x * f)); [|left; congruence]. right.
      unfold zget in Hv. destruct ((k - off) / f <? 0); [discriminate|]. eapply nth_error_In, Hv.
Qed.

Lemma upgrade_spec (m : ndmap Q) fy fx oy ox incl : nd_wf m -> 0 < nm_ny m -> 0 < nm_nx m ->
  1 <= fy -> 0 <= oy -> (fy = 1 -> oy = 0) -> 1 <= fx -> 0 <= ox -> (fx = 1 -> ox = 0) ->
  exists u, upgrade m fy fx oy ox incl = Some u /\ nd_wf u /\
    nm_ny u = up_len (nm_ny m) fy oy incl /\ nm_nx u = up_len (nm_nx m) fx ox incl /\
    (forall Y X y x, 0 <= Y < nm_ny m -> 0 <= X < nm_nx m ->
      blk_lo incl fy oy Y <= y < blk_hi incl (nm_ny u) fy oy Y -> blk_lo incl fx ox X <= x < blk_hi incl (nm_nx u) fx ox X ->
      pixel u y x = pixel m Y X) /\
    centres_match u m fy fx oy ox incl.
Proof.
  intros [W1 W2] Hny Hnx Hfy Hoy Hfy1 Hfx Hox Hfx1. unfold upgrade, upgrade_to.
  destruct (up_expand (repeat 0%Q (Z.to_nat (nm_nx m))) (nm_arr m) fy oy incl) as (rows & Hr & Hrl & Hrv & Hrin); [lia..|].
  rewrite W1 in *. rewrite Hr.
  assert (Hrows : Forall (fun r => zlen r = nm_nx m) rows).
  { apply Forall_of_zget. intros i r Hi. destruct (Hrin _ _ Hi) as [->|Hin]; [apply zlen_repeat; lia|]. rewrite Forall_forall in W2. auto. }
  set (nx := up_len (nm_nx m) fx ox incl) in *.
  destruct (sequence_map (fun r => block_expand 0%Q r fx nx ox incl) rows
      (fun r s => zlen s = nx /\ forall i k, 0 <= i < nm_nx m -> blk_lo incl fx ox i <= k < blk_hi incl nx fx ox i -> zget s k = zget r i)) as (out & Ho & HF).
  { intros r Hin. rewrite Forall_forall in Hrows. pose proof (Hrows r Hin) as Hlen.
    destruct (up_expand 0%Q r fx ox incl) as (s & H1 & H2 & H3 & _); [lia..|]. rewrite Hlen in *. fold nx in H1, H2, H3. eauto. }
  rewrite Ho. unfold up_axis. eexists. split; [reflexivity|]. apply Forall2_zget_l in HF as [Hol Hog].
  destruct (up_good incl (nm_ny m) fy oy) as [Gy By]; [lia..|]. destruct (up_good incl (nm_nx m) fx ox) as [Gx Bx]; [lia..|]. fold nx in Gx, Bx.
  assert (Hnxo : Forall (fun s => zlen s = nx) out).
  { apply Forall_of_zget. intros i s Hs. pose proof (zget_Some_range _ _ _ Hs). destruct (zget_in_range rows i) as [r Hri]; [lia|].
    destruct (Hog _ _ Hri) as (s' & Hs' & H1 & _). rewrite Hs in Hs'. injection Hs' as <-. exact H1. }
  assert (Hpos : 0 < zlen out) by (rewrite Hol, Hrl; apply Gy).
  assert (Hrow : row_len out = nx) by (apply zget_sequence_row_len; [apply zlen_pos_ne; exact Hpos|exact Hnxo]).
  cbn [nm_ny nm_nx nm_arr nm_wcs]. split; [split; cbn [nm_arr nm_ny nm_nx]; [reflexivity|rewrite Hrow; exact Hnxo]|].
  split; [lia|]. split; [exact Hrow|]. rewrite Hrow. replace (zlen out) with (up_len (nm_ny m) fy oy incl) by lia. split.
  - intros Y X y x HY HX Hy Hx. unfold pixel. cbn [nm_arr].
    rewrite <- By in HY. destruct (blk_facts _ _ _ _ _ Gy HY) as [F1 F2]. rewrite By in HY.
    destruct (zget_in_range rows y) as [r Hry]; [lia|]. destruct (Hog _ _ Hry) as (s & Hs & _ & Hsv). rewrite Hs.
    rewrite (Hsv X x) by assumption. rewrite (Hrv Y y) in Hry by assumption. rewrite Hry. reflexivity.
  - split; intros; unfold sky_x, sky_y, sky_at; cbn [nm_wcs crval_x crpix_x cdelt_x crval_y crpix_y cdelt_y]; field; apply inject_pos; lia.
Qed.

Lemma qsum_on_const c lo hi : lo <= hi -> (qsum_on (fun _ => c) lo hi == c * inject_Z (hi - lo))%Q.
Proof.
  intros H. unfold qsum_on. assert (E : forall l : list Z, (qsum (map (fun _ => c) l) == c * inject_Z (zlen l))%Q).
  { induction l as [|x l IH]; [cbn; ring|]. cbn [map qsum]. rewrite IH, zlen_cons, inject_Z_plus. change (inject_Z 1) with 1%Q. ring. }
  rewrite E, zrange_zlen. rewrite Z.max_r by lia. reflexivity.
Qed.

Lemma pixel_range {A} (m : ndmap A) y x v : nd_wf m -> pixel m y x = Some v -> 0 <= y < nm_ny m /\ 0 <= x < nm_nx m.
Proof.
  intros [W1 W2] H. unfold pixel in H. destruct (zget (nm_arr m) y) as [r|] eqn:E; [|discriminate].
  pose proof (Forall_zget _ _ _ _ W2 E) as Hl. cbn beta in Hl. apply zget_Some_range in E. apply zget_Some_range in H. lia.
Qed.

Lemma downgrade_upgrade (m : ndmap Q) fy fx oy ox incl : nd_wf m -> 0 < nm_ny m -> 0 < nm_nx m ->
  1 <= fy -> 0 <= oy -> (fy = 1 -> oy = 0) -> 1 <= fx -> 0 <= ox -> (fx = 1 -> ox = 0) ->
  exists u d, upgrade m fy fx oy ox incl = Some u /\ downgrade u fy fx oy ox incl = Some d /\ same_map d m.
Proof.
  intros Hw Hny Hnx Hfy Hoy Hfy1 Hfx Hox Hfx1.
  destruct (upgrade_spec m fy fx oy ox incl) as (u & Hu & Hwu & Huy & Hux & Hup & Huw); [assumption..|].
  destruct (up_good incl (nm_ny m) fy oy) as [Gy By]; [lia..|]. destruct (up_good incl (nm_nx m) fx ox) as [Gx Bx]; [lia..|].
  rewrite <- Huy in *. rewrite <- Hux in *.
  destruct (downgrade_spec u fy fx oy ox incl Hwu Gy Gx) as (d & Hd & Hwd & Hdy & Hdx & Hdp & Hdw).
  exists u, d. split; [exact Hu|]. split; [exact Hd|]. split; [lia|]. split; [lia|]. split.
  - intros Y X v Hv. destruct (pixel_range _ _ _ _ Hw Hv) as [HY HX].
    assert (HYb : 0 <= Y < blk_n incl (nm_ny u) fy oy) by lia. assert (HXb : 0 <= X < blk_n incl (nm_nx u) fx ox) by lia.
    destruct (blk_facts _ _ _ _ _ Gy HYb) as [F1 F2]. destruct (blk_facts _ _ _ _ _ Gx HXb) as [F3 F4].
    destruct (Hdp Y X) as (t & Ht & Hq); [lia|lia|]. cbv zeta in Hq. exists t. split; [exact Ht|].
    set (y0 := blk_lo incl fy oy Y) in *. set (y1 := blk_hi incl (nm_ny u) fy oy Y) in *.
    set (x0 := blk_lo incl fx ox X) in *. set (x1 := blk_hi incl (nm_nx u) fx ox X) in *.
    assert (E : (qsum_on (fun y => qsum_on (fun x => pixq u y x) x0 x1) y0 y1 == v * inject_Z ((y1 - y0) * (x1 - x0)))%Q).
    { rewrite inject_Z_mult. transitivity (v * inject_Z (x1 - x0) * inject_Z (y1 - y0))%Q; [|ring]. rewrite <- qsum_on_const by lia.
      apply qsum_on_ext. intros y Hy. rewrite <- qsum_on_const by lia. apply qsum_on_ext. intros x Hx.
      unfold pixq. rewrite (Hup Y X y x) by assumption. rewrite Hv. reflexivity. }
    rewrite E in Hq. apply Qmult_inj_r in Hq; [exact Hq|]. apply inject_pos. nia.
  - destruct Huw as [U1 U2], Hdw as [D1 D2]. split; intros p; [rewrite D1, U1|rewrite D2, U2]; reflexivity.
Qed.

(** geometry functions *)
Lemma downgrade_geometry_agrees (m d : ndmap Q) fy fx : nd_wf m -> good_axis false (nm_ny m) fy 0 -> good_axis false (nm_nx m) fx 0 ->
  downgrade m fy fx 0 0 false = Some d ->
  let g := downgrade_geometry (nm_ny m) (nm_nx m) (nm_wcs m) fy fx in
  fst g = (nm_ny d, nm_nx d) /\ (forall p, sky_x (snd g) p == sky_x (nm_wcs d) p)%Q /\ (forall p, sky_y (snd g) p == sky_y (nm_wcs d) p)%Q.
Proof.
  intros Hw Hy Hx Hd g. destruct (downgrade_spec m fy fx 0 0 false Hw Hy Hx) as (d' & Hd' & _ & Hny & Hnx & _ & [D1 D2]).
  rewrite Hd in Hd'. injection Hd' as <-. cbn [blk_n] in Hny, Hnx. rewrite Z.sub_0_r in *. unfold g, downgrade_geometry. cbn [fst snd].
  split; [now rewrite Hny, Hnx|]. destruct Hy as (Y1 & _). destruct Hx as (X1 & _).
  split; intros p; [rewrite D1|rewrite D2]; unfold sky_x, sky_y, sky_at, wcs_scale; cbn [crval_x crpix_x cdelt_x crval_y crpix_y cdelt_y Z.ltb andb qb];
    change (inject_Z 0) with 0%Q; cbn; field; repeat match goal with |- _ /\ _ => split end; try (apply inject_pos; lia).
Qed.

Lemma wcs_scale_corner w sx sy p : ~ (sx == 0)%Q -> ~ (sy == 0)%Q ->
  (sky_x (wcs_scale w sx sy true) ((p + (1#2)) * sx - (1#2)) == sky_x w p)%Q /\
  (sky_y (wcs_scale w sx sy true) ((p + (1#2)) * sy - (1#2)) == sky_y w p)%Q.
Proof. intros Hx Hy. unfold sky_x, sky_y, sky_at, wcs_scale. cbn [crval_x crpix_x cdelt_x crval_y crpix_y cdelt_y]. split; field; assumption. Qed.
Lemma wcs_scale_compose w sx sy tx ty c p : ~ (sx == 0)%Q -> ~ (sy == 0)%Q -> ~ (tx == 0)%Q -> ~ (ty == 0)%Q ->
  (sky_x (wcs_scale (wcs_scale w sx sy c) tx ty c) p == sky_x (wcs_scale w (sx * tx) (sy * ty) c) p)%Q /\
  (sky_y (wcs_scale (wcs_scale w sx sy c) tx ty c) p == sky_y (wcs_scale w (sx * tx) (sy * ty) c) p)%Q.
Proof. intros. unfold sky_x, sky_y, sky_at, wcs_scale. cbn [crval_x crpix_x cdelt_x crval_y crpix_y cdelt_y]. destruct c; split; field; auto. Qed.
Lemma wcs_scale_one w c p : (sky_x (wcs_scale w 1 1 c) p == sky_x w p)%Q /\ (sky_y (wcs_scale w 1 1 c) p == sky_y w p)%Q.
Proof. unfold sky_x, sky_y, sky_at, wcs_scale. cbn [crval_x crpix_x cdelt_x crval_y crpix_y cdelt_y]. destruct c; split; field. Qed.
Lemma wcs_scale_nocorner w sx sy p : ~ (sx == 0)%Q -> ~ (sy == 0)%Q ->
  (sky_x (wcs_scale w sx sy false) ((p + 1) * sx - 1) == sky_x w p)%Q /\
  (sky_y (wcs_scale w sx sy false) ((p + 1) * sy - 1) == sky_y w p)%Q.
Proof. intros Hx Hy. unfold sky_x, sky_y, sky_at, wcs_scale. cbn [crval_x crpix_x cdelt_x crval_y crpix_y cdelt_y]. split; field; assumption. Qed.
