(* C122: distributions of sums. *)
From Coq Require Import ZArith List Lia Reals Lra Arith.
From Verif Require Import Base DicSpec DicModel.
Import ListNotations.
Local Open Scope R_scope.
Ltac Zify.zify_post_hook ::= idtac.

Definition osum {A} (l : list A) (f : A -> R) : R := total (map f l).
Lemma osum_app {A} (l m : list A) f : osum (l ++ m) f = osum l f + osum m f.
Proof. unfold osum. induction l as [|x l IH]; cbn; [ring|]. rewrite IH. ring. Qed.
Lemma osum_ext {A} (l : list A) f g : (forall x, In x l -> f x = g x) -> osum l f = osum l g.
Proof. unfold osum. intros H. f_equal. apply map_ext_in. exact H. Qed.
Lemma osum_flat {A B} (l : list A) (h : A -> list B) f : osum (flat_map h l) f = osum l (fun x => osum (h x) f).
Proof. induction l as [|x l IH]; [reflexivity|]. cbn [flat_map]. rewrite osum_app, IH. reflexivity. Qed.
Lemma osum_map {A B} (l : list A) (h : A -> B) f : osum (map h l) f = osum l (fun x => f (h x)).
Proof. unfold osum. rewrite map_map. reflexivity. Qed.
Lemma osum_scal {A} (l : list A) c f : osum l (fun x => c * f x) = c * osum l f.
Proof. unfold osum. induction l as [|x l IH]; cbn; [ring|]. rewrite IH. ring. Qed.
Lemma osum_scal_r {A} (l : list A) c f : osum l (fun x => f x * c) = osum l f * c.
Proof. unfold osum. induction l as [|x l IH]; cbn; [ring|]. rewrite IH. ring. Qed.
Lemma osum_0 {A} (l : list A) : osum l (fun _ => 0) = 0.
Proof. unfold osum. induction l as [|x l IH]; cbn; [reflexivity|]. rewrite IH. ring. Qed.
Lemma osum_filter {A} (l : list A) p f : osum (filter p l) f = osum l (fun x => if p x then f x else 0).
Proof. unfold osum. induction l as [|x l IH]; cbn; [reflexivity|]. destruct (p x); cbn; rewrite IH; ring. Qed.
Lemma upto_ext n f g : (forall i, (i < n)%nat -> f i = g i) -> upto n f = upto n g.
Proof. induction n as [|n IH]; intros H; cbn; [reflexivity|]. rewrite IH, H by (try lia; intros; apply H; lia). reflexivity. Qed.
Lemma upto_osum {A} n (l : list A) (f : nat -> A -> R) : upto n (fun i => osum l (f i)) = osum l (fun x => upto n (fun i => f i x)).
Proof.
  induction n as [|n IH]; cbn; [symmetry; apply osum_0|]. rewrite IH. clear. unfold osum. induction l as [|x l IH]; cbn; [ring|]. rewrite <- IH. ring.
Qed.
Lemma upto_delta n j f : upto n (fun i => if Nat.eqb j i then f i else 0) = if (j <? n)%nat then f j else 0.
Proof.
  induction n as [|n IH]; cbn [upto]; [reflexivity|]. rewrite IH. destruct (Nat.eqb_spec j n) as [->|N].
  - rewrite Nat.ltb_irrefl. destruct (Nat.ltb_spec n (S n)); [ring|lia].
  - destruct (Nat.ltb_spec j n), (Nat.ltb_spec j (S n)); try lia; ring.
Qed.

Section Dist.
  Context (d : list R).
  Notation m := (length d).
  Notation ch n k := (osum (draws m n) (fun s => if Nat.eqb (points s) k then weight d s else 0)).
  Lemma chance_osum n k : chance d n k = ch n k.
  Proof. unfold chance. fold (osum (filter (fun s => Nat.eqb (points s) k) (draws m n)) (weight d)). apply osum_filter. Qed.
  Lemma points_app s t : points (s ++ t) = (points s + points t)%nat.
  Proof. induction s as [|i s IH]; cbn; [reflexivity|]. rewrite IH. lia. Qed.
  Lemma weight_app s t : weight d (s ++ t) = weight d s * weight d t.
  Proof. induction s as [|i s IH]; cbn; [ring|]. rewrite IH. ring. Qed.
  Lemma draws_app a b f : osum (draws m (a + b)) f = osum (draws m a) (fun s => osum (draws m b) (fun t => f (s ++ t))).
  Proof.
    revert f. induction a as [|a IH]; intros f; cbn [draws Nat.add].
    - unfold osum at 2. cbn. rewrite Rplus_0_r. reflexivity.
    - rewrite !osum_flat. apply osum_ext. intros i _. rewrite !osum_map. rewrite IH. apply osum_ext. intros s _. reflexivity.
  Qed.
  Lemma chance_add a b k : upto (S k) (fun i => chance d a i * chance d b (k - i)) = chance d (a + b) k.
  Proof.
    rewrite chance_osum, draws_app.
    rewrite (upto_ext _ _ (fun i => osum (draws m a) (fun s => osum (draws m b) (fun t => if Nat.eqb (points s) i then (if Nat.eqb (points t) (k - i) then weight d s * weight d t else 0) else 0)))).
    - rewrite upto_osum. apply osum_ext. intros s _. rewrite upto_osum. apply osum_ext. intros t _.
      rewrite (upto_delta (S k) (points s) (fun i => if Nat.eqb (points t) (k - i) then weight d s * weight d t else 0)). rewrite points_app, weight_app.
      destruct (Nat.ltb_spec (points s) (S k)), (Nat.eqb_spec (points s + points t) k), (Nat.eqb_spec (points t) (k - points s)); try lia; reflexivity.
    - intros i _. rewrite !chance_osum. rewrite <- osum_scal_r. apply osum_ext. intros s _. destruct (Nat.eqb (points s) i).
      + rewrite <- osum_scal. apply osum_ext. intros t _. destruct (Nat.eqb (points t) (k - i)); ring.
      + rewrite osum_0. ring.
  Qed.
  Definition rep (n : nat) (l : list R) : Prop := length l = S (n * pred m) /\ forall k, nth k l 0 = chance d n k.
  Lemma points_bound n s : (0 < m)%nat -> In s (draws m n) -> (points s <= n * pred m)%nat.
  Proof.
    intros Hm. revert s. induction n as [|n IH]; intros s H; cbn [draws] in H.
    - destruct H as [<-|[]]. cbn. lia.
    - apply in_flat_map in H. destruct H as (i & Hi & H). apply in_seq in Hi. apply in_map_iff in H. destruct H as (t & <- & Ht). cbn [points]. specialize (IH t Ht). nia.
  Qed.
  Lemma chance_beyond n k : (0 < m)%nat -> (n * pred m < k)%nat -> chance d n k = 0.
  Proof.
    intros Hm Hk. rewrite chance_osum. transitivity (osum (draws m n) (fun _ => 0)); [|apply osum_0]. apply osum_ext. intros s Hs. pose proof (points_bound n s Hm Hs). destruct (Nat.eqb_spec (points s) k); [lia|reflexivity].
  Qed.
  Lemma rep_convolve a b la lb : (0 < m)%nat -> rep a la -> rep b lb -> exists l, convolve la lb = Some l /\ rep (a + b) l.
  Proof.
    intros Hm [La Na] [Lb Nb].
    assert (E : convolve la lb = Some (map (fun k => upto (S k) (fun i => nth i la 0 * nth (k - i) lb 0)) (seq 0 (length la + length lb - 1)))).
    { unfold convolve. destruct la; [discriminate|]. destruct lb; [discriminate|]. reflexivity. }
    eexists. split; [exact E|]. split.
    - rewrite map_length, seq_length, La, Lb. nia.
    - intros k. destruct (Nat.lt_ge_cases k (length la + length lb - 1)) as [H|H].
      + rewrite <- chance_add. apply nth_error_nth. rewrite nth_error_map, nth_error_nth' with (d := O) by (rewrite seq_length; exact H). rewrite seq_nth by exact H. cbn [option_map Nat.add]. f_equal.
        apply upto_ext. intros i _. rewrite Na, Nb. reflexivity.
      + rewrite nth_overflow by (rewrite map_length, seq_length; exact H). rewrite chance_beyond; [reflexivity|exact Hm|]. rewrite La, Lb in H. nia.
  Qed.
  Lemma dloop_ok fuel : (0 < m)%nat -> forall N a b res dist, (N <= Z.of_nat fuel)%Z -> rep a res -> rep b dist ->
    exists l, dloop fuel N res dist = Some l /\ rep (a + Z.to_nat N * b) l.
  Proof.
    intros Hm. induction fuel as [|f IH]; intros N a b res dist Hf Ra Rb; cbn [dloop]; destruct (Z.ltb_spec 0 N) as [P|P].
    - lia.
    - exists res. split; [reflexivity|]. replace (Z.to_nat N) with O by lia. rewrite Nat.mul_0_l, Nat.add_0_r. exact Ra.
    - destruct (rep_convolve b b dist dist Hm Rb Rb) as (d2 & E2 & R2). rewrite E2.
      pose proof (Z.div_mod N 2 ltac:(lia)) as DM. pose proof (Zmod_odd N) as MO. assert (H2 : (0 <= N / 2 < N)%Z). { split; [apply Z.div_pos; lia|apply Z.div_lt; lia]. }
      destruct (Z.odd N).
      + destruct (rep_convolve a b res dist Hm Ra Rb) as (r2 & Er & Rr). rewrite Er. destruct (IH (N / 2)%Z (a + b)%nat (b + b)%nat r2 d2 ltac:(lia) Rr R2) as (l & El & Rl). exists l. split; [exact El|].
        replace (a + Z.to_nat N * b)%nat with (a + b + Z.to_nat (N / 2) * (b + b))%nat; [exact Rl|]. replace (Z.to_nat N) with (S (2 * Z.to_nat (N / 2))) by lia. nia.
      + destruct (IH (N / 2)%Z a (b + b)%nat res d2 ltac:(lia) Ra R2) as (l & El & Rl). exists l. split; [exact El|].
        replace (a + Z.to_nat N * b)%nat with (a + Z.to_nat (N / 2) * (b + b))%nat; [exact Rl|]. replace (Z.to_nat N) with (2 * Z.to_nat (N / 2))%nat by lia. nia.
    - exists res. split; [reflexivity|]. replace (Z.to_nat N) with O by lia. rewrite Nat.mul_0_l, Nat.add_0_r. exact Ra.
  Qed.
  Lemma rep_0 : rep 0 [1].
  Proof.
    split; [reflexivity|]. intros k. unfold chance. cbn. destruct k as [|[|k]]; cbn; ring.
  Qed.
  Lemma rep_1 : (0 < m)%nat -> rep 1 d.
  Proof.
    intros Hm. split; [lia|]. intros k. rewrite chance_osum. cbn [draws map]. rewrite osum_flat. unfold osum at 2. cbn [map total].
    assert (X : forall n s, osum (seq s n) (fun x => (if Nat.eqb (points [x]) k then weight d [x] else 0) + 0) = if andb (s <=? k)%nat (k <? s + n)%nat then nth k d 0 else 0).
    { induction n as [|n IH]; intros s; cbn [seq].
      - unfold osum. cbn [map total]. destruct (Nat.leb_spec s k), (Nat.ltb_spec k (s + 0)); try lia; reflexivity.
      - unfold osum in *. cbn [map total]. rewrite IH. cbn [points weight]. rewrite Nat.add_0_r.
        destruct (Nat.eqb_spec s k) as [E|N], (Nat.leb_spec s k), (Nat.leb_spec (S s) k), (Nat.ltb_spec k (S s + n)), (Nat.ltb_spec k (s + S n)); cbn [andb]; try lia; try rewrite E; ring. }
    rewrite X. cbn [Nat.leb andb Nat.add]. destruct (Nat.ltb_spec k m) as [H|H]; [reflexivity|]. apply nth_overflow. exact H.
  Qed.
  Lemma chance_total n : (0 < m)%nat -> upto (S (n * pred m)) (chance d n) = total d ^ n.
  Proof.
    intros Hm. rewrite (upto_ext _ _ (fun k => osum (draws m n) (fun s => if Nat.eqb (points s) k then weight d s else 0))) by (intros; apply chance_osum).
    rewrite upto_osum. transitivity (osum (draws m n) (weight d)).
    - apply osum_ext. intros s Hs. rewrite (upto_delta _ (points s) (fun _ => weight d s)). pose proof (points_bound n s Hm Hs). destruct (Nat.ltb_spec (points s) (S (n * pred m))); [reflexivity|lia].
    - induction n as [|n IH]; [unfold osum; cbn; ring|]. cbn [draws]. rewrite osum_flat. transitivity (osum (seq 0 m) (fun i => nth i d 0 * osum (draws m n) (weight d))).
      + apply osum_ext. intros i _. rewrite osum_map, <- osum_scal. apply osum_ext. intros s _. reflexivity.
      + rewrite osum_scal_r, IH. cbn [pow]. f_equal. unfold osum. f_equal. clear. apply nth_ext with (d := 0) (d' := 0); rewrite map_length, seq_length; [reflexivity|].
        intros i Hi. apply nth_error_nth. rewrite nth_error_map, nth_error_nth' with (d := O) by (rewrite seq_length; exact Hi). rewrite seq_nth by exact Hi. reflexivity.
  Qed.
End Dist.

Lemma total_upto l : total l = upto (length l) (fun k => nth k l 0).
Proof.
  induction l as [|x l IH] using rev_ind; [reflexivity|]. rewrite app_length. cbn [length]. rewrite Nat.add_1_r. cbn [upto]. rewrite app_nth2, Nat.sub_diag by lia. cbn [nth].
  assert (T : total (l ++ [x]) = total l + x) by (clear; induction l as [|y l IH]; cbn; [ring|rewrite IH; ring]). rewrite T, IH. f_equal. apply upto_ext. intros i Hi. rewrite app_nth1 by exact Hi. reflexivity.
Qed.
(* the k-th entry is the probability that N draws have the sum k; there is an entry for every sum that can occur *)
Theorem C122_distpow (dist : list R) (N : Z) : dist <> [] -> (0 <= N)%Z ->
  exists l, distpow dist N = Some l /\ length l = S (Z.to_nat N * (length dist - 1)) /\
    (forall k, nth k l 0 = chance dist (Z.to_nat N) k) /\ total l = total dist ^ Z.to_nat N.
Proof.
  intros Nd HN. assert (Hm : (0 < length dist)%nat) by (destruct dist; [contradiction|cbn; lia]).
  destruct (dloop_ok dist (Z.to_nat N) Hm N 0 1 [1] dist ltac:(lia) (rep_0 dist) (rep_1 dist Hm)) as (l & E & L & K).
  replace (0 + Z.to_nat N * 1)%nat with (Z.to_nat N) in * by lia. exists l. split; [exact E|]. split; [rewrite L; f_equal; f_equal; lia|]. split; [exact K|].
  rewrite total_upto, L. rewrite (upto_ext _ _ (chance dist (Z.to_nat N))) by (intros; apply K). apply chance_total. exact Hm.
Qed.
Theorem C122_empty N : distpow [] N = if (0 <? N)%Z then None else Some [1].
Proof.
  unfold distpow. destruct (Z.ltb_spec 0 N) as [H|H].
  - destruct (Z.to_nat N) eqn:E; [lia|]. cbn [dloop]. destruct (Z.ltb_spec 0 N); [|lia]. destruct (Z.odd N); reflexivity.
  - destruct (Z.to_nat N) eqn:E; cbn [dloop]; destruct (Z.ltb_spec 0 N); try lia; reflexivity.
Qed.

(* dice *)
Lemma dice_weight D s : (0 < D)%nat -> (forall i, In i s -> (i <= D)%nat) -> weight (0 :: repeat (1 / INR D) D) s = if forallb (fun i => (1 <=? i)%nat) s then (1 / INR D) ^ length s else 0.
Proof.
  intros HD. induction s as [|i s IH]; intros H; [reflexivity|]. cbn [weight forallb length pow]. rewrite IH by (intros j Hj; apply H; right; exact Hj). specialize (H i (or_introl eq_refl)).
  destruct i as [|i]; cbn [nth Nat.leb andb]; [ring|]. rewrite (nth_indep _ 0 (1 / INR D)) by (rewrite repeat_length; lia). rewrite nth_repeat. destruct (forallb _ s); ring.
Qed.
Lemma draws_le m n s : In s (draws m n) -> length s = n /\ forall i, In i s -> (i < m)%nat.
Proof.
  revert s. induction n as [|n IH]; intros s H; cbn [draws] in H.
  - destruct H as [<-|[]]. split; [reflexivity|intros i []].
  - apply in_flat_map in H. destruct H as (i & Hi & H). apply in_seq in Hi. apply in_map_iff in H. destruct H as (t & <- & Ht). destruct (IH t Ht) as [L B]. split; [cbn; lia|]. intros j [<-|Hj]; [lia|apply B; exact Hj].
Qed.
Lemma throws_draws D n f : osum (draws (S D) n) (fun s => if forallb (fun i => (1 <=? i)%nat) s then f s else 0) = osum (throws D n) f.
Proof.
  revert f. induction n as [|n IH]; intros f; [reflexivity|]. cbn [draws throws]. rewrite !osum_flat. change (seq 0 (S D)) with ([O] ++ seq 1 D). rewrite osum_app.
  match goal with |- ?a + _ = _ => assert (Z0 : a = 0) end.
  { unfold osum at 1. cbn [map total]. rewrite osum_map. cbn [forallb Nat.leb andb]. rewrite osum_0. ring. }
  rewrite Z0, Rplus_0_l. apply osum_ext. intros i Hi. apply in_seq in Hi. rewrite !osum_map. rewrite <- IH. apply osum_ext. intros s _. destruct i as [|i]; [lia|]. reflexivity.
Qed.
Lemma osum_count {A} (l : list A) (p : A -> bool) (c : R) : osum l (fun x => if p x then c else 0) = INR (length (filter p l)) * c.
Proof.
  unfold osum. induction l as [|x l IH]; cbn [map total filter]; [cbn; ring|]. rewrite IH. destruct (p x); [|ring]. cbn [length]. rewrite S_INR. ring.
Qed.
(* the k-th entry is the share of the throws that have the sum k *)
Theorem C122_dice (N D : Z) : (0 <= N)%Z -> (0 < D)%Z ->
  exists l, dicedist N D = Some l /\ length l = S (Z.to_nat (N * D)) /\ total l = 1 /\
    forall k, nth k l 0 = INR (ways (Z.to_nat D) (Z.to_nat N) k) / INR (Z.to_nat D) ^ Z.to_nat N.
Proof.
  intros HN HD. unfold dicedist. destruct (Z.leb_spec D 0); [lia|]. set (dd := Z.to_nat D). assert (Ed : IZR D = INR dd) by (unfold dd; rewrite INR_IZR_INZ, Z2Nat.id by lia; reflexivity). rewrite Ed.
  assert (Pd : 0 < INR dd) by (apply lt_0_INR; lia).
  destruct (C122_distpow (0 :: repeat (1 / INR dd) dd) N ltac:(discriminate) HN) as (l & E & L & K & T). exists l. split; [exact E|]. split.
  { rewrite L. cbn [length]. rewrite repeat_length. f_equal. unfold dd. rewrite Z2Nat.inj_mul by lia. f_equal. lia. }
  split.
  { rewrite T. cbn [total]. assert (X : forall c n, total (repeat c n) = INR n * c). { intros c n. induction n as [|n IH]; [cbn; ring|]. cbn [repeat total]. rewrite IH, S_INR. ring. }
    rewrite X. replace (0 + INR dd * (1 / INR dd)) with 1 by (field; lra). apply pow1. }
  intros k. rewrite K, chance_osum. cbn [length]. rewrite repeat_length.
  transitivity (osum (draws (S dd) (Z.to_nat N)) (fun s => if forallb (fun i => (1 <=? i)%nat) s then (if Nat.eqb (points s) k then (1 / INR dd) ^ Z.to_nat N else 0) else 0)).
  - apply osum_ext. intros s Hs. destruct (draws_le _ _ _ Hs) as [Ls Bs]. rewrite dice_weight; [|lia|intros i Hi; specialize (Bs i Hi); lia]. rewrite Ls.
    destruct (Nat.eqb (points s) k), (forallb _ s); reflexivity.
  - rewrite (throws_draws dd (Z.to_nat N) (fun s => if Nat.eqb (points s) k then (1 / INR dd) ^ Z.to_nat N else 0)). rewrite osum_count. unfold ways, Rdiv. rewrite Rmult_1_l, pow_inv. reflexivity.
Qed.
Example C122_ex : ways 6 2 7 = 6%nat /\ ways 6 2 12 = 1%nat /\ ways 6 2 1 = 0%nat.
Proof. repeat split; reflexivity. Qed.
Example C122_ex_conv : exists l, distpow [1/2; 1/2] 2 = Some l /\ l = [1/4; 1/2; 1/4].
Proof.
  unfold distpow. cbn. eexists. split; [reflexivity|]. cbn. repeat (apply f_equal2; [lra|]). reflexivity.
Qed.
Print Assumptions C122_distpow.
Print Assumptions C122_dice.
