(* C118: boxes. *)
From Coq Require Import ZArith List Lia Reals Lra Arith.
From Verif Require Import Base BxsSpec BxsModel.
Import ListNotations.
Local Open Scope R_scope.
Ltac Zify.zify_post_hook ::= idtac.

Ltac mm := unfold Rmin, Rmax in *; repeat (destruct (Rle_dec _ _) in * ); lra.

Lemma slice1_fwd a b x : fst a <= snd a -> fst b <= snd b -> between a x -> between b x -> between (slice1 a b) (x - fst a).
Proof. destruct a as [a0 a1], b as [b0 b1]. unfold between, slice1; cbn. intros Ha Hb Xa Xb. left. mm. Qed.
Lemma slice1_bwd a b x y : fst a <= snd a -> fst b <= snd b -> between a y -> between b y -> between (slice1 a b) (x - fst a) ->
  between a x /\ between b x.
Proof. destruct a as [a0 a1], b as [b0 b1]. unfold between, slice1; cbn. intros Ha Hb Xa Xb Hs. split; left; mm. Qed.
Lemma slice1_len a b : fst a <= snd a -> fst b <= snd b ->
  snd (slice1 a b) - fst (slice1 a b) = Rmax 0 (Rmin (snd a) (snd b) - Rmax (fst a) (fst b)).
Proof. destruct a as [a0 a1], b as [b0 b1]. unfold slice1; cbn. intros Ha Hb. mm. Qed.

Lemma slices_fwd a : forall b p, ascending a -> ascending b -> in_box a p -> in_box b p -> in_box (slices a b) (minus p (first_corner a)).
Proof.
  induction a as [|e a IH]; intros b p Ha Hb Pa Pb.
  - inversion Pa; subst. inversion Pb; subst. constructor.
  - inversion Pa; subst. inversion Pb; subst. inversion Ha; subst. inversion Hb; subst. cbn. constructor.
    + apply slice1_fwd; assumption.
    + apply IH; assumption.
Qed.
Lemma slices_bwd a : forall b p y, ascending a -> ascending b -> in_box a y -> in_box b y -> length p = length a ->
  in_box (slices a b) (minus p (first_corner a)) -> in_box a p /\ in_box b p.
Proof.
  induction a as [|e a IH]; intros b p y Ha Hb Pa Pb L Hs.
  - inversion Pa; subst. inversion Pb; subst. destruct p; [|discriminate]. split; constructor.
  - inversion Pa; subst. inversion Pb; subst. inversion Ha; subst. inversion Hb; subst. destruct p as [|z p]; [discriminate|]. cbn in Hs. inversion Hs; subst.
    match goal with H : between (slice1 _ _) _ |- _ => eapply slice1_bwd in H; [destruct H as [K1 K2]| | | |]; try eassumption end.
    match goal with H : Forall2 between (slices _ _) _ |- _ => eapply IH in H; [destruct H as [K3 K4]| | | | |]; try eassumption; [|cbn in L; lia] end.
    split; constructor; assumption.
Qed.
Lemma slices_length a : forall b, length a = length b -> length (slices a b) = length a.
Proof. induction a as [|e a IH]; intros [|f b] H; try discriminate; [reflexivity|]. cbn. f_equal. apply IH. cbn in H. lia. Qed.

Theorem C118_slice (a b : box) : length a = 2%nat -> length b = 2%nat -> ascending a -> ascending b ->
  exists s, box_slice a b = Some s /\
    (forall p, in_box a p -> in_box b p -> in_box s (minus p (first_corner a))) /\
    ((exists p, in_box a p /\ in_box b p) ->
      forall p, length p = 2%nat -> in_box s (minus p (first_corner a)) -> in_box a p /\ in_box b p).
Proof.
  intros La Lb Ha Hb. exists (slices a b). unfold box_slice. rewrite slices_length, La by congruence. split; [reflexivity|]. split.
  - intros p Pa Pb. apply slices_fwd; assumption.
  - intros (y & Ya & Yb) p Lp Hp. apply (slices_bwd a b p y); try assumption. congruence.
Qed.

(* the area *)
Lemma prod_volume a : box_area a = volume a.
Proof.
  unfold box_area. induction a as [|e a IH]; cbn; [apply Rabs_R1|]. rewrite Rabs_mult, IH. reflexivity.
Qed.
Theorem C118_area (a : box) : box_area a = volume a.
Proof. apply prod_volume. Qed.

Lemma asc_mid (e : R * R) : fst e <= snd e -> between e (fst e) /\ between e (snd e).
Proof. unfold between. lra. Qed.
Lemma in_box_corners b : in_box b (map fst b) /\ in_box b (map snd b).
Proof.
  induction b as [|e b [I1 I2]]; cbn; split; constructor; try assumption; unfold between; lra.
Qed.
(* a point in two boxes, changed along the first axis only *)
Lemma common1 (a b c : R * R) (y : R) : fst a <= snd a -> fst b <= snd b -> fst c <= snd c -> between a y -> between b y ->
  (forall x, between c x <-> between a x /\ between b x) ->
  fst c = Rmax (fst a) (fst b) /\ snd c = Rmin (snd a) (snd b).
Proof.
  intros Ha Hb Hc Ya Yb H. destruct (proj1 (H (fst c))) as [A1 A2]; [unfold between; lra|]. destruct (proj1 (H (snd c))) as [B1 B2]; [unfold between; lra|].
  assert (M1 : between c (Rmax (fst a) (fst b))). { apply H. unfold between in *. split; left; mm. }
  assert (M2 : between c (Rmin (snd a) (snd b))). { apply H. unfold between in *. split; left; mm. }
  unfold between in *. split; mm.
Qed.
Lemma Forall2_cons_iff {A B} (P : A -> B -> Prop) x y l m : Forall2 P (x :: l) (y :: m) <-> P x y /\ Forall2 P l m.
Proof. split; [intros H; inversion H; subst; tauto|intros [H1 H2]; constructor; assumption]. Qed.
Lemma common_cons (a b c : R * R) (a' b' c' : box) (y : R) (ys : list R) :
  in_box (a :: a') (y :: ys) -> in_box (b :: b') (y :: ys) ->
  (forall p, in_box (c :: c') p <-> in_box (a :: a') p /\ in_box (b :: b') p) ->
  (forall x, between c x <-> between a x /\ between b x) /\ (forall p, in_box c' p <-> in_box a' p /\ in_box b' p).
Proof.
  intros Ya Yb H. pose proof (proj2 (H (y :: ys)) (conj Ya Yb)) as Yc. unfold in_box in *.
  apply Forall2_cons_iff in Ya, Yb, Yc. destruct Ya as [Ya Ya'], Yb as [Yb Yb'], Yc as [Yc Yc']. split.
  - intros x. specialize (H (x :: ys)). rewrite !Forall2_cons_iff in H. tauto.
  - intros p. specialize (H (y :: p)). rewrite !Forall2_cons_iff in H. tauto.
Qed.
Lemma common_volume : forall a b c y, ascending a -> ascending b -> ascending c -> in_box a y -> in_box b y ->
  (forall p, in_box c p <-> in_box a p /\ in_box b p) -> volume (slices a b) = volume c.
Proof.
  induction a as [|ea a IH]; intros b c y Ha Hb Hc Ya Yb H.
  - inversion Ya; subst. inversion Yb; subst. pose proof (proj2 (H []) (conj Ya Yb)) as Yc. inversion Yc; subst. reflexivity.
  - destruct y as [|y ys]; [inversion Ya|]. destruct b as [|eb b]; [inversion Yb|]. pose proof (proj2 (H _) (conj Ya Yb)) as Yc.
    destruct c as [|ec c]; [inversion Yc|]. destruct (common_cons _ _ _ _ _ _ _ _ Ya Yb H) as [H1 H2].
    unfold in_box in *. apply Forall2_cons_iff in Ya, Yb, Yc. inversion Ha; subst. inversion Hb; subst. inversion Hc; subst.
    destruct (common1 ea eb ec y) as [E1 E2]; try tauto. cbn [slices volume]. rewrite slice1_len by assumption. rewrite E1, E2.
    rewrite (IH b c ys); try tauto. f_equal. destruct Ya as [Ya _], Yb as [Yb _]. unfold between in *. rewrite !Rabs_pos_eq; [|mm|apply Rmax_l].
    mm.
Qed.
Lemma apart_volume : forall a b, length a = length b -> ascending a -> ascending b -> (forall p, in_box a p -> in_box b p -> False) -> volume (slices a b) = 0.
Proof.
  induction a as [|ea a IH]; intros [|eb b] L Ha Hb H; try discriminate.
  - exfalso. apply (H []); constructor.
  - inversion Ha; subst. inversion Hb; subst. cbn [slices volume]. rewrite slice1_len by assumption.
    destruct (Rle_lt_dec (Rmin (snd ea) (snd eb)) (Rmax (fst ea) (fst eb))) as [C|C].
    + rewrite Rmax_left by lra. rewrite Rabs_R0. ring.
    + rewrite (IH b); [ring|cbn in L; lia|assumption|assumption|]. intros p Pa Pb. apply (H (Rmax (fst ea) (fst eb) :: p)).
      * constructor; [|exact Pa]. unfold between. mm.
      * constructor; [|exact Pb]. unfold between. mm.
Qed.
Theorem C118_overlap (a b : box) : length a = 2%nat -> length b = 2%nat -> ascending a -> ascending b ->
  (forall c, ascending c -> (exists p, in_box c p) -> (forall p, in_box c p <-> in_box a p /\ in_box b p) -> box_overlap a b = Some (volume c)) /\
  ((forall p, in_box a p -> in_box b p -> False) -> box_overlap a b = Some 0).
Proof.
  intros La Lb Ha Hb. unfold box_overlap, box_slice. rewrite slices_length, La by congruence. cbn [Nat.eqb option_map]. rewrite prod_volume. split.
  - intros c Hc (y & Y) H. destruct (proj1 (H y) Y) as [Ya Yb]. rewrite (common_volume a b c y); try assumption. reflexivity.
  - intros H. rewrite apart_volume; try assumption; congruence.
Qed.
Lemma slices_vol_sym : forall a b, length a = length b -> ascending a -> ascending b -> volume (slices a b) = volume (slices b a).
Proof.
  induction a as [|ea a IH]; intros [|eb b] L Ha Hb; try discriminate; [reflexivity|]. inversion Ha; subst. inversion Hb; subst.
  cbn [slices volume]. rewrite !slice1_len by assumption. rewrite (IH b) by (first [assumption|cbn in L; lia]). rewrite Rmin_comm, Rmax_comm. rewrite (Rmin_comm (snd eb)). 
  do 2 f_equal. mm.
Qed.
Lemma slices_vol_nonneg a : 0 <= volume a.
Proof. induction a as [|e a IH]; cbn; [lra|]. apply Rmult_le_pos; [apply Rabs_pos|exact IH]. Qed.
Lemma slices_vol_le : forall a b, length a = length b -> ascending a -> ascending b -> volume (slices a b) <= volume a.
Proof.
  induction a as [|ea a IH]; intros [|eb b] L Ha Hb; try discriminate; [cbn; lra|]. inversion Ha; subst. inversion Hb; subst.
  cbn [slices volume]. rewrite slice1_len by assumption. apply Rmult_le_compat; [apply Rabs_pos|apply slices_vol_nonneg| |apply IH; first [assumption|cbn in L; lia]].
  rewrite !Rabs_pos_eq; [|lra|apply Rmax_l]. mm.
Qed.
Lemma slices_self : forall a, ascending a -> volume (slices a a) = volume a.
Proof.
  induction a as [|ea a IH]; intros Ha; [reflexivity|]. inversion Ha; subst. cbn [slices volume]. rewrite slice1_len, IH by assumption. f_equal.
  rewrite !Rabs_pos_eq; [mm|lra|apply Rmax_l].
Qed.
Theorem C118_overlap_laws (a b : box) : length a = 2%nat -> length b = 2%nat -> ascending a -> ascending b ->
  box_overlap a b = box_overlap b a /\ box_overlap a a = Some (volume a) /\
  exists s, box_overlap a b = Some s /\ 0 <= s <= volume a /\ s <= volume b.
Proof.
  intros La Lb Ha Hb. unfold box_overlap, box_slice. rewrite !slices_length, La, Lb by congruence. cbn [Nat.eqb option_map]. rewrite !prod_volume.
  rewrite (slices_vol_sym a b), slices_self by (first [assumption|congruence]). split; [reflexivity|]. split; [reflexivity|]. eexists. split; [reflexivity|].
  pose proof (slices_vol_nonneg (slices b a)). pose proof (slices_vol_le b a ltac:(congruence) Hb Ha). rewrite <- (slices_vol_sym a b) in * by (first [assumption|congruence]).
  pose proof (slices_vol_le a b ltac:(congruence) Ha Hb). lra.
Qed.
Theorem C118_overlaps (a b : list box) i j x y : nth_error a i = Some x -> nth_error b j = Some y ->
  exists row, nth_error (box_overlaps a b) i = Some row /\ nth_error row j = Some (box_overlap x y).
Proof.
  intros Hx Hy. unfold box_overlaps. eexists. split; [rewrite nth_error_map, Hx; reflexivity|]. rewrite nth_error_map, Hy. reflexivity.
Qed.
(* only two axes *)
Theorem C118_axes_refuted (a b : box) : length a = length b -> length a <> 2%nat -> box_overlap a b = None /\ box_slice a b = None.
Proof.
  intros L N. unfold box_overlap, box_slice. rewrite slices_length by exact L. rewrite (proj2 (Nat.eqb_neq _ _) N). split; reflexivity.
Qed.
(* boxes whose first end is the upper one overlap nothing, not even themselves *)
Theorem C118_descending_refuted : exists a : box, length a = 2%nat /\ volume a = 1 /\ in_box a [1/2; 1/2] /\ box_overlap a a = Some 0.
Proof.
  exists [(1, 0); (1, 0)]. split; [reflexivity|]. split; [cbn; rewrite !Rabs_left by lra; lra|]. split; [constructor; [unfold between; cbn; lra|constructor; [unfold between; cbn; lra|constructor]]|].
  unfold box_overlap, box_slice, slices, slice1; cbn. f_equal. unfold box_area; cbn. rewrite <- Rabs_R0. f_equal. mm.
Qed.
Example C118_ex_slice : box_slice [(2, 10); (5, 10)] [(0, 5); (0, 7)] = Some [(0, 3); (0, 2)].
Proof. unfold box_slice, slices, slice1; cbn. do 2 f_equal; [f_equal; mm|]. f_equal. f_equal; mm. Qed.
Example C118_ex_overlap : ascending [(2, 10); (5, 10)] /\ ascending [(0, 5); (0, 7)] /\ box_overlap [(2, 10); (5, 10)] [(0, 5); (0, 7)] = Some 6.
Proof.
  split; [repeat constructor; cbn; lra|]. split; [repeat constructor; cbn; lra|]. unfold box_overlap. rewrite C118_ex_slice. cbn. f_equal. unfold box_area; cbn.
  rewrite Rabs_pos_eq; lra.
Qed.

(* padding and widening *)
Lemma sign_cases x : (0 < x /\ sign x = 1) \/ (x < 0 /\ sign x = -1) \/ (x = 0 /\ sign x = 0).
Proof. unfold sign. destruct (Rlt_dec 0 x); [tauto|]. destruct (Rlt_dec x 0); [tauto|]. right. right. lra. Qed.
Lemma abs_le x y d : Rabs (x - y) <= d <-> x - d <= y <= x + d.
Proof. unfold Rabs. destruct (Rcase_abs _); lra. Qed.
Lemma pad1_grow e d x : 0 <= d -> fst e <> snd e -> (between (pad1 d e) x <-> exists y, between e y /\ Rabs (x - y) <= d).
Proof.
  destruct e as [e0 e1]. unfold pad1, between; cbn. intros Hd Ne. destruct (sign_cases (e1 - e0)) as [[C S]|[[C S]|[C S]]]; rewrite S; [| |lra]; split.
  - intros H. destruct (Rlt_dec x e0); [exists e0|destruct (Rlt_dec e1 x); [exists e1|exists x]]; rewrite abs_le; lra.
  - intros (y & Y & D). apply abs_le in D. lra.
  - intros H. destruct (Rlt_dec x e1); [exists e1|destruct (Rlt_dec e0 x); [exists e0|exists x]]; rewrite abs_le; lra.
  - intros (y & Y & D). apply abs_le in D. lra.
Qed.
(* the padded box has exactly the points that are, along every axis, within the padding of the box *)
Theorem C118_pad (b : box) d : 0 <= d -> Forall (fun e => fst e <> snd e) b ->
  (forall p, in_box (pad_box b d) p <-> exists q, in_box b q /\ Forall2 (fun x y => Rabs (x - y) <= d) p q) /\
  Forall2 (fun e e' => fst e < snd e -> fst e' < snd e') b (pad_box b d) /\ Forall2 (fun e e' => snd e < fst e -> snd e' < fst e') b (pad_box b d) /\
  pad_box (pad_box b d) (- d) = b.
Proof.
  intros Hd Hb. split; [|split; [|split]].
  - induction b as [|e b IH]; intros p.
    + split.
      * intros H. inversion H; subst. exists []. split; constructor.
      * intros (q & Q & D). inversion Q; subst. inversion D; subst. constructor.
    + inversion Hb as [|? ? Hb1 Hb2]; subst. cbn [pad_box map]. fold (pad_box b d). split.
      * intros H. inversion H as [|? x ? xs Hx Hp]; subst. apply pad1_grow in Hx; try assumption. destruct Hx as (y & Y & D). apply (proj1 (IH Hb2 _)) in Hp.
        destruct Hp as (q & Q & Dq). exists (y :: q). split; constructor; assumption.
      * intros (q & Q & D). inversion Q as [|? y ? ys Hy Hq]; subst. inversion D as [|x ? xs ? Hx Hp]; subst. constructor.
        -- apply pad1_grow; try assumption. exists y. split; assumption.
        -- apply (proj2 (IH Hb2 _)). exists ys. split; assumption.
  - clear Hb. induction b as [|e b IH]; constructor; [|exact IH]. intros H. unfold pad1; cbn. destruct (sign_cases (snd e - fst e)) as [[C S]|[[C S]|[C S]]]; rewrite S; lra.
  - clear Hb. induction b as [|e b IH]; constructor; [|exact IH]. intros H. unfold pad1; cbn. destruct (sign_cases (snd e - fst e)) as [[C S]|[[C S]|[C S]]]; rewrite S; lra.
  - unfold pad_box. rewrite map_map. rewrite <- (map_id b) at 2. apply map_ext_in. intros e He. rewrite Forall_forall in Hb. specialize (Hb e He). destruct e as [e0 e1]. cbn in Hb.
    unfold pad1; cbn. destruct (sign_cases (e1 - e0)) as [[C S]|[[C S]|[C S]]]; rewrite S; [| |lra].
    + replace (sign (e1 + d * 1 - (e0 - d * 1))) with 1; [f_equal; ring|]. destruct (sign_cases (e1 + d * 1 - (e0 - d * 1))) as [[C' S']|[[C' S']|[C' S']]]; lra.
    + replace (sign (e1 + d * -1 - (e0 - d * -1))) with (-1); [f_equal; ring|]. destruct (sign_cases (e1 + d * -1 - (e0 - d * -1))) as [[C' S']|[[C' S']|[C' S']]]; lra.
Qed.
(* an axis of no width is not padded *)
Theorem C118_pad_flat_refuted : exists (b : box) d, 0 < d /\ pad_box b d = b /\ in_box b [1] /\ ~ in_box (pad_box b d) [1 + d].
Proof.
  exists [(1, 1)], 1. unfold pad_box, pad1; cbn. destruct (sign_cases (1 - 1)) as [[C S]|[[C S]|[C S]]]; [lra|lra|]. rewrite S. split; [lra|]. split; [do 2 f_equal; lra|]. split.
  - constructor; [unfold between; cbn; lra|constructor].
  - intros H. inversion H; subst. unfold between in *; cbn in *. lra.
Qed.
(* the new box contains the old one and its sides are longer by the margin, half at each end; for a relative margin this is proved for axes whose first
   end is the lower one *)
Theorem C118_widen_partial (e : R * R) margin relative : 0 <= margin -> (relative = true -> fst e <= snd e) ->
  let e' := widen1 margin relative e in
  Rabs (snd e' - fst e') = Rabs (snd e - fst e) + (if relative then Rabs (snd e - fst e) * margin else margin) /\
  snd e' + fst e' = snd e + fst e /\ (forall x, between e x -> between e' x).
Proof.
  destruct e as [e0 e1]. cbn [fst snd]. intros Hm Hr. unfold widen1; cbn [fst snd]. destruct relative.
  - specialize (Hr eq_refl). destruct (Rlt_dec e1 e0); [lra|]. cbn [fst snd]. assert (0 <= (e1 - e0) * margin) by (apply Rmult_le_pos; lra). split; [|split; [ring|]].
    + rewrite !Rabs_pos_eq by lra. lra.
    + intros x. unfold between; cbn. lra.
  - destruct (Rlt_dec e1 e0); cbn [fst snd]; (split; [|split; [ring|]]).
    + rewrite !Rabs_left by lra. lra.
    + intros x. unfold between; cbn. lra.
    + rewrite !Rabs_pos_eq by lra. lra.
    + intros x. unfold between; cbn. lra.
Qed.
(* with a relative margin, an axis whose first end is the upper one gets shorter: the sign is changed twice *)
Theorem C118_widen_refuted (e : R * R) margin : 0 < margin < 2 -> snd e < fst e ->
  let e' := widen1 margin true e in
  Rabs (snd e' - fst e') < Rabs (snd e - fst e) /\ between e (fst e) /\ ~ between e' (fst e).
Proof.
  destruct e as [e0 e1]. cbn [fst snd]. intros Hm Hr. unfold widen1; cbn [fst snd]. destruct (Rlt_dec e1 e0); [|lra]. cbn [fst snd].
  assert (K : (e1 - e0) * margin = - ((e0 - e1) * margin)) by ring. assert (0 < (e0 - e1) * margin) by (apply Rmult_lt_0_compat; lra).
  assert ((e0 - e1) * margin < (e0 - e1) * 2) by (apply Rmult_lt_compat_l; lra). rewrite K. split; [|split].
  - rewrite (Rabs_left (e1 - e0)) by lra. apply Rabs_def1; lra.
  - unfold between; cbn. right. lra.
  - unfold between; cbn. intros [[A B]|[A B]]; lra.
Qed.
Example C118_ex_widen : widen_box [(0, 10); (5, 5)] (1 / 10) true = [(-1/2, 21/2); (5, 5)] /\ widen_box [(10, 0)] (1 / 10) true = [(19/2, 1/2)] /\ widen_box [(10, 0)] 1 false = [(21/2, -1/2)].
Proof.
  unfold widen_box, widen1; cbn. repeat (destruct (Rlt_dec _ _); try lra). repeat split; repeat (f_equal; try lra).
Qed.

(* ranges *)
Lemma rfl_spec x : rfl x <= x < rfl x + 1.
Proof. unfold rfl. destruct (base_Int_part x). lra. Qed.
Lemma rfl_mul x n : 0 < n -> 0 <= x - rfl (x / n) * n < n.
Proof.
  intros Hn. pose proof (rfl_spec (x / n)) as [A B]. apply (Rmult_le_compat_r n) in A; [|lra]. apply (Rmult_lt_compat_r n) in B; [|lra].
  unfold Rdiv in *. rewrite Rmult_assoc, Rinv_l in A by lra. rewrite Rmult_assoc, Rinv_l in B by lra. lra.
Qed.
Theorem C118_unwrap (r : R * R) n : 0 < n ->
  let r' := unwrap_range r n in
  same_phase n (fst r) (fst r') /\ same_phase n (snd r) (snd r') /\
  0 <= snd r' - fst r' < n /\ 0 <= snd r' < n /\
  (forall x y, same_phase n (fst r) x -> same_phase n (snd r) y -> x <= y -> snd r' - fst r' <= y - x) /\
  ((exists k : Z, fst r' <= IZR k * n <= snd r') -> fst r' <= 0 <= snd r').
Proof.
  intros Hn. destruct r as [a b]. cbn [fst snd]. unfold unwrap_range; cbn [fst snd]. set (w := rfl ((b - a) / n)). set (h := b - w * n). set (k := rfl (h / n)).
  pose proof (rfl_mul (b - a) n Hn) as W. fold w in W. pose proof (rfl_mul h n Hn) as K. fold k in K.
  assert (Hw : w = IZR (Int_part ((b - a) / n))) by reflexivity. assert (Hk : k = IZR (Int_part (h / n))) by reflexivity.
  split; [|split; [|split; [|split; [|split]]]].
  - exists (- Int_part (h / n))%Z. rewrite opp_IZR, <- Hk. ring.
  - exists (- Int_part (h / n) - Int_part ((b - a) / n))%Z. rewrite minus_IZR, opp_IZR, <- Hk, <- Hw. unfold h. ring.
  - unfold h in *. lra.
  - lra.
  - intros x y (i & ->) (j & ->) Hxy. replace (h - k * n - (a - k * n)) with (b - a - w * n) by (unfold h; ring).
    set (m := (j - i + Int_part ((b - a) / n))%Z). assert (E : b + IZR j * n - (a + IZR i * n) = b - a - w * n + IZR m * n).
    { unfold m. rewrite plus_IZR, minus_IZR, <- Hw. ring. }
    rewrite E. assert (0 <= m)%Z. { destruct (Z_lt_le_dec m 0) as [N|N]; [|exact N]. exfalso. assert (M : IZR m <= -1) by (apply (IZR_le m (-1)); lia).
      assert (IZR m * n <= -1 * n) by (apply Rmult_le_compat_r; lra). lra. }
    assert (0 <= IZR m * n) by (apply Rmult_le_pos; [apply (IZR_le 0); assumption|lra]). lra.
  - intros (q & Q1 & Q2). assert (Z0 : (q = 0)%Z).
    { assert (q < 1)%Z. { apply Z.nle_gt. intros N. assert (1 <= IZR q) by (apply (IZR_le 1); exact N). assert (1 * n <= IZR q * n) by (apply Rmult_le_compat_r; lra). lra. }
      assert (-1 < q)%Z. { apply Z.nle_gt. intros N. assert (IZR q <= -1) by (apply (IZR_le q (-1)); exact N). assert (IZR q * n <= -1 * n) by (apply Rmult_le_compat_r; lra). unfold h in *. lra. }
      lia. }
    subst q. lra.
Qed.
Example C118_ex_unwrap : unwrap_range (350, 370) 360 = (-10, 10) /\ unwrap_range (350, 10) 360 = (-10, 10) /\ unwrap_range (20, 400) 360 = (20, 40).
Proof.
  assert (F : forall x (k : Z), IZR k <= x < IZR k + 1 -> rfl x = IZR k).
  { intros x k H. unfold rfl. f_equal. destruct (base_Int_part x) as [A B]. assert (P1 : IZR (Int_part x) < IZR (k + 1)) by (rewrite plus_IZR; lra).
    assert (P2 : IZR k < IZR (Int_part x + 1)) by (rewrite plus_IZR; lra). apply lt_IZR in P1, P2. lia. }
  unfold unwrap_range; cbn [fst snd]. repeat split.
  - rewrite (F ((370 - 350) / 360) 0%Z) by lra. rewrite (F _ 1%Z) by lra. f_equal; lra.
  - rewrite (F ((10 - 350) / 360) (-1)%Z) by lra. rewrite (F _ 1%Z) by lra. f_equal; lra.
  - rewrite (F ((400 - 20) / 360) 1%Z) by lra. rewrite (F _ 0%Z) by lra. f_equal; lra.
Qed.

(* corners *)
Lemma testbit_double_plus c i k : (c < 2)%nat -> Nat.testbit (c + 2 * i) k = match k with O => Nat.eqb c 1 | S k' => Nat.testbit i k' end.
Proof.
  intros H. destruct c as [|[|c]]; [| |lia]; destruct k as [|k].
  - rewrite Nat.add_0_l. apply Nat.testbit_even_0.
  - rewrite Nat.add_0_l. apply Nat.testbit_even_succ. lia.
  - rewrite Nat.add_comm. apply Nat.testbit_odd_0.
  - rewrite Nat.add_comm. apply Nat.testbit_odd_succ. lia.
Qed.
Lemma corner_cons e b c i : (c < 2)%nat -> corner (e :: b) (c + 2 * i) = (if Nat.eqb c 1 then snd e else fst e) :: corner b i.
Proof.
  intros H. unfold corner. cbn [length seq map]. rewrite testbit_double_plus by exact H. f_equal; [destruct (Nat.eqb c 1); reflexivity|].
  rewrite <- seq_shift, map_map. apply map_ext. intros k. rewrite testbit_double_plus by exact H. reflexivity.
Qed.
Lemma corner_is b : forall i, is_corner b (corner b i).
Proof.
  induction b as [|e b IH]; intros i; [constructor|]. rewrite (Nat.div_mod i 2) by lia. rewrite Nat.add_comm. rewrite corner_cons by (apply Nat.mod_upper_bound; lia).
  constructor; [destruct (Nat.eqb _ _); [right|left]; reflexivity|apply IH].
Qed.
Lemma is_corner_ex b : forall p, is_corner b p -> exists i, (i < 2 ^ length b)%nat /\ corner b i = p.
Proof.
  induction b as [|e b IH]; intros p H; inversion H as [|? x ? xs Hx Hp]; subst.
  - exists O. split; [cbn; lia|reflexivity].
  - destruct (IH xs Hp) as (i & Hi & <-). cbn [length]. rewrite Nat.pow_succ_r'. destruct Hx as [->| ->].
    + exists (0 + 2 * i)%nat. split; [lia|]. rewrite corner_cons by lia. reflexivity.
    + exists (1 + 2 * i)%nat. split; [lia|]. rewrite corner_cons by lia. reflexivity.
Qed.
Lemma corner_inj b : Forall (fun e => fst e <> snd e) b -> forall i j, (i < 2 ^ length b)%nat -> (j < 2 ^ length b)%nat -> corner b i = corner b j -> i = j.
Proof.
  induction 1 as [|e b He Hb IH]; intros i j Hi Hj E.
  - cbn in *. lia.
  - cbn [length] in *. rewrite Nat.pow_succ_r' in Hi, Hj. pose proof (Nat.mod_upper_bound i 2 ltac:(lia)) as Mi. pose proof (Nat.mod_upper_bound j 2 ltac:(lia)) as Mj.
    pose proof (Nat.div_mod i 2 ltac:(lia)) as Ei. pose proof (Nat.div_mod j 2 ltac:(lia)) as Ej. rewrite Nat.add_comm in Ei, Ej. rewrite Ei, Ej in E.
    set (qi := (i / 2)%nat) in *. set (qj := (j / 2)%nat) in *. set (ri := (i mod 2)%nat) in *. set (rj := (j mod 2)%nat) in *. clearbody qi qj ri rj.
    rewrite !corner_cons in E by assumption. injection E as E1 E2. apply IH in E2; [|lia|lia].
    destruct (Nat.eqb_spec ri 1) as [A|A], (Nat.eqb_spec rj 1) as [B|B]; try (exfalso; congruence); lia.
Qed.
Theorem C118_corners (b : box) :
  (forall p, In p (box2corners b) <-> is_corner b p) /\ length (box2corners b) = (2 ^ length b)%nat /\
  (Forall (fun e => fst e <> snd e) b -> NoDup (box2corners b)).
Proof.
  unfold box2corners. split; [|split].
  - intros p. rewrite in_map_iff. split.
    + intros (i & <- & _). apply corner_is.
    + intros H. destruct (is_corner_ex b p H) as (i & Hi & E). exists i. split; [exact E|]. apply in_seq. lia.
  - rewrite map_length, seq_length. reflexivity.
  - intros Hb. apply NoDup_nth with (d := []). rewrite map_length, seq_length. intros i j Hi Hj E.
    rewrite !(nth_indep _ [] (corner b O)) in E by (rewrite map_length, seq_length; assumption). rewrite !map_nth, !seq_nth in E by assumption. cbn in E.
    apply (corner_inj b Hb); assumption.
Qed.

(* contours *)
Lemma corner_length b i : length (corner b i) = length b.
Proof. unfold corner. rewrite map_length, seq_length. reflexivity. Qed.
Lemma corner_nth b i k : (k < length b)%nat -> nth k (corner b i) 0 = (if Nat.testbit i k then snd else fst) (nth k b (0, 0)).
Proof.
  intros H. unfold corner. apply nth_error_nth. rewrite nth_error_map, nth_error_nth' with (d := O) by (rewrite seq_length; exact H). rewrite seq_nth by exact H. reflexivity.
Qed.
Lemma set_at_length i x p : (i < length p)%nat -> length (set_at i x p) = length p.
Proof. intros H. unfold set_at. rewrite app_length. cbn [length]. rewrite firstn_length, skipn_length. lia. Qed.
Lemma set_at_nth i x p k : (i < length p)%nat -> nth k (set_at i x p) 0 = if Nat.eqb k i then x else nth k p 0.
Proof.
  unfold set_at. revert p k. induction i as [|i IH]; intros [|y p] k H; cbn [length] in H; try lia.
  - destruct k; reflexivity.
  - destruct k; [reflexivity|]. cbn [firstn skipn app nth Nat.eqb]. apply IH. lia.
Qed.
Lemma forall2_corner_nth b : forall p, is_corner b p <-> length p = length b /\ forall k, (k < length b)%nat -> nth k p 0 = fst (nth k b (0, 0)) \/ nth k p 0 = snd (nth k b (0, 0)).
Proof.
  unfold is_corner. induction b as [|e b IH]; intros p; split.
  - intros H. inversion H; subst. split; [reflexivity|]. intros k Hk. cbn in Hk. lia.
  - intros [L _]. destruct p; [constructor|discriminate].
  - intros H. inversion H as [|? x ? xs Hx Hp]; subst. apply (proj1 (IH xs)) in Hp. destruct Hp as [L K]. split; [cbn; lia|]. intros [|k] Hk; [exact Hx|]. apply K. cbn in Hk. lia.
  - intros [L K]. destruct p as [|x p]; [discriminate|]. constructor; [exact (K O ltac:(cbn; lia))|]. apply (proj2 (IH p)). split; [cbn in L; lia|]. intros k Hk. exact (K (S k) ltac:(cbn; lia)).
Qed.
(* a corner with the bit of axis i clear, for every choice of the other ends *)
Lemma corner_clear b i p : (i < length b)%nat -> is_corner b p -> nth i p 0 = fst (nth i b (0, 0)) ->
  exists j, (j < 2 ^ length b)%nat /\ Nat.testbit j i = false /\ corner b j = p.
Proof.
  revert i p. induction b as [|e b IH]; intros i p Hi Hc Hf; cbn [length] in Hi; [lia|]. inversion Hc as [|? x ? xs Hx Hp]; subst. cbn [length]. rewrite Nat.pow_succ_r'.
  destruct i as [|i].
  - cbn in Hf. subst x. destruct (is_corner_ex b xs Hp) as (j & Hj & <-). exists (0 + 2 * j)%nat. split; [lia|]. split; [rewrite testbit_double_plus by lia; reflexivity|].
    rewrite corner_cons by lia. reflexivity.
  - destruct (IH i xs ltac:(lia) Hp Hf) as (j & Hj & T & <-). destruct Hx as [->| ->].
    + exists (0 + 2 * j)%nat. split; [lia|]. split; [rewrite testbit_double_plus by lia; exact T|]. rewrite corner_cons by lia. reflexivity.
    + exists (1 + 2 * j)%nat. split; [lia|]. split; [rewrite testbit_double_plus by lia; exact T|]. rewrite corner_cons by lia. reflexivity.
Qed.
Lemma nth_eq_ext (p q : list R) : length p = length q -> (forall k, (k < length p)%nat -> nth k p 0 = nth k q 0) -> p = q.
Proof. intros L H. apply (nth_ext p q 0 0 L H). Qed.
(* the points of the contour are those of the edges: all coordinates but one are ends, and this one is one of nperedge equal steps from the first end
   to the second *)
Theorem C118_contour (b : box) (n : list nat) : length n = length b ->
  (forall p, In p (box2contour b n) <-> exists i k q, (i < length b)%nat /\ (k < nth i n O)%nat /\ is_corner b q /\
    p = set_at i (fst (nth i b (0, 0)) + INR k * ((snd (nth i b (0, 0)) - fst (nth i b (0, 0))) / INR (nth i n O - 1))) q) /\
  (n = repeat 2%nat (length b) -> b <> [] -> forall p, In p (box2contour b n) <-> In p (box2corners b)).
Proof.
  intros Ln.
  assert (M : forall p, In p (box2contour b n) <-> exists i k q, (i < length b)%nat /\ (k < nth i n O)%nat /\ is_corner b q /\
    p = set_at i (fst (nth i b (0, 0)) + INR k * ((snd (nth i b (0, 0)) - fst (nth i b (0, 0))) / INR (nth i n O - 1))) q).
  { intros p. unfold box2contour. rewrite in_flat_map. split.
    - intros (i & Hi & H). apply in_seq in Hi. rewrite in_flat_map in H. destruct H as (j & Hj & H). destruct (Nat.testbit j i); [destruct H|].
      apply in_map_iff in H. destruct H as (x & <- & Hx). unfold linspace in Hx. apply in_map_iff in Hx. destruct Hx as (k & <- & Hk). apply in_seq in Hk.
      exists i, k, (corner b j). split; [lia|]. split; [lia|]. split; [apply corner_is|reflexivity].
    - intros (i & k & q & Hi & Hk & Hq & ->). exists i. split; [apply in_seq; lia|]. rewrite in_flat_map.
      assert (Lq : length q = length b) by (exact (proj1 (proj1 (forall2_corner_nth b q) Hq))).
      set (q0 := set_at i (fst (nth i b (0, 0))) q). assert (Hq0 : is_corner b q0).
      { apply forall2_corner_nth. unfold q0. split; [rewrite set_at_length by lia; exact Lq|]. intros m Hm. rewrite set_at_nth by lia. destruct (Nat.eqb_spec m i) as [->|N]; [left; reflexivity|].
        apply (proj2 (proj1 (forall2_corner_nth b q) Hq)). exact Hm. }
      destruct (corner_clear b i q0 Hi Hq0) as (j & Hj & T & E). { unfold q0. rewrite set_at_nth, Nat.eqb_refl by lia. reflexivity. }
      exists j. split; [apply in_seq; lia|]. rewrite T. apply in_map_iff. eexists. split.
      2: { unfold linspace. apply in_map_iff. exists k. split; [reflexivity|]. apply in_seq. lia. }
      rewrite E. unfold q0. apply nth_eq_ext.
      + rewrite !set_at_length; rewrite ?set_at_length; lia.
      + intros m _. rewrite !set_at_nth by (rewrite ?set_at_length; lia). destruct (Nat.eqb m i); reflexivity. }
  split; [exact M|]. intros En Nb p. rewrite (M p), (proj1 (C118_corners b)).
  assert (N2 : forall i, (i < length b)%nat -> nth i n O = 2%nat). { intros i Hi. subst n. rewrite (nth_indep _ O 2%nat) by (rewrite repeat_length; exact Hi). apply nth_repeat. }
  split.
  - intros (i & k & q & Hi & Hk & Hq & ->). rewrite N2 in * by exact Hi. pose proof (proj1 (forall2_corner_nth b q) Hq) as [Lq Kq]. apply forall2_corner_nth.
    split; [rewrite set_at_length by lia; exact Lq|]. intros m Hm. rewrite set_at_nth by lia. destruct (Nat.eqb_spec m i) as [->|N]; [|apply Kq; exact Hm].
    destruct k as [|[|k]]; [| |lia]; cbn; [left|right]; lra.
  - intros Hc. pose proof (proj1 (forall2_corner_nth b p) Hc) as [Lp Kp]. assert (0 < length b)%nat by (destruct b; [contradiction|cbn; lia]).
    assert (G : forall k, (k < 2)%nat -> nth 0 p 0 = fst (nth 0 b (0, 0)) + INR k * ((snd (nth 0 b (0, 0)) - fst (nth 0 b (0, 0))) / INR (nth 0 n O - 1)) ->
      exists i k q, (i < length b)%nat /\ (k < nth i n O)%nat /\ is_corner b q /\
        p = set_at i (fst (nth i b (0, 0)) + INR k * ((snd (nth i b (0, 0)) - fst (nth i b (0, 0))) / INR (nth i n O - 1))) q).
    { intros k Hk E. exists O, k, p. split; [assumption|]. split; [rewrite N2; assumption|]. split; [exact Hc|]. rewrite <- E. destruct p; [cbn in Lp; lia|reflexivity]. }
    destruct (Kp O ltac:(assumption)) as [E|E]; [apply (G O); [lia|]|apply (G 1%nat); [lia|]]; rewrite E, N2 by assumption; cbn; lra.
Qed.
(* with two samples per edge the corners come out once for each axis, and not once as documented *)
Theorem C118_contour_refuted : exists (b : box), length (box2contour b [2; 2]%nat) = 8%nat /\ length (box2corners b) = 4%nat.
Proof. exists [(0, 1); (0, 1)]. split; reflexivity. Qed.
Example C118_ex_corners : box2corners [(1, 2); (3, 4)] = [[1; 3]; [2; 3]; [1; 4]; [2; 4]].
Proof. reflexivity. Qed.
Example C118_ex_contour : box2contour [(0, 2)] [3%nat] = [[0]; [1]; [2]].
Proof. unfold box2contour, linspace, set_at, corner; cbn. repeat (f_equal; try lra). Qed.
Print Assumptions C118_slice.
Print Assumptions C118_overlap.
Print Assumptions C118_contour.
