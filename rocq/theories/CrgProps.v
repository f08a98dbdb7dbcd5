From Coq Require Import List ZArith QArith Lia Lqa.
From Verif Require Import CrgSpec CrgModel.
Import ListNotations.
Open Scope Z_scope.
Ltac Zify.zify_post_hook ::= idtac.

(* C164 *)
Theorem C164_box_partial a p0 p1 : p0 <= p1 -> part_of a p0 p1 (crop_box a p0 p1).
Proof.
  intros P. split; [cbn [crop_box npix]; lia|]. intros i I. unfold coord, crop_box. cbn [crpix crval cdelt]. rewrite inject_Z_plus. ring.
Qed.
(* a box given backwards is read as one of the same size on the other side of its start *)
Theorem C164_backwards_refuted a p0 p1 : p1 < p0 -> part_of a p0 (p0 + (p0 - p1)) (crop_box a p0 p1) /\ (~ cdelt a == 0 -> ~ part_of a p1 p0 (crop_box a p0 p1)).
Proof.
  intros P. split.
  - split; [cbn [crop_box npix]; lia|]. intros i I. unfold coord, crop_box. cbn [crpix crval cdelt]. rewrite inject_Z_plus. ring.
  - intros D [N C]. cbn [crop_box npix] in *. specialize (C 0%Z ltac:(lia)). unfold coord, crop_box in C. cbn [crpix crval cdelt] in C. rewrite inject_Z_plus in C. change (inject_Z 0) with 0%Q in C. assert (E : (cdelt a * (inject_Z p0 - inject_Z p1) == 0)%Q). { match type of C with (?l == ?r)%Q => assert (D1 : (cdelt a * (inject_Z p0 - inject_Z p1) == l - r)%Q) by ring; rewrite D1, C; ring end. } apply Qmult_integral in E. destruct E as [E|E]; [contradiction|]. assert (F : (inject_Z p0 == inject_Z p1)%Q) by (rewrite <- (Qplus_inj_r _ _ (- inject_Z p1)), Qplus_opp_r; exact E). unfold Qeq in F. cbn [Qnum Qden inject_Z] in F. lia.
Qed.
(* around a pixel: that many pixels, with the pixel in the middle (just behind it for an even number) *)
Theorem C164_point a p shp : 0 <= shp -> part_of a (p - shp / 2) (p - shp / 2 + shp) (crop_point a p shp) /\ (0 < shp -> 0 <= shp / 2 < npix (crop_point a p shp) /\ (coord (crop_point a p shp) (shp / 2) == coord a p)%Q).
Proof.
  intros S. assert (B : part_of a (p - shp / 2) (p - shp / 2 + shp) (crop_point a p shp)) by (apply C164_box_partial; lia). split; [exact B|]. intros S'. destruct B as [N C]. assert (D : 0 <= shp / 2 < shp) by (split; [apply Z.div_pos; lia|apply Z.div_lt; lia]). assert (I : 0 <= shp / 2 < npix (crop_point a p shp)) by (rewrite N; lia). split; [exact I|]. rewrite (C _ I). replace (p - shp / 2 + shp / 2) with p by ring. reflexivity.
Qed.
Lemma walk_address : forall axes last idx, inside (map fst axes) idx -> address (snd (walk axes last)) idx = address (map snd axes) idx.
Proof.
  induction axes as [|[n s] axes IH]; intros last idx I; [reflexivity|]. cbn [map fst snd] in *. inversion I as [|? i ? idx' H1 H2]; subst. cbn [walk]. specialize (IH last idx' H2). destruct (walk axes last) as [l out]. cbn [snd] in *. cbn [address]. rewrite IH. destruct (Z.eqb_spec s 0) as [->|]; cbn [andb]; [|reflexivity]. destruct (Z.eqb_spec n 1) as [->|]; [|reflexivity]. replace i with 0 by lia. reflexivity.
Qed.
Lemma combine_fst {A B} (a : list A) (b : list B) : length a = length b -> map fst (combine a b) = a /\ map snd (combine a b) = b.
Proof. revert b. induction a as [|x a IH]; intros [|y b] L; cbn in L; try lia; [split; reflexivity|]. destruct (IH b ltac:(lia)) as [E F]. cbn. now rewrite E, F. Qed.
(* C165 every element stays where it is *)
Theorem C165_address shape strides itemsize idx : length shape = length strides -> inside shape idx -> address (fix_zero_strides shape strides itemsize) idx = address strides idx.
Proof.
  intros L I. destruct (combine_fst shape strides L) as [E F]. unfold fix_zero_strides. rewrite walk_address by (rewrite E; exact I). now rewrite F.
Qed.
Lemma walk_other : forall axes last k, (k < length axes)%nat -> nth k (map snd axes) 0 <> 0 \/ nth k (map fst axes) 0 <> 1 -> nth k (snd (walk axes last)) 0 = nth k (map snd axes) 0.
Proof.
  induction axes as [|[n s] axes IH]; intros last k K H; cbn [length] in K; [lia|]. cbn [map fst snd walk] in *. specialize (IH last). destruct (walk axes last) as [l out]. cbn [snd] in *. destruct k as [|k]; cbn [nth] in *.
  - destruct (Z.eqb_spec s 0); destruct (Z.eqb_spec n 1); cbn [andb]; try reflexivity. destruct H; contradiction.
  - apply IH; [lia|exact H].
Qed.
(* other axes keep their strides *)
Theorem C165_others shape strides itemsize k : length shape = length strides -> (k < length shape)%nat -> nth k strides 0 <> 0 \/ nth k shape 0 <> 1 -> nth k (fix_zero_strides shape strides itemsize) 0 = nth k strides 0.
Proof.
  intros L K H. destruct (combine_fst shape strides L) as [E F]. unfold fix_zero_strides. rewrite walk_other; rewrite ?E, ?F; [reflexivity|rewrite combine_length; lia|exact H].
Qed.
Lemma walk_nonzero : forall axes last, last <> 0 -> Forall (fun e => 0 < fst e /\ (snd e = 0 -> fst e = 1)) axes -> fst (walk axes last) <> 0 /\ Forall (fun s => s <> 0) (snd (walk axes last)).
Proof.
  induction axes as [|[n s] axes IH]; intros last NZ F; [split; [exact NZ|constructor]|]. inversion F as [|? ? H1 H2]; subst. cbn [walk]. specialize (IH last NZ H2). destruct (walk axes last) as [l out]. cbn [fst snd] in *. destruct IH as [I1 I2].
  set (s' := if (s =? 0) && (n =? 1) then _ else s). assert (S : s' <> 0).
  { subst s'. destruct (Z.eqb_spec s 0) as [->|NS]; cbn [andb]; [|exact NS]. destruct H1 as [_ H1]. cbn [fst snd] in H1. rewrite (H1 eq_refl). cbn [Z.eqb Pos.eqb]. destruct axes as [|[n1 s1] axes]; [exact I1|]. intros E. apply Z.mul_eq_0 in E. destruct E as [E|E]; [contradiction|]. subst n1. inversion H2 as [|? ? [H3 _] H4]; subst. cbn [fst] in H3. lia. }
  split; [exact S|constructor; assumption].
Qed.
Lemma last_good_nonzero strides itemsize : 0 < itemsize -> last_good strides itemsize <> 0.
Proof.
  intros I. unfold last_good. destruct (filter _ _) as [|s l] eqn:E; [lia|]. assert (S : In s (filter (fun s => negb (s =? 0)) (rev strides))) by (rewrite E; now left). apply filter_In in S. destruct S as [_ S]. destruct (Z.eqb_spec s 0); [discriminate|assumption].
Qed.
(* no zero strides are left if all of them were of axes of length one *)
Theorem C165_nonzero_partial shape strides itemsize : length shape = length strides -> 0 < itemsize -> Forall (fun n => 0 < n) shape -> (forall k, (k < length shape)%nat -> nth k strides 0 = 0 -> nth k shape 0 = 1) -> Forall (fun s => s <> 0) (fix_zero_strides shape strides itemsize).
Proof.
  intros L I P H. unfold fix_zero_strides. apply walk_nonzero; [now apply last_good_nonzero|]. apply Forall_forall. intros [n s] E. destruct (In_nth _ _ (0, 0) E) as (k & K & EQ). rewrite combine_length, <- L, Nat.min_id in K. rewrite combine_nth in EQ by exact L. injection EQ as E1 E2. cbn [fst snd]. split; [rewrite Forall_forall in P; apply P; rewrite <- E1; now apply nth_In|]. intros Z. rewrite <- E1. apply H; [exact K|congruence].
Qed.
(* in front of a broadcast axis an axis of length one keeps its zero stride *)
Theorem C165_nonzero_refuted n itemsize : n <> 1 -> fix_zero_strides [1; n] [0; 0] itemsize = [0; 0].
Proof. intros N. unfold fix_zero_strides. cbn. destruct (Z.eqb_spec n 1); [contradiction|]. reflexivity. Qed.
Print Assumptions C164_box_partial. Print Assumptions C164_backwards_refuted. Print Assumptions C164_point. Print Assumptions C165_address. Print Assumptions C165_others. Print Assumptions C165_nonzero_partial. Print Assumptions C165_nonzero_refuted.
Example C164_ex : part_of {| npix := 10; crpix := 3; crval := 5; cdelt := -1 # 2 |} 2 7 (crop_box {| npix := 10; crpix := 3; crval := 5; cdelt := -1 # 2 |} 2 7) /\ npix (crop_point {| npix := 10; crpix := 3; crval := 5; cdelt := -1 # 2 |} 4 6) = 6.
Proof. split; [apply C164_box_partial; lia|reflexivity]. Qed.
Example C165_ex : fix_zero_strides [1; 4; 1; 3] [0; 24; 0; 8] 8 = [96; 24; 24; 8] /\ fix_zero_strides [4; 1] [8; 0] 8 = [8; 8] /\ inside [1; 4; 1; 3] [0; 3; 0; 2].
Proof. split; [reflexivity|]. split; [reflexivity|]. repeat constructor; lia. Qed.
