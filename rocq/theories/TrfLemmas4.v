From Coq Require Import Reals QArith Qreals Lra.
From Verif Require Import Base SliceSpec SliceModel ArrModel PixModel RangeLemmas ShtSpec ShtModel ShtLemmas ShtProps TilLemmas TrfSpec TrfModel TrfLemmas TrfLemmas2 TrfLemmas3.
Ltac Zify.zify_post_hook ::= idtac.
Open Scope R_scope.

Lemma in_pixels ny nx q : In q (pixels ny nx) <-> (0 <= fst q < ny)%Z /\ (0 <= snd q < nx)%Z.
Proof.
  unfold pixels. rewrite in_flat_map. destruct q as [y x]. cbn [fst snd]. split.
  - intros (y' & Hy & Hx). apply in_map_iff in Hx as (x' & E & Hx). inversion E; subst. rewrite zrange_In in Hy, Hx. lia.
  - intros [Hy Hx]. exists y. rewrite zrange_In. split; [lia|]. apply in_map_iff. exists x. rewrite zrange_In. split; [reflexivity|lia].
Qed.
Lemma zget_pixels ny nx y x : (0 <= y < ny)%Z -> (0 <= x < nx)%Z -> zget (pixels ny nx) (y * nx + x) = Some (y, x).
Proof.
  intros Hy Hx. pose proof (zget_grid (fun y x => (y, x)) (zrange 0 ny) (zrange 0 nx) y x y x) as H. rewrite zrange_zlen in H. replace (Z.max 0 (nx - 0)) with nx in H by lia.
  apply H; rewrite zget_zrange by lia; f_equal; lia.
Qed.
Lemma mask_sel_eq {A} (a : farr A) (f : Z -> Z -> bool) : mask_sel a (map (fun y => map (fun x => f y x) (zrange 0 (f_nx a))) (zrange 0 (f_ny a))) = filter (fun q => f (fst q) (snd q)) (pixels (f_ny a) (f_nx a)).
Proof.
  unfold mask_sel, all_pix. fold (pixels (f_ny a) (f_nx a)). apply filter_ext_in. intros q H. apply in_pixels in H as [H1 H2].
  rewrite zget_map, zget_zrange by lia. cbn [option_map]. rewrite zget_map, zget_zrange by lia. cbn [option_map]. f_equal; lia.
Qed.

Section Gen.
Context {A : Type}.
Variables (fx_ : A -> A) (F : R -> R -> A) (c : Z * Z -> option (R * R)).
Let vals l := map fx_ (synthesis_general F (somes (map c (filter (fun q => is_some (c q)) l)))).
Lemma gen_find y x l : find (fun qv => ((fst (fst qv) =? y) && (snd (fst qv) =? x))%Z) (combine (filter (fun q => is_some (c q)) l) (vals l)) =
  if existsb (fun q => (fst q =? y) && (snd q =? x))%Z l then match c (y, x) with Some (t, p) => Some ((y, x), fx_ (F t p)) | None => None end else None.
Proof.
  unfold vals. induction l as [|q l IH]; [reflexivity|]. cbn [filter existsb]. destruct q as [qy qx]. cbn [fst snd].
  destruct (c (qy, qx)) as [[t p]|] eqn:E; cbn [is_some].
  - cbn [map]. rewrite E. unfold somes. cbn [flat_map app]. unfold synthesis_general. cbn [map combine find fst snd]. fold (synthesis_general F).
    destruct ((qy =? y) && (qx =? x))%Z eqn:B; cbn [orb].
    + apply andb_prop in B as [B1 B2]. apply Z.eqb_eq in B1, B2. subst. now rewrite E.
    + exact IH.
  - destruct ((qy =? y) && (qx =? x))%Z eqn:B; cbn [orb]; [|exact IH]. apply andb_prop in B as [B1 B2]. apply Z.eqb_eq in B1, B2. subst. rewrite E. rewrite IH, E. now destruct (existsb _ l).
Qed.
Lemma gen_all l k : forallb (fun q => is_some (c q)) l = true -> zget (vals l) k = match zget l k with Some q => match c q with Some (t, p) => Some (fx_ (F t p)) | None => None end | None => None end.
Proof.
  unfold vals. revert k. induction l as [|q l IH]; intros k H; [cbn; now rewrite !zget_nil|]. cbn [forallb] in H. apply andb_prop in H as [H1 H2]. cbn [filter]. rewrite H1. cbn [map]. destruct (c q) as [[t p]|] eqn:E; [|discriminate].
  unfold somes. cbn [flat_map app]. unfold synthesis_general. cbn [map fst snd]. rewrite !zget_cons. destruct (k =? 0)%Z; [now rewrite E|]. apply IH. exact H2.
Qed.
End Gen.
Lemma filter_all {X} (f : X -> bool) l : forallb f l = true -> filter f l = l.
Proof. induction l as [|x l IH]; [reflexivity|]. cbn. intros H. apply andb_prop in H as [-> H2]. now rewrite IH. Qed.
Lemma forallb_existsb {X} (f : X -> bool) l : forallb f l = negb (existsb (fun q => negb (f q)) l).
Proof. induction l as [|x l IH]; [reflexivity|]. cbn. rewrite IH, negb_orb, negb_involutive. reflexivity. Qed.

Lemma loc_conv_close q t p : loc_conv (Some q) = Some (t, p) -> close_to t p 0 0 q.
Proof.
  destruct q as [d r]. cbn. intros H. apply Some_inj in H. inversion H. subst. split; cbn [fst snd].
  - replace (PI / 2 - (PI / 2 - d) - d) with 0 by ring. rewrite Rabs_R0. lra.
  - destruct (Rlt_dec r 0); [exists (-1)%Z|exists 0%Z]; match goal with |- Rabs ?e <= _ => replace e with 0 by ring end; rewrite Rabs_R0; lra.
Qed.

(* ---- sums ---- *)
Lemma total_app l1 l2 : total (l1 ++ l2) = total l1 + total l2.
Proof. unfold total. induction l1 as [|x l IH]; cbn [app fold_right]; [lra|]. rewrite IH. lra. Qed.
Lemma total_zero {X} (f : X -> R) l : (forall x, In x l -> f x = 0) -> total (map f l) = 0.
Proof. induction l as [|x l IH]; intros H; [reflexivity|]. cbn [map total fold_right]. rewrite (H x) by now left. fold (total (map f l)). rewrite IH; [lra|]. intros y Hy. apply H. now right. Qed.
Lemma total_ext {X} (f g : X -> R) l : (forall x, In x l -> f x = g x) -> total (map f l) = total (map g l).
Proof. intros H. f_equal. apply map_ext_in. exact H. Qed.
Lemma total_add {X} (f g : X -> R) l : total (map (fun x => f x + g x) l) = total (map f l) + total (map g l).
Proof. induction l as [|x l IH]; [cbn; lra|]. cbn [map total fold_right]. fold (total (map (fun x => f x + g x) l)) (total (map f l)) (total (map g l)). rewrite IH. lra. Qed.
Lemma total_scale {X} c (f : X -> R) l : total (map (fun x => c * f x) l) = c * total (map f l).
Proof. induction l as [|x l IH]; [cbn; lra|]. cbn [map total fold_right]. fold (total (map (fun x => c * f x) l)) (total (map f l)). rewrite IH. lra. Qed.
Lemma total_swap {X Y} (f : X -> Y -> R) l k : total (map (fun x => total (map (f x) k)) l) = total (map (fun y => total (map (fun x => f x y) l)) k).
Proof.
  induction l as [|x l IH]; cbn [map]; [symmetry; apply total_zero; reflexivity|]. change (total (map (f x) k) + total (map (fun x => total (map (f x) k)) l) = total (map (fun y => f x y + total (map (fun x => f x y) l)) k)).
  now rewrite IH, total_add.
Qed.
Lemma total_shift f a n : total (map f (zrange a (a + n))) = total (map (fun y => f (a + y)%Z) (zrange 0 n)).
Proof.
  unfold zrange. replace (Z.to_nat (a + n - a)) with (Z.to_nat (n - 0)) by lia. generalize (Z.to_nat (n - 0)) as k. intros k. f_equal. replace a with (a + 0)%Z at 1 by lia. generalize 0%Z as b.
  induction k as [|k IH]; intros b; [reflexivity|]. cbn [zseq map]. f_equal. replace (a + b + 1)%Z with (a + (b + 1))%Z by lia. apply IH.
Qed.
Lemma zrange_rev n : rev (zrange 0 n) = map (fun y => (n - 1 - y)%Z) (zrange 0 n).
Proof.
  destruct (Z.leb_spec n 0) as [H|H]; [now rewrite zrange_empty by lia|]. replace n with (Z.of_nat (Z.to_nat n)) by lia. generalize (Z.to_nat n). clear. intros n. 
  induction n as [|n IH]; [reflexivity|]. replace (zrange 0 (Z.of_nat (S n))) with (zrange 0 (Z.of_nat n) ++ [Z.of_nat n]) at 1 by (rewrite <- zrange_snoc by lia; f_equal; lia).
  rewrite rev_app_distr. cbn [rev app]. rewrite IH. rewrite (zrange_cons 0 (Z.of_nat (S n))) by lia. cbn [map]. f_equal; [lia|].
  clear IH. unfold zrange. replace (Z.to_nat (Z.of_nat (S n) - (0 + 1))) with (Z.to_nat (Z.of_nat n - 0)) by lia. generalize (Z.to_nat (Z.of_nat n - 0)) as k. intros k. generalize 0%Z as b.
  induction k as [|k IH]; intros b; [reflexivity|]. cbn [zseq map]. f_equal; [lia|]. apply IH.
Qed.
Lemma total_rev l : total (rev l) = total l.
Proof. induction l as [|x l IH]; [reflexivity|]. cbn [rev]. rewrite total_app, IH. cbn. fold (total l). lra. Qed.
Lemma total_flip fl n f : total (map (fun y => f (flipped fl n y)) (zrange 0 n)) = total (map f (zrange 0 n)).
Proof. destruct fl; [|reflexivity]. unfold flipped. rewrite <- (map_map (fun y => (n - 1 - y)%Z) f), <- zrange_rev, map_rev, total_rev. reflexivity. Qed.
Lemma total_window fl f y0 n y1 : (0 <= y0)%Z -> (0 <= n)%Z -> (0 <= y1)%Z -> (forall i, ~ (y0 <= i < y0 + n)%Z -> f i = 0) ->
  total (map f (zrange 0 (y0 + n + y1))) = total (map (fun y => f (y0 + flipped fl n y)%Z) (zrange 0 n)).
Proof.
  intros H0 Hn H1 Z. rewrite (total_flip fl n (fun y => f (y0 + y)%Z)), <- total_shift.
  rewrite (zrange_split 0 y0 (y0 + n + y1)), (zrange_split y0 (y0 + n) (y0 + n + y1)) by lia. rewrite !map_app, !total_app.
  rewrite (total_zero f (zrange 0 y0)), (total_zero f (zrange (y0 + n) _)); [lra| |]; intros i Hi; rewrite zrange_In in Hi; apply Z; lia.
Qed.
Lemma total_pixels f ny nx : total (map f (pixels ny nx)) = total (map (fun y => total (map (fun x => f (y, x)) (zrange 0 nx))) (zrange 0 ny)).
Proof.
  unfold pixels. generalize (zrange 0 ny). intros l. induction l as [|y l IH]; [reflexivity|]. cbn [flat_map map]. rewrite map_app, total_app, IH, map_map. reflexivity.
Qed.
