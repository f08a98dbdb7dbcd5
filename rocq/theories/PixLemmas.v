From Coq Require Import Lqa.
From Verif Require Import Base SliceSpec SliceModel SboxSpec SboxModel SboxLemmas WindModel ArrModel ArrLemmas PixSpec PixModel.

(** pieces of sbox_wrap *)
Definition good_piece (ilen c : Z) (io : sbox * sbox) : Prop :=
  exists a n o, fst io = (a, a + n, 1) /\ 0 < n /\ 0 <= a /\ a + n <= c /\
    ((snd io = (o, o + n, 1) /\ 0 <= o /\ o + n <= ilen) \/ (snd io = (o, o - n, -1) /\ o < ilen /\ -1 <= o - n)).

Lemma wrap_loop_pieces fuel : forall i0 i1 i w c ilen flip res,
  0 < w -> 0 < c <= w -> i0 <= i1 -> i0 < w -> i = Z.max 0 (- i0) -> i1 - i0 <= ilen ->
  wrap_loop fuel (i0, i1, 1) i w c ilen flip = Some res -> Forall (good_piece ilen c) res.
Proof.
  induction fuel as [|fuel IH]; intros i0 i1 i w c ilen flip res Hw Hc Hi Hi0 Ei Hl; cbn [wrap_loop]; destruct (0 <? i1) eqn:E; try discriminate;
    try (intros H; apply Some_inj in H; subst res; constructor).
  rewrite Z.div_1_r, !Z.mul_1_r. rewrite !fix1, !size1. replace (c =? 0) with false by lia. rewrite !size1.
  set (s := i0 + Z.max (- i0) 0). set (nsub := Z.min i1 w - s). set (ncap := Z.min i1 c - s).
  destruct (wrap_loop fuel (i0 - w, i1 - w, 1) (i + nsub) w c ilen flip) as [rest|] eqn:Er; [|discriminate].
  intros H. apply Some_inj in H. subst res. apply Forall_app. split.
  - destruct (0 <? ncap) eqn:En; constructor; [|constructor]. exists s, ncap, (if flip then ilen - 1 - i else i). cbn [fst snd].
    split; [pair_eq; unfold ncap; lia|]. split; [lia|]. split; [unfold s; lia|]. split; [unfold ncap; lia|].
    destruct flip; [right|left]; (split; [pair_eq; lia|unfold ncap, s in *; lia]).
  - destruct (Z_lt_le_dec w i1) as [Hm|Hm].
    + revert Er. apply IH; try lia.
    + assert (rest = []); [|subst; constructor]. destruct fuel; cbn [wrap_loop] in Er; destruct (0 <? i1 - w) eqn:E2; try lia; apply Some_inj in Er; auto.
Qed.
Lemma wrap_dim_pieces x w c res : unit_box x -> wrap_ok w c -> 0 < c -> wrap_dim x w c = Some res -> Forall (good_piece (zlen (indices x)) c) res.
Proof.
  intros [Hok Hs] Hw Hc. destruct (sbox_fix_spec x Hok) as [He Hi]. rewrite <- Hi. clear Hi. unfold wrap_dim.
  assert (Hs' : Z.abs (snd (sbox_fix x)) = 1) by (destruct x as [[? ?] ?]; exact Hs).
  rewrite <- sbox_size_spec by (apply box_exact_ok; exact He).
  destruct (sbox_fix x) as [[a b] s]. clear Hok Hs x. cbn [snd] in *. destruct He as (_ & n & Hn & ->). rewrite sbox_size_exact by lia.
  assert (Hlo : exists lo, (if s <? 0 then sbox_flip (a, a + n * s, s) else (a, a + n * s, s)) = (lo, lo + n, 1)).
  { destruct (s <? 0) eqn:E; [assert (s = -1) by lia|assert (s = 1) by lia]; subst s; eexists; unfold sbox_flip.
    - apply f_equal2; [apply f_equal2; [reflexivity|ring]|reflexivity].
    - apply f_equal2; [apply f_equal2; [reflexivity|ring]|reflexivity]. }
  destruct Hlo as (lo & ->). set (flip := s <? 0). clearbody flip.
  destruct (w =? 0) eqn:Ew.
  - replace (c =? 0) with false by lia. rewrite !Z.div_1_r, !Z.mul_1_r. set (npre := Z.max (- lo) 0). set (npost := Z.max (lo + n - 1 - (c - 1)) 0).
    destruct (npre + npost <? n) eqn:E; intros H; apply Some_inj in H; subst res; constructor; [|constructor].
    exists (lo + npre), (n - npre - npost), (if flip then n - 1 - npre else npre). cbn [fst snd].
    split; [pair_eq; lia|]. split; [lia|]. split; [lia|]. split; [lia|].
    destruct flip; [right|left]; (split; [pair_eq; lia|lia]).
  - cbn [shift_box fst snd]. set (d := lo / w * w). destruct Hw as [->|Hw]; [discriminate|].
    assert (Hr : 0 <= lo - d < w).
    { unfold d. pose proof (Z.div_mod lo w). pose proof (Z.mod_pos_bound lo w). nia. }
    apply wrap_loop_pieces; lia.
Qed.

(* the python slices of a piece *)
Lemma sb_pos a n L : 0 <= a -> 0 < n -> a + n <= L ->
  py_start (sbox2slice (a, a + n, 1)) L = a /\ py_len (sbox2slice (a, a + n, 1)) L = n /\ py_step (sbox2slice (a, a + n, 1)) = 1.
Proof.
  intros. unfold py_len, py_start, py_stop, sbox2slice, py_step. destruct (0 <=? a + n) eqn:E; [|lia]. cbn [ps_start ps_stop ps_step].
  unfold py_adjust. destruct (a <? 0) eqn:E1; [lia|]. destruct (a + n <? 0) eqn:E2; [lia|]. cbn [Z.ltb Z.compare].
  assert (Ea : (if L <=? a then L else a) = a) by (destruct (L <=? a) eqn:?; lia). assert (Eb : (if L <=? a + n then L else a + n) = a + n) by (destruct (L <=? a + n) eqn:?; lia).
  rewrite Ea, Eb. split; [reflexivity|]. split; [|reflexivity]. replace (a <? a + n) with true by lia. rewrite Z.div_1_r. lia.
Qed.
Lemma sb_neg o n L : o < L -> 0 < n -> -1 <= o - n ->
  py_start (sbox2slice (o, o - n, -1)) L = o /\ py_len (sbox2slice (o, o - n, -1)) L = n /\ py_step (sbox2slice (o, o - n, -1)) = -1.
Proof.
  intros. unfold py_len, py_start, py_stop, sbox2slice, py_step. cbn [ps_start ps_stop ps_step].
  unfold py_adjust. destruct (o <? 0) eqn:E1; [lia|]. change (-1 <? 0) with true. cbv iota.
  assert (Ea : (if L <=? o then L - 1 else o) = o) by (destruct (L <=? o) eqn:?; lia). rewrite Ea.
  assert (Eb : match (if 0 <=? o - n then Some (o - n) else None) with
               | Some i => if i <? 0 then (if i + L <? 0 then -1 else i + L) else if L <=? i then L - 1 else i
               | None => -1 end = o - n).
  { destruct (0 <=? o - n) eqn:E; [|lia]. destruct (o - n <? 0) eqn:E2; [lia|]. destruct (L <=? o - n) eqn:E3; [lia|reflexivity]. }
  rewrite Eb. split; [reflexivity|]. split; [|reflexivity]. replace (o - n <? o) with true by lia. change (- -1) with 1. rewrite Z.div_1_r. lia.
Qed.

(* output position t of a piece is read from this input position *)
Definition rel1 (L c : Z) (io : sbox * sbox) (t : Z) : option Z :=
  match sl_find (sbox2slice (snd io)) L t with Some j => Some (sl_at (sbox2slice (fst io)) c j) | None => None end.
Definition rel1r (L c : Z) (io : sbox * sbox) (p : Z) : option Z :=
  match sl_find (sbox2slice (fst io)) c p with Some j => Some (sl_at (sbox2slice (snd io)) L j) | None => None end.

Lemma sl_find_at s n j t : py_step s <> 0 -> sl_find s n t = Some j <-> t = sl_at s n j /\ 0 <= j < py_len s n.
Proof.
  intros Hs. unfold sl_find, sl_at. split.
  - destruct (_ && _) eqn:E; [|discriminate]. intros H. injection H as <-. lia.
  - intros [-> Hj]. replace (py_start s n + py_step s * j - py_start s n) with (j * py_step s) by ring. rewrite Z.div_mul by exact Hs.
    replace (_ && _) with true; [reflexivity|]. symmetry. rewrite !andb_true_iff. lia.
Qed.

Lemma zget_indices_unit a n s j k : 0 <= n -> Z.abs s = 1 -> zget (indices (a, a + n * s, s)) j = Some k <-> 0 <= j < n /\ k = a + s * j.
Proof.
  intros Hn Hs. rewrite zget_indices_exact by lia. destruct ((0 <=? j) && (j <? n)) eqn:E; split; intros H; try discriminate; try lia.
  - apply Some_inj in H. lia.
  - f_equal. lia.
Qed.

Lemma piece_moves L c io t p : good_piece L c io ->
  (rel1 L c io t = Some p <-> moves io t p) /\ (rel1r L c io p = Some t <-> moves io t p) /\
  py_len (sbox2slice (fst io)) c = py_len (sbox2slice (snd io)) L /\ py_step (sbox2slice (fst io)) <> 0 /\ py_step (sbox2slice (snd io)) <> 0.
Proof.
  intros (a & n & o & Ei & Hn & Ha & Hac & Ho). destruct io as [bi bo]. cbn [fst snd] in *. subst bi. destruct (sb_pos a n c Ha Hn Hac) as (P1 & P2 & P3).
  unfold rel1, rel1r, moves. cbn [fst snd].
  assert (Hout : exists s, Z.abs s = 1 /\ bo = (o, o + n * s, s) /\ py_start (sbox2slice bo) L = o /\ py_len (sbox2slice bo) L = n /\ py_step (sbox2slice bo) = s).
  { destruct Ho as [(-> & H1 & H2)|(-> & H1 & H2)]; [exists 1|exists (-1)]; (split; [reflexivity|]; split; [pair_eq; lia|]); [now apply sb_pos|now apply sb_neg]. }
  destruct Hout as (s & Hs & -> & Q1 & Q2 & Q3).
  assert (Hm : forall j, (zget (indices (o, o + n * s, s)) j = Some t /\ zget (indices (a, a + n, 1)) j = Some p) <-> 0 <= j < n /\ t = o + s * j /\ p = a + j).
  { intros j. replace (a + n) with (a + n * 1) by lia. rewrite !zget_indices_unit by lia. lia. }
  split; [|split; [|split; [congruence|lia]]].
  - split.
    + destruct (sl_find _ L t) as [j|] eqn:E; [|discriminate]. intros H. apply Some_inj in H. apply sl_find_at in E as [E1 E2]; [|lia].
      exists j. apply Hm. unfold sl_at in *. rewrite Q1, Q3 in E1. rewrite Q2 in E2. rewrite P1, P3 in H. lia.
    + intros (j & H). apply Hm in H as (H1 & H2 & H3). replace (sl_find _ L t) with (Some j).
      * f_equal. unfold sl_at. rewrite P1, P3. lia.
      * symmetry. apply sl_find_at; [lia|]. unfold sl_at. rewrite Q1, Q2, Q3. lia.
  - split.
    + destruct (sl_find _ c p) as [j|] eqn:E; [|discriminate]. intros H. apply Some_inj in H. apply sl_find_at in E as [E1 E2]; [|lia].
      exists j. apply Hm. unfold sl_at in *. rewrite P1, P3 in E1. rewrite P2 in E2. rewrite Q1, Q3 in H. lia.
    + intros (j & H). apply Hm in H as (H1 & H2 & H3). replace (sl_find _ c p) with (Some j).
      * f_equal. unfold sl_at. rewrite Q1, Q3. lia.
      * symmetry. apply sl_find_at; [lia|]. unfold sl_at. rewrite P1, P2, P3. lia.
Qed.

(** one turn of the loop *)
Definition pair2 (a b : option Z) : option (Z * Z) := match a, b with Some x, Some y => Some (x, y) | _, _ => None end.
Definition upd {A} (op : A -> A -> A) (src : Z -> Z -> A) (R : Z -> Z -> option (Z * Z)) (d : Z -> Z -> A) : Z -> Z -> A :=
  fun y x => match R y x with Some (p, q) => op (d y x) (src p q) | None => d y x end.

Section Step.
Context {A : Type} (op : A -> A -> A) (im om : farr A) (Ly Lx : Z).
Hypothesis HL : f_ny om = Ly /\ f_nx om = Lx.
Variables (iy ix oy ox : sbox).
Hypothesis Gy : good_piece Ly (f_ny im) (iy, oy).
Hypothesis Gx : good_piece Lx (f_nx im) (ix, ox).

Lemma step_fwd : exists om', ep_step op false (Some (im, om)) ([iy; ix], [oy; ox]) = Some (im, om') /\ f_ny om' = Ly /\ f_nx om' = Lx /\
  forall y x, f_at om' y x = upd op (f_at im) (fun y x => pair2 (rel1 Ly (f_ny im) (iy, oy) y) (rel1 Lx (f_nx im) (ix, ox) x)) (f_at om) y x.
Proof.
  destruct HL as [HLy HLx].
  destruct (piece_moves _ _ _ 0 0 Gy) as (_ & _ & Ey & _ & Sy). destruct (piece_moves _ _ _ 0 0 Gx) as (_ & _ & Ex & _ & Sx). cbn [fst snd] in *.
  cbn [ep_step]. unfold zip2, get2, set2. cbn [f_ny f_nx f_at]. rewrite HLy, HLx, Ey, Ex, !Z.eqb_refl. cbn [andb f_ny f_nx]. rewrite !Z.eqb_refl. cbn [andb].
  eexists. split; [reflexivity|]. cbn [f_ny f_nx f_at]. split; [reflexivity|]. split; [reflexivity|].
  intros y x. unfold upd, pair2, rel1. cbn [fst snd].
  destruct (sl_find (sbox2slice oy) Ly y) as [i|] eqn:E1; [|reflexivity]. destruct (sl_find (sbox2slice ox) Lx x) as [j|] eqn:E2; [|reflexivity].
  apply sl_find_at in E1 as [E1 _]; [|exact Sy]. apply sl_find_at in E2 as [E2 _]; [|exact Sx]. rewrite <- E1, <- E2. reflexivity.
Qed.
Lemma step_rev : exists im', ep_step op true (Some (im, om)) ([iy; ix], [oy; ox]) = Some (im', om) /\ f_ny im' = f_ny im /\ f_nx im' = f_nx im /\
  forall y x, f_at im' y x = upd op (f_at om) (fun y x => pair2 (rel1r Ly (f_ny im) (iy, oy) y) (rel1r Lx (f_nx im) (ix, ox) x)) (f_at im) y x.
Proof.
  destruct HL as [HLy HLx].
  destruct (piece_moves _ _ _ 0 0 Gy) as (_ & _ & Ey & Sy & _). destruct (piece_moves _ _ _ 0 0 Gx) as (_ & _ & Ex & Sx & _). cbn [fst snd] in *.
  cbn [ep_step]. unfold zip2, get2, set2. cbn [f_ny f_nx f_at]. rewrite HLy, HLx, Ey, Ex, !Z.eqb_refl. cbn [andb f_ny f_nx]. rewrite ?Ey, ?Ex, !Z.eqb_refl. cbn [andb].
  eexists. split; [reflexivity|]. cbn [f_ny f_nx f_at]. split; [reflexivity|]. split; [reflexivity|].
  intros y x. unfold upd, pair2, rel1r. cbn [fst snd].
  destruct (sl_find (sbox2slice iy) (f_ny im) y) as [i|] eqn:E1; [|reflexivity]. destruct (sl_find (sbox2slice ix) (f_nx im) x) as [j|] eqn:E2; [|reflexivity].
  apply sl_find_at in E1 as [E1 _]; [|exact Sy]. apply sl_find_at in E2 as [E2 _]; [|exact Sx]. rewrite <- E1, <- E2. reflexivity.
Qed.
End Step.

(** the whole loop *)
Fixpoint upds {A} (op : A -> A -> A) (src : Z -> Z -> A) (Rs : list (Z -> Z -> option (Z * Z))) (d : Z -> Z -> A) : Z -> Z -> A :=
  match Rs with [] => d | R :: Rs => upds op src Rs (upd op src R d) end.

Lemma upds_ext {A} (op : A -> A -> A) src Rs : forall d d', (forall y x, d y x = d' y x) -> forall y x, upds op src Rs d y x = upds op src Rs d' y x.
Proof. induction Rs as [|R Rs IH]; intros d d' H y x; [apply H|]. cbn. apply IH. intros a b. unfold upd. rewrite H. reflexivity. Qed.

Lemma upds_none {A} (op : A -> A -> A) src Rs y x : (forall R, In R Rs -> R y x = None) -> forall d, upds op src Rs d y x = d y x.
Proof.
  induction Rs as [|R Rs IH]; intros H d; [reflexivity|]. cbn. rewrite IH by (intros; apply H; now right). unfold upd. rewrite (H R) by now left. reflexivity.
Qed.
Lemma upds_one {A} (op : A -> A -> A) src Rs y x p q :
  ForallOrdPairs (fun R R' : Z -> Z -> option (Z * Z) => R y x = None \/ R' y x = None) Rs ->
  (exists R, In R Rs /\ R y x = Some (p, q)) -> forall d, upds op src Rs d y x = op (d y x) (src p q).
Proof.
  intros HD. induction HD as [|R Rs HR HD IH]; intros (R0 & Hin & E) d; [destruct Hin|]. cbn. destruct Hin as [->|Hin].
  - rewrite upds_none; [unfold upd; rewrite E; reflexivity|]. intros R' H'. rewrite Forall_forall in HR. destruct (HR R' H') as [C|C]; [congruence|exact C].
  - rewrite IH by (exists R0; auto). rewrite Forall_forall in HR. destruct (HR R0 Hin) as [C|C]; [|congruence]. unfold upd. rewrite C. reflexivity.
Qed.
(* writing back what is already there changes nothing *)
Lemma upds_same {A} (op : A -> A -> A) src Rs : forall d,
  (forall R y x p q, In R Rs -> R y x = Some (p, q) -> op (d y x) (src p q) = d y x) -> forall y x, upds op src Rs d y x = d y x.
Proof.
  induction Rs as [|R Rs IH]; intros d H y x; [reflexivity|]. cbn.
  assert (E : forall a b, upd op src R d a b = d a b).
  { intros a b. unfold upd. destruct (R a b) as [[p q]|] eqn:E; [|reflexivity]. apply (H R a b p q); [now left|exact E]. }
  rewrite IH; [apply E|]. intros R' a b p q Hin HR. rewrite E. apply (H R' a b p q); [now right|exact HR].
Qed.

Definition rel2 (f : sbox * sbox -> Z -> option Z) (g : sbox * sbox -> Z -> option Z) (ps : list (sbox * sbox)) : Z -> Z -> option (Z * Z) :=
  match ps with [a; b] => fun y x => pair2 (f a y) (g b x) | _ => fun _ _ => None end.
Definition good_pair Ly Lx cy cx (ps : list (sbox * sbox)) : Prop :=
  match ps with [a; b] => good_piece Ly cy a /\ good_piece Lx cx b | _ => False end.

Lemma loop_fwd {A} (op : A -> A -> A) (im : farr A) Ly Lx pss : Forall (good_pair Ly Lx (f_ny im) (f_nx im)) pss -> forall om, f_ny om = Ly -> f_nx om = Lx ->
  exists om', fold_left (ep_step op false) (map (fun ps : list (sbox * sbox) => (map fst ps, map snd ps)) pss) (Some (im, om)) = Some (im, om') /\ f_ny om' = Ly /\ f_nx om' = Lx /\
   forall y x, f_at om' y x = upds op (f_at im) (map (rel2 (rel1 Ly (f_ny im)) (rel1 Lx (f_nx im))) pss) (f_at om) y x.
Proof.
  intros HF. induction HF as [|ps pss Hp HF IH]; intros om Hy Hx; [exists om; auto|].
  destruct ps as [|[iy oy] [|[ix ox] [|]]]; try contradiction Hp. destruct Hp as [Gy Gx]. cbn [map fst snd fold_left].
  destruct (step_fwd op im om Ly Lx (conj Hy Hx) iy ix oy ox Gy Gx) as (om1 & -> & H1 & H2 & H3).
  destruct (IH om1 H1 H2) as (om2 & -> & H4 & H5 & H6). exists om2. split; [reflexivity|]. split; [exact H4|]. split; [exact H5|].
  intros y x. rewrite H6. cbn [upds]. apply upds_ext. exact H3.
Qed.
Lemma loop_rev {A} (op : A -> A -> A) (om : farr A) cy cx pss : Forall (good_pair (f_ny om) (f_nx om) cy cx) pss -> forall im, f_ny im = cy -> f_nx im = cx ->
  exists im', fold_left (ep_step op true) (map (fun ps : list (sbox * sbox) => (map fst ps, map snd ps)) pss) (Some (im, om)) = Some (im', om) /\ f_ny im' = cy /\ f_nx im' = cx /\
   forall y x, f_at im' y x = upds op (f_at om) (map (rel2 (rel1r (f_ny om) cy) (rel1r (f_nx om) cx)) pss) (f_at im) y x.
Proof.
  intros HF. induction HF as [|ps pss Hp HF IH]; intros im Hy Hx; [exists im; auto|].
  destruct ps as [|[iy oy] [|[ix ox] [|]]]; try contradiction Hp. destruct Hp as [Gy Gx]. cbn [map fst snd fold_left]. rewrite <- Hy in Gy. rewrite <- Hx in Gx.
  destruct (step_rev op im om _ _ (conj eq_refl eq_refl) iy ix oy ox Gy Gx) as (im1 & -> & H1 & H2 & H3).
  destruct (IH im1) as (im2 & -> & H4 & H5 & H6); [congruence|congruence|]. exists im2. split; [reflexivity|]. split; [exact H4|]. split; [exact H5|].
  intros y x. rewrite H6. cbn [upds]. apply upds_ext. intros a b. rewrite H3. cbn [rel2]. rewrite Hy, Hx. reflexivity.
Qed.

(** disjointness of the pieces *)
Lemma FOP_of_nth {A} (D : A -> A -> Prop) (l : list A) : (forall a b x y, a <> b -> nth_error l a = Some x -> nth_error l b = Some y -> D x y) -> ForallOrdPairs D l.
Proof.
  induction l as [|z l IH]; intros H; constructor.
  - apply Forall_forall. intros y Hy. apply In_nth_error in Hy as (k & Hk). apply (H 0%nat (S k)); auto.
  - apply IH. intros a b x y Hne Ha Hb. apply (H (S a) (S b)); auto.
Qed.
Lemma FOP_app {A} (D : A -> A -> Prop) (l m : list A) : ForallOrdPairs D l -> ForallOrdPairs D m -> (forall x y, In x l -> In y m -> D x y) -> ForallOrdPairs D (l ++ m).
Proof.
  intros Hl Hm Hc. induction Hl as [|z l HF Hl IH]; [exact Hm|]. cbn. constructor.
  - apply Forall_app. split; [exact HF|]. apply Forall_forall. intros y Hy. apply Hc; [now left|exact Hy].
  - apply IH. intros x y Hx Hy. apply Hc; [now right|exact Hy].
Qed.
Lemma FOP_map {A B} (D : B -> B -> Prop) (f : A -> B) (l : list A) : ForallOrdPairs (fun x y => D (f x) (f y)) l -> ForallOrdPairs D (map f l).
Proof. intros H. induction H as [|z l HF Hl IH]; cbn; constructor; [|exact IH]. apply Forall_map. exact HF. Qed.
Lemma FOP_outer2 {A} (D1 D2 : A -> A -> Prop) (l1 l2 : list A) : ForallOrdPairs D1 l1 -> ForallOrdPairs D2 l2 ->
  ForallOrdPairs (fun a b => match a, b with [x; y], [x'; y'] => D1 x x' \/ D2 y y' | _, _ => False end) (outer [l1; l2]).
Proof.
  intros H1 H2. cbn [outer]. assert (E : flat_map (fun x : A => map (cons x) [[]]) l2 = map (fun x => [x]) l2).
  { clear. induction l2 as [|x l2 IH]; [reflexivity|]. cbn. rewrite <- IH. reflexivity. }
  rewrite E. clear E. induction H1 as [|z l1 HF Hl IH]; [constructor|]. cbn [flat_map]. apply FOP_app; [|exact IH|].
  - rewrite map_map. apply FOP_map. clear -H2. induction H2 as [|y l2 HF Hl IH]; constructor; [|exact IH].
    apply Forall_forall. intros y' Hy'. rewrite Forall_forall in HF. right. apply HF, Hy'.
  - intros x y Hx Hy. rewrite map_map in Hx. apply in_map_iff in Hx as (u & <- & Hu). apply in_flat_map in Hy as (z' & Hz' & Hy).
    rewrite map_map in Hy. apply in_map_iff in Hy as (v & <- & Hv). left. rewrite Forall_forall in HF. apply HF, Hz'.
Qed.
Lemma In_outer2 {A} (l1 l2 : list A) ps : In ps (outer [l1; l2]) <-> exists a b, ps = [a; b] /\ In a l1 /\ In b l2.
Proof.
  rewrite In_outer. split.
  - intros H. inversion H as [|a ? t ? Ha H']; subst. inversion H' as [|b ? t' ? Hb H'']; subst. inversion H''; subst. eauto.
  - intros (a & b & -> & Ha & Hb). repeat constructor; assumption.
Qed.

(* per axis *)
Definition axis_in (w c : Z) (b : sbox) : Prop := unit_box b /\ wrap_ok w c /\ 0 < c.
Lemma axis_in_prem w c b : axis_in w c b -> box_ok b /\ Z.abs (snd b) = 1 /\ 0 <= w /\ 0 <= c /\ (0 < w -> c <= w).
Proof. intros ((H1 & H2) & [->|H3] & H4); repeat split; auto; lia. Qed.

Lemma target_source b w c t p : 0 < c -> (exists k, zget (indices b) t = Some k /\ source w c k = Some p) <-> wrap_target b w c t p.
Proof.
  intros Hc. unfold wrap_target, source. split.
  - intros (k & Hk & Hs). exists k. split; [exact Hk|]. destruct (_ && _) eqn:E; [|discriminate]. apply Some_inj in Hs. subst p. split; [reflexivity|]. right. lia.
  - intros (k & Hk & -> & Hr). exists k. split; [exact Hk|]. destruct (_ && _) eqn:E; [reflexivity|]. lia.
Qed.


Lemma indices_unit b j k : unit_box b -> zget (indices b) j = Some k -> k = fst (fst b) + snd b * j /\ 0 <= j < zlen (indices b).
Proof.
  intros [Hok Hs] H. split; [|eapply zget_Some_range; eauto]. destruct (sbox_fix_spec b Hok) as [He Hi]. rewrite <- Hi in H. destruct b as [[x y] s]. cbn [sbox_fix fst snd] in *.
  destruct He as (_ & n & Hn & E). rewrite E in H. apply zget_indices_unit in H as [_ H]; auto.
Qed.

Lemma target_inj b w c t t' p : axis_in w c b -> fits w b -> wrap_target b w c t p -> wrap_target b w c t' p -> t = t'.
Proof.
  intros (Hu & Hw & Hc) Hf (k & Hk & Hp & _) (k' & Hk' & Hp' & _). apply indices_unit in Hk as [E R]; [|exact Hu]. apply indices_unit in Hk' as [E' R']; [|exact Hu].
  destruct Hu as [_ Hs]. destruct (w =? 0) eqn:Ew; [assert (snd b = 1 \/ snd b = -1) as [X|X] by lia; rewrite X in *; lia|].
  destruct Hw as [->|Hw]; [discriminate|]. destruct Hf as [->|Hf]; [discriminate|].
  assert (Hm : (k - k') mod w = 0) by (rewrite Zminus_mod, <- Hp, <- Hp'; rewrite Z.sub_diag; reflexivity).
  apply Z.mod_divide in Hm as [z Hz]; [|lia]. assert (Hz0 : z = 0) by (assert (- w < z * w < w) by (assert (snd b = 1 \/ snd b = -1) as [X|X] by lia; rewrite X in *; lia); nia).
  assert (snd b = 1 \/ snd b = -1) as [X|X] by lia; rewrite X in *; lia.
Qed.

Section Both.
Context (by_ bx : sbox) (wy wx cy cx : Z).
Hypothesis Hy : axis_in wy cy by_.
Hypothesis Hx : axis_in wx cx bx.

Lemma pieces_facts : exists ly lx, sbox_wrap [(by_, wy, cy); (bx, wx, cx)] = Some (map (fun ps : list (sbox * sbox) => (map fst ps, map snd ps)) (outer [ly; lx])) /\
  Forall (good_piece (zlen (indices by_)) cy) ly /\ Forall (good_piece (zlen (indices bx)) cx) lx /\
  (forall t p, (exists io, In io ly /\ moves io t p) <-> wrap_target by_ wy cy t p) /\
  (forall t p, (exists io, In io lx /\ moves io t p) <-> wrap_target bx wx cx t p) /\
  (forall t, ForallOrdPairs (fun io io' => forall p p', moves io t p -> moves io' t p' -> False) ly) /\
  (forall t, ForallOrdPairs (fun io io' => forall p p', moves io t p -> moves io' t p' -> False) lx) /\
  (fits wy by_ -> forall p, ForallOrdPairs (fun io io' => forall t t', moves io t p -> moves io' t' p -> False) ly) /\
  (fits wx bx -> forall p, ForallOrdPairs (fun io io' => forall t t', moves io t p -> moves io' t' p -> False) lx).
Proof.
  destruct (axis_in_prem _ _ _ Hy) as (A1 & A2 & A3 & A4 & A5). destruct (axis_in_prem _ _ _ Hx) as (B1 & B2 & B3 & B4 & B5).
  destruct (wrap_dim_spec by_ wy cy A1 A2 A3 A4 A5) as (ly & Ely & Cy & Uy). destruct (wrap_dim_spec bx wx cx B1 B2 B3 B4 B5) as (lx & Elx & Cx & Ux).
  exists ly, lx. unfold sbox_wrap. cbn [map fst snd all_some]. rewrite Ely, Elx. split; [reflexivity|].
  destruct Hy as (Y1 & Y2 & Y3). destruct Hx as (X1 & X2 & X3).
  split; [eapply wrap_dim_pieces; eauto|]. split; [eapply wrap_dim_pieces; eauto|]. split; [exact Cy|]. split; [exact Cx|].
  split; [intros t; apply FOP_of_nth; intros a b io io' Hne Ha Hb p p' Hm Hm'; apply Hne; eapply Uy; eauto|].
  split; [intros t; apply FOP_of_nth; intros a b io io' Hne Ha Hb p p' Hm Hm'; apply Hne; eapply Ux; eauto|].
  split.
  - intros Hf p. apply FOP_of_nth. intros a b io io' Hne Ha Hb t t' Hm Hm'. apply Hne.
    assert (t = t'); [|subst t'; eapply Uy; eauto].
    apply (target_inj by_ wy cy t t' p); [exact (conj Y1 (conj Y2 Y3))|exact Hf|apply Cy; exists io; split; [eapply nth_error_In; eauto|exact Hm]|apply Cy; exists io'; split; [eapply nth_error_In; eauto|exact Hm']].
  - intros Hf p. apply FOP_of_nth. intros a b io io' Hne Ha Hb t t' Hm Hm'. apply Hne.
    assert (t = t'); [|subst t'; eapply Ux; eauto].
    apply (target_inj bx wx cx t t' p); [exact (conj X1 (conj X2 X3))|exact Hf|apply Cx; exists io; split; [eapply nth_error_In; eauto|exact Hm]|apply Cx; exists io'; split; [eapply nth_error_In; eauto|exact Hm']].
Qed.

Lemma FOP_impl {A} (D D' : A -> A -> Prop) (l : list A) : (forall x y, In x l -> In y l -> D x y -> D' x y) -> ForallOrdPairs D l -> ForallOrdPairs D' l.
Proof.
  intros H HD. induction HD as [|z l HF Hl IH]; constructor.
  - rewrite Forall_forall in HF |- *. intros y Hin. apply H; [now left|now right|]. apply HF, Hin.
  - apply IH. intros x y Hx' Hy'. apply H; now right.
Qed.

(* forward *)
Lemma loop_fwd_spec {A} (op : A -> A -> A) (im om : farr A) : f_ny im = cy -> f_nx im = cx -> f_ny om = zlen (indices by_) -> f_nx om = zlen (indices bx) ->
  exists pieces om', sbox_wrap [(by_, wy, cy); (bx, wx, cx)] = Some pieces /\ fold_left (ep_step op false) pieces (Some (im, om)) = Some (im, om') /\
   f_ny om' = f_ny om /\ f_nx om' = f_nx om /\
   forall i j ky kx, zget (indices by_) i = Some ky -> zget (indices bx) j = Some kx ->
     f_at om' i j = match source wy cy ky, source wx cx kx with Some y, Some x => op (f_at om i j) (f_at im y x) | _, _ => f_at om i j end.
Proof.
  intros Ey Ex EY EX. destruct pieces_facts as (ly & lx & Hw & Fy & Fx & Cy & Cx & Uy & Ux & _ & _). eexists. rewrite Hw.
  assert (HF : Forall (good_pair (zlen (indices by_)) (zlen (indices bx)) (f_ny im) (f_nx im)) (outer [ly; lx])).
  { apply Forall_forall. intros ps Hps. apply In_outer2 in Hps as (a & b & -> & Ha & Hb). rewrite Forall_forall in Fy, Fx. rewrite Ey, Ex. split; auto. }
  destruct (loop_fwd op im _ _ _ HF om EY EX) as (om' & E & H1 & H2 & H3). exists om'. split; [reflexivity|]. split; [exact E|]. split; [congruence|]. split; [congruence|].
  intros i j ky kx Hi Hj. rewrite H3, Ey, Ex.
  assert (Hc1 : 0 < cy) by apply Hy. assert (Hc2 : 0 < cx) by apply Hx. rewrite Forall_forall in Fy, Fx.
  assert (Hnone : (source wy cy ky = None \/ source wx cx kx = None) -> forall R, In R (map (rel2 (rel1 (zlen (indices by_)) cy) (rel1 (zlen (indices bx)) cx)) (outer [ly; lx])) -> R i j = None).
  { intros Hn R HR. apply in_map_iff in HR as (ps & <- & Hps). apply In_outer2 in Hps as (a & b & -> & Ha & Hb). cbn [rel2]. unfold pair2.
    destruct (rel1 _ _ a i) as [p|] eqn:E1; [|reflexivity]. destruct (rel1 _ _ b j) as [q|] eqn:E2; [|reflexivity]. exfalso.
    apply (piece_moves _ _ _ i p (Fy a Ha)) in E1. apply (piece_moves _ _ _ j q (Fx b Hb)) in E2.
    assert (T1 : wrap_target by_ wy cy i p) by (apply Cy; eauto). assert (T2 : wrap_target bx wx cx j q) by (apply Cx; eauto).
    apply target_source in T1 as (k1 & G1 & G2); [|exact Hc1]. apply target_source in T2 as (k2 & G3 & G4); [|exact Hc2]. destruct Hn; congruence. }
  destruct (source wy cy ky) as [y|] eqn:Sy; [|apply upds_none; apply Hnone; now left].
  destruct (source wx cx kx) as [x|] eqn:Sx; [|apply upds_none; apply Hnone; now right].
  apply upds_one.
  - apply FOP_map. pose proof (FOP_outer2 _ _ _ _ (Uy i) (Ux j)) as HO. revert HO. apply FOP_impl.
    intros p p' Hp Hp'. apply In_outer2 in Hp as (a & b & -> & Ha & Hb). apply In_outer2 in Hp' as (a' & b' & -> & Ha' & Hb'). cbn [rel2]. unfold pair2.
    intros HD.
    destruct (rel1 _ _ a i) as [p|] eqn:E1; [|now left]. destruct (rel1 _ _ b j) as [q|] eqn:E2; [|now left].
    destruct (rel1 _ _ a' i) as [p'|] eqn:E3; [|now right]. destruct (rel1 _ _ b' j) as [q'|] eqn:E4; [|now right]. exfalso.
    apply (piece_moves _ _ _ _ _ (Fy a Ha)) in E1. apply (piece_moves _ _ _ _ _ (Fx b Hb)) in E2. apply (piece_moves _ _ _ _ _ (Fy a' Ha')) in E3. apply (piece_moves _ _ _ _ _ (Fx b' Hb')) in E4.
    destruct HD as [HD|HD]; eapply HD; eauto.
  - destruct (proj2 (Cy i y)) as (a & Ha & Ma); [apply target_source; [exact Hc1|eauto]|]. destruct (proj2 (Cx j x)) as (b & Hb & Mb); [apply target_source; [exact Hc2|eauto]|].
    exists (rel2 (rel1 (zlen (indices by_)) cy) (rel1 (zlen (indices bx)) cx) [a; b]). split; [apply in_map; apply In_outer2; eauto|].
    cbn [rel2]. apply (proj1 (piece_moves _ _ _ _ _ (Fy a Ha))) in Ma. apply (proj1 (piece_moves _ _ _ _ _ (Fx b Hb))) in Mb. rewrite Ma, Mb. reflexivity.
Qed.

(* reverse *)
Lemma loop_rev_spec {A} (op : A -> A -> A) (im om : farr A) : f_ny im = cy -> f_nx im = cx -> f_ny om = zlen (indices by_) -> f_nx om = zlen (indices bx) ->
  exists pieces im', sbox_wrap [(by_, wy, cy); (bx, wx, cx)] = Some pieces /\ fold_left (ep_step op true) pieces (Some (im, om)) = Some (im', om) /\
   f_ny im' = f_ny im /\ f_nx im' = f_nx im /\
   (fits wy by_ -> fits wx bx ->
    (forall i j ky kx y x, zget (indices by_) i = Some ky -> zget (indices bx) j = Some kx -> source wy cy ky = Some y -> source wx cx kx = Some x -> f_at im' y x = op (f_at im y x) (f_at om i j)) /\
    (forall y x, (forall i j ky kx, zget (indices by_) i = Some ky -> zget (indices bx) j = Some kx -> source wy cy ky = Some y -> source wx cx kx = Some x -> False) -> f_at im' y x = f_at im y x)) /\
   ((forall i j ky kx y x, zget (indices by_) i = Some ky -> zget (indices bx) j = Some kx -> source wy cy ky = Some y -> source wx cx kx = Some x -> op (f_at im y x) (f_at om i j) = f_at im y x) ->
    forall y x, f_at im' y x = f_at im y x).
Proof.
  intros Ey Ex EY EX. destruct pieces_facts as (ly & lx & Hw & Fy & Fx & Cy & Cx & _ & _ & Vy & Vx). eexists. rewrite Hw.
  assert (HF : Forall (good_pair (f_ny om) (f_nx om) cy cx) (outer [ly; lx])).
  { apply Forall_forall. intros ps Hps. apply In_outer2 in Hps as (a & b & -> & Ha & Hb). rewrite Forall_forall in Fy, Fx. rewrite EY, EX. split; auto. }
  destruct (loop_rev op om _ _ _ HF im Ey Ex) as (im' & E & H1 & H2 & H3). exists im'. split; [reflexivity|]. split; [exact E|]. split; [congruence|]. split; [congruence|].
  rewrite EY, EX in H3. assert (Hc1 : 0 < cy) by apply Hy. assert (Hc2 : 0 < cx) by apply Hx. rewrite Forall_forall in Fy, Fx.
  set (Rs := map (rel2 (rel1r (zlen (indices by_)) cy) (rel1r (zlen (indices bx)) cx)) (outer [ly; lx])) in *.
  assert (Hsome : forall R y x i j, In R Rs -> R y x = Some (i, j) -> exists ky kx, zget (indices by_) i = Some ky /\ zget (indices bx) j = Some kx /\ source wy cy ky = Some y /\ source wx cx kx = Some x).
  { intros R y x i j HR HE. apply in_map_iff in HR as (ps & <- & Hps). apply In_outer2 in Hps as (a & b & -> & Ha & Hb). cbn [rel2] in HE. unfold pair2 in HE.
    destruct (rel1r _ _ a y) as [p|] eqn:E1; [|discriminate]. destruct (rel1r _ _ b x) as [q|] eqn:E2; [|discriminate]. injection HE as -> ->.
    apply (piece_moves _ _ _ i y (Fy a Ha)) in E1. apply (piece_moves _ _ _ j x (Fx b Hb)) in E2.
    assert (T1 : wrap_target by_ wy cy i y) by (apply Cy; eauto). assert (T2 : wrap_target bx wx cx j x) by (apply Cx; eauto).
    apply target_source in T1 as (k1 & G1 & G2); [|exact Hc1]. apply target_source in T2 as (k2 & G3 & G4); [|exact Hc2]. exists k1, k2. auto. }
  split.
  - intros Hfy Hfx. split.
    + intros i j ky kx y x Hi Hj Sy Sx. rewrite H3. apply upds_one.
      * apply FOP_map. pose proof (FOP_outer2 _ _ _ _ (Vy Hfy y) (Vx Hfx x)) as HO. revert HO. apply FOP_impl.
        intros p p' Hp Hp'. apply In_outer2 in Hp as (a & b & -> & Ha & Hb). apply In_outer2 in Hp' as (a' & b' & -> & Ha' & Hb'). cbn [rel2]. unfold pair2.
        intros HD.
        destruct (rel1r _ _ a y) as [p|] eqn:E1; [|now left]. destruct (rel1r _ _ b x) as [q|] eqn:E2; [|now left].
        destruct (rel1r _ _ a' y) as [p'|] eqn:E3; [|now right]. destruct (rel1r _ _ b' x) as [q'|] eqn:E4; [|now right]. exfalso.
        apply (piece_moves _ _ _ _ _ (Fy a Ha)) in E1. apply (piece_moves _ _ _ _ _ (Fx b Hb)) in E2. apply (piece_moves _ _ _ _ _ (Fy a' Ha')) in E3. apply (piece_moves _ _ _ _ _ (Fx b' Hb')) in E4.
        destruct HD as [HD|HD]; eapply HD; eauto.
      * destruct (proj2 (Cy i y)) as (a & Ha & Ma); [apply target_source; [exact Hc1|eauto]|]. destruct (proj2 (Cx j x)) as (b & Hb & Mb); [apply target_source; [exact Hc2|eauto]|].
        exists (rel2 (rel1r (zlen (indices by_)) cy) (rel1r (zlen (indices bx)) cx) [a; b]). split; [apply in_map; apply In_outer2; eauto|].
        cbn [rel2]. apply (piece_moves _ _ _ _ _ (Fy a Ha)) in Ma. apply (piece_moves _ _ _ _ _ (Fx b Hb)) in Mb. rewrite Ma, Mb. reflexivity.
    + intros y x Hno. rewrite H3. apply upds_none. intros R HR. destruct (R y x) as [[i j]|] eqn:ER; [|reflexivity]. exfalso.
      destruct (Hsome R y x i j HR ER) as (ky & kx & G1 & G2 & G3 & G4). eapply Hno; eauto.
  - intros Hsame y x. rewrite H3. apply upds_same. intros R a b i j HR ER. destruct (Hsome R a b i j HR ER) as (ky & kx & G1 & G2 & G3 & G4). eapply Hsame; eauto.
Qed.
End Both.
