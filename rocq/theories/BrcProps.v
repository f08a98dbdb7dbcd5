From Coq Require Import List Arith ZArith Bool Lia Permutation.
From Verif Require Import BrcSpec BrcModel.
Import ListNotations.
Ltac Zify.zify_post_hook ::= idtac.

Lemma nth_repeat1 n i : i < n -> nth i (repeat 1 n) 0 = 1.
Proof. revert i. induction n as [|n IH]; intros [|i] H; cbn; try lia. apply IH. lia. Qed.
Lemma nth_skipn' {T : Type} (d : T) k : forall l i, nth i (skipn k l) d = nth (k + i) l d.
Proof. induction k as [|k IH]; intros [|x l] i; cbn; try reflexivity; [now destruct i|apply IH]. Qed.
Lemma nth_firstn' {T : Type} (d : T) k : forall l i, i < k -> nth i (firstn k l) d = nth i l d.
Proof. induction k as [|k IH]; intros [|x l] [|i] H; cbn; try reflexivity; try lia. apply IH. lia. Qed.
Lemma place_cut at_ len : (- Z.of_nat len - 1 <= at_)%Z -> pycut (if (0 <=? at_)%Z then at_ else (Z.of_nat len + 1 + at_)%Z) len = Nat.min (place at_ len) len.
Proof. intros H. unfold pycut, place. destruct (Z.leb_spec 0 at_); destruct (Z.ltb_spec at_ 0); try lia. destruct (Z.ltb_spec (Z.of_nat len + 1 + at_) 0); lia. Qed.
Lemma padded_spec at_ ndim s : (- Z.of_nat (length s) - 1 <= at_)%Z -> length s <= ndim -> length (padded at_ ndim s) = ndim /\
  (place at_ (length s) <= length s -> forall i, i < ndim -> nth i (padded at_ ndim s) 0 = length_at at_ ndim s i).
Proof.
  intros P L. unfold padded. rewrite place_cut by exact P. set (k := Nat.min (place at_ (length s)) (length s)). assert (K : k <= length s) by (unfold k; lia).
  split; [rewrite !app_length, repeat_length, firstn_length, skipn_length; lia|]. intros PL i I. assert (k = place at_ (length s)) as KP by (unfold k; lia). unfold length_at. rewrite <- KP.
  destruct (Nat.ltb_spec i k) as [A|A].
  - rewrite app_nth1 by (rewrite firstn_length; lia). now apply nth_firstn'.
  - rewrite app_nth2; rewrite firstn_length; [|lia]. replace (Nat.min k (length s)) with k by lia. destruct (Nat.ltb_spec i (k + (ndim - length s))) as [B|B].
    + rewrite app_nth1 by (rewrite repeat_length; lia). apply nth_repeat1. lia.
    + rewrite app_nth2; rewrite repeat_length; [|lia]. rewrite nth_skipn'. f_equal. lia.
Qed.
(* one axis *)
Lemma merge_spec : forall o p r, length o = length p -> (merge o p = Some r <-> length r = length o /\ forall i, i < length o ->
  (nth i o 0 = 1 \/ nth i o 0 = nth i r 0) /\ (nth i p 0 = 1 \/ nth i p 0 = nth i r 0) /\ (nth i r 0 = nth i o 0 \/ nth i r 0 = nth i p 0)).
Proof.
  induction o as [|a o IH]; intros [|b p] r L; cbn in L; try discriminate.
  - cbn [merge length]. split; [intros E; injection E as <-; split; [reflexivity|intros; lia]|]. intros [E _]. destruct r; [reflexivity|discriminate].
  - cbn [merge length]. injection L as L. set (c := if negb (a =? b) && negb (b =? 1) then (if a =? 1 then Some b else None) else Some a).
    assert (CS : forall x, c = Some x <-> (a = 1 \/ a = x) /\ (b = 1 \/ b = x) /\ (x = a \/ x = b)).
    { intros x. unfold c. destruct (Nat.eqb_spec a b), (Nat.eqb_spec b 1), (Nat.eqb_spec a 1); cbn [negb andb]; split; intros H; try (injection H as <-); try discriminate; try (f_equal; lia); try (repeat split; lia); lia. }
    split.
    + destruct c as [x|] eqn:C; [|discriminate]. destruct (merge o p) as [rest|] eqn:M; [|discriminate]. intros E. injection E as <-. destruct (proj1 (IH p rest L) M) as [RL RN]. split; [cbn; now rewrite RL|].
      intros [|i] I; cbn [nth]; [apply CS; reflexivity|apply RN; lia].
    + intros [RL RN]. destruct r as [|x r]; [discriminate|]. injection RL as RL. pose proof (RN 0 ltac:(lia)) as R0. cbn [nth] in R0. apply CS in R0. rewrite R0.
      rewrite (proj2 (IH p r L)); [reflexivity|]. split; [exact RL|]. intros i I. exact (RN (S i) ltac:(lia)).
Qed.
Lemma merge_all_spec at_ ndim : forall shapes o r, length o = ndim -> (forall s, In s shapes -> length s <= ndim /\ placed at_ (length s)) ->
  (merge_all at_ ndim shapes o = Some r <-> length r = ndim /\ forall i, i < ndim -> (nth i o 0 = 1 \/ nth i o 0 = nth i r 0) /\
     (forall s, In s shapes -> length_at at_ ndim s i = 1 \/ length_at at_ ndim s i = nth i r 0) /\ (nth i r 0 = nth i o 0 \/ exists s, In s shapes /\ length_at at_ ndim s i = nth i r 0)).
Proof.
  induction shapes as [|s shapes IH]; intros o r L H; cbn [merge_all].
  - split.
    + intros E. injection E as <-. split; [exact L|]. intros i I. split; [now right|]. split; [intros s []|now left].
    + intros [RL RN]. f_equal. apply (nth_ext _ _ 0 0); [congruence|]. intros i I. destruct (RN i ltac:(lia)) as (_ & _ & [E|(s & [] & _)]). now symmetry.
  - destruct (H s (or_introl eq_refl)) as [SL SP]. destruct (padded_spec at_ ndim s ltac:(unfold placed in SP; lia) SL) as [PL PN]. specialize (PN ltac:(unfold place, placed in *; destruct (Z.ltb_spec at_ 0); lia)).
    assert (HS : forall s0, In s0 shapes -> length s0 <= ndim /\ placed at_ (length s0)) by (intros; apply H; now right). split.
    + destruct (merge o (padded at_ ndim s)) as [o'|] eqn:M; [|discriminate]. intros E. apply merge_spec in M; [|congruence]. destruct M as [ML MN]. apply IH in E; [|congruence|exact HS]. destruct E as [RL RN]. split; [exact RL|].
      intros i I. destruct (MN i ltac:(lia)) as (M1 & M2 & M3). rewrite PN in M2, M3 by exact I. destruct (RN i I) as (R1 & R2 & R3). split; [lia|]. split.
      * intros t [<-|T]; [lia|now apply R2].
      * destruct R3 as [R3|(t & T & R3)]; [|right; exists t; split; [now right|exact R3]]. destruct M3 as [M3|M3]; [left; lia|right; exists s; split; [now left|lia]].
    + intros [RL RN]. set (o' := map (fun i => if nth i o 0 =? 1 then length_at at_ ndim s i else nth i o 0) (seq 0 ndim)).
      assert (ON : forall i, i < ndim -> nth i o' 0 = if nth i o 0 =? 1 then length_at at_ ndim s i else nth i o 0).
      { intros i I. unfold o'. set (f := fun i => if nth i o 0 =? 1 then length_at at_ ndim s i else nth i o 0). rewrite (nth_indep _ 0 (f 0)) by (rewrite map_length, seq_length; exact I). rewrite (map_nth f). rewrite seq_nth by exact I. reflexivity. }
      assert (M : merge o (padded at_ ndim s) = Some o').
      { apply merge_spec; [congruence|]. split; [unfold o'; rewrite map_length, seq_length; congruence|]. intros i I. rewrite L in I. rewrite PN, ON by exact I. destruct (RN i I) as (R1 & R2 & _). specialize (R2 s (or_introl eq_refl)). destruct (Nat.eqb_spec (nth i o 0) 1); repeat split; lia. }
      rewrite M. apply IH; [unfold o'; rewrite map_length, seq_length; reflexivity|exact HS|]. split; [exact RL|]. intros i I. rewrite ON by exact I. destruct (RN i I) as (R1 & R2 & R3). pose proof (R2 s (or_introl eq_refl)) as R2s. split; [destruct (Nat.eqb_spec (nth i o 0) 1); lia|]. split; [intros t T; apply R2; now right|].
      destruct R3 as [R3|(t & [<-|T] & R3)].
      * left. destruct (Nat.eqb_spec (nth i o 0) 1); [|lia]. lia.
      * left. destruct (Nat.eqb_spec (nth i o 0) 1); lia.
      * destruct (Nat.eq_dec (nth i r 0) (if nth i o 0 =? 1 then length_at at_ ndim s i else nth i o 0)); [now left|right; exists t; split; assumption].
Qed.
Lemma most_le shapes s : In s shapes -> length s <= most shapes.
Proof. induction shapes as [|t shapes IH]; intros []; cbn [most fold_right]; [subst; lia|]. specialize (IH H). unfold most in IH. lia. Qed.
Lemma nth_repeat_1 n i : i < n -> nth i (repeat 1 n) 0 = 1. Proof. apply nth_repeat1. Qed.

(* C135 the shape that the shapes have in common; no answer exactly if there is none *)
Theorem C135_shape at_ shapes o : shapes <> [] -> (forall s, In s shapes -> placed at_ (length s)) -> (broadcast_shape at_ shapes = Some o <-> common at_ shapes o).
Proof.
  intros N P. unfold broadcast_shape. destruct shapes as [|s0 shapes0] eqn:E; [contradiction|]. rewrite <- E in *. change (fold_right (fun s m => Nat.max (length s) m) 0 shapes) with (most shapes).
  rewrite merge_all_spec; [|apply repeat_length|intros s S; split; [now apply most_le|now apply P]]. unfold common. split; intros [L H]; (split; [exact L|]); intros i I; specialize (H i I); rewrite nth_repeat1 in * by exact I.
  - destruct H as (_ & A & B). split; assumption.
  - destruct H as (A & B). split; [now left|]. split; assumption.
Qed.
Print Assumptions C135_shape.
Lemma common_unique at_ shapes o o' : common at_ shapes o -> common at_ shapes o' -> o = o'.
Proof.
  intros [L H] [L' H']. apply (nth_ext _ _ 0 0); [congruence|]. intros i I. rewrite L in I. destruct (H i I) as [A B]. destruct (H' i I) as [A' B']. 
  destruct B as [B|(s & S & B)], B' as [B'|(s' & S' & B')]; [lia| | |].
  - destruct (A s' S'); lia.
  - destruct (A' s S); lia.
  - destruct (A s' S'), (A' s S); lia.
Qed.
(* the order of the shapes does not matter *)
Theorem C135_order at_ shapes shapes' : Permutation shapes shapes' -> (forall s, In s shapes -> placed at_ (length s)) -> broadcast_shape at_ shapes = broadcast_shape at_ shapes'.
Proof.
  intros P H. destruct shapes as [|s l]; [apply Permutation_nil in P; now subst|]. assert (N : s :: l <> []) by discriminate. assert (N' : shapes' <> []) by (intros ->; apply Permutation_sym, Permutation_nil in P; discriminate).
  assert (H' : forall t, In t shapes' -> placed at_ (length t)) by (intros t T; apply H; apply (Permutation_in _ (Permutation_sym P)), T).
  set (S := s :: l) in *. assert (M : most S = most shapes'). { clear -P. induction P; cbn [most fold_right] in *; unfold most in *; lia. }
  assert (C : forall o, common at_ S o <-> common at_ shapes' o).
  { intros o. unfold common. rewrite M. split; intros [L Q]; (split; [exact L|]); intros i I; destruct (Q i I) as [A B]; (split; [intros t T; apply A|destruct B as [B|(t & T & B)]; [now left|right; exists t; split; [|exact B]]]).
    - exact (Permutation_in _ (Permutation_sym P) T).
    - exact (Permutation_in _ P T).
    - exact (Permutation_in _ P T).
    - exact (Permutation_in _ (Permutation_sym P) T). }
  destruct (broadcast_shape at_ S) as [o|] eqn:E.
  - symmetry. apply C135_shape; [exact N'|exact H'|]. apply C. now apply (C135_shape at_ S o N H).
  - destruct (broadcast_shape at_ shapes') as [o|] eqn:E'; [|reflexivity]. exfalso. apply (C135_shape at_ shapes' o N' H') in E'. apply C in E'. apply (C135_shape at_ S o N H) in E'. congruence.
Qed.
Print Assumptions C135_order.

Section Arrays.
Context {T : Type}.
Implicit Types a b : array T.
Lemma stretch_nth : forall s o, stretch s o = true <-> length s = length o /\ forall i, i < length s -> nth i s 0 = 1 \/ nth i s 0 = nth i o 0.
Proof.
  induction s as [|x s IH]; intros [|y o]; cbn [stretch length].
  - split; [intros; split; [reflexivity|intros; lia]|reflexivity].
  - split; [discriminate|intros [E _]; discriminate].
  - split; [discriminate|intros [E _]; discriminate].
  - rewrite andb_true_iff, orb_true_iff, !Nat.eqb_eq, IH. split.
    + intros [A [L B]]. split; [now rewrite L|]. intros [|i] I; cbn [nth]; [exact A|apply B; lia].
    + intros [L B]. injection L as L. split; [exact (B 0 ltac:(lia))|]. split; [exact L|]. intros i I. exact (B (S i) ltac:(lia)).
Qed.
Lemma at_one_app s1 : forall s2 i1 i2, length s1 = length i1 -> at_one (s1 ++ s2) (i1 ++ i2) = at_one s1 i1 ++ at_one s2 i2.
Proof. induction s1 as [|x s1 IH]; intros s2 [|y i1] i2 L; cbn in L; try discriminate; [reflexivity|]. cbn. now rewrite IH by congruence. Qed.
Lemma at_one_len s : forall i, length i = length s -> length (at_one s i) = length s.
Proof. induction s as [|x s IH]; intros [|y i] L; cbn in *; try lia. rewrite IH; lia. Qed.
Lemma at_one_nth s : forall i j, length i = length s -> j < length s -> nth j (at_one s i) 0 = if nth j s 0 =? 1 then 0 else nth j i 0.
Proof. induction s as [|x s IH]; intros [|y i] [|j] L J; cbn [length] in *; try (exfalso; lia); cbn [at_one nth]; [reflexivity|]. apply IH; lia. Qed.
(* axes that are exempt are left alone, except that indices along axes of length 1 can only be 0 *)
Lemma at_one_within s : forall i, Forall2 lt i s -> at_one s i = i.
Proof. induction s as [|x s IH]; intros i F; inversion F; subst; cbn; [reflexivity|]. rewrite IH by assumption. destruct (Nat.eqb_spec x 1); [f_equal; lia|reflexivity]. Qed.

Lemma within_len (i s : list nat) : Forall2 lt i s -> length i = length s.
Proof. induction 1; cbn; congruence. Qed.

(* every array is given the common shape between its exempt axes, and shows at every index the element of the array that belongs there *)
Theorem C135_arrays at_ args r : (forall n m a, In (Some ((n, m), a)) args -> n + m <= length (shape a) /\ placed at_ (length (shape a) - n - m)) ->
  broadcast_arrays at_ args = Some r -> exists o, common at_ (wshapes args) o /\ length r = length args /\
  forall p, p < length args -> match nth p args None, nth p r None with
    | None, None => True
    | Some ((n, m), a), Some b => let pre := firstn n (shape a) in let work := wshape n m a in let post := skipn (length (shape a) - m) (shape a) in
        shape b = pre ++ o ++ post /\ forall i idx j, Forall2 lt i pre -> length idx = length o -> Forall2 lt j post -> value b (i ++ idx ++ j) = value a (i ++ seen at_ work idx ++ j)
    | _, _ => False
    end.
Proof.
  intros P H. unfold broadcast_arrays in H. destruct (broadcast_shape at_ (wshapes args)) as [o|] eqn:E; [|discriminate].
  assert (WP : forall s, In s (wshapes args) -> placed at_ (length s)).
  { clear -P. intros s S. induction args as [|[[[n m] a]|] args IH]; cbn in S; [contradiction| |apply IH; [intros; apply P; now right|exact S]]. destruct S as [<-|S]; [|apply IH; [intros; apply P; now right|exact S]]. destruct (P n m a (or_introl eq_refl)) as [L Q]. unfold wshape. rewrite firstn_length, skipn_length. replace (Nat.min _ _) with (length (shape a) - n - m) by lia. exact Q. }
  assert (NE : wshapes args <> []) by (intros Q; rewrite Q in E; discriminate).
  apply C135_shape in E; [|exact NE|exact WP]. exists o. split; [exact E|].
  assert (ONE : forall n m a b, In (Some ((n, m), a)) args -> broadcast_one at_ o n m a = Some b ->
     let pre := firstn n (shape a) in let work := wshape n m a in let post := skipn (length (shape a) - m) (shape a) in
        shape b = pre ++ o ++ post /\ forall i idx j, Forall2 lt i pre -> length idx = length o -> Forall2 lt j post -> value b (i ++ idx ++ j) = value a (i ++ seen at_ work idx ++ j)).
  { intros n m a b IN Hb. cbn zeta. destruct (P n m a IN) as [L Q]. assert (IW : In (wshape n m a) (wshapes args)).
    { clear -IN. induction args as [|[[[n' m'] a']|] args IH]; [contradiction| |]; cbn [wshapes]; destruct IN as [IN|IN]; try discriminate; [injection IN as -> -> ->; now left|right; now apply IH|now apply IH]. }
    set (pre := firstn n (shape a)). set (work := wshape n m a) in *. set (post := skipn (length (shape a) - m) (shape a)).
    assert (LW : length work = length (shape a) - n - m) by (unfold work, wshape; rewrite firstn_length, skipn_length; lia).
    assert (LP : length pre = n) by (unfold pre; rewrite firstn_length; lia). assert (LQ : length post = m) by (unfold post; rewrite skipn_length; lia).
    assert (SH : shape a = pre ++ work ++ post). { unfold pre, work, post, wshape. rewrite <- (firstn_skipn n (shape a)) at 1. f_equal. rewrite <- (firstn_skipn (length (shape a) - n - m) (skipn n (shape a))) at 1. f_equal. clear -L. assert (X : forall x y (l : list nat), skipn x (skipn y l) = skipn (y + x) l) by (intros x y; induction y as [|y IHy]; intros [|z l]; cbn; try reflexivity; [now rewrite skipn_nil|apply IHy]). rewrite X. f_equal. lia. }
    assert (LO : length work <= length o). { destruct E as [EL _]. rewrite EL. now apply most_le. }
    set (k := place at_ (length work)). assert (K : k <= length work) by (unfold k, place, placed in *; rewrite LW; destruct (Z.ltb_spec at_ 0); lia).
    unfold broadcast_one in Hb. set (my_at := if (0 <=? at_)%Z then (Z.of_nat n + at_)%Z else (Z.of_nat (length (shape a)) + 1 + at_ - Z.of_nat m)%Z) in Hb.
    assert (MA : my_at = Z.of_nat (n + k)). { unfold my_at, k, place, placed in *. rewrite LW. destruct (Z.leb_spec 0 at_), (Z.ltb_spec at_ 0); lia. }
    destruct (Z.ltb_spec (Z.of_nat (length (shape a))) my_at); [discriminate|]. rewrite MA, Nat2Z.id in Hb. fold pre in Hb. fold post in Hb.
    set (g := length o - (length (shape a) - n - m)) in Hb. assert (G : g = length o - length work) by (unfold g; lia).
    unfold broadcast_to in Hb. destruct (stretch _ _) eqn:ST; [|discriminate]. injection Hb as <-. cbn [shape value]. split; [reflexivity|].
    intros i idx j FI LI FJ. assert (LIp : length i = n) by (apply within_len in FI; congruence). assert (LJp : length j = m) by (apply within_len in FJ; congruence).
    cbn [newaxes value shape].
    assert (FS : firstn (n + k) (shape a) = pre ++ firstn k work). { rewrite SH. rewrite <- LP. rewrite firstn_app_2. f_equal. rewrite firstn_app. replace (k - length work) with 0 by lia. rewrite firstn_O, app_nil_r. reflexivity. }
    assert (SK : skipn (n + k) (shape a) = skipn k work ++ post). { rewrite SH. rewrite skipn_app. rewrite (skipn_all2 pre) by lia. rewrite LP. replace (n + k - n) with k by lia. cbn [app]. rewrite skipn_app. replace (k - length work) with 0 by lia. reflexivity. }
    rewrite FS, SK.
    set (mid := firstn k work ++ repeat 1 g ++ skipn k work).
    replace ((pre ++ firstn k work) ++ repeat 1 g ++ skipn k work ++ post) with (pre ++ mid ++ post) by (unfold mid; rewrite <- !app_assoc; reflexivity).
    assert (LM : length mid = length o) by (unfold mid; rewrite !app_length, repeat_length, firstn_length, skipn_length; lia).
    rewrite !at_one_app by congruence. rewrite (at_one_within pre i FI), (at_one_within post j FJ).
    f_equal. set (y := at_one mid idx). assert (LY : length y = length o) by (unfold y; rewrite at_one_len; congruence).
    replace (firstn (n + k) (i ++ y ++ j)) with (i ++ firstn k y).
    2:{ rewrite <- LIp. rewrite firstn_app_2. f_equal. rewrite firstn_app. replace (k - length y) with 0 by lia. rewrite firstn_O, app_nil_r. reflexivity. }
    replace (skipn (n + k + g) (i ++ y ++ j)) with (skipn (k + g) y ++ j).
    2:{ rewrite skipn_app. rewrite (skipn_all2 i) by lia. rewrite LIp. replace (n + k + g - n) with (k + g) by lia. cbn [app]. rewrite skipn_app. replace (k + g - length y) with 0 by lia. reflexivity. }
    rewrite <- app_assoc. f_equal. rewrite app_assoc. f_equal.
    apply (nth_ext _ _ 0 0).
    - rewrite app_length, firstn_length, skipn_length. unfold seen. rewrite map_length, seq_length. lia.
    - intros q QL. rewrite app_length, firstn_length, skipn_length in QL. assert (QW : q < length work) by lia. unfold seen. fold k. set (f := fun j0 => if nth j0 work 0 =? 1 then 0 else nth (if j0 <? k then j0 else j0 + (length idx - length work)) idx 0).
      rewrite (nth_indep (map f _) 0 (f 0)) by (rewrite map_length, seq_length; exact QW). rewrite (map_nth f), seq_nth by exact QW. cbn [Nat.add]. unfold f.
      assert (MN : forall x, x < length o -> nth x mid 0 = if x <? k then nth x work 0 else if x <? k + g then 1 else nth (x - g) work 0).
      { intros x X. unfold mid. destruct (Nat.ltb_spec x k); [rewrite app_nth1 by (rewrite firstn_length; lia); now apply nth_firstn'|]. rewrite app_nth2; rewrite firstn_length; [|lia]. replace (Nat.min k (length work)) with k by lia. destruct (Nat.ltb_spec x (k + g)); [rewrite app_nth1 by (rewrite repeat_length; lia); apply nth_repeat1; lia|]. rewrite app_nth2; rewrite repeat_length; [|lia]. rewrite nth_skipn'. f_equal. lia. }
      destruct (Nat.ltb_spec q k) as [A|A].
      + rewrite app_nth1 by (rewrite firstn_length; lia). rewrite nth_firstn' by exact A. unfold y. rewrite at_one_nth by lia. rewrite MN by lia. destruct (Nat.ltb_spec q k); [reflexivity|lia].
      + rewrite app_nth2; rewrite firstn_length; [|lia]. rewrite nth_skipn'. replace (k + g + (q - Nat.min k (length y))) with (q + g) by lia. unfold y. rewrite at_one_nth by lia. rewrite MN by lia. destruct (Nat.ltb_spec (q + g) k); [lia|]. destruct (Nat.ltb_spec (q + g) (k + g)); [lia|]. replace (q + g - g) with q by lia. replace (length idx - length work) with g by lia. reflexivity. }
  clear E NE WP. revert r H. assert (SUB : forall n m a b, In (Some ((n, m), a)) args -> broadcast_one at_ o n m a = Some b -> _) by exact ONE. clear ONE P. revert SUB.
  induction args as [|[[[n m] a]|] args IH]; intros SUB r H; cbn [broadcast_each] in H.
  - injection H as <-. split; [reflexivity|intros; cbn in *; lia].
  - destruct (broadcast_one at_ o n m a) as [b|] eqn:Q; [|discriminate]. destruct (broadcast_each at_ o args) as [r'|]; [|discriminate]. injection H as <-. destruct (IH ltac:(intros; eapply SUB; [right; eassumption|assumption]) r' eq_refl) as [L N]. split; [cbn; congruence|]. intros [|p] X; cbn [nth].
    + exact (SUB n m a b (or_introl eq_refl) Q).
    + apply N. cbn in X. lia.
  - destruct (broadcast_each at_ o args) as [r'|]; [|discriminate]. injection H as <-. destruct (IH ltac:(intros; eapply SUB; [right; eassumption|assumption]) r' eq_refl) as [L N]. split; [cbn; congruence|]. intros [|p] X; cbn [nth]; [exact I|apply N; cbn in X; lia].
Qed.
(* and there is a result if the shapes have one *)
Theorem C135_total at_ (args : list (arg (T:=T))) o : (forall n m a, In (Some ((n, m), a)) args -> n + m <= length (shape a) /\ placed at_ (length (shape a) - n - m)) ->
  wshapes args <> [] -> common at_ (wshapes args) o -> broadcast_arrays at_ args <> None.
Proof.
  intros P NE C. assert (WP : forall s, In s (wshapes args) -> placed at_ (length s)).
  { clear -P. intros s S. induction args as [|[[[n m] a]|] args IH]; cbn in S; [contradiction| |apply IH; [intros; apply P; now right|exact S]]. destruct S as [<-|S]; [|apply IH; [intros; apply P; now right|exact S]]. destruct (P n m a (or_introl eq_refl)) as [L Q]. unfold wshape. rewrite firstn_length, skipn_length. replace (Nat.min _ _) with (length (shape a) - n - m) by lia. exact Q. }
  unfold broadcast_arrays. rewrite (proj2 (C135_shape at_ (wshapes args) o NE WP) C).
  assert (ONE : forall n m a, In (Some ((n, m), a)) args -> broadcast_one at_ o n m a <> None).
  { intros n m a IN. destruct (P n m a IN) as [L Q]. assert (IW : In (wshape n m a) (wshapes args)).
    { clear -IN. induction args as [|[[[n' m'] a']|] args IH]; [contradiction| |]; cbn [wshapes]; destruct IN as [IN|IN]; try discriminate; [injection IN as -> -> ->; now left|right; now apply IH|now apply IH]. }
    set (pre := firstn n (shape a)). set (work := wshape n m a) in *. set (post := skipn (length (shape a) - m) (shape a)).
    assert (LW : length work = length (shape a) - n - m) by (unfold work, wshape; rewrite firstn_length, skipn_length; lia).
    assert (LP : length pre = n) by (unfold pre; rewrite firstn_length; lia). assert (LQ : length post = m) by (unfold post; rewrite skipn_length; lia).
    assert (SH : shape a = pre ++ work ++ post). { unfold pre, work, post, wshape. rewrite <- (firstn_skipn n (shape a)) at 1. f_equal. rewrite <- (firstn_skipn (length (shape a) - n - m) (skipn n (shape a))) at 1. f_equal. clear -L. assert (X : forall x y (l : list nat), skipn x (skipn y l) = skipn (y + x) l) by (intros x y; induction y as [|y IHy]; intros [|z l]; cbn; try reflexivity; [now rewrite skipn_nil|apply IHy]). rewrite X. f_equal. lia. }
    destruct C as [CL CN]. assert (LO : length work <= length o) by (rewrite CL; now apply most_le).
    set (k := place at_ (length work)). assert (K : k <= length work) by (unfold k, place, placed in *; rewrite LW; destruct (Z.ltb_spec at_ 0); lia).
    unfold broadcast_one. set (my_at := if (0 <=? at_)%Z then (Z.of_nat n + at_)%Z else (Z.of_nat (length (shape a)) + 1 + at_ - Z.of_nat m)%Z).
    assert (MA : my_at = Z.of_nat (n + k)). { unfold my_at, k, place, placed in *. rewrite LW. destruct (Z.leb_spec 0 at_), (Z.ltb_spec at_ 0); lia. }
    destruct (Z.ltb_spec (Z.of_nat (length (shape a))) my_at); [lia|]. rewrite MA, Nat2Z.id. fold pre post. set (g := length o - (length (shape a) - n - m)).
    assert (FS : firstn (n + k) (shape a) = pre ++ firstn k work). { rewrite SH. rewrite <- LP. rewrite firstn_app_2. f_equal. rewrite firstn_app. replace (k - length work) with 0 by lia. rewrite firstn_O, app_nil_r. reflexivity. }
    assert (SK : skipn (n + k) (shape a) = skipn k work ++ post). { rewrite SH. rewrite skipn_app. rewrite (skipn_all2 pre) by lia. rewrite LP. replace (n + k - n) with k by lia. cbn [app]. rewrite skipn_app. replace (k - length work) with 0 by lia. reflexivity. }
    unfold broadcast_to. cbn [newaxes shape]. rewrite FS, SK. replace ((pre ++ firstn k work) ++ repeat 1 g ++ skipn k work ++ post) with (pre ++ (firstn k work ++ repeat 1 g ++ skipn k work) ++ post) by (rewrite <- !app_assoc; reflexivity).
    set (mid := firstn k work ++ repeat 1 g ++ skipn k work). assert (LM : length mid = length o) by (unfold mid, g; rewrite !app_length, repeat_length, firstn_length, skipn_length; lia).
    replace (stretch (pre ++ mid ++ post) (pre ++ o ++ post)) with true; [discriminate|]. symmetry.
    assert (ID : forall l, stretch l l = true) by (induction l; cbn; [reflexivity|now rewrite Nat.eqb_refl, orb_true_r, IHl]).
    assert (AP : forall s1 o1 s2 o2, length s1 = length o1 -> stretch (s1 ++ s2) (o1 ++ o2) = stretch s1 o1 && stretch s2 o2).
    { clear. induction s1 as [|x s1 IH]; intros [|y o1] s2 o2 L; cbn in L; try discriminate; [reflexivity|]. cbn. rewrite IH by congruence. now rewrite andb_assoc. }
    rewrite AP by reflexivity. rewrite AP by exact LM. rewrite !ID, andb_true_r. cbn [andb]. apply stretch_nth. split; [exact LM|]. intros i I. rewrite LM, CL in I. destruct (CN i I) as [A _]. specialize (A work IW). unfold length_at in A. fold k in A. rewrite <- CL in A, I.
    assert (MN : nth i mid 0 = if i <? k then nth i work 0 else if i <? k + (length o - length work) then 1 else nth (i - (length o - length work)) work 0).
    { unfold mid, g. rewrite <- LW. destruct (Nat.ltb_spec i k); [rewrite app_nth1 by (rewrite firstn_length; lia); now apply nth_firstn'|]. rewrite app_nth2; rewrite firstn_length; [|lia]. replace (Nat.min k (length work)) with k by lia. destruct (Nat.ltb_spec i (k + (length o - length work))); [rewrite app_nth1 by (rewrite repeat_length; lia); apply nth_repeat1; lia|]. rewrite app_nth2; rewrite repeat_length; [|lia]. rewrite nth_skipn'. f_equal. lia. }
    rewrite MN. exact A. }
  clear -ONE. induction args as [|[[[n m] a]|] args IH]; cbn [broadcast_each]; [discriminate| |].
  - destruct (broadcast_one at_ o n m a) eqn:Q; [|now elim (ONE n m a (or_introl eq_refl))]. destruct (broadcast_each at_ o args); [discriminate|]. apply IH. intros; apply ONE. now right.
  - destruct (broadcast_each at_ o args); [discriminate|]. apply IH. intros; apply ONE. now right.
Qed.
End Arrays.
Print Assumptions C135_arrays.
Print Assumptions C135_total.
(* at beyond the axes of an array: broadcast_shape gives an answer, broadcast_arrays raises *)
Theorem C135_beyond_refuted : exists (args : list (arg (T:=nat))) at_, broadcast_shape at_ (wshapes args) <> None /\ broadcast_arrays at_ args = None.
Proof. exists [Some ((0, 0), Arr [] (fun _ => 5)); Some ((0, 0), Arr [3] (fun _ => 7))], 1%Z. split; [discriminate|reflexivity]. Qed.
Print Assumptions C135_beyond_refuted.
Example C135_ex : broadcast_shape 0 [[3]; [4; 1]; []] = Some [4; 3] /\ broadcast_shape (-1) [[3]; [1; 4]] = Some [3; 4] /\ broadcast_shape 0 [[3]; [4]] = None.
Proof. repeat split. Qed.
Example C135_ex_hyps : placed (-1) 1 /\ placed 1 2 /\ common 0 [[3]; [4; 1]] [4; 3].
Proof. split; [unfold placed; lia|]. split; [unfold placed; lia|]. apply C135_shape; [discriminate|intros s [<-|[<-|[]]]; unfold placed; cbn; lia|reflexivity]. Qed.
