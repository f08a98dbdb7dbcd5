From Coq Require Import List Arith ZArith Reals Bool Lia Lra Permutation Sorted.
From Verif Require Import BrcSpec RsaSpec RsaModel.
Import ListNotations.
Open Scope nat_scope.
Ltac Zify.zify_post_hook ::= idtac.

Lemma update_length {T : Type} (x : T) : forall l k, length (update k x l) = length l.
Proof. induction l as [|y l IH]; intros [|k]; cbn; try reflexivity. now rewrite IH. Qed.
Lemma update_nth {T : Type} (x d : T) : forall l k j, nth j (update k x l) d = if (j =? k) && (k <? length l) then x else nth j l d.
Proof.
  induction l as [|y l IH]; intros [|k] [|j]; cbn [update nth length]; try reflexivity.
  - now rewrite andb_false_r.
  - rewrite IH. reflexivity.
Qed.
Lemma assign_length : forall axes sizes o, length (assign axes sizes o) = length o.
Proof. induction axes as [|a axes IH]; intros [|s sizes] o; cbn; try reflexivity. rewrite IH. apply update_length. Qed.
Lemma assign_other : forall axes sizes o k, ~ In k axes -> nth k (assign axes sizes o) 0 = nth k o 0.
Proof. induction axes as [|a axes IH]; intros [|s sizes] o k H; cbn [assign]; try reflexivity. rewrite IH by (intros X; apply H; now right). rewrite update_nth. destruct (Nat.eqb_spec k a); [exfalso; apply H; now left|reflexivity]. Qed.
Lemma assign_last : forall axes sizes o p k, length axes = length sizes -> p < length axes -> nth p axes 0 = k -> k < length o -> (forall q, p < q < length axes -> nth q axes 0 <> k) -> nth k (assign axes sizes o) 0 = nth p sizes 0.
Proof.
  induction axes as [|a axes IH]; intros [|s sizes] o p k L P E K N; cbn in L, P; try lia. cbn [assign]. destruct p as [|p].
  - cbn in E. subst a. rewrite assign_other.
    + rewrite update_nth, Nat.eqb_refl. destruct (Nat.ltb_spec k (length o)); [reflexivity|lia].
    + intros X. apply (In_nth _ _ 0) in X. destruct X as (q & Q & X). apply (N (S q)); [cbn; lia|exact X].
  - cbn [nth] in *. apply IH; [lia|lia|exact E|rewrite update_length; exact K|]. intros q Q. apply (N (S q)). cbn. lia.
Qed.
Lemma within_iff : forall idx s, within idx s = true <-> inside idx s.
Proof.
  unfold inside. induction idx as [|i idx IH]; intros [|n s]; cbn [within]; split; intros H; try discriminate; try (inversion H; fail); try constructor.
  - apply andb_true_iff in H. destruct H as [H _]. now apply Nat.ltb_lt.
  - apply andb_true_iff in H. destruct H as [_ H]. now apply IH.
  - inversion H; subst. apply andb_true_iff. split; [now apply Nat.ltb_lt|now apply IH].
Qed.
Lemma inside_min : forall idx s o, inside idx o -> length s = length o -> (inside idx (map (fun p => Nat.min (fst p) (snd p)) (combine s o)) <-> inside idx s).
Proof.
  unfold inside. induction idx as [|i idx IH]; intros [|a s] [|b o] H L; cbn in L; try discriminate; inversion H; subst; cbn [combine map fst snd]; [reflexivity|]. split; intros X; inversion X; subst; constructor; try lia; (apply (IH s o); [assumption|lia|assumption]).
Qed.
Lemma axis_mod ndim a k : is_axis ndim a k <-> 0 < ndim /\ Z.to_nat (a mod Z.of_nat ndim) = k.
Proof.
  split.
  - intros [K [q E]]. split; [lia|]. rewrite E, Z.add_comm, Z.mod_add by lia. rewrite Z.mod_small by lia. lia.
  - intros [N E]. pose proof (Z.mod_pos_bound a (Z.of_nat ndim) ltac:(lia)). split; [lia|]. exists (a / Z.of_nat ndim)%Z. rewrite <- E, Z2Nat.id by lia. pose proof (Z.div_mod a (Z.of_nat ndim)). lia.
Qed.
Section Resize.
Context {T : Type}.
Implicit Types arr res : array T.
(* C139 sizes for some axes: those axes get their sizes, the last one counting, and the others keep their lengths *)
Theorem C139_shape arr size axes val res : resize_array arr size (Some axes) val = Some res ->
  length (shape res) = length (shape arr) /\
  (forall k, (forall a, In a axes -> ~ is_axis (length (shape arr)) a k) -> nth k (shape res) 0 = nth k (shape arr) 0) /\
  (forall k p, p < length axes -> is_axis (length (shape arr)) (nth p axes 0%Z) k -> (forall q, p < q < length axes -> ~ is_axis (length (shape arr)) (nth q axes 0%Z) k) ->
     nth k (shape res) 0 = nth (if length size =? 1 then 0 else p) size 0).
Proof.
  unfold resize_array. set (n := length (shape arr)). set (f := fun a => Z.to_nat (a mod Z.of_nat n)). destruct ((n =? 0) || (length axes =? 0)) eqn:Z0; [discriminate|]. apply orb_false_iff in Z0. destruct Z0 as [N0 A0]. apply Nat.eqb_neq in N0, A0. rewrite map_length.
  set (sz := if length size =? 1 then _ else _). intros H.
  assert (SZ : exists sizes, sz = Some sizes /\ length sizes = length axes /\ forall p, p < length axes -> nth p sizes 0 = nth (if length size =? 1 then 0 else p) size 0).
  { unfold sz in *. destruct (Nat.eqb_spec (length size) 1) as [E|E].
    - exists (repeat (hd 0 size) (length axes)). split; [reflexivity|]. split; [apply repeat_length|]. intros p P. destruct size as [|s [|]]; cbn in E; try lia. cbn. clear -P. revert p P. induction (length axes) as [|m IH]; intros [|p] P; cbn; try lia. apply IH. lia.
    - destruct (Nat.eqb_spec (length size) (length axes)) as [F|F]; [|discriminate]. exists size. split; [reflexivity|]. split; [exact F|]. reflexivity. }
  destruct SZ as (sizes & ES & LS & NS). rewrite ES in H. injection H as <-. cbn [shape]. split; [apply assign_length|]. split.
  - intros k K. apply assign_other. intros X. apply in_map_iff in X. destruct X as (a & E & A). apply (K a A). apply axis_mod. split; [lia|exact E].
  - intros k p P IA NQ. rewrite <- (NS p P).
    assert (NM : forall q, q < length axes -> nth q (map f axes) 0 = f (nth q axes 0%Z)). { intros q Q. rewrite (nth_indep _ 0 (f 0%Z)) by (rewrite map_length; exact Q). apply map_nth. }
    apply assign_last.
    + rewrite map_length. now symmetry.
    + rewrite map_length. exact P.
    + rewrite NM by exact P. apply axis_mod in IA. apply IA.
    + apply IA.
    + rewrite map_length. intros q Q. rewrite NM by lia. intros E. apply (NQ q Q). apply axis_mod. split; [lia|exact E].
Qed.
(* without axes the sizes are those of the first axes *)
Theorem C139_first arr size val : resize_array arr size None val = resize_array arr size (Some (map Z.of_nat (seq 0 (length size)))) val.
Proof. reflexivity. Qed.
(* old elements where there were any, the given value elsewhere *)
Theorem C139_values arr size axis val res : resize_array arr size axis val = Some res -> forall idx, inside idx (shape res) ->
  (inside idx (shape arr) -> value res idx = value arr idx) /\ (~ inside idx (shape arr) -> value res idx = val).
Proof.
  unfold resize_array. cbv zeta. destruct (_ || _); [discriminate|]. match goal with |- context [match ?s with Some _ => _ | None => None end] => destruct s as [sizes|]; [|discriminate] end. intros H. injection H as <-. cbn [shape value]. set (o := assign _ _ _). intros idx I.
  assert (L : length (shape arr) = length o) by (unfold o; now rewrite assign_length). pose proof (inside_min idx (shape arr) o I L) as M. split; intros J.
  - apply M in J. apply within_iff in J. now rewrite J.
  - destruct (within idx _) eqn:W; [|reflexivity]. exfalso. apply J, M. now apply within_iff.
Qed.
Lemma inside_le idx : forall s o : list nat, inside idx s -> length s = length o -> (forall k, k < length s -> nth k s 0 <= nth k o 0) -> inside idx o.
Proof.
  unfold inside. induction idx as [|i idx IH]; intros [|a s] [|b o] H L M; cbn in L; try discriminate; inversion H; subst; constructor.
  - specialize (M 0 ltac:(cbn; lia)). cbn in M. lia.
  - apply (IH s); [assumption|lia|]. intros k K. apply (M (S k)). cbn. lia.
Qed.
(* enlarging and cutting back gives the array back *)
Theorem C139_back arr size axis val size' axis' val' big res : resize_array arr size axis val = Some big -> resize_array big size' axis' val' = Some res ->
  (forall k, k < length (shape arr) -> nth k (shape arr) 0 <= nth k (shape big) 0) -> shape res = shape arr -> forall idx, inside idx (shape arr) -> value res idx = value arr idx.
Proof.
  intros B R LE E idx I. assert (LB : length (shape big) = length (shape arr)). { destruct axis as [l|]; [|rewrite C139_first in B]; apply C139_shape in B; apply B. }
  assert (IB : inside idx (shape big)) by (apply (inside_le idx (shape arr)); [exact I|now symmetry|exact LE]).
  rewrite (proj1 (C139_values big _ _ _ _ R idx ltac:(rewrite E; exact I)) IB). apply (C139_values arr _ _ _ _ B idx IB). exact I.
Qed.
End Resize.
Print Assumptions C139_shape. Print Assumptions C139_first. Print Assumptions C139_values. Print Assumptions C139_back.
(* more sizes than axes are not refused: they go round, and the last one wins *)
Theorem C139_excess_refuted : exists (arr res : array nat) size, length (shape arr) < length size /\ resize_array arr size None 0 = Some res /\ shape res = [4].
Proof. exists (Arr [2] (fun _ => 5)). eexists. exists [3; 4]. split; [cbn; lia|]. split; [reflexivity|reflexivity]. Qed.
Print Assumptions C139_excess_refuted.
Example C139_ex : exists res, resize_array (Arr [2; 3] (fun idx => nth 0 idx 0 * 10 + nth 1 idx 0)) [4] (Some [(-1)%Z]) 7 = Some res /\ shape res = [2; 4] /\ value res [1; 2] = 12 /\ value res [1; 3] = 7.
Proof. eexists. split; [reflexivity|]. repeat split. Qed.
Example C139_ex_hyps : is_axis 2 (-1) 1 /\ ~ is_axis 2 (-1) 0 /\ inside [1; 3] [2; 4] /\ ~ inside [1; 3] [2; 3].
Proof. split; [apply axis_mod; split; [lia|reflexivity]|]. split; [intros H; apply axis_mod in H; destruct H as [_ H]; discriminate|]. split; [repeat constructor|]. intros H. inversion H as [|? ? ? ? ? H2]; subst. inversion H2; subst. lia. Qed.

(* sums by label *)
Lemma zmax_ge : forall l m, (m <= zmax m l)%Z /\ forall x, In x l -> (x <= zmax m l)%Z.
Proof. unfold zmax. induction l as [|y l IH]; intros m; cbn [fold_left]; [split; [lia|intros x []]|]. destruct (IH (Z.max m y)) as [A B]. split; [lia|]. intros x [<-|X]; [lia|now apply B]. Qed.
Lemma zmax_in : forall l m, zmax m l = m \/ In (zmax m l) l.
Proof. unfold zmax. induction l as [|y l IH]; intros m; cbn [fold_left]; [now left|]. destruct (IH (Z.max m y)) as [A|A]; [|right; now right]. rewrite A. destruct (Z.max_spec m y) as [[_ ->]|[_ ->]]; [right; now left|now left]. Qed.
Lemma total_update : forall l k x, k < length l -> total (update k (nth k l 0 + x)%R l) = (total l + x)%R.
Proof. induction l as [|y l IH]; intros [|k] x K; cbn in K; try lia; cbn; [lra|]. unfold total in IH. rewrite IH by lia. lra. Qed.
Lemma accumulate_spec : forall ids a fb, length ids <= length a -> (forall i, In i ids -> (0 <= i < Z.of_nat (length fb))%Z) ->
  exists r, accumulate ids a fb = Some r /\ length r = length fb /\ (forall k, k < length fb -> nth k r 0%R = (nth k fb 0 + labelled (Z.of_nat k) ids a)%R) /\ total r = (total fb + total (firstn (length ids) a))%R.
Proof.
  induction ids as [|i ids IH]; intros a fb L B.
  - exists fb. cbn. split; [reflexivity|]. split; [reflexivity|]. split; [intros; lra|lra].
  - destruct a as [|x a]; cbn in L; [lia|]. cbn [accumulate]. pose proof (B i (or_introl eq_refl)) as BI. destruct (Z.leb_spec (- Z.of_nat (length fb)) i); [|lia]. destruct (Z.ltb_spec i (Z.of_nat (length fb))); [|lia]. destruct (Z.ltb_spec i 0); [lia|]. cbn [andb]. set (k := Z.to_nat i). set (fb' := update k _ fb).
    assert (L' : length fb' = length fb) by apply update_length. destruct (IH a fb' ltac:(lia) ltac:(rewrite L'; intros; apply B; now right)) as (r & E & LR & NR & TR). exists r. split; [exact E|]. split; [congruence|]. split.
    + intros j J. rewrite NR by (rewrite L'; exact J). unfold fb'. rewrite update_nth. cbn [labelled]. destruct (Nat.eqb_spec j k) as [->|NE], (Z.eq_dec i (Z.of_nat _)) as [EI|EI]; try (unfold k in *; lia); cbn [andb].
      * destruct (Nat.ltb_spec k (length fb)); [lra|lia].
      * lra.
    + rewrite TR. unfold fb'. rewrite total_update by (unfold k; lia). cbn [length firstn total fold_right]. unfold total. lra.
Qed.
(* C140 one sum for every label up to the largest *)
Theorem C140_sums a ids : ids <> [] -> length ids <= length a -> (forall i, In i ids -> (0 <= i)%Z) ->
  exists r, sum_by_id a ids = Some r /\ (In (Z.of_nat (length r) - 1)%Z ids /\ forall i, In i ids -> (i < Z.of_nat (length r))%Z) /\ forall k, k < length r -> nth k r 0%R = labelled (Z.of_nat k) ids a.
Proof.
  intros N L P. destruct ids as [|i rest] eqn:EI; [contradiction|]. unfold sum_by_id. rewrite <- EI in *. set (m := zmax i rest). destruct (zmax_ge rest i) as [A B]. fold m in A, B. pose proof (P i ltac:(rewrite EI; now left)) as PI. destruct (Z.ltb_spec (m + 1) 0); [lia|].
  assert (MX : forall j, In j ids -> (j <= m)%Z) by (rewrite EI; intros j [<-|J]; [exact A|now apply B]). assert (MI : In m ids). { rewrite EI. destruct (zmax_in rest i) as [E|E]; [left; symmetry; exact E|now right]. }
  destruct (accumulate_spec ids a (repeat 0%R (Z.to_nat (m + 1))) L) as (r & E & LR & NR & _). { rewrite repeat_length. intros j J. specialize (P j J). specialize (MX j J). lia. }
  rewrite repeat_length in LR, NR. exists r. split; [exact E|]. split; [split|].
  - rewrite LR, Z2Nat.id by lia. now replace (m + 1 - 1)%Z with m by lia.
  - intros j J. specialize (MX j J). lia.
  - intros k K. rewrite NR by lia. replace (nth k (repeat 0%R (Z.to_nat (m + 1))) 0%R) with 0%R; [lra|]. symmetry. clear. revert k. induction (Z.to_nat (m + 1)) as [|n IH]; intros [|k]; cbn; auto.
Qed.
Print Assumptions C140_sums.
(* nothing is lost *)
Theorem C140_total a ids r : length ids = length a -> (forall i, In i ids -> (0 <= i)%Z) -> sum_by_id a ids = Some r -> total r = total a.
Proof.
  intros L P H. destruct ids as [|i rest] eqn:EI; [discriminate|]. unfold sum_by_id in H. rewrite <- EI in *. set (m := zmax i rest) in *. destruct (zmax_ge rest i) as [A B]. fold m in A, B. pose proof (P i ltac:(rewrite EI; now left)) as PI. destruct (Z.ltb_spec (m + 1) 0); [lia|].
  destruct (accumulate_spec ids a (repeat 0%R (Z.to_nat (m + 1))) ltac:(lia)) as (r' & E & _ & _ & TR). { rewrite repeat_length. rewrite EI. intros j J. split; [apply P; rewrite EI; exact J|]. destruct J as [<-|J]; [lia|]. specialize (B j J). lia. }
  rewrite E in H. injection H as <-. rewrite TR, L, firstn_all. replace (total (repeat 0%R _)) with 0%R; [lra|]. symmetry. clear. induction (Z.to_nat (m + 1)) as [|n IH]; cbn; [reflexivity|]. unfold total in IH. rewrite IH. lra.
Qed.
Print Assumptions C140_total.
(* a negative label is no error: it counts from the largest one *)
Theorem C140_negative : exists r, sum_by_id [1%R; 2%R; 4%R] [0; 1; -1]%Z = Some r /\ nth 1 r 0%R = 6%R.
Proof. exists [(0 + 1)%R; (0 + 2 + 4)%R]. split; [reflexivity|]. cbn [nth]. lra. Qed.
Print Assumptions C140_negative.
Example C140_ex : exists r, sum_by_id [1%R; 2%R; 4%R] [2; 0; 2]%Z = Some r /\ length r = 3 /\ nth 2 r 0%R = 5%R /\ nth 1 r 0%R = 0%R.
Proof. exists [(0 + 2)%R; 0%R; (0 + 1 + 4)%R]. split; [reflexivity|]. cbn [nth length]. repeat split; lra. Qed.
Example C140_ex_hyps : [2; 0; 2]%Z <> [] /\ length [2; 0; 2]%Z <= length [1%R; 2%R; 4%R] /\ forall i, In i [2; 0; 2]%Z -> (0 <= i)%Z.
Proof. split; [discriminate|]. split; [cbn; lia|]. intros i [<-|[<-|[<-|[]]]]; lia. Qed.

(* C141 the flat index of element (row,col) goes to that of element (col,row) of the transpose *)
Theorem C141_transpose nrow ncol row col : (0 <= row < nrow)%Z -> (0 <= col < ncol)%Z -> transpose_inds (row * ncol + col) nrow ncol = (col * nrow + row)%Z.
Proof. intros R C. unfold transpose_inds. rewrite Z.div_add_l by lia. rewrite Z.div_small by lia. rewrite Z.add_comm with (n := (row * ncol)%Z), Z.mod_add by lia. rewrite Z.mod_small by lia. lia. Qed.
Theorem C141_back nrow ncol i : (0 < nrow)%Z -> (0 < ncol)%Z -> (0 <= i < nrow * ncol)%Z -> (0 <= transpose_inds i nrow ncol < nrow * ncol)%Z /\ transpose_inds (transpose_inds i nrow ncol) ncol nrow = i.
Proof.
  intros N C I. pose proof (Z.div_mod i ncol ltac:(lia)) as D. pose proof (Z.mod_pos_bound i ncol C) as M. assert (Q : (0 <= i / ncol < nrow)%Z). { split; [apply Z.div_pos; lia|]. apply Z.div_lt_upper_bound; lia. }
  set (row := (i / ncol)%Z) in *. set (col := (i mod ncol)%Z) in *. clearbody row col. assert (E : i = (row * ncol + col)%Z) by lia. rewrite E. rewrite C141_transpose by lia. split; [nia|]. rewrite C141_transpose by lia. reflexivity.
Qed.
Section Items.
Context {T : Type}.
Implicit Types a : list T.
Lemma getitem_spec a i : (0 <= item (length a) i < Z.of_nat (length a))%Z -> getitem a i = nth_error a (Z.to_nat (item (length a) i)).
Proof. unfold getitem, item. intros H. destruct (Z.ltb_spec i 0); [|reflexivity]. destruct (Z.ltb_spec (i + Z.of_nat (length a)) 0); [lia|reflexivity]. Qed.
(* items are taken out in the order of the list *)
Theorem C141_only a inds : (forall i, In i inds -> (0 <= item (length a) i < Z.of_nat (length a))%Z) -> exists r, only_inds a (Some inds) = Some r /\ length r = length inds /\
  forall p d, p < length inds -> nth_error r p = nth_error a (Z.to_nat (item (length a) (nth p inds d))).
Proof.
  cbn [only_inds]. induction inds as [|i inds IH]; intros H; cbn [getitems]; [exists []; split; [reflexivity|split; [reflexivity|cbn; intros; lia]]|]. destruct (IH ltac:(intros; apply H; now right)) as (r & E & L & N). rewrite getitem_spec by (apply H; now left). destruct (nth_error a _) as [v|] eqn:V.
  - rewrite E. exists (v :: r). split; [reflexivity|]. split; [cbn; lia|]. intros [|p] d P; cbn [nth nth_error]; [now symmetry|apply N; cbn in P; lia].
  - exfalso. apply nth_error_None in V. specialize (H i (or_introl eq_refl)). lia.
Qed.
Lemma drop_positions : forall a i inds, exists ks, map Some (drop_inds i a inds) = map (nth_error a) ks /\ StronglySorted lt ks /\ forall k, In k ks <-> k < length a /\ ~ In (Z.of_nat (i + k)) inds.
Proof.
  induction a as [|v a IH]; intros i inds; cbn [drop_inds].
  - exists []. split; [reflexivity|]. split; [constructor|]. cbn. intros; lia.
  - destruct (IH (S i) inds) as (ks & E & S & M).
    assert (SS : StronglySorted lt (map Datatypes.S ks)). { clear -S. induction S as [|x l S IHS F]; cbn; constructor; [exact IHS|]. apply Forall_forall. intros y Y. apply in_map_iff in Y. destruct Y as (z & <- & Z). rewrite Forall_forall in F. specialize (F z Z). lia. }
    assert (MS : forall k, In (Datatypes.S k) (map Datatypes.S ks) <-> In k ks) by (intros k; rewrite in_map_iff; split; [intros (z & Z & I); injection Z as ->; exact I|intros I; now exists k]).
    assert (M0 : ~ In 0 (map Datatypes.S ks)) by (rewrite in_map_iff; intros (z & Z & _); discriminate).
    assert (EM : map (nth_error (v :: a)) (map Datatypes.S ks) = map (nth_error a) ks) by (rewrite map_map; reflexivity).
    destruct (existsb _ inds) eqn:X.
    + exists (map Datatypes.S ks). split; [now rewrite EM|]. split; [exact SS|]. apply existsb_exists in X. destruct X as (j & J & X). apply Z.eqb_eq in X. subst j. intros [|k].
      * split; [intros H; contradiction|]. rewrite Nat.add_0_r. intros [_ H]. contradiction.
      * rewrite MS, M. cbn [length]. replace (Datatypes.S i + k) with (i + Datatypes.S k) by lia. split; intros [A B]; (split; [lia|exact B]).
    + exists (0 :: map Datatypes.S ks). split; [cbn [map nth_error]; rewrite EM, E; reflexivity|]. split; [constructor; [exact SS|]; apply Forall_forall; intros y Y; destruct y; [contradiction|lia]|]. intros [|k].
      * rewrite Nat.add_0_r. cbn [length]. split; [intros _; split; [lia|]|intros _; now left]. intros J. assert (existsb (Z.eqb (Z.of_nat i)) inds = true) by (apply existsb_exists; exists (Z.of_nat i); split; [exact J|apply Z.eqb_refl]). congruence.
      * cbn [In length]. rewrite MS, M. replace (Datatypes.S i + k) with (i + Datatypes.S k) by lia. split; [intros [H|[A B]]; [discriminate|split; [lia|exact B]]|intros [A B]; right; split; [lia|exact B]].
Qed.
(* the others are left, in their order *)
Theorem C141_without a inds : exists ks, map Some (without_inds a (Some inds)) = map (nth_error a) ks /\ StronglySorted lt ks /\
  forall k, In k ks <-> k < length a /\ forall i, In i inds -> item (length a) i <> Z.of_nat k.
Proof.
  cbn [without_inds]. destruct (drop_positions a 0 (map (item (length a)) inds)) as (ks & E & S & M). exists ks. split; [exact E|]. split; [exact S|]. intros k. rewrite M. cbn [Nat.add]. split; intros [A B]; (split; [exact A|]).
  - intros i I X. apply B. rewrite <- X. apply in_map, I.
  - intros X. apply in_map_iff in X. destruct X as (i & X & I). exact (B i I X).
Qed.
Lemma some_perm (l l' : list T) : Permutation (map Some l) (map Some l') -> Permutation l l'.
Proof. intros P. apply Permutation_map_inv in P. destruct P as (m & E & P). assert (l = m) as -> by (clear -E; revert m E; induction l as [|x l IH]; intros [|y m] E; cbn in E; try discriminate; [reflexivity|injection E as -> E; f_equal; now apply IH]). now apply Permutation_sym. Qed.
Lemma all_positions a : map Some a = map (nth_error a) (seq 0 (length a)).
Proof. induction a as [|v a IH]; [reflexivity|]. cbn [length seq map nth_error]. f_equal. rewrite <- seq_shift, map_map. exact IH. Qed.
(* what is taken out and what is left are together the whole, each item once *)
Theorem C141_split a inds : NoDup (map (item (length a)) inds) -> (forall i, In i inds -> (0 <= item (length a) i < Z.of_nat (length a))%Z) ->
  exists r, only_inds a (Some inds) = Some r /\ Permutation (without_inds a (Some inds) ++ r) a.
Proof.
  intros D B. destruct (C141_only a inds B) as (r & E & L & N). exists r. split; [exact E|]. destruct (C141_without a inds) as (ks & EK & S & M). apply some_perm. rewrite map_app, EK.
  assert (ER : map Some r = map (nth_error a) (map (fun i => Z.to_nat (item (length a) i)) inds)).
  { clear -L N. rewrite map_map. revert r L N. induction inds as [|i inds IH]; intros [|x r] L N; cbn in L; try discriminate; [reflexivity|]. cbn [map]. f_equal; [exact (N 0 0%Z ltac:(cbn; lia))|]. apply IH; [lia|]. intros p d P. exact (N (Datatypes.S p) d ltac:(cbn; lia)). }
  rewrite ER, <- map_app, (all_positions a). apply Permutation_map. apply NoDup_Permutation.
  - assert (DK : NoDup ks). { clear -S. induction S as [|x l S IH F]; constructor; [|exact IH]. intros X. rewrite Forall_forall in F. specialize (F x X). lia. }
    assert (DI : NoDup (map (fun i => Z.to_nat (item (length a) i)) inds)).
    { clear -D B. induction inds as [|i inds IH]; cbn in *; constructor; inversion D as [|x l NI D']; subst; [|apply IH; [exact D'|intros; apply B; now right]]. intros X. apply in_map_iff in X. destruct X as (j & X & J). apply NI. apply in_map_iff. exists j. split; [|exact J]. pose proof (B i (or_introl eq_refl)). pose proof (B j (or_intror J)). lia. }
    clear -DK DI M B. induction ks as [|k ks IH] in DK, M |- *.
    + exact DI.
    + assert (G : forall l1 l2 : list nat, NoDup l1 -> NoDup l2 -> (forall x, In x l1 -> ~ In x l2) -> NoDup (l1 ++ l2)). { clear. induction l1 as [|x l1 IH]; intros l2 A C H; [exact C|]. inversion A; subst. cbn. constructor; [rewrite in_app_iff; intros [X|X]; [contradiction|exact (H x (or_introl eq_refl) X)]|]. apply IH; [assumption|exact C|intros y Y; apply H; now right]. }
      apply G; [exact DK|exact DI|]. intros x X Y. apply M in X. destruct X as [_ X]. apply in_map_iff in Y. destruct Y as (i & Y & I). apply (X i I). specialize (B i I). lia.
  - apply seq_NoDup.
  - intros k. rewrite in_app_iff, M, in_seq, in_map_iff. split.
    + intros [[A _]|(i & X & I)]; [lia|]. specialize (B i I). lia.
    + intros [_ K]. destruct (in_dec Z.eq_dec (Z.of_nat k) (map (item (length a)) inds)) as [H|H].
      * right. apply in_map_iff in H. destruct H as (i & H & I). exists i. split; [lia|exact I].
      * left. split; [lia|]. intros i I X. apply H. rewrite <- X. now apply in_map.
Qed.
End Items.
Print Assumptions C141_transpose. Print Assumptions C141_back. Print Assumptions C141_only. Print Assumptions C141_without. Print Assumptions C141_split.
Example C141_ex : transpose_inds 5 2 3 = 5%Z /\ transpose_inds 1 2 3 = 2%Z /\ without_inds [10; 11; 12; 13] (Some [-1; 1]%Z) = [10; 12] /\ only_inds [10; 11; 12; 13] (Some [-1; 1]%Z) = Some [13; 11].
Proof. repeat split. Qed.
Example C141_ex_hyps : NoDup (map (item 4) [-1; 1]%Z) /\ forall i, In i [-1; 1]%Z -> (0 <= item 4 i < 4)%Z.
Proof. split; [cbn; repeat constructor; cbn; intuition; discriminate|]. intros i [<-|[<-|[]]]; cbn; lia. Qed.
