From Coq Require Import List Arith ZArith Reals Lia Lra Bool.
From Verif Require Import BldModel BldLemmas RnsModel CscSpec CscModel.
Import ListNotations.
Open Scope R_scope.
Ltac Zify.zify_post_hook ::= idtac.

Lemma trunc_pos x : 0 <= x -> truncR x = floorR x.
Proof. intros H. unfold truncR. destruct (Rlt_dec x 0); [lra|reflexivity]. Qed.
Lemma trunc_neg x : x < 0 -> (truncR x <= 0)%Z.
Proof. intros H. unfold truncR. destruct (Rlt_dec x 0); [|lra]. pose proof (floorR_spec (- x)) as [_ F]. assert (0 < IZR (floorR (- x)) + 1) as G by lra. rewrite <- plus_IZR in G. apply (lt_IZR 0) in G. lia. Qed.
Lemma range_spec a b k : (0 <= a)%Z -> In k (range a b) <-> (a <= Z.of_nat k < b)%Z.
Proof. intros H. unfold range. rewrite in_seq. lia. Qed.
(* the cells visited along an axis are those the source meets *)
Lemma axis_spec c0 c1 cres n p k : (0 < n)%nat -> c0 < c1 -> 0 <= cres -> In k (range (i1 c0 c1 cres n p) (i2 c0 c1 cres n p)) <-> (k < n)%nat /\ meets c0 c1 n cres p k.
Proof.
  intros N C R0. rewrite range_spec by (unfold i1; lia). unfold i1, i2. assert (N' : 0 < INR n) by (apply lt_0_INR; lia). set (f := INR n / (c1 - c0)). set (dc := (c1 - c0) / INR n).
  assert (F : 0 < f) by (apply Rdiv_lt_0_compat; lra). assert (D : 0 < dc) by (apply Rdiv_lt_0_compat; lra). assert (FD : f * dc = 1) by (unfold f, dc; field; lra).
  assert (UP : forall q z, (q - c0) * f < z <-> q < c0 + z * dc).
  { intros q z. split; intros H.
    - apply (Rmult_lt_compat_r dc) in H; [|exact D]. rewrite Rmult_assoc, FD in H. lra.
    - apply (Rmult_lt_reg_r dc); [exact D|]. rewrite Rmult_assoc, FD. lra. }
  assert (DN : forall q z, z <= (q - c0) * f <-> c0 + z * dc <= q).
  { intros q z. specialize (UP q z). split; intros H; apply Rnot_lt_le; intros L; apply UP in L; lra. }
  assert (M : meets c0 c1 n cres p k <-> c0 + INR k * dc <= p + cres /\ p - cres < c0 + (INR k + 1) * dc).
  { unfold meets, in_cell. fold dc. split.
    - intros (t & T & T1 & T2). lra.
    - intros [A B]. exists (Rmax (p - cres) (c0 + INR k * dc)). pose proof (Rmax_l (p - cres) (c0 + INR k * dc)). pose proof (Rmax_r (p - cres) (c0 + INR k * dc)). split; [split; [lra|apply Rmax_lub; lra]|]. split; [lra|]. apply Rmax_lub_lt; [lra|]. replace ((INR k + 1) * dc) with (INR k * dc + dc) by ring. lra. }
  rewrite M, <- (DN (p + cres)), <- (UP (p - cres)). set (u := (p - cres - c0) * f). set (z := (p + cres - c0) * f). pose proof (pos_INR k) as K0. rewrite INR_IZR_INZ in *.
  assert (L1 : (truncR u <= Z.of_nat k)%Z <-> u < IZR (Z.of_nat k) + 1).
  { destruct (Rlt_dec u 0) as [U|U].
    - pose proof (trunc_neg u U). split; intros; [lra|lia].
    - rewrite trunc_pos by lra. pose proof (floorR_spec u) as [A B]. split; intros H.
      + apply IZR_le in H. lra.
      + assert (IZR (floorR u) < IZR (Z.of_nat k) + 1) as G by lra. rewrite <- plus_IZR in G. apply lt_IZR in G. lia. }
  assert (L2 : (Z.of_nat k < truncR (z + 1))%Z <-> IZR (Z.of_nat k) <= z).
  { destruct (Rlt_dec (z + 1) 0) as [U|U].
    - pose proof (trunc_neg (z + 1) U). split; intros; [lia|lra].
    - rewrite trunc_pos by lra. pose proof (floorR_spec (z + 1)) as [A B]. split; intros H.
      + assert (Z.of_nat k + 1 <= floorR (z + 1))%Z as G by lia. apply IZR_le in G. rewrite plus_IZR in G. lra.
      + assert (IZR (Z.of_nat k) + 1 < IZR (floorR (z + 1)) + 1) as G by lra. rewrite <- !plus_IZR in G. apply lt_IZR in G. lia. }
  split.
  - intros [A B]. split; [lia|]. split; [apply L2; lia|apply L1; lia].
  - intros (A & B1 & B2). apply L2 in B1. apply L1 in B2. lia.
Qed.
Definition fine (a : axis) : Prop := lo a < hi a /\ 0 < res a.
Lemma ncells_pos a : fine a -> (0 < ncells a)%nat.
Proof.
  intros [H1 H2]. unfold ncells, cshape, ceilR. assert (Q : 0 < (hi a - lo a) / res a) by (apply Rdiv_lt_0_compat; lra). set (q := (hi a - lo a) / res a) in *. pose proof (floorR_spec (- q)) as [A B]. assert (IZR (floorR (- q)) < 0) as G by lra. apply lt_IZR in G. lia.
Qed.
(* the source meets cell k along the axis *)
Definition meets_axis (a : axis) (p : R) (k : nat) : Prop := meets (lo a) (hi a) (ncells a) (res a) p k.
Lemma visits_spec ay ax py px y x : fine ay -> fine ax -> In (y, x) (visits ay ax py px) <-> (y < ncells ay)%nat /\ (x < ncells ax)%nat /\ meets_axis ay py y /\ meets_axis ax px x.
Proof.
  intros FY FX. pose proof (axis_spec (lo ay) (hi ay) (res ay) (ncells ay) py y (ncells_pos ay FY) (proj1 FY) ltac:(destruct FY; lra)) as SY. pose proof (axis_spec (lo ax) (hi ax) (res ax) (ncells ax) px x (ncells_pos ax FX) (proj1 FX) ltac:(destruct FX; lra)) as SX. fold (first ay py) (last ay py) in SY. fold (first ax px) (last ax px) in SX.
  assert (E : In (y, x) (visits ay ax py px) <-> In y (range (first ay py) (last ay py)) /\ In x (range (first ax px) (last ax px))).
  { unfold visits. destruct (_ || _) eqn:C; [|apply in_prod_iff]. split; [intros []|]. intros [A B]. rewrite range_spec in A by (unfold first, i1; lia). rewrite range_spec in B by (unfold first, i1; lia). assert (last ay py <= Z.of_nat (ncells ay))%Z by (unfold last, i2; lia). assert (last ax px <= Z.of_nat (ncells ax))%Z by (unfold last, i2; lia). repeat rewrite orb_true_iff in C. rewrite !Z.leb_le, !Z.ltb_lt in C. lia. }
  rewrite E, SY, SX. unfold meets_axis. tauto.
Qed.
Lemma app_nodup {A} : forall m m' : list A, NoDup m -> NoDup m' -> (forall e, In e m -> ~ In e m') -> NoDup (m ++ m').
Proof.
  induction m as [|e m IH]; intros m' H B D; cbn; [exact B|]. inversion H; subst. constructor; [rewrite in_app_iff; intros [|Q]; [contradiction|apply (D e); [now left|exact Q]]|apply IH; [assumption|exact B|intros f F; apply D; now right]].
Qed.
Lemma prod_nodup {A} (l l' : list A) : NoDup l -> NoDup l' -> NoDup (list_prod l l').
Proof.
  induction l as [|a l IH]; intros H H'; cbn; [constructor|]. inversion H; subst. apply app_nodup; [|now apply IH|].
  - clear -H'. induction l' as [|b l' IH]; cbn; constructor; inversion H'; subst; [|now apply IH]. rewrite in_map_iff. intros (z & E & I). injection E as ->. contradiction.
  - intros e E F. rewrite in_map_iff in E. destruct E as (z & <- & _). apply in_prod_iff in F. now destruct F.
Qed.
Lemma pair_dec (a b : nat * nat) : {a = b} + {a <> b}.
Proof. decide equality; apply Nat.eq_dec. Qed.
Lemma visits_nodup ay ax py px : NoDup (visits ay ax py px).
Proof. unfold visits. destruct (_ || _); [constructor|]. apply prod_nodup; apply seq_NoDup. Qed.
Lemma here_iff y x e : here y x e = true <-> snd e = (y, x).
Proof. destruct e as [s [a b]]. unfold here. cbn [fst snd]. rewrite andb_true_iff, !Nat.eqb_eq. split; [now intros [-> ->]|]. intros E. injection E. auto. Qed.
(* what the passes compute *)
Definition listed (es : list (nat * (nat * nat))) (y x : nat) : list nat := map fst (filter (here y x) es).
Lemma count_spec : forall es f y x, fold_left (fun ncell e => fun y x => if here y x e then (ncell y x + 1)%nat else ncell y x) es f y x = (f y x + length (listed es y x))%nat.
Proof.
  induction es as [|e es IH]; intros f y x; cbn [fold_left]; [unfold listed; cbn; lia|]. rewrite IH. unfold listed. cbn [filter]. destruct (here y x e); cbn [map length]; lia.
Qed.
Lemma fill_spec nmax : forall es f, (forall y x, (length (f y x) + length (listed es y x) <= nmax)%nat) -> exists g, fold_left (fill_step nmax) es (Some f) = Some g /\ forall y x, g y x = f y x ++ listed es y x.
Proof.
  induction es as [|e es IH]; intros f H; cbn [fold_left].
  - exists f. split; [reflexivity|]. intros y x. unfold listed. cbn. now rewrite app_nil_r.
  - assert (HE : here (fst (snd e)) (snd (snd e)) e = true) by (apply here_iff; now destruct (snd e)).
    cbn [fill_step]. pose proof (H (fst (snd e)) (snd (snd e))) as H0. unfold listed in H0. cbn [filter] in H0. rewrite HE in H0. cbn [map length] in H0. destruct (Nat.ltb_spec (length (f (fst (snd e)) (snd (snd e)))) nmax) as [L|L]; [|lia].
    destruct (IH (fun y x => if here y x e then f y x ++ [fst e] else f y x)) as (g & G & S).
    + intros y x. specialize (H y x). unfold listed in H. cbn [filter] in H. destruct (here y x e); [rewrite app_length; cbn [map length] in *; unfold listed; lia|unfold listed; lia].
    + exists g. split; [exact G|]. intros y x. rewrite S. unfold listed at 2. cbn [filter]. destruct (here y x e); [cbn [map]; rewrite <- app_assoc; reflexivity|reflexivity].
Qed.
Lemma listed_app es es' y x : listed (es ++ es') y x = listed es y x ++ listed es' y x.
Proof. unfold listed. rewrite filter_app. apply map_app. Qed.
Lemma listed_flat {A} (f : A -> list (nat * (nat * nat))) l y x : listed (flat_map f l) y x = flat_map (fun a => listed (f a) y x) l.
Proof. induction l as [|a l IH]; cbn [flat_map]; [reflexivity|]. now rewrite listed_app, IH. Qed.
Lemma listed_one si cs y x : NoDup cs -> listed (map (fun c => (si, c)) cs) y x = if in_dec pair_dec (y, x) cs then [si] else [].
Proof.
  induction cs as [|c cs IH]; intros ND; [reflexivity|]. inversion ND; subst. cbn [map]. change (listed ((si, c) :: map (fun c => (si, c)) cs) y x) with (map fst (filter (here y x) ((si, c) :: map (fun c0 => (si, c0)) cs))). cbn [filter]. fold (listed (map (fun c => (si, c)) cs) y x). destruct (here y x (si, c)) eqn:H.
  - apply here_iff in H. cbn [snd] in H. subst c. cbn [map fst]. fold (listed (map (fun c => (si, c)) cs) y x). rewrite IH by assumption. destruct (in_dec _ (y, x) cs); [contradiction|]. destruct (in_dec _ (y, x) ((y, x) :: cs)) as [|Q]; [reflexivity|]. exfalso. apply Q. now left.
  - fold (listed (map (fun c => (si, c)) cs) y x). rewrite IH by assumption. assert (c <> (y, x)) as Q by (intros ->; assert (here y x (si, (y, x)) = true) by (apply here_iff; reflexivity); congruence). destruct (in_dec _ (y, x) cs) as [I|I]; destruct (in_dec _ (y, x) (c :: cs)) as [J|J]; try reflexivity; exfalso; [apply J; now right|destruct J as [J|J]; contradiction].
Qed.
(* the offsets tried, and whether a source shifted by an offset meets a cell *)
Definition offsets (ay ax : axis) : list (R * R) := list_prod (woffs (wrap ay)) (woffs (wrap ax)).
Definition hit (ay ax : axis) (y x : nat) (pos o : R * R) : Prop := meets_axis ay (fst pos + fst o) y /\ meets_axis ax (snd pos + snd o) x.
Definition hits (ay ax : axis) (y x : nat) (pos : R * R) (os : list (R * R)) : list (R * R) := filter (fun o => if in_dec pair_dec (y, x) (visits ay ax (fst pos + fst o) (snd pos + snd o)) then true else false) os.
Lemma source_listed ay ax y x si pos : forall os, listed (flat_map (fun o : R * R => map (fun c => (si, c)) (visits ay ax (fst pos + fst o) (snd pos + snd o))) os) y x = repeat si (length (hits ay ax y x pos os)).
Proof.
  induction os as [|o os IH]; [reflexivity|]. cbn [flat_map]. rewrite listed_app, IH, listed_one by apply visits_nodup. unfold hits. cbn [filter]. destruct (in_dec pair_dec (y, x) _); reflexivity.
Qed.
Lemma hits_spec ay ax y x pos os o : fine ay -> fine ax -> (y < ncells ay)%nat -> (x < ncells ax)%nat -> In o (hits ay ax y x pos os) <-> In o os /\ hit ay ax y x pos o.
Proof.
  intros FY FX Y X. unfold hits, hit. rewrite filter_In. pose proof (visits_spec ay ax (fst pos + fst o) (snd pos + snd o) y x FY FX) as V. destruct (in_dec pair_dec (y, x) _) as [I|I]; split; intros [A B]; split; try assumption; try discriminate; try reflexivity; [tauto|exfalso; tauto].
Qed.
Lemma in_listed es y x : listed es y x <> [] -> exists si, In (si, (y, x)) es.
Proof.
  intros H. unfold listed in H. destruct (filter (here y x) es) as [|[s c] l] eqn:F; [contradiction|]. assert (In (s, c) (filter (here y x) es)) as I by (rewrite F; now left). apply filter_In in I. destruct I as [I J]. apply here_iff in J. cbn [snd] in J. subst c. now exists s.
Qed.
Lemma all_in_grid ay ax srcs si y x : fine ay -> fine ax -> In (si, (y, x)) (all_visits ay ax srcs) -> (y < ncells ay)%nat /\ (x < ncells ax)%nat.
Proof.
  intros FY FX H. unfold all_visits in H. apply in_flat_map in H. destruct H as (s & _ & H). unfold source_visits in H. apply in_flat_map in H. destruct H as (o & _ & H). apply in_map_iff in H. destruct H as (c & E & H). injection E as _ ->. apply visits_spec in H; tauto.
Qed.
Lemma max_ge l (a : nat) : In a l -> (a <= list_max l)%nat.
Proof. intros H. pose proof (proj1 (list_max_le l (list_max l)) (le_n _)) as F. rewrite Forall_forall in F. now apply F. Qed.
Lemma build_lists ay ax srcs : fine ay -> fine ax -> exists cells, build_src_cells ay ax srcs = Some cells /\ forall y x, cells y x = listed (all_visits ay ax srcs) y x.
Proof.
  intros FY FX. unfold build_src_cells, fill_pass. cbv zeta. set (es := all_visits ay ax srcs). set (nmax := Nat.max 1 _). destruct (fill_spec nmax es (fun _ _ => [])) as (g & G & S); [|exists g; split; [exact G|exact S]].
  intros y x. cbn [length Nat.add]. destruct (listed es y x) as [|s l] eqn:L; [cbn; lia|]. destruct (in_listed es y x) as [si I]; [rewrite L; discriminate|]. destruct (all_in_grid ay ax srcs si y x FY FX I) as [Y X]. rewrite <- L.
  assert (In (length (listed es y x)) (map (fun c => count_pass es (fst c) (snd c)) (list_prod (seq 0 (ncells ay)) (seq 0 (ncells ax))))) as J.
  { apply in_map_iff. exists (y, x). split; [cbn [fst snd]; unfold count_pass; rewrite count_spec; lia|]. apply in_prod_iff. rewrite !in_seq. lia. }
  apply max_ge in J. unfold nmax. lia.
Qed.
(* C145 the table of cells is always large enough, and each cell lists the sources in order, each once for every offset that brings it within reach *)
Theorem C145_cells ay ax srcs : fine ay -> fine ax -> exists cells, build_src_cells ay ax srcs = Some cells /\ forall y x, (y < ncells ay)%nat -> (x < ncells ax)%nat ->
  exists m : nat -> list (R * R), cells y x = flat_map (fun si => repeat si (length (m si))) (seq 0 (length srcs)) /\
  forall si, (forall o, In o (m si) <-> In o (offsets ay ax) /\ hit ay ax y x (nth si srcs (0, 0)) o) /\ NoDup (m si).
Proof.
  intros FY FX. destruct (build_lists ay ax srcs FY FX) as (cells & B & S). exists cells. split; [exact B|]. intros y x Y X.
  assert (NW : forall w, NoDup (woffs w)).
  { intros w. unfold woffs. destruct (Req_EM_T w 0) as [E|E]; [constructor; [intros []|constructor]|]. constructor; [intros [H|[H|[]]]; lra|]. constructor; [intros [H|[]]; lra|]. constructor; [intros []|constructor]. }
  exists (fun si => hits ay ax y x (nth si srcs (0, 0)) (offsets ay ax)). split.
  - rewrite S. unfold all_visits. rewrite listed_flat. apply flat_map_ext. intros si. unfold source_visits. apply source_listed.
  - intros si. split; [intros o; now apply hits_spec|]. apply NoDup_filter, prod_nodup; apply NW.
Qed.
Print Assumptions C145_cells.
Lemma in_repeats (f : nat -> nat) n si : In si (flat_map (fun i => repeat i (f i)) (seq 0 n)) <-> (si < n)%nat /\ (0 < f si)%nat.
Proof.
  rewrite in_flat_map. split.
  - intros (i & I & R1). apply in_seq in I. pose proof (repeat_spec _ _ _ R1) as ->. destruct (f i); [destruct R1|lia].
  - intros [L P]. exists si. split; [apply in_seq; lia|]. destruct (f si); [lia|now left].
Qed.
(* a source is listed in every cell that has a point within reach of it, or of one of its images, and in no other *)
Theorem C145_reach ay ax srcs cells y x si : fine ay -> fine ax -> build_src_cells ay ax srcs = Some cells -> (y < ncells ay)%nat -> (x < ncells ax)%nat -> (si < length srcs)%nat ->
  In si (cells y x) <-> exists o q, In o (offsets ay ax) /\ in_cell (lo ay) (hi ay) (ncells ay) y (fst q) /\ in_cell (lo ax) (hi ax) (ncells ax) x (snd q) /\
    Rabs (fst q - (fst (nth si srcs (0, 0)) + fst o)) <= res ay /\ Rabs (snd q - (snd (nth si srcs (0, 0)) + snd o)) <= res ax.
Proof.
  intros FY FX B Y X L. destruct (C145_cells ay ax srcs FY FX) as (cells' & B' & H). rewrite B in B'. injection B' as <-. destruct (H y x Y X) as (m & E & M). rewrite E, in_repeats. destruct (M si) as [MI _]. split.
  - intros [_ P]. destruct (m si) as [|o os]; [cbn in P; lia|]. destruct (proj1 (MI o) (or_introl eq_refl)) as (O & (t & T1 & T2) & (u & U1 & U2)). exists o, (t, u). cbn [fst snd]. split; [exact O|]. split; [exact T2|]. split; [exact U2|]. split; apply Rabs_le; lra.
  - intros (o & [t u] & O & T & U & A & D). cbn [fst snd] in *. split; [exact L|]. assert (In o (m si)) as I; [|destruct (m si); [destruct I|cbn; lia]]. apply MI. split; [exact O|]. assert (AB : forall z r, Rabs z <= r -> - r <= z <= r) by (intros z r; unfold Rabs; destruct (Rcase_abs z); lra). apply AB in A. apply AB in D. split; [exists t|exists u]; (split; [lra|assumption]).
Qed.
Print Assumptions C145_reach.
(* without wrapping no source is listed twice in a cell *)
Theorem C145_once ay ax srcs cells y x : fine ay -> fine ax -> wrap ay = 0 -> wrap ax = 0 -> build_src_cells ay ax srcs = Some cells -> (y < ncells ay)%nat -> (x < ncells ax)%nat -> NoDup (cells y x).
Proof.
  intros FY FX WY WX B Y X. destruct (C145_cells ay ax srcs FY FX) as (cells' & B' & H). rewrite B in B'. injection B' as <-. destruct (H y x Y X) as (m & E & M). rewrite E.
  assert (LM : forall si, (length (m si) <= 1)%nat).
  { intros si. destruct (M si) as [MI ND]. assert (O : forall o, In o (m si) -> o = (0, 0)). { intros o I. apply MI in I. destruct I as [I _]. unfold offsets, woffs in I. rewrite WY, WX in I. destruct (Req_EM_T 0 0); [|contradiction]. cbn in I. destruct I as [<-|[]]. reflexivity. } destruct (m si) as [|a [|b l]]; cbn; try lia. exfalso. inversion ND; subst. match goal with Q : ~ In a _ |- _ => apply Q end. rewrite (O a), (O b); [now left|right; now left|now left]. }
  clear E M H. generalize 0%nat. induction (length srcs) as [|n IH]; intros k; cbn [seq flat_map]; [constructor|]. apply app_nodup; [|apply IH|].
  - specialize (LM k). destruct (length (m k)) as [|[|]]; [constructor|cbn; constructor; [intros []|constructor]|lia].
  - intros e I J. apply repeat_spec in I. subst e. apply in_flat_map in J. destruct J as (i & I & J). apply in_seq in I. apply repeat_spec in J. lia.
Qed.
Print Assumptions C145_once.
(* the cells cover the box: every point from the low to the high end is in just one cell, and cells are no larger than the resolution *)
Theorem C145_cover a t : fine a -> lo a <= t < hi a -> exists! k, (k < ncells a)%nat /\ in_cell (lo a) (hi a) (ncells a) k t.
Proof.
  intros F T. pose proof (ncells_pos a F) as NP. assert (N' : 0 < INR (ncells a)) by (apply lt_0_INR; lia). destruct F as [F1 F2]. unfold in_cell. set (n := ncells a) in *. clearbody n. set (dc := (hi a - lo a) / INR n). assert (D : 0 < dc) by (apply Rdiv_lt_0_compat; lra). assert (ND : INR n * dc = hi a - lo a) by (unfold dc; field; lra).
  assert (Z0 : 0 <= (t - lo a) / dc) by (apply Rmult_le_pos; [lra|left; now apply Rinv_0_lt_compat]). assert (ZD : (t - lo a) / dc * dc = t - lo a) by (field; lra). set (z := (t - lo a) / dc) in *. pose proof (floorR_spec z) as [A B].
  assert (P : (0 <= floorR z)%Z). { assert (-1 < IZR (floorR z)) as G by lra. apply (lt_IZR (-1)) in G. lia. } assert (K : INR (Z.to_nat (floorR z)) = IZR (floorR z)) by (rewrite INR_IZR_INZ, Z2Nat.id by exact P; reflexivity).
  exists (Z.to_nat (floorR z)). split.
  - rewrite K. split.
    + apply INR_lt. rewrite K. apply (Rmult_lt_reg_r dc); [exact D|]. rewrite ND. pose proof (Rmult_le_compat_r dc _ _ ltac:(lra) A). lra.
    + pose proof (Rmult_le_compat_r dc _ _ ltac:(lra) A). pose proof (Rmult_lt_compat_r dc _ _ D B). lra.
  - intros k (_ & K1 & K2). apply INR_eq. rewrite K. assert (INR k <= z) by (apply (Rmult_le_reg_r dc); [exact D|lra]). assert (z < INR k + 1) by (apply (Rmult_lt_reg_r dc); [exact D|lra]). rewrite INR_IZR_INZ in *. f_equal. apply floorR_unique. lra.
Qed.
Print Assumptions C145_cover.
Definition ax1 : axis := Axis 0 3 1 0.
Lemma ax1_fine : fine ax1. Proof. split; cbn; lra. Qed.
Lemma ax1_n : ncells ax1 = 3%nat.
Proof. unfold ncells, cshape, ceilR. cbn [lo hi res ax1]. rewrite (floorR_unique _ (-3)) by lra. reflexivity. Qed.
Example C145_ex cells : build_src_cells ax1 ax1 [(1 / 2, 5 / 2)] = Some cells -> In 0%nat (cells 1%nat 2%nat) /\ ~ In 0%nat (cells 2%nat 2%nat).
Proof.
  intros B. assert (O : forall o, In o (offsets ax1 ax1) <-> o = (0, 0)). { intros o. unfold offsets, woffs. cbn [wrap ax1]. destruct (Req_EM_T 0 0); [|contradiction]. cbn. split; [intros [<-|[]]; reflexivity|intros ->; now left]. } split.
  - apply (C145_reach ax1 ax1 _ cells 1 2 0 ax1_fine ax1_fine B); rewrite ?ax1_n; cbn [length]; try lia. exists (0, 0), (1, 5 / 2). split; [now apply O|]. cbn [nth fst snd lo hi res ax1]. unfold in_cell. cbn [INR]. split; [lra|]. split; [lra|]. split; apply Rabs_le; lra.
  - intros I. apply (C145_reach ax1 ax1 _ cells 2 2 0 ax1_fine ax1_fine B) in I; rewrite ?ax1_n in *; cbn [length]; try lia. destruct I as (o & q & I & C & _ & A & _). apply O in I. subst o. cbn [nth fst snd lo hi res ax1] in *. unfold in_cell in C. cbn [INR] in C. unfold Rabs in A. destruct (Rcase_abs _) in A; lra.
Qed.
Example C145_ex_hyps : fine ax1 /\ wrap ax1 = 0 /\ (2 < ncells ax1)%nat.
Proof. rewrite ax1_n. split; [exact ax1_fine|]. split; [reflexivity|lia]. Qed.

Open Scope nat_scope.
(* C146 cell (a,b) holds the rectangle of the map that starts at (a*ry,b*rx) *)
Theorem C146_cellify {A} (ny nx ry rx : nat) (map : nat -> nat -> A) : 0 < ry -> 0 < rx -> exists v, cellify ny nx ry rx map = (ny / ry, nx / rx, v) /\
  forall a b c d, a < ny / ry -> b < nx / rx -> c < ry -> d < rx -> v a b c d = map (a * ry + c) (b * rx + d) /\ a * ry + c < ny /\ b * rx + d < nx.
Proof.
  intros RY RX. unfold cellify. cbv zeta. eexists. split; [reflexivity|]. intros a b c d HA HB HC HD. cbv beta.
  assert (E : ((a * ry + c) * (nx / rx) + b) * rx + d = (a * ry + c) * (nx / rx * rx) + (b * rx + d)) by ring. assert (L : b * rx + d < nx / rx * rx). { assert (S b * rx <= nx / rx * rx) by (apply Nat.mul_le_mono_r; lia). lia. }
  rewrite E. split; [|split].
  - f_equal; [rewrite Nat.div_add_l by lia; rewrite Nat.div_small by exact L; lia|rewrite Nat.add_comm, Nat.mod_add by lia; now apply Nat.mod_small].
  - pose proof (Nat.mul_div_le ny ry ltac:(lia)). assert (S a * ry <= ny / ry * ry) by (apply Nat.mul_le_mono_r; lia). lia.
  - pose proof (Nat.mul_div_le nx rx ltac:(lia)). lia.
Qed.
Print Assumptions C146_cellify.
(* putting the cells back together *)
Theorem C146_uncellify {A} (cy cx ry rx : nat) (cmap : nat -> nat -> nat -> nat -> A) : 0 < ry -> 0 < rx -> exists v, uncellify cy cx ry rx cmap = (cy * ry, cx * rx, v) /\
  forall a b c d, a < cy -> b < cx -> c < ry -> d < rx -> v (a * ry + c) (b * rx + d) = cmap a b c d.
Proof.
  intros RY RX. unfold uncellify. cbv zeta. eexists. split; [reflexivity|]. intros a b c d HA HB HC HD. cbv beta. assert (L : b * rx + d < cx * rx). { assert (S b * rx <= cx * rx) by (apply Nat.mul_le_mono_r; lia). lia. }
  set (i := (a * ry + c) * (cx * rx) + (b * rx + d)). assert (I1 : i / (cx * rx) = a * ry + c) by (unfold i; rewrite Nat.div_add_l by lia; rewrite (Nat.div_small (b * rx + d)) by exact L; lia). assert (I2 : i / rx = (a * ry + c) * cx + b). { replace i with (((a * ry + c) * cx + b) * rx + d) by (unfold i; ring). rewrite Nat.div_add_l by lia. rewrite (Nat.div_small d) by exact HD. lia. } assert (I3 : i mod rx = d). { replace i with (d + ((a * ry + c) * cx + b) * rx) by (unfold i; ring). rewrite Nat.mod_add by lia. now apply Nat.mod_small. }
  assert (I0 : i / (ry * cx * rx) = a). { replace (ry * cx * rx) with (cx * rx * ry) by ring. rewrite <- Nat.div_div by lia. rewrite I1, Nat.div_add_l by lia. rewrite (Nat.div_small c) by exact HC. lia. }
  rewrite I0, I1, I2, I3. f_equal.
  - rewrite Nat.add_comm, Nat.mod_add by lia. now apply Nat.mod_small.
  - rewrite Nat.add_comm, Nat.mod_add by lia. now apply Nat.mod_small.
Qed.
Print Assumptions C146_uncellify.
(* there and back gives the map without the rows and columns that do not fill a cell *)
Theorem C146_roundtrip {A} (ny nx ry rx : nat) (map : nat -> nat -> A) : 0 < ry -> 0 < rx -> let '(cy, cx, v) := cellify ny nx ry rx map in let '(my, mx, w) := uncellify cy cx ry rx v in
  my = ny - ny mod ry /\ mx = nx - nx mod rx /\ forall y x, y < my -> x < mx -> w y x = map y x.
Proof.
  intros RY RX. destruct (C146_cellify ny nx ry rx map RY RX) as (v & E & V). rewrite E. destruct (C146_uncellify (ny / ry) (nx / rx) ry rx v RY RX) as (w & E' & W). rewrite E'. split; [rewrite Nat.mod_eq by lia; pose proof (Nat.mul_div_le ny ry ltac:(lia)); lia|]. split; [rewrite Nat.mod_eq by lia; pose proof (Nat.mul_div_le nx rx ltac:(lia)); lia|]. intros y x Y X.
  rewrite (Nat.div_mod y ry) at 1 2 by lia. rewrite (Nat.div_mod x rx) at 1 2 by lia. rewrite (Nat.mul_comm ry), (Nat.mul_comm rx).
  assert (y / ry < ny / ry) by (apply Nat.div_lt_upper_bound; lia). assert (x / rx < nx / rx) by (apply Nat.div_lt_upper_bound; lia). pose proof (Nat.mod_upper_bound y ry ltac:(lia)). pose proof (Nat.mod_upper_bound x rx ltac:(lia)).
  rewrite W by assumption. apply V; assumption.
Qed.
Print Assumptions C146_roundtrip.
Example C146_ex : let '(cy, cx, v) := cellify 5 7 2 3 (fun y x => 10 * y + x) in (cy, cx, v 1 0 1 2, v 0 1 0 0) = (2, 2, 32, 3).
Proof. reflexivity. Qed.
Example C146_ex_hyps : 0 < 2 /\ 0 < 3 /\ 5 - 5 mod 2 = 4. Proof. cbn. lia. Qed.
