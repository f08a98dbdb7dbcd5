From Coq Require Import ZArith List Lia Reals Lra Permutation.
From Verif Require Import Base RangeModel RangeLemmas FindLemmas AlmSpec AlmModel.
Import ListNotations.
Local Open Scope Z_scope.
Ltac Zify.zify_post_hook ::= idtac.

(* ---- generic ---- *)
Lemma ofold_app {S A} (f : S -> A -> option S) l1 l2 s :
  ofold f (l1 ++ l2) s = match ofold f l1 s with Some s => ofold f l2 s | None => None end.
Proof. revert s; induction l1 as [|x l1 IH]; intros s; cbn [ofold app]; [reflexivity|]. destruct (f s x); [apply IH|reflexivity]. Qed.
Lemma ofold_map {S A B} (f : S -> B -> option S) (g : A -> B) l s : ofold f (map g l) s = ofold (fun s x => f s (g x)) l s.
Proof. revert s; induction l as [|x l IH]; intros s; cbn [ofold map]; [reflexivity|]. destruct (f s (g x)); [apply IH|reflexivity]. Qed.
Lemma ofold_flat {S A B} (f : S -> B -> option S) (g : A -> list B) l s : ofold (fun s x => ofold f (g x) s) l s = ofold f (flat_map g l) s.
Proof. revert s; induction l as [|x l IH]; intros s; cbn [ofold flat_map]; [reflexivity|]. rewrite ofold_app. destruct (ofold f (g x) s); [apply IH|reflexivity]. Qed.
Lemma ofold_ext {S A} (f g : S -> A -> option S) l s : (forall s x, In x l -> f s x = g s x) -> ofold f l s = ofold g l s.
Proof.
  revert s; induction l as [|x l IH]; intros s H; cbn [ofold]; [reflexivity|]. rewrite H by (left; reflexivity).
  destruct (g s x); [apply IH; intros; apply H; right; assumption|reflexivity].
Qed.
Lemma set_at_spec {A} (l : list A) i v : 0 <= i < zlen l ->
  exists l', set_at l i v = Some l' /\ zlen l' = zlen l /\ forall k, zget l' k = if k =? i then Some v else zget l k.
Proof.
  intros H. exists (upd l (Z.to_nat i) v). unfold set_at. destruct (Z.leb_spec 0 i), (Z.ltb_spec i (zlen l)); try lia. cbn [andb].
  split; [reflexivity|]. split; [unfold zlen; now rewrite upd_length|]. intros k. rewrite zget_upd by (unfold zlen in H; lia).
  now rewrite Z2Nat.id by lia.
Qed.
Lemma set_at_range {A} (l l' : list A) i v : set_at l i v = Some l' -> 0 <= i < zlen l.
Proof. unfold set_at. destruct (Z.leb_spec 0 i), (Z.ltb_spec i (zlen l)); cbn [andb]; intros; try discriminate; lia. Qed.

(* a loop that updates one array position per pass *)
Lemma scatter_spec {A P} (pos : P -> Z) (val : P -> A -> A) (step : list A -> P -> option (list A)) (n : Z) L out :
  (forall out p x, In p L -> zlen out = n -> zget out (pos p) = Some x -> step out p = set_at out (pos p) (val p x)) ->
  NoDup (map pos L) -> (forall p, In p L -> 0 <= pos p < n) -> zlen out = n ->
  exists out', ofold step L out = Some out' /\ zlen out' = n /\
    (forall p x, In p L -> zget out (pos p) = Some x -> zget out' (pos p) = Some (val p x)) /\
    (forall k, ~ In k (map pos L) -> zget out' k = zget out k).
Proof.
  revert out; induction L as [|p L IH]; intros out HS ND HR HL; cbn [ofold map].
  - exists out. split; [reflexivity|]. split; [exact HL|]. split; [intros ? ? []|reflexivity].
  - cbn [map] in ND. apply NoDup_cons_iff in ND. destruct ND as (N1 & N2). pose proof (HR p (or_introl eq_refl)) as Rp.
    destruct (zget_in_range out (pos p)) as (x & Ex); [lia|]. rewrite (HS out p x (or_introl eq_refl) HL Ex).
    destruct (set_at_spec out (pos p) (val p x)) as (o1 & E1 & L1 & G1); [lia|]. rewrite E1.
    destruct (IH o1) as (o2 & E2 & L2 & G2 & G3); [intros; apply HS; [right|..]; assumption|exact N2|intros; apply HR; right; assumption|lia|].
    exists o2. split; [exact E2|]. split; [lia|]. split.
    + intros q y [->|Hq] Ey.
      * rewrite G3 by exact N1. rewrite G1, Z.eqb_refl. congruence.
      * apply G2; [exact Hq|]. rewrite G1. destruct (Z.eqb_spec (pos q) (pos p)) as [E|E]; [|exact Ey].
        exfalso. apply N1. rewrite <- E. apply in_map. exact Hq.
    + intros k Hk. cbn [In] in Hk. rewrite G3 by tauto. rewrite G1. destruct (Z.eqb_spec k (pos p)) as [E|E]; [|reflexivity]. exfalso. apply Hk. left. congruence.
Qed.

Lemma NoDup_map_inj {A B} (f : A -> B) l : (forall x y, In x l -> In y l -> f x = f y -> x = y) -> NoDup l -> NoDup (map f l).
Proof.
  induction l as [|x l IH]; intros H N; cbn [map]; [constructor|]. apply NoDup_cons_iff in N. destruct N as (N1 & N2). constructor.
  - rewrite in_map_iff. intros (y & E & Hy). apply H in E; [|right; exact Hy|left; reflexivity]. subst. contradiction.
  - apply IH; [|exact N2]. intros; apply H; [right|right|]; assumption.
Qed.
Lemma NoDup_flat_map {A B} (f : A -> list B) l : (forall x, In x l -> NoDup (f x)) ->
  (forall x y z, In x l -> In y l -> In z (f x) -> In z (f y) -> x = y) -> NoDup l -> NoDup (flat_map f l).
Proof.
  induction l as [|x l IH]; intros H1 H2 N; cbn [flat_map]; [constructor|]. apply NoDup_cons_iff in N. destruct N as (N1 & N2).
  assert (NA : forall (u v : list B), NoDup u -> NoDup v -> (forall z, In z u -> ~ In z v) -> NoDup (u ++ v)).
  { clear. induction u as [|a u IHu]; intros v Hu Hv D; cbn [app]; [exact Hv|]. apply NoDup_cons_iff in Hu. destruct Hu as (U1 & U2). constructor.
    - rewrite in_app_iff. intros [?|?]; [contradiction|]. apply (D a (or_introl eq_refl)). assumption.
    - apply IHu; [exact U2|exact Hv|]. intros; apply D. right. assumption. }
  apply NA.
  - apply H1. left. reflexivity.
  - apply IH; [intros; apply H1; right; assumption| |exact N2]. intros; eapply H2; [right|right|..]; eassumption.
  - intros z Hz. rewrite in_flat_map. intros (y & Hy & Hzy). assert (x = y) by (eapply H2; [left; reflexivity|right; exact Hy|exact Hz|exact Hzy]). subst. contradiction.
Qed.

(* ---- the two listings ---- *)
Lemma l_fast_In lmax mmax l m : In (l, m) (l_fast lmax mmax) <-> valid lmax mmax l m.
Proof.
  unfold l_fast, valid. rewrite in_flat_map. split.
  - intros (m' & Hm & H). apply in_map_iff in H. destruct H as (l' & E & H). injection E as -> ->. apply zrange_In in Hm. apply zrange_In in H. lia.
  - intros H. exists m. split; [apply zrange_In; lia|]. apply in_map_iff. exists l. split; [reflexivity|]. apply zrange_In. lia.
Qed.
Lemma m_fast_In lmax mmax l m : In (l, m) (m_fast lmax mmax) <-> valid lmax mmax l m.
Proof.
  unfold m_fast, valid. rewrite in_flat_map. split.
  - intros (m' & Hm & H). apply in_map_iff in H. destruct H as (l' & E & H). injection E as -> ->. apply zrange_In in Hm. apply zrange_In in H. lia.
  - intros H. exists l. split; [apply zrange_In; lia|]. apply in_map_iff. exists m. split; [reflexivity|]. apply zrange_In. lia.
Qed.
Lemma l_fast_NoDup lmax mmax : NoDup (l_fast lmax mmax).
Proof.
  apply NoDup_flat_map; [| |apply zrange_NoDup].
  - intros m _. apply NoDup_map_inj; [|apply zrange_NoDup]. intros x y _ _ E. congruence.
  - intros m m' z _ _ H H'. apply in_map_iff in H, H'. destruct H as (? & <- & _), H' as (? & E & _). congruence.
Qed.
Lemma m_fast_NoDup lmax mmax : NoDup (m_fast lmax mmax).
Proof.
  apply NoDup_flat_map; [| |apply zrange_NoDup].
  - intros m _. apply NoDup_map_inj; [|apply zrange_NoDup]. intros x y _ _ E. congruence.
  - intros m m' z _ _ H H'. apply in_map_iff in H, H'. destruct H as (? & <- & _), H' as (? & E & _). congruence.
Qed.
Lemma fast_perm lmax mmax : Permutation (l_fast lmax mmax) (m_fast lmax mmax).
Proof. apply NoDup_Permutation; [apply l_fast_NoDup|apply m_fast_NoDup|]. intros (l, m). now rewrite l_fast_In, m_fast_In. Qed.

(* ---- triangular layout ---- *)
Definition tri (L m : Z) : Z := m * (2 * L + 1 - m) / 2.
Lemma tri_2 L m : 2 * tri L m = m * (2 * L + 1 - m).
Proof.
  unfold tri. pose proof (Z.div_mod (m * (2 * L + 1 - m)) 2 ltac:(lia)) as E.
  assert (M : (m * (2 * L + 1 - m)) mod 2 = 0); [|lia].
  destruct (Z.Even_or_Odd m) as [(k & ->)|(k & ->)].
  - replace (2 * k * (2 * L + 1 - 2 * k)) with ((k * (2 * L + 1 - 2 * k)) * 2) by ring. apply Z.mod_mul. lia.
  - replace ((2 * k + 1) * (2 * L + 1 - (2 * k + 1))) with (((2 * k + 1) * (L - k)) * 2) by ring. apply Z.mod_mul. lia.
Qed.
Lemma tri_succ L m : tri L (m + 1) = tri L m + L - m.
Proof. pose proof (tri_2 L m) as H1. pose proof (tri_2 L (m + 1)) as H2. lia. Qed.
(* row m of the layout starts at tri m + m; later rows start after earlier ones end *)
Lemma tri_mono L m m' : 0 <= m < m' -> m' <= L + 1 -> tri L m + L < tri L m' + m'.
Proof. intros H1 H2. pose proof (tri_2 L m) as E1. pose proof (tri_2 L m') as E2. nia. Qed.
Lemma tri_incr L m m' : 0 <= m <= m' -> m' <= L -> tri L m <= tri L m'.
Proof. intros H1 H2. pose proof (tri_2 L m) as E1. pose proof (tri_2 L m') as E2. nia. Qed.
Lemma tri_cover L mm i : 0 <= mm <= L -> 0 <= i < tri L mm + L + 1 -> exists l m, valid L mm l m /\ tri L m + l = i.
Proof.
  intros Hm. replace mm with (Z.of_nat (Z.to_nat mm)) in * by lia. set (k := Z.to_nat mm) in *. clearbody k. clear mm.
  induction k as [|k IH]; intros Hi.
  - change (Z.of_nat 0) with 0 in *. pose proof (tri_2 L 0). exists i, 0. unfold valid. lia.
  - rewrite Nat2Z.inj_succ in *. unfold Z.succ in *. rewrite tri_succ in Hi. set (K := Z.of_nat k) in *.
    destruct (Z.lt_ge_cases i (tri L K + L + 1)) as [C|C].
    + destruct IH as (l & m & V & E); [lia|lia|]. exists l, m. unfold valid in *. lia.
    + exists (i - tri L (K + 1)), (K + 1). rewrite tri_succ. unfold valid. lia.
Qed.

Lemma np_max_mono f n : 0 <= n -> (forall m m', 0 <= m <= m' -> m' <= n -> f m <= f m') -> np_max (map f (zrange 0 (n + 1))) = Some (f n).
Proof.
  intros Hn Hf. rewrite zrange_cons by lia. cbn [map np_max]. f_equal.
  assert (G : forall k : nat, Z.of_nat k <= n -> fold_left Z.max (map f (zrange (0 + 1) (Z.of_nat k + 1))) (f 0) = f (Z.of_nat k)).
  { induction k as [|k IH]; intros Hk; [rewrite zrange_empty by lia; reflexivity|].
    replace (Z.of_nat (S k) + 1) with ((Z.of_nat k + 1) + 1) by lia. rewrite zrange_snoc, map_app, fold_left_app, IH by lia. cbn [map fold_left].
    replace (Z.of_nat (S k)) with (Z.of_nat k + 1) by lia. apply Z.max_r. apply Hf; lia. }
  specialize (G (Z.to_nat n)). rewrite Z2Nat.id in G by lia. apply G. lia.
Qed.
Lemma pyget_map_range {A} (f : Z -> A) n m : 0 <= m < n -> pyget (map f (zrange 0 n)) m = Some (f m).
Proof.
  intros H. unfold pyget. destruct (Z.ltb_spec m 0); [lia|]. rewrite zget_map, zget_zrange by lia. reflexivity.
Qed.
Lemma zget_map_range {A} (f : Z -> A) n m : 0 <= m < n -> zget (map f (zrange 0 n)) m = Some (f m).
Proof. intros H. rewrite zget_map, zget_zrange by lia. reflexivity. Qed.

Definition tri_info (L mm stride : Z) : ainfo := AI L mm stride (stride * (tri L mm + L + 1)) (map (fun m => stride * tri L m) (zrange 0 (mm + 1))).
Lemma alm_info_tri lmax mmax nalm stride : 0 <= mmax <= lmax -> 1 <= stride ->
  alm_info (Some lmax) (Some mmax) nalm stride Tri =
  if (match nalm with Some n => ai_nelem (tri_info lmax mmax stride) =? n | None => true end) then Some (tri_info lmax mmax stride) else None.
Proof.
  intros H1 H2. unfold alm_info. change (map (fun m => stride * (m * (2 * lmax + 1 - m) / 2)) (zrange 0 (mmax + 1))) with (map (fun m => stride * tri lmax m) (zrange 0 (mmax + 1))).
  rewrite np_max_mono; [|lia|intros m m' A B; pose proof (tri_incr lmax m m' A ltac:(lia)); nia].
  replace (stride * tri lmax mmax + (lmax + 1) * stride) with (ai_nelem (tri_info lmax mmax stride)) by (cbn [ai_nelem tri_info]; ring).
  reflexivity.
Qed.
Lemma tri_lm2ind L mm stride l m : valid L mm l m -> lm2ind (tri_info L mm stride) l m = Some (stride * (tri L m + l)).
Proof. intros V. unfold lm2ind. cbn [ai_mstart ai_stride tri_info]. unfold valid in V. rewrite pyget_map_range by lia. f_equal. ring. Qed.
Lemma tri_layout L mm stride : 0 <= mm <= L -> 1 <= stride -> layout_ok L mm (ai_nelem (tri_info L mm stride)) (fun l m => stride * (tri L m + l)).
Proof.
  intros H1 H2. cbn [ai_nelem tri_info]. split.
  - intros l m V. unfold valid in V. assert (0 <= tri L m) by (pose proof (tri_incr L 0 m ltac:(lia) ltac:(lia)); pose proof (tri_2 L 0); lia).
    assert (tri L m <= tri L mm) by (apply tri_incr; lia). nia.
  - intros l m l' m' V V' E. unfold valid in V, V'. assert (E' : tri L m + l = tri L m' + l') by nia. clear E.
    destruct (Z.lt_trichotomy m m') as [C|[C|C]]; [pose proof (tri_mono L m m' ltac:(lia) ltac:(lia)); lia| |pose proof (tri_mono L m' m ltac:(lia) ltac:(lia)); lia].
    subst. lia.
Qed.

(* ---- rectangular layout ---- *)
Definition rect_info (L mm stride : Z) : ainfo := AI L mm stride (stride * ((mm + 1) * (L + 1))) (map (fun m => m * (L + 1) * stride) (zrange 0 (mm + 1))).
Lemma alm_info_rect lmax mmax nalm stride : 0 <= mmax -> 0 <= lmax -> 1 <= stride ->
  alm_info (Some lmax) (Some mmax) nalm stride Rect =
  if (match nalm with Some n => ai_nelem (rect_info lmax mmax stride) =? n | None => true end) then Some (rect_info lmax mmax stride) else None.
Proof.
  intros H1 H0 H2. unfold alm_info. rewrite (np_max_mono (fun m => m * (lmax + 1) * stride)); [|lia|intros m m' A B; assert (0 <= (m' - m) * ((lmax + 1) * stride)) by (apply Z.mul_nonneg_nonneg; nia); nia].
  replace (mmax * (lmax + 1) * stride + (lmax + 1) * stride) with (ai_nelem (rect_info lmax mmax stride)) by (cbn [ai_nelem rect_info]; ring).
  reflexivity.
Qed.
Lemma rect_lm2ind L mm stride l m : valid L mm l m -> lm2ind (rect_info L mm stride) l m = Some (stride * (m * (L + 1) + l)).
Proof. intros V. unfold lm2ind. cbn [ai_mstart ai_stride rect_info]. unfold valid in V. rewrite (pyget_map_range (fun m => m * (L + 1) * stride)) by lia. f_equal. ring. Qed.
Lemma rect_layout L mm stride : 0 <= mm -> 0 <= L -> 1 <= stride -> layout_ok L mm (ai_nelem (rect_info L mm stride)) (fun l m => stride * (m * (L + 1) + l)).
Proof.
  intros H1 H0 H2. cbn [ai_nelem rect_info]. split.
  - intros l m V. unfold valid in V. assert (0 <= m * (L + 1) + l < (mm + 1) * (L + 1)) by nia. nia.
  - intros l m l' m' V V' E. unfold valid in V, V'. assert (E' : m * (L + 1) + l = m' * (L + 1) + l') by nia. clear E.
    destruct (Z.lt_trichotomy m m') as [C|[C|C]]; [nia| |nia]. subst. lia.
Qed.

(* ---- l_max from the number of elements ---- *)
Lemma nalm2lmax_tri L : 0 <= L -> nalm2lmax ((L + 1) * (L + 2) / 2) = Some L.
Proof.
  intros H. unfold nalm2lmax. pose proof (tri_2 (L + 1) (L + 1)) as E. unfold tri in E.
  replace ((L + 1) * (2 * (L + 1) + 1 - (L + 1))) with ((L + 1) * (L + 2)) in E by ring.
  set (n := (L + 1) * (L + 2) / 2) in *. clearbody n. destruct (Z.ltb_spec n 0); [nia|].
  replace (1 + 8 * n) with ((2 * L + 3) * (2 * L + 3)) by lia. rewrite Z.sqrt_square by lia.
  replace (2 * L + 3 - 1) with ((L + 1) * 2) by ring. rewrite Z.div_mul by lia. f_equal. lia.
Qed.
Lemma nalm2lmax_bound n L : nalm2lmax n = Some L -> -1 <= L.
Proof.
  unfold nalm2lmax. destruct (Z.ltb_spec n 0); [discriminate|]. intros E. apply Some_inj in E. subst L.
  assert (1 <= Z.sqrt (1 + 8 * n)) by (change 1 with (Z.sqrt 1) at 1; apply Z.sqrt_le_mono; lia).
  assert (0 <= (Z.sqrt (1 + 8 * n) - 1) / 2) by (apply Z.div_pos; lia). lia.
Qed.

(* ---- a layout as seen by the C helpers ---- *)
Lemma cind_lm2ind a l m : ai_stride a = 1 -> 0 <= m -> cind a l m = lm2ind a l m.
Proof.
  intros S H. unfold cind, lm2ind, pyget. destruct (Z.ltb_spec m 0); [lia|]. rewrite S. destruct (zget (ai_mstart a) m); [f_equal; lia|reflexivity].
Qed.

(* ---- transposition ---- *)
Definition nxt (mmax : Z) (p : Z * Z) : Z * Z := let '(l, m) := p in if (mmax <? m + 1) || (l <? m + 1) then (l + 1, 0) else (l, m + 1).
Inductive chain (mmax : Z) : list (Z * Z) -> Prop :=
| ch_nil : chain mmax []
| ch_one p : chain mmax [p]
| ch_cons p q l : nxt mmax p = q -> chain mmax (q :: l) -> chain mmax (p :: q :: l).
Lemma chain_app mmax u p q v : chain mmax (u ++ [p]) -> nxt mmax p = q -> chain mmax (q :: v) -> chain mmax ((u ++ [p]) ++ q :: v).
Proof.
  intros H1 H2 H3. rewrite <- app_assoc. cbn [app]. induction u as [|x u IH]; cbn [app] in *; [constructor; assumption|].
  destruct u as [|y u]; cbn [app] in *; inversion H1; subst; constructor; auto.
Qed.
Lemma row_chain mmax l k : 0 <= k <= Z.min l mmax -> chain mmax (map (fun m => (l, m)) (zrange 0 (k + 1))).
Proof.
  intros H. replace k with (Z.of_nat (Z.to_nat k)) in * by lia. set (n := Z.to_nat k) in *. clearbody n. clear k.
  induction n as [|n IH]; [rewrite zrange_cons, zrange_empty by lia; constructor|].
  rewrite zrange_snoc, map_app by lia. replace (Z.of_nat (S n)) with (Z.of_nat n + 1) by lia.
  rewrite zrange_snoc, map_app by lia. cbn [map]. apply chain_app; [|cbn [nxt]|constructor].
  - change [(l, Z.of_nat n)] with (map (fun m : Z => (l, m)) [Z.of_nat n]). rewrite <- map_app, <- zrange_snoc by lia. apply IH. lia.
  - destruct (Z.ltb_spec mmax (Z.of_nat n + 1)); [lia|]. destruct (Z.ltb_spec l (Z.of_nat n + 1)); [lia|]. reflexivity.
Qed.
Lemma m_fast_snoc lmax mmax : 0 <= lmax + 1 -> m_fast (lmax + 1) mmax = m_fast lmax mmax ++ map (fun m => (lmax + 1, m)) (zrange 0 (Z.min (lmax + 1) mmax + 1)).
Proof. intros H. unfold m_fast. rewrite zrange_snoc, flat_map_app by lia. cbn [flat_map]. now rewrite app_nil_r. Qed.
Lemma m_fast_chain lmax mmax : 0 <= lmax -> 0 <= mmax -> (exists u, m_fast lmax mmax = (0, 0) :: u) /\ (exists u, m_fast lmax mmax = u ++ [(lmax, Z.min lmax mmax)]) /\ chain mmax (m_fast lmax mmax).
Proof.
  intros Hl Hm. replace lmax with (Z.of_nat (Z.to_nat lmax)) by lia. set (n := Z.to_nat lmax). clearbody n. clear lmax Hl.
  induction n as [|n IH].
  - change (Z.of_nat 0) with 0. unfold m_fast. rewrite (zrange_cons 0) by lia. rewrite zrange_empty by lia. cbn [flat_map]. rewrite app_nil_r.
    rewrite Z.min_l by lia. rewrite (zrange_cons 0) by lia. rewrite zrange_empty by lia. cbn [map]. split; [exists []; reflexivity|]. split; [exists []; reflexivity|constructor].
  - rewrite Nat2Z.inj_succ. unfold Z.succ. rewrite m_fast_snoc by lia. destruct IH as ((u1 & E1) & (u2 & E2) & IH). set (N := Z.of_nat n) in *.
    split; [exists (u1 ++ map (fun m : Z => (N + 1, m)) (zrange 0 (Z.min (N + 1) mmax + 1))); rewrite E1; reflexivity|]. split.
    + rewrite zrange_snoc, map_app by lia. cbn [map]. exists (m_fast N mmax ++ map (fun m : Z => (N + 1, m)) (zrange 0 (Z.min (N + 1) mmax))). now rewrite app_assoc.
    + pose proof (row_chain mmax (N + 1) (Z.min (N + 1) mmax) ltac:(lia)) as RC. rewrite zrange_cons in * by lia. cbn [map] in *.
      rewrite E2. apply chain_app; [rewrite <- E2; exact IH| |exact RC]. cbn [nxt].
      destruct (Z.ltb_spec mmax (Z.min N mmax + 1)); [reflexivity|]. destruct (Z.ltb_spec N (Z.min N mmax + 1)); [reflexivity|lia].
Qed.

Section Transpose.
Context {A : Type} (a : ainfo) (n : Z) (at_ : Z -> Z -> Z).
Context (Hlay : layout_ok (ai_lmax a) (ai_mmax a) n at_) (Hstr : ai_stride a = 1).
Context (Hat : forall l m, valid (ai_lmax a) (ai_mmax a) l m -> lm2ind a l m = Some (at_ l m)).

Lemma cind_at l m : valid (ai_lmax a) (ai_mmax a) l m -> cind a l m = Some (at_ l m).
Proof. intros V. rewrite cind_lm2ind; [apply Hat; exact V|exact Hstr|unfold valid in V; lia]. Qed.

(* positions paired with sources *)
Lemma tstep_run (ialm : list A) : zlen ialm = n -> forall L P st work, length L = length P -> chain (ai_mmax a) P ->
  (forall p, In p L -> valid (ai_lmax a) (ai_mmax a) (fst p) (snd p)) -> (forall p, In p P -> valid (ai_lmax a) (ai_mmax a) (fst p) (snd p)) ->
  NoDup P -> zlen work = n -> (match P with p :: _ => st = p | [] => True end) ->
  exists st' work', ofold (tstep a ialm) L (st, work) = Some (st', work') /\ zlen work' = n /\
    map (fun p => zget work' (at_ (fst p) (snd p))) P = map (fun p => zget ialm (at_ (fst p) (snd p))) L /\
    (forall k, (forall p, In p P -> k <> at_ (fst p) (snd p)) -> zget work' k = zget work k).
Proof.
  intros Hi. induction L as [|(il, im) L IH]; intros [|(ol, om) P] st work HL HC HvL HvP ND Hw Hst; try discriminate.
  - exists st, work. cbn. auto.
  - subst st. cbn [ofold]. pose proof (HvL (il, im) (or_introl eq_refl)) as V1. pose proof (HvP (ol, om) (or_introl eq_refl)) as V2. cbn [fst snd] in V1, V2.
    unfold tstep at 1. rewrite (cind_at _ _ V1), (cind_at _ _ V2). destruct Hlay as (HR & HI).
    pose proof (HR _ _ V1) as R1. pose proof (HR _ _ V2) as R2. destruct (zget_in_range ialm (at_ il im)) as (v & Ev); [lia|]. rewrite Ev.
    destruct (set_at_spec work (at_ ol om) v) as (w1 & E1 & L1 & G1); [lia|]. rewrite E1. cbn zeta.
    set (st1 := if (ai_mmax a <? om + 1) || (ol <? om + 1) then (ol + 1, 0, w1) else (ol, om + 1, w1)).
    assert (Es : st1 = (nxt (ai_mmax a) (ol, om), w1)) by (unfold st1, nxt; destruct ((ai_mmax a <? om + 1) || (ol <? om + 1)); reflexivity).
    rewrite Es. apply NoDup_cons_iff in ND. destruct ND as (N1 & N2).
    destruct (IH P (nxt (ai_mmax a) (ol, om)) w1) as (st' & work' & E2 & L2 & G2 & G3).
    + cbn [length] in HL. lia.
    + inversion HC; subst; [constructor|assumption].
    + intros p Hp. apply HvL. right. exact Hp.
    + intros p Hp. apply HvP. right. exact Hp.
    + exact N2.
    + lia.
    + inversion HC; subst; [exact I|reflexivity].
    + exists st', work'. split; [exact E2|]. split; [exact L2|]. cbn [map fst snd]. split.
      * f_equal; [|exact G2]. rewrite G3; [rewrite G1, Z.eqb_refl; symmetry; exact Ev|]. intros (l, m) Hp E. cbn [fst snd] in E.
        apply HI in E; [|exact V2|apply (HvP (l, m)); right; exact Hp]. destruct E as (-> & ->). contradiction.
      * intros k Hk. rewrite G3; [|intros p Hp; apply Hk; right; exact Hp]. rewrite G1.
        destruct (Z.eqb_spec k (at_ ol om)) as [E|E]; [exfalso; apply (Hk (ol, om) (or_introl eq_refl)); exact E|reflexivity].
Qed.
Lemma transpose_raw_ok (ialm work : list A) : 0 <= ai_mmax a -> 0 <= ai_lmax a -> zlen ialm = n -> zlen work = n ->
  exists out, transpose_raw a ialm work = Some out /\ zlen out = n /\
    map (fun p => zget out (at_ (fst p) (snd p))) (m_fast (ai_lmax a) (ai_mmax a)) = map (fun p => zget ialm (at_ (fst p) (snd p))) (l_fast (ai_lmax a) (ai_mmax a)) /\
    (forall k, (forall l m, valid (ai_lmax a) (ai_mmax a) l m -> k <> at_ l m) -> zget out k = zget work k).
Proof.
  intros H0 H00 H1 H2. destruct (m_fast_chain (ai_lmax a) (ai_mmax a) H00 H0) as ((u & Eu) & _ & CH).
  destruct (tstep_run ialm H1 (l_fast (ai_lmax a) (ai_mmax a)) (m_fast (ai_lmax a) (ai_mmax a)) (0, 0) work) as (st & out & E & L & G & K).
  - apply Permutation_length, fast_perm.
  - exact CH.
  - intros (l, m) Hp. apply l_fast_In in Hp. exact Hp.
  - intros (l, m) Hp. apply m_fast_In in Hp. exact Hp.
  - apply m_fast_NoDup.
  - exact H2.
  - rewrite Eu. reflexivity.
  - exists out. unfold transpose_raw. change (flat_map _ _) with (l_fast (ai_lmax a) (ai_mmax a)). rewrite E. split; [reflexivity|]. split; [exact L|]. split; [exact G|].
    intros k Hk. apply K. intros (l, m) Hp. apply m_fast_In in Hp. apply Hk. exact Hp.
Qed.
Lemma transpose_stack_ok (zero : A) : 0 <= ai_mmax a -> 0 <= ai_lmax a -> forall alms work, (forall x, In x alms -> zlen x = n) -> zlen work = n ->
  (forall k, 0 <= k < n -> (forall l m, valid (ai_lmax a) (ai_mmax a) l m -> k <> at_ l m) -> zget work k = Some zero) ->
  exists outs, transpose_stack a alms work = Some outs /\ Forall2 (fun x out => zlen out = n /\
    map (fun p => zget out (at_ (fst p) (snd p))) (m_fast (ai_lmax a) (ai_mmax a)) = map (fun p => zget x (at_ (fst p) (snd p))) (l_fast (ai_lmax a) (ai_mmax a)) /\
    (forall k, 0 <= k < n -> (forall l m, valid (ai_lmax a) (ai_mmax a) l m -> k <> at_ l m) -> zget out k = Some zero)) alms outs.
Proof.
  intros H0 H00. induction alms as [|x alms IH]; intros work HA HW HZ; cbn [transpose_stack]; [exists []; auto|].
  destruct (transpose_raw_ok x work H0 H00 (HA x (or_introl eq_refl)) HW) as (w & E & L & G & K). rewrite E.
  assert (Zw : forall k, 0 <= k < n -> (forall l m, valid (ai_lmax a) (ai_mmax a) l m -> k <> at_ l m) -> zget w k = Some zero) by (intros k Hk Hv; rewrite K by exact Hv; apply HZ; assumption).
  destruct (IH w) as (outs & Eo & F); [intros; apply HA; right; assumption|exact L|exact Zw|].
  rewrite Eo. exists (w :: outs). split; [reflexivity|]. constructor; auto.
Qed.
End Transpose.

(* ---- copying between layouts ---- *)
Lemma ofold_ext_inv {S A} (Q : S -> Prop) (f g : S -> A -> option S) l s :
  (forall s x, In x l -> Q s -> f s x = g s x) -> (forall s x s', In x l -> Q s -> g s x = Some s' -> Q s') -> Q s -> ofold f l s = ofold g l s.
Proof.
  revert s; induction l as [|x l IH]; intros s H1 H2 Hs; cbn [ofold]; [reflexivity|]. rewrite H1 by (auto; left; reflexivity).
  destruct (g s x) as [s'|] eqn:E; [|reflexivity]. apply IH; [intros; apply H1; [right|]; assumption|intros; eapply H2; [right| |]; eassumption|].
  eapply H2; [left; reflexivity|exact Hs|exact E].
Qed.
Lemma ofold_inv {S A} (Q : S -> Prop) (f : S -> A -> option S) l s s' :
  (forall s x s', In x l -> Q s -> f s x = Some s' -> Q s') -> Q s -> ofold f l s = Some s' -> Q s'.
Proof.
  revert s; induction l as [|x l IH]; intros s H Hs; cbn [ofold]; [intros E; congruence|].
  destruct (f s x) as [s1|] eqn:E; [|discriminate]. apply IH; [intros; eapply H; [right| |]; eassumption|]. eapply H; [left; reflexivity|exact Hs|exact E].
Qed.
Lemma set_at_zlen {A} (l l' : list A) i v : set_at l i v = Some l' -> zlen l' = zlen l.
Proof. intros E. pose proof (set_at_range _ _ _ _ E) as R. destruct (set_at_spec l i v R) as (l2 & E2 & L2 & _). congruence. Qed.
Lemma zrange_map_shift a b : map (fun k => a + k) (zrange 0 (b - a)) = zrange a b.
Proof.
  apply zget_ext. intros k. rewrite zget_map. destruct (Z.lt_ge_cases k 0) as [C|C]; [rewrite !zget_out by lia; reflexivity|].
  destruct (Z.lt_ge_cases k (b - a)) as [C'|C']; [rewrite !zget_zrange by lia; reflexivity|]. rewrite !zget_out; [reflexivity|right; rewrite zrange_zlen; lia|right; rewrite zrange_zlen; lia].
Qed.
Lemma slice_inds_spec n s0 m lmax st : 1 <= st -> m <= lmax -> s0 + lmax * st < n ->
  slice_inds n (s0 + m * st) (s0 + (lmax + 1) * st) st = map (fun l => s0 + l * st) (zrange m (lmax + 1)).
Proof.
  intros H1 H2 H3. unfold slice_inds.
  assert (E : (Z.min (s0 + (lmax + 1) * st) n - (s0 + m * st) + st - 1) / st = lmax + 1 - m).
  { destruct (Z.le_gt_cases (s0 + (lmax + 1) * st) n) as [C|C].
    - rewrite Z.min_l by lia. symmetry. apply Z.div_unique_pos with (r := st - 1); [lia|ring].
    - rewrite Z.min_r by lia. symmetry. apply Z.div_unique_pos with (r := n - (s0 + lmax * st) - 1); [|ring]. rewrite Z.mul_add_distr_r in C. lia. }
  rewrite E. rewrite <- (zrange_map_shift m (lmax + 1)). rewrite map_map. apply map_ext. intros k. ring.
Qed.
Lemma combine_map2 {A B C} (f : A -> B) (g : A -> C) l : combine (map f l) (map g l) = map (fun x => (f x, g x)) l.
Proof. induction l as [|x l IH]; cbn; [reflexivity|]. now rewrite IH. Qed.

Section Transfer.
Context {A : Type} (op : A -> A -> A) (ai ao : ainfo) (ni no : Z) (ati ato : Z -> Z -> Z).
Context (Hli : layout_ok (ai_lmax ai) (ai_mmax ai) ni ati) (Hlo : layout_ok (ai_lmax ao) (ai_mmax ao) no ato).
Context (Hai : forall l m, valid (ai_lmax ai) (ai_mmax ai) l m -> lm2ind ai l m = Some (ati l m)) (Hao : forall l m, valid (ai_lmax ao) (ai_mmax ao) l m -> lm2ind ao l m = Some (ato l m)).
Context (Hmi : 0 <= ai_mmax ai <= ai_lmax ai) (Hmo : 0 <= ai_mmax ao <= ai_lmax ao) (Hsi : 1 <= ai_stride ai) (Hso : 1 <= ai_stride ao).
Context (ialm : list A) (Hni : zlen ialm = ni).
Let lmax := Z.min (ai_lmax ai) (ai_lmax ao).
Let mmax := Z.min (ai_mmax ai) (ai_mmax ao).
Definition tr_step (oa : list A) (p : Z * Z) : option (list A) :=
  match zget oa (ato (fst p) (snd p)), zget ialm (ati (fst p) (snd p)) with Some x, Some y => set_at oa (ato (fst p) (snd p)) (op x y) | _, _ => None end.
Lemma common_valid l m : valid lmax mmax l m -> valid (ai_lmax ai) (ai_mmax ai) l m /\ valid (ai_lmax ao) (ai_mmax ao) l m.
Proof. unfold valid, lmax, mmax. lia. Qed.
Lemma mstart_of (a : ainfo) (at_ : Z -> Z -> Z) l m : 0 <= m -> lm2ind a l m = Some (at_ l m) -> exists s, zget (ai_mstart a) m = Some s /\ at_ l m = s + l * ai_stride a.
Proof.
  intros H E. unfold lm2ind, pyget in E. destruct (Z.ltb_spec m 0); [lia|]. destruct (zget (ai_mstart a) m) as [s|]; [|discriminate]. exists s. split; [reflexivity|congruence].
Qed.
Lemma transfer_flat oalm : zlen oalm = no -> transfer_one op ai ialm ao oalm = ofold tr_step (l_fast lmax mmax) oalm.
Proof.
  intros Ho. unfold transfer_one. fold lmax mmax. unfold l_fast. rewrite <- ofold_flat.
  apply (ofold_ext_inv (fun oa => zlen oa = no)); [| |exact Ho].
  - intros oa m Hm Lo. apply zrange_In in Hm. rewrite ofold_map.
    assert (V : forall l, m <= l <= lmax -> valid lmax mmax l m) by (unfold valid; lia).
    assert (ML : m <= lmax) by (unfold lmax, mmax in *; lia).
    destruct (mstart_of ai ati lmax m) as (im & Ei & Fi); [lia|apply Hai, common_valid, V; lia|].
    destruct (mstart_of ao ato lmax m) as (om & Eo & Fo); [lia|apply Hao, common_valid, V; lia|]. rewrite Ei, Eo.
    destruct (common_valid _ _ (V lmax ltac:(lia))) as (Vi & Vo). pose proof (proj1 Hli _ _ Vi) as Ri. pose proof (proj1 Hlo _ _ Vo) as Ro.
    rewrite !slice_inds_spec by lia. set (l0 := zrange m (lmax + 1)). unfold transfer_slice. rewrite !zlen_map.
    assert (Es : (if zlen l0 =? 1 then repeat (hd 0 (map (fun l => im + l * ai_stride ai) l0)) (length (map (fun l => om + l * ai_stride ao) l0)) else map (fun l => im + l * ai_stride ai) l0) = map (fun l => im + l * ai_stride ai) l0).
    { destruct (Z.eqb_spec (zlen l0) 1) as [E|E]; [|reflexivity]. destruct l0 as [|x [|y l0]]; [reflexivity|reflexivity|]. rewrite !zlen_cons in E. pose proof (zlen_nonneg l0). lia. }
    rewrite Es, zlen_map, Z.eqb_refl. cbn [negb]. rewrite combine_map2, ofold_map. cbn [fst snd]. apply ofold_ext. intros oa' l Hl. apply zrange_In in Hl. unfold tr_step. cbn [fst snd].
    destruct (common_valid _ _ (V l ltac:(lia))) as (Vi' & Vo').
    destruct (mstart_of ai ati l m) as (im' & Ei' & Fi'); [lia|apply Hai, Vi'|]. destruct (mstart_of ao ato l m) as (om' & Eo' & Fo'); [lia|apply Hao, Vo'|].
    rewrite Ei in Ei'. rewrite Eo in Eo'. apply Some_inj in Ei', Eo'. subst im' om'. rewrite <- Fi', <- Fo'. reflexivity.
  - intros oa m oa' _ Lo. apply (ofold_inv (fun oa => zlen oa = no)); [|exact Lo]. intros s x s' _ Ls. unfold tr_step.
    destruct (zget s (ato (fst x) (snd x))); [|discriminate]. destruct (zget ialm (ati (fst x) (snd x))); [|discriminate]. intros E. apply set_at_zlen in E. lia.
Qed.
Lemma transfer_ok oalm : zlen oalm = no -> exists out, transfer_one op ai ialm ao oalm = Some out /\ zlen out = no /\
  (forall l m x y, valid lmax mmax l m -> zget oalm (ato l m) = Some x -> zget ialm (ati l m) = Some y -> zget out (ato l m) = Some (op x y)) /\
  (forall k, (forall l m, valid lmax mmax l m -> k <> ato l m) -> zget out k = zget oalm k).
Proof.
  intros Ho. rewrite transfer_flat by exact Ho.
  set (val := fun (p : Z * Z) x => match zget ialm (ati (fst p) (snd p)) with Some y => op x y | None => x end).
  destruct (scatter_spec (fun p => ato (fst p) (snd p)) val tr_step no (l_fast lmax mmax) oalm) as (out & E & L & G & K).
  - intros oa (l, m) x Hp Lo Ex. apply l_fast_In in Hp. unfold tr_step, val. cbn [fst snd] in *. rewrite Ex.
    destruct (common_valid _ _ Hp) as (Vi & Vo). destruct (zget_in_range ialm (ati l m)) as (y & Ey); [pose proof (proj1 Hli _ _ Vi); lia|]. rewrite Ey. reflexivity.
  - apply NoDup_map_inj; [|apply l_fast_NoDup]. intros (l, m) (l', m') H H' E. apply l_fast_In in H, H'. apply (proj2 Hlo) in E; [destruct E; cbn [fst snd] in *; congruence|apply common_valid, H|apply common_valid, H'].
  - intros (l, m) H. apply l_fast_In in H. apply (proj1 Hlo). apply common_valid, H.
  - exact Ho.
  - exists out. split; [exact E|]. split; [exact L|]. split.
    + intros l m x y V Ex Ey. pose proof (G (l, m) x) as Gl. cbn [fst snd] in Gl. rewrite Gl; [|apply l_fast_In; exact V|exact Ex]. unfold val. cbn [fst snd]. rewrite Ey. reflexivity.
    + intros k Hk. apply K. rewrite in_map_iff. intros ((l, m) & E' & Hp). apply l_fast_In in Hp. apply (Hk l m Hp). symmetry. exact E'.
Qed.
End Transfer.

(* ---- parallel loops over m, in any order ---- *)
Definition in_order (lo hi : Z -> Z) (ms : list Z) : list (Z * Z) := flat_map (fun m => map (fun l => (l, m)) (zrange (lo m) (hi m))) ms.
Lemma in_order_In lo hi ms l m : In (l, m) (in_order lo hi ms) <-> In m ms /\ lo m <= l < hi m.
Proof.
  unfold in_order. rewrite in_flat_map. split.
  - intros (m' & Hm & H). apply in_map_iff in H. destruct H as (l' & E & H). injection E as -> ->. apply zrange_In in H. auto.
  - intros (Hm & H). exists m. split; [exact Hm|]. apply in_map_iff. exists l. split; [reflexivity|]. apply zrange_In. exact H.
Qed.
Lemma in_order_NoDup lo hi ms : NoDup ms -> NoDup (in_order lo hi ms).
Proof.
  intros H. apply NoDup_flat_map; [| |exact H].
  - intros m _. apply NoDup_map_inj; [|apply zrange_NoDup]. intros x y _ _ E. congruence.
  - intros m m' z _ _ H1 H2. apply in_map_iff in H1, H2. destruct H1 as (? & <- & _), H2 as (? & E & _). congruence.
Qed.
Lemma perm_range_NoDup ms n : Permutation ms (zrange 0 n) -> NoDup ms.
Proof. intros P. apply (Permutation_NoDup (Permutation_sym P)), zrange_NoDup. Qed.
Lemma perm_range_In ms n m : Permutation ms (zrange 0 n) -> In m ms <-> 0 <= m < n.
Proof. intros P. rewrite <- zrange_In. split; intros H; [apply (Permutation_in _ P H)|apply (Permutation_in _ (Permutation_sym P) H)]. Qed.

Section TransferC.
Context {A : Type} (ai ao : ainfo) (ni no : Z) (ati ato : Z -> Z -> Z).
Context (Hli : layout_ok (ai_lmax ai) (ai_mmax ai) ni ati) (Hlo : layout_ok (ai_lmax ao) (ai_mmax ao) no ato).
Context (Hai : forall l m, valid (ai_lmax ai) (ai_mmax ai) l m -> lm2ind ai l m = Some (ati l m)) (Hao : forall l m, valid (ai_lmax ao) (ai_mmax ao) l m -> lm2ind ao l m = Some (ato l m)).
Context (Hsi : ai_stride ai = 1) (Hso : ai_stride ao = 1).
Context (ialm : list A) (Hni : zlen ialm = ni).
Let lmax := Z.min (ai_lmax ai) (ai_lmax ao).
Let mmax := Z.min (ai_mmax ai) (ai_mmax ao).
Lemma transfer_c_ok ms oalm : Permutation ms (zrange 0 (mmax + 1)) -> zlen oalm = no -> exists out, transfer_c ms ai ialm ao oalm = Some out /\ zlen out = no /\
  (forall l m, valid lmax mmax l m -> zget out (ato l m) = zget ialm (ati l m)) /\
  (forall k, (forall l m, valid lmax mmax l m -> k <> ato l m) -> zget out k = zget oalm k).
Proof.
  intros P Ho.
  assert (V : forall l m, In (l, m) (in_order (fun m => m) (fun _ => lmax + 1) ms) <-> valid lmax mmax l m).
  { intros l m. rewrite in_order_In, (perm_range_In _ _ _ P). unfold valid. lia. }
  assert (CV : forall l m, valid lmax mmax l m -> valid (ai_lmax ai) (ai_mmax ai) l m /\ valid (ai_lmax ao) (ai_mmax ao) l m) by (intros l m; unfold valid, lmax, mmax; lia).
  set (step := fun out (p : Z * Z) => match cind ai (fst p) (snd p), cind ao (fst p) (snd p) with Some i1, Some i2 => match zget ialm i1 with Some v => @set_at A out i2 v | None => None end | _, _ => None end).
  assert (EQ : transfer_c ms ai ialm ao oalm = ofold step (in_order (fun m => m) (fun _ => lmax + 1) ms) oalm).
  { unfold transfer_c, in_order. fold lmax. rewrite <- ofold_flat. apply ofold_ext. intros s m _. rewrite ofold_map. reflexivity. }
  rewrite EQ. clear EQ.
  set (val := fun (p : Z * Z) (x : A) => match zget ialm (ati (fst p) (snd p)) with Some y => y | None => x end).
  destruct (scatter_spec (fun p => ato (fst p) (snd p)) val step no (in_order (fun m => m) (fun _ => lmax + 1) ms) oalm) as (out & E & L & G & K).
  - intros oa (l, m) x Hp Lo Ex. apply V in Hp. unfold step, val. cbn [fst snd] in *.
    destruct (CV _ _ Hp) as (Vi & Vo). destruct (zget_in_range ialm (ati l m)) as (y & Ey); [pose proof (proj1 Hli _ _ Vi); lia|].
    rewrite !cind_lm2ind by (assumption || (unfold valid in Hp; lia)). rewrite (Hai _ _ Vi), (Hao _ _ Vo), Ey. reflexivity.
  - apply NoDup_map_inj; [|apply in_order_NoDup, (perm_range_NoDup _ _ P)]. intros (l, m) (l', m') H H' E. apply V in H, H'. apply (proj2 Hlo) in E; [destruct E; cbn [fst snd] in *; congruence|apply CV, H|apply CV, H'].
  - intros (l, m) H. apply V in H. apply (proj1 Hlo). apply CV, H.
  - exact Ho.
  - exists out. split; [exact E|]. split; [exact L|]. split.
    + intros l m Hv. destruct (CV _ _ Hv) as (Vi & Vo). destruct (zget_in_range oalm (ato l m)) as (x & Ex); [pose proof (proj1 Hlo _ _ Vo); lia|].
      destruct (zget_in_range ialm (ati l m)) as (y & Ey); [pose proof (proj1 Hli _ _ Vi); lia|].
      pose proof (G (l, m) x) as Gl. cbn [fst snd] in Gl. rewrite Gl; [|apply V; exact Hv|exact Ex]. unfold val. cbn [fst snd]. rewrite Ey. reflexivity.
    + intros k Hk. apply K. rewrite in_map_iff. intros ((l, m) & E' & Hp). apply V in Hp. apply (Hk l m Hp). symmetry. exact E'.
Qed.
End TransferC.

(* ---- lmul ---- *)
Local Notation C := (R * R)%type.
Section Lmul.
Context (a : ainfo) (n : Z) (at_ : Z -> Z -> Z).
Context (Hlay : layout_ok (ai_lmax a) (ai_mmax a) n at_) (Hstr : ai_stride a = 1).
Context (Hat : forall l m, valid (ai_lmax a) (ai_mmax a) l m -> lm2ind a l m = Some (at_ l m)).
Definition fl (lfun : list R) (l : Z) : R := match zget lfun l with Some f => f | None => 0%R end.
Lemma lmul_ok ms (alm : list C) lfun : Permutation ms (zrange 0 (ai_mmax a + 1)) -> zlen alm = n -> exists out, lmul ms a alm lfun = Some out /\ zlen out = n /\
  (forall l m x, valid (ai_lmax a) (ai_mmax a) l m -> zget alm (at_ l m) = Some x -> zget out (at_ l m) = Some (rscale (fl lfun l) x)) /\
  (forall k, (forall l m, valid (ai_lmax a) (ai_mmax a) l m -> k <> at_ l m) -> zget out k = zget alm k).
Proof.
  intros P Ho.
  assert (V : forall l m, In (l, m) (in_order (fun m => m) (fun _ => ai_lmax a + 1) ms) <-> valid (ai_lmax a) (ai_mmax a) l m).
  { intros l m. rewrite in_order_In, (perm_range_In _ _ _ P). unfold valid. lia. }
  set (step := fun (alm : list C) (p : Z * Z) => match cind a (fst p) (snd p) with
    | Some i => match (if fst p <=? zlen lfun - 1 then zget lfun (fst p) else Some 0%R), zget alm i with Some v, Some x => set_at alm i (rscale v x) | _, _ => None end
    | None => None end).
  assert (EQ : lmul ms a alm lfun = ofold step (in_order (fun m => m) (fun _ => ai_lmax a + 1) ms) alm).
  { unfold lmul, in_order. rewrite <- ofold_flat. apply ofold_ext. intros s m _. rewrite ofold_map. reflexivity. }
  rewrite EQ. clear EQ.
  destruct (scatter_spec (fun p => at_ (fst p) (snd p)) (fun p x => rscale (fl lfun (fst p)) x) step n (in_order (fun m => m) (fun _ => ai_lmax a + 1) ms) alm) as (out & E & L & G & K).
  - intros oa (l, m) x Hp Lo Ex. apply V in Hp. unfold step. cbn [fst snd] in *. rewrite (cind_at a at_ Hstr Hat _ _ Hp), Ex. unfold fl.
    unfold valid in Hp. destruct (Z.leb_spec l (zlen lfun - 1)) as [Hc|Hc].
    + destruct (zget_in_range lfun l) as (f & Ef); [lia|]. rewrite Ef. reflexivity.
    + rewrite (zget_out lfun) by lia. reflexivity.
  - apply NoDup_map_inj; [|apply in_order_NoDup, (perm_range_NoDup _ _ P)]. intros (l, m) (l', m') H H' E. apply V in H, H'. apply (proj2 Hlay) in E; [destruct E; cbn [fst snd] in *; congruence|exact H|exact H'].
  - intros (l, m) H. apply V in H. apply (proj1 Hlay), H.
  - exact Ho.
  - exists out. split; [exact E|]. split; [exact L|]. split.
    + intros l m x Hv Ex. apply (G (l, m) x); [apply V; exact Hv|exact Ex].
    + intros k Hk. apply K. rewrite in_map_iff. intros ((l, m) & E' & Hp). apply V in Hp. apply (Hk l m Hp). symmetry. exact E'.
Qed.
End Lmul.

(* ---- memory made of rows ---- *)
Definition same_shape {A} (mem mem' : list (list A)) : Prop := forall q, option_map zlen (zget mem' q) = option_map zlen (zget mem q).
Lemma same_shape_trans {A} (m1 m2 m3 : list (list A)) : same_shape m1 m2 -> same_shape m2 m3 -> same_shape m1 m3.
Proof. intros H1 H2 q. rewrite H2. apply H1. Qed.
Lemma write_row_spec {A} (mem : list (list A)) p i v n : option_map zlen (zget mem p) = Some n -> 0 <= i < n ->
  exists mem', write_row mem p i v = Some mem' /\ same_shape mem mem' /\ forall q k, read_row mem' q k = if (q =? p) && (k =? i) then Some v else read_row mem q k.
Proof.
  intros H1 H2. unfold write_row. destruct (zget mem p) as [r|] eqn:E; [|discriminate]. cbn in H1. apply Some_inj in H1. subst n.
  destruct (set_at_spec r i v H2) as (r' & Er & Lr & Gr). rewrite Er. destruct (set_at_spec mem p r' (zget_Some_range _ _ _ E)) as (mem' & Em & Lm & Gm). rewrite Em.
  exists mem'. split; [reflexivity|]. split.
  - intros q. rewrite Gm. destruct (Z.eqb_spec q p) as [->|]; [rewrite E; cbn; now rewrite Lr|reflexivity].
  - intros q k. unfold read_row. rewrite Gm. destruct (Z.eqb_spec q p) as [->|]; cbn [andb]; [rewrite E; apply Gr|reflexivity].
Qed.
Lemma mem_scatter {A P} (pp kk : P -> Z) (vv : P -> A) (step : list (list A) -> P -> option (list (list A))) n L mem :
  (forall mem x, In x L -> step mem x = write_row mem (pp x) (kk x) (vv x)) ->
  NoDup (map (fun x => (pp x, kk x)) L) -> (forall x, In x L -> option_map zlen (zget mem (pp x)) = Some n /\ 0 <= kk x < n) ->
  exists mem', ofold step L mem = Some mem' /\ same_shape mem mem' /\
    (forall x, In x L -> read_row mem' (pp x) (kk x) = Some (vv x)) /\
    (forall q k, ~ In (q, k) (map (fun x => (pp x, kk x)) L) -> read_row mem' q k = read_row mem q k).
Proof.
  revert mem; induction L as [|x L IH]; intros mem HS ND HR; cbn [ofold map].
  - exists mem. split; [reflexivity|]. split; [intros q; reflexivity|]. split; [intros ? []|reflexivity].
  - cbn [map] in ND. apply NoDup_cons_iff in ND. destruct ND as (N1 & N2). destruct (HR x (or_introl eq_refl)) as (R1 & R2). rewrite HS by (left; reflexivity).
    destruct (write_row_spec mem (pp x) (kk x) (vv x) n R1 R2) as (m1 & E1 & S1 & G1). rewrite E1.
    destruct (IH m1) as (m2 & E2 & S2 & G2 & G3); [intros; apply HS; right; assumption|exact N2|intros y Hy; destruct (HR y (or_intror Hy)); split; [rewrite (S1 (pp y))|]; assumption|].
    exists m2. split; [exact E2|]. split; [apply (same_shape_trans _ _ _ S1 S2)|]. split.
    + intros y [->|Hy]; [|apply G2, Hy]. rewrite G3 by exact N1. rewrite G1, !Z.eqb_refl. reflexivity.
    + intros q k Hn. cbn [In] in Hn. rewrite G3 by tauto. rewrite G1. destruct (Z.eqb_spec q (pp x)) as [->|]; [|reflexivity]. destruct (Z.eqb_spec k (kk x)) as [->|]; [|reflexivity].
      exfalso. apply Hn. left. reflexivity.
Qed.
Lemma omap_map {A B} (f : A -> option B) (g : A -> B) l : (forall x, In x l -> f x = Some (g x)) -> omap f l = Some (map g l).
Proof. induction l as [|x l IH]; intros H; cbn [omap map]; [reflexivity|]. rewrite H by (left; reflexivity). rewrite IH by (intros; apply H; right; assumption). reflexivity. Qed.
Lemma ofold_cadd (f : C -> Z -> option C) (g : Z -> C) cs v : (forall v c, In c cs -> f v c = Some (cadd v (g c))) ->
  ofold f cs v = Some (fst v + rsum (map (fun c => fst (g c)) cs), snd v + rsum (map (fun c => snd (g c)) cs))%R.
Proof.
  revert v; induction cs as [|c cs IH]; intros v H; cbn [ofold map]; [unfold rsum; cbn [fold_right]; destruct v; cbn [fst snd]; f_equal; f_equal; ring|].
  rewrite H by (left; reflexivity). rewrite IH by (intros; apply H; right; assumption). unfold cadd, rsum. cbn [fst snd map fold_right]. f_equal. f_equal; ring.
Qed.

Lemma combine_range {A} (l : list A) (d : A) : combine (zrange 0 (zlen l)) l = map (fun c => (c, match zget l c with Some x => x | None => d end)) (zrange 0 (zlen l)).
Proof.
  apply zget_ext. intros k. rewrite zget_map. destruct (Z.lt_ge_cases k 0) as [D|D]; [rewrite !zget_out by lia; reflexivity|].
  destruct (Z.lt_ge_cases k (zlen l)) as [D'|D'].
  - rewrite zget_zrange by lia. cbn [option_map]. replace (0 + k) with k by lia. destruct (zget_in_range l k) as (x & Ex); [lia|]. rewrite Ex.
    assert (G : forall (u : list Z) (v : list A) j p q, zget u j = Some p -> zget v j = Some q -> zget (combine u v) j = Some (p, q)).
    { clear. induction u as [|x u IH]; intros [|y v] j p q Hu Hv; try (rewrite zget_out in Hu by (unfold zlen; cbn; lia); discriminate); try (rewrite zget_out in Hv by (unfold zlen; cbn; lia); discriminate).
      cbn [combine]. rewrite zget_cons in Hu. rewrite zget_cons in Hv. rewrite zget_cons. destruct (j =? 0); [congruence|]. apply IH; assumption. }
    apply G; [rewrite zget_zrange by lia; f_equal; lia|exact Ex].
  - rewrite !zget_out; [reflexivity|right; rewrite zrange_zlen; lia|right; unfold zlen in *; rewrite combine_length; pose proof (zrange_zlen 0 (Z.of_nat (length l))) as Q; unfold zlen in Q; lia].
Qed.
Section Lmat.
Context (a : ainfo) (n : Z) (at_ : Z -> Z -> Z).
Context (Hlay : layout_ok (ai_lmax a) (ai_mmax a) n at_) (Hstr : ai_stride a = 1).
Context (Hat : forall l m, valid (ai_lmax a) (ai_mmax a) l m -> lm2ind a l m = Some (at_ l m)).
Context (N M : Z) (aptrs optrs : list Z) (lmat : list (list R)) (lfmax : Z) (F : Z -> Z -> Z -> R).
Context (HN : zlen optrs = N) (HM : zlen aptrs = M) (HO : NoDup optrs).
Context (HF : forall r c l, 0 <= r < N -> 0 <= c < M -> 0 <= l <= lfmax -> read_row lmat (r * M + c) l = Some (F r c l)).
Definition fits (mem : list (list C)) : Prop := forall p, In p aptrs \/ In p optrs -> option_map zlen (zget mem p) = Some n.
Definition rd (mem : list (list C)) (p k : Z) : C := match read_row mem p k with Some x => x | None => (0, 0)%R end.
Definition entry (mem : list (list C)) (r l k : Z) : C :=
  (rsum (map (fun p => F r (fst p) l * fst (rd mem (snd p) k))%R (combine (zrange 0 M) aptrs)),
   rsum (map (fun p => F r (fst p) l * snd (rd mem (snd p) k))%R (combine (zrange 0 M) aptrs))).
Lemma fits_shape mem mem' : fits mem -> same_shape mem mem' -> fits mem'.
Proof. intros H S p Hp. rewrite (S p). apply H, Hp. Qed.
Lemma fits_read mem p k : fits mem -> In p aptrs \/ In p optrs -> 0 <= k < n -> read_row mem p k = Some (rd mem p k).
Proof.
  intros H Hp Hk. unfold rd, read_row. pose proof (H p Hp) as E. destruct (zget mem p) as [r|]; [|discriminate]. cbn in E. apply Some_inj in E.
  destruct (zget_in_range r k) as (x & Ex); [lia|]. rewrite Ex. reflexivity.
Qed.
Lemma mat_entry_ok mem r l k : fits mem -> 0 <= r < N -> 0 <= l <= lfmax -> 0 <= k < n -> mat_entry mem aptrs lmat M r l k = Some (entry mem r l k).
Proof.
  intros HFt Hr Hl Hk. unfold mat_entry, entry. rewrite <- HM, (combine_range aptrs 0), HM, !map_map. cbn [fst snd].
  rewrite (ofold_cadd _ (fun c => rscale (F r c l) (rd mem (match zget aptrs c with Some x => x | None => 0 end) k))).
  - unfold rscale. cbn [fst snd]. rewrite !Rplus_0_l. reflexivity.
  - intros v c Hc. apply zrange_In in Hc. destruct (zget_in_range aptrs c) as (p & Ep); [lia|]. rewrite Ep. rewrite HF by lia.
    rewrite (fits_read mem p k HFt); [reflexivity|left; apply (zget_In _ _ _ Ep)|exact Hk].
Qed.
Lemma NoDup_combine_snd : NoDup (map snd (combine (zrange 0 N) optrs)).
Proof.
  rewrite <- HN, (combine_range optrs 0), map_map. cbn [snd].
  replace (map _ _) with optrs; [exact HO|]. apply zget_ext. intros k. rewrite zget_map.
  destruct (Z.lt_ge_cases k 0) as [D|D]; [rewrite !zget_out by lia; reflexivity|].
  destruct (Z.lt_ge_cases k (zlen optrs)) as [D'|D']; [|rewrite !zget_out; [reflexivity|right; rewrite zrange_zlen; lia|lia]].
  rewrite zget_zrange by lia. cbn [option_map]. replace (0 + k) with k by lia. destruct (zget_in_range optrs k) as (x & Ex); [lia|]. rewrite Ex. reflexivity.
Qed.
Definition optr (r : Z) : Z := match zget optrs r with Some p => p | None => 0 end.
Lemma optr_In r : 0 <= r < N -> zget optrs r = Some (optr r) /\ In (optr r) optrs.
Proof. intros H. unfold optr. destruct (zget_in_range optrs r) as (p & Ep); [lia|]. rewrite Ep. split; [reflexivity|apply (zget_In _ _ _ Ep)]. Qed.
Lemma optr_inj r r' : 0 <= r < N -> 0 <= r' < N -> optr r = optr r' -> r = r'.
Proof.
  intros H H' E. destruct (optr_In r H) as (E1 & _), (optr_In r' H') as (E2 & _). rewrite E in E1.
  unfold zget in E1, E2. destruct (Z.ltb_spec r 0), (Z.ltb_spec r' 0); try lia.
  assert (K : Z.to_nat r = Z.to_nat r'); [|lia]. rewrite NoDup_nth_error in HO. apply HO; [unfold zlen in HN; lia|]. congruence.
Qed.
Lemma mat_body_ok mem l m : fits mem -> valid (ai_lmax a) (ai_mmax a) l m -> l <= lfmax ->
  exists mem', mat_body a aptrs optrs lmat N M m mem l = Some mem' /\ same_shape mem mem' /\
    (forall r, 0 <= r < N -> read_row mem' (optr r) (at_ l m) = Some (entry mem r l (at_ l m))) /\
    (forall q k, ~ (In q optrs /\ k = at_ l m) -> read_row mem' q k = read_row mem q k).
Proof.
  intros HFt V Hl. unfold mat_body. rewrite (cind_at a at_ Hstr Hat _ _ V). set (i := at_ l m). assert (Ri : 0 <= i < n) by apply (proj1 Hlay), V.
  rewrite (omap_map _ (fun r => entry mem r l i)); [|intros r Hr; apply zrange_In in Hr; apply mat_entry_ok; try assumption; unfold valid in V; lia].
  destruct (mem_scatter optr (fun _ => i) (fun r => entry mem r l i)
    (fun mem0 r => match zget optrs r, zget (map (fun r0 => entry mem r0 l i) (zrange 0 N)) r with Some p, Some v => write_row mem0 p i v | _, _ => None end) n (zrange 0 N) mem) as (mem' & E & Sh & G & K).
  - intros mem0 r Hr. apply zrange_In in Hr. destruct (optr_In r Hr) as (E1 & _). rewrite E1, zget_map, zget_zrange by lia. cbn [option_map]. replace (0 + r) with r by lia. reflexivity.
  - apply NoDup_map_inj; [|apply zrange_NoDup]. intros r r' H H' E. apply zrange_In in H, H'. apply optr_inj; try lia. congruence.
  - intros r Hr. apply zrange_In in Hr. split; [apply HFt; right; apply optr_In, Hr|exact Ri].
  - exists mem'. split; [exact E|]. split; [exact Sh|]. split; [intros r Hr; apply G, zrange_In; lia|]. intros q k Hn. apply K. rewrite in_map_iff. intros (r & E' & Hr). apply Hn.
    apply zrange_In in Hr. injection E' as <- <-. split; [apply optr_In, Hr|reflexivity].
Qed.
Lemma entry_ext mem mem' r l k : (forall p, read_row mem' p k = read_row mem p k) -> entry mem' r l k = entry mem r l k.
Proof. intros H. unfold entry. f_equal; f_equal; apply map_ext; intros (c, p); unfold rd; rewrite H; reflexivity. Qed.
Lemma mat_loop mem L : fits mem -> NoDup L -> (forall l m, In (l, m) L -> valid (ai_lmax a) (ai_mmax a) l m /\ l <= lfmax) ->
  exists mem', ofold (fun mem p => mat_body a aptrs optrs lmat N M (snd p) mem (fst p)) L mem = Some mem' /\ same_shape mem mem' /\
    (forall l m r, In (l, m) L -> 0 <= r < N -> read_row mem' (optr r) (at_ l m) = Some (entry mem r l (at_ l m))) /\
    (forall q k, ~ (In q optrs /\ exists l m, In (l, m) L /\ k = at_ l m) -> read_row mem' q k = read_row mem q k).
Proof.
  revert mem; induction L as [|(l, m) L IH]; intros mem HFt ND HV; cbn [ofold].
  - exists mem. split; [reflexivity|]. split; [intros q; reflexivity|]. split; [intros ? ? ? []|reflexivity].
  - apply NoDup_cons_iff in ND. destruct ND as (N1 & N2). destruct (HV l m (or_introl eq_refl)) as (V & Hl). cbn [fst snd].
    destruct (mat_body_ok mem l m HFt V Hl) as (m1 & E1 & S1 & G1 & K1). rewrite E1.
    destruct (IH m1) as (m2 & E2 & S2 & G2 & K2); [apply (fits_shape mem); assumption|exact N2|intros; apply HV; right; assumption|].
    assert (D : forall l' m', In (l', m') L -> at_ l' m' <> at_ l m).
    { intros l' m' H' E. apply (proj2 Hlay) in E; [|apply HV; right; exact H'|exact V]. destruct E as (-> & ->). contradiction. }
    exists m2. split; [exact E2|]. split; [apply (same_shape_trans _ _ _ S1 S2)|]. split.
    + intros l' m' r [H|H] Hr.
      * injection H as <- <-. rewrite K2; [apply G1, Hr|]. intros (_ & l2 & m2' & H2 & E). apply (D l2 m2' H2). symmetry. exact E.
      * rewrite G2 by assumption. f_equal. apply entry_ext. intros p. apply K1. intros (_ & E). apply (D l' m' H E).
    + intros q k Hn. rewrite K2, K1; [reflexivity| |].
      * intros (H1 & ->). apply Hn. split; [exact H1|]. exists l, m. split; [left; reflexivity|reflexivity].
      * intros (H1 & l' & m' & H2 & H3). apply Hn. split; [exact H1|]. exists l', m'. split; [right; exact H2|exact H3].
Qed.
Lemma lmatmul_ok lup ms rs mem : lup (Z.min (ai_lmax a) lfmax) lfmax = Z.min (ai_lmax a) lfmax -> fits mem ->
  Permutation ms (zrange 0 (ai_mmax a + 1)) -> Permutation rs (zrange 0 N) ->
  exists mem', lmatmul lup ms rs N M a aptrs lfmax lmat optrs mem = Some mem' /\ same_shape mem mem' /\
    (forall l m r, valid (ai_lmax a) (ai_mmax a) l m -> 0 <= r < N -> read_row mem' (optr r) (at_ l m) = Some (if l <=? lfmax then entry mem r l (at_ l m) else (0, 0)%R)) /\
    (forall q k, ~ (In q optrs /\ exists l m, valid (ai_lmax a) (ai_mmax a) l m /\ k = at_ l m) -> read_row mem' q k = read_row mem q k).
Proof.
  intros HU HFt P1 P2. unfold lmatmul. set (leff := Z.min (ai_lmax a) lfmax) in *. cbn zeta.
  assert (V : forall l m, In (l, m) (in_order (fun m => m) (fun _ => leff + 1) ms) <-> (valid (ai_lmax a) (ai_mmax a) l m /\ l <= lfmax)).
  { intros l m. rewrite in_order_In, (perm_range_In _ _ _ P1). unfold valid, leff. lia. }
  assert (EQ : ofold (fun mem m => ofold (mat_body a aptrs optrs lmat N M m) (zrange m (lup leff lfmax + 1)) mem) ms mem =
    ofold (fun mem p => mat_body a aptrs optrs lmat N M (snd p) mem (fst p)) (in_order (fun m => m) (fun _ => leff + 1) ms) mem).
  { unfold in_order. rewrite <- ofold_flat. apply ofold_ext. intros s m _. rewrite ofold_map, HU. reflexivity. }
  rewrite EQ. clear EQ.
  destruct (mat_loop mem (in_order (fun m => m) (fun _ => leff + 1) ms) HFt) as (m1 & E1 & S1 & G1 & K1); [apply in_order_NoDup, (perm_range_NoDup _ _ P1)|intros l m H; apply V, H|].
  rewrite E1.
  set (Zs := flat_map (fun r => map (fun p => (r, p)) (in_order (fun m => Z.max m (leff + 1)) (fun _ => ai_lmax a + 1) (zrange 0 (ai_mmax a + 1)))) rs).
  assert (VZ : forall r l m, In (r, (l, m)) Zs <-> (0 <= r < N /\ valid (ai_lmax a) (ai_mmax a) l m /\ leff < l)).
  { intros r l m. unfold Zs. rewrite in_flat_map. split.
    - intros (r' & Hr & H). apply in_map_iff in H. destruct H as (p & E & H). injection E as <- ->. rewrite in_order_In, zrange_In in H. apply (perm_range_In _ _ _ P2) in Hr. unfold valid. lia.
    - intros (Hr & Hv & Hl). exists r. split; [apply (perm_range_In _ _ _ P2), Hr|]. apply in_map_iff. exists (l, m). split; [reflexivity|]. rewrite in_order_In, zrange_In. unfold valid in Hv. lia. }
  set (zstep := fun mem (x : Z * (Z * Z)) => match cind a (fst (snd x)) (snd (snd x)), zget optrs (fst x) with Some i, Some p => write_row mem p i (0, 0)%R | _, _ => None end).
  assert (EQ : ofold (fun mem r => ofold (fun mem m => ofold (fun mem l => match cind a l m, zget optrs r with Some i, Some p => write_row mem p i (0, 0)%R | _, _ => None end)
      (zrange (Z.max m (leff + 1)) (ai_lmax a + 1)) mem) (zrange 0 (ai_mmax a + 1)) mem) rs m1 = ofold zstep Zs m1).
  { unfold Zs. rewrite <- ofold_flat. apply ofold_ext. intros s r _. rewrite ofold_map. unfold in_order. rewrite <- ofold_flat. apply ofold_ext. intros s' m _. rewrite ofold_map. reflexivity. }
  rewrite EQ. clear EQ.
  destruct (mem_scatter (fun x => optr (fst x)) (fun x => at_ (fst (snd x)) (snd (snd x))) (fun _ => (0, 0)%R) zstep n Zs m1) as (m2 & E2 & S2 & G2 & K2).
  - intros mem0 (r, (l, m)) H. apply VZ in H. destruct H as (Hr & Hv & _). unfold zstep. cbn [fst snd]. rewrite (cind_at a at_ Hstr Hat _ _ Hv), (proj1 (optr_In r Hr)). reflexivity.
  - apply NoDup_map_inj.
    + intros (r, (l, m)) (r', (l', m')) H H' E. apply VZ in H, H'. cbn [fst snd] in E. assert (Ea : at_ l m = at_ l' m') by congruence. assert (Er : optr r = optr r') by congruence.
      apply optr_inj in Er; [|lia|lia]. apply (proj2 Hlay) in Ea; [|apply H|apply H']. destruct Ea as (-> & ->). subst. reflexivity.
    + unfold Zs. apply NoDup_flat_map; [| |apply (perm_range_NoDup _ _ P2)].
      * intros r _. apply NoDup_map_inj; [intros x y _ _ E; congruence|apply in_order_NoDup, zrange_NoDup].
      * intros r r' z _ _ H H'. apply in_map_iff in H, H'. destruct H as (? & <- & _), H' as (? & E & _). congruence.
  - intros (r, (l, m)) H. apply VZ in H. destruct H as (Hr & Hv & _). cbn [fst snd]. split; [rewrite (S1 (optr r)); apply HFt; right; apply optr_In, Hr|apply (proj1 Hlay), Hv].
  - exists m2. split; [exact E2|]. split; [apply (same_shape_trans _ _ _ S1 S2)|]. split.
    + intros l m r Hv Hr. destruct (Z.leb_spec l lfmax) as [D|D].
      * rewrite K2; [apply G1; [apply V; auto|exact Hr]|]. rewrite in_map_iff. intros ((r', (l', m')) & E & H). apply VZ in H. destruct H as (_ & Hv' & Hl'). cbn [fst snd] in E.
        assert (Ea : at_ l' m' = at_ l m) by congruence. apply (proj2 Hlay) in Ea; [|exact Hv'|exact Hv]. unfold valid, leff in *. lia.
      * apply (G2 (r, (l, m))). apply VZ. unfold leff. split; [exact Hr|]. split; [exact Hv|]. lia.
    + intros q k Hn. rewrite K2, K1; [reflexivity| |].
      * intros (H1 & l & m & H2 & H3). apply Hn. split; [exact H1|]. exists l, m. split; [apply V, H2|exact H3].
      * rewrite in_map_iff. intros ((r', (l', m')) & E & H). apply VZ in H. cbn [fst snd] in E. apply Hn. split; [replace q with (optr r') by congruence; apply optr_In, H|]. exists l', m'. split; [apply H|congruence].
Qed.
End Lmat.

(* ---- alm2cl ---- *)
Local Open Scope R_scope.
Definition rstep (st : R * (Z -> R)) (op : mop) : R * (Z -> R) :=
  let '(r, row) := st in
  match op with Assign l v => (r, fset row l v) | Load l => (row l, row) | Store l v => (r, fset row l (r + v)) end.
Definition mop_l (op : mop) : Z := match op with Assign l _ => l | Load l => l | Store l _ => l end.
(* what a thread does to its own row does not depend on the other threads *)
Lemma project nl t : (0 < nl)%Z -> forall trace st r row,
  (forall e, In e trace -> (0 <= mop_l (snd e) < nl)%Z) ->
  fst st t = r -> (forall l, (0 <= l < nl)%Z -> snd st (nl * t + l)%Z = row l) ->
  let fin := fold_left (mstep nl) trace st in
  let rfin := fold_left rstep (map snd (filter (fun e => (fst e =? t)%Z) trace)) (r, row) in
  fst fin t = fst rfin /\ forall l, (0 <= l < nl)%Z -> snd fin (nl * t + l)%Z = snd rfin l.
Proof.
  intros Hnl. induction trace as [|(id, op) trace IH]; intros st r row Hop Hr Hrow; cbn zeta; cbn [fold_left filter map]; [auto|].
  assert (Hl : (0 <= mop_l op < nl)%Z) by apply (Hop (id, op) (or_introl eq_refl)).
  assert (Hop' : forall e, In e trace -> (0 <= mop_l (snd e) < nl)%Z) by (intros; apply Hop; right; assumption).
  destruct st as (reg, buf). cbn [fst snd] in Hr, Hrow |- *.
  assert (INJ : forall l l', (0 <= l < nl)%Z -> (0 <= l' < nl)%Z -> (nl * t + l = nl * id + l')%Z -> t = id /\ l = l').
  { intros l l' K1 K2 K3. assert (t = id); [|subst; lia]. destruct (Z.lt_trichotomy t id) as [D|[D|D]]; [nia|exact D|nia]. }
  destruct (Z.eqb_spec id t) as [E|E].
  - subst id. cbn [map fold_left snd]. destruct op as [l v|l|l v]; cbn [mstep rstep mop_l] in *.
    + apply IH; [exact Hop'|exact Hr|]. cbn [snd]. intros k Hk. unfold fset. destruct (Z.eqb_spec (nl * t + k) (nl * t + l)), (Z.eqb_spec k l); try lia; [reflexivity|apply Hrow, Hk].
    + apply IH; [exact Hop'| |exact Hrow]. cbn [fst]. unfold fset. rewrite Z.eqb_refl. apply Hrow, Hl.
    + apply IH; [exact Hop'|exact Hr|]. cbn [snd]. intros k Hk. unfold fset. rewrite Hr. destruct (Z.eqb_spec (nl * t + k) (nl * t + l)), (Z.eqb_spec k l); try lia; [reflexivity|apply Hrow, Hk].
  - destruct op as [l v|l|l v]; cbn [mstep mop_l] in *.
    + apply IH; [exact Hop'|exact Hr|]. cbn [snd]. intros k Hk. unfold fset. destruct (Z.eqb_spec (nl * t + k) (nl * id + l)) as [D|D]; [apply INJ in D; [|lia|lia]; destruct D; congruence|apply Hrow, Hk].
    + apply IH; [exact Hop'| |exact Hrow]. cbn [fst]. unfold fset. destruct (Z.eqb_spec t id); [congruence|exact Hr].
    + apply IH; [exact Hop'|exact Hr|]. cbn [snd]. intros k Hk. unfold fset. destruct (Z.eqb_spec (nl * t + k) (nl * id + l)) as [D|D]; [apply INJ in D; [|lia|lia]; destruct D; congruence|apply Hrow, Hk].
Qed.
Lemma rsum_app l1 l2 : rsum (l1 ++ l2) = rsum l1 + rsum l2.
Proof. unfold rsum. induction l1 as [|x l1 IH]; cbn [app fold_right]; [ring|]. rewrite IH. ring. Qed.
Lemma rsum_perm l1 l2 : Permutation l1 l2 -> rsum l1 = rsum l2.
Proof. unfold rsum. induction 1; cbn [fold_right]; try lra; congruence. Qed.
Lemma rsum_zero {A} (f : A -> R) l : (forall x, In x l -> f x = 0) -> rsum (map f l) = 0.
Proof. unfold rsum. induction l as [|x l IH]; intros H; cbn [map fold_right]; [reflexivity|]. rewrite H by (left; reflexivity). rewrite IH by (intros; apply H; right; assumption). ring. Qed.
Lemma rsum_plus {A} (f g : A -> R) l : rsum (map (fun x => f x + g x) l) = rsum (map f l) + rsum (map g l).
Proof. unfold rsum. induction l as [|x l IH]; cbn [map fold_right]; [ring|]. rewrite IH. ring. Qed.
(* accumulating into a row *)
Definition acc_ops (W : list (Z * R)) : list mop := flat_map (fun w => [Load (fst w); Store (fst w) (snd w)]) W.
Lemma acc_run W r row : exists r', fold_left rstep (acc_ops W) (r, row) = (r', snd (fold_left rstep (acc_ops W) (r, row))) /\
  forall l, snd (fold_left rstep (acc_ops W) (r, row)) l = row l + rsum (map (fun w => if (fst w =? l)%Z then snd w else 0) W).
Proof.
  revert r row; induction W as [|(k, v) W IH]; intros r row.
  - exists r. split; [reflexivity|]. intros l. cbn. unfold rsum. cbn. ring.
  - cbn [acc_ops flat_map app fold_left fst snd rstep map]. fold (acc_ops W). destruct (IH (row k) (fset row k (row k + v))) as (r' & E & G). exists r'. split; [exact E|].
    intros l. rewrite G. unfold fset, rsum. cbn [fold_right]. rewrite (Z.eqb_sym l k). destruct (Z.eqb_spec k l) as [->|]; ring.
Qed.
Lemma assign_run (v0 : Z -> R) L r row : fst (fold_left rstep (map (fun l => Assign l (v0 l)) L) (r, row)) = r /\
  forall l, snd (fold_left rstep (map (fun l => Assign l (v0 l)) L) (r, row)) l = if existsb (Z.eqb l) L then v0 l else row l.
Proof.
  revert row; induction L as [|k L IH]; intros row; cbn [map fold_left rstep existsb]; [auto|]. destruct (IH (fset row k (v0 k))) as (G1 & G2). split; [exact G1|].
  intros l. rewrite G2. destruct (existsb (Z.eqb l) L); [now rewrite Bool.orb_true_r|]. rewrite Bool.orb_false_r. unfold fset. destruct (Z.eqb_spec l k) as [->|]; reflexivity.
Qed.
Lemma concat_map_flat {A B D} (f : A -> B -> D) (g : A -> list B) l : concat (map (fun x => map (f x) (g x)) l) = flat_map (fun x => map (f x) (g x)) l.
Proof. symmetry. apply flat_map_concat_map. Qed.

Section Alm2cl.
Context (a : ainfo) (n : Z) (at_ : Z -> Z -> Z).
Context (Hlay : layout_ok (ai_lmax a) (ai_mmax a) n at_) (Hstr : ai_stride a = 1%Z).
Context (Hat : forall l m, valid (ai_lmax a) (ai_mmax a) l m -> lm2ind a l m = Some (at_ l m)).
Context (Hm : (0 <= ai_mmax a)%Z) (Hl : (0 <= ai_lmax a)%Z).
Context (alm1 alm2 : list C) (H1 : zlen alm1 = n) (H2 : zlen alm2 = n).
Definition coef (alm : list C) (l m : Z) : C := match zget alm (at_ l m) with Some x => x | None => (0, 0) end.
Let A := coef alm1.
Let B := coef alm2.
Lemma cget_coef alm l m : zlen alm = n -> valid (ai_lmax a) (ai_mmax a) l m -> cget a alm l m = Some (coef alm l m).
Proof.
  intros H V. unfold cget, coef. rewrite (cind_at a at_ Hstr Hat _ _ V). destruct (zget_in_range alm (at_ l m)) as (x & Ex); [rewrite H; apply (proj1 Hlay), V|]. now rewrite Ex.
Qed.
Definition W_of (ms : list Z) : list (Z * R) := flat_map (fun m => map (fun l => (l, re_prod (A l m) (B l m))) (zrange m (ai_lmax a + 1))) ms.
Lemma thread_prog_ok id ms : (forall m, In m ms -> (0 <= m <= ai_mmax a)%Z) ->
  thread_prog a alm1 alm2 id ms = Some ((if (id =? 0)%Z then map (fun l => Assign l (fst (A l 0%Z) * fst (B l 0%Z) / 2)) (zrange 0 (ai_lmax a + 1)) else []) ++ acc_ops (W_of ms)).
Proof.
  intros Hms. unfold thread_prog.
  rewrite (omap_map (fun l => match cget a alm1 l 0, cget a alm2 l 0 with Some x, Some y => Some (Assign l (fst x * fst y / 2)) | _, _ => None end) (fun l => Assign l (fst (A l 0%Z) * fst (B l 0%Z) / 2))).
  2:{ intros l Hi. apply zrange_In in Hi. rewrite !cget_coef by (assumption || (unfold valid; lia)). reflexivity. }
  rewrite (omap_map _ (fun m => map (fun l => [Load l; Store l (re_prod (A l m) (B l m))]) (zrange m (ai_lmax a + 1)))).
  2:{ intros m Hi. apply Hms in Hi. apply omap_map. intros l Hr. apply zrange_In in Hr. rewrite !cget_coef by (assumption || (unfold valid; lia)). reflexivity. }
  assert (E : concat (concat (map (fun m => map (fun l => [Load l; Store l (re_prod (A l m) (B l m))]) (zrange m (ai_lmax a + 1))) ms)) = acc_ops (W_of ms)).
  { unfold acc_ops, W_of. clear Hms. induction ms as [|m ms IH]; cbn [map concat flat_map]; [reflexivity|]. rewrite concat_app, IH, flat_map_app. f_equal.
    rewrite flat_map_concat_map, map_map. reflexivity. }
  rewrite E. destruct (id =? 0)%Z; reflexivity.
Qed.
Definition share (l : Z) (ms : list Z) : R := rsum (map (fun m => if (m <=? l)%Z then re_prod (A l m) (B l m) else 0) ms).
Lemma W_share l ms : (0 <= l <= ai_lmax a)%Z -> rsum (map (fun w => if (fst w =? l)%Z then snd w else 0) (W_of ms)) = share l ms.
Proof.
  intros Hi. unfold W_of, share. induction ms as [|m ms IH]; cbn [flat_map map]; [reflexivity|]. rewrite map_app, rsum_app, IH. change (rsum (?x :: ?r)) with (x + rsum r). f_equal.
  rewrite map_map. cbn [fst snd]. destruct (Z.leb_spec m l) as [D|D].
  - rewrite (zrange_split m l (ai_lmax a + 1)), (zrange_cons l), map_app, rsum_app by lia. cbn [map]. change (rsum (?x :: ?r)) with (x + rsum r). rewrite Z.eqb_refl.
    rewrite rsum_zero; [|intros k Hk; apply zrange_In in Hk; destruct (Z.eqb_spec k l); [lia|reflexivity]].
    rewrite rsum_zero; [ring|]. intros k Hk; apply zrange_In in Hk; destruct (Z.eqb_spec k l); [lia|reflexivity].
  - apply rsum_zero. intros k Hk; apply zrange_In in Hk; destruct (Z.eqb_spec k l); [lia|reflexivity].
Qed.
Lemma share_concat l (work : list (list Z)) : rsum (map (share l) work) = share l (concat work).
Proof. unfold share. induction work as [|w work IH]; cbn [map concat]; [reflexivity|]. rewrite map_app, rsum_app, <- IH. reflexivity. Qed.
Lemma share_all l ms : (0 <= l <= ai_lmax a)%Z -> Permutation ms (zrange 1 (ai_mmax a + 1)) -> share l ms = rsum (map (fun m => re_prod (A l m) (B l m)) (zrange 1 (Z.min l (ai_mmax a) + 1))).
Proof.
  intros Hi P. unfold share. rewrite (rsum_perm _ _ (Permutation_map _ P)).
  rewrite (zrange_split 1 (Z.min l (ai_mmax a) + 1) (ai_mmax a + 1)), map_app, rsum_app by lia.
  rewrite (rsum_zero _ (zrange (Z.min l (ai_mmax a) + 1) (ai_mmax a + 1))); [|intros k Hk; apply zrange_In in Hk; destruct (Z.leb_spec k l); [lia|reflexivity]].
  rewrite Rplus_0_r. f_equal. apply map_ext_in. intros k Hk. apply zrange_In in Hk. destruct (Z.leb_spec k l); [reflexivity|lia].
Qed.
Lemma fold_plus {X} (f : X -> R) l s : fold_left (fun s i => s + f i) l s = s + rsum (map f l).
Proof. revert s; induction l as [|x l IH]; intros s; cbn [fold_left map]; [unfold rsum; cbn; ring|]. rewrite IH. change (rsum (?x :: ?r)) with (x + rsum r). ring. Qed.
Lemma map_zget_all {X Y} (f : X -> Y) (g : Z -> Y) l : (forall i x, zget l i = Some x -> g i = f x) -> map g (zrange 0 (zlen l)) = map f l.
Proof.
  intros H. apply zget_ext. intros k. rewrite !zget_map. destruct (Z.lt_ge_cases k 0) as [D|D]; [rewrite !zget_out by lia; reflexivity|].
  destruct (Z.lt_ge_cases k (zlen l)) as [D'|D']; [|rewrite !zget_out; [reflexivity|lia|right; rewrite zrange_zlen; lia]].
  rewrite zget_zrange by lia. destruct (zget_in_range l k) as (x & Ex); [lia|]. rewrite Ex. cbn [option_map]. f_equal. apply H. exact Ex.
Qed.
Lemma acc_ops_l W op : In op (acc_ops W) -> exists w, In w W /\ mop_l op = fst w.
Proof. unfold acc_ops. rewrite in_flat_map. intros (w & Hw & [<-|[<-|[]]]); exists w; auto. Qed.
Lemma alm2cl_ok nthread (work : list (list Z)) (trace : list (Z * mop)) :
  (1 <= nthread)%Z -> zlen work = nthread -> Permutation (concat work) (zrange 1 (ai_mmax a + 1)) ->
  (forall e, In e trace -> (0 <= fst e < nthread)%Z) ->
  (forall t ms, zget work t = Some ms -> thread_prog a alm1 alm2 t ms = Some (map snd (filter (fun e => (fst e =? t)%Z) trace))) ->
  alm2cl_run a nthread trace = map (cl_formula A B (ai_mmax a)) (zrange 0 (ai_lmax a + 1)).
Proof.
  intros Hn Hw P Hid Hp. unfold alm2cl_run, reduce. cbn zeta. set (nl := (ai_lmax a + 1)%Z).
  assert (Hms : forall t ms, zget work t = Some ms -> forall m, In m ms -> (0 <= m <= ai_mmax a)%Z).
  { intros t ms E m Hi. apply zget_In in E. assert (I2 : In m (concat work)) by (apply in_concat; exists ms; auto). apply (Permutation_in _ P) in I2. apply zrange_In in I2. lia. }
  assert (Hops : forall e, In e trace -> (0 <= mop_l (snd e) < nl)%Z).
  { intros (t, op) Hi. pose proof (Hid _ Hi) as Ht. cbn [fst] in Ht. destruct (zget_in_range work t) as (ms & Em); [lia|].
    pose proof (Hp t ms Em) as E. rewrite thread_prog_ok in E by (apply (Hms t ms Em)). apply Some_inj in E.
    assert (I2 : In op (map snd (filter (fun e => (fst e =? t)%Z) trace))) by (apply in_map_iff; exists (t, op); split; [reflexivity|]; apply filter_In; split; [exact Hi|apply Z.eqb_refl]).
    rewrite <- E in I2. apply in_app_iff in I2. destruct I2 as [I2|I2].
    - destruct (t =? 0)%Z; [|contradiction]. apply in_map_iff in I2. destruct I2 as (l & <- & I2). apply zrange_In in I2. exact I2.
    - apply acc_ops_l in I2. destruct I2 as (w & Iw & Ew). cbn [snd]. rewrite Ew. unfold W_of in Iw. rewrite in_flat_map in Iw. destruct Iw as (m & Im & Iw). apply in_map_iff in Iw. destruct Iw as (l & <- & Il). apply zrange_In in Il.
      pose proof (Hms t ms Em m Im). cbn [fst]. unfold nl. lia. }
  apply map_ext_in. intros l Hi. apply zrange_In in Hi. rewrite fold_plus.
  set (fin := fold_left (mstep nl) trace (fun _ : Z => 0, fun _ : Z => 0)).
  assert (ROW : forall t ms, zget work t = Some ms -> snd fin (nl * t + l)%Z = (if (t =? 0)%Z then fst (A l 0%Z) * fst (B l 0%Z) / 2 else 0) + share l ms).
  { intros t ms Em. destruct (project nl t ltac:(unfold nl; lia) trace (fun _ => 0, fun _ => 0) 0 (fun _ => 0) Hops eq_refl ltac:(reflexivity)) as (_ & G). fold fin in G. rewrite G by lia. clear G.
    pose proof (Hp t ms Em) as E. rewrite thread_prog_ok in E by (apply (Hms t ms Em)). apply Some_inj in E. rewrite <- E, fold_left_app.
    rewrite <- (W_share l ms) by (unfold nl in Hi; lia).
    destruct (t =? 0)%Z eqn:Et.
    - destruct (assign_run (fun l => fst (A l 0%Z) * fst (B l 0%Z) / 2) (zrange 0 nl) 0 (fun _ => 0)) as (_ & G2). fold nl.
      set (st := fold_left rstep (map (fun l => Assign l (fst (A l 0%Z) * fst (B l 0%Z) / 2)) (zrange 0 nl)) (0, fun _ => 0)) in *. destruct st as (r, row). cbn [snd] in G2.
      destruct (acc_run (W_of ms) r row) as (r' & _ & G3). rewrite G3, G2.
      assert (X : existsb (Z.eqb l) (zrange 0 nl) = true) by (apply existsb_exists; exists l; split; [apply zrange_In; lia|apply Z.eqb_refl]). rewrite X. reflexivity.
    - cbn [fold_left]. destruct (acc_run (W_of ms) 0 (fun _ => 0)) as (r' & _ & G3). rewrite G3. reflexivity. }
  assert (SUM : rsum (map (fun i => snd fin (nl * i + l)%Z) (zrange 0 nthread)) = fst (A l 0%Z) * fst (B l 0%Z) / 2 + share l (concat work)).
  { rewrite <- share_concat. rewrite <- Hw.
    rewrite (map_ext_in _ (fun i => (if (i =? 0)%Z then fst (A l 0%Z) * fst (B l 0%Z) / 2 else 0) + share l (match zget work i with Some ms => ms | None => [] end))).
    2:{ intros t Ht. apply zrange_In in Ht. destruct (zget_in_range work t) as (ms & Em); [lia|]. rewrite Em. apply ROW, Em. }
    rewrite rsum_plus. f_equal.
    - rewrite (zrange_cons 0) by lia. cbn [map]. change (rsum (?x :: ?r)) with (x + rsum r). rewrite Z.eqb_refl. rewrite rsum_zero; [ring|]. intros k Hk. apply zrange_In in Hk. destruct (Z.eqb_spec k 0); [lia|reflexivity].
    - f_equal. apply map_zget_all. intros i ms E. now rewrite E. }
  rewrite SUM, (share_all l (concat work)) by (unfold nl in Hi; try lia; exact P). unfold cl_formula. field.
  assert (0 <= IZR l) by (apply IZR_le; lia). lra.
Qed.
End Alm2cl.

(* ---- random alms ---- *)
Lemma zget_map_zrange {A} (f : Z -> A) a b k : (0 <= k < b - a)%Z -> zget (map f (zrange a b)) k = Some (f (a + k)%Z).
Proof. intros H. rewrite zget_map, zget_zrange by lia. reflexivity. Qed.
Lemma fill_gauss_ok draw size bsize : (0 <= size)%Z -> (1 <= bsize)%Z -> fill_gauss draw size bsize = map draw (zrange 0 size).
Proof.
  intros H1 H2. unfold fill_gauss. set (K := ((size + bsize - 1) / bsize)%Z).
  assert (HK : (0 <= K /\ (K - 1) * bsize < size <= K * bsize \/ K = 0 /\ size = 0)%Z).
  { pose proof (Z.div_mod (size + bsize - 1) bsize ltac:(lia)) as D. pose proof (Z.mod_pos_bound (size + bsize - 1) bsize ltac:(lia)) as M. fold K in D.
    destruct (Z.eq_dec size 0) as [->|]; [right|left].
    - assert (K = 0)%Z; [|auto]. unfold K. apply Z.div_small. lia.
    - split; [unfold K; apply Z.div_pos; lia|]. lia. }
  assert (G : forall k : nat, (Z.of_nat k <= K)%Z -> flat_map (fun k => map draw (zrange (k * bsize) (k * bsize + Z.min bsize (size - k * bsize)))) (zrange 0 (Z.of_nat k)) = map draw (zrange 0 (Z.min (Z.of_nat k * bsize) size))).
  { induction k as [|k IH]; intros Hk; [cbn [Z.of_nat]; rewrite !zrange_empty by lia; reflexivity|].
    rewrite Nat2Z.inj_succ in *. unfold Z.succ in *. rewrite zrange_snoc, flat_map_app, IH by lia. cbn [flat_map]. rewrite app_nil_r, <- map_app. f_equal.
    set (k' := Z.of_nat k) in *. assert (k' * bsize < size)%Z by (destruct HK as [HK|HK]; [assert (k' * bsize <= (K - 1) * bsize)%Z by (apply Z.mul_le_mono_nonneg_r; lia); lia|lia]).
    rewrite (Z.min_l (k' * bsize)) by lia. rewrite <- zrange_split by (split; [apply Z.mul_nonneg_nonneg; lia|lia]). f_equal. lia. }
  specialize (G (Z.to_nat K)). rewrite Z2Nat.id in G by lia. etransitivity; [apply G; lia|]. rewrite Z.min_r by lia. reflexivity.
Qed.
Lemma pair_up_ok draw (n : nat) a : pair_up (map draw (zrange (2 * a) (2 * (a + Z.of_nat n)))) = map (fun i => (draw (2 * i)%Z, draw (2 * i + 1)%Z)) (zrange a (a + Z.of_nat n)).
Proof.
  revert a; induction n as [|n IH]; intros a; [rewrite !zrange_empty by lia; reflexivity|].
  rewrite (zrange_cons (2 * a)), (zrange_cons (2 * a + 1)), (zrange_cons a) by lia. cbn [map pair_up]. f_equal.
  replace (2 * a + 1 + 1)%Z with (2 * (a + 1))%Z by lia. replace (a + Z.of_nat (S n))%Z with (a + 1 + Z.of_nat n)%Z by lia. apply IH.
Qed.
Lemma zget_firstn {A} (l : list A) n k : (0 <= k < Z.of_nat n)%Z -> zget (firstn n l) k = zget l k.
Proof.
  intros H. unfold zget. destruct (Z.ltb_spec k 0); [reflexivity|]. set (j := Z.to_nat k). assert (J : (j < n)%nat) by lia. clearbody j. clear -J.
  revert l n J; induction j as [|j IH]; intros [|x l] [|n] J; try lia; cbn; try reflexivity. apply IH. lia.
Qed.
Lemma zget_skipn {A} (l : list A) n k : (0 <= k)%Z -> zget (skipn n l) k = zget l (Z.of_nat n + k).
Proof.
  intros H. unfold zget. destruct (Z.ltb_spec k 0); [lia|]. destruct (Z.ltb_spec (Z.of_nat n + k) 0); [lia|].
  replace (Z.to_nat (Z.of_nat n + k)) with (n + Z.to_nat k)%nat by lia. generalize (Z.to_nat k). clear. revert l. induction n as [|n IH]; intros [|x l] j; cbn; try reflexivity; [now destruct j|]. apply IH.
Qed.
Lemma firstn_zlen {A} (l : list A) n : (0 <= n)%Z -> zlen (firstn (Z.to_nat n) l) = Z.min n (zlen l).
Proof. intros H. unfold zlen. rewrite firstn_length. lia. Qed.
Lemma skipn_zlen {A} (l : list A) n : (0 <= n)%Z -> zlen (skipn (Z.to_nat n) l) = Z.max 0 (zlen l - n).
Proof. intros H. unfold zlen. rewrite skipn_length. lia. Qed.
Lemma chunk_ok draw ncomp n : (0 <= n)%Z -> (0 <= ncomp)%Z -> let g := fun i => (draw (2 * i)%Z, draw (2 * i + 1)%Z) in
  chunk (pair_up (map draw (zrange 0 (2 * (ncomp * n))))) ncomp n = map (fun j => map (fun i => g (j * n + i)%Z) (zrange 0 n)) (zrange 0 ncomp).
Proof.
  intros Hn Hc g. pose proof (pair_up_ok draw (Z.to_nat (ncomp * n)) 0) as P. assert (0 <= ncomp * n)%Z by (apply Z.mul_nonneg_nonneg; lia). rewrite Z2Nat.id in P by lia. replace (2 * 0)%Z with 0%Z in P by lia. replace (2 * (0 + ncomp * n))%Z with (2 * (ncomp * n))%Z in P by lia. rewrite P. clear P.
  unfold chunk. apply map_ext_in. intros j Hj. apply zrange_In in Hj. replace (0 + ncomp * n)%Z with (ncomp * n)%Z by lia.
  assert (J : (0 <= j * n /\ j * n + n <= ncomp * n)%Z) by (split; [apply Z.mul_nonneg_nonneg; lia|nia]).
  apply zget_ext. intros k. destruct (Z.lt_ge_cases k 0) as [D|D]; [rewrite !zget_out by lia; reflexivity|]. destruct (Z.lt_ge_cases k n) as [D'|D'].
  - rewrite zget_firstn by lia. rewrite zget_skipn by lia. rewrite Z2Nat.id by lia. rewrite !zget_map_zrange by lia. unfold g. replace (0 + (j * n + k))%Z with (j * n + (0 + k))%Z by lia. reflexivity.
  - rewrite !zget_out; [reflexivity|right; rewrite zlen_map, zrange_zlen; lia|]. right. rewrite firstn_zlen by lia. lia.
Qed.
Lemma l_fast_pos L mm : (0 <= mm <= L)%Z -> map (fun p => (tri L (snd p) + fst p)%Z) (l_fast L mm) = zrange 0 (tri L mm + L + 1).
Proof.
  intros Hm. replace mm with (Z.of_nat (Z.to_nat mm)) in * by lia. set (k := Z.to_nat mm) in *. clearbody k. clear mm.
  assert (ROW : forall m, (m <= L + 1)%Z -> map (fun l => (tri L m + l)%Z) (zrange m (L + 1)) = zrange (tri L m + m) (tri L m + L + 1)).
  { intros m Hm'. rewrite <- (zrange_map_shift m), <- (zrange_map_shift (tri L m + m)), map_map. replace (tri L m + L + 1 - (tri L m + m))%Z with (L + 1 - m)%Z by lia. apply map_ext. intros x. lia. }
  induction k as [|k IH].
  - unfold l_fast. change (Z.of_nat 0) with 0%Z. rewrite (zrange_cons 0), (zrange_empty (0 + 1)) by lia. cbn [flat_map]. rewrite app_nil_r, map_map. cbn [fst snd]. rewrite ROW by lia. f_equal; pose proof (tri_2 L 0); lia.
  - rewrite Nat2Z.inj_succ in *. unfold Z.succ in *. unfold l_fast in *. rewrite zrange_snoc, flat_map_app, map_app, IH by lia. cbn [flat_map]. rewrite app_nil_r, map_map. cbn [fst snd]. rewrite ROW by lia.
    rewrite tri_succ. replace (tri L (Z.of_nat k) + L - Z.of_nat k + (Z.of_nat k + 1))%Z with (tri L (Z.of_nat k) + L + 1)%Z by lia.
    assert (0 <= tri L (Z.of_nat k))%Z by (pose proof (tri_incr L 0 (Z.of_nat k) ltac:(lia) ltac:(lia)); pose proof (tri_2 L 0); lia).
    rewrite <- zrange_split by lia. reflexivity.
Qed.
Lemma m_fast_zlen L mmax : (-1 <= L <= mmax)%Z -> (2 * zlen (m_fast L mmax) = (L + 1) * (L + 2))%Z.
Proof.
  intros H. replace L with (Z.of_nat (Z.to_nat (L + 1)) - 1)%Z in * by lia. set (k := Z.to_nat (L + 1)) in *. clearbody k. clear L.
  induction k as [|k IH]; [cbn; reflexivity|]. rewrite Nat2Z.inj_succ in *. replace (Z.succ (Z.of_nat k) - 1)%Z with ((Z.of_nat k - 1) + 1)%Z by lia. rewrite m_fast_snoc, zlen_app, zlen_map, zrange_zlen, Z.min_l by lia.
  rewrite Z.mul_add_distr_l, IH by lia. lia.
Qed.
Lemma m_fast_get L mmax l m : (0 <= m <= l)%Z -> (l <= L)%Z -> (L <= mmax)%Z -> zget (m_fast L mmax) (l * (l + 1) / 2 + m) = Some (l, m).
Proof.
  intros H1 H2 H3. assert (E : m_fast L mmax = m_fast (l - 1) mmax ++ map (fun m => (l, m)) (zrange 0 (Z.min l mmax + 1)) ++ flat_map (fun l => map (fun m => (l, m)) (zrange 0 (Z.min l mmax + 1))) (zrange (l + 1) (L + 1))).
  { unfold m_fast. replace (l - 1 + 1)%Z with l by lia. rewrite (zrange_split 0 l (L + 1)), (zrange_cons l), flat_map_app by lia. reflexivity. }
  pose proof (m_fast_zlen (l - 1) mmax ltac:(lia)) as Q. assert (Q2 : (l * (l + 1) / 2 = zlen (m_fast (l - 1) mmax))%Z).
  { replace (l * (l + 1))%Z with (zlen (m_fast (l - 1) mmax) * 2)%Z by lia. apply Z.div_mul. lia. }
  rewrite E, Q2, zget_app2 by lia. replace (zlen (m_fast (l - 1) mmax) + m - zlen (m_fast (l - 1) mmax))%Z with m by lia.
  rewrite zget_app1 by (rewrite zlen_map, zrange_zlen; lia). rewrite zget_map_zrange by lia. reflexivity.
Qed.
Lemma Forall2_zget {A B} (P : A -> B -> Prop) l1 l2 : Forall2 P l1 l2 -> zlen l1 = zlen l2 /\ forall k x, zget l1 k = Some x -> exists y, zget l2 k = Some y /\ P x y.
Proof.
  induction 1 as [|x y l1 l2 H F (IH1 & IH2)]; [split; [reflexivity|]; intros k x E; rewrite zget_out in E by (unfold zlen; cbn; lia); discriminate|].
  rewrite !zlen_cons. split; [lia|]. intros k z. rewrite !zget_cons. destruct (k =? 0)%Z; [intros E; apply Some_inj in E; subst; eauto|apply IH2].
Qed.
Lemma transpose_alm_head {A} (z : A) a rows r0 : zget rows 0 = Some r0 -> transpose_alm z a rows = transpose_stack a rows (repeat z (length r0)).
Proof. destruct rows as [|r rows]; [discriminate|]. rewrite zget_cons. cbn [Z.eqb]. intros E. apply Some_inj in E. subst. reflexivity. Qed.
(* draw number of coefficient (l,m) of component c *)
Definition pos_lm (l m : Z) : Z := (l * (l + 1) / 2 + m)%Z.
Lemma white_ok draw bsize L ncomp : (0 <= L)%Z -> (1 <= bsize)%Z -> (1 <= ncomp)%Z -> let a := tri_info L L 1 in
  exists rows, rand_alm_white draw bsize a ncomp = Some rows /\ zlen rows = ncomp /\ (forall row, In row rows -> zlen row = ai_nelem a) /\
    forall c row l m, zget rows c = Some row -> valid L L l m -> zget row (tri L m + l) = Some (draw (2 * (c * ai_nelem a + pos_lm l m))%Z, draw (2 * (c * ai_nelem a + pos_lm l m) + 1)%Z).
Proof.
  intros HL Hb Hc a. assert (T0 : (0 <= tri L L)%Z) by (pose proof (tri_2 L L); nia).
  assert (Hn : (0 <= ai_nelem a)%Z) by (unfold a; cbn [ai_nelem tri_info]; lia). assert (0 <= ncomp * ai_nelem a)%Z by (apply Z.mul_nonneg_nonneg; lia).
  unfold rand_alm_white. rewrite fill_gauss_ok, chunk_ok by lia. set (n := ai_nelem a) in *.
  set (g := fun i : Z => (draw (2 * i)%Z, draw (2 * i + 1)%Z)). set (rows := map (fun j : Z => map (fun i : Z => g (j * n + i)%Z) (zrange 0 n)) (zrange 0 ncomp)).
  assert (HR : forall r, In r rows -> zlen r = n) by (intros r Hr; apply in_map_iff in Hr; destruct Hr as (j & <- & _); rewrite zlen_map, zrange_zlen; lia).
  assert (LR : zlen rows = ncomp) by (unfold rows; rewrite zlen_map, zrange_zlen; lia).
  destruct (zget_in_range rows 0) as (r0 & E0); [lia|]. rewrite (transpose_alm_head _ _ _ r0 E0).
  assert (L0 : zlen r0 = n) by (apply HR, (zget_In _ _ _ E0)).
  assert (LAY : layout_ok (ai_lmax a) (ai_mmax a) n (fun l m => (1 * (tri L m + l))%Z)) by (apply tri_layout; lia).
  destruct (transpose_stack_ok a n (fun l m => (1 * (tri L m + l))%Z) LAY eq_refl (fun l m V => tri_lm2ind L L 1 l m V) (0, 0) ltac:(cbn; lia) ltac:(cbn; lia) rows (repeat (0, 0) (length r0)) HR) as (outs & Eo & F).
  { unfold zlen in *. rewrite repeat_length. exact L0. }
  { intros k Hk _. unfold zget. destruct (Z.ltb_spec k 0); [lia|]. rewrite (nth_error_nth' _ (0, 0)) by (rewrite repeat_length; unfold zlen in L0; lia). rewrite nth_repeat. reflexivity. }
  rewrite Eo. exists outs. destruct (Forall2_zget _ _ _ F) as (LZ & FZ). split; [reflexivity|]. split; [lia|].
  split.
  - intros row Hi. apply In_zget in Hi. destruct Hi as (k & Ek). destruct (zget_in_range rows k) as (x & Ex); [apply zget_Some_range in Ek; lia|]. destruct (FZ k x Ex) as (y & Ey & (Ly & _)). congruence.
  - intros c row l m Ec V. destruct (zget_in_range rows c) as (x & Ex); [apply zget_Some_range in Ec; lia|]. destruct (FZ c x Ex) as (y & Ey & (_ & G & _)). assert (y = row) by congruence. subst y.
    assert (Rc : (0 <= c < ncomp)%Z) by (apply zget_Some_range in Ex; lia).
    unfold rows in Ex. rewrite zget_map_zrange in Ex by lia. apply Some_inj in Ex. subst x. cbn [ai_lmax ai_mmax tri_info a] in G.
    assert (G' : zget (map (fun p : Z * Z => zget row (1 * (tri L (snd p) + fst p))) (m_fast L L)) (pos_lm l m) = zget (map (fun p : Z * Z => zget (map (fun i : Z => g ((0 + c) * n + i)%Z) (zrange 0 n)) (1 * (tri L (snd p) + fst p))) (l_fast L L)) (pos_lm l m)) by (rewrite G; reflexivity).
    unfold valid in V. rewrite zget_map in G'. unfold pos_lm in G' at 1. rewrite m_fast_get in G' by lia. cbn [option_map fst snd] in G'.
    assert (K : map (fun p : Z * Z => zget (map (fun i : Z => g ((0 + c) * n + i)%Z) (zrange 0 n)) (1 * (tri L (snd p) + fst p))) (l_fast L L) = map (fun q => zget (map (fun i : Z => g ((0 + c) * n + i)%Z) (zrange 0 n)) q) (zrange 0 (tri L L + L + 1))).
    { rewrite <- l_fast_pos, map_map by lia. apply map_ext. intros p. f_equal. lia. }
    rewrite K in G'. assert (RP : (0 <= pos_lm l m < n)%Z).
    { pose proof (zget_Some_range _ _ _ (m_fast_get L L l m ltac:(lia) ltac:(lia) ltac:(lia))) as RG. fold (pos_lm l m) in RG.
      assert (Q : zlen (m_fast L L) = n); [|lia]. unfold zlen. rewrite <- (Permutation_length (fast_perm L L)).
      transitivity (zlen (map (fun p => (tri L (snd p) + fst p)%Z) (l_fast L L))); [unfold zlen; rewrite map_length; reflexivity|]. rewrite l_fast_pos by lia. rewrite zrange_zlen. unfold n, a. cbn [ai_nelem tri_info]. lia. }
    rewrite zget_map_zrange in G' by (unfold n, a in RP; cbn [ai_nelem tri_info] in RP; lia). rewrite zget_map_zrange in G' by lia. apply Some_inj in G'.
    replace (1 * (tri L m + l))%Z with (tri L m + l)%Z in G' by lia. rewrite G'. unfold g. replace ((0 + c) * n + (0 + (0 + pos_lm l m)))%Z with (c * n + pos_lm l m)%Z by lia. reflexivity.
Qed.
Definition psel (ps12 : list (list R)) (i l : Z) : R := match read_row ps12 i l with Some x => x | None => 0 end.
Definition rand_value (draw : Z -> R) (ps12 : list (list R)) (ncomp n r l m : Z) : C :=
  let re := rsum (map (fun c => psel ps12 (r * ncomp + c) l / sqrt 2 * draw (2 * (c * n + pos_lm l m))%Z) (zrange 0 ncomp)) in
  let im := rsum (map (fun c => psel ps12 (r * ncomp + c) l / sqrt 2 * draw (2 * (c * n + pos_lm l m) + 1)%Z) (zrange 0 ncomp)) in
  if (m =? 0)%Z then (re * sqrt 2, 0) else (re, im).
Lemma tri_first L l m : (0 <= L)%Z -> valid L L l m -> (tri L m + l <=? L)%Z = (m =? 0)%Z.
Proof.
  intros HL V. unfold valid in V. pose proof (tri_2 L m) as T. destruct (Z.eqb_spec m 0) as [->|E].
  - destruct (Z.leb_spec (tri L 0 + l) L); [reflexivity|lia].
  - destruct (Z.leb_spec (tri L m + l) L); [|reflexivity]. pose proof (tri_mono L 0 m ltac:(lia) ltac:(lia)) as T1. pose proof (tri_2 L 0). lia.
Qed.
Lemma rand_alm_ok draw bsize ncomp L ps12 nl : (0 <= L)%Z -> (1 <= bsize)%Z -> (1 <= ncomp)%Z -> (1 <= nl)%Z -> zlen ps12 = (ncomp * ncomp)%Z -> (forall row, In row ps12 -> zlen row = nl) ->
  exists rows, rand_alm draw bsize ncomp L ps12 = Some rows /\ zlen rows = ncomp /\
    forall r row, zget rows r = Some row -> zlen row = ai_nelem (tri_info L L 1) /\
      forall l m, valid L L l m -> zget row (tri L m + l) = Some (rand_value draw ps12 ncomp (ai_nelem (tri_info L L 1)) r l m).
Proof.
  intros HL Hb Hc Hnl Hps Hrow. unfold rand_alm.
  assert (N0 : (1 <= ncomp * ncomp)%Z) by nia.
  assert (HD : match ps12 with r :: _ => zlen r | [] => 0%Z end = nl).
  { destruct ps12 as [|p0 ps']; [unfold zlen in Hps; cbn in Hps; lia|]. apply Hrow. left. reflexivity. }
  rewrite HD. cbn zeta.
  set (ps2 := if (nl - 1 <? L)%Z then map (fun r => r ++ repeat 0 (Z.to_nat (L + 1 - nl))) ps12 else ps12).
  assert (LP : zlen ps2 = (ncomp * ncomp)%Z) by (unfold ps2; destruct (nl - 1 <? L)%Z; rewrite ?zlen_map; exact Hps).
  set (nl2 := Z.max nl (L + 1)).
  assert (RP : forall i l, (0 <= i < ncomp * ncomp)%Z -> (0 <= l < nl2)%Z -> exists row, zget ps2 i = Some row /\ zlen row = nl2 /\ zget row l = Some (psel ps12 i l)).
  { intros i l Hi Hl. destruct (zget_in_range ps12 i) as (row & Er); [lia|]. assert (Lr : zlen row = nl) by apply Hrow, (zget_In _ _ _ Er). unfold ps2, psel, read_row. rewrite Er.
    destruct (Z.ltb_spec (nl - 1) L) as [D|D].
    - exists (row ++ repeat 0 (Z.to_nat (L + 1 - nl))). rewrite zget_map, Er. split; [reflexivity|]. rewrite zlen_app. assert (Q : zlen (repeat 0 (Z.to_nat (L + 1 - nl))) = (L + 1 - nl)%Z) by (unfold zlen; rewrite repeat_length; lia). split; [unfold nl2; lia|].
      destruct (Z.lt_ge_cases l nl) as [D2|D2].
      + rewrite zget_app1 by lia. destruct (zget_in_range row l) as (x & Ex); [lia|]. rewrite Ex. reflexivity.
      + rewrite zget_app2 by lia. rewrite (zget_out row) by lia. unfold zget. destruct (Z.ltb_spec (l - zlen row) 0); [lia|]. rewrite (nth_error_nth' _ 0) by (rewrite repeat_length; unfold nl2 in Hl; lia). now rewrite nth_repeat.
    - exists row. split; [exact Er|]. split; [unfold nl2; lia|]. destruct (zget_in_range row l) as (x & Ex); [unfold nl2 in Hl; lia|]. rewrite Ex. reflexivity. }
  assert (HD2 : match ps2 with r :: _ => zlen r | [] => 0%Z end = nl2).
  { destruct (RP 0%Z 0%Z ltac:(lia) ltac:(unfold nl2; lia)) as (row & E & Lr & _). destruct ps2 as [|p0 ps']; [discriminate|]. rewrite zget_cons in E. cbn [Z.eqb] in E. apply Some_inj in E. subst. exact Lr. }
  rewrite HD2. change (alm_info (Some L) None None 1 Tri) with (alm_info (Some L) (Some L) None 1 Tri). rewrite alm_info_tri by lia. cbn iota.
  set (a := tri_info L L 1). destruct (white_ok draw bsize L ncomp HL Hb Hc) as (w & Ew & Lw & Rw & Gw). fold a in Ew, Rw, Gw. rewrite Ew. set (n := ai_nelem a) in *.
  assert (LAY : layout_ok (ai_lmax a) (ai_mmax a) n (fun l m => (1 * (tri L m + l))%Z)) by (apply tri_layout; lia).
  set (F := fun r c l => psel ps12 (r * ncomp + c) l / sqrt 2).
  assert (ZL : zlen (zrange 0 ncomp) = ncomp) by (rewrite zrange_zlen; lia).
  destruct (lmatmul_ok a n (fun l m => (1 * (tri L m + l))%Z) LAY eq_refl (fun l m V => tri_lm2ind L L 1 l m V) ncomp ncomp (zrange 0 ncomp) (zrange 0 ncomp)
    (map (map (fun x => x / sqrt 2)) ps2) (nl2 - 1) F ZL ZL (zrange_NoDup _ _)) with (lup := fun leff lfmax : Z => leff) (ms := zrange 0 (ai_mmax a + 1)) (rs := zrange 0 ncomp) (mem := w) as (mem & Em & Sm & Gm & _).
  { intros r c l Hr Hc' Hl. unfold read_row. rewrite zget_map. assert (0 <= r * ncomp + c < ncomp * ncomp)%Z by nia. destruct (RP (r * ncomp + c)%Z l) as (row & E & Lr & Ex); [lia|lia|]. rewrite E. cbn [option_map]. rewrite zget_map, Ex. reflexivity. }
  { reflexivity. }
  { intros p [Hp|Hp]; apply zrange_In in Hp; destruct (zget_in_range w p) as (x & Ex); try lia; rewrite Ex; cbn; f_equal; apply Rw, (zget_In _ _ _ Ex). }
  { apply Permutation_refl. }
  { apply Permutation_refl. }
  unfold lmatmul_dp. rewrite Em. eexists. split; [reflexivity|].
  assert (LM : forall r, option_map zlen (zget mem r) = option_map zlen (zget w r)) by exact Sm.
  split.
  { rewrite zlen_map. destruct (Z.lt_trichotomy (zlen mem) ncomp) as [D|[D|D]]; [|exact D|].
    - destruct (zget_in_range w (zlen mem)) as (x & Ex); [pose proof (zlen_nonneg mem); lia|]. pose proof (LM (zlen mem)) as Q. rewrite Ex, zget_out in Q by lia. discriminate.
    - destruct (zget_in_range mem ncomp) as (x & Ex); [lia|]. pose proof (LM ncomp) as Q. rewrite Ex, (zget_out w) in Q by lia. discriminate. }
  intros r row Er. rewrite zget_map in Er. destruct (zget mem r) as [x|] eqn:Ex; [|discriminate]. cbn [option_map] in Er. apply Some_inj in Er. subst row.
  assert (Rr : (0 <= r < ncomp)%Z /\ zlen x = n).
  { pose proof (LM r) as Q. rewrite Ex in Q. destruct (zget w r) as [y|] eqn:Ey; [|discriminate]. cbn in Q. apply Some_inj in Q. split; [apply zget_Some_range in Ey; lia|]. rewrite Q. apply Rw, (zget_In _ _ _ Ey). }
  destruct Rr as (Rr & Lx). rewrite (combine_range x (0, 0)), map_map. split; [rewrite zlen_map, zrange_zlen; pose proof (zlen_nonneg x); lia|]. intros l m V.
  assert (RI : (0 <= tri L m + l < n)%Z) by (pose proof (proj1 LAY l m V); lia).
  rewrite zget_map_zrange by lia. replace (0 + (tri L m + l))%Z with (tri L m + l)%Z by lia. rewrite (tri_first L l m HL V).
  pose proof (Gm l m r V Rr) as Q. replace (1 * (tri L m + l))%Z with (tri L m + l)%Z in Q by lia.
  assert (EO : optr (zrange 0 ncomp) r = r) by (unfold optr; rewrite zget_zrange by lia; lia). rewrite EO in Q. unfold read_row in Q. rewrite Ex in Q. rewrite Q.
  assert (Cl : (l <=? nl2 - 1)%Z = true) by (apply Z.leb_le; unfold valid in V; unfold nl2; lia). rewrite Cl.
  unfold rand_value, entry.
  assert (CR : combine (zrange 0 ncomp) (zrange 0 ncomp) = map (fun c => (c, c)) (zrange 0 ncomp)) by (rewrite <- (map_id (zrange 0 ncomp)) at 1 2; apply combine_map2).
  rewrite CR, !map_map. cbn [fst snd].
  assert (SW : forall c, In c (zrange 0 ncomp) -> rd w c (tri L m + l) = (draw (2 * (c * n + pos_lm l m))%Z, draw (2 * (c * n + pos_lm l m) + 1)%Z)).
  { intros c Hc'. apply zrange_In in Hc'. unfold rd, read_row. destruct (zget_in_range w c) as (y & Ey); [lia|]. rewrite Ey, (Gw c y l m Ey V). reflexivity. }
  rewrite (map_ext_in (fun c => F r c l * fst (rd w c (tri L m + l))) (fun c => psel ps12 (r * ncomp + c) l / sqrt 2 * draw (2 * (c * n + pos_lm l m))%Z)) by (intros c Hc'; rewrite SW by exact Hc'; reflexivity).
  rewrite (map_ext_in (fun c => F r c l * snd (rd w c (tri L m + l))) (fun c => psel ps12 (r * ncomp + c) l / sqrt 2 * draw (2 * (c * n + pos_lm l m) + 1)%Z)) by (intros c Hc'; rewrite SW by exact Hc'; reflexivity).
  destruct (m =? 0)%Z; reflexivity.
Qed.
