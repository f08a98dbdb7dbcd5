(* C106: apodization of maps. *)
From Verif Require Import Base ArrModel MskModel ApdSpec ApdModel.
From Coq Require Import Reals Lra Lia.
Ltac Zify.zify_post_hook ::= idtac.
Open Scope Z_scope.

Definition known (p : profkind) (profile : R -> R) : Prop := p = ProfLin /\ profile = apod_profile_lin \/ p = ProfCos /\ profile = apod_profile_cos.

Lemma prof_mono profile x y : profile = apod_profile_lin \/ profile = apod_profile_cos -> (0 <= x)%R -> (x <= y)%R -> (y <= 1)%R -> (profile x <= profile y)%R.
Proof.
  intros [-> | ->] H1 H2 H3; [unfold apod_profile_lin; lra|]. unfold apod_profile_cos. pose proof PI_RGT_0 as Hpi.
  assert (H : (cos (PI * y) <= cos (PI * x))%R) by (apply cos_decr_1; nra). lra.
Qed.
Lemma prof_pos profile x : profile = apod_profile_lin \/ profile = apod_profile_cos -> (0 < x < 1)%R -> (0 < profile x < 1)%R.
Proof.
  intros [-> | ->] H; [unfold apod_profile_lin; lra|]. unfold apod_profile_cos. pose proof PI_RGT_0 as Hpi.
  assert (H1 : (cos (PI * x) < cos 0)%R) by (apply cos_decreasing_1; nra). assert (H2 : (cos PI < cos (PI * x))%R) by (apply cos_decreasing_1; nra).
  rewrite cos_0 in H1. rewrite cos_PI in H2. lra.
Qed.
Lemma prof_half profile x : profile = apod_profile_lin \/ profile = apod_profile_cos -> (0 < x < 1 / 2)%R -> (0 < profile x < 1 / 2)%R.
Proof.
  intros [-> | ->] H; [unfold apod_profile_lin; lra|]. unfold apod_profile_cos. pose proof PI_RGT_0 as Hpi.
  assert (H1 : (cos (PI * x) < cos 0)%R) by (apply cos_decreasing_1; nra). assert (H2 : (cos (PI / 2) < cos (PI * x))%R) by (apply cos_decreasing_1; nra).
  rewrite cos_0 in H1. rewrite cos_PI2 in H2. lra.
Qed.
Lemma ratio_bound a b : 0 < a < b -> (0 < IZR a / IZR b < 1)%R.
Proof.
  intros H. assert (Ha : (0 < IZR a)%R) by (apply IZR_lt; lia). assert (Hb : (IZR a < IZR b)%R) by (apply IZR_lt; lia).
  split; [apply Rdiv_lt_0_compat; lra|]. apply Rmult_lt_reg_r with (IZR b); [lra|]. unfold Rdiv. rewrite Rmult_assoc, Rinv_l by lra. lra.
Qed.

(* the taper is 1 inside, smaller at the ends, symmetric, and rises inwards *)
Theorem C106_taper : forall profile w n, profile = apod_profile_lin \/ profile = apod_profile_cos -> good_taper (taper profile w n) w n.
Proof.
  intros profile w n Hp.
  assert (Hm : forall j, from_end n (n - 1 - j) = from_end n j) by (intros j; unfold from_end; lia).
  assert (H0 : forall j, 0 <= j < n -> 0 <= from_end n j) by (intros j H; unfold from_end; lia).
  assert (Hr : forall j, 0 <= j < n -> from_end n j < w -> (0 < taper profile w n j < 1)%R).
  { intros j Hj Hlt. unfold taper. destruct (Z.ltb_spec (from_end n j) w); [|lia]. apply prof_pos; [easy|]. apply ratio_bound. specialize (H0 j Hj). lia. }
  assert (Hf : forall j, w <= from_end n j -> taper profile w n j = 1%R) by (intros j Hj; unfold taper; destruct (Z.ltb_spec (from_end n j) w); [lia|easy]).
  split.
  - intros j Hj. destruct (Z.lt_ge_cases (from_end n j) w) as [Hlt|Hge]; [specialize (Hr j Hj Hlt); lra|]. rewrite (Hf j Hge). lra.
  - intros j Hj. unfold taper. now rewrite Hm.
  - intros i j Hi Hj Hle. destruct (Z.lt_ge_cases (from_end n j) w) as [Hlt|Hge].
    + unfold taper. destruct (Z.ltb_spec (from_end n i) w); [|lia]. destruct (Z.ltb_spec (from_end n j) w); [|lia].
      pose proof (ratio_bound (from_end n i + 1) (w + 1) ltac:(specialize (H0 i Hi); lia)). pose proof (ratio_bound (from_end n j + 1) (w + 1) ltac:(specialize (H0 j Hj); lia)).
      apply prof_mono; [easy|lra| |lra]. apply Rmult_le_compat_r; [|apply IZR_le; lia]. left. apply Rinv_0_lt_compat. apply IZR_lt. specialize (H0 j Hj). lia.
    + rewrite (Hf j Hge). destruct (Z.lt_ge_cases (from_end n i) w) as [Hlt|Hge']; [specialize (Hr i Hi Hlt); lra|]. rewrite (Hf i Hge'). lra.
  - intros j _ Hj. now apply Hf.
  - intros j Hj Hlt. specialize (Hr j Hj Hlt). lra.
Qed.
Print Assumptions C106_taper.

Lemma known_fun p profile : known p profile -> profile_fun p = Some profile.
Proof. intros [[-> ->]|[-> ->]]; reflexivity. Qed.
Lemma known_or p profile : known p profile -> profile = apod_profile_lin \/ profile = apod_profile_cos.
Proof. intros [[_ ->]|[_ ->]]; tauto. Qed.

(* one line with the zero fill *)
Lemma line_taper fill profile w n v j : (fill = FillZero \/ fill = FillMean \/ fill = FillMedian) -> 0 < w -> 2 * w <= n -> 0 <= j < n ->
  apod_line fill (fun k => profile (IZR (k + 1) / IZR (w + 1))%R) w n v j = (taper profile w n j * v j)%R.
Proof.
  intros Hf Hw Hn Hj. assert (E : apod_line fill (fun k => profile (IZR (k + 1) / IZR (w + 1))%R) w n v j =
     (if n - w <=? j then ((if j <? w then (v j * profile (IZR (j + 1) / IZR (w + 1)))%R else v j) * profile (IZR (w - 1 - (j - (n - w)) + 1) / IZR (w + 1)))%R
      else if j <? w then (v j * profile (IZR (j + 1) / IZR (w + 1)))%R else v j)) by (destruct Hf as [-> | [-> | ->]]; reflexivity).
  rewrite E. unfold taper, from_end. destruct (Z.leb_spec (n - w) j).
  - destruct (Z.ltb_spec j w); [lia|]. replace (Z.min j (n - 1 - j)) with (n - 1 - j) by lia. destruct (Z.ltb_spec (n - 1 - j) w); [|lia].
    replace (w - 1 - (j - (n - w)) + 1) with (n - 1 - j + 1) by lia. ring.
  - destruct (Z.ltb_spec j w).
    + replace (Z.min j (n - 1 - j)) with j by lia. destruct (Z.ltb_spec j w); [ring|lia].
    + destruct (Z.ltb_spec (Z.min j (n - 1 - j)) w); [lia|ring].
Qed.
Lemma line_cross profile w n v j : 0 < w -> 2 * w <= n -> 0 <= j < n ->
  apod_line FillCrossfade (fun k => profile (IZR (k + 1) / IZR (2 * w + 1))%R) w n v j =
  ((1 - share profile w n j) * v j + share profile w n j * v (partner w n j))%R.
Proof.
  intros Hw Hn Hj. cbn [apod_line]. unfold share, from_end, partner. destruct (Z.leb_spec (n - w) j).
  - destruct (Z.ltb_spec j w); [lia|]. replace (Z.min j (n - 1 - j)) with (n - 1 - j) by lia. destruct (Z.ltb_spec (n - 1 - j) w); [|lia].
    replace (n - w + (j - (n - w))) with j by lia. replace (j - (n - w) + 1) with (w - (n - 1 - j)) by lia. ring.
  - destruct (Z.ltb_spec j w).
    + replace (Z.min j (n - 1 - j)) with j by lia. destruct (Z.ltb_spec j w); [|lia]. replace (w - 1 - j + 1) with (w - j) by lia. replace (n - w + j) with (j + (n - w)) by lia. ring.
    + destruct (Z.ltb_spec (Z.min j (n - 1 - j)) w); [lia|ring].
Qed.
Lemma taper_off profile w n j : w <= 0 -> 0 <= j < n -> taper profile w n j = 1%R.
Proof. intros Hw Hj. unfold taper, from_end. destruct (Z.ltb_spec (Z.min j (n - 1 - j)) w); [lia|easy]. Qed.
Lemma share_off profile w n j : w <= 0 -> 0 <= j < n -> share profile w n j = 0%R.
Proof. intros Hw Hj. unfold share, from_end. destruct (Z.ltb_spec (Z.min j (n - 1 - j)) w); [lia|easy]. Qed.

(* the two axes *)
Lemma axis_ok fill p profile w n put m : known p profile -> fill <> FillOther -> 2 * w <= n -> 0 <= n ->
  apod_axis fill p w n put m = Ok (if w <=? 0 then m else put (apod_line fill (fun k => profile (IZR (k + 1) / IZR (match fill with FillCrossfade => 2 * w + 1 | _ => w + 1 end))%R) w n)).
Proof.
  intros Hk Hf Hn H0. unfold apod_axis. destruct (Z.leb_spec w 0); [easy|]. rewrite (known_fun p profile Hk).
  destruct fill; try congruence; (destruct (Z.ltb_spec n w); [lia|easy]).
Qed.

Definition inside (m : farr R) (y x : Z) : Prop := 0 <= y < f_ny m /\ 0 <= x < f_nx m.

Lemma apod_tapered fill p profile wy wx m : known p profile -> (fill = FillZero \/ fill = FillMean \/ fill = FillMedian) -> 0 <= f_ny m -> 0 <= f_nx m -> 2 * wy <= f_ny m -> 2 * wx <= f_nx m ->
  exists m1 m2, apod_axis fill p wy (f_ny m) (along_y m) m = Ok m1 /\ f_ny m1 = f_ny m /\ f_nx m1 = f_nx m /\
    apod_axis fill p wx (f_nx m) (along_x m1) m1 = Ok m2 /\ f_ny m2 = f_ny m /\ f_nx m2 = f_nx m /\
    forall y x, inside m y x -> f_at m2 y x = (taper profile wy (f_ny m) y * taper profile wx (f_nx m) x * f_at m y x)%R.
Proof.
  intros Hk Hf Hy0 Hx0 Hy Hx. assert (Hfo : fill <> FillOther) by (destruct Hf as [-> | [-> | ->]]; discriminate).
  assert (Hden : forall w, match fill with FillCrossfade => 2 * w + 1 | _ => w + 1 end = w + 1) by (intros w; destruct Hf as [-> | [-> | ->]]; reflexivity).
  rewrite (axis_ok fill p profile wy (f_ny m) (along_y m) m Hk Hfo Hy Hy0), Hden.
  set (m1 := if wy <=? 0 then m else along_y m (apod_line fill (fun k => profile (IZR (k + 1) / IZR (wy + 1))%R) wy (f_ny m))).
  assert (E1 : f_ny m1 = f_ny m /\ f_nx m1 = f_nx m) by (unfold m1; destruct (wy <=? 0); easy).
  assert (V1 : forall y x, inside m y x -> f_at m1 y x = (taper profile wy (f_ny m) y * f_at m y x)%R).
  { intros y x [Hry Hrx]. unfold m1. destruct (Z.leb_spec wy 0); [rewrite taper_off by lia; ring|]. cbn [along_y f_at]. rewrite line_taper by (assumption || lia). reflexivity. }
  exists m1. rewrite (axis_ok fill p profile wx (f_nx m) (along_x m1) m1 Hk Hfo Hx Hx0), Hden.
  set (m2 := if wx <=? 0 then m1 else along_x m1 (apod_line fill (fun k => profile (IZR (k + 1) / IZR (wx + 1))%R) wx (f_nx m))).
  exists m2. split; [easy|]. split; [apply E1|]. split; [apply E1|]. split; [easy|].
  split; [unfold m2; destruct (wx <=? 0); apply E1|]. split; [unfold m2; destruct (wx <=? 0); apply E1|].
  intros y x [Hry Hrx]. unfold m2. destruct (Z.leb_spec wx 0).
  - rewrite (taper_off profile wx), V1 by (easy || lia). ring.
  - cbn [along_x f_at]. rewrite line_taper by (assumption || lia). rewrite V1 by easy. ring.
Qed.

(* fill="zero": the map times the tapers of its two axes *)
Theorem C106_zero : forall median m wy wx p profile, known p profile -> 0 <= f_ny m -> 0 <= f_nx m -> 2 * wy <= f_ny m -> 2 * wx <= f_nx m ->
  exists m', apod median m (wy, wx) p FillZero = Ok m' /\ f_ny m' = f_ny m /\ f_nx m' = f_nx m /\
    forall y x, inside m y x -> f_at m' y x = (taper profile wy (f_ny m) y * taper profile wx (f_nx m) x * f_at m y x)%R.
Proof.
  intros median m wy wx p profile Hk Hy0 Hx0 Hy Hx. destruct (apod_tapered FillZero p profile wy wx m Hk ltac:(tauto) Hy0 Hx0 Hy Hx) as (m1 & m2 & E1 & A1 & B1 & E2 & A2 & B2 & V).
  exists m2. unfold apod. cbn [fst snd]. rewrite E1, B1, E2. easy.
Qed.
Print Assumptions C106_zero.

(* fill="mean" or "median": the same for the deviation from the mean or median of the map *)
Theorem C106_offset : forall median m wy wx p profile fill c, known p profile -> 0 <= f_ny m -> 0 <= f_nx m -> 2 * wy <= f_ny m -> 2 * wx <= f_nx m ->
  (fill = FillMean /\ c = (sum_map m / IZR (f_ny m * f_nx m))%R) \/ (fill = FillMedian /\ c = median m) ->
  exists m', apod median m (wy, wx) p fill = Ok m' /\ f_ny m' = f_ny m /\ f_nx m' = f_nx m /\
    forall y x, inside m y x -> f_at m' y x = (c + taper profile wy (f_ny m) y * taper profile wx (f_nx m) x * (f_at m y x - c))%R.
Proof.
  intros median m wy wx p profile fill c Hk Hy0 Hx0 Hy Hx Hc.
  assert (Hf : fill = FillZero \/ fill = FillMean \/ fill = FillMedian) by (destruct Hc as [[-> _]|[-> _]]; tauto).
  destruct (apod_tapered fill p profile wy wx (mapR (fun v => (v - c)%R) m) Hk Hf Hy0 Hx0 Hy Hx) as (m1 & m2 & E1 & A1 & B1 & E2 & A2 & B2 & V).
  exists (mapR (fun v => (v + c)%R) m2). split.
  - unfold apod. cbn [fst snd]. destruct Hc as [[-> ->]|[-> ->]]; fold (mean_map m) in *; rewrite E1, B1, E2; reflexivity.
  - split; [exact A2|]. split; [exact B2|]. intros y x H. change (f_at (mapR (fun v => (v + c)%R) m2) y x) with (f_at m2 y x + c)%R. rewrite (V y x H). cbn [mapR f_at f_ny f_nx]. ring.
Qed.
Print Assumptions C106_offset.

Lemma sum_shift l : forall a, fold_left Rplus l a = (a + fold_left Rplus l 0)%R.
Proof. induction l as [|b l IH]; intros a; cbn [fold_left]; [ring|]. rewrite IH, (IH (0 + b)%R). ring. Qed.
Lemma sum_const l c : Forall (fun v => v = c) l -> fold_left Rplus l 0%R = (INR (length l) * c)%R.
Proof.
  induction l as [|a l IH]; intros H; [cbn; ring|]. inversion H as [|? ? E H']; subst. cbn [fold_left]. rewrite sum_shift, IH by easy.
  change (length (c :: l)) with (S (length l)). rewrite S_INR. ring.
Qed.
(* so a constant map stays as it is *)
Theorem C106_constant : forall median m wy wx p profile c, known p profile -> 1 <= f_ny m -> 1 <= f_nx m -> 2 * wy <= f_ny m -> 2 * wx <= f_nx m ->
  (forall y x, inside m y x -> f_at m y x = c) -> exists m', apod median m (wy, wx) p FillMean = Ok m' /\ forall y x, inside m y x -> f_at m' y x = c.
Proof.
  intros median m wy wx p profile c Hk Hy0 Hx0 Hy Hx Hc.
  destruct (C106_offset median m wy wx p profile FillMean _ Hk ltac:(lia) ltac:(lia) Hy Hx (or_introl (conj eq_refl eq_refl))) as (m' & E & _ & _ & V).
  exists m'. split; [easy|]. intros y x H. rewrite (V y x H), (Hc y x H).
  assert (Es : sum_map m = (IZR (f_ny m * f_nx m) * c)%R).
  { unfold sum_map. rewrite (sum_const _ c).
    - f_equal. rewrite INR_IZR_INZ. f_equal. rewrite flat_map_concat_map, <- (Z2Nat.id (f_ny m)) by lia.
      assert (Hlen : forall (g : Z -> list R) a k N, (forall i, length (g i) = N) -> length (concat (map g (zseq a k))) = (k * N)%nat).
      { intros g a k N Hg. revert a. induction k as [|k IH]; intros a; [easy|]. cbn [zseq map concat]. rewrite app_length, Hg, IH. lia. }
      unfold zrange. rewrite (Hlen _ _ _ (Z.to_nat (f_nx m))); [|intros i; rewrite map_length; unfold zrange; rewrite zseq_length; f_equal; lia].
      rewrite Nat2Z.inj_mul. f_equal; lia.
    - apply Forall_forall. intros v Hv. apply in_flat_map in Hv. destruct Hv as (y' & Hy' & Hv). apply in_map_iff in Hv. destruct Hv as (x' & <- & Hx'). apply zrange_In in Hy', Hx'. now apply Hc. }
  rewrite Es. field. apply not_0_IZR. nia.
Qed.
Print Assumptions C106_constant.

(* fill="crossfade": every pixel near an end is mixed with one near the other end *)
Theorem C106_crossfade : forall median m wy wx p profile, known p profile -> 0 <= f_ny m -> 0 <= f_nx m -> 2 * wy <= f_ny m -> 2 * wx <= f_nx m ->
  exists m', apod median m (wy, wx) p FillCrossfade = Ok m' /\ f_ny m' = f_ny m /\ f_nx m' = f_nx m /\
    forall y x, inside m y x -> let a := share profile wy (f_ny m) y in let b := share profile wx (f_nx m) x in
      let y' := partner wy (f_ny m) y in let x' := partner wx (f_nx m) x in
      (0 <= a < 1 / 2 /\ 0 <= b < 1 / 2 /\
       f_at m' y x = (1 - b) * ((1 - a) * f_at m y x + a * f_at m y' x) + b * ((1 - a) * f_at m y x' + a * f_at m y' x'))%R.
Proof.
  intros median m wy wx p profile Hk Hy0 Hx0 Hy Hx. unfold apod. cbn [fst snd].
  rewrite (axis_ok FillCrossfade p profile wy (f_ny m) (along_y m) m Hk ltac:(discriminate) Hy Hy0).
  set (m1 := if wy <=? 0 then m else along_y m (apod_line FillCrossfade (fun k => profile (IZR (k + 1) / IZR (2 * wy + 1))%R) wy (f_ny m))).
  assert (E1 : f_ny m1 = f_ny m /\ f_nx m1 = f_nx m) by (unfold m1; destruct (wy <=? 0); easy).
  assert (V1 : forall y x, 0 <= y < f_ny m -> f_at m1 y x = ((1 - share profile wy (f_ny m) y) * f_at m y x + share profile wy (f_ny m) y * f_at m (partner wy (f_ny m) y) x)%R).
  { intros y x Hry. unfold m1. destruct (Z.leb_spec wy 0); [rewrite share_off by lia; ring|]. cbn [along_y f_at]. rewrite line_cross by lia. reflexivity. }
  rewrite (proj2 E1). rewrite (axis_ok FillCrossfade p profile wx (f_nx m) (along_x m1) m1 Hk ltac:(discriminate) Hx Hx0).
  eexists. split; [reflexivity|]. split; [destruct (wx <=? 0); apply E1|]. split; [destruct (wx <=? 0); apply E1|].
  assert (Hsh : forall w n j, 0 <= j < n -> (0 <= share profile w n j < 1 / 2)%R).
  { intros w n j Hj. unfold share. destruct (Z.ltb_spec (from_end n j) w); [|lra]. unfold from_end in *.
    assert (Hr : (0 < IZR (w - Z.min j (n - 1 - j)) / IZR (2 * w + 1) < 1 / 2)%R).
    { split; [apply ratio_bound; lia|]. assert (Hd : (0 < IZR (2 * w + 1))%R) by (apply IZR_lt; lia). apply Rmult_lt_reg_r with (IZR (2 * w + 1)); [easy|].
      unfold Rdiv. rewrite Rmult_assoc, Rinv_l by lra. assert (H3 : (IZR (2 * (w - Z.min j (n - 1 - j))) < IZR (2 * w + 1))%R) by (apply IZR_lt; lia). rewrite mult_IZR in H3. lra. }
    pose proof (prof_half profile _ (known_or p profile Hk) Hr). lra. }
  intros y x [Hry Hrx]. set (a := share profile wy (f_ny m) y). set (b := share profile wx (f_nx m) x). set (y' := partner wy (f_ny m) y). set (x' := partner wx (f_nx m) x). split; [now apply Hsh|]. split; [now apply Hsh|].
  assert (Hpx : 0 <= x' < f_nx m \/ wx <= 0). { unfold x', partner. destruct (Z.ltb_spec x wx); [lia|]. destruct (Z.leb_spec (f_nx m - wx) x); lia. }
  destruct (Z.leb_spec wx 0).
  - assert (Eb : b = 0%R) by (now apply share_off). rewrite Eb. rewrite V1 by easy. fold a y'. ring.
  - cbn [along_x f_at]. rewrite line_cross by lia. rewrite !V1 by easy. fold a b y' x'. ring.
Qed.
Print Assumptions C106_crossfade.

(* every fill leaves the pixels alone that are further from the ends than the widths *)
Theorem C106_interior : forall median m wy wx p profile fill m' y x, known p profile -> 0 <= f_ny m -> 0 <= f_nx m -> 2 * wy <= f_ny m -> 2 * wx <= f_nx m ->
  apod median m (wy, wx) p fill = Ok m' -> inside m y x -> wy <= from_end (f_ny m) y -> wx <= from_end (f_nx m) x -> f_at m' y x = f_at m y x.
Proof.
  intros median m wy wx p profile fill m' y x Hk Hy0 Hx0 Hy Hx E H Hwy Hwx.
  pose proof (gt_flat _ _ _ (C106_taper profile wy (f_ny m) (known_or p profile Hk)) y (proj1 H) Hwy) as Ty.
  pose proof (gt_flat _ _ _ (C106_taper profile wx (f_nx m) (known_or p profile Hk)) x (proj2 H) Hwx) as Tx.
  destruct fill.
  - destruct (C106_zero median m wy wx p profile Hk Hy0 Hx0 Hy Hx) as (m0 & E' & _ & _ & V). rewrite E in E'. injection E' as <-. rewrite (V y x H), Ty, Tx. ring.
  - destruct (C106_offset median m wy wx p profile FillMean _ Hk Hy0 Hx0 Hy Hx (or_introl (conj eq_refl eq_refl))) as (m0 & E' & _ & _ & V). rewrite E in E'. injection E' as <-. rewrite (V y x H), Ty, Tx. ring.
  - destruct (C106_offset median m wy wx p profile FillMedian _ Hk Hy0 Hx0 Hy Hx (or_intror (conj eq_refl eq_refl))) as (m0 & E' & _ & _ & V). rewrite E in E'. injection E' as <-. rewrite (V y x H), Ty, Tx. ring.
  - destruct (C106_crossfade median m wy wx p profile Hk Hy0 Hx0 Hy Hx) as (m0 & E' & _ & _ & V). rewrite E in E'. injection E' as <-. destruct (V y x H) as (_ & _ & ->).
    unfold share. destruct (Z.ltb_spec (from_end (f_ny m) y) wy); [lia|]. destruct (Z.ltb_spec (from_end (f_nx m) x) wx); [lia|]. ring.
  - unfold apod in E. cbn [fst snd] in E. unfold apod_axis in E. rewrite (known_fun p profile Hk) in E.
    destruct (wy <=? 0), (wx <=? 0); injection E as <-; reflexivity.
Qed.
Print Assumptions C106_interior.

(* it raises exactly if some positive width comes with an unknown profile or is longer than its axis *)
Theorem C106_raises : forall median m wy wx p fill, fill <> FillOther ->
  (exists e, apod median m (wy, wx) p fill = Err e) <-> ((0 < wy \/ 0 < wx) /\ p = ProfOther) \/ (0 < wy /\ f_ny m < wy) \/ (0 < wx /\ f_nx m < wx).
Proof.
  intros median m wy wx p fill Hf.
  assert (Hax : forall w n put m0, (exists e, apod_axis fill p w n put m0 = Err e) <-> 0 < w /\ (p = ProfOther \/ n < w)).
  { intros w n put m0. unfold apod_axis. destruct (Z.leb_spec w 0); [split; [intros [e E]; discriminate|lia]|].
    destruct p; cbn [profile_fun].
    3:{ split; [intros _; split; [easy|now left]|intros _; now exists ProfileError]. }
    all: destruct fill; try congruence; (destruct (Z.ltb_spec n w); [split; [intros _; split; [easy|now right]|intros _; now exists ShapeError]|split; [intros [e E]; discriminate|intros [_ [Hd|Hd]]; [discriminate|lia]]]). }
  assert (Hsz : forall w n g m0 m1, (g = along_y m0 \/ g = along_x m0) -> apod_axis fill p w n g m0 = Ok m1 -> f_ny m1 = f_ny m0 /\ f_nx m1 = f_nx m0).
  { intros w n g m0 m1 Hg E. unfold apod_axis in E. destruct (w <=? 0); [injection E as <-; easy|]. destruct (profile_fun p); [|discriminate].
    destruct fill; try congruence; (destruct (n <? w); [discriminate|]); injection E as <-; destruct Hg as [-> | ->]; easy. }
  unfold apod. cbn [fst snd].
  set (m0 := match fill with FillMean | FillMedian => _ | _ => m end).
  assert (E0 : f_ny m0 = f_ny m /\ f_nx m0 = f_nx m) by (unfold m0; destruct fill; easy).
  destruct (apod_axis fill p wy (f_ny m0) (along_y m0) m0) as [m1|e1] eqn:E1.
  - destruct (Hsz wy (f_ny m0) (along_y m0) m0 m1 (or_introl eq_refl) E1) as [S1 S2].
    assert (N1 : ~ (0 < wy /\ (p = ProfOther \/ f_ny m0 < wy))). { intros Hc. apply (Hax wy (f_ny m0) (along_y m0) m0) in Hc. destruct Hc as [e E]. congruence. }
    destruct (apod_axis fill p wx (f_nx m1) (along_x m1) m1) as [m2|e2] eqn:E2.
    + assert (N2 : ~ (0 < wx /\ (p = ProfOther \/ f_nx m1 < wx))). { intros Hc. apply (Hax wx (f_nx m1) (along_x m1) m1) in Hc. destruct Hc as [e E]. congruence. }
      rewrite (proj1 E0) in N1. rewrite S2, (proj2 E0) in N2. split; [intros [e E]; discriminate|]. intros H. exfalso. tauto.
    + assert (P2 : 0 < wx /\ (p = ProfOther \/ f_nx m1 < wx)) by (apply (Hax wx (f_nx m1) (along_x m1) m1); now exists e2). rewrite S2, (proj2 E0) in P2.
      split; [intros _; tauto|intros _; now exists e2].
  - assert (P1 : 0 < wy /\ (p = ProfOther \/ f_ny m0 < wy)) by (apply (Hax wy (f_ny m0) (along_y m0) m0); now exists e1). rewrite (proj1 E0) in P1.
    split; [intros _; tauto|intros _; now exists e1].
Qed.
Print Assumptions C106_raises.

(* outside the claim: an unknown fill does not raise but does nothing *)
Theorem C106_unknown_fill : forall median m wy wx p profile, known p profile -> apod median m (wy, wx) p FillOther = Ok m.
Proof. intros median m wy wx p profile Hk. unfold apod, apod_axis. cbn [fst snd]. rewrite (known_fun p profile Hk). destruct (wy <=? 0), (wx <=? 0); reflexivity. Qed.
Print Assumptions C106_unknown_fill.
(* outside the claim: with crossfade and a width of two or more, the first pixel gets nothing of the last one, its neighbour around the edge *)
Theorem C106_seam : forall median m m2 wx p profile a a2, known p profile -> 1 <= f_ny m -> 2 <= wx -> 2 * wx <= f_nx m ->
  f_ny m2 = f_ny m -> f_nx m2 = f_nx m -> (forall y x, x <> f_nx m - 1 -> f_at m2 y x = f_at m y x) ->
  apod median m (0, wx) p FillCrossfade = Ok a -> apod median m2 (0, wx) p FillCrossfade = Ok a2 -> forall y, 0 <= y < f_ny m -> f_at a y 0 = f_at a2 y 0.
Proof.
  intros median m m2 wx p profile a a2 Hk Hy Hw Hx Ey Ex Hsame E E2 y Hry.
  destruct (C106_crossfade median m 0 wx p profile Hk ltac:(lia) ltac:(lia) ltac:(lia) Hx) as (a' & E' & _ & _ & V). rewrite E in E'. injection E' as <-.
  destruct (C106_crossfade median m2 0 wx p profile Hk ltac:(lia) ltac:(lia) ltac:(lia) ltac:(lia)) as (a2' & E2' & _ & _ & V2). rewrite E2 in E2'. injection E2' as <-.
  destruct (V y 0) as (_ & _ & ->); [split; lia|]. destruct (V2 y 0) as (_ & _ & ->); [split; lia|]. rewrite Ey, Ex.
  rewrite (share_off profile 0 (f_ny m) y) by lia. assert (Ep : partner wx (f_nx m) 0 = f_nx m - wx) by (unfold partner; destruct (Z.ltb_spec 0 wx); lia). rewrite Ep.
  rewrite !Hsame by lia. ring.
Qed.
Print Assumptions C106_seam.

Example C106_ex : exists m', apod (fun _ => 0%R) (FA 1 5 (fun _ x => IZR x)) (0, 1) ProfCos FillMean = Ok m' /\ f_at m' 0 0 = 1%R /\ f_at m' 0 1 = 1%R.
Proof.
  assert (Hk : known ProfCos apod_profile_cos) by (right; easy).
  destruct (C106_offset (fun _ => 0%R) (FA 1 5 (fun _ x => IZR x)) 0 1 ProfCos apod_profile_cos FillMean 2%R Hk) as (m' & E & _ & _ & V); try (cbn; lia).
  { left. split; [easy|]. unfold sum_map. cbn [f_ny f_nx f_at]. change (zrange 0 5) with [0; 1; 2; 3; 4]. change (zrange 0 1) with [0]. cbn [flat_map map app fold_left]. change (1 * 5) with 5. lra. }
  exists m'. split; [easy|]. split.
  - rewrite V by (split; cbn; lia). cbn [f_ny f_nx f_at]. rewrite taper_off by lia. unfold taper. cbn -[IZR apod_profile_cos].
    unfold apod_profile_cos. replace (PI * (1 / 2))%R with (PI / 2)%R by field. rewrite cos_PI2. lra.
  - rewrite V by (split; cbn; lia). cbn [f_ny f_nx f_at]. rewrite taper_off by lia. unfold taper. cbn -[IZR apod_profile_cos]. lra.
Qed.
