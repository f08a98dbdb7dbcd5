(* Claim C113: the flat-sky wavelet transform. *)
From Coq Require Import Reals Lra Lia.
From Coquelicot Require Import Complex.
From Verif Require Import Base ArrModel FresSpec FftSpec FftModel FftLemmas FftLemmas2 FftLemmas3 FftLemmas4 WavSpec WvfModel WvfProps WflSpec WflModel WflLemmas WflLemmas2 WflLemmas3 WflLemmas4 WflLemmas5.
Ltac Zify.zify_post_hook ::= idtac.
Open Scope R_scope.

(* every wavelet map is the filtered pattern at the centres of its own pixels, divided by the norm of the scale *)
Theorem C113_coefficients : forall ny nx lvs ms, (0 < ny)%Z -> (0 < nx)%Z -> band ny nx ms ->
  List.Forall (fun lv => fits ny nx (lv_filt lv) /\ supported ny nx (lv_filt lv) /\ lv_norm lv <> 0) lvs ->
  exists ws, map2wave lvs (sampled ny nx (1 / 2) (1 / 2) (trig ms)) = Some ws /\
  List.Forall2 (fun lv w => aeq w (drop_im false (sampled (f_ny (lv_filt lv)) (f_nx (lv_filt lv)) (1 / 2) (1 / 2)
    (fun u v => Cmult (trig (filtered (lv_filt lv) ms) u v) (RtoC (/ lv_norm lv)))))) lvs ws.
Proof. exact coefficients. Qed.
Print Assumptions C113_coefficients.

(* the way back is exact when all scales after the first have the size of the map *)
Theorem C113_round_trip_partial : forall ny nx lv lvs m, f_ny m = ny -> f_nx m = nx -> nonempty m -> is_real m ->
  List.Forall (fun v => good_filter ny nx (lv_filt v) /\ lv_norm v <> 0) (lv :: lvs) -> complete ny nx (map lv_filt (lv :: lvs)) ->
  List.Forall (fun v => f_ny (lv_filt v) = ny /\ f_nx (lv_filt v) = nx) lvs ->
  exists ws, map2wave (lv :: lvs) m = Some ws /\ oaeq (wave2map ny nx (lv :: lvs) ws) m.
Proof.
  intros ny nx lv lvs m Ey Ex Hm HR HG HC HF. pose proof Hm as [Py Px]. apply (unit_back ny nx m Ey Ex Hm HR (lv :: lvs) HG).
  intros Y X IY IX. rewrite acc_first by (try lia; exact HF). rewrite (complete_fv ny nx (lv :: lvs) Y X HG HC IY IX). reflexivity.
Qed.
Print Assumptions C113_round_trip_partial.

(* otherwise every later scale moves what the earlier ones put in by half a pixel of its own less half a pixel of the map *)
Theorem C113_displacement : forall ny nx lv lvs ms, (0 < ny)%Z -> (0 < nx)%Z ->
  List.Forall (fun v => good_filter ny nx (lv_filt v) /\ lv_norm v <> 0) (lv :: lvs) -> band ny nx ms -> is_real (sampled ny nx (1 / 2) (1 / 2) (trig ms)) ->
  (forall c ky kx, In (c, ky, kx) ms -> freq_value (lv_filt lv) ky kx ^ 2 = 1 /\ forall v, In v lvs -> freq_value (lv_filt v) ky kx = 0) ->
  let sy := rsum (map (fun v => (IZR ny / IZR (f_ny (lv_filt v)) - 1) / 2) lvs) in
  let sx := rsum (map (fun v => (IZR nx / IZR (f_nx (lv_filt v)) - 1) / 2) lvs) in
  exists ws, map2wave (lv :: lvs) (sampled ny nx (1 / 2) (1 / 2) (trig ms)) = Some ws /\
  oaeq (wave2map ny nx (lv :: lvs) ws) (drop_im false (sampled ny nx (1 / 2 - sy) (1 / 2 - sx) (trig ms))).
Proof.
  intros ny nx lv lvs ms Hy Hx HG HB HR HM. cbv zeta.
  assert (E : forall n (g : level -> Z), (forall v, In v lvs -> (0 < g v)%Z) -> map (fun v => (IZR n / IZR (g v) - 1) / 2) lvs = map (fun v => offs true 0 n (g v)) lvs).
  { intros n g P. apply map_ext_in. intros v Hv. unfold offs. field. apply IZRn0, P, Hv. }
  assert (P : forall v, In v lvs -> (0 < f_ny (lv_filt v))%Z /\ (0 < f_nx (lv_filt v))%Z).
  { intros v Hv. pose proof (proj1 (Forall_forall _ _) HG v (or_intror Hv)) as [((? & ?) & _) _]. lia. }
  rewrite (E ny), (E nx) by (intros; apply P; assumption). apply displaced; assumption.
Qed.
Print Assumptions C113_displacement.

(* so a complete set of good filters with two scales smaller than the map does not give the map back *)
Definition pick_x (n : Z) (keep : Z -> bool) : level := Level (FA 2 n (fun _ x => if keep x then 1 else 0)) 1.
Definition three : list level := [pick_x 4 (fun x => (x =? 1)%Z || (x =? 3)%Z); pick_x 4 (fun x => (x =? 0)%Z); pick_x 8 (fun x => (2 <=? x)%Z && (x <=? 6)%Z)].
Definition wave8 : list (C * Z * Z) := [(RtoC (1 / 2), 0%Z, 1%Z); (RtoC (1 / 2), 0%Z, (-1)%Z)].
Lemma wave8_at u v : trig wave8 u v = RtoC (cos (2 * PI * v)).
Proof.
  cbn [wave8 trig fold_right]. replace (2 * PI * (0 * u + 1 * v)) with (2 * PI * v) by ring. replace (2 * PI * (0 * u + -1 * v)) with (- (2 * PI * v)) by ring. unfold cis. rewrite cos_neg, sin_neg.
  apply C_eq; cbn; field.
Qed.
Lemma pick_good n keep : (0 < n <= 8)%Z -> (forall x, (0 <= x < n)%Z -> keep x = true -> n = 8%Z \/ inside n (sfreq n x)) -> (forall x, (0 <= x < n)%Z -> keep ((- x) mod n)%Z = keep x) ->
  good_filter 2 8 (lv_filt (pick_x n keep)) /\ lv_norm (pick_x n keep) <> 0.
Proof.
  intros Hn H1 H2. split; [|cbn; lra]. split; [split; cbn; lia|]. split.
  - intros y x Iy Ix. cbn [pick_x lv_filt f_at f_ny f_nx] in *. destruct (keep x) eqn:K; [|lra]. intros _. split; [left; reflexivity|]. destruct (H1 x Ix K) as [->|I]; [left; reflexivity|right; exact I].
  - intros y x Iy Ix. cbn [pick_x lv_filt f_at f_ny f_nx] in *. rewrite H2 by exact Ix. reflexivity.
Qed.
Lemma lt4 x : (0 <= x < 4)%Z -> x = 0%Z \/ x = 1%Z \/ x = 2%Z \/ x = 3%Z.
Proof. lia. Qed.
Lemma lt8 x : (0 <= x < 8)%Z -> x = 0%Z \/ x = 1%Z \/ x = 2%Z \/ x = 3%Z \/ x = 4%Z \/ x = 5%Z \/ x = 6%Z \/ x = 7%Z.
Proof. lia. Qed.
Lemma three_good : List.Forall (fun v => good_filter 2 8 (lv_filt v) /\ lv_norm v <> 0) three.
Proof.
  constructor; [|constructor; [|constructor; [|constructor]]]; (apply pick_good; [lia|intros x Hx|intros x Hx]).
  - apply lt4 in Hx as [->|[->|[->| ->]]]; cbn; intros K; try discriminate K; right; unfold inside; cbn; lia.
  - apply lt4 in Hx as [->|[->|[->| ->]]]; reflexivity.
  - apply lt4 in Hx as [->|[->|[->| ->]]]; cbn; intros K; try discriminate K; right; unfold inside; cbn; lia.
  - apply lt4 in Hx as [->|[->|[->| ->]]]; reflexivity.
  - left; reflexivity.
  - apply lt8 in Hx as [->|[->|[->|[->|[->|[->|[->| ->]]]]]]]; reflexivity.
Qed.
Lemma three_complete : complete 2 8 (map lv_filt three).
Proof.
  intros y x Iy Ix. assert (y = 0%Z \/ y = 1%Z) as Y by lia. destruct Y as [-> | ->]; apply lt8 in Ix as [->|[->|[->|[->|[->|[->|[->| ->]]]]]]]; cbn; lra.
Qed.
Theorem C113_round_trip_refuted : exists ny nx lvs m ws o, (List.length lvs = 3)%nat /\ f_ny m = ny /\ f_nx m = nx /\ nonempty m /\ is_real m /\
  List.Forall (fun v => good_filter ny nx (lv_filt v) /\ lv_norm v <> 0) lvs /\ complete ny nx (map lv_filt lvs) /\
  map2wave lvs m = Some ws /\ wave2map ny nx lvs ws = Some o /\ f_at o 0 2 = RtoC 0 /\ Re (f_at m 0 2) < 0.
Proof.
  set (m := sampled 2 8 (1 / 2) (1 / 2) (trig wave8)).
  assert (HR : is_real m) by (intros y x _ _; cbn [m sampled f_at]; rewrite wave8_at; reflexivity).
  assert (HB : band 2 8 wave8) by (repeat constructor; unfold inside; cbn; lia).
  destruct (C113_displacement 2 8 (pick_x 4 (fun x => (x =? 1)%Z || (x =? 3)%Z)) [pick_x 4 (fun x => (x =? 0)%Z); pick_x 8 (fun x => (2 <=? x)%Z && (x <=? 6)%Z)] wave8) as (ws & E & K); try lia.
  - exact three_good.
  - exact HB.
  - exact HR.
  - intros c ky kx [Q|[Q|[]]]; injection Q as <- <- <-; (split; [cbn; lra|]); intros v [<-|[<-|[]]]; reflexivity.
  - fold three in E, K. destruct (wave2map 2 8 three ws) as [o|] eqn:Eo; [|contradiction]. exists 2%Z, 8%Z, three, m, ws, o. split; [reflexivity|]. split; [reflexivity|]. split; [reflexivity|]. split; [split; cbn; lia|]. split; [exact HR|].
    split; [exact three_good|]. split; [exact three_complete|]. split; [exact E|]. split; [exact Eo|]. destruct K as (K1 & K2 & K3). rewrite K3 by (rewrite ?K1, ?K2; cbn; lia). split.
    + cbn [drop_im amap sampled f_at]. rewrite wave8_at. cbn [map rsum pick_x lv_filt f_ny f_nx]. f_equal. cbn [Re RtoC fst].
      replace (2 * PI * ((2 + (1 / 2 - ((8 / 4 - 1) / 2 + ((8 / 8 - 1) / 2 + 0)))) / 8)) with (PI / 2) by field. apply cos_PI2.
    + cbn [m sampled f_at]. rewrite wave8_at. cbn [Re RtoC fst]. pose proof PI_RGT_0. apply cos_lt_0; lra.
Qed.
Print Assumptions C113_round_trip_refuted.

(* filters prepared from a basis whose squares add up to one, all wavelet maps of the size of the map: exact for every real map *)
Theorem C113_exact : forall ny nx dy dx gs m, f_ny m = ny -> f_nx m = nx -> nonempty m -> is_real m -> gs <> [] ->
  let l := modlmap ny nx dy dx in
  List.Forall (fun g => snd (fst g) = (ny, nx) /\ 0 < snd g /\ exists y x, (0 <= y < ny)%Z /\ (0 <= x < nx)%Z /\ fst (fst g) (f_at l y x) <> 0) gs ->
  (forall y x, (0 <= y < ny)%Z -> (0 <= x < nx)%Z -> rsum (map (fun g => fst (fst g) (f_at l y x) ^ 2) gs) = 1) ->
  exists lvs ws, prepare_filters l gs = Some lvs /\ map2wave lvs m = Some ws /\ oaeq (wave2map ny nx lvs ws) m.
Proof.
  intros ny nx dy dx gs m Ey Ex Hm HR Hne l HG HS. pose proof Hm as [Py Px].
  assert (Le : forall y x, (0 <= y < ny)%Z -> (0 <= x < nx)%Z -> f_at l ((- y) mod ny)%Z ((- x) mod nx)%Z = f_at l y x) by (intros; apply modlmap_even; lia).
  destruct (prepare_all ny nx ltac:(lia) ltac:(lia) l eq_refl eq_refl Le gs HG) as (lvs & E & K). destruct (prepared_good ny nx ltac:(lia) ltac:(lia) l Le gs lvs K) as (G & S & V).
  destruct (unit_back ny nx m Ey Ex Hm HR lvs G) as (ws & E1 & E2).
  - intros Y X IY IX. rewrite RtoC_rsum_acc by (try lia; exact S). rewrite V, HS by assumption. apply Cplus_0_l.
  - exists lvs, ws. split; [exact E|]. split; [exact E1|exact E2].
Qed.
Print Assumptions C113_exact.

(* the default basis *)
Lemma rsum_app a b : rsum (a ++ b) = rsum a + rsum b.
Proof. induction a as [|x a IH]; cbn [rsum app]; [ring|]. rewrite IH. ring. Qed.
Lemma rsum_seq (f : nat -> R -> R) n l : rsum (map (fun i => f i l ^ 2) (seq 0 n)) = sum_squares f n l.
Proof. induction n as [|n IH]; [reflexivity|]. rewrite seq_S, map_app, rsum_app, IH. cbn. ring. Qed.
Theorem C113_buttertrim : forall ny nx dy dx step shape lmin trim n area m, f_ny m = ny -> f_nx m = nx -> nonempty m -> is_real m ->
  1 < step -> 0 < shape -> 0 < lmin -> 0 <= trim -> (1 <= n)%nat -> 0 < area ->
  let l := modlmap ny nx dy dx in
  (forall i, (i < n)%nat -> exists y x, (0 <= y < ny)%Z /\ (0 <= x < nx)%Z /\ buttertrim step shape lmin trim n i (f_at l y x) <> 0) ->
  exists lvs ws, prepare_filters l (map (fun i => (buttertrim step shape lmin trim n i, (ny, nx), area)) (seq 0 n)) = Some lvs /\
    map2wave lvs m = Some ws /\ oaeq (wave2map ny nx lvs ws) m.
Proof.
  intros ny nx dy dx step shape lmin trim n area m Ey Ex Hm HR H1 H2 H3 H4 Hn Ha l HN. apply C113_exact; try assumption.
  - destruct n; [lia|discriminate].
  - apply Forall_forall. intros g Hg. apply in_map_iff in Hg as (i & <- & Hi). apply in_seq in Hi. cbn [fst snd]. split; [reflexivity|]. split; [exact Ha|]. apply HN. lia.
  - intros y x Iy Ix. rewrite map_map. cbn [fst snd]. rewrite rsum_seq. apply C59_buttertrim; try assumption. cbn [modlmap f_at]. apply sqrt_pos.
Qed.
Print Assumptions C113_buttertrim.

(* the multipoles of a scale: those of the map when the scale has its size ... *)
Theorem C113_multipoles_partial : forall l, (0 < f_ny l)%Z -> (0 < f_nx l)%Z -> exists o, get_ls l (f_ny l) (f_nx l) = Some o /\ aeq o l.
Proof. exact get_ls_full. Qed.
Print Assumptions C113_multipoles_partial.
(* ... and otherwise those of the map times a cosine, which can be negative *)
Theorem C113_multipoles_refuted :
  (forall l my mx, (0 < my <= f_ny l)%Z -> (0 < mx <= f_nx l)%Z -> exists o, get_ls l my mx = Some o /\ f_ny o = my /\ f_nx o = mx /\
    forall ky kx, inside my ky -> inside mx kx -> f_at o (ky mod my)%Z (kx mod mx)%Z =
      cos (PI * (IZR ky * (/ IZR my - / IZR (f_ny l)) + IZR kx * (/ IZR mx - / IZR (f_nx l)))) * f_at l (ky mod f_ny l)%Z (kx mod f_nx l)%Z) /\
  (exists o, get_ls (modlmap 64 64 1 1) 8 8 = Some o /\ f_at o 3 3 < 0 < f_at (modlmap 64 64 1 1) 3 3).
Proof.
  split; [exact get_ls_mode|]. destruct (get_ls_mode (modlmap 64 64 1 1) 8 8) as (o & E & _ & _ & V); try (cbn; lia). exists o. split; [exact E|].
  assert (P : 0 < f_at (modlmap 64 64 1 1) 3 3). { cbn [modlmap f_at]. apply sqrt_lt_R0. pose proof PI_RGT_0. unfold fftfreq. cbn. nra. }
  split; [|exact P]. specialize (V 3%Z 3%Z ltac:(unfold inside; lia) ltac:(unfold inside; lia)). cbn [modlmap f_ny f_nx] in V. change (3 mod 8)%Z with 3%Z in V. change (3 mod 64)%Z with 3%Z in V. rewrite V. fold (modlmap 64 64 1 1).
  match goal with |- cos ?a * ?b < 0 => assert (cos a < 0); [|nra] end. pose proof PI_RGT_0. apply cos_lt_0; lra.
Qed.
Print Assumptions C113_multipoles_refuted.

(* the hypotheses are met: the first and the last of these scales are enough when the first has the band of the second as well *)
Definition two : list level := [pick_x 4 (fun x => (x <=? 1)%Z || (x =? 3)%Z); pick_x 8 (fun x => (2 <=? x)%Z && (x <=? 6)%Z)].
Example C113_ex : List.Forall (fun v => good_filter 2 8 (lv_filt v) /\ lv_norm v <> 0) two /\ complete 2 8 (map lv_filt two) /\
  List.Forall (fun v => f_ny (lv_filt v) = 2%Z /\ f_nx (lv_filt v) = 8%Z) (tl two) /\
  is_real (FA 2 8 (fun y x => RtoC (IZR (y + x * x)))) /\ band 2 8 wave8.
Proof.
  split; [|split; [|split; [|split]]].
  - constructor; [|constructor; [|constructor]]; (apply pick_good; [lia|intros x Hx|intros x Hx]).
    + apply lt4 in Hx as [->|[->|[->| ->]]]; cbn; intros K; try discriminate K; right; unfold inside; cbn; lia.
    + apply lt4 in Hx as [->|[->|[->| ->]]]; reflexivity.
    + left; reflexivity.
    + apply lt8 in Hx as [->|[->|[->|[->|[->|[->|[->| ->]]]]]]]; reflexivity.
  - intros y x Iy Ix. assert (y = 0%Z \/ y = 1%Z) as Y by lia. destruct Y as [-> | ->]; apply lt8 in Ix as [->|[->|[->|[->|[->|[->|[->| ->]]]]]]]; cbn; lra.
  - repeat constructor.
  - intros y x _ _. reflexivity.
  - repeat constructor; unfold inside; cbn; lia.
Qed.
