(* Real patterns, their derivatives and compositions of filters. *)
From Coq Require Import Reals Lra Lia.
From Coquelicot Require Import Coquelicot.
From Verif Require Import Base ArrModel PixModel FftSpec FftModel FftLemmas FftLemmas2 FftLemmas3 FftLemmas4 FftLemmas5 FltSpec FltModel FltLemmas FltLemmas2 GrdSpec GrdModel GrdLemmas.
Ltac Zify.zify_post_hook ::= idtac.
Open Scope R_scope. Open Scope C_scope.

Definition half : C := RtoC (/ 2).
(* the real part of a pattern as a pattern *)
Definition realms (ms : list (C * Z * Z)) : list (C * Z * Z) :=
  map (fun m => let '(c, ky, kx) := m in (half * c, ky, kx)) ms ++ map (fun m => let '(c, ky, kx) := m in (half * Cconj c, (- ky)%Z, (- kx)%Z)) ms.
Lemma trig_app l m u v : trig (l ++ m) u v = trig l u v + trig m u v.
Proof. induction l as [|[[c ky] kx] l IH]; cbn [app]; [cbn; ring|]. rewrite !trig_cons, IH. ring. Qed.
Lemma half_re z : half * z + half * Cconj z = RtoC (Re z).
Proof. destruct z as [p q]. apply C_eq; unfold half, Re, Im, RtoC, Cplus, Cmult, Cconj; cbn [fst snd]; field. Qed.
Lemma cis_neg ky kx u v : cis (2 * PI * (IZR (- ky) * u + IZR (- kx) * v)) = Cconj (cis (2 * PI * (IZR ky * u + IZR kx * v))).
Proof. rewrite <- cis_opp. f_equal. rewrite !opp_IZR. ring. Qed.
Lemma trig_realms ms u v : trig (realms ms) u v = RtoC (Re (trig ms u v)).
Proof.
  unfold realms. rewrite trig_app. rewrite <- half_re.
  assert (A : trig (map (fun m => let '(c, ky, kx) := m in (half * c, ky, kx)) ms) u v = half * trig ms u v).
  { induction ms as [|[[c ky] kx] l IH]; cbn [map]; [cbn; ring|]. rewrite !trig_cons, IH. ring. }
  assert (B : trig (map (fun m => let '(c, ky, kx) := m in (half * Cconj c, (- ky)%Z, (- kx)%Z)) ms) u v = half * Cconj (trig ms u v)).
  { clear A. induction ms as [|[[c ky] kx] l IH]; cbn [map].
    - cbn. apply C_eq; unfold half, Re, Im, RtoC, Cmult, Cconj; cbn [fst snd]; ring.
    - rewrite !trig_cons, IH.
      rewrite cis_neg. destruct c, (cis _), (trig l u v). apply C_eq; unfold half, Re, Im, RtoC, Cplus, Cmult, Cconj; cbn [fst snd]; ring. }
  rewrite A, B. reflexivity.
Qed.

Lemma realms_below ny nx ms : below_all ny nx ms -> below_all ny nx (realms ms).
Proof.
  intros H. unfold below_all, realms in *. apply Forall_app. split; apply Forall_forall; intros m Hm; apply in_map_iff in Hm as [[[c ky] kx] [<- Hm]];
    apply (proj1 (Forall_forall _ _) H) in Hm; cbv beta iota in Hm |- *; unfold below in *; rewrite ?Z.abs_opp; exact Hm.
Qed.
Lemma gainedc_realms G ms : (forall ky kx, G (- ky)%Z (- kx)%Z = Cconj (G ky kx)) -> gainedc G (realms ms) = realms (gainedc G ms).
Proof.
  intros HG. unfold realms, gainedc. rewrite map_app, !map_map. f_equal; apply map_ext; intros [[c ky] kx].
  - replace (half * c * G ky kx) with (half * (c * G ky kx)) by ring. reflexivity.
  - rewrite HG, Cmult_conj. replace (half * Cconj c * Cconj (G ky kx)) with (half * (Cconj c * Cconj (G ky kx))) by ring. reflexivity.
Qed.
Lemma seen_sampled ny nx sy sx oy ox ms : (0 < ny)%Z -> (0 < nx)%Z -> sy <> 0%R -> sx <> 0%R ->
  aeq (seen ny nx sy sx oy ox (field ny nx sy sx ms)) (sampled ny nx oy ox (trig (realms ms))).
Proof.
  intros Hy Hx Sy Sx. split; [reflexivity|]. split; [reflexivity|]. intros y x _ _. cbn [seen sampled f_at]. rewrite trig_realms. unfold field, place.
  replace (sy * (IZR y + oy) / (IZR ny * sy))%R with ((IZR y + oy) / IZR ny)%R by (field; split; [exact Sy|apply IZRn0, Hy]).
  replace (sx * (IZR x + ox) / (IZR nx * sx))%R with ((IZR x + ox) / IZR nx)%R by (field; split; [exact Sx|apply IZRn0, Hx]). reflexivity.
Qed.
(* a filter on the samples of a real pattern *)
Lemma gfilt_seen g G ny nx sy sx oy ox ms : (0 < ny)%Z -> (0 < nx)%Z -> sy <> 0%R -> sx <> 0%R -> below_all ny nx ms ->
  (forall ky kx, below ny ky -> below nx kx -> g (ky mod ny)%Z (kx mod nx)%Z = G ky kx) -> (forall ky kx, G (- ky)%Z (- kx)%Z = Cconj (G ky kx)) ->
  aeq (gfilt g (seen ny nx sy sx oy ox (field ny nx sy sx ms))) (seen ny nx sy sx oy ox (field ny nx sy sx (gainedc G ms))).
Proof.
  intros Hy Hx Sy Sx B HG S. eapply aeq_trans; [apply (gfilt_ext g g _ _ (seen_sampled ny nx sy sx oy ox ms Hy Hx Sy Sx)); reflexivity|].
  eapply aeq_trans; [apply (gfilt_trig g G); [exact Hy|exact Hx|]|].
  - apply realms_below in B. eapply Forall_impl; [|exact B]. intros [[c ky] kx] [B1 B2]. apply HG; assumption.
  - rewrite gainedc_realms by exact S. apply aeq_sym, seen_sampled; assumption.
Qed.
Lemma below_freq n k : (0 < n)%Z -> below n k -> (if (k mod n <? (n - 1) / 2 + 1)%Z then k mod n else k mod n - n)%Z = k.
Proof.
  unfold below. intros Hn Hk. pose proof (Z.div_mod (n - 1) 2 ltac:(lia)). pose proof (Z.mod_pos_bound (n - 1) 2 ltac:(lia)).
  destruct (Z_le_dec 0 k) as [P|P].
  - rewrite Z.mod_small by lia. destruct (k <? _)%Z eqn:E; lia.
  - replace (k mod n)%Z with (k + n)%Z by (rewrite <- (Z.mod_add k 1 n) by lia; rewrite Z.mod_small by lia; lia). destruct (k + n <? _)%Z eqn:E; lia.
Qed.
Lemma laxis_below n s k : (0 < n)%Z -> below n k -> s <> 0%R -> laxis n s (k mod n) = (2 * PI * IZR k / (IZR n * s))%R.
Proof. intros Hn Hk Hs. unfold laxis, fftfreq. rewrite below_freq by assumption. pose proof (IZRn0 n Hn). field. split; assumption. Qed.

(* derivatives of real patterns *)
Definition dY (n : Z) (s : R) (ky kx : Z) : C := RtoC (2 * PI * IZR ky / (IZR n * s)) * Ci.
Definition dX (n : Z) (s : R) (ky kx : Z) : C := RtoC (2 * PI * IZR kx / (IZR n * s)) * Ci.
Lemma dY_sym n s ky kx : dY n s (- ky) (- kx) = Cconj (dY n s ky kx).
Proof. unfold dY. rewrite opp_IZR. apply C_eq; unfold Re, Im, RtoC, Cmult, Cconj, Ci; cbn [fst snd]; unfold Rdiv; ring. Qed.
Lemma dX_sym n s ky kx : dX n s (- ky) (- kx) = Cconj (dX n s ky kx).
Proof. unfold dX. rewrite opp_IZR. apply C_eq; unfold Re, Im, RtoC, Cmult, Cconj, Ci; cbn [fst snd]; unfold Rdiv; ring. Qed.
Lemma derive_y ny nx sy sx ms p q : derivable_pt_lim (fun t => field ny nx sy sx ms t q) p (field ny nx sy sx (gainedc (dY ny sy) ms) p q).
Proof.
  unfold field. induction ms as [|[[c ky] kx] ms IH].
  - cbn. apply derivable_pt_lim_const.
  - change (gainedc (dY ny sy) ((c, ky, kx) :: ms)) with ((c * dY ny sy ky kx, ky, kx) :: gainedc (dY ny sy) ms).
    apply is_derive_Reals. apply is_derive_Reals in IH.
    apply (is_derive_ext (fun t : R => (Re (c * cis (2 * PI * (IZR ky * (t / (IZR ny * sy)) + IZR kx * (q / (IZR nx * sx)))))%C + Re (trig ms (t / (IZR ny * sy)) (q / (IZR nx * sx))))%R)).
    { intros t. rewrite trig_cons. reflexivity. }
    rewrite trig_cons. match goal with |- is_derive _ _ (Re (?u + ?v)) => change (Re (u + v)) with (Re u + Re v)%R end.
    apply (is_derive_plus (fun t => Re (c * cis (2 * PI * (IZR ky * (t / (IZR ny * sy)) + IZR kx * (q / (IZR nx * sx)))))) (fun t => Re (trig ms (t / (IZR ny * sy)) (q / (IZR nx * sx))))); [|exact IH].
    destruct c as [a b]. unfold dY, cis, Re, RtoC, Ci, Cmult. cbn [fst snd]. auto_derive; [exact Logic.I|]. unfold Rdiv. ring.
Qed.
Lemma derive_x ny nx sy sx ms p q : derivable_pt_lim (fun t => field ny nx sy sx ms p t) q (field ny nx sy sx (gainedc (dX nx sx) ms) p q).
Proof.
  unfold field. induction ms as [|[[c ky] kx] ms IH].
  - cbn. apply derivable_pt_lim_const.
  - change (gainedc (dX nx sx) ((c, ky, kx) :: ms)) with ((c * dX nx sx ky kx, ky, kx) :: gainedc (dX nx sx) ms).
    apply is_derive_Reals. apply is_derive_Reals in IH.
    apply (is_derive_ext (fun t : R => (Re (c * cis (2 * PI * (IZR ky * (p / (IZR ny * sy)) + IZR kx * (t / (IZR nx * sx)))))%C + Re (trig ms (p / (IZR ny * sy)) (t / (IZR nx * sx))))%R)).
    { intros t. rewrite trig_cons. reflexivity. }
    rewrite trig_cons. match goal with |- is_derive _ _ (Re (?u + ?v)) => change (Re (u + v)) with (Re u + Re v)%R end.
    apply (is_derive_plus (fun t => Re (c * cis (2 * PI * (IZR ky * (p / (IZR ny * sy)) + IZR kx * (t / (IZR nx * sx)))))) (fun t => Re (trig ms (p / (IZR ny * sy)) (t / (IZR nx * sx))))); [|exact IH].
    destruct c as [a b]. unfold dX, cis, Re, RtoC, Ci, Cmult. cbn [fst snd]. auto_derive; [exact Logic.I|]. unfold Rdiv. ring.
Qed.
Lemma field_gplus ny nx sy sx G H ms p q : field ny nx sy sx (gainedc (fun ky kx => G ky kx + H ky kx) ms) p q
  = (field ny nx sy sx (gainedc G ms) p q + field ny nx sy sx (gainedc H ms) p q)%R.
Proof.
  unfold field. assert (E : forall u v, trig (gainedc (fun ky kx => G ky kx + H ky kx) ms) u v = trig (gainedc G ms) u v + trig (gainedc H ms) u v).
  { intros u v. induction ms as [|[[c ky] kx] ms IH]; [cbn; ring|]. cbn [gainedc map]. fold (gainedc G ms). fold (gainedc H ms). fold (gainedc (fun ky kx => G ky kx + H ky kx) ms).
    rewrite !trig_cons, IH. ring. }
  rewrite E. reflexivity.
Qed.
Lemma gainedc_comp G H ms : gainedc G (gainedc H ms) = gainedc (fun ky kx => H ky kx * G ky kx) ms.
Proof. unfold gainedc. rewrite map_map. apply map_ext. intros [[c ky] kx]. replace (c * H ky kx * G ky kx) with (c * (H ky kx * G ky kx)) by ring. reflexivity. Qed.
Lemma seen_real ny nx sy sx oy ox f : is_real (seen ny nx sy sx oy ox f).
Proof. intros y x _ _. reflexivity. Qed.

(* ---- compositions ---- *)
Lemma gfilt_comp g h a : nonempty a -> aeq (gfilt h (gfilt g a)) (gfilt (fun y x => g y x * h y x) a).
Proof.
  intros H. unfold gfilt at 1. eapply aeq_trans; [apply scale_ext, dft_ax_ext, (mulg_ext h h _ _ (fft_gfilt g a H)); reflexivity|].
  unfold gfilt. rewrite (nprod_shape AXY (scale _ _) a) by reflexivity. apply scale_ext, dft_ax_ext. split; [reflexivity|]. split; [reflexivity|]. intros y x _ _. cbn [mulg f_at]. ring.
Qed.
Lemma gfilt_opp g a : nonempty a -> aeq (gfilt (fun y x => - g y x) a) (scale (- RtoC 1) (gfilt g a)).
Proof.
  intros H. split; [reflexivity|]. split; [reflexivity|]. intros y x _ _. unfold gfilt, scale, amap. cbn [f_at dft_ax dft_y dft_x mulg f_ny f_nx].
  match goal with |- _ = ?u * ?v * ?k => transitivity ((k * u) * v); [|ring] end. f_equal.
  rewrite <- dft_scal. apply dft_ext. intros j Hj. rewrite <- dft_scal. apply dft_ext. intros i Hi. ring.
Qed.
Lemma laxis_0 n s : (0 < n)%Z -> laxis n s 0 = 0%R.
Proof.
  intros Hn. unfold laxis, fftfreq. pose proof (Z.div_pos (n - 1) 2 ltac:(lia) ltac:(lia)). destruct (0 <? _)%Z eqn:E; [|lia]. unfold Rdiv. ring.
Qed.
Lemma iy_conj n s y x : Cconj (iy n s y x) = - iy n s y x.
Proof. unfold iy. apply C_eq; unfold Re, Im, RtoC, Cmult, Cconj, Copp, Ci; cbn [fst snd]; ring. Qed.
Lemma ix_conj n s y x : Cconj (ix n s y x) = - ix n s y x.
Proof. unfold ix. apply C_eq; unfold Re, Im, RtoC, Cmult, Cconj, Copp, Ci; cbn [fst snd]; ring. Qed.
Lemma psym_l n s : (0 < n)%Z -> Z.odd n = true -> psym n (fun k => RtoC (laxis n s k) * Ci).
Proof.
  intros Hn Ho k Hk. pose proof (psym_phase n 0 true Hn Ho k Hk) as P. unfold phase in P. rewrite !Rmult_0_r, cis_0 in P.
  assert (F : fftfreq n ((- k) mod n)%Z = (- fftfreq n k)%R).
  { apply (f_equal Im) in P. unfold Im, RtoC, Cmult, Cconj, Copp, Ci in P. cbn [fst snd] in P. ring_simplify in P. pose proof PI_RGT_0. nra. }
  unfold laxis. rewrite F. apply C_eq; unfold Re, Im, RtoC, Cmult, Cconj, Ci; cbn [fst snd]; unfold Rdiv; ring.
Qed.
Lemma gfilt_iy_real sy a : nonempty a -> Z.odd (f_ny a) = true -> is_real a -> is_real (gfilt (iy (f_ny a) sy) a).
Proof.
  intros H O R. eapply is_real_ext; [apply aeq_sym, (gfilt_sep _ (fun k => RtoC (laxis (f_ny a) sy k) * Ci) one)|].
  - intros y x _ _. unfold iy, one. ring.
  - apply (filt_real AXY (fun k => RtoC (laxis (f_ny a) sy k) * Ci) one); [exact H| |apply psym_one|exact R]. cbn. apply psym_l; [apply H|exact O].
Qed.
Lemma gfilt_ix_real sx a : nonempty a -> Z.odd (f_nx a) = true -> is_real a -> is_real (gfilt (ix (f_nx a) sx) a).
Proof.
  intros H O R. eapply is_real_ext; [apply aeq_sym, (gfilt_sep _ one (fun k => RtoC (laxis (f_nx a) sx k) * Ci))|].
  - intros y x _ _. unfold ix, one. ring.
  - apply (filt_real AXY one (fun k => RtoC (laxis (f_nx a) sx k) * Ci)); [exact H|apply psym_one| |exact R]. cbn. apply psym_l; [apply H|exact O].
Qed.
Lemma Re_csum_pos n f : (forall j, (0 <= j < n)%Z -> 0 <= Re (f j))%R -> (0 <= Re (csum n f))%R.
Proof.
  intros H. pose proof (Re_csum_le n (fun _ => 0) f H) as L. replace (Re (csum n (fun _ => 0))) with 0%R in L; [exact L|].
  unfold csum. induction (Z.to_nat n) as [|k IH]; [reflexivity|]. cbn [csumn]. destruct (csumn k (fun _ => 0)). unfold Re, RtoC, Cplus in *. cbn [fst snd] in *. lra.
Qed.
