From Coq Require Import Reals QArith Qreals Lra.
From Verif Require Import Base SliceSpec SliceModel ArrModel PixModel RangeLemmas ShtSpec ShtModel ShtLemmas ShtProps TrfSpec TrfModel TrfLemmas TrfLemmas2.
Ltac Zify.zify_post_hook ::= idtac.
Open Scope R_scope.

Lemma Rabs_0_le x y z : x = 0 -> 0 <= y * z -> Rabs x <= y * z.
Proof. intros -> H. now rewrite Rabs_R0. Qed.

Lemma Rabs_lt_both x y : Rabs x < y -> - y < x < y.
Proof. intros H. now apply Rabs_def2 in H. Qed.

(* the second look at the padded buffer *)
Lemma ducc_lmax P w ny nx tol d : get_ducc_geo P w ny nx tol = Some d -> d_lmax d = get_ducc_maxlmax (d_name d) (d_ny d).
Proof.
  unfold get_ducc_geo. intros E. destruct (negb _); [discriminate|].
  repeat match type of E with (if ?b then _ else _) = _ => destruct b end; try discriminate; apply Some_inj in E; subst d; reflexivity.
Qed.
Lemma second_look_all P w ny nx tol d : tol <= tol0 -> on_sky P w ny nx -> upright P w = true -> hasoff tol (360 / Rabs (Q2R (cdelt_x w))) 0 = true ->
  let ww := flip_wcs w ny nx (flip_y w) (flip_x w) in
  fits P ww ny tol d -> d_name d <> DH -> let v := crpix_add ww (d_yoff d) 0 in
  exists d', mi_ducc (analyse_geometry P v (d_ny d) (d_nx d) tol0) = Some d' /\ d_name d' = d_name d /\ mi_phi0 (analyse_geometry P v (d_ny d) (d_nx d) tol0) = nat_x ww 0 * degree /\
    d_ny d' = d_ny d /\ d_lmax d' = get_ducc_maxlmax (d_name d) (d_ny d).
Proof.
  intros Ht HS HU HD ww FT ND v. assert (T8 : tol0 <= / 8) by (unfold tol0; lra).
  assert (Ht8 : tol <= / 8) by lra.
  destruct (g_ord P w ny nx tol HS) as (O1 & O2 & O3). fold ww in O1, O2, O3.
  destruct (fit_pads P w ny nx tol Ht8 HS d FT ND) as [Q1 Q2].
  pose proof (g_ny P w ny nx tol HS) as Hy. pose proof (g_nx P w ny nx tol HS) as Hx. pose proof (g_nx_le P w ny nx tol Ht8 HS HD) as Hn. pose proof (g_snx w tol HD) as Hsn.
  assert (FX := fit_x _ _ _ _ _ FT). rewrite O3 in FX. pose proof (g_width P w ny nx HS) as HW.
  assert (EN : nint (360 / Rabs (Q2R (cdelt_x w))) = d_nx d) by (apply nint_near; lra). rewrite EN in Hn, Hsn.
  assert (OV : ordered v) by exact O1. assert (Hny' : (1 <= d_ny d)%Z) by lia. assert (Hnx' : (1 <= d_nx d)%Z) by lia.
  set (g := Ducc (d_name d) (d_nx d) (d_ny d) 0 (d_lmax d)).
  assert (FV : fits P v (d_ny g) tol g).
  { destruct FT as [A1 A2 A3 A4]. assert (HC : Q2R (cdelt_y ww) <> 0) by (destruct O1; lra). split; cbn [d_name d_nx d_ny d_yoff g].
    - unfold v. rewrite add_y by exact HC. replace (_ + _ + 0 + _) with (pole_row P ww 1 + IZR (d_yoff d) + o1 (d_name d)) by ring. exact A1.
    - unfold v. rewrite add_y by exact HC. rewrite Rplus_0_r. exact A2.
    - exact A3.
    - auto. }
  destruct (ordered_flips v OV) as [FY FX'].
  assert (SV : same_wcs (flip_wcs v (d_ny d) (d_nx d) false false) v) by (apply flip_none; assumption).
  assert (FV' := same_fits P _ v _ _ _ SV FV).
  assert (OV' : ordered (flip_wcs v (d_ny d) (d_nx d) false false)). { destruct SV as (_ & _ & E3 & E4 & _). unfold ordered. rewrite E3, E4. exact OV. }
  destruct (fits_found P _ (d_nx d) tol tol0 g Ht T8 OV' Hny' Hnx' eq_refl ND FV') as (d' & ED & EDN).
  exists d'.
  assert (UV : upright P v = true). { unfold upright in *. unfold v. cbn [crpix_add crval_y]. unfold ww. now rewrite (proj1 (flip_wcs_R w ny nx (flip_y w) (flip_x w) Hy Hx)). }
  assert (HV : hasoff tol0 (360 / Rabs (Q2R (cdelt_x v))) 0 = true).
  { change (cdelt_x v) with (cdelt_x ww). rewrite O3, Rabs_Rabsolu. apply (hasoff_intro _ _ _ (d_nx d)); [lra|]. rewrite Rminus_0_r. lra. }
  assert (PH : col_ra (flip_wcs v (d_ny d) (d_nx d) false false) 0 = nat_x ww 0 * degree).
  { unfold col_ra. rewrite sky_x_R, (same_nat_x _ v _ SV). unfold v. rewrite add_nat_x. f_equal. f_equal. rewrite Rminus_0_r. reflexivity. }
  assert (EY : d_ny d' = d_ny d).
  { cbn [d_name g] in EDN. assert (ND' : d_name d' <> DH) by congruence. destruct (ducc_fits P _ _ _ tol0 d' T8 OV' Hny' Hnx' ED ND') as [B1 B2 _ _]. destruct FV' as [A1 A2 _ _]. rewrite EDN in B1, B2. cbn [d_name d_ny d_yoff g] in A1, A2.
    apply Rabs_lt_both in A1. apply Rabs_lt_both in A2. apply Rabs_lt_both in B1. apply Rabs_lt_both in B2. unfold tol0 in *.
    assert (-1 < d_ny d' - d_ny d < 1)%Z; [|lia]. split; apply lt_IZR; rewrite minus_IZR; lra. }
  pose proof (ducc_lmax _ _ _ _ _ _ ED) as EL. rewrite EDN, EY in EL. cbn [d_name g] in EL, EDN.
  unfold analyse_geometry. rewrite UV, HV. cbn [negb orb]. rewrite FY, FX'. cbn [d_ny g] in ED. rewrite ED.
  destruct (_ && _ && _); [|destruct (_ =? _)%Z]; cbn [mi_ducc mi_phi0]; auto.
Qed.
Lemma second_look P w ny nx tol d : tol <= tol0 -> on_sky P w ny nx -> upright P w = true -> hasoff tol (360 / Rabs (Q2R (cdelt_x w))) 0 = true ->
  let ww := flip_wcs w ny nx (flip_y w) (flip_x w) in
  fits P ww ny tol d -> d_name d <> DH -> let v := crpix_add ww (d_yoff d) 0 in
  exists d', mi_ducc (analyse_geometry P v (d_ny d) (d_nx d) tol0) = Some d' /\ d_name d' = d_name d /\ mi_phi0 (analyse_geometry P v (d_ny d) (d_nx d) tol0) = nat_x ww 0 * degree.
Proof. intros Ht HS HU HD ww FT ND v. destruct (second_look_all P w ny nx tol d Ht HS HU HD FT ND) as (d' & H1 & H2 & H3 & _). eauto. Qed.

(* ---- rings ---- *)
Lemma ring_find P v n k p : (0 < n)%Z -> (0 <= p < k * n)%Z ->
  find (fun r => let '(_, n, _, o) := r in ((o <=? p) && (p <? o + n))%Z) (get_ring_info P v k n) = Some (PI / 2 - row_dec P v (p / n), n, col_ra v 0, (p / n * n)%Z).
Proof.
  intros Hn Hp. unfold get_ring_info. assert (Hk : (0 <= p / n < k)%Z) by (split; [apply Z.div_pos; lia|apply Z.div_lt_upper_bound; nia]).
  assert (Hd : (p / n * n <= p < p / n * n + n)%Z) by (pose proof (Z.mod_pos_bound p n Hn); pose proof (Z.div_mod p n); nia).
  assert (Go : forall j lo, (lo <= p / n < lo + Z.of_nat j)%Z -> find (fun r => let '(_, n, _, o) := r in ((o <=? p) && (p <? o + n))%Z) (map (fun y => (PI / 2 - row_dec P v y, n, col_ra v 0, (y * n)%Z)) (zrange lo (lo + Z.of_nat j))) = Some (PI / 2 - row_dec P v (p / n), n, col_ra v 0, (p / n * n)%Z)).
  { induction j as [|j IH]; intros lo Hlo; [lia|]. rewrite zrange_cons by lia. cbn [map find].
    destruct (Z.leb_spec (lo * n) p); destruct (Z.ltb_spec p (lo * n + n)); cbn [andb].
    - assert (lo = (p / n)%Z) by nia. now subst lo.
    - replace (lo + Z.of_nat (S j))%Z with (lo + 1 + Z.of_nat j)%Z by lia. apply IH. assert (lo <> (p / n)%Z) by nia. lia.
    - exfalso. nia.
    - exfalso. nia. }
  specialize (Go (Z.to_nat k) 0%Z). rewrite !Z.add_0_l, Z2Nat.id in Go by lia. apply Go. lia.
Qed.

