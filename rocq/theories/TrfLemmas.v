From Coq Require Import Reals QArith Qreals Lra.
From Verif Require Import Base SliceSpec SliceModel ArrModel PixModel ShtSpec ShtModel ShtLemmas ShtProps TrfSpec TrfModel.
Ltac Zify.zify_post_hook ::= idtac.
Open Scope R_scope.

(* ---- rounding ---- *)
Lemma nint_near u n : Rabs (u - IZR n) < / 2 -> nint u = n.
Proof.
  intros H. apply Rabs_def2 in H. unfold nint. destruct (base_Int_part (u + / 2)) as [B1 B2]. set (k := Int_part (u + / 2)) in *.
  assert (IZR k < IZR n + 1) by lra. assert (IZR n < IZR k + 1) by lra. rewrite <- plus_IZR in *. apply lt_IZR in H0, H1. lia.
Qed.
Lemma nint_half u : Rabs (u - IZR (nint u)) <= / 2.
Proof. unfold nint. destruct (base_Int_part (u + / 2)) as [B1 B2]. apply Rabs_le. lra. Qed.
Lemma hasoff_nint tol v off : hasoff tol v off = rlt (Rabs (v - off - IZR (nint (v - off)))) tol.
Proof. unfold hasoff, frac_part, nint. do 2 f_equal. ring. Qed.
Lemma rlt_true a b : rlt a b = true <-> a < b.
Proof. unfold rlt. destruct (Rlt_dec a b); intuition discriminate. Qed.
Lemma rlt_false a b : rlt a b = false <-> b <= a.
Proof. unfold rlt. destruct (Rlt_dec a b); intuition (try discriminate; lra). Qed.
Lemma hasoff_true tol v off : hasoff tol v off = true -> exists n, Rabs (v - off - IZR n) < tol /\ n = nint (v - off).
Proof. rewrite hasoff_nint, rlt_true. eauto. Qed.
Lemma hasoff_intro tol v off n : tol <= / 2 -> Rabs (v - off - IZR n) < tol -> hasoff tol v off = true.
Proof. intros Ht H. rewrite hasoff_nint, rlt_true. rewrite (nint_near (v - off) n) by lra. exact H. Qed.
Lemma hasoff_not tol v off n : tol <= / 4 -> Rabs (v - off - / 2 - IZR n) < tol -> hasoff tol v off = false.
Proof.
  intros Ht H. destruct (hasoff tol v off) eqn:E; [|reflexivity]. exfalso. apply hasoff_true in E as (k & E & _). apply Rabs_def2 in H, E.
  assert (A : IZR k < IZR n + 1) by lra. assert (B : IZR n < IZR k) by lra. rewrite <- plus_IZR in A. apply lt_IZR in A, B. lia.
Qed.

(* ---- the wcs in real numbers ---- *)
Definition nat_y (w : wcs) (p : R) : R := Q2R (crval_y w) + Q2R (cdelt_y w) * (p + 1 - Q2R (crpix_y w)).
Definition nat_x (w : wcs) (p : R) : R := Q2R (crval_x w) + Q2R (cdelt_x w) * (p + 1 - Q2R (crpix_x w)).
Lemma Q2R_Z n : Q2R (inject_Z n) = IZR n.
Proof. unfold Q2R, inject_Z. cbn. field. Qed.
Lemma Q2R_1 : Q2R 1 = 1. Proof. unfold Q2R. cbn. field. Qed.
Lemma sky_y_R w y : Q2R (sky_y w (inject_Z y)) = nat_y w (IZR y).
Proof. unfold sky_y, sky_at, nat_y. rewrite Q2R_plus, Q2R_mult, Q2R_minus, Q2R_plus, Q2R_Z, Q2R_1. reflexivity. Qed.
Lemma sky_x_R w x : Q2R (sky_x w (inject_Z x)) = nat_x w (IZR x).
Proof. unfold sky_x, sky_at, nat_x. rewrite Q2R_plus, Q2R_mult, Q2R_minus, Q2R_plus, Q2R_Z, Q2R_1. reflexivity. Qed.

Definition sgn (f : bool) : R := if f then -1 else 1.
Lemma flip_axis_R n cp cd f : (1 <= n)%Z -> let s := slice_axis n cp cd (flip2slice f) false in
  Q2R (snd s) = sgn f * Q2R cd /\ Q2R (snd (fst s)) = if f then IZR n + 1 - Q2R cp else Q2R cp.
Proof.
  intros Hn. unfold slice_axis, expand_slice, es_step, flip2slice. destruct f; cbn [ps_step ps_start ps_stop es_default].
  - change (1 - 2 * 1)%Z with (-1)%Z. cbn [Z.eqb Z.ltb Z.compare]. unfold es_cycle. cbn [fst snd].
    replace (if (0 <=? n - 1)%Z then Z.min (n - 1) n else (n + (n - 1))%Z) with (n - 1)%Z by (destruct (Z.leb_spec 0 (n - 1)); lia).
    replace (n - 1 + 1)%Z with n by lia. split.
    + rewrite Q2R_mult, Q2R_Z. cbn [sgn]. lra.
    + rewrite Q2R_plus, Q2R_div by discriminate. rewrite Q2R_minus, Q2R_plus, !Q2R_Z. replace (Q2R (1 # 2)) with (/ 2) by (unfold Q2R; cbn; field). field.
  - change (1 - 2 * 0)%Z with 1%Z. cbn [Z.eqb Z.ltb Z.compare]. unfold es_cycle. cbn [fst snd].
    replace (if (0 <=? 0)%Z then Z.min 0 n else (n + 0)%Z) with 0%Z by (cbn; lia). split.
    + rewrite Q2R_mult, Q2R_Z. cbn [sgn]. lra.
    + rewrite Q2R_plus, Q2R_div by discriminate. rewrite Q2R_minus, Q2R_plus, !Q2R_Z. replace (Q2R (1 # 2)) with (/ 2) by (unfold Q2R; cbn; field). field.
Qed.
Lemma flip_wcs_R w ny nx fy fx : (1 <= ny)%Z -> (1 <= nx)%Z -> let v := flip_wcs w ny nx fy fx in
  crval_y v = crval_y w /\ crval_x v = crval_x w /\
  Q2R (cdelt_y v) = sgn fy * Q2R (cdelt_y w) /\ Q2R (cdelt_x v) = sgn fx * Q2R (cdelt_x w) /\
  Q2R (crpix_y v) = (if fy then IZR ny + 1 - Q2R (crpix_y w) else Q2R (crpix_y w)) /\
  Q2R (crpix_x v) = (if fx then IZR nx + 1 - Q2R (crpix_x w) else Q2R (crpix_x w)).
Proof.
  intros Hy Hx v. destruct (flip_axis_R ny (crpix_y w) (cdelt_y w) fy Hy) as [Y1 Y2]. destruct (flip_axis_R nx (crpix_x w) (cdelt_x w) fx Hx) as [X1 X2].
  unfold v, flip_wcs, slice_geometry. destruct (slice_axis ny _ _ _ _) as [[oy cpy] cdy]. destruct (slice_axis nx _ _ _ _) as [[ox cpx] cdx]. cbn [fst snd] in *.
  cbn [crval_y crval_x cdelt_y cdelt_x crpix_y crpix_x]. repeat split; assumption.
Qed.
Lemma flip_nat_y w ny nx fy fx p : (1 <= ny)%Z -> (1 <= nx)%Z -> nat_y (flip_wcs w ny nx fy fx) p = nat_y w (if fy then IZR ny - 1 - p else p).
Proof. intros Hy Hx. destruct (flip_wcs_R w ny nx fy fx Hy Hx) as (E1 & _ & E2 & _ & E3 & _). unfold nat_y. rewrite E1, E2, E3. destruct fy; cbn [sgn]; ring. Qed.
Lemma flip_nat_x w ny nx fy fx p : (1 <= ny)%Z -> (1 <= nx)%Z -> nat_x (flip_wcs w ny nx fy fx) p = nat_x w (if fx then IZR nx - 1 - p else p).
Proof. intros Hy Hx. destruct (flip_wcs_R w ny nx fy fx Hy Hx) as (_ & E1 & _ & E2 & _ & E3). unfold nat_x. rewrite E1, E2, E3. destruct fx; cbn [sgn]; ring. Qed.

(* a geometry in ducc's order *)
Definition ordered (w : wcs) : Prop := Q2R (cdelt_y w) < 0 /\ 0 < Q2R (cdelt_x w).
Lemma ordered_flips w : ordered w -> flip_y w = false /\ flip_x w = false.
Proof. intros [H1 H2]. split; apply rlt_false; lra. Qed.
Lemma flip_ordered w ny nx : (1 <= ny)%Z -> (1 <= nx)%Z -> Q2R (cdelt_y w) <> 0 -> Q2R (cdelt_x w) <> 0 -> let v := flip_wcs w ny nx (flip_y w) (flip_x w) in
  ordered v /\ Q2R (cdelt_y v) = - Rabs (Q2R (cdelt_y w)) /\ Q2R (cdelt_x v) = Rabs (Q2R (cdelt_x w)).
Proof.
  intros Hy Hx Ny Nx v. destruct (flip_wcs_R w ny nx (flip_y w) (flip_x w) Hy Hx) as (_ & _ & E2 & E3 & _). fold v in E2, E3.
  assert (A : Q2R (cdelt_y v) = - Rabs (Q2R (cdelt_y w))).
  { rewrite E2. unfold flip_y, rlt. destruct (Rlt_dec 0 (Q2R (cdelt_y w))); cbn [sgn]; [rewrite Rabs_right by lra; lra|rewrite Rabs_left by lra; lra]. }
  assert (B : Q2R (cdelt_x v) = Rabs (Q2R (cdelt_x w))).
  { rewrite E3. unfold flip_x, rlt. destruct (Rlt_dec (Q2R (cdelt_x w)) 0); cbn [sgn]; [rewrite Rabs_left by lra; lra|rewrite Rabs_right by lra; lra]. }
  pose proof (Rabs_pos_lt _ Ny). pose proof (Rabs_pos_lt _ Nx). split; [split; lra|]. split; assumption.
Qed.

(* all that matters of a wcs *)
Definition same_wcs (v w : wcs) : Prop := crval_y v = crval_y w /\ crval_x v = crval_x w /\ Q2R (cdelt_y v) = Q2R (cdelt_y w) /\
  Q2R (cdelt_x v) = Q2R (cdelt_x w) /\ Q2R (crpix_y v) = Q2R (crpix_y w) /\ Q2R (crpix_x v) = Q2R (crpix_x w).
Lemma flip_none w ny nx : (1 <= ny)%Z -> (1 <= nx)%Z -> same_wcs (flip_wcs w ny nx false false) w.
Proof. intros Hy Hx. destruct (flip_wcs_R w ny nx false false Hy Hx) as (E1 & E2 & E3 & E4 & E5 & E6). cbn [sgn] in *. rewrite Rmult_1_l in E3, E4. repeat split; assumption. Qed.
Lemma same_pole P v w s : same_wcs v w -> pole_row P v s = pole_row P w s.
Proof. intros (E1 & E2 & E3 & E4 & E5 & E6). unfold pole_row. now rewrite E1, E3, E5. Qed.

Lemma nat_pole P w s p : Q2R (cdelt_y w) <> 0 -> nat_y w p = s * pj_pol P + Q2R (cdelt_y w) * (p - pole_row P w s).
Proof. intros H. unfold nat_y, pole_row. field. exact H. Qed.
Lemma poles_apart P w : Q2R (cdelt_y w) <> 0 -> pole_row P w (-1) - pole_row P w 1 = - (2 * pj_pol P) / Q2R (cdelt_y w).
Proof. intros H. unfold pole_row. field. exact H. Qed.

(* ---- the grids ---- *)
Definition o1 (g : grid) : R := match g with F1 | MW => / 2 | F2 => 1 | _ => 0 end.
Definition o2 (g : grid) : R := match g with F1 | MWflip => / 2 | F2 => 1 | _ => 0 end.
Lemma theta_offs g n i : g <> DH -> IZR n - 1 + o1 g + o2 g <> 0 -> grid_theta g n i = PI * (IZR i + o1 g) / (IZR n - 1 + o1 g + o2 g).
Proof.
  intros Hg H. destruct g; try congruence; unfold grid_theta, o1, o2 in *; rewrite ?minus_IZR, ?plus_IZR, ?mult_IZR.
  - f_equal; ring.
  - f_equal; field.
  - f_equal; ring.
  - field. lra.
  - field. lra.
Qed.

Record fits (P : proj) (w : wcs) (ny : Z) (tol : R) (g : ducc) : Prop := {
  fit_1 : Rabs (pole_row P w 1 + IZR (d_yoff g) + o1 (d_name g)) < tol;
  fit_2 : Rabs (pole_row P w (-1) + IZR (d_yoff g) - (IZR (d_ny g) - 1 + o2 (d_name g))) < tol;
  fit_x : Rabs (360 / Q2R (cdelt_x w) - IZR (d_nx g)) < tol;
  fit_f2 : d_name g = F2 -> d_yoff g = 0%Z /\ d_ny g = ny }.

Lemma get_ducc_unfold P w ny nx tol : ordered w -> (1 <= ny)%Z -> (1 <= nx)%Z -> get_ducc_geo P w ny nx tol =
  (let snx := 360 / Q2R (cdelt_x w) in
  if negb (hasoff tol snx 0) then None else
  let y1 := pole_row P w 1 in
  let y2 := pole_row P w (-1) in
  let res name a b :=
    let n := nint (y2 - y1 + 1 - a - b) in
    Some (Ducc name (nint snx) n (nint (- y1 - a)) (get_ducc_maxlmax name n)) in
  if hasoff tol y1 0 && hasoff tol y2 0 then
    if near tol y1 (-1) && near tol y2 (IZR ny) then res F2 1 1
    else if near tol y1 0 && near tol y2 (IZR ny) then res DH 1 0
    else res CC 0 0
  else if hasoff tol y1 (/ 2) && hasoff tol y2 (/ 2) then res F1 (/ 2) (/ 2)
  else if hasoff tol y1 (/ 2) && hasoff tol y2 0 then res MW (/ 2) 0
  else if hasoff tol y1 0 && hasoff tol y2 (/ 2) then res MWflip 0 (/ 2)
  else None).
Proof.
  intros HO Hy Hx. unfold get_ducc_geo. destruct (ordered_flips w HO) as [-> ->]. pose proof (flip_none w ny nx Hy Hx) as S. rewrite !(same_pole P _ _ _ S).
  destruct S as (_ & _ & _ & E4 & _). rewrite E4. reflexivity.
Qed.

Lemma ducc_fits P w ny nx tol g : tol <= / 8 -> ordered w -> (1 <= ny)%Z -> (1 <= nx)%Z ->
  get_ducc_geo P w ny nx tol = Some g -> d_name g <> DH -> fits P w ny tol g.
Proof.
  intros Ht HO Hy Hx E ND. rewrite get_ducc_unfold in E by assumption. cbv zeta in E. destruct (hasoff tol (360 / Q2R (cdelt_x w)) 0) eqn:EX; [|discriminate]. cbn [negb] in E.
  apply hasoff_true in EX as (kx & EX & Ekx). rewrite Rminus_0_r in EX, Ekx.
  set (y1 := pole_row P w 1) in *. set (y2 := pole_row P w (-1)) in *.
  assert (FIT : forall name a b n1 n2, a = o1 name -> b = o2 name -> Rabs (y1 + a - IZR n1) < tol -> Rabs (y2 - b - IZR n2) < tol ->
    (name = F2 -> n1 = 0%Z /\ n2 = (ny - 1)%Z) ->
    Some (Ducc name (nint (360 / Q2R (cdelt_x w))) (nint (y2 - y1 + 1 - a - b)) (nint (- y1 - a)) (get_ducc_maxlmax name (nint (y2 - y1 + 1 - a - b)))) = Some g -> fits P w ny tol g).
  { intros name a b n1 n2 Ea Eb H1 H2 H3 EG. apply Some_inj in EG. apply Rabs_def2 in H1, H2.
    assert (Eo : nint (- y1 - a) = (- n1)%Z) by (apply nint_near; rewrite opp_IZR; apply Rabs_def1; lra).
    assert (En : nint (y2 - y1 + 1 - a - b) = (n2 - n1 + 1)%Z) by (apply nint_near; rewrite plus_IZR, minus_IZR; apply Rabs_def1; lra).
    subst g. split; cbn [d_yoff d_name d_ny d_nx]; fold y1 y2; rewrite <- ?Ekx, ?Eo, ?En, ?opp_IZR, ?plus_IZR, ?minus_IZR, <- ?Ea, <- ?Eb.
    - apply Rabs_def1; lra.
    - apply Rabs_def1; lra.
    - exact EX.
    - intros F. destruct (H3 F). lia. }
  destruct (hasoff tol y1 0 && hasoff tol y2 0) eqn:B1.
  { apply andb_prop in B1 as [B1 B2]. apply hasoff_true in B1 as (n1 & B1 & _), B2 as (n2 & B2 & _).
    destruct (near tol y1 (-1) && near tol y2 (IZR ny)) eqn:B3.
    { apply andb_prop in B3 as [B3 B4]. apply rlt_true in B3, B4. apply Rabs_def2 in B3, B4. apply (FIT F2 1 1 0%Z (ny - 1)%Z); try reflexivity; try exact E.
      - apply Rabs_def1; cbn; lra.
      - rewrite minus_IZR. apply Rabs_def1; lra.
      - intros _. split; reflexivity. }
    destruct (near tol y1 0 && near tol y2 (IZR ny)) eqn:B4; [apply Some_inj in E; subst g; cbn in ND; congruence|].
    apply Rabs_def2 in B1, B2. apply (FIT CC 0 0 n1 n2); try reflexivity; try exact E; try discriminate; apply Rabs_def1; lra. }
  destruct (hasoff tol y1 (/ 2) && hasoff tol y2 (/ 2)) eqn:B2.
  { apply andb_prop in B2 as [C1 C2]. apply hasoff_true in C1 as (n1 & C1 & _), C2 as (n2 & C2 & _). apply Rabs_def2 in C1, C2.
    apply (FIT F1 (/ 2) (/ 2) (n1 + 1)%Z n2); try reflexivity; try exact E; try discriminate; rewrite ?plus_IZR; apply Rabs_def1; lra. }
  destruct (hasoff tol y1 (/ 2) && hasoff tol y2 0) eqn:B3.
  { apply andb_prop in B3 as [C1 C2]. apply hasoff_true in C1 as (n1 & C1 & _), C2 as (n2 & C2 & _). apply Rabs_def2 in C1, C2.
    apply (FIT MW (/ 2) 0 (n1 + 1)%Z n2); try reflexivity; try exact E; try discriminate; rewrite ?plus_IZR; apply Rabs_def1; lra. }
  destruct (hasoff tol y1 0 && hasoff tol y2 (/ 2)) eqn:B4; [|discriminate].
  apply andb_prop in B4 as [C1 C2]. apply hasoff_true in C1 as (n1 & C1 & _), C2 as (n2 & C2 & _). apply Rabs_def2 in C1, C2.
  apply (FIT MWflip 0 (/ 2) n1 n2); try reflexivity; try exact E; try discriminate; rewrite ?plus_IZR; apply Rabs_def1; lra.
Qed.

(* a geometry that fits a grid exactly once is found to be that grid *)
Lemma fits_found P w nx tol tol' g : tol <= tol' -> tol' <= / 8 -> ordered w -> (1 <= d_ny g)%Z -> (1 <= nx)%Z -> d_yoff g = 0%Z -> d_name g <> DH ->
  fits P w (d_ny g) tol g -> exists g', get_ducc_geo P w (d_ny g) nx tol' = Some g' /\ d_name g' = d_name g.
Proof.
  intros Ht Ht' HO Hy Hx H0 ND [F1_ F2_ FX _]. rewrite get_ducc_unfold by assumption. cbv zeta. rewrite H0, Rplus_0_r in *. apply Rabs_def2 in F1_, F2_.
  set (y1 := pole_row P w 1) in *. set (y2 := pole_row P w (-1)) in *.
  rewrite (hasoff_intro tol' (360 / Q2R (cdelt_x w)) 0 (d_nx g)) by (try lra; rewrite Rminus_0_r; lra). cbn [negb].
  set (n := IZR (d_ny g)) in *.
  assert (I1 : forall k, o1 (d_name g) = IZR k -> hasoff tol' y1 0 = true) by (intros k E; rewrite E in F1_; apply (hasoff_intro _ _ _ (- k)); [lra|rewrite opp_IZR; apply Rabs_def1; lra]).
  assert (I2 : forall k, o2 (d_name g) = IZR k -> hasoff tol' y2 0 = true) by (intros k E; rewrite E in F2_; apply (hasoff_intro _ _ _ (d_ny g - 1 + k)); [lra|rewrite plus_IZR, minus_IZR; fold n; apply Rabs_def1; lra]).
  assert (J1 : o1 (d_name g) = / 2 -> hasoff tol' y1 0 = false /\ hasoff tol' y1 (/ 2) = true).
  { intros E. rewrite E in F1_. split; [apply (hasoff_not _ _ _ (-1)); [lra|apply Rabs_def1; lra]|apply (hasoff_intro _ _ _ (-1)); [lra|apply Rabs_def1; lra]]. }
  assert (J2 : o2 (d_name g) = / 2 -> hasoff tol' y2 0 = false /\ hasoff tol' y2 (/ 2) = true).
  { intros E. rewrite E in F2_. split; [apply (hasoff_not _ _ _ (d_ny g - 1)); [lra|rewrite minus_IZR; fold n; apply Rabs_def1; lra]|apply (hasoff_intro _ _ _ (d_ny g - 1)); [lra|rewrite minus_IZR; fold n; apply Rabs_def1; lra]]. }
  assert (K2 : o2 (d_name g) = 0 -> hasoff tol' y2 (/ 2) = false) by (intros E; rewrite E in F2_; apply (hasoff_not _ _ _ (d_ny g - 2)); [lra|rewrite minus_IZR; fold n; apply Rabs_def1; lra]).
  destruct (d_name g); try congruence; cbn [o1 o2] in *.
  - rewrite (I1 0%Z), (I2 0%Z) by reflexivity. cbn [andb]. assert (N1 : near tol' y1 (-1) = false) by (apply rlt_false; apply Rle_trans with (y1 - -1); [lra|apply Rle_abs]).
    assert (N2 : near tol' y2 n = false) by (apply rlt_false; rewrite Rabs_minus_sym; apply Rle_trans with (n - y2); [lra|apply Rle_abs]). rewrite N1, N2, !andb_false_r. cbn [andb]. eexists. split; reflexivity.
  - destruct (J1 eq_refl) as [-> ->], (J2 eq_refl) as [-> ->]. cbn [andb]. eexists. split; reflexivity.
  - rewrite (I1 1%Z), (I2 1%Z) by reflexivity. cbn [andb]. assert (N1 : near tol' y1 (-1) = true) by (apply rlt_true; apply Rabs_def1; lra). assert (N2 : near tol' y2 n = true) by (apply rlt_true; apply Rabs_def1; lra).
    rewrite N1, N2. cbn [andb]. eexists. split; reflexivity.
  - destruct (J1 eq_refl) as [-> ->]. rewrite (I2 0%Z), (K2 eq_refl) by reflexivity. cbn [andb]. eexists. split; reflexivity.
  - destruct (J2 eq_refl) as [-> ->]. rewrite (I1 0%Z) by reflexivity. cbn [andb].
    assert (N : hasoff tol' y1 (/ 2) = false) by (apply (hasoff_not _ _ _ (-1)); [lra|apply Rabs_def1; lra]). rewrite N. cbn [andb]. eexists. split; reflexivity.
Qed.
