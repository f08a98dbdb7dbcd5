(* C112: map2alm. *)
From Coq Require Import Reals QArith Qreals Lra.
From Verif Require Import Base SliceSpec SliceModel ArrModel PixModel RangeLemmas ShtSpec ShtModel ShtLemmas ShtProps TilLemmas TrfSpec TrfModel TrfLemmas TrfLemmas2 TrfLemmas3 TrfLemmas4 TrfLemmas5 TrfLemmas6 TrfProps.
Ltac Zify.zify_post_hook ::= idtac.
Open Scope R_scope.

Lemma quad_ext {A} (dot : A -> A -> R) B P w wt wt' dy dx m c : (forall y x, (0 <= y < f_ny m)%Z -> (0 <= x < f_nx m)%Z -> wt y x = wt' y x) -> quadrature dot B P w wt dy dx m c -> quadrature dot B P w wt' dy dx m c.
Proof.
  intros HE (loc & L & H). exists loc. split; [exact L|]. intros k. rewrite H. apply total_ext. intros q Hq. apply filter_In in Hq as [Hq _]. apply in_pixels in Hq as [I1 I2]. now rewrite HE.
Qed.
Lemma north w ny y : flipped (flip_y w) ny y = from_north w ny y.
Proof. unfold flipped, flip_y, rlt, from_north. now destruct (Rlt_dec _ _). Qed.
(* when the cylindrical method is the one that is used and can be used *)
Definition cylindrical (P : proj) (w : wcs) (ny nx : Z) (tol : R) (me : method) : Prop :=
  on_sky P w ny nx /\ upright P w = true /\ tol <= tol0 /\ goes_around w tol /\ get_method me (analyse_geometry P w ny nx tol) = Mcyl.

Lemma cyl_any {A} (dot : A -> A -> R) B gw smul an P zero flat tol lmax area W me (m : fmap A) : let a := fm_arr m in let w := fm_wcs m in
  cylindrical P w (f_ny a) (f_nx a) tol me -> bilinear dot smul zero ->
  let W' := match W with Some W => W | None => default_weights gw (analyse_geometry P w (f_ny a) (f_nx a) tol) (f_ny a) (fun y => area y 0%Z) end in
  forall f, row_factor W' (f_ny a) = Some f ->
  exists c, map2alm dot B gw smul an P zero flat tol lmax area W me m = Some c /\ quadrature dot B P w (fun y _ => f (from_north w (f_ny a) y)) 0 (tol * pix_width w) a c.
Proof.
  intros a w (HS & HU & HT & HG & HM) (Z1 & Z2) W' f HW. assert (T8 : tol <= / 8) by (unfold tol0 in HT; lra).
  destruct (cyl_weights dot B smul zero Z1 Z2 gw P w (f_ny a) (f_nx a) tol (fun y => area y 0%Z) W m T8 HS) with (f := f) as (c & E & Q); [apply case_divides; [exact HU|]; now apply goes|now repeat split|exact HW|].
  exists c. unfold map2alm. fold a w. rewrite HM. split; [exact E|]. revert Q. apply quad_ext. intros y x _ _. now rewrite north.
Qed.

(* Weights that are given are those of the rows from the north to the south, whatever the order of the rows in the map. *)
Theorem C112_weights : forall {A} (dot : A -> A -> R) B gw smul an P zero flat tol lmax area wt me (m : fmap A), let a := fm_arr m in let w := fm_wcs m in
  cylindrical P w (f_ny a) (f_nx a) tol me -> bilinear dot smul zero ->
  exists c, map2alm dot B gw smul an P zero flat tol lmax area (Some (f_ny a, wt)) me m = Some c /\
    quadrature dot B P w (fun y _ => wt (from_north w (f_ny a) y)) 0 (tol * pix_width w) a c.
Proof.
  intros A dot B gw smul an P zero flat tol lmax area wt me m a w HC HB. apply (cyl_any dot B gw smul an P zero flat tol lmax area (Some (f_ny a, wt)) me m HC HB wt).
  unfold row_factor. cbn [fst snd]. now rewrite Z.eqb_refl.
Qed.
Print Assumptions C112_weights.

(* By default, on the grids of ducc but DH, each row has the weight of the ring that it is. *)
Theorem C112_grid_partial : forall {A} (dot : A -> A -> R) B gw smul an P zero flat tol lmax area me (m : fmap A) d, let a := fm_arr m in let w := fm_wcs m in
  cylindrical P w (f_ny a) (f_nx a) tol me -> bilinear dot smul zero -> plate_carree P ->
  mi_ducc (analyse_geometry P w (f_ny a) (f_nx a) tol) = Some d -> d_name d <> DH ->
  exists c wt, map2alm dot B gw smul an P zero flat tol lmax area None me m = Some c /\ quadrature dot B P w (fun y _ => wt y) 0 (tol * pix_width w) a c /\
    forall y, (0 <= y < f_ny a)%Z -> ring_weight gw P w tol (d_name d) (d_ny d) (d_nx d) y (wt y).
Proof.
  intros A dot B gw smul an P zero flat tol lmax area me m d a w HC HB PC ED ND. pose proof HC as (HS & HU & HT & HG & HM). assert (T8 : tol <= / 8) by (unfold tol0 in HT; lra).
  destruct (grid_rows gw P w (f_ny a) (f_nx a) tol d (fun y => area y 0%Z) T8 HS ED ND) as (f & HF & HV & _ & FT).
  destruct (cyl_any dot B gw smul an P zero flat tol lmax area None me m) with (f := f) as (c & E & Q); [exact HC|exact HB|exact HF|].
  exists c, (fun y => f (from_north w (f_ny a) y)). split; [exact E|]. split; [exact Q|]. intros y Hy. rewrite <- north. pose proof (flip_range (flip_y w) _ _ Hy) as FR. exists (d_yoff d + flipped (flip_y w) (f_ny a) y)%Z.
  destruct (fit_pads P w _ _ tol T8 HS d FT ND) as [Q1 Q2]. split; [lia|]. split; [|apply HV; exact FR]. now apply (grid_close P w (f_ny a) (f_nx a) tol).
Qed.
Print Assumptions C112_grid_partial.

(* Off the grids it is the area of the pixels of the row, for maps whose declination increases with the row. *)
Theorem C112_area_partial : forall {A} (dot : A -> A -> R) B gw smul an P zero flat tol lmax area me (m : fmap A), let a := fm_arr m in let w := fm_wcs m in
  cylindrical P w (f_ny a) (f_nx a) tol me -> bilinear dot smul zero -> mi_ducc (analyse_geometry P w (f_ny a) (f_nx a) tol) = None -> 0 < Q2R (cdelt_y w) ->
  exists c, map2alm dot B gw smul an P zero flat tol lmax area None me m = Some c /\ quadrature dot B P w (fun y _ => area y 0%Z) 0 (tol * pix_width w) a c.
Proof.
  intros A dot B gw smul an P zero flat tol lmax area me m a w HC HB ED HP.
  destruct (cyl_any dot B gw smul an P zero flat tol lmax area None me m HC HB) with (f := fun j => area (f_ny a - 1 - j)%Z 0%Z) as (c & E & Q).
  { fold a w. unfold default_weights. rewrite ED. unfold row_factor, rows_rev. cbn [fst snd]. now rewrite Z.eqb_refl. }
  exists c. split; [exact E|]. revert Q. apply quad_ext. intros y x _ _. fold a w. unfold from_north. destruct (Rlt_dec _ _); [|contradiction]. f_equal. lia.
Qed.
Print Assumptions C112_area_partial.
(* For the others the areas are upside down: row y is weighted with the area of the pixels of row ny-1-y. *)
Theorem C112_area_refuted : forall {A} (dot : A -> A -> R) B gw smul an P zero flat tol lmax area me (m : fmap A), let a := fm_arr m in let w := fm_wcs m in
  cylindrical P w (f_ny a) (f_nx a) tol me -> bilinear dot smul zero -> mi_ducc (analyse_geometry P w (f_ny a) (f_nx a) tol) = None -> Q2R (cdelt_y w) < 0 ->
  exists c, map2alm dot B gw smul an P zero flat tol lmax area None me m = Some c /\ quadrature dot B P w (fun y _ => area (f_ny a - 1 - y)%Z 0%Z) 0 (tol * pix_width w) a c.
Proof.
  intros A dot B gw smul an P zero flat tol lmax area me m a w HC HB ED HP.
  destruct (cyl_any dot B gw smul an P zero flat tol lmax area None me m HC HB) with (f := fun j => area (f_ny a - 1 - j)%Z 0%Z) as (c & E & Q).
  { fold a w. unfold default_weights. rewrite ED. unfold row_factor, rows_rev. cbn [fst snd]. now rewrite Z.eqb_refl. }
  exists c. split; [exact E|]. revert Q. apply quad_ext. intros y x _ _. fold a w. unfold from_north. destruct (Rlt_dec _ _); [lra|]. reflexivity.
Qed.
Print Assumptions C112_area_refuted.

(* quad_weights gives the weights in an order that is never the one that map2alm expects: row y of any map gets the weight of
   the ring of row ny-1-y. *)
Theorem C112_quad_weights_refuted : forall {A} (dot : A -> A -> R) B gw smul an P zero flat tol lmax area me (m : fmap A) d, let a := fm_arr m in let w := fm_wcs m in
  cylindrical P w (f_ny a) (f_nx a) tol me -> bilinear dot smul zero -> plate_carree P ->
  mi_ducc (analyse_geometry P w (f_ny a) (f_nx a) tol) = Some d -> d_name d <> DH ->
  exists W c wt, quad_weights gw P w (f_ny a) (f_nx a) tol = Some W /\
    map2alm dot B gw smul an P zero flat tol lmax area (Some W) me m = Some c /\ quadrature dot B P w (fun y _ => wt y) 0 (tol * pix_width w) a c /\
    forall y, (0 <= y < f_ny a)%Z -> ring_weight gw P w tol (d_name d) (d_ny d) (d_nx d) (f_ny a - 1 - y) (wt y).
Proof.
  intros A dot B gw smul an P zero flat tol lmax area me m d a w HC HB PC ED ND. pose proof HC as (HS & HU & HT & HG & HM). assert (T8 : tol <= / 8) by (unfold tol0 in HT; lra).
  destruct (grid_rows gw P w (f_ny a) (f_nx a) tol d (fun y => area y 0%Z) T8 HS ED ND) as (f & _ & _ & (W & EW & WN & WV) & FT).
  destruct (cyl_any dot B gw smul an P zero flat tol lmax area (Some W) me m) with (f := snd W) as (c & E & Q); [exact HC|exact HB|unfold row_factor; fold a; now rewrite WN, Z.eqb_refl|].
  exists W, c, (fun y => snd W (from_north w (f_ny a) y)). split; [exact EW|]. split; [exact E|]. split; [exact Q|]. intros y Hy. rewrite <- north. pose proof (flip_range (flip_y w) _ _ Hy) as FR.
  assert (Hy' : (0 <= f_ny a - 1 - y < f_ny a)%Z) by lia. exists (d_yoff d + flipped (flip_y w) (f_ny a) (f_ny a - 1 - y))%Z. pose proof (flip_range (flip_y w) _ _ Hy') as FR'.
  destruct (fit_pads P w _ _ tol T8 HS d FT ND) as [Q1 Q2]. split; [lia|]. split; [now apply (grid_close P w (f_ny a) (f_nx a) tol)|]. rewrite WV by exact FR. do 3 f_equal. unfold flipped. destruct (flip_y w); lia.
Qed.
Print Assumptions C112_quad_weights_refuted.
(* whereas the order is that of the rows of the map if declination increases with the row *)
Theorem C112_quad_weights_partial : forall gw P w ny nx tol d, on_sky P w ny nx -> tol <= tol0 -> plate_carree P ->
  mi_ducc (analyse_geometry P w ny nx tol) = Some d -> d_name d <> DH -> 0 < Q2R (cdelt_y w) ->
  exists wt, quad_weights gw P w ny nx tol = Some (ny, wt) /\ forall y, (0 <= y < ny)%Z -> ring_weight gw P w tol (d_name d) (d_ny d) (d_nx d) y (wt y).
Proof.
  intros gw P w ny nx tol d HS HT PC ED ND HP. assert (T8 : tol <= / 8) by (unfold tol0 in HT; lra).
  destruct (grid_rows gw P w ny nx tol d (fun _ => 0) T8 HS ED ND) as (f & _ & _ & ((n & wt) & EW & WN & WV) & FT). cbn [fst snd] in WN, WV. subst n. exists wt. split; [exact EW|]. intros y Hy.
  pose proof (flip_range (flip_y w) _ _ Hy) as FR. exists (d_yoff d + flipped (flip_y w) ny y)%Z.
  destruct (fit_pads P w _ _ tol T8 HS d FT ND) as [Q1 Q2]. split; [lia|]. split; [now apply (grid_close P w ny nx tol)|]. rewrite WV by exact Hy. rewrite north. unfold from_north. destruct (Rlt_dec _ _); [reflexivity|contradiction].
Qed.
Print Assumptions C112_quad_weights_partial.

(* The general method takes the area of every pixel that is on the sky. *)
Theorem C112_general : forall {A} (dot : A -> A -> R) B gw smul an P zero flat tol lmax area W (m : fmap A), let a := fm_arr m in let w := fm_wcs m in
  supported P w (f_ny a) (f_nx a) flat tol Mgeneral -> bilinear dot smul zero ->
  exists c, map2alm dot B gw smul an P zero flat tol lmax area W Mgeneral m = Some c /\ quadrature dot B P w area 0 0 a c.
Proof.
  intros A dot B gw smul an P zero flat tol lmax area W m a w (S1 & S2 & S3 & S4) (Z1 & Z2). apply (general_weights dot B smul zero Z1 Z2 P w (f_ny a) (f_nx a)); try assumption; try lia. now repeat split.
Qed.
Print Assumptions C112_general.

(* There and back, where the method is 2d by itself: if ducc's analysis recovers what it promises, map2alm gives the coefficients of
   the map that alm2map made. *)
Theorem C112_round_trip : forall {A} (dot : A -> A -> R) B gw smul an F coef L P zero flat tol lmax area W me (m0 : fmap A) d, let w := fm_wcs m0 in let ny := f_ny (fm_arr m0) in let nx := f_nx (fm_arr m0) in
  tol <= tol0 -> on_sky P w ny nx -> get_method Auto (analyse_geometry P w ny nx tol) = M2d -> (me = Auto \/ me = M2d) ->
  mi_ducc (analyse_geometry P w ny nx tol) = Some d -> recovers an F coef L ->
  (L <= lmax)%Z -> (L <= grid_lmax (d_name d) ny)%Z -> (2 * Z.min lmax (grid_lmax (d_name d) ny) < nx)%Z ->
  exists r c, alm2map P (fun v => v) F zero flat tol me m0 = Some r /\ map2alm dot B gw smul an P zero flat tol lmax area W me (FM r w) = Some c /\ forall k, c k = coef k.
Proof.
  intros A dot B gw smul an F coef L P zero flat tol lmax area W me m0 d w ny nx Ht HS HM Hme ED HR L1 L2 L3.
  assert (HC : mi_case (analyse_geometry P w ny nx tol) = C2d) by (unfold get_method in HM; destruct (mi_case _); congruence).
  destruct (round_trip_2d an F coef L P w ny nx tol zero lmax m0 Ht HS HC) with (d := d) as (r & c & E1 & E2 & E3); try assumption; [now repeat split|].
  assert (EM : get_method me (analyse_geometry P w ny nx tol) = M2d) by (destruct Hme as [-> | ->]; [exact HM|reflexivity]).
  assert (HR2 : f_ny r = ny /\ f_nx r = nx).
  { unfold alm2map_2d in E1. fold w ny nx in E1. destruct (mi_ypad _). destruct (mi_xpad _). destruct (map2buffer _ _ _ _ _ _ _ _ _); [|discriminate]. cbn [bind] in E1. destruct (alm2map_raw_2d _ _ _ _); [|discriminate]. cbn [bind] in E1.
    match type of E1 with (if ?b then _ else _) = _ => destruct b eqn:EB; [|discriminate] end. apply Some_inj in E1. subst r. apply andb_prop in EB as [B1 B2]. apply Z.eqb_eq in B1, B2. now split. }
  destruct HR2 as [R1 R2]. exists r, c. unfold alm2map, map2alm. cbn [fm_arr fm_wcs]. fold w ny nx. rewrite R1, R2, EM. auto.
Qed.
Print Assumptions C112_round_trip.

(* A map with a row on the north pole and the south pole one row past its end is taken for DH, where the offset is wrong: error. *)
Definition w5 : wcs := Wcs 0 1 90 0 2 (-90).
Theorem C112_dh_refuted : forall {A} (dot : A -> A -> R) B gw smul an zero flat lmax area v,
  on_sky car w5 2 4 /\ row_dec car w5 0 = PI / 2 /\ row_dec car w5 1 = 0 /\ goes_around w5 tol0 /\
  map2alm dot B gw smul an car zero flat tol0 lmax area None Auto (FM (FA 2 4 v) w5 : fmap A) = None.
Proof.
  intros A dot B gw smul an zero flat lmax area v. pose proof tol0_pos as T. pose proof PI_RGT_0 as Hpi. assert (q2 : Q2R 2 = 2) by (unfold Q2R; cbn; field).
  split. { unfold on_sky, w5. cbn [cdelt_y cdelt_x]. rewrite q90, qm90. rewrite (Rabs_right 90) by lra. rewrite (Rabs_left (-90)) by lra. repeat split; try lia; try lra.
    intros y Hy. rewrite sky_y_R. unfold nat_y. cbn [crval_y cdelt_y crpix_y pj_pol car]. rewrite q0, qm90, q2. assert (H : (y = 0 \/ y = 1)%Z) by lia. destruct H as [-> | ->]; apply Rabs_le; lra. }
  split. { unfold row_dec. rewrite sky_y_R. unfold nat_y, w5, car, degree. cbn [crval_y cdelt_y crpix_y pj_lat]. rewrite q0, qm90, q2. field. }
  split. { unfold row_dec. rewrite sky_y_R. unfold nat_y, w5, car, degree. cbn [crval_y cdelt_y crpix_y pj_lat]. rewrite q0, qm90, q2. field. }
  split. { exists 4%Z. unfold w5. cbn [cdelt_x]. rewrite q90, (Rabs_right 90) by lra. replace (360 / 90 - 4) with 0 by lra. now rewrite Rabs_R0. }
  assert (OW5 : ordered w5) by (unfold ordered, w5; cbn [cdelt_y cdelt_x]; rewrite q90, qm90; lra).
  destruct (ordered_flips w5 OW5) as [F1' F2'].
  set (ww := flip_wcs w5 2 4 false false). assert (SW : same_wcs ww w5) by (apply flip_none; lia).
  assert (OW : ordered ww). { destruct SW as (_ & _ & E3 & E4 & _). unfold ordered. rewrite E3, E4. exact OW5. }
  assert (CX : Q2R (cdelt_x ww) = 90). { destruct SW as (_ & _ & _ & E4 & _). rewrite E4. apply q90. }
  assert (P1 : pole_row car ww 1 = 0). { rewrite (same_pole car ww w5 1 SW). unfold pole_row, w5, car. cbn [pj_pol crval_y cdelt_y crpix_y]. rewrite q0, qm90, q2. lra. }
  assert (P2 : pole_row car ww (-1) = 2). { rewrite (same_pole car ww w5 (-1) SW). unfold pole_row, w5, car. cbn [pj_pol crval_y cdelt_y crpix_y]. rewrite q0, qm90, q2. lra. }
  assert (T8 : tol0 <= / 8) by (unfold tol0; lra).
  assert (Hg : forall v off n, v - off = IZR n -> hasoff tol0 v off = true). { intros u off n E. apply (hasoff_intro _ _ _ n); [lra|]. rewrite E, Rminus_diag_eq, Rabs_R0 by reflexivity. exact T. }
  assert (Hn : forall u n, u = IZR n -> nint u = n). { intros u n ->. apply nint_near. rewrite Rminus_diag_eq, Rabs_R0 by reflexivity. lra. }
  assert (E : get_ducc_geo car ww 2 4 tol0 = Some (Ducc DH 4 2 (-1) 0)).
  { rewrite get_ducc_unfold by (try exact OW; lia). cbv zeta. rewrite CX, P1, P2. rewrite (Hg (360 / 90) 0 4%Z), (Hg 0 0 0%Z), (Hg 2 0 2%Z) by lra. cbn [negb andb].
    replace (near tol0 0 (-1)) with false by (symmetry; unfold near, rlt; destruct (Rlt_dec _ _) as [H|]; [rewrite Rabs_right in H by lra; unfold tol0 in H; lra|reflexivity]). cbn [andb].
    replace (near tol0 0 0) with true by (symmetry; unfold near; apply rlt_true; rewrite Rminus_diag_eq, Rabs_R0 by reflexivity; lra). replace (near tol0 2 2) with true by (symmetry; unfold near; apply rlt_true; rewrite Rminus_diag_eq, Rabs_R0 by reflexivity; lra). cbn [andb].
    rewrite (Hn (360 / 90) 4%Z) by lra. rewrite (Hn (2 - 0 + 1 - 1 - 0) 2%Z) by lra. rewrite (Hn (- 0 - 1) (-1)%Z) by lra. reflexivity. }
  assert (AG : exists ph, analyse_geometry car w5 2 4 tol0 = Minfo Ccyl false false (Some (Ducc DH 4 2 (-1) 0)) (-1, 1)%Z (0, 0)%Z ph).
  { eexists. unfold analyse_geometry. rewrite F1', F2'. fold ww. change (upright car w5) with true. rewrite E.
    replace (hasoff tol0 (360 / Rabs (Q2R (cdelt_x w5))) 0) with true. 2: { symmetry. apply (Hg _ _ 4%Z). unfold w5. cbn [cdelt_x]. rewrite q90, (Rabs_right 90) by lra. lra. }
    cbn [negb orb d_ny d_nx d_yoff Z.eqb Pos.eqb andb]. replace (rlt (Rabs (-1)) tol0) with false by (symmetry; unfold rlt; destruct (Rlt_dec _ _) as [H|]; [rewrite Rabs_left in H by lra; unfold tol0 in H; lra|reflexivity]).
    rewrite CX, (Hn (360 / 90) 4%Z) by lra. cbn. reflexivity. }
  destruct AG as (ph & AG). unfold map2alm. cbn [fm_arr fm_wcs f_ny f_nx]. rewrite AG. cbn [get_method mi_case]. unfold map2alm_cyl. cbn [fm_arr fm_wcs f_ny f_nx]. rewrite AG. cbn [mi_xpad mi_fy mi_fx].
  destruct (C49_buffer (FM (FA 2 4 v) w5) false false 0 0 0 0 zero) as (buf & EB & BY & _); try (cbn; lia). rewrite EB. cbn [bind]. cbn [fm_arr f_ny] in BY. rewrite BY. reflexivity.
Qed.
Print Assumptions C112_dh_refuted.

(* ---- examples ---- *)
(* rows at 60 and 20 degrees, which no grid has, and at 20 and 60 *)
Definition w6 : wcs := Wcs 0 1 90 0 (5 # 2) (-40).
Definition w6u : wcs := Wcs 0 1 90 0 (1 # 2) 40.
Lemma no_grid v : ordered v -> Q2R (cdelt_x v) = 90 -> pole_row car v 1 = - (3 / 4) -> get_ducc_geo car v 2 4 tol0 = None.
Proof.
  intros OV CX P1. assert (T : tol0 < / 8) by (unfold tol0; lra). rewrite get_ducc_unfold by (try exact OV; lia). cbv zeta. rewrite CX, P1.
  assert (NH : forall off, off = 0 \/ off = / 2 -> hasoff tol0 (- (3 / 4)) off = false).
  { intros off Ho. destruct (hasoff tol0 (- (3 / 4)) off) eqn:E; [|reflexivity]. apply hasoff_true in E as (n & E & _). apply Rabs_lt_both in E.
    exfalso. destruct Ho; subst off; [assert (-1 < n < 0)%Z by (split; apply lt_IZR; lra)|assert (-2 < n < -1)%Z by (split; apply lt_IZR; lra)]; lia. }
  rewrite !NH by auto. cbn [andb]. destruct (negb _); reflexivity.
Qed.
Example C112_ex_area : (cylindrical car w6 2 4 tol0 Auto /\ mi_ducc (analyse_geometry car w6 2 4 tol0) = None /\ Q2R (cdelt_y w6) < 0) /\ (cylindrical car w6u 2 4 tol0 Auto /\ mi_ducc (analyse_geometry car w6u 2 4 tol0) = None /\ 0 < Q2R (cdelt_y w6u)).
Proof.
  assert (T : 0 < tol0 < / 8) by (unfold tol0; lra). assert (q40 : Q2R 40 = 40) by (unfold Q2R; cbn; field). assert (qm40 : Q2R (-40) = -40) by (unfold Q2R; cbn; field).
  assert (q52 : Q2R (5 # 2) = 5 / 2) by (unfold Q2R; cbn; field). assert (q12 : Q2R (1 # 2) = 1 / 2) by (unfold Q2R; cbn; field).
  assert (A6 : forall v, cdelt_x v = 90%Q -> goes_around v tol0). { intros v E. exists 4%Z. rewrite E, q90, (Rabs_right 90) by lra. replace (360 / 90 - 4) with 0 by lra. rewrite Rabs_R0. lra. }
  assert (AG : forall v, cdelt_x v = 90%Q -> crval_y v = 0%Q -> get_ducc_geo car (flip_wcs v 2 4 (flip_y v) (flip_x v)) 2 4 tol0 = None -> mi_ducc (analyse_geometry car v 2 4 tol0) = None /\ get_method Auto (analyse_geometry car v 2 4 tol0) = Mcyl).
  { intros v E1 E2 E3. assert (UP : upright car v = true) by (unfold upright; rewrite E2; reflexivity). assert (HD : hasoff tol0 (360 / Rabs (Q2R (cdelt_x v))) 0 = true) by (apply goes; [lra|]; now apply A6).
    pose proof (case_divides car v 2 4 tol0 UP HD) as NG. unfold analyse_geometry in *. rewrite UP, HD in *. cbn [negb orb] in *. rewrite E3 in *. destruct (_ =? _)%Z; split; reflexivity. }
  assert (O6 : on_sky car w6 2 4 /\ on_sky car w6u 2 4).
  { unfold on_sky, w6, w6u. cbn [cdelt_y cdelt_x]. rewrite q90, q40, qm40. rewrite (Rabs_right 90), (Rabs_right 40) by lra. rewrite (Rabs_left (-40)) by lra.
    repeat split; try lia; try lra; intros y Hy; rewrite sky_y_R; unfold nat_y; cbn [crval_y cdelt_y crpix_y pj_pol car]; rewrite q0; rewrite ?q40, ?qm40, ?q52, ?q12; assert (H : (y = 0 \/ y = 1)%Z) by lia; destruct H as [-> | ->]; apply Rabs_le; lra. }
  assert (G6 : get_ducc_geo car (flip_wcs w6 2 4 (flip_y w6) (flip_x w6)) 2 4 tol0 = None).
  { replace (flip_y w6) with false by (symmetry; unfold flip_y, rlt, w6; cbn [cdelt_y]; rewrite qm40; destruct (Rlt_dec _ _); [lra|reflexivity]).
    replace (flip_x w6) with false by (symmetry; unfold flip_x, rlt, w6; cbn [cdelt_x]; rewrite q90; destruct (Rlt_dec _ _); [lra|reflexivity]).
    set (v := flip_wcs w6 2 4 false false). vm_compute in v. subst v. apply no_grid; [unfold ordered; cbn [cdelt_y cdelt_x]; unfold Q2R; cbn; lra|unfold Q2R; cbn; lra|unfold pole_row, Q2R; cbn; lra]. }
  assert (G6u : get_ducc_geo car (flip_wcs w6u 2 4 (flip_y w6u) (flip_x w6u)) 2 4 tol0 = None).
  { replace (flip_y w6u) with true by (symmetry; unfold flip_y, w6u; cbn [cdelt_y]; rewrite q40; apply rlt_true; lra).
    replace (flip_x w6u) with false by (symmetry; unfold flip_x, rlt, w6u; cbn [cdelt_x]; rewrite q90; destruct (Rlt_dec _ _); [lra|reflexivity]).
    set (v := flip_wcs w6u 2 4 true false). vm_compute in v. subst v. apply no_grid; [unfold ordered; cbn [cdelt_y cdelt_x]; unfold Q2R; cbn; lra|unfold Q2R; cbn; lra|unfold pole_row, Q2R; cbn; lra]. }
  destruct (AG w6 eq_refl eq_refl G6) as [N1 M1]. destruct (AG w6u eq_refl eq_refl G6u) as [N2 M2]. destruct O6 as [O6 O6u].
  split; (split; [split; [assumption|]; split; [reflexivity|]; split; [lra|]; split; [now apply A6|assumption]|split; [assumption|cbn [cdelt_y w6 w6u]; lra]]).
Qed.
Example C112_ex : bilinear Rmult Rmult 0 /\ cylindrical car w4 2 4 tol0 Mcyl /\ get_method Auto (analyse_geometry car w4 2 4 tol0) = M2d /\
  (exists d, mi_ducc (analyse_geometry car w4 2 4 tol0) = Some d /\ d_name d = F1 /\ grid_lmax (d_name d) 2 = 1%Z /\ (2 * Z.min 5 (grid_lmax (d_name d) 2) < 4)%Z) /\
  supported (Proj false (fun d => d) 0 (fun y x => if (x =? 0)%Z then None else Some (0, IZR x))) w4 2 4 false tol0 Mgeneral.
Proof.
  destruct C110_ex as (S1 & S2 & S3). destruct w4_2d as (d & ED & EN). pose proof tol0_pos as T.
  split; [split; intros; ring|]. split; [split; [now apply w4_sky|]; split; [reflexivity|]; split; [lra|]; split; [now apply w4_around|reflexivity]|].
  split; [now rewrite ED|]. split; [|exact S3]. exists d. rewrite EN. split; [now rewrite ED|]. now repeat split.
Qed.
