(* C110, C111: alm2map and its adjoint. *)
From Coq Require Import Reals QArith Qreals Lra.
From Verif Require Import Base SliceSpec SliceModel ArrModel PixModel RangeLemmas ShtSpec ShtModel ShtLemmas ShtProps TrfSpec TrfModel TrfLemmas TrfLemmas2 TrfLemmas3 TrfLemmas4 TrfLemmas5.
Ltac Zify.zify_post_hook ::= idtac.
Open Scope R_scope.

(* When a method can be used. Maps of 1, 1001, 2001, ... rows are excluded where the general method is used (see C48), and so
   are maps of two axes with pixels off the sky. Without being told, alm2map chooses the method itself; what it chooses is
   right for plate carree maps only. Method 2d wants rows of one of ducc's grids; DH is never right. *)
Definition supported (P : proj) (w : wcs) (ny nx : Z) (flat : bool) (tol : R) (me : method) : Prop :=
  match me with
  | Auto => plate_carree P /\ on_sky P w ny nx /\ upright P w = true /\ tol <= tol0 /\ (goes_around w tol \/ ((ny - 1) mod 1000 <> 0)%Z)
  | M2d => plate_carree P /\ on_sky P w ny nx /\ tol <= tol0 /\ exists d, mi_ducc (analyse_geometry P w ny nx tol) = Some d /\ d_name d <> DH
  | Mcyl => on_sky P w ny nx /\ upright P w = true /\ tol <= tol0 /\ goes_around w tol
  | Mgeneral => (1 <= ny)%Z /\ (1 <= nx)%Z /\ ((ny - 1) mod 1000 <> 0)%Z /\ (flat = false \/ forall y x, (0 <= y < ny)%Z -> (0 <= x < nx)%Z -> sky_pos P w y x <> None)
  | Mother => False
  end.
(* how far the places may be off: the method 2d, and 2d or cyl in the automatic choice, within tol of a pixel *)
Definition off_y (w : wcs) (tol : R) (me : method) : R := match me with Auto | M2d => tol * pix_height w | _ => 0 end.
Definition off_x (w : wcs) (tol : R) (me : method) : R := match me with Mgeneral => 0 | _ => tol * pix_width w end.

Lemma goes w tol : tol <= / 8 -> goes_around w tol <-> hasoff tol (360 / Rabs (Q2R (cdelt_x w))) 0 = true.
Proof.
  intros T. split.
  - intros (n & H). apply (hasoff_intro _ _ _ n); [lra|]. now rewrite Rminus_0_r.
  - intros H. apply hasoff_true in H as (n & H & _). rewrite Rminus_0_r in H. now exists n.
Qed.
Lemma supported_works {A} P w ny nx flat tol me (zero : A) : 0 <= tol -> supported P w ny nx flat tol me ->
  works P w ny nx zero (off_y w tol me) (off_x w tol me) (fun fx_ F m => alm2map P fx_ F zero flat tol me m) (fun dot B m => alm2map_adjoint dot B P zero flat tol me m).
Proof.
  intros T0 H.
  assert (Sw : forall me', get_method me (analyse_geometry P w ny nx tol) = me' -> forall dy dx,
    works P w ny nx zero dy dx (fun fx_ F m => match me' with M2d => alm2map_2d P fx_ F zero tol m | Mcyl => alm2map_cyl P fx_ F zero tol m | Mgeneral => alm2map_general P fx_ F flat 1000 m | _ => None end)
      (fun dot B m => match me' with M2d => adjoint_2d dot B P zero tol m | Mcyl => adjoint_cyl dot B P zero tol m | Mgeneral => adjoint_general dot B P flat 1000 m | _ => None end) ->
    works P w ny nx zero dy dx (fun fx_ F m => alm2map P fx_ F zero flat tol me m) (fun dot B m => alm2map_adjoint dot B P zero flat tol me m)).
  { intros me' E dy dx (loc & L & S1 & S2). exists loc. split; [exact L|]. split.
    - intros fx_ F m G. unfold alm2map. destruct G as (G1 & G2 & G3). rewrite G1, G2, G3, E. apply S1. now repeat split.
    - intros dot B m G HZ. unfold alm2map_adjoint. destruct G as (G1 & G2 & G3). rewrite G1, G2, G3, E. apply S2; [now repeat split|exact HZ]. }
  pose proof PI_RGT_0 as Hpi. assert (Hdg : 0 <= degree) by (unfold degree; lra).
  assert (Hh : 0 <= tol * pix_height w) by (apply Rmult_le_pos; [exact T0|]; apply Rmult_le_pos; [apply Rabs_pos|exact Hdg]).
  assert (Hw : 0 <= tol * pix_width w) by (apply Rmult_le_pos; [exact T0|]; apply Rmult_le_pos; [apply Rabs_pos|exact Hdg]).
  destruct me; cbn [supported off_y off_x] in *.
  - destruct H as (PC & HS & HU & T & HG). assert (T8 : tol <= / 8) by (unfold tol0 in T; lra).
    destruct (hasoff tol (360 / Rabs (Q2R (cdelt_x w))) 0) eqn:HD.
    + pose proof (case_divides P w ny nx tol HU HD) as NG. destruct (mi_case (analyse_geometry P w ny nx tol)) eqn:EC; try congruence.
      * apply (Sw M2d); [unfold get_method; now rewrite EC|]. destruct (mi_2d_ducc P w ny nx tol EC) as (d & ED). apply works_2d; try assumption. exists d. split; [exact ED|]. now apply (not_dh P w ny nx tol).
      * apply (Sw Mcyl); [unfold get_method; now rewrite EC|]. apply (works_weaken P w ny nx zero 0 (tol * pix_width w)); [exact Hh|lra|]. apply works_cyl; try assumption. congruence.
      * apply (Sw Mcyl); [unfold get_method; now rewrite EC|]. apply (works_weaken P w ny nx zero 0 (tol * pix_width w)); [exact Hh|lra|]. apply works_cyl; try assumption. congruence.
    + destruct HG as [HG|HG]; [apply goes in HG; [congruence|exact T8]|].
      assert (EC := case_not P w ny nx tol (or_intror HD)). apply (Sw Mgeneral); [unfold get_method; now rewrite EC|].
      apply (works_weaken P w ny nx zero 0 0); [exact Hh|exact Hw|]. destruct HS as (S1 & S2 & _). apply works_general; try lia. right. intros y x _ _. unfold sky_pos. rewrite HU. discriminate.
  - destruct H as (PC & HS & T & HG). apply (Sw M2d); [reflexivity|]. now apply works_2d.
  - destruct H as (HS & HU & T & HG). assert (T8 : tol <= / 8) by (unfold tol0 in T; lra). apply (Sw Mcyl); [reflexivity|]. apply works_cyl; try assumption. apply case_divides; [exact HU|]. now apply goes.
  - destruct H as (S1 & S2 & S3 & S4). apply (Sw Mgeneral); [reflexivity|]. apply works_general; (assumption || lia).
  - contradiction.
Qed.

(* C110: alm2map gives every pixel the value of the field at the pixel's place on the sky. *)
Theorem C110_alm2map_partial : forall {A} P (fix_ : A -> A) F zero flat tol me (m : fmap A), let a := fm_arr m in let w := fm_wcs m in
  0 <= tol -> supported P w (f_ny a) (f_nx a) flat tol me ->
  exists r, alm2map P fix_ F zero flat tol me m = Some r /\ evaluates P w (fun t p => fix_ (F t p)) (off_y w tol me) (off_x w tol me) a r.
Proof.
  intros A P fix_ F zero flat tol me m a w T H. destruct (supported_works P w _ _ flat tol me zero T H) as (loc & L & S & _).
  destruct (S fix_ F m) as (r & E & R1 & R2 & R3); [now repeat split|]. exists r. split; [exact E|]. split; [exact R1|]. split; [exact R2|]. intros y x Hy Hx. specialize (L y x Hy Hx). rewrite (R3 y x Hy Hx).
  destruct (sky_pos P w y x) as [q|]; [|now rewrite L]. destruct L as (t & p & -> & C). eauto.
Qed.
Print Assumptions C110_alm2map_partial.

(* C111: the scalar product of any map with the transform of a field is that of the adjoint of the map with the coefficients. *)
Theorem C111_adjoint_partial : forall {A} (dot : A -> A -> R) B ks coef F P zero flat tol me (m m0 : fmap A), let a := fm_arr m in let w := fm_wcs m in
  0 <= tol -> supported P w (f_ny a) (f_nx a) flat tol me -> fm_wcs m0 = w -> f_ny (fm_arr m0) = f_ny a -> f_nx (fm_arr m0) = f_nx a ->
  (forall b, dot zero b = 0) -> field_of dot B ks coef F ->
  exists r c, alm2map P (fun v => v) F zero flat tol me m0 = Some r /\ alm2map_adjoint dot B P zero flat tol me m = Some c /\
    map_dot dot P w a r = total (map (fun k => coef k * c k) ks).
Proof.
  intros A dot B ks coef F P zero flat tol me m m0 a w T H W0 Y0 X0 HZ HF. destruct (supported_works P w _ _ flat tol me zero T H) as (loc & L & S & J).
  destruct (S (fun v => v) F m0) as (r & E & R1 & R2 & R3); [now repeat split|]. destruct (J dot B m) as (c & E2 & EC); [now repeat split|exact HZ|]. exists r, c. split; [exact E|]. split; [exact E2|].
  rewrite (total_ext (fun k => coef k * c k) (fun k => total (map (fun q => coef k * match loc (fst q) (snd q) with Some (t, p) => dot (f_at a (fst q) (snd q)) (B k t p) | None => 0 end) (pixels (f_ny a) (f_nx a)))))
    by (intros k _; rewrite EC, total_scale; reflexivity).
  rewrite <- (total_swap (fun q k => coef k * match loc (fst q) (snd q) with Some (t, p) => dot (f_at a (fst q) (snd q)) (B k t p) | None => 0 end)).
  unfold map_dot. fold a. assert (IN : forall q, In q (pixels (f_ny a) (f_nx a)) -> (0 <= fst q < f_ny a)%Z /\ (0 <= snd q < f_nx a)%Z) by (intros q; apply in_pixels).
  revert IN. generalize (pixels (f_ny a) (f_nx a)) as l. induction l as [|q l IH]; intros IN; [reflexivity|]. destruct (IN q (or_introl eq_refl)) as [I1 I2].
  cbn [filter map]. specialize (L _ _ I1 I2). specialize (R3 _ _ I1 I2). change (total (?x :: ?l)) with (x + total l).
  destruct (sky_pos P w (fst q) (snd q)) as [q'|].
  - destruct L as (t & p & EL & _). rewrite EL in *. cbn [map]. change (total (?x :: ?l)) with (x + total l). rewrite R3, HF, IH; [reflexivity|]. intros z Hz. apply IN. now right.
  - rewrite IH by (intros z Hz; apply IN; now right). rewrite L. rewrite (total_zero _ ks) by (intros k _; apply Rmult_0_r). ring.
Qed.
Print Assumptions C111_adjoint_partial.

(* Derivatives: the sign of the first component is changed in the map after the transform, in the adjoint as well, where
   the sum has been taken by then. So what the adjoint belongs to is the transform without the change of sign, *)
Theorem C111_derivatives : forall {A} (dot : A -> A -> R) B ks coef F P (fix_ : A -> A) zero flat tol me (m m0 : fmap A), let a := fm_arr m in let w := fm_wcs m in
  0 <= tol -> supported P w (f_ny a) (f_nx a) flat tol me -> fm_wcs m0 = w -> f_ny (fm_arr m0) = f_ny a -> f_nx (fm_arr m0) = f_nx a ->
  (forall b, dot zero b = 0) -> field_of dot B ks coef F ->
  exists r c, alm2map P fix_ F zero flat tol me m0 = Some r /\ alm2map_adjoint dot B P zero flat tol me m = Some c /\
    exists r0, map_dot dot P w a r0 = total (map (fun k => coef k * c k) ks) /\
      forall y x, (0 <= y < f_ny a)%Z -> (0 <= x < f_nx a)%Z -> sky_pos P w y x <> None -> f_at r y x = fix_ (f_at r0 y x).
Proof.
  intros A dot B ks coef F P fix_ zero flat tol me m m0 a w T H W0 Y0 X0 HZ HF.
  destruct (C111_adjoint_partial dot B ks coef F P zero flat tol me m m0 T H W0 Y0 X0 HZ HF) as (r0 & c & E0 & E2 & E3).
  destruct (supported_works P w _ _ flat tol me zero T H) as (loc & L & S & J).
  destruct (S fix_ F m0) as (r & E & R1 & R2 & R3); [now repeat split|]. destruct (S (fun v => v) F m0) as (r0' & E' & _ & _ & R3'); [now repeat split|].
  assert (r0' = r0) by congruence. subst r0'. exists r, c. split; [exact E|]. split; [exact E2|]. exists r0. split; [exact E3|]. intros y x Hy Hx HN. rewrite (R3 y x Hy Hx), (R3' y x Hy Hx). specialize (L y x Hy Hx).
  destruct (sky_pos P w y x) as [q|]; [|congruence]. destruct L as (t & p & -> & _). reflexivity.
Qed.
Print Assumptions C111_derivatives.
(* and for a map of derivatives along declination alone it is wrong by the sign. *)
Theorem C111_derivatives_refuted : forall ks coef B F P flat tol me (m m0 : fmap (R * R)), let a := fm_arr m in let w := fm_wcs m in
  let dot := fun u v : R * R => fst u * fst v + snd u * snd v in let flip_dec := fun v : R * R => (- fst v, snd v) in
  0 <= tol -> supported P w (f_ny a) (f_nx a) flat tol me -> fm_wcs m0 = w -> f_ny (fm_arr m0) = f_ny a -> f_nx (fm_arr m0) = f_nx a ->
  field_of dot B ks coef F -> (forall y x, snd (f_at a y x) = 0) ->
  exists r c, alm2map P flip_dec F (0, 0) flat tol me m0 = Some r /\ alm2map_adjoint dot B P (0, 0) flat tol me m = Some c /\
    map_dot dot P w a r = - total (map (fun k => coef k * c k) ks).
Proof.
  intros ks coef B F P flat tol me m m0 a w dot flip_dec T H W0 Y0 X0 HF HA.
  destruct (C111_derivatives dot B ks coef F P flip_dec (0, 0) flat tol me m m0 T H W0 Y0 X0) as (r & c & E1 & E2 & r0 & E3 & E4); [intros b; unfold dot; cbn; ring|exact HF|].
  exists r, c. split; [exact E1|]. split; [exact E2|]. rewrite <- E3. unfold map_dot. fold a w in E4.
  replace (- total _) with ((-1) * total (map (fun q => dot (f_at a (fst q) (snd q)) (f_at r0 (fst q) (snd q))) (filter (fun q => match sky_pos P w (fst q) (snd q) with Some _ => true | None => false end) (pixels (f_ny a) (f_nx a))))) by (fold a w; ring).
  rewrite <- total_scale. apply total_ext. intros q Hq. apply filter_In in Hq as [Hq1 Hq2]. apply in_pixels in Hq1 as [I1 I2]. rewrite E4 by (try assumption; intros HN; rewrite HN in Hq2; discriminate).
  unfold dot, flip_dec. cbn [fst snd]. rewrite HA. ring.
Qed.
Print Assumptions C111_derivatives_refuted.

(* ---- examples ---- *)
Definition car : proj := Proj true (fun d => d * degree) 90 (fun _ _ => None).
(* the cylindrical equal area projection with lambda = 2/pi: the coordinate is 90 sin dec *)
Definition cea : proj := Proj true (fun d => asin (d / 90)) 90 (fun _ _ => None).
(* 2 rows at +-45, 4 columns *)
Definition w4 : wcs := Wcs 0 1 90 0 (3 # 2) (-90).
Lemma q90 : Q2R 90 = 90. Proof. unfold Q2R. cbn. field. Qed.
Lemma qm90 : Q2R (-90) = -90. Proof. unfold Q2R. cbn. field. Qed.
Lemma q32 : Q2R (3 # 2) = 3 / 2. Proof. unfold Q2R. cbn. field. Qed.
Lemma q0 : Q2R 0 = 0. Proof. unfold Q2R. cbn. field. Qed.
Lemma q1 : Q2R 1 = 1. Proof. unfold Q2R. cbn. field. Qed.
Lemma w4_row P k : (k = 0 \/ k = 1)%Z -> row_dec P w4 k = pj_lat P (if (k =? 0)%Z then 45 else -45).
Proof. intros H. unfold row_dec. rewrite sky_y_R. unfold nat_y, w4. cbn [crval_y cdelt_y crpix_y]. rewrite q0, qm90, q32. destruct H as [-> | ->]; cbn [Z.eqb]; f_equal; cbn; lra. Qed.
Lemma w4_sky P : pj_pol P = 90 -> on_sky P w4 2 4.
Proof.
  intros HP. unfold on_sky, w4. cbn [cdelt_y cdelt_x]. rewrite q90, qm90, HP. rewrite (Rabs_right 90) by lra. rewrite (Rabs_left (-90)) by lra. repeat split; try lia; try lra.
  intros y Hy. rewrite sky_y_R. unfold nat_y. cbn [crval_y cdelt_y crpix_y]. rewrite q0, qm90, q32. assert (H : (y = 0 \/ y = 1)%Z) by lia. destruct H as [-> | ->]; apply Rabs_le; lra.
Qed.
Lemma w4_around tol : 0 < tol -> goes_around w4 tol.
Proof. intros H. exists 4%Z. unfold w4. cbn [cdelt_x]. rewrite q90, (Rabs_right 90) by lra. replace (360 / 90 - 4) with 0 by lra. now rewrite Rabs_R0. Qed.
Lemma tol0_pos : 0 < tol0. Proof. unfold tol0. lra. Qed.

(* what the theorems ask for is met by a map of the whole sky, by half of it, and without a projection by any map of 2 rows *)
Example C110_ex : supported car w4 2 4 true tol0 Auto /\ supported cea w4 2 4 true tol0 Mcyl /\
  supported (Proj false (fun d => d) 0 (fun y x => if (x =? 0)%Z then None else Some (0, IZR x))) w4 2 4 false tol0 Mgeneral.
Proof.
  pose proof tol0_pos as T. split; [|split].
  - split; [now repeat split|]. split; [now apply w4_sky|]. split; [reflexivity|]. split; [lra|]. left. now apply w4_around.
  - split; [now apply w4_sky|]. split; [reflexivity|]. split; [lra|]. now apply w4_around.
  - split; [lia|]. split; [lia|]. split; [cbn; lia|]. now left.
Qed.

Lemma w4_ordered : ordered w4. Proof. unfold ordered, w4. cbn [cdelt_y cdelt_x]. rewrite q90, qm90. lra. Qed.
Lemma w4_2d : exists d, analyse_geometry car w4 2 4 tol0 = Minfo C2d false false (Some d) (0, 0)%Z (0, 0)%Z (mi_phi0 (analyse_geometry car w4 2 4 tol0)) /\ d_name d = F1.
Proof.
  pose proof tol0_pos as T. destruct (ordered_flips w4 w4_ordered) as [F1' F2'].
  set (ww := flip_wcs w4 2 4 false false). assert (SW : same_wcs ww w4) by (apply flip_none; lia).
  assert (OW : ordered ww). { destruct SW as (_ & _ & E3 & E4 & _). unfold ordered. rewrite E3, E4. exact w4_ordered. }
  assert (CX : Q2R (cdelt_x ww) = 90). { destruct SW as (_ & _ & _ & E4 & _). rewrite E4. apply q90. }
  assert (P1 : pole_row car ww 1 = - / 2). { rewrite (same_pole car ww w4 1 SW). unfold pole_row, w4, car. cbn [pj_pol crval_y cdelt_y crpix_y]. rewrite q0, qm90, q32. lra. }
  assert (P2 : pole_row car ww (-1) = 3 / 2). { rewrite (same_pole car ww w4 (-1) SW). unfold pole_row, w4, car. cbn [pj_pol crval_y cdelt_y crpix_y]. rewrite q0, qm90, q32. lra. }
  assert (T8 : tol0 <= / 8) by (unfold tol0; lra).
  assert (Hg : forall v off n, v - off = IZR n -> hasoff tol0 v off = true). { intros v off n E. apply (hasoff_intro _ _ _ n); [lra|]. rewrite E, Rminus_diag_eq, Rabs_R0 by reflexivity. exact T. }
  assert (Hb : forall v off n, v - off = IZR n + / 2 -> hasoff tol0 v off = false). { intros v off n E. apply (hasoff_not _ _ _ n); [lra|]. rewrite E. replace (_ - _) with 0 by ring. rewrite Rabs_R0. exact T. }
  assert (Hn : forall u n, u = IZR n -> nint u = n). { intros u n ->. apply nint_near. rewrite Rminus_diag_eq, Rabs_R0 by reflexivity. lra. }
  assert (E : get_ducc_geo car ww 2 4 tol0 = Some (Ducc F1 4 2 0 1)).
  { rewrite get_ducc_unfold by (try exact OW; lia). cbv zeta. rewrite CX, P1, P2. rewrite (Hg (360 / 90) 0 4%Z) by lra. cbn [negb].
    rewrite (Hb (- / 2) 0 (-1)%Z) by lra. cbn [andb]. rewrite (Hg (- / 2) (/ 2) (-1)%Z), (Hg (3 / 2) (/ 2) 1%Z) by lra. cbn [andb].
    rewrite (Hn (360 / 90) 4%Z) by lra. rewrite (Hn (3 / 2 - - / 2 + 1 - / 2 - / 2) 2%Z) by lra. rewrite (Hn (- - / 2 - / 2) 0%Z) by lra. reflexivity. }
  exists (Ducc F1 4 2 0 1). split; [|reflexivity]. unfold analyse_geometry. rewrite F1', F2'. fold ww. change (upright car w4) with true. rewrite E.
  replace (hasoff tol0 (360 / Rabs (Q2R (cdelt_x w4))) 0) with true. 2: { symmetry. apply (Hg _ _ 4%Z). unfold w4. cbn [cdelt_x]. rewrite q90, (Rabs_right 90) by lra. lra. }
  cbn [negb orb d_ny d_nx d_yoff Z.eqb Pos.eqb andb]. rewrite Rabs_R0. replace (rlt 0 tol0) with true by (symmetry; now apply rlt_true). reflexivity.
Qed.

(* Other cylindrical maps can look like one of ducc's grids, which has equal steps in declination; they are then filled
   with the values at the declinations of the grid: the field that is the colatitude itself, on a cylindrical equal area map
   of the whole sky. *)
Theorem C110_projection_refuted : exists r, alm2map cea (fun v => v) (fun t _ => t) 0 true tol0 Auto (FM (FA 2 4 (fun _ _ => 0)) w4) = Some r /\
  on_sky cea w4 2 4 /\ row_dec cea w4 0 = PI / 6 /\ Rabs (f_at r 0 0 - PI / 4) <= / 100000 /\
  ~ evaluates cea w4 (fun t _ => t) (tol0 * pix_height w4) (tol0 * pix_width w4) (FA 2 4 (fun _ _ => 0)) r.
Proof.
  pose proof tol0_pos as T. pose proof PI_RGT_0 as Hpi. pose proof PI_4 as H4.
  destruct w4_2d as (d & ED & EN).
  destruct (C110_alm2map_partial car (fun v => v) (fun t _ => t) 0 true tol0 Auto (FM (FA 2 4 (fun _ _ => 0)) w4)) as (r & E & R1 & R2 & R3); [lra|apply C110_ex|].
  exists r. assert (ME : get_method Auto (analyse_geometry car w4 2 4 tol0) = M2d) by (now rewrite ED).
  assert (EQ : alm2map cea (fun v => v) (fun t _ : R => t) 0 true tol0 Auto (FM (FA 2 4 (fun _ _ => 0)) w4) = alm2map car (fun v => v) (fun t _ : R => t) 0 true tol0 Auto (FM (FA 2 4 (fun _ _ => 0)) w4)).
  { unfold alm2map. cbn [fm_arr fm_wcs f_ny f_nx]. change (analyse_geometry cea w4 2 4 tol0) with (analyse_geometry car w4 2 4 tol0). rewrite ME. reflexivity. }
  rewrite EQ. split; [exact E|]. split; [now apply w4_sky|].
  assert (RD : row_dec cea w4 0 = PI / 6). { rewrite w4_row by lia. cbn [Z.eqb pj_lat cea]. replace (45 / 90) with (sin (PI / 6)) by (rewrite sin_PI6; lra). apply asin_sin. lra. }
  split; [exact RD|].
  assert (PH : tol0 * pix_height w4 <= / 100000 / 4). { unfold pix_height, w4, degree, tol0. cbn [cdelt_y]. rewrite qm90, (Rabs_left (-90)) by lra. lra. }
  assert (B : Rabs (f_at r 0 0 - PI / 4) <= / 100000).
  { specialize (R3 0%Z 0%Z). cbn [fm_arr fm_wcs f_ny f_nx] in R3. specialize (R3 ltac:(lia) ltac:(lia)). change (sky_pos car w4 0 0) with (Some (row_dec car w4 0, col_ra w4 0)) in R3. cbv beta iota in R3.
    destruct R3 as (t & p & -> & C & _). cbn [fst off_y] in C. rewrite w4_row in C by lia. cbn [Z.eqb pj_lat car] in C. unfold degree in C. replace (PI / 2 - t - 45 * (PI / 180)) with (- (t - PI / 4)) in C by field. rewrite Rabs_Ropp in C. lra. }
  split; [exact B|]. intros (_ & _ & EV). specialize (EV 0%Z 0%Z). cbn [f_ny f_nx] in EV. specialize (EV ltac:(lia) ltac:(lia)). change (sky_pos cea w4 0 0) with (Some (row_dec cea w4 0, col_ra w4 0)) in EV. cbv beta iota in EV.
  destruct EV as (t & p & E1 & C & _). cbn [fst] in C. rewrite RD in C. rewrite E1 in B. apply Rabs_le_both in B, C. assert (PI > 3) by (pose proof PI2_3_2; unfold PI2 in *; lra). lra.
Qed.
Print Assumptions C110_projection_refuted.

(* Outside the claim: the general method on a map of two axes of which a pixel has no place on the sky is an error *)
Theorem C110_masked : forall {A} P (fix_ : A -> A) F zero tol (m : fmap A) y x, let a := fm_arr m in
  ((f_ny a - 1) mod 1000 <> 0)%Z -> (0 <= y < f_ny a)%Z -> (0 <= x < f_nx a)%Z -> sky_pos P (fm_wcs m) y x = None ->
  alm2map P fix_ F zero true tol Mgeneral m = None.
Proof.
  intros A P fix_ F zero tol m y x a HB Hy Hx HN. unfold alm2map, get_method, alm2map_general. fold a. rewrite C48_every_row_partial by (assumption || lia).
  replace (existsb _ (pixels (f_ny a) (f_nx a))) with true; [reflexivity|]. symmetry. apply existsb_exists. exists (y, x). split; [now apply in_pixels|]. cbn [fst snd]. now rewrite HN.
Qed.
Print Assumptions C110_masked.

(* a map of numbers, one coefficient: the field 1 *)
Example C111_ex : field_of Rmult (fun _ _ _ => 1) [0%Z] (fun _ => 5) (fun _ _ => 5) /\ (forall b, 0 * b = 0) /\
  let dot := fun u v : R * R => fst u * fst v + snd u * snd v in field_of dot (fun _ t _ => (sin t, 0)) [0%Z; 1%Z] (fun k => IZR k) (fun t _ => (sin t, 0)).
Proof.
  split; [intros v t p; unfold total; cbn; ring|]. split; [intros; ring|]. intros dot v t p. unfold dot, total. cbn [map fold_right fst snd]. ring.
Qed.
